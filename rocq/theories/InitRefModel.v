(** Model of UnitaryRepresentation.subspaces (unitary_representations.py l.439-449) and of the assignment of band energies at
    k = 0 in TightBindingModel.init_from_ref (tight_binding.py l.51-158). Definitions only. *)
From Coq Require Import List Arith ZArith Reals Bool.
Import ListNotations.
From Verif Require Import SRing FMat CplxR UrepModel SymModel FourierModel.
Local Open Scope nat_scope.

(** ** subspaces *)
(** np.sum(np.abs(U), axis=0) > 1e-7, l.446; the tolerance is an exact comparison *)
Definition cnz (z : cplx) : bool := if Req_EM_T (fst z) 0%R then if Req_EM_T (snd z) 0%R then false else true else true.
Definition occ (U : list (fmat Cs)) (i j : nat) : bool := existsb (fun u => cnz (u i j)) U.
(** the rows of the occupancy table as lists of indices, in the order of the table *)
Definition row_of (n : nat) (o : nat -> nat -> bool) (i : nat) : list nat := filter (o i) (seq 0 n).
Definition nleqb (a b : list nat) : bool := if list_eq_dec Nat.eq_dec a b then true else false.
(** np.unique(table, axis=0), l.447, sorts the rows with False < True from the first column on. For lists of indices: the
    list whose first different index is larger, or that ends first, comes first *)
Fixpoint row_ltb (a b : list nat) : bool :=
  match a, b with
  | [], [] => false
  | [], _ :: _ => true
  | _ :: _, [] => false
  | x :: a', y :: b' => if Nat.eqb x y then row_ltb a' b' else Nat.ltb y x
  end.
Fixpoint ins_row (a : list nat) (l : list (list nat)) : list (list nat) :=
  match l with
  | [] => [a]
  | b :: r => if nleqb a b then l else if row_ltb a b then a :: l else b :: ins_row a r
  end.
Definition uniq_rows (l : list (list nat)) : list (list nat) := fold_right ins_row [] l.
Definition count_row (a : list nat) (l : list (list nat)) : nat := length (filter (nleqb a) l).
(** subspaces, l.446-449: [None] is the AssertionError, else the groups; the counts are the lengths *)
Definition subspaces (n : nat) (U : list (fmat Cs)) : option (list (list nat)) :=
  let rows := map (row_of n (occ U)) (seq 0 n) in
  let groups := uniq_rows rows in
  if forallb (fun g => Nat.eqb (length g) (count_row g rows)) groups &&
     forallb (fun j => Nat.eqb (length (filter (fun g => existsb (Nat.eqb j) g) groups)) 1) (seq 0 n)
  then Some groups else None.

(* ------------------------------------------------------------------ *)
(** ** the assignment of the energies. Energies are integers in units of 1e-5 (np.round(k0_bands, 5), l.68) *)
Definition degen (k0 : list Z) (e : Z) : nat := count_occ Z.eq_dec k0 e.
Definition zmin (l : list Z) : Z := match l with [] => 0%Z | x :: r => fold_right Z.min x r end.
(** l.92-93: all bands start 0.01 below the lowest energy *)
Definition start_value (k0 : list Z) : Z := (zmin k0 - 1000)%Z.
(** the writes model_bands[g] = s, l.113 and l.149, in order *)
Definition write (f : nat -> Z) (w : list nat * Z) : nat -> Z := fun i => if existsb (Nat.eqb i) (fst w) then snd w else f i.
Definition replay (base : Z) (ws : list (list nat * Z)) : nat -> Z := fold_left write ws (fun _ => base).

(** l.107-118: the loop over model_sym_size_i for one energy; [None]: ValueError. The result is the group, the lists after
    [del msym[0]] and model_sym_size_i *)
Fixpoint place (i : nat) (left : Z) (j : nat) (gs : list (list (list nat))) : option (list nat * list (list (list nat)) * nat) :=
  match gs with
  | [] => None                                                                       (* l.119-122 *)
  | g :: gs' =>
    if (left <? Z.of_nat j - Z.of_nat i)%Z then None                                 (* l.108-109 *)
    else match g with
         | x :: r => Some (x, r :: gs', j)                                           (* l.111-114 *)
         | [] => match place i left (S j) gs' with
                 | Some (x, gs'', j') => Some (x, [] :: gs'', j')
                 | None => None
                 end
         end
  end.
(** l.102-122: the loop over the energies with their data_sym_size_i *)
Fixpoint assign (todo : list (nat * Z)) (left : Z) (gs : list (list (list nat))) : option (list (list nat * Z)) :=
  match todo with
  | [] => Some []
  | (i, s) :: r =>
    match place i left 0 gs with
    | None => None
    | Some (x, gs', j) => option_map (cons (x, s)) (assign r (left - Z.max 0 (Z.of_nat j - Z.of_nat i))%Z gs')   (* l.115 *)
    end
  end.
(** l.72-74 and l.102-105: the energies by degeneracy. Energies with a degeneracy larger than dim are in no list *)
Definition todo_list (dim : nat) (k0 unique : list Z) : list (nat * Z) :=
  flat_map (fun i => map (pair i) (filter (fun b => Nat.eqb (degen k0 b) (S i)) unique)) (seq 0 dim).
(** l.80 and l.98-100: the groups by size; [shuffle] is np.random.shuffle *)
Definition groups2 (dim : nat) (shuffle : nat -> list (list nat) -> list (list nat)) (groups : list (list nat)) : list (list (list nat)) :=
  map (fun i => shuffle i (filter (fun g => Nat.eqb (length g) (S i)) groups)) (seq 0 dim).
(** init_from_ref with use_repr_order=False up to l.122: [N] bands of the representation, [unique] is set(k0_bands) in the
    order of its iteration. [None]: AssertionError (l.90) or ValueError *)
Definition match_bands (dim N : nat) (shuffle : nat -> list (list nat) -> list (list nat)) (groups : list (list nat)) (k0 unique : list Z) : option (nat -> Z) :=
  if Nat.ltb (length groups) (length unique) then None
  else option_map (replay (start_value k0))
         (assign (todo_list dim k0 unique) (Z.of_nat N - Z.of_nat (length k0)) (groups2 dim shuffle groups)).

(** use_repr_order=True, l.124-149 *)
(** l.134-149 *)
Fixpoint ordered (k0 : list Z) (last i : nat) (left : Z) (l : list (Z * list nat)) : option (list (list nat * Z)) :=
  match l with
  | [] => Some []
  | (s, g) :: r =>
    let extra := (Z.of_nat (length g) - Z.of_nat (degen k0 s))%Z in
    if Nat.eqb i 0 || Nat.eqb i last then
      if (left <? extra)%Z then None
      else option_map (cons (g, s)) (ordered k0 last (S i) (left - Z.max 0 extra)%Z r)
    else if negb (Nat.eqb (degen k0 s) (length g)) then None
    else option_map (cons (g, s)) (ordered k0 last (S i) left r)
  end.
(** l.128: the groups in the order of their first index; l.129: the energies sorted *)
Definition match_ordered (N : nat) (groups : list (list nat)) (k0 unique : list Z) : option (nat -> Z) :=
  if Nat.ltb (length groups) (length unique) then None
  else let gs := sort_by (fun g => Z.of_nat (hd 0%nat g)) groups in
       let us := sort_by (fun z => z) unique in
       option_map (replay (start_value k0))
         (ordered k0 (Nat.min (length us) (length gs) - 1) 0 (Z.of_nat N - Z.of_nat (length k0)) (combine us gs)).
(** np.diag(model_bands), l.155 *)
Definition diag_mat (b : nat -> Z) : cmat := fun i j => if Nat.eqb i j then (IZR (b i) / 100000, 0)%R else (0, 0)%R.

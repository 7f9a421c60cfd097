(** Model of unitary_representations.py (class UnitaryRepresentation). Definitions only.

    Matrices are [fmat K] (index functions) with the dimension kept in the record; [ueqb d] decides equality
    of two d x d matrices (the code compares norms of differences with 1e-7; exact arithmetic is assumed). *)
From Coq Require Import List Arith ZArith Lia Bool.
Import ListNotations.
From Verif Require Import SRing LMat FMat SymModel.

Section Urep.
Context {K : sring}.
Open Scope sring_scope.
Variable ueqb : nat -> fmat K -> fmat K -> bool.

(** fields U, inv_split and sym, l.20-24; [udim] is [len(self.U[0])], l.31 *)
Record urep := MkUrep { usym : sym; udim : nat; uU : list (fmat K); usplit : nat }.

(** [np.diag([1]*inv_split + [-1]*(N - inv_split))], l.145 *)
Definition inv_mat (split : nat) : fmat K := fun i j =>
  if Nat.eqb i j then (if Nat.ltb i split then 1 else - (1)) else 0.

(** check, l.125-151. The inner scan over the list (l.134-140) sets [found] and rejects on a matrix that differs. *)
Definition check_pair (n d : nat) (prs : list (zmat * fmat K)) (s : zmat) (u : fmat K) : bool :=
  let hits := filter (fun p => zmeqb (fst p) s) prs in
  forallb (fun p => ueqb d (snd p) u) hits && match hits with [] => false | _ => true end.
Definition urep_check (r : urep) : bool :=
  let n := sdim (usym r) in let d := udim r in
  let prs := combine (sops (usym r)) (uU r) in
  forallb (fun p1 => forallb (fun p2 =>
      check_pair n d prs (zmul n (fst p1) (fst p2)) (fmul d (snd p1) (snd p2))) prs) prs &&
  (negb (sinv (usym r)) ||
   forallb (fun u => ueqb d (fmul d (inv_mat (usplit r)) u) (fmul d u (inv_mat (usplit r)))) (uU r)).

(** match_sym, l.90-121. [None] is any of the five ValueErrors. argmin over the distances returns the first exact
    match; a non-zero minimum raises (l.114). *)
Fixpoint match_order (target own : list zmat) : option (list nat) :=
  match target with
  | [] => Some []
  | s :: target' =>
    match find_idx (zmeqb s) own with
    | None => None
    | Some j => match match_order target' own with None => None | Some o => Some (j :: o) end
    end
  end.
Fixpoint nodup_nat (l : list nat) : bool :=
  match l with [] => true | a :: l' => negb (existsb (Nat.eqb a) l') && nodup_nat l' end.
Definition urep_match (r : urep) (g : sym) : option urep :=
  if negb (Nat.eqb (length (sops g)) (length (sops (usym r)))) then None        (* l.101 *)
  else if negb (Nat.eqb (sdim g) (sdim (usym r))) then None                     (* l.103 *)
  else if negb (Bool.eqb (sinv g) (sinv (usym r))) then None                    (* l.105 *)
  else match match_order (sops g) (sops (usym r)) with                          (* l.112-117 *)
       | None => None
       | Some order => if nodup_nat order                                       (* l.118 *)
                       then Some (MkUrep g (udim r) (map (fun j => nth j (uU r) fzero) order) (usplit r))
                       else None
       end.

(** linalg.py l.6-23 [_direct_sum] of two square matrices *)
Definition dsum (d1 : nat) (a b : fmat K) : fmat K := fun i j =>
  if Nat.ltb i d1 && Nat.ltb j d1 then a i j
  else if Nat.leb d1 i && Nat.leb d1 j then b (i - d1)%nat (j - d1)%nat else 0.

(** __add__, l.461-485. The result array is created by __init__ (l.21) as a float array, so the assignment
    [u_repr.U[i] = ...] stores [cast] of the entries: the real part. [None] is a ValueError. *)
Variable cast : K -> K.
Definition fcast (a : fmat K) : fmat K := fun i j => cast (a i j).
Definition urep_add (a b0 : urep) : option urep :=
  match urep_match b0 (usym a) with
  | None => None
  | Some b =>
    let first_b :=
      if Nat.eqb (usplit a) 0 then Some true
      else if Nat.eqb (usplit a) (udim a) then Some false
      else if Nat.eqb (usplit b) 0 then Some false
      else if Nat.eqb (usplit b) (udim b) then Some true
      else None in
    match first_b with
    | None => None
    | Some sw =>
      Some (MkUrep (usym a) (udim a + udim b)
              (map (fun uu => fcast (if sw : bool then dsum (udim b) (snd uu) (fst uu) else dsum (udim a) (fst uu) (snd uu)))
                   (combine (uU a) (uU b)))
              (usplit a + usplit b))
    end
  end.

(** np.kron(u, np.eye(m)) *)
Definition kron_eye (m : nat) (a : fmat K) : fmat K := fun i j =>
  if Nat.eqb (i mod m) (j mod m) then a (i / m)%nat (j / m)%nat else 0.
(** __mul__ with an integer, l.490-497 *)
Definition urep_mul (a : urep) (m : nat) : urep :=
  MkUrep (usym a) (udim a * m) (map (kron_eye m) (uU a)) (usplit a * m).

(* ------------------------------------------------------------------ *)
(** from_generator, l.40-88. The pairs (s, u) of the running lists; a dictionary keeps the first u of every s
    and asserts equality with the later ones. [np.sum((u_existing - u)**2) < 1e-14] is taken as exact equality;
    for complex matrices the squares are not absolute squares (see the note in UrepProps). *)
Inductive ugen := UGen (l : list (zmat * fmat K)) | UAssert | UFuel.
Fixpoint ugen_insert (d : nat) (s : zmat) (u : fmat K) (l : list (zmat * fmat K)) : option (list (zmat * fmat K)) :=
  match l with
  | [] => Some [(s, u)]
  | (s', u') :: l' => if zmeqb s' s then (if ueqb d u' u then Some l else None)
                      else match ugen_insert d s u l' with None => None | Some r => Some ((s', u') :: r) end
  end.
Fixpoint ugen_collect (d : nat) (ps acc : list (zmat * fmat K)) : option (list (zmat * fmat K)) :=
  match ps with
  | [] => Some acc
  | (s, u) :: ps' => match ugen_insert d s u acc with None => None | Some acc' => ugen_collect d ps' acc' end
  end.
(** all products, row by row (reshape of the broadcast product), l.58-61 *)
Definition ugen_products (n d : nat) (l : list (zmat * fmat K)) : list (zmat * fmat K) :=
  map (fun pq => (zmul n (fst (fst pq)) (fst (snd pq)), fmul d (snd (fst pq)) (snd (snd pq)))) (list_prod l l).
(** [for _ in range(1000)]; the loop that runs out of rounds simply continues with the last lists *)
Fixpoint ugen_loop (fuel n d : nat) (l : list (zmat * fmat K)) : ugen :=
  match fuel with
  | O => UFuel
  | S fuel' =>
    match ugen_collect d (ugen_products n d l) [] with
    | None => UAssert                                                            (* l.72 *)
    | Some l' =>
      if Nat.ltb (length l') 1000 then                                           (* l.81 *)
        (if Nat.leb (length l') (length l) then UGen l' else ugen_loop fuel' n d l')   (* l.82 *)
      else UAssert
    end
  end.
Definition urep_generate (n d : nat) (l : list (zmat * fmat K)) : ugen := ugen_loop 1000 n d l.

(** l.85-88: the symmetry object is built from the collected operations by Symmetry.__init__, which may drop or
    double operations, while U is stored as it is. [None] is a failed assertion or a ValueError. *)
Definition urep_from_generator (n d : nat) (l : list (zmat * fmat K)) (inversion negate : bool) : option urep :=
  match urep_generate n d l with
  | UGen l' => match sym_init n (map fst l') inversion false with
               | None => None
               | Some g => Some (MkUrep g d (map snd l') (if negate then 0 else d)%nat)
               end
  | _ => None
  end.

(* ------------------------------------------------------------------ *)
(** symmetrize, l.156-219. [None]: ValueError of the neighbor lookup. *)
(** l.200-208: sign change of the blocks that mix the parities *)
Definition flip_par (k : nat) (p : fmat K) : fmat K := fun i j =>
  if Bool.eqb (Nat.ltb i k) (Nat.ltb j k) then p i j else - p i j.
Definition cut_par (k : nat) (p : fmat K) : fmat K := fun i j =>
  if Bool.eqb (Nat.ltb i k) (Nat.ltb j k) then p i j else 0.
Definition usym_term (r : urep) (ns : list zvec) (H : list (fmat K)) (x : zvec) (su : zmat * fmat K) : option (fmat K) :=
  let n := sdim (usym r) in let d := udim r in
  let x' := zmv n (fst su) x in
  match try_neighbor zveqb (zvneg n) ns x' with
  | None => None
  | Some (j, mirror) =>
    let p := nth j H fzero in
    let p := if sinv (usym r) then
               (if forallb (Z.eqb 0) x' then cut_par (usplit r) p else if mirror : bool then flip_par (usplit r) p else p)
             else p in
    Some (fmul d (fmul d (fadj (snd su)) p) (snd su))
  end.
Fixpoint usym_sum (r : urep) (ns : list zvec) (H : list (fmat K)) (x : zvec) (l : list (zmat * fmat K)) : option (fmat K) :=
  match l with
  | [] => Some fzero
  | su :: l' => match usym_term r ns H x su, usym_sum r ns H x l' with
                | Some p, Some q => Some (fadd p q)
                | _, _ => None
                end
  end.
(** [dv] is 1/len(U) *)
Fixpoint urep_symmetrize_list (dv : K) (r : urep) (all : list zvec) (H : list (fmat K)) (ns : list zvec) : option (list (fmat K)) :=
  match ns with
  | [] => Some []
  | x :: ns' => match usym_sum r all H x (combine (sops (usym r)) (uU r)), urep_symmetrize_list dv r all H ns' with
                | Some p, Some q => Some (fscale dv p :: q)
                | _, _ => None
                end
  end.
Definition urep_symmetrize (dv : K) (r : urep) (H : list (fmat K)) (ns : list zvec) : option (list (fmat K)) :=
  if Nat.leb (length (uU r)) 1 then Some H else urep_symmetrize_list dv r ns H ns.

End Urep.
Arguments urep : clear implicits.

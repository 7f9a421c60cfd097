(** Model of src/tight_binding_redweasel/symmetry.py (point groups, k-point and neighbor
    bookkeeping).  Definitions only; proofs are in [Sym*Proofs.v].

    Simplification used throughout: the symmetry operations and positions are integer
    matrices/vectors (crystal coordinates), for which the tolerance tests of the code
    ([norm(a-b) < 1e-7] etc.) are exact equality. Parts that only need an abstract
    operation type are written for an arbitrary type [T] with boolean equality. *)
From Coq Require Import List Arith ZArith Lia Bool Permutation.
Import ListNotations.
From Verif Require Import SRing LMat.

(* ------------------------------------------------------------------ *)
(** ** Generic helpers *)

(** [np.any(np.linalg.norm(s[None] - S, axis=(1, 2)) < 1e-7)], symmetry.py l.264, 276, 967 *)
Definition memb {T} (eqb : T -> T -> bool) (x : T) (l : list T) : bool := existsb (eqb x) l.

(** first index of an element satisfying [p] *)
Fixpoint find_idx {T} (p : T -> bool) (l : list T) : option nat :=
  match l with
  | [] => None
  | a :: l' => if p a then Some 0 else option_map S (find_idx p l')
  end.

(* ------------------------------------------------------------------ *)
(** ** neighbor_function / try_neighbor_function, symmetry.py l.12-62

    [KDTree.query(r, distance_upper_bound=err)] returns an index of a listed point within
    1e-4 or len(neighbors); on lattice points this is an exact match. If a point is listed
    twice the KDTree may return either; the model returns the first. *)
Definition try_neighbor {T} (eqb : T -> T -> bool) (neg : T -> T) (neighbors : list T) (r : T)
  : option (nat * bool) :=
  match find_idx (eqb r) neighbors with                       (* l.55 *)
  | Some j => Some (j, false)                                 (* l.61, mirror = False *)
  | None =>
    match find_idx (eqb (neg r)) neighbors with               (* l.57 *)
    | Some j => Some (j, true)                                (* l.61, mirror = True *)
    | None => None                                            (* l.60 (None, None) / l.32 ValueError *)
    end
  end.

(* ------------------------------------------------------------------ *)
(** ** Symmetry.from_generator, symmetry.py l.235-283 *)

Inductive gen_result (T : Type) :=
| GenOk (S : list T)      (* the list handed to the constructor in l.283 / l.257 *)
| GenEmpty                (* l.249: G[0] of an empty list raises IndexError *)
| GenDet                  (* l.259 ValueError *)
| GenSize.                (* l.280 ValueError *)
Arguments GenOk {T}. Arguments GenEmpty {T}. Arguments GenDet {T}. Arguments GenSize {T}.

Section FromGenerator.
Context {T : Type} (eqb : T -> T -> bool) (mul : T -> T -> T) (one : T) (detok : T -> bool).

(** l.276-277 (and l.264-265): append if not yet present *)
Definition add_new (S : list T) (s : T) : list T := if memb eqb s S then S else S ++ [s].

(** l.271-273: all products S_new[a] @ S_new[b], first index slowest *)
Definition products (S : list T) : list T := flat_map (fun a => map (fun b => mul a b) S) S.

(** l.275-277: one round of the loop *)
Definition gen_round (S : list T) : list T := fold_left add_new (products S) S.

(** l.269-282: [for _ in range(200)]; when the range is exhausted the loop just ends *)
Fixpoint gen_loop (fuel : nat) (S : list T) : gen_result T :=
  match fuel with
  | 0 => GenOk S
  | Datatypes.S f =>
    let S' := gen_round S in
    if Nat.leb 200 (length S') then GenSize                      (* l.279-280 *)
    else if Nat.leb (length S') (length S) then GenOk S'          (* l.281-282 *)
    else gen_loop f S'
  end.

(** l.249-282 *)
Definition from_generator (G : list T) : gen_result T :=
  match G with
  | [] => GenEmpty
  | _ =>
    match filter (fun s => negb (eqb s one)) G with              (* l.255 *)
    | [] => GenOk [one]                                          (* l.256-257 *)
    | g0 :: G' =>
      if existsb (fun s => negb (detok s)) (g0 :: G') then GenDet  (* l.258-260 *)
      else gen_loop 200 (one :: fold_left add_new G' [g0])        (* l.262-267 *)
    end
  end.

End FromGenerator.

(* ------------------------------------------------------------------ *)
(** ** Integer operations *)

Definition zmat := lmat Zs.
Definition zvec := lvec Zs.

Definition list_eqb {A} (eqb : A -> A -> bool) : list A -> list A -> bool :=
  fix go l1 l2 :=
    match l1, l2 with
    | [], [] => true
    | a :: l1', b :: l2' => eqb a b && go l1' l2'
    | _, _ => false
    end.
Definition zveqb (u v : zvec) : bool := list_eqb Z.eqb u v.
Definition zmeqb (a b : zmat) : bool := list_eqb zveqb a b.

(** Laplace expansion along the first row; stands for [np.linalg.det] *)
Definition drop_nth {A} (j : nat) (l : list A) : list A := firstn j l ++ skipn (S j) l.
Fixpoint zdet (n : nat) (a : zmat) : Z :=
  match n with
  | O => 1
  | Datatypes.S n' =>
    match a with
    | [] => 1
    | row :: rest =>
      fold_right Z.add 0
        (map (fun j => (if Nat.even j then 1 else -1) * nth j row 0 *
                       zdet n' (map (fun r => drop_nth j r) rest))
             (seq 0%nat n))
    end
  end%Z.

(** [abs(abs(np.linalg.det(s)) - 1) > 1e-7] negated, l.85, l.258 *)
Definition det_ok (n : nat) (a : zmat) : bool := Z.eqb (Z.abs (zdet n a)) 1.

Definition zmul (n : nat) (a b : zmat) : zmat := lmul n a b.
Definition zeye (n : nat) : zmat := leye n.
Definition zneg (n : nat) (a : zmat) : zmat := lneg n a.
Definition zmv (n : nat) (a : zmat) (v : zvec) : zvec := lmv n a v.
Definition zvneg (n : nat) (v : zvec) : zvec := vneg n v.

(** [Symmetry] objects: S, inversion, projective (l.78-81); [sdim] is len(S[0]) (l.113-115) *)
Record sym := MkSym { sdim : nat; sops : list zmat; sinv : bool; sproj : bool }.

(** linalg.py l.189-202 [pointcloud_distance(a, b)] compared with a small threshold: the sum over
    a of the distance to the nearest point of b. The [np.delete] in l.201 acts on a temporary, so
    nothing is removed. On integer points the sum is < 1 iff every point of a occurs in b. *)
Definition cloud_close (a b : list zmat) : bool := forallb (fun p => memb zmeqb p b) a.

(** Symmetry.__init__, l.70-103. [None] = ValueError (l.84, l.86) or IndexError (no operation). *)
Definition sym_init (n : nat) (S : list zmat) (inversion projective : bool) : option sym :=
  match S with
  | [] => None
  | s_0 :: _ =>
    if negb (zmeqb s_0 (zeye n)) then None                               (* l.83 *)
    else if existsb (fun s => negb (det_ok n s)) S then None            (* l.85 *)
    else if cloud_close S (map (zneg n) S) then                         (* l.88 *)
      if Nat.odd n then                                                 (* l.91 *)
        Some (MkSym n (filter (fun s => Z.ltb 0 (zdet n s)) S) true projective)  (* l.93-94 *)
      else Some (MkSym n S inversion projective)                        (* l.99: pass *)
    else if inversion && Nat.even n then                                (* l.100 *)
      Some (MkSym n (S ++ map (zneg n) S) false projective)             (* l.102-103 *)
    else Some (MkSym n S inversion projective)
  end.

(** __len__, l.143-145 *)
Definition sym_len (g : sym) : nat := length (sops g) * (if sinv g then 2 else 1).

(** get_symmetry_operations, l.147-156 *)
Definition sym_all (g : sym) : list zmat :=
  sops g ++ (if sinv g then map (zneg (sdim g)) (sops g) else []).

(** __eq__, l.134-141 (the threshold len*1e-7 is below 1 for fewer than 10^7 operations) *)
Definition sym_eq (g h : sym) : bool :=
  if negb (Nat.eqb (sdim g) (sdim h)) then false
  else if negb (Bool.eqb (sinv g) (sinv h)) then false
  else if negb (Nat.eqb (sym_len g) (sym_len h)) then false
  else cloud_close (sops g) (sops h).

(** Symmetry.from_generator(G, inversion) including the constructor call, l.235-283 *)
Definition sym_from_generator (n : nat) (G : list zmat) (inversion : bool) : option sym :=
  match from_generator zmeqb (zmul n) (zeye n) (det_ok n) G with
  | GenOk ops => sym_init n ops inversion false
  | _ => None
  end.

(** check, l.121-124. Note that the inversion flag is passed on. *)
Definition sym_check (g : sym) : option bool :=
  option_map (sym_eq g) (sym_from_generator (sdim g) (sops g) (sinv g)).

(** transpose, l.130-132 (drops the projective flag) *)
Definition sym_transpose (g : sym) : option sym :=
  sym_init (sdim g) (map (ltr (sdim g)) (sops g)) (sinv g) false.

(** __contains__, l.956-969: is [other] a subgroup of [self] *)
Definition sym_contains (self other : sym) : bool :=
  if Nat.ltb (sym_len self) (sym_len other) then false                       (* l.958 *)
  else if negb (Nat.eqb (sym_len self mod sym_len other) 0) then false         (* l.961 *)
  else if sinv other && negb (sinv self) then false                          (* l.963 *)
  else forallb (fun s => memb zmeqb s (sops self)) (sops other).             (* l.966-969 *)

(** __mul__, l.971-974; [None] also covers the dimension assertion l.973 *)
Definition sym_mul (g h : sym) : option sym :=
  if Nat.eqb (sdim g) (sdim h)
  then sym_from_generator (sdim g) (sops g ++ sops h) (sinv g || sinv h)
  else None.

(* ------------------------------------------------------------------ *)
(** ** Named groups *)
Local Open Scope Z_scope.

(** none, l.292-301; inv, l.304-313; o1, l.316-319 *)
Definition sym_none (dim : nat) : option sym := sym_init dim [zeye dim] false false.
Definition sym_inv (dim : nat) : option sym := sym_init dim [zeye dim] true false.
Definition sym_o1 (inversion : bool) : option sym := sym_init 1 [ [[1]] ] inversion false.

(** perm3, l.364-379 *)
Definition perm3_ops : list zmat :=
  [ [[1;0;0];[0;1;0];[0;0;1]];
    [[0;1;0];[0;0;1];[1;0;0]];
    [[0;0;1];[1;0;0];[0;1;0]];
    [[1;0;0];[0;0;1];[0;1;0]];
    [[0;1;0];[1;0;0];[0;0;1]];
    [[0;0;1];[0;1;0];[1;0;0]] ].
Definition sym_perm3 (inversion : bool) := sym_init 3 perm3_ops inversion false.

(** even_perm3, l.382-406 *)
Definition even_perm3_ops : list zmat :=
  [ [[1;0;0];[0;1;0];[0;0;1]];
    [[0;1;0];[0;0;-1];[-1;0;0]];
    [[0;0;-1];[1;0;0];[0;-1;0]];
    [[-1;0;0];[0;0;1];[0;1;0]];
    [[0;-1;0];[-1;0;0];[0;0;-1]];
    [[0;0;1];[0;-1;0];[1;0;0]] ].
Definition sym_even_perm3 (inversion : bool) := sym_init 3 even_perm3_ops inversion false.

(** mirror3, l.409-423 *)
Definition mirror3_ops : list zmat :=
  [ [[1;0;0];[0;1;0];[0;0;1]];
    [[1;0;0];[0;-1;0];[0;0;-1]];
    [[-1;0;0];[0;-1;0];[0;0;1]];
    [[-1;0;0];[0;1;0];[0;0;-1]] ].
Definition sym_mirror3 (inversion : bool) := sym_init 3 mirror3_ops inversion false.

(** diagonal matrix with entries -1 at the first [m] positions *)
Definition zflip (n m : nat) : zmat :=
  mk (K:=Zs) n n (fun i j => if Nat.eqb i j then (if Nat.ltb i m then -1 else 1) else 0).
(** mirror_x, l.426-438; mirror_xy, l.441-454 *)
Definition sym_mirror_x (inversion : bool) (dim : nat) := sym_init dim [zeye dim; zflip dim 1] inversion false.
Definition sym_mirror_xy (inversion : bool) (dim : nat) := sym_init dim [zeye dim; zflip dim 2] inversion false.

(** square, l.457-465 *)
Definition sym_square := sym_from_generator 2 [ [[0;1];[-1;0]]; [[1;0];[0;-1]] ] false.

(** tetrahedral, l.483-500 *)
Definition sym_tetrahedral (full : bool) :=
  sym_from_generator 3
    ([ [[-1;0;0];[0;-1;0];[0;0;1]]; [[0;1;0];[0;0;1];[1;0;0]] ] ++
     (if full then [ [[0;1;0];[-1;0;0];[0;0;1]] ] else [])) false.

(** cubic, l.352-361: even_perm3() * mirror3(inversion) *)
Definition sym_cubic (inversion : bool) : option sym :=
  match sym_even_perm3 false, sym_mirror3 inversion with
  | Some a, Some b => sym_mul a b
  | _, _ => None
  end.
Local Close Scope Z_scope.

(* ------------------------------------------------------------------ *)
(** ** Points *)

(** stable sort by an integer key, [np.argsort(..., kind='stable')] / [sorted(key=...)] *)
Fixpoint ins_by {A} (key : A -> Z) (a : A) (l : list A) : list A :=
  match l with
  | [] => [a]
  | b :: l' => if Z.leb (key a) (key b) then a :: l else b :: ins_by key a l'
  end.
Definition sort_by {A} (key : A -> Z) (l : list A) : list A := fold_right (ins_by key) [] l.

(** squared euclidean norm; monotone replacement of [np.linalg.norm] *)
Definition znorm2 (v : zvec) : Z := fold_right Z.add 0%Z (map (fun x => (x * x)%Z) v).

(** all operations in the order of realize_symmetric l.554-556: S, then -S if inversion *)
Definition signed_ops (g : sym) : list (bool * zmat) :=
  map (pair false) (sops g) ++ (if sinv g then map (pair true) (sops g) else []).
Definition app_signed (n : nat) (o : bool * zmat) (k : zvec) : zvec :=
  if fst o then zvneg n (zmv n (snd o) k) else zmv n (snd o) k.

(** l.553-562: the images of k that differ from k and from each other, in order of discovery.
    Distances below [scale*1e-6] are equality for integer points of length < 10^6. *)
Definition orbit_new (g : sym) (k : zvec) : list zvec :=
  let step (used : list zvec) (o : bool * zmat) :=
    let k' := app_signed (sdim g) o k in
    if memb zveqb k' used then used else used ++ [k'] in
  tl (fold_left step (signed_ops g) [k]).

(** realize_symmetric, l.545-562: the list of (point, source index) before sorting *)
Definition realize_collect (g : sym) (ks : list zvec) : list (zvec * nat) :=
  combine ks (seq 0 (length ks)) ++
  flat_map (fun ik : nat * zvec =>
      let (i, k) := ik in
      if Z.eqb (znorm2 k) 0 then []                                       (* l.551-552 *)
      else map (fun k' => (k', i)) (orbit_new g k))
    (combine (seq 0 (length ks)) ks).

(** l.575-581: stable sort by coordinate 0, then 1, ... ([round(x + pi, 4)] is strictly monotone on
    integers). unit_cell=False. *)
Definition realize_sort (dim : nat) (l : list (zvec * nat)) : list (zvec * nat) :=
  fold_left (fun l i => sort_by (fun p => nth i (fst p) 0%Z) l) (seq 0 dim) l.

(** l.584-604 with collect_bad_duplicates=False: drop entries equal to their predecessor *)
Fixpoint dedup_adj (prev : zvec) (l : list (zvec * nat)) : list (zvec * nat) :=
  match l with
  | [] => []
  | p :: l' => if zveqb prev (fst p) then dedup_adj (fst p) l' else p :: dedup_adj (fst p) l'
  end.
Definition dedup (l : list (zvec * nat)) : list (zvec * nat) :=
  match l with [] => [] | p :: l' => p :: dedup_adj (fst p) l' end.

(** realize_symmetric, l.526-613; [None]: IndexError of k_smpl[0] for an empty list *)
Definition realize_symmetric (g : sym) (ks : list zvec) : option (list (zvec * nat)) :=
  match ks with
  | [] => None
  | k0 :: _ => Some (dedup (realize_sort (length k0) (realize_collect g ks)))
  end.

(** l.722-723: [next((x for x in n if abs(x) > 1e-7), 1) > 0] *)
Fixpoint first_pos (v : zvec) : bool :=
  match v with
  | [] => true
  | x :: v' => if Z.eqb x 0 then first_pos v' else Z.ltb 0 x
  end.

(** l.715-720: drop later exact repetitions *)
Definition dedup_exact (l : list (zvec * nat)) : list (zvec * nat) :=
  fold_left (fun acc p => if memb zveqb (fst p) (map fst acc) then acc else acc ++ [p]) l [].

(** complete_neighbors(return_order=True), l.701-729 *)
Definition complete_neighbors (g : sym) (ns : list zvec) : option (list (zvec * nat)) :=
  match sym_transpose g with
  | None => None
  | Some gt =>
    match realize_symmetric gt ns with
    | None => None
    | Some l =>
      Some (sort_by (fun p => znorm2 (fst p)) (filter (fun p => first_pos (fst p)) (dedup_exact l)))
    end
  end.

(** r_class_size, l.782-799: number of operations fixing k (weights); the result is len(self)/weights.
    The order [-1, 1] of the signs is irrelevant for the count. *)
Definition fix_count (g : sym) (k : zvec) : nat :=
  length (filter (fun o => zveqb (app_signed (sdim g) o k) k) (signed_ops g)).
Definition r_class_size (g : sym) (k : zvec) : Z * Z := (Z.of_nat (sym_len g), Z.of_nat (fix_count g k)).

(** k_weight, l.760-780, for the rational point k = v/D: the test
    [pingpong_distance((sign*s - 1) k).sum() < 1e-7] says that (sign*s - 1) k is an integer vector
    (exact for denominators D < 10^7). The result is 1/weights. *)
Definition fix_mod (D : Z) (a b : zvec) : bool :=
  forallb (fun p => Z.eqb ((fst p - snd p) mod D) 0) (combine a b).
Definition k_fix_count (g : sym) (D : Z) (k : zvec) : nat :=
  length (filter (fun o => fix_mod D (app_signed (sdim g) o k) k) (signed_ops g)).

(** find_classes, l.801-825. [argmin] returns the first nearest point; it is used only if exact. *)
Definition class_of (n : nat) (ops : list zmat) (points : list zvec) (r : zvec) : list nat :=
  fold_left (fun acc s =>
      match find_idx (zveqb (zmv n s r)) points with
      | Some j => if existsb (Nat.eqb j) acc then acc else acc ++ [j]
      | None => acc
      end) ops [].
Definition find_classes (g : sym) (points : list zvec) : list (nat * list nat) :=
  fst (fold_left (fun st (ir : nat * zvec) =>
      let '(classes, covered) := st in
      let '(i, r) := ir in
      let c := class_of (sdim g) (sops g) points r in
      ((if existsb (Nat.eqb i) covered then classes else classes ++ [(i, c)]), covered ++ c))
    (combine (seq 0 (length points)) points) ([], [])).

(* ------------------------------------------------------------------ *)
(** ** equivalence_classes / conjugacy_classes, l.856-894 *)
Section Classes.
Context {T : Type} (rel : T -> T -> bool).

(** l.871-879 for one popped element [s]; [rem] is walked from its end (l.874), matching elements move
    to the class. [rrem] is the remaining list in reverse order, so popping takes its head. *)
Definition split_class (s : T) (rrem : list T) : list T * list T :=
  (s :: filter (rel s) rrem, filter (fun x => negb (rel s x)) rrem).

Fixpoint classes_loop (fuel : nat) (rrem : list T) : list (list T) :=
  match fuel with
  | 0 => []
  | Datatypes.S f =>
    match rrem with
    | [] => []
    | s :: rest => let (c, rest') := split_class s rest in c :: classes_loop f rest'
    end
  end.
(** every round removes one element, so [length l] rounds always suffice (proved) *)
Definition equivalence_classes (l : list T) : list (list T) := classes_loop (length l) (rev l).
End Classes.

(** conjugated(a, b), l.888-893: some s in S has s a s^-1 = b.  [np.linalg.inv(s)] is avoided by
    multiplying with s from the right: s a = b s. *)
Definition conjugated (n : nat) (ops : list zmat) (a b : zmat) : bool :=
  existsb (fun s => zmeqb (zmul n s a) (zmul n b s)) ops.
Definition conjugacy_classes (g : sym) : list (list zmat) :=
  equivalence_classes (conjugated (sdim g) (sops g)) (sym_all g).

(** Model of bandstructure.py (class BandStructureModel): electron_phonon_coupling, transform and the sharing of the neighbors
    between models, supercell. Exact real/complex arithmetic. Definitions only. *)
From Coq Require Import List Arith ZArith Reals Bool.
Import ListNotations.
From Verif Require Import SRing LMat FMat CplxR UrepModel FourierModel EigModel.
Local Open Scope R_scope.

(** transform, l.809-821: [np.einsum("ji,ni->nj", A, self.neighbors)]. [neighbors] is not None for these models. *)
Definition bsm_transform (n : nat) (A : fmat Rs) (b : bsm) : bsm :=
  MkBsm (bexp b) (bcos b) (binv b) (bops b) (map (rot n A) (bnb b)) (bparams b).

(** ** the array of neighbors is an object of its own, linked in f_i, df_i, ddf_i (l.105-112, l.820) *)
Definition heap := nat -> list rvec.
(** a model: the address of its array of neighbors, and everything else (the field [bnb] of [orest] is not used) *)
Record obj := MkObj { oref : nat; orest : bsm }.
Definition view (hp : heap) (o : obj) : bsm :=
  let b := orest o in MkBsm (bexp b) (bcos b) (binv b) (bops b) (hp (oref o)) (bparams b).
(** copy, l.82-94 *)
Definition obj_copy (o : obj) : obj := MkObj (oref o) (orest o).
(** __add__ with a number, l.898-901, and __mul__, l.903-906: a copy with other params *)
Definition obj_shift (e : R) (o : obj) : obj := MkObj (oref (obj_copy o)) (bsm_shift e (orest (obj_copy o))).
Definition obj_scale (c : R) (o : obj) : obj := MkObj (oref (obj_copy o)) (bsm_scale c (orest (obj_copy o))).
(** transform, l.821: [self.neighbors[:] = ...] writes into the array *)
Definition obj_transform (n : nat) (A : fmat Rs) (hp : heap) (o : obj) : heap :=
  fun r => if Nat.eqb r (oref o) then map (rot n A) (hp r) else hp r.

(* ------------------------------------------------------------------ *)
Section Coupling.
(** np.linalg.eigh *)
Variable eigh : cmat -> eigsys.
(** l.799-802: bands and [v = real(diagonal(df_ev))] of sample [m] *)
Definition ep_bands (Hs : nat -> cmat) (m : nat) : nat -> R := fst (eigh (Hs m)).
Definition ep_v (d : nat) (Hs : nat -> cmat) (dHs : nat -> nat -> cmat) (m n i : nat) : R :=
  eig_diag d (snd (eigh (Hs m))) (dHs m n) i.
(** l.803-806: "ani, aki, bkj -> abnij" minus "aki, bkj, bnj -> abnij" *)
Definition ep_g (d : nat) (Hs : nat -> cmat) (dHs : nat -> nat -> cmat) (k1 k2 : list nat) (a b n i j : nat) : cplx :=
  let m1 := nth a k1 0%nat in let m2 := nth b k2 0%nat in
  let e1 := snd (eigh (Hs m1)) in let e2 := snd (eigh (Hs m2)) in
  csub (nsum (K:=Cs) d (fun k => cmul (cmul (cre (ep_v d Hs dHs m1 n i)) (cconj (e1 k i))) (e2 k j)))
       (nsum (K:=Cs) d (fun k => cmul (cmul (cconj (e1 k i)) (e2 k j)) (cre (ep_v d Hs dHs m2 n j)))).
(** electron_phonon_coupling, l.798-807, with the samples of f and df *)
Definition ep_coupling (d n : nat) (b : bsm) (ks : list rvec) (k1 k2 : list nat) :
    (nat -> nat -> R) * (nat -> nat -> nat -> R) * (nat -> nat -> nat -> nat -> nat -> cplx) :=
  let Hs := fun m => bsm_f n b (nb ks m) in let dHs := fun m => bsm_df n b (nb ks m) in
  (ep_bands Hs, ep_v d Hs dHs, ep_g d Hs dHs k1 k2).
End Coupling.

(* ------------------------------------------------------------------ *)
(** supercell, l.823-884 *)
Inductive dtype := Int64 | Float64.
(** result type of a numpy product *)
Definition promote (x y : dtype) : dtype := match x, y with Int64, Int64 => Int64 | _, _ => Float64 end.
Inductive exn := ValueErr | AssertErr | LinAlgErr.
Definition dtype_eqb (x y : dtype) : bool := match x, y with Int64, Int64 | Float64, Float64 => true | _, _ => false end.
Section Supercell.
(** np.linalg.inv ([None] is a LinAlgError), the test of l.847, and everything after l.863 *)
Variables (mat model : Type) (inv : mat -> option mat) (mul : mat -> mat -> mat) (rows : mat -> nat) (integer_valued : mat -> bool)
  (rest : mat -> exn + model).
(** [nbd] is the dimension of the neighbors, [None] if there are none; [nops] the number of operations, [None] if sym is None.
    l.837-852 and l.859-863: np.round of a float array is a float array; the corners of the unit cell are integers *)
Definition bsm_supercell (nbd nops : option nat) (A A' : mat) : exn + model :=
  match nbd with
  | None => inl ValueErr
  | Some dim =>
      if negb (Nat.eqb dim (rows A) && Nat.eqb dim (rows A')) then inl AssertErr
      else match inv A with
           | None => inl LinAlgErr
           | Some Ai =>
               let matrix := mul Ai A' in
               let matrix_type := Float64 in
               if negb (integer_valued matrix) then inl AssertErr
               else if negb (match nops with None => true | Some m => Nat.eqb m 1 end) then inl AssertErr
               else let box := promote Int64 matrix_type in
                    if negb (dtype_eqb box Int64) then inl AssertErr
                    else rest matrix
           end
  end.
End Supercell.

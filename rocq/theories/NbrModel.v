(** Model of the neighbor list edits of HermitianFourierSeries (tight_binding_asym.py). Definitions only. *)
From Coq Require Import List Arith ZArith Reals Bool.
Import ListNotations.
From Verif Require Import SRing LMat FMat CplxR FourierModel.
Local Open Scope R_scope.

Definition Rleb (x y : R) : bool := if Rle_dec x y then true else false.
Definition Rltb (x y : R) : bool := if Rlt_dec x y then true else false.
(** np.linalg.norm of a vector, and (Frobenius) of a d x d matrix *)
Definition vnorm (n : nat) (r : rvec) : R := sqrt (dot n r r).
Definition mnorm (d : nat) (x : cmat) : R :=
  sqrt (nsum (K:=Rs) d (fun i => nsum (K:=Rs) d (fun j => fst (x i j) * fst (x i j) + snd (x i j) * snd (x i j)))).
Definition vsub (a b : rvec) : rvec := fun i => a i - b i.

(** boolean mask indexing: array[keep] *)
Definition select {A} (mask : list bool) (l : list A) : list A := map snd (filter fst (combine mask l)).
(** integer indexing: array[indices] *)
Definition take_idx {A} (d0 : A) (idx : list nat) (l : list A) : list A := map (fun i => nth i l d0) idx.

(** the tolerances of l.142 and l.123 *)
Definition len_eps : R := 1 / 10 ^ 8.
Definition dup_eps : R := 1 / 10 ^ 5.
(** limit_neighbors l.132-146: [None] is the AssertionError l.141; the result is the new series and the returned number *)
Definition limit_neighbors (n : nat) (max_length : R) (h : hfs) : option (hfs * nat) :=
  if Rltb max_length 0 then None
  else let keep := map (fun r => Rleb (vnorm n r) (max_length + len_eps)) (hnb h) in
       let nb' := select keep (hnb h) in
       Some (MkHfs nb' (select keep (hH h)), (length (hnb h) - length nb')%nat).

(** limit_neighbor_count l.148-162. [order] is the result of np.argsort (not stable), see [argsort_of] in NbrProps.v;
    only non-negative max_count is modelled *)
Definition limit_neighbor_count (order : list nat) (max_count : nat) (h : hfs) : hfs * nat :=
  let sort := firstn max_count order in
  let nb' := take_idx (fun _ => 0) sort (hnb h) in
  (MkHfs nb' (take_idx fzero sort (hH h)), (length (hnb h) - length nb')%nat).

(** cleanup_neighbors l.164-178 *)
Definition cleanup_neighbors (d : nat) (min_norm : R) (h : hfs) : hfs * nat :=
  let keep := map (fun x => Rleb min_norm (mnorm d x)) (hH h) in
  let keep' := match keep with [] => [] | _ :: k => true :: k end in
  let nb' := select keep' (hnb h) in
  (MkHfs nb' (select keep' (hH h)), (length (hnb h) - length nb')%nat).

(** add_neighbors l.116-130 *)
Inductive add_res := AddOk (h : hfs) | AddIgnored | AddValueError.
Definition is_listed (n : nat) (nbs : list rvec) (r : rvec) : bool :=
  existsb (fun x => Rltb (vnorm n (vsub x r)) dup_eps) nbs.
Definition add_neighbors (n : nat) (new : list rvec) (h : hfs) : add_res :=
  if existsb (is_listed n (hnb h)) new then
    (if Nat.eqb (length new) 1 then AddIgnored else AddValueError)
  else AddOk (MkHfs (hnb h ++ new) (hH h ++ map (fun _ => fzero) new)).

(** Model of linalg.py: direct_sum, kron, pointcloud_distance, conjugate_gradient_solve. Definitions only. *)
From Coq Require Import List Arith ZArith Reals Bool.
Import ListNotations.
From Verif Require Import SRing LMat FMat CplxR FourierModel NbrModel.

(** A matrix with its shape. Arrays with more leading axes (l.16-24) are lists of such matrices and are not modelled. *)
Section Blocks.
Context {K : sring}.
Local Open Scope sring_scope.
Record smat := MkS { sr : nat; sc : nat; sf : fmat K }.
(** _direct_sum l.6-15 *)
Definition ds2 (a b : smat) : smat :=
  MkS (sr a + sr b)%nat (sc a + sc b)%nat (fun i j =>
    if Nat.ltb i (sr a) then (if Nat.ltb j (sc a) then sf a i j else 0)
    else (if Nat.ltb j (sc a) then 0 else sf b (i - sr a)%nat (j - sc a)%nat)).
(** direct_sum l.37-44: the recursion replaces the first two by their sum; [None] is the ValueError *)
Definition direct_sum (l : list smat) : option smat :=
  match l with [] => None | a :: r => Some (fold_left ds2 r a) end.
(** np.kron of two matrices *)
Definition kr2 (a b : smat) : smat :=
  MkS (sr a * sr b)%nat (sc a * sc b)%nat (fun i j =>
    sf a (i / sr b)%nat (j / sc b)%nat * sf b (i mod sr b)%nat (j mod sc b)%nat).
(** kron l.27-34 *)
Definition kron (l : list smat) : option smat :=
  match l with [] => None | a :: r => Some (fold_left kr2 r a) end.
End Blocks.
Arguments smat : clear implicits.

Local Open Scope R_scope.

(** np.min of a non-empty list, with the value only: d.flat[np.argmin(d.flat)]; [None] is the ValueError of an empty argmin *)
Definition rmin1 (l : list R) : option R := match l with [] => None | x :: t => Some (fold_left Rmin t x) end.
(** pointcloud_distance l.189-202, points of n coordinates. The np.delete of l.201 is assigned to the local d, which the next
    round overwrites: it has no effect. [None] is the ValueError of np.argmin on an empty second cloud. *)
Fixpoint pc_loop (n : nat) (pc1 pc2 : list rvec) (dist : R) : option R :=
  match pc1 with
  | [] => Some dist
  | p1 :: r => match rmin1 (map (fun q => vnorm n (vsub p1 q)) pc2) with
               | None => None
               | Some m => pc_loop n r pc2 (dist + m)
               end
  end.
Definition pointcloud_distance (n : nat) (pc1 pc2 : list rvec) : option R := pc_loop n pc1 pc2 0.

(** conjugate_gradient_solve l.233-278. Arrays of any shape are flattened to n real components; a complex array is represented
    by its real and imaginary parts (all scalars alpha, r_sqr/r_sqr_last of the algorithm are real and
    Re sum(conj(u) v) is the real inner product of the components). Exact real arithmetic; A returns a fresh array. *)
Record cgst := MkCg { cg_x : rvec; cg_r : rvec; cg_d : rvec; cg_rs : R; cg_i : nat }.
Inductive cgwhy := CgZeroDirection (* l.262 *) | CgConverged (* l.267 *) | CgLimit (* l.270 *).
Section CG.
Variable A : rvec -> rvec.
Variable n : nat.
Variable err : R.
Variable max_i : nat.
(** l.246-253 *)
Definition cg_init (b : rvec) (x0 : option rvec) : cgst :=
  let x := match x0 with None => (fun _ => 0) | Some x => x end in
  let r := match x0 with None => (fun i => - b i) | Some x => (fun i => A x i - b i) end in
  MkCg x r r (dot n r r) 0.
(** the state at the next loop head, l.263-264 and l.272-278 *)
Definition cg_next (s : cgst) : cgst :=
  let Ad := A (cg_d s) in
  let alpha := cg_rs s / dot n (cg_d s) Ad in
  let x := fun i => cg_x s i - alpha * cg_d s i in
  let r := fun i => cg_r s i - alpha * Ad i in
  let rs := dot n r r in
  MkCg x r (fun i => cg_d s i * (rs / cg_rs s) + r i) rs (S (cg_i s)).
(** one pass of the loop l.257-278 *)
Definition cg_pass (s : cgst) : (rvec * cgwhy) + cgst :=
  let dsq := dot n (cg_d s) (A (cg_d s)) in
  if Req_EM_T dsq 0 then inl (cg_x s, CgZeroDirection)
  else let x := fun i => cg_x s i - cg_rs s / dsq * cg_d s i in
    if Rleb (cg_rs s) (err ^ 2) then inl (x, CgConverged)
    else if Nat.ltb max_i (cg_i s) then inl (x, CgLimit)
    else inr (cg_next s).
(** the loop; [None] is out of fuel *)
Fixpoint cg_loop (fuel : nat) (s : cgst) : option (rvec * cgwhy) :=
  match fuel with
  | O => None
  | S f => match cg_pass s with inl o => Some o | inr s' => cg_loop f s' end
  end.
End CG.
(** default max_i l.255 for an array of m entries: int(2.5 m) + 1 *)
Definition cg_default_max (m : nat) : nat := (5 * m / 2 + 1)%nat.
(** the whole function; the fuel max_i + 2 always suffices (C39_terminates) *)
Definition cg_solve (A : rvec -> rvec) (n : nat) (b : rvec) (x0 : option rvec) (err : R) (max_i : nat) : option (rvec * cgwhy) :=
  cg_loop A n err max_i (max_i + 2) (cg_init A n b x0).

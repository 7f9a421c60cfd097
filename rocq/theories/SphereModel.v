(** * Model of lattice_in_sphere (linalg.py l.205-230)

    Exact real arithmetic.  np.linalg.qr, np.linalg.svd and np.round are parameters.  The assertions of l.211
    and l.213 compare determinants of unit triangular matrices with 1 and always hold; they are left out.
    np.meshgrid lists the grid in another order. *)
From Coq Require Import List Arith ZArith Reals Bool.
From Verif Require Import SRing FMat CplxR LMat SymModel SupercellModel.
Import ListNotations.
Local Open Scope R_scope.

Definition rmat := nat -> nat -> R.
Record svd_result := mkSvd { svU : rmat; svS : nat -> R; svVh : rmat }.

Section Sphere.
Variable qr : nat -> rmat -> rmat * rmat.
Variable svd : nat -> rmat -> svd_result.
Variable round : R -> Z.

(** l.209-212: R /= np.diag(R)[:, None]; np.round(R) (named R_inv in the code) *)
Definition shear (n : nat) (A : rmat) : nat -> nat -> Z := fun i j => let R := snd (qr n A) in round (R i j / R i i).
(** l.214 *)
Definition reduce1 (n : nat) (A : rmat) : rmat := fmul (K:=Rs) n A (fun i j => IZR (shear n A i j)).
Fixpoint reduce (k n : nat) (A : rmat) : rmat := match k with O => A | S k' => reduce1 n (reduce k' n A) end.

(** l.223: all vectors with the entries -1 and 1 *)
Fixpoint signs (n : nat) : list (list R) :=
  match n with O => [[]] | S m => flat_map (fun s => [-1 :: s; 1 :: s]) (signs m) end.
Definition corner (n : nat) (s : svd_result) (e : list R) (i : nat) : R :=
  nsum (K:=Rs) n (fun j => svVh s j i * (nth j e 0 / svS s j)).
Definition max_corner (n : nat) (s : svd_result) (i : nat) : R :=
  fold_right Rmax 0 (map (fun e => corner n s e i) (signs n)).
(** int(...) truncates *)
Definition trunc (x : R) : Z := if Rlt_dec x 0 then (- Int_part (- x))%Z else Int_part x.
(** l.225 *)
Definition extent (n : nat) (s : svd_result) (dist : R) (i : nat) : Z := trunc (dist * max_corner n s i).
Definition candidates (n : nat) (s : svd_result) (dist : R) : list zvec :=
  grid (map (fun i => zrange (- extent n s dist i) (1 + extent n s dist i)) (seq 0 n)).
(** l.226 *)
Definition pos_of (n : nat) (s : svd_result) (z : zvec) (i : nat) : R :=
  svS s i * nsum (K:=Rs) n (fun j => svVh s i j * IZR (nth j z 0%Z)).
Definition rnorm (n : nat) (v : nat -> R) : R := sqrt (nsum (K:=Rs) n (fun i => v i * v i)).
Definition lattice_in_sphere (n : nat) (A : rmat) (dist : R) : list (list R) :=
  let s := svd n (reduce 3 n A) in
  map (fun z => map (fun i => nsum (K:=Rs) n (fun j => svU s i j * pos_of n s z j)) (seq 0 n))
    (filter (fun z => if Rlt_dec (rnorm n (pos_of n s z)) dist then true else false) (candidates n s dist)).
End Sphere.

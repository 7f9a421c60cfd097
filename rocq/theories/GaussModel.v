(** Model of _integration_points of bulk_properties.py (l.107-130): the points of a quadrature rule with the weight -df/dE at one or
    two temperatures. Real arithmetic is exact; scipy.linalg.qr and np.roots are parameters. Definitions only. *)
From Coq Require Import Reals List Arith Bool.
From Verif Require Import CplxR NbrModel DosModel BulkModel.
Import ListNotations.
Local Open Scope R_scope.

(** l.119 I_f2_c is [b_coeff]; l.120 I_f3, with the integer division of the factorials *)
Definition i_f3 (n m : nat) : R :=
  b_coeff (n + m) / INR (fact (2 * Nat.max n m) / fact (n + m) * fact (2 * Nat.min m n)).
(** l.121 I_nj; [mu] and [beta] are the lists mu_j and beta_j, scipy.special.binom is [C] *)
Definition i_nj (mu beta : list R) (n m j : nat) : R :=
  lsum (seq 0 (S n)) (fun k => C n k * (nth j mu 0 - nth 0 mu 0) ^ (n - k) * / nth j beta 0 ^ (k + m) * i_f3 m k).
(** l.122-126: the entry of row [m] <= N and column [c] < N *)
Definition ip_mat (fermi bmin bmid : R) (one : bool) (N : nat) (m c : nat) : R :=
  let h := (N / 2 - 1)%nat in
  if one then i_nj [fermi; fermi] [bmin; bmid] c m 0
  else if Nat.ltb c h then i_nj [fermi; fermi] [bmin; bmid] c m 0 else i_nj [fermi; fermi] [bmin; bmid] (c - h) m 1.
(** l.128, highest power first *)
Definition ip_poly (N : nat) (q : nat -> nat -> R) : list R :=
  map (fun i => q (N - i)%nat N / INR (fact (2 * (N - i)))) (seq 0 (S N)).
(** _integration_points, l.107-130: [qr rows columns A] is the square matrix of scipy.linalg.qr. [None]: AssertionError. T_max = 0
    (ZeroDivisionError for N > 1, not reached from KIntegral) is not modelled *)
Definition integration_points (qr : nat -> nat -> (nat -> nat -> R) -> nat -> nat -> R) (roots : list R -> list cplx)
    (kB fermi tmin tmax : R) (N : nat) : option (list R) :=
  if Nat.eqb N 0 then None                                                             (* l.108 *)
  else if Nat.eqb N 1 then Some [fermi]                                                (* l.109-110 *)
  else if negb (Rleb tmin tmax) then None                                              (* l.112 *)
  else if Nat.even N then None                                                         (* l.113 *)
  else let bmin := 1 / (kB * tmax) in                                                  (* l.114-115 *)
       let bmid := 1 / (kB * (tmax + tmin) / 2) in
       let q := qr (S N) N (ip_mat fermi bmin bmid (Reqb tmin tmax) N) in
       Some (map (Rplus fermi) (rsort (map fst (roots (ip_poly N q))))).                (* l.127-130 *)

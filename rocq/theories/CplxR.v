(** Instances of [sring] with division: the reals [Rs], the complex numbers over the reals [Cs]
    (numpy complex128 without rounding), and the rationals [Qs] (computable, for examples).
    Also the phase factor [cexp t] = exp(i t). Mathematical infrastructure, models no code. *)
From Coq Require Import List Arith ZArith Lia Ring Reals Lra QArith Qcanon Psatz.
Import ListNotations.
From Verif Require Import SRing LMat.

Definition Rs : sring.
Proof.
  refine (MkSring R 0%R 1%R Rplus Rmult Rminus Ropp (fun x => x) RTheory _ _ _); reflexivity.
Defined.

Definition Qs : sring.
Proof.
  refine (MkSring Qc 0%Qc 1%Qc Qcplus Qcmult Qcminus Qcopp (fun x => x) Qcrt _ _ _); reflexivity.
Defined.

Open Scope R_scope.
Definition cplx := (R * R)%type.
Definition cadd (x y : cplx) : cplx := (fst x + fst y, snd x + snd y).
Definition csub (x y : cplx) : cplx := (fst x - fst y, snd x - snd y).
Definition copp (x : cplx) : cplx := (- fst x, - snd x).
Definition cmul (x y : cplx) : cplx := (fst x * fst y - snd x * snd y, fst x * snd y + snd x * fst y).
Definition cconj (x : cplx) : cplx := (fst x, - snd x).
Definition cre (x : R) : cplx := (x, 0).

Lemma cplx_eq (x y : cplx) : fst x = fst y -> snd x = snd y -> x = y.
Proof. destruct x, y; simpl; intros; subst; reflexivity. Qed.

Definition Cs : sring.
Proof.
  refine (MkSring cplx (0,0) (1,0) cadd cmul csub copp cconj _ _ _ _).
  - constructor; intros; apply cplx_eq; simpl; ring.
  - intros; apply cplx_eq; simpl; ring.
  - intros; apply cplx_eq; simpl; ring.
  - intros; apply cplx_eq; simpl; ring.
Defined.

(** exp(i t) *)
Definition cexp (t : R) : cplx := (cos t, sin t).

Lemma cexp_0 : cexp 0 = (1, 0).
Proof. unfold cexp. rewrite cos_0, sin_0. reflexivity. Qed.

Lemma cexp_add s t : cexp (s + t) = cmul (cexp s) (cexp t).
Proof. unfold cexp, cmul; simpl. rewrite cos_plus, sin_plus. f_equal; ring. Qed.

Lemma cexp_neg t : cexp (- t) = cconj (cexp t).
Proof. unfold cexp, cconj; simpl. rewrite cos_neg, sin_neg. reflexivity. Qed.

Lemma cexp_conj_mul t : cmul (cconj (cexp t)) (cexp t) = (1, 0).
Proof.
  rewrite <- cexp_neg, <- cexp_add. replace (- t + t) with 0 by ring. apply cexp_0.
Qed.

Lemma cexp_2pi_nat (k : nat) : cexp (2 * PI * INR k) = (1, 0).
Proof.
  unfold cexp. replace (2 * PI * INR k) with (0 + 2 * INR k * PI) by ring.
  rewrite cos_period, sin_period, cos_0, sin_0. reflexivity.
Qed.

Lemma cexp_2pi_int (z : Z) : cexp (2 * PI * IZR z) = (1, 0).
Proof.
  destruct z as [|p|p].
  - replace (2 * PI * IZR 0) with 0 by (simpl; ring). apply cexp_0.
  - rewrite <- (positive_nat_Z p), <- INR_IZR_INZ. apply cexp_2pi_nat.
  - rewrite <- Pos2Z.opp_pos, opp_IZR, <- (positive_nat_Z p), <- INR_IZR_INZ.
    replace (2 * PI * - INR (Pos.to_nat p)) with (- (2 * PI * INR (Pos.to_nat p))) by ring.
    rewrite cexp_neg, cexp_2pi_nat. unfold cconj; simpl. f_equal; ring.
Qed.

(** phases of integer combinations only depend on the residue *)
Lemma cexp_period t z : cexp (t + 2 * PI * IZR z) = cexp t.
Proof.
  rewrite cexp_add, cexp_2pi_int. unfold cmul, cexp; simpl. f_equal; ring.
Qed.

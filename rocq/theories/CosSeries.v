(** The Fourier series of x^2: sum_(n=1..N) (-1)^n cos(n x) / n^2 tends to x^2/4 - pi^2/12 for |x| <= pi.  Needed for
    the free electron model of tight_binding_asym.py. *)
From Coq Require Import Reals Lra Lia Psatz.
From Coquelicot Require Import Coquelicot.
From Verif Require Import Basel.
Local Open Scope R_scope.

Fixpoint csq (N : nat) (x : R) : R := match N with O => 0 | S m => csq m x + (-1) ^ S m * cos (INR (S m) * x) / INR (S m) ^ 2 end.
Fixpoint ssq (N : nat) (x : R) : R := match N with O => 0 | S m => ssq m x + (-1) ^ S m * sin (INR (S m) * x) / INR (S m) end.
Fixpoint dsq (N : nat) (x : R) : R := match N with O => 0 | S m => dsq m x + (-1) ^ S m * cos (INR (S m) * x) end.

Lemma csq_0 : forall N, csq N 0 = - asum N.
Proof.
  induction N; cbn [csq asum]; [ring|]. rewrite IHN, Rmult_0_r, cos_0. cbn [pow].
  assert (INR (S N) <> 0) by (apply not_0_INR; lia). field. auto.
Qed.
Lemma csq_even : forall N x, csq N (- x) = csq N x.
Proof.
  induction N; intros x; cbn [csq]; [reflexivity|]. rewrite IHN.
  replace (INR (S N) * - x) with (- (INR (S N) * x)) by ring. rewrite cos_neg. reflexivity.
Qed.
Lemma cos_nPI : forall n, cos (INR n * PI) = (-1) ^ n.
Proof.
  induction n; [cbn; rewrite Rmult_0_l; apply cos_0|].
  rewrite S_INR, Rmult_plus_distr_r, Rmult_1_l, neg_cos, IHn. cbn [pow]. ring.
Qed.
Lemma csq_PI : forall N, csq N PI = zsum N.
Proof.
  induction N; cbn [csq zsum]; [reflexivity|]. rewrite IHN, cos_nPI. f_equal.
  replace ((-1) ^ S N * (-1) ^ S N) with 1; [unfold Rdiv; apply Rmult_1_l|].
  rewrite <- pow_add. replace (S N + S N)%nat with (2 * S N)%nat by lia. rewrite pow_1_even. reflexivity.
Qed.

Lemma csq_derive : forall N x, is_derive (csq N) x (- ssq N x).
Proof.
  induction N; intros x; cbn [csq ssq].
  - replace (- 0) with 0 by ring. exact (is_derive_const (V:=R_NormedModule) 0 x).
  - assert (INR (S N) <> 0) by (apply not_0_INR; lia). revert H. generalize (INR (S N)) ((-1) ^ S N). intros a b H.
    replace (- (ssq N x + b * sin (a * x) / a)) with (plus (- ssq N x) (- (b * sin (a * x) / a))) by (unfold plus; simpl; ring).
    apply (is_derive_plus (V:=R_NormedModule) (csq N)); [apply IHN|].
    auto_derive; auto. field. auto.
Qed.
Lemma ssq_derive : forall N x, is_derive (ssq N) x (dsq N x).
Proof.
  induction N; intros x; cbn [ssq dsq].
  - exact (is_derive_const (V:=R_NormedModule) 0 x).
  - assert (INR (S N) <> 0) by (apply not_0_INR; lia). revert H. generalize (INR (S N)) ((-1) ^ S N). intros a b H.
    apply (is_derive_plus (V:=R_NormedModule) (ssq N)); [apply IHN|].
    auto_derive; auto. field. auto.
Qed.
(** the kernel *)
Lemma dsq_kernel : forall N x, 2 * cos (x / 2) * dsq N x = (-1) ^ N * cos ((INR N + / 2) * x) - cos (x / 2).
Proof.
  induction N; intros x; cbn [dsq].
  - cbn [pow INR]. replace ((0 + / 2) * x) with (x / 2) by field. ring.
  - rewrite Rmult_plus_distr_l, IHN, S_INR. set (n := INR N).
    replace ((n + / 2) * x) with ((n + 1) * x - x / 2) by field.
    replace ((n + 1 + / 2) * x) with ((n + 1) * x + x / 2) by field.
    rewrite cos_plus, cos_minus. cbn [pow]. ring.
Qed.
Lemma ssq_0 : forall N, ssq N 0 = 0.
Proof. induction N; cbn [ssq]; [reflexivity|]. rewrite IHN, Rmult_0_r, sin_0. unfold Rdiv. ring. Qed.

Lemma sgn_abs : forall N, Rabs ((-1) ^ N) = 1.
Proof. intros N. rewrite <- RPow_abs. replace (Rabs (-1)) with 1 by (rewrite Rabs_left; lra). apply pow1. Qed.
Lemma sin_abs : forall x, Rabs (sin x) <= 1.
Proof. intros x. apply Rabs_le. apply SIN_bound. Qed.
Lemma cos_even_ge : forall t x, Rabs t <= Rabs x -> Rabs x < PI -> cos (x / 2) <= cos (t / 2).
Proof.
  intros t x H1 H2.
  assert (E : forall y, cos (y / 2) = cos (Rabs y / 2)).
  { intros y. unfold Rabs. destruct (Rcase_abs y); auto. replace (- y / 2) with (- (y / 2)) by field. rewrite cos_neg. reflexivity. }
  rewrite (E x), (E t). pose proof (Rabs_pos t). pose proof (Rabs_pos x). pose proof PI_RGT_0. apply cos_decr_1; lra.
Qed.

Section Bound.
Variables (N : nat) (x : R).
Hypothesis Hx : Rabs x < PI.
Let w := INR N + / 2.
Let c := cos (x / 2).
Lemma w_pos : 0 < w. Proof. unfold w. pose proof (pos_INR N). lra. Qed.
Lemma c_pos : 0 < c. Proof. unfold c. apply Rabs_lt_between in Hx. apply cos_gt_0; lra. Qed.
Let F t := - ssq N t - t / 2 + (-1) ^ N * sin (w * t) / (2 * w * cos (t / 2)).
Let F' t := (-1) ^ N * sin (w * t) * sin (t / 2) / (4 * w * (cos (t / 2)) ^ 2).
Lemma F_derive : forall t, Rabs t <= Rabs x -> is_derive F t (F' t).
Proof.
  intros t Ht. pose proof w_pos. pose proof c_pos. pose proof (cos_even_ge t x Ht Hx) as Hc. fold c in Hc.
  assert (Ct : 0 < cos (t / 2)) by lra.
  unfold F.
  replace (F' t) with (plus (minus (opp (dsq N t)) (/ 2))
    ((-1) ^ N * (cos (w * t) / (2 * cos (t / 2)) + sin (w * t) * sin (t / 2) / (4 * w * (cos (t / 2)) ^ 2)))).
  2:{ unfold plus, minus, opp, F'; simpl. pose proof (dsq_kernel N t) as K. fold w in K.
      assert (E : dsq N t = ((-1) ^ N * cos (w * t) - cos (t / 2)) / (2 * cos (t / 2))).
      { rewrite <- K. field. lra. }
      rewrite E. unfold plus, opp; simpl. field. lra. }
  apply (is_derive_plus (V:=R_NormedModule) (fun t => - ssq N t - t / 2)).
  - apply (is_derive_minus (V:=R_NormedModule) (fun t => - ssq N t) (fun t => t / 2)).
    + apply (is_derive_opp (V:=R_NormedModule) (ssq N)). apply ssq_derive.
    + auto_derive; auto. field.
  - clear Hc. revert H Ct. generalize ((-1) ^ N) w. intros b v Hv Ct. auto_derive; [nra|]. change (t * / 2) with (t / 2). field. lra.
Qed.
Lemma F_bound : forall t, Rabs t <= Rabs x -> Rabs (F t) <= / (4 * w * c ^ 2) * Rabs x.
Proof.
  intros t Ht. pose proof w_pos as Hw. pose proof c_pos as Hc.
  assert (B : Rabs (F t - F 0) <= / (4 * w * c ^ 2) * Rabs (t - 0)).
  { apply (bounded_variation F F'). intros s Hs. rewrite !Rminus_0_r in Hs.
    assert (Hs' : Rabs s <= Rabs x) by lra.
    split; [exact (F_derive s Hs')|].
    pose proof (cos_even_ge s x Hs' Hx) as G. fold c in G.
    unfold F', Rdiv. rewrite !Rabs_mult, sgn_abs, Rmult_1_l, Rabs_inv.
    assert (P1 : 0 < 4 * w * c ^ 2) by (apply Rmult_lt_0_compat; [lra|apply pow_lt; lra]).
    assert (P2 : 4 * w * c ^ 2 <= 4 * w * (cos (s * / 2)) ^ 2) by (apply Rmult_le_compat_l; [lra|apply pow_incr; unfold Rdiv in G; lra]).
    rewrite (Rabs_right (4 * w * _)) by lra.
    assert (0 < 4 * w * cos (s * / 2) ^ 2) by lra.
    assert (/ (4 * w * cos (s * / 2) ^ 2) <= / (4 * w * c ^ 2)) by (apply Rinv_le_contravar; lra).
    assert (0 < / (4 * w * cos (s * / 2) ^ 2)) by (apply Rinv_0_lt_compat; lra).
    pose proof (sin_abs (w * s)). pose proof (sin_abs (s * / 2)). pose proof (Rabs_pos (sin (w * s))). pose proof (Rabs_pos (sin (s * / 2))).
    assert (Rabs (sin (w * s)) * Rabs (sin (s * / 2)) <= 1 * 1) by (apply Rmult_le_compat; lra).
    assert (Rabs (sin (w * s)) * Rabs (sin (s * / 2)) * / (4 * w * cos (s * / 2) ^ 2) <= 1 * / (4 * w * cos (s * / 2) ^ 2)) by (apply Rmult_le_compat_r; lra).
    lra. }
  assert (F0 : F 0 = 0). { unfold F. rewrite ssq_0, Rmult_0_r, sin_0. unfold Rdiv. ring. }
  rewrite F0, !Rminus_0_r in B. eapply Rle_trans; [exact B|]. apply Rmult_le_compat_l; auto.
  left. apply Rinv_0_lt_compat. apply Rmult_lt_0_compat; [lra|apply pow_lt; lra].
Qed.
Lemma csq_var : Rabs (csq N x - x ^ 2 / 4 - csq N 0) <= (Rabs x / (4 * c ^ 2) + / (2 * c)) / w * Rabs x.
Proof.
  pose proof w_pos as Hw. pose proof c_pos as Hc.
  set (G := fun t => csq N t - t ^ 2 / 4).
  assert (B : Rabs (G x - G 0) <= (Rabs x / (4 * c ^ 2) + / (2 * c)) / w * Rabs (x - 0)).
  { apply (bounded_variation G (fun s => - ssq N s - s / 2)). intros s Hs. rewrite !Rminus_0_r in Hs.
    assert (D : is_derive G s (- ssq N s - s / 2)).
    { unfold G. apply (is_derive_minus (V:=R_NormedModule) (csq N) (fun t => t ^ 2 / 4)); [apply csq_derive|]. auto_derive; auto. field. }
    split; [exact D|].
    pose proof (F_bound s Hs) as FB. pose proof (cos_even_ge s x Hs Hx) as GE. fold c in GE.
    replace (- ssq N s - s / 2) with (F s - (-1) ^ N * sin (w * s) / (2 * w * cos (s / 2))) by (unfold F; ring).
    assert (SB : Rabs ((-1) ^ N * sin (w * s) / (2 * w * cos (s / 2))) <= / (2 * w * c)).
    { unfold Rdiv at 1. rewrite !Rabs_mult, sgn_abs, Rmult_1_l, Rabs_inv.
      assert (0 < 2 * w * c) by (apply Rmult_lt_0_compat; lra).
      assert (2 * w * c <= 2 * w * cos (s / 2)) by (apply Rmult_le_compat_l; lra).
      rewrite (Rabs_right (2 * w * _)) by lra.
      assert (/ (2 * w * cos (s / 2)) <= / (2 * w * c)) by (apply Rinv_le_contravar; lra).
      assert (0 < / (2 * w * cos (s / 2))) by (apply Rinv_0_lt_compat; lra).
      pose proof (sin_abs (w * s)). pose proof (Rabs_pos (sin (w * s))).
      assert (Rabs (sin (w * s)) * / (2 * w * cos (s / 2)) <= 1 * / (2 * w * cos (s / 2))) by (apply Rmult_le_compat_r; lra). lra. }
    replace ((Rabs x / (4 * c ^ 2) + / (2 * c)) / w) with (/ (4 * w * c ^ 2) * Rabs x + / (2 * w * c)) by (field; lra).
    eapply Rle_trans; [apply Rabs_triang|]. rewrite Rabs_Ropp. lra. }
  unfold G in B. replace (csq N x - x ^ 2 / 4 - (csq N 0 - 0 ^ 2 / 4)) with (csq N x - x ^ 2 / 4 - csq N 0) in B by (simpl; field).
  rewrite Rminus_0_r in B. exact B.
Qed.
End Bound.

(** a rate: there is [M] with error at most M / N *)
Theorem csq_rate : forall x, Rabs x <= PI -> exists M, forall N, (1 <= N)%nat -> Rabs (csq N x - (x ^ 2 / 4 - PI ^ 2 / 12)) <= M / INR N.
Proof.
  intros x Hx. destruct (Rlt_le_dec (Rabs x) PI) as [L|L].
  - pose proof (c_pos x L) as C. set (c := cos (x / 2)) in *.
    set (K := (Rabs x / (4 * c ^ 2) + / (2 * c)) * Rabs x).
    assert (K0 : 0 <= K).
    { unfold K. pose proof (Rabs_pos x). apply Rmult_le_pos; auto. apply Rplus_le_le_0_compat.
      - apply Rmult_le_pos; auto. left. apply Rinv_0_lt_compat. apply Rmult_lt_0_compat; [lra|apply pow_lt; lra].
      - left. apply Rinv_0_lt_compat. lra. }
    exists (K + 1). intros N HN. pose proof (csq_var N x L) as V. fold c in V. rewrite csq_0 in V.
    pose proof (lnq_int_n N) as A. rewrite lnq_int in A.
    assert (PN : 1 <= INR N) by (change 1 with (INR 1); apply le_INR; lia).
    assert (E1 : (Rabs x / (4 * c ^ 2) + / (2 * c)) / (INR N + / 2) * Rabs x <= K / INR N).
    { replace ((Rabs x / (4 * c ^ 2) + / (2 * c)) / (INR N + / 2) * Rabs x) with (K / (INR N + / 2)) by (unfold K; field; lra).
      apply Rmult_le_compat_l; auto. apply Rinv_le_contravar; lra. }
    assert (E2 : / INR (S N) ^ 2 <= 1 / INR N).
    { rewrite S_INR. unfold Rdiv. rewrite Rmult_1_l. apply Rinv_le_contravar; [lra|]. nra. }
    replace ((K + 1) / INR N) with (K / INR N + 1 / INR N) by (field; lra).
    replace (csq N x - (x ^ 2 / 4 - PI ^ 2 / 12)) with ((csq N x - x ^ 2 / 4 - - asum N) + (PI ^ 2 / 12 - asum N)) by ring.
    eapply Rle_trans; [apply Rabs_triang|]. lra.
  - assert (E : csq 0 x = csq 0 x) by reflexivity. exists 2. intros N HN.
    assert (X : x = PI \/ x = - PI) by (unfold Rabs in *; destruct (Rcase_abs x); lra).
    assert (CX : csq N x = zsum N) by (destruct X as [-> | ->]; [|rewrite csq_even]; apply csq_PI).
    assert (X2 : x ^ 2 = PI ^ 2) by (destruct X as [-> | ->]; ring).
    rewrite CX, X2. pose proof (basel_bound N HN) as B.
    assert (PN : 1 <= INR N) by (change 1 with (INR 1); apply le_INR; lia).
    assert (2 / INR (2 * N - 1) <= 2 / INR N).
    { apply Rmult_le_compat_l; [lra|]. apply Rinv_le_contravar; [lra|apply le_INR; lia]. }
    apply Rabs_le. lra.
Qed.

(** The sum of 1/k^2 is pi^2/6 (after Matsuoka) and the integral of ln(1+u)/u from 0 to 1 is pi^2/12.  Needed for the
    dilogarithm in density_of_states.py. *)
From Coq Require Import Reals Lra Lia Psatz.
From Coquelicot Require Import Coquelicot.
Local Open Scope R_scope.

Lemma int_c : forall c a b v, v = (b - a) * c -> is_RInt (fun _ : R => c) a b v.
Proof. intros c a b v ->. exact (is_RInt_const (V:=R_NormedModule) a b c). Qed.
Lemma cos_pow_cont : forall n x, continuous (fun x => cos x ^ n) x.
Proof. intros. apply (ex_derive_continuous (V:=R_NormedModule)). auto_derive; auto. Qed.
Lemma x2cos_cont : forall n x, continuous (fun x => x ^ 2 * cos x ^ n) x.
Proof. intros. apply (ex_derive_continuous (V:=R_NormedModule)). auto_derive; auto. Qed.

Definition wI (n : nat) : R := RInt (fun x => cos x ^ n) 0 (PI / 2).
Definition wJ (n : nat) : R := RInt (fun x => x ^ 2 * cos x ^ n) 0 (PI / 2).
Lemma wI_is : forall n, is_RInt (fun x => cos x ^ n) 0 (PI / 2) (wI n).
Proof. intros. apply (RInt_correct (V:=R_CompleteNormedModule)). apply (ex_RInt_continuous (V:=R_CompleteNormedModule)). intros. apply cos_pow_cont. Qed.
Lemma wJ_is : forall n, is_RInt (fun x => x ^ 2 * cos x ^ n) 0 (PI / 2) (wJ n).
Proof. intros. apply (RInt_correct (V:=R_CompleteNormedModule)). apply (ex_RInt_continuous (V:=R_CompleteNormedModule)). intros. apply x2cos_cont. Qed.

Lemma wI_0 : wI 0 = PI / 2.
Proof.
  apply (is_RInt_unique (V:=R_CompleteNormedModule)).
  replace (PI / 2) with (scal (PI / 2 - 0) 1) at 2 by (unfold scal; simpl; unfold mult; simpl; ring).
  eapply is_RInt_ext; [|apply (is_RInt_const (V:=R_NormedModule))]. intros; reflexivity.
Qed.
Lemma wJ_0 : wJ 0 = PI ^ 3 / 24.
Proof.
  apply (is_RInt_unique (V:=R_CompleteNormedModule)).
  replace (PI ^ 3 / 24) with (minus ((PI/2) ^ 3 / 3) (0 ^ 3 / 3)) by (unfold minus, plus, opp; simpl; field).
  apply (is_RInt_derive (V:=R_CompleteNormedModule) (fun x => x ^ 3 / 3)).
  - intros. auto_derive; auto. field.
  - intros. apply (x2cos_cont 0).
Qed.
(** 2n I_2n = (2n-1) I_2n-2 *)
Lemma wI_rec : forall n, (INR (n + 2)) * wI (n + 2) = INR (n + 1) * wI n.
Proof.
  intros n. pose proof (wI_is (n + 2)) as H2. pose proof (wI_is n) as H0.
  assert (D : is_RInt (fun x => INR (n + 2) * cos x ^ (n + 2) - INR (n + 1) * cos x ^ n) 0 (PI / 2) 0).
  { replace 0 with (minus (sin (PI/2) * cos (PI/2) ^ (n + 1)) (sin 0 * cos 0 ^ (n + 1))) at 2
      by (rewrite sin_0, cos_PI2, Nat.add_1_r; unfold minus, plus, opp; simpl; ring).
    apply (is_RInt_derive (V:=R_CompleteNormedModule) (fun x => sin x * cos x ^ (n + 1))).
    - intros x _. auto_derive; auto.
      replace (Init.Nat.pred (n + 1)) with n by lia. rewrite !plus_INR. simpl (INR 1). simpl (INR 2).
      replace (cos x ^ (n + 2)) with (cos x ^ 2 * cos x ^ n) by (rewrite <- pow_add; f_equal; lia).
      replace (cos x ^ (n + 1)) with (cos x * cos x ^ n) by (rewrite Nat.add_1_r; reflexivity).
      pose proof (sin2_cos2 x) as S. unfold Rsqr in S.
      match goal with |- ?l = ?r => cut (l - r = 0); [lra|] end.
      match goal with |- ?e = 0 => replace e with (- (INR n + 1) * cos x ^ n * (sin x * sin x + cos x * cos x - 1)) by ring end.
      rewrite S. ring.
    - intros x _. apply (ex_derive_continuous (V:=R_NormedModule)). auto_derive; auto. }
  assert (D' : is_RInt (fun x => INR (n + 2) * cos x ^ (n + 2) - INR (n + 1) * cos x ^ n) 0 (PI / 2)
     (INR (n + 2) * wI (n + 2) - INR (n + 1) * wI n)).
  { apply (is_RInt_minus (V:=R_NormedModule)); apply (is_RInt_scal (V:=R_NormedModule)); auto. }
  pose proof (is_RInt_unique (V:=R_CompleteNormedModule) _ _ _ _ D) as U1.
  pose proof (is_RInt_unique (V:=R_CompleteNormedModule) _ _ _ _ D') as U2. rewrite U1 in U2. lra.
Qed.
(** I_2n = n (2n-1) J_2n-2 - 2 n^2 J_2n; with m = 2n *)
Lemma wJ_rec : forall n, wI (n + 2) = INR (n + 2) / 2 * INR (n + 1) * wJ n - INR (n + 2) ^ 2 / 2 * wJ (n + 2).
Proof.
  intros n. pose proof (wI_is (n + 2)) as HI. pose proof (wJ_is (n + 2)) as H2. pose proof (wJ_is n) as H0.
  set (q := INR (n + 2) / 2).
  assert (Q : INR (n + 2) = 2 * q) by (unfold q; field).
  assert (Q1 : INR (n + 1) = 2 * q - 1) by (rewrite <- Q, !plus_INR; simpl; ring).
  set (f := fun x => cos x ^ (n + 2) + (INR (n + 2) ^ 2 / 2 * (x ^ 2 * cos x ^ (n + 2)) - q * INR (n + 1) * (x ^ 2 * cos x ^ n))).
  assert (D : is_RInt f 0 (PI / 2) 0).
  { unfold f. set (F := fun x => x * cos x ^ (n + 2) + q * x ^ 2 * (sin x * cos x ^ (n + 1))).
    replace 0 with (minus (F (PI / 2)) (F 0)) at 2
      by (unfold F; rewrite sin_0, cos_PI2, Nat.add_1_r; replace (n + 2)%nat with (S (S n)) by lia; unfold minus, plus, opp; simpl; ring).
    apply (is_RInt_derive (V:=R_CompleteNormedModule) F).
    - intros x _. unfold F. auto_derive; auto.
      replace (Init.Nat.pred (n + 2)) with (n + 1)%nat by lia.
      replace (Init.Nat.pred (n + 1)) with n by lia. rewrite Q, Q1.
      replace (cos x ^ (n + 2)) with (cos x ^ 2 * cos x ^ n) by (rewrite <- pow_add; f_equal; lia).
      replace (cos x ^ (n + 1)) with (cos x * cos x ^ n) by (rewrite Nat.add_1_r; reflexivity).
      pose proof (sin2_cos2 x) as S. unfold Rsqr in S.
      set (C := cos x ^ n). clearbody C.
      match goal with |- ?l = ?r => cut (l - r = 0); [lra|] end.
      match goal with |- ?e = 0 => replace e with (- q * (2 * q - 1) * x ^ 2 * C * (sin x * sin x + cos x * cos x - 1)) by field end.
      rewrite S. ring.
    - intros x _. apply (ex_derive_continuous (V:=R_NormedModule)). auto_derive; auto. }
  assert (D' : is_RInt f 0 (PI / 2) (wI (n + 2) + (INR (n + 2) ^ 2 / 2 * wJ (n + 2) - q * INR (n + 1) * wJ n))).
  { unfold f. apply (is_RInt_plus (V:=R_NormedModule)); auto.
    apply (is_RInt_minus (V:=R_NormedModule)); apply (is_RInt_scal (V:=R_NormedModule)); auto. }
  pose proof (is_RInt_unique (V:=R_CompleteNormedModule) _ _ _ _ D) as U1.
  pose proof (is_RInt_unique (V:=R_CompleteNormedModule) _ _ _ _ D') as U2. rewrite U1 in U2. lra.
Qed.

Lemma xcos_sin : forall x, 0 <= x <= PI / 2 -> x * cos x <= sin x.
Proof.
  intros x [H0 H1]. destruct (Req_dec x 0) as [->|N]; [rewrite sin_0; lra|].
  destruct (MVT_cor2 (fun x => sin x - x * cos x) (fun x => x * sin x) 0 x) as (c & E & C); [lra| |].
  - intros c _. apply is_derive_Reals. auto_derive; auto. ring.
  - rewrite sin_0 in E. assert (0 <= sin c) by (apply sin_ge_0; pose proof PI_RGT_0; lra).
    assert (0 <= c * sin c * (x - 0)) by (repeat apply Rmult_le_pos; lra). lra.
Qed.
(** 0 <= J_m+2 <= I_m - I_m+2 *)
Lemma wJ_bound : forall n, 0 <= wJ (n + 2) <= wI n - wI (n + 2).
Proof.
  intros n. pose proof PI_RGT_0 as HP. split.
  - assert (Z : is_RInt (fun _ : R => 0) 0 (PI / 2) 0).
    { apply int_c. ring. }
    apply (is_RInt_le (fun _ => 0) (fun x => x ^ 2 * cos x ^ (n + 2)) 0 (PI / 2)); auto; [lra|apply wJ_is|].
    intros x Hx. apply Rmult_le_pos; [apply pow2_ge_0|]. apply pow_le, cos_ge_0; lra.
  - apply (is_RInt_le (fun x => x ^ 2 * cos x ^ (n + 2)) (fun x => cos x ^ n - cos x ^ (n + 2)) 0 (PI / 2)); [lra|apply wJ_is| |].
    + apply (is_RInt_minus (V:=R_NormedModule)); apply wI_is.
    + intros x Hx. rewrite pow_add. set (C := cos x ^ n).
      assert (0 <= C) by (unfold C; apply pow_le, cos_ge_0; lra).
      pose proof (xcos_sin x ltac:(lra)) as X. assert (0 <= cos x) by (apply cos_ge_0; lra).
      assert (0 <= x * cos x) by (apply Rmult_le_pos; lra).
      pose proof (sin2_cos2 x) as S. unfold Rsqr in S.
      assert ((x * cos x) * (x * cos x) <= sin x * sin x) by (apply Rmult_le_compat; lra).
      replace (x ^ 2 * (C * cos x ^ 2)) with (C * (x * cos x * (x * cos x))) by ring.
      replace (C - C * cos x ^ 2) with (C * (1 - cos x * cos x)) by ring.
      apply Rmult_le_compat_l; lra.
Qed.

(** partial sums of 1/k^2 *)
Fixpoint zsum (n : nat) : R := match n with O => 0 | S m => zsum m + / INR (S m) ^ 2 end.
Fixpoint cc (n : nat) : R := match n with O => 1 | S m => cc m * (INR (2 * m + 2) / INR (2 * m + 1)) end.
Lemma cc_pos : forall n, 0 < cc n.
Proof.
  induction n; cbn [cc]; [lra|]. apply Rmult_lt_0_compat; auto.
  apply Rdiv_lt_0_compat; apply lt_0_INR; lia.
Qed.
Lemma wI_cc : forall n, wI (2 * n) * cc n = PI / 2.
Proof.
  induction n.
  - rewrite Nat.mul_0_r, wI_0. cbn [cc]. ring.
  - replace (2 * S n)%nat with (2 * n + 2)%nat by lia. cbn [cc].
    pose proof (wI_rec (2 * n)) as H. rewrite <- IHn.
    assert (INR (2 * n + 1) <> 0) by (apply not_0_INR; lia). assert (INR (2 * n + 2) <> 0) by (apply not_0_INR; lia).
    apply Rmult_eq_reg_r with (INR (2 * n + 1)); auto.
    transitivity (cc n * (INR (2 * n + 2) * wI (2 * n + 2))); [field; auto|]. rewrite H. ring.
Qed.
Lemma zsum_J : forall n, zsum n = PI ^ 2 / 6 - 4 / PI * (cc n * wJ (2 * n)).
Proof.
  pose proof PI_RGT_0 as HP.
  induction n.
  - rewrite Nat.mul_0_r, wJ_0. cbn [cc zsum]. field; lra.
  - cbn [zsum]. rewrite IHn. replace (2 * S n)%nat with (2 * n + 2)%nat by lia.
    pose proof (wJ_rec (2 * n)) as H. pose proof (wI_cc (S n)) as W. replace (2 * S n)%nat with (2 * n + 2)%nat in W by lia.
    rewrite H in W. cbn [cc] in W |- *.
    assert (N1 : INR (2 * n + 1) <> 0) by (apply not_0_INR; lia).
    assert (N2 : INR (2 * n + 2) = 2 * INR (S n)) by (rewrite plus_INR, mult_INR, (S_INR n); simpl; ring).
    assert (NS : INR (S n) <> 0) by (apply not_0_INR; lia). rewrite N2 in W |- *.
    set (m := INR (S n)) in *. set (j0 := wJ (2 * n)) in *. set (j1 := wJ (2 * n + 2)) in *. set (c := cc n) in *. set (u := INR (2 * n + 1)) in *.
    assert (W' : 2 * m * m * (c * j0) - 2 * m * m * (c * (2 * m / u) * j1) = PI / 2).
    { rewrite <- W. field; auto. }
    match goal with |- ?l = ?r => cut (l - r = 0); [lra|] end.
    replace (PI ^ 2 / 6 - 4 / PI * (c * j0) + / m ^ 2 - (PI ^ 2 / 6 - 4 / PI * (c * (2 * m / u) * j1)))
      with (/ m ^ 2 - 2 / PI / m ^ 2 * (2 * m * m * (c * j0) - 2 * m * m * (c * (2 * m / u) * j1))) by (field; repeat split; auto; lra).
    rewrite W'. field. split; auto; lra.
Qed.
Lemma basel_bound : forall n, (1 <= n)%nat -> 0 <= PI ^ 2 / 6 - zsum n <= 2 / INR (2 * n - 1).
Proof.
  intros n Hn. pose proof PI_RGT_0 as HP. rewrite zsum_J. destruct n as [|n]; [lia|].
  replace (2 * S n)%nat with (2 * n + 2)%nat by lia. replace (2 * n + 2 - 1)%nat with (2 * n + 1)%nat by lia.
  pose proof (wJ_bound (2 * n)) as [B0 B1]. pose proof (cc_pos (S n)) as C.
  pose proof (wI_cc (S n)) as W1. pose proof (wI_cc n) as W0. replace (2 * S n)%nat with (2 * n + 2)%nat in W1 by lia.
  assert (N1 : 0 < INR (2 * n + 1)) by (apply lt_0_INR; lia).
  assert (N2 : INR (2 * n + 2) = INR (2 * n + 1) + 1) by (rewrite !plus_INR; simpl; ring).
  assert (X : cc (S n) * (wI (2 * n) - wI (2 * n + 2)) = PI / 2 / INR (2 * n + 1)).
  { rewrite Rmult_minus_distr_l, (Rmult_comm _ (wI (2 * n + 2))), W1. cbn [cc]. rewrite N2.
    replace (cc n * ((INR (2 * n + 1) + 1) / INR (2 * n + 1)) * wI (2 * n)) with (wI (2 * n) * cc n * ((INR (2 * n + 1) + 1) / INR (2 * n + 1))) by ring.
    rewrite W0. field; lra. }
  assert (P4 : 0 < 4 / PI) by (apply Rdiv_lt_0_compat; lra).
  assert (L : cc (S n) * wJ (2 * n + 2) <= PI / 2 / INR (2 * n + 1)) by (rewrite <- X; apply Rmult_le_compat_l; lra).
  assert (L0 : 0 <= cc (S n) * wJ (2 * n + 2)) by (apply Rmult_le_pos; lra).
  split.
  - assert (0 <= 4 / PI * (cc (S n) * wJ (2 * n + 2))) by (apply Rmult_le_pos; lra). lra.
  - assert (4 / PI * (cc (S n) * wJ (2 * n + 2)) <= 4 / PI * (PI / 2 / INR (2 * n + 1))) by (apply Rmult_le_compat_l; lra).
    replace (4 / PI * (PI / 2 / INR (2 * n + 1))) with (2 / INR (2 * n + 1)) in H by (field; lra). lra.
Qed.

(** ** the integral of ln(1+u)/u *)
Fixpoint lsum (n : nat) (u : R) : R := match n with O => 0 | S m => lsum m u + (-1) ^ m * u ^ S m / INR (S m) end.
Fixpoint asum (n : nat) : R := match n with O => 0 | S m => asum m + (-1) ^ m / INR (S m) ^ 2 end.
Fixpoint gsum (n : nat) (u : R) : R := match n with O => 0 | S m => gsum m u + (-1) ^ m * u ^ m end.
Fixpoint qsum (n : nat) (u : R) : R := match n with O => 0 | S m => qsum m u + (-1) ^ m * u ^ m / INR (S m) end.
Lemma lsum_derive : forall n u, is_derive (lsum n) u (gsum n u).
Proof.
  induction n; intros u; cbn [lsum gsum].
  - exact (is_derive_const (V:=R_NormedModule) 0 u).
  - apply (is_derive_plus (V:=R_NormedModule) (lsum n)); [apply IHn|].
    assert (INR (S n) <> 0) by (apply not_0_INR; lia).
    auto_derive; auto. change (Init.Nat.pred (S n)) with n. fold (INR (S n)).
    change (match n with 0%nat => 1 | S _ => INR n + 1 end) with (INR (S n)).
    field; auto.
Qed.
Lemma gsum_geom : forall n u, (1 + u) * gsum n u = 1 - (-u) ^ n.
Proof.
  induction n; intros u; cbn [gsum]; [simpl; ring|]. rewrite Rmult_plus_distr_l, IHn.
  replace ((-u) ^ S n) with (- u * (-1 * u) ^ n) by (rewrite <- tech_pow_Rmult; do 2 f_equal; ring).
  replace ((- u) ^ n) with ((-1 * u) ^ n) by (f_equal; ring). rewrite Rpow_mult_distr. ring.
Qed.
Lemma ln_lsum : forall n u, 0 <= u -> Rabs (ln (1 + u) - lsum n u) <= u ^ S n / INR (S n).
Proof.
  intros n u Hu. assert (Sn : 0 < INR (S n)) by (apply lt_0_INR; lia).
  destruct (Req_dec u 0) as [->|N].
  - assert (E : lsum n 0 = 0).
    { induction n; cbn [lsum]; auto. rewrite IHn by (apply lt_0_INR; lia). simpl pow. unfold Rdiv. ring. }
    rewrite E, Rplus_0_r, ln_1. replace (0 - 0) with 0 by ring. rewrite Rabs_R0. simpl. unfold Rdiv. rewrite !Rmult_0_l. lra.
  - set (D := fun u => ln (1 + u) - lsum n u). set (d := fun u => (-u) ^ n / (1 + u)).
    assert (DD : forall t, 0 <= t -> is_derive D t (d t)).
    { intros t Ht. unfold D, d. replace ((- t) ^ n / (1 + t)) with (minus (/ (1 + t)) (gsum n t)).
      - apply (is_derive_minus (V:=R_NormedModule) (fun u => ln (1 + u)) (lsum n)); [|apply lsum_derive]. auto_derive; [lra|]. field; lra.
      - unfold minus, plus, opp; simpl. pose proof (gsum_geom n t) as G.
        apply Rmult_eq_reg_l with (1 + t); [|lra]. field_simplify; [|lra|lra]. lra. }
    assert (I : is_RInt d 0 u (D u - D 0)).
    { apply (is_RInt_derive (V:=R_CompleteNormedModule) D d).
      - intros t Ht. apply DD. rewrite Rmin_left in Ht by lra. lra.
      - intros t Ht. rewrite Rmin_left in Ht by lra. apply (ex_derive_continuous (V:=R_NormedModule)). unfold d. auto_derive; lra. }
    assert (D0 : D 0 = 0).
    { unfold D. rewrite Rplus_0_r, ln_1. assert (E : lsum n 0 = 0).
      { clear. induction n; cbn [lsum]; auto. rewrite IHn. simpl pow. unfold Rdiv. ring. } rewrite E. ring. }
    assert (P : is_RInt (fun t => t ^ n) 0 u (u ^ S n / INR (S n))).
    { replace (u ^ S n / INR (S n)) with (minus (u ^ S n / INR (S n)) (0 ^ S n / INR (S n))).
      2:{ unfold minus, plus, opp; simpl. unfold Rdiv. rewrite !Rmult_0_l. ring. }
      apply (is_RInt_derive (V:=R_CompleteNormedModule) (fun t => t ^ S n / INR (S n))).
      - intros t _. auto_derive; auto. change (match n with 0%nat => 1 | S _ => INR n + 1 end) with (INR (S n)). simpl pred. field. lra.
      - intros t _. apply (ex_derive_continuous (V:=R_NormedModule)). auto_derive; auto. }
    assert (B : forall t, 0 <= t -> - t ^ n <= d t <= t ^ n).
    { intros t Ht. unfold d. assert (Rabs ((- t) ^ n / (1 + t)) <= t ^ n).
      { unfold Rdiv. rewrite Rabs_mult, <- RPow_abs, Rabs_Ropp, (Rabs_right t) by lra. rewrite Rabs_inv, (Rabs_right (1 + t)) by lra.
        assert (0 <= t ^ n) by (apply pow_le; lra). assert (/ (1 + t) <= 1) by (rewrite <- Rinv_1; apply Rinv_le_contravar; lra).
        rewrite <- (Rmult_1_r (t ^ n)) at 2. apply Rmult_le_compat_l; lra. }
      apply Rabs_le_between in H. lra. }
    apply Rabs_le. rewrite D0, Rminus_0_r in I. change (ln (1 + u) - lsum n u) with (D u).
    split.
    + replace (- (u ^ S n / INR (S n))) with (opp (u ^ S n / INR (S n))) by reflexivity.
      apply (is_RInt_le (fun t => - t ^ n) d 0 u); auto; [apply (is_RInt_opp (V:=R_NormedModule)); auto|]. intros t Ht. apply B; lra.
    + apply (is_RInt_le d (fun t => t ^ n) 0 u); auto. intros t Ht. apply B; lra.
Qed.
Lemma lsum_q : forall n u, lsum n u = u * qsum n u.
Proof. induction n; intros u; cbn [lsum qsum]; [ring|]. rewrite IHn, <- tech_pow_Rmult. unfold Rdiv. ring. Qed.
Lemma qsum_int : forall n, is_RInt (qsum n) 0 1 (asum n).
Proof.
  induction n; cbn [qsum asum].
  - apply int_c. ring.
  - apply (is_RInt_plus (V:=R_NormedModule) (qsum n)); auto.
    assert (INR (S n) <> 0) by (apply not_0_INR; lia).
    replace ((-1) ^ n / INR (S n) ^ 2) with (minus ((-1) ^ n * 1 ^ S n / INR (S n) ^ 2) ((-1) ^ n * 0 ^ S n / INR (S n) ^ 2)).
    2:{ unfold minus, plus, opp; simpl plus; simpl opp. rewrite pow1, (pow_i (S n)) by lia. change (one (K:=R_AbsRing)) with 1. simpl. unfold Rdiv. ring. }
    apply (is_RInt_derive (V:=R_CompleteNormedModule) (fun u => (-1) ^ n * u ^ S n / INR (S n) ^ 2)).
    + intros u _. auto_derive; auto. change (match n with 0%nat => 1 | S _ => INR n + 1 end) with (INR (S n)). simpl pred. field; auto.
    + intros u _. apply (ex_derive_continuous (V:=R_NormedModule)). auto_derive; auto.
Qed.

(** ln(1+u)/u, continued by 1 at u = 0 *)
Definition lnq (u : R) : R := if Req_EM_T u 0 then 1 else ln (1 + u) / u.
Lemma lnq_cont : forall u, -1 < u -> continuous lnq u.
Proof.
  intros u Hu. destruct (Req_dec u 0) as [->|N].
  - (* derivative of the logarithm at 1 *)
    assert (D : is_derive (fun u => ln (1 + u)) 0 1) by (auto_derive; [lra|]; field).
    apply is_derive_Reals in D. unfold derivable_pt_lim in D.
    apply continuity_pt_filterlim. unfold continuity_pt, continue_in, limit1_in, limit_in. intros eps He.
    destruct (D eps He) as [del Hd]. exists del. split; [apply cond_pos|].
    intros x [[_ Hx] Hd2]. simpl in *. unfold R_dist in *. rewrite Rminus_0_r in Hd2.
    unfold lnq. destruct (Req_EM_T 0 0) as [_|C]; [|congruence]. destruct (Req_EM_T x 0) as [E|E]; [congruence|].
    specialize (Hd x E Hd2). rewrite Rplus_0_l, Rplus_0_r, ln_1, Rminus_0_r in Hd. exact Hd.
  - apply continuous_ext_loc with (fun u => ln (1 + u) / u).
    + exists (mkposreal (Rabs u) (Rabs_pos_lt u N)). intros y Hy. unfold lnq. destruct (Req_EM_T y 0) as [->|]; auto.
      exfalso. unfold ball in Hy; simpl in Hy. unfold AbsRing_ball, abs, minus, plus, opp in Hy; simpl in Hy.
      rewrite Rplus_0_l, Rabs_Ropp in Hy. lra.
    + apply (ex_derive_continuous (V:=R_NormedModule)). auto_derive. split; [lra|auto].
Qed.
Lemma lnq_ex : forall a b, -1 < a -> -1 < b -> ex_RInt lnq a b.
Proof.
  intros a b Ha Hb. apply (ex_RInt_continuous (V:=R_CompleteNormedModule)). intros z Hz. apply lnq_cont.
  unfold Rmin in Hz. destruct (Rle_dec a b); lra.
Qed.
Lemma lnq_int_n : forall n, Rabs (RInt lnq 0 1 - asum n) <= / INR (S n) ^ 2.
Proof.
  intros n. assert (Sn : 0 < INR (S n)) by (apply lt_0_INR; lia).
  pose proof (RInt_correct (V:=R_CompleteNormedModule) lnq 0 1 (lnq_ex 0 1 ltac:(lra) ltac:(lra))) as I.
  pose proof (is_RInt_minus (V:=R_NormedModule) _ _ _ _ _ _ I (qsum_int n)) as M.
  set (g := fun u => u ^ n / INR (S n)).
  assert (G : is_RInt g 0 1 (/ INR (S n) ^ 2)).
  { replace (/ INR (S n) ^ 2) with (minus (1 ^ S n / INR (S n) ^ 2) (0 ^ S n / INR (S n) ^ 2)).
    2:{ unfold minus, plus, opp; simpl plus; simpl opp. rewrite pow1, (pow_i (S n)) by lia. simpl. unfold Rdiv. ring. }
    apply (is_RInt_derive (V:=R_CompleteNormedModule) (fun u => u ^ S n / INR (S n) ^ 2)).
    + intros u _. unfold g. auto_derive; auto. change (match n with 0%nat => 1 | S _ => INR n + 1 end) with (INR (S n)). simpl pred. field; lra.
    + intros u _. unfold g. apply (ex_derive_continuous (V:=R_NormedModule)). auto_derive; auto. }
  assert (B : forall u, 0 < u < 1 -> - g u <= lnq u - qsum n u <= g u).
  { intros u Hu. unfold lnq. destruct (Req_EM_T u 0); [lra|].
    pose proof (ln_lsum n u ltac:(lra)) as L. rewrite lsum_q in L.
    replace (ln (1 + u) / u - qsum n u) with ((ln (1 + u) - u * qsum n u) / u) by (field; lra).
    assert (Rabs ((ln (1 + u) - u * qsum n u) / u) <= g u).
    { unfold Rdiv at 1. rewrite Rabs_mult, Rabs_inv, (Rabs_right u) by lra. apply Rmult_le_reg_r with u; [lra|].
      rewrite Rmult_assoc, Rinv_l, Rmult_1_r by lra. unfold g. replace (u ^ n / INR (S n) * u) with (u ^ S n / INR (S n)); auto.
      rewrite <- tech_pow_Rmult. field. lra. }
    apply Rabs_le_between in H. lra. }
  apply Rabs_le. split.
  - change (- / INR (S n) ^ 2) with (opp (/ INR (S n) ^ 2)).
    eapply (is_RInt_le (fun u => - g u)); [|apply (is_RInt_opp (V:=R_NormedModule)); exact G|exact M|]; [lra|]. intros u Hu. apply B; auto.
  - eapply is_RInt_le; [|exact M|exact G|]; [lra|]. intros u Hu. apply B; auto.
Qed.
Lemma asum_even : forall n, asum (2 * n) = zsum (2 * n) - zsum n / 2.
Proof.
  induction n.
  - simpl. field.
  - replace (2 * S n)%nat with (S (S (2 * n))) by lia. cbn [asum zsum]. rewrite IHn.
    replace ((-1) ^ (2 * n)) with 1 by (rewrite pow_1_even; auto).
    replace ((-1) ^ S (2 * n)) with (-1) by (rewrite pow_1_odd; auto).
    assert (N2 : INR (S (S (2 * n))) = 2 * INR (S n)) by (rewrite (S_INR (S (2 * n))), (S_INR (2 * n)), mult_INR, (S_INR n); simpl; ring).
    assert (INR (S n) <> 0) by (apply not_0_INR; lia). assert (INR (S (2 * n)) <> 0) by (apply not_0_INR; lia).
    rewrite N2. field. auto.
Qed.
Theorem lnq_int : RInt lnq 0 1 = PI ^ 2 / 12.
Proof.
  set (L := RInt lnq 0 1). 
  assert (B : forall n, (1 <= n)%nat -> Rabs (L - PI ^ 2 / 12) <= 5 / INR n).
  { intros n Hn. pose proof (lnq_int_n (2 * n)) as A. fold L in A. rewrite asum_even in A.
    pose proof (basel_bound n Hn) as B1. pose proof (basel_bound (2 * n) ltac:(lia)) as B2.
    assert (Pn : 0 < INR n) by (apply lt_0_INR; lia).
    assert (E1 : 2 / INR (2 * n - 1) <= 2 / INR n).
    { apply Rmult_le_compat_l; [lra|]. apply Rinv_le_contravar; auto. apply le_INR; lia. }
    assert (E2 : 2 / INR (2 * (2 * n) - 1) <= 2 / INR n).
    { apply Rmult_le_compat_l; [lra|]. apply Rinv_le_contravar; auto. apply le_INR; lia. }
    assert (E3 : / INR (S (2 * n)) ^ 2 <= / INR n).
    { apply Rinv_le_contravar; auto.
      assert (G1 : INR n <= INR (S (2 * n))) by (apply le_INR; lia).
      assert (G2 : INR 1 <= INR (S (2 * n))) by (apply le_INR; lia). change (INR 1) with 1 in G2.
      revert G1 G2. generalize (INR (S (2 * n))). intros s G1 G2. nra. }
    set (z1 := zsum n) in *. set (z2 := zsum (2 * n)) in *. unfold Rdiv in E1, E2 |- *.
    apply Rabs_le_between in A. apply Rabs_le. lra. }
  destruct (Req_dec L (PI ^ 2 / 12)) as [|N]; auto. exfalso.
  assert (P : 0 < Rabs (L - PI ^ 2 / 12)) by (apply Rabs_pos_lt; lra).
  set (e := Rabs (L - PI ^ 2 / 12)) in *.
  destruct (archimed_cor1 (e / 5)) as (n & H1 & H2); [lra|].
  specialize (B n ltac:(lia)). unfold Rdiv in *. lra.
Qed.

(** The moments of the derivative of the Fermi function in terms of the zeta function (for C52). *)
From Coq Require Import Reals Lra Lia Psatz List.
From Coquelicot Require Import Coquelicot.
From Verif Require Import NbrModel SmearModel SmearCalc DosModel Basel FermiInt FermiConv BulkModel.
Import List ListNotations.
Local Open Scope R_scope.

(** ** antiderivative of x^n exp(-k x) *)
Fixpoint Gk (n : nat) (k x : R) : R :=
  match n with
  | O => - (exp (- (k * x)) / k)
  | S m => - (x ^ S m * exp (- (k * x)) / k) + INR (S m) / k * Gk m k x
  end.
Lemma Gk_derive : forall n k x, 0 < k -> is_derive (Gk n k) x (x ^ n * exp (- (k * x))).
Proof.
  induction n as [|n IH]; intros k x Hk.
  - cbn [Gk pow]. auto_derive; [lra|]. field. lra.
  - apply (is_derive_ext (fun x => plus (- (x ^ S n * exp (- (k * x)) / k)) (INR (S n) / k * Gk n k x))).
    { intro t. reflexivity. }
    replace (x ^ S n * exp (- (k * x))) with (plus (x ^ S n * exp (- (k * x)) - INR (S n) * x ^ n * exp (- (k * x)) / k) (INR (S n) / k * (x ^ n * exp (- (k * x)))))
      by (unfold plus; cbn -[INR pow]; field; lra).
    apply (is_derive_plus (V:=R_NormedModule)).
    + auto_derive; auto. change (match n with 0%nat => 1 | S _ => INR n + 1 end) with (INR (S n)).
      generalize (INR (S n)). intro c. cbn [pow]. field. lra.
    + apply (is_derive_scal (fun x => Gk n k x)). apply IH, Hk.
Qed.
Lemma Gk_0 : forall n k, 0 < k -> Gk n k 0 = - (INR (fact n) / k ^ S n).
Proof.
  induction n as [|n IH]; intros k Hk; cbn [Gk].
  - rewrite Rmult_0_r, Ropp_0, exp_0. cbn. field. lra.
  - rewrite IH by auto. rewrite pow_i by lia. change (fact (S n)) with (S n * fact n)%nat. rewrite mult_INR.
    assert (0 < k ^ S n) by (apply pow_lt; auto). change (k ^ S (S n)) with (k * k ^ S n). field. split; lra.
Qed.
Lemma Gk_neg : forall n k x, 0 < k -> 0 <= x -> Gk n k x <= 0.
Proof.
  induction n as [|n IH]; intros k x Hk Hx; cbn [Gk].
  - pose proof (exp_pos (- (k * x))). assert (0 < exp (- (k * x)) / k) by (apply Rdiv_lt_0_compat; auto). lra.
  - specialize (IH k x Hk Hx). pose proof (exp_pos (- (k * x))).
    assert (0 <= x ^ S n * exp (- (k * x)) / k).
    { apply Rmult_le_pos; [apply Rmult_le_pos; [apply pow_le, Hx|lra]|]. apply Rlt_le, Rinv_0_lt_compat, Hk. }
    assert (0 <= INR (S n) / k) by (apply Rmult_le_pos; [apply pos_INR|apply Rlt_le, Rinv_0_lt_compat, Hk]).
    nra.
Qed.
Lemma exp_pow : forall n x, exp (INR n * x) = exp x ^ n.
Proof.
  induction n as [|n IH]; intro x; [cbn; rewrite Rmult_0_l; apply exp_0|].
  rewrite S_INR, Rmult_plus_distr_r, exp_plus, IH, Rmult_1_l. cbn [pow]. ring.
Qed.
Lemma pow_exp_bound : forall n x, 0 < x -> x ^ n * exp (- x) <= INR (S n) ^ S n / x.
Proof.
  intros n x Hx. assert (Hn : 0 < INR (S n)) by (apply lt_0_INR; lia).
  assert (E : exp x = exp (x / INR (S n)) ^ S n).
  { rewrite <- exp_pow. f_equal. field. lra. }
  assert (H1 : x / INR (S n) <= exp (x / INR (S n))).
  { pose proof (exp_ineq1_le (x / INR (S n))). lra. }
  assert (H0 : 0 < x / INR (S n)) by (apply Rdiv_lt_0_compat; auto).
  assert (H2 : (x / INR (S n)) ^ S n <= exp x) by (rewrite E; apply pow_incr; lra).
  unfold Rdiv in H2. rewrite Rpow_mult_distr, pow_inv in H2.
  assert (Hp : 0 < INR (S n) ^ S n) by (apply pow_lt; auto).
  rewrite exp_Ropp. pose proof (exp_pos x) as ex.
  apply Rmult_le_reg_r with (x * exp x); [apply Rmult_lt_0_compat; auto|].
  replace (x ^ n * / exp x * (x * exp x)) with (x ^ S n) by (cbn [pow]; field; lra).
  replace (INR (S n) ^ S n / x * (x * exp x)) with (INR (S n) ^ S n * exp x) by (field; lra).
  apply (Rmult_le_compat_r (INR (S n) ^ S n)) in H2; [|lra].
  replace (x ^ S n * / INR (S n) ^ S n * INR (S n) ^ S n) with (x ^ S n) in H2 by (field; lra). lra.
Qed.
Lemma Gk_bound : forall n, exists C, 0 <= C /\ forall k x, 1 <= k -> 0 < x -> Rabs (Gk n k x) <= C / x.
Proof.
  induction n as [|n [C [HC IH]]].
  - exists (INR 1 ^ 1). split; [cbn; lra|]. intros k x Hk Hx. cbn [Gk]. rewrite Rabs_Ropp.
    pose proof (pow_exp_bound 0 x Hx) as b. rewrite pow_O, Rmult_1_l in b.
    assert (exp (- (k * x)) <= exp (- x)).
    { destruct (Req_dec k 1) as [->|]; [rewrite Rmult_1_l; lra|]. apply Rlt_le, exp_increasing. nra. }
    pose proof (exp_pos (- (k * x))). rewrite Rabs_right.
    + apply Rle_trans with (exp (- (k * x))); [|lra]. apply Rmult_le_reg_r with k; [lra|]. unfold Rdiv. rewrite Rmult_assoc, Rinv_l by lra. nra.
    + apply Rle_ge, Rlt_le, Rdiv_lt_0_compat; lra.
  - exists (INR (S (S n)) ^ S (S n) + INR (S n) * C). split.
    { apply Rplus_le_le_0_compat; [apply pow_le, pos_INR|apply Rmult_le_pos; [apply pos_INR|auto]]. }
    intros k x Hk Hx. change (Gk (S n) k x) with (- (x ^ S n * exp (- (k * x)) / k) + INR (S n) / k * Gk n k x).
    pose proof (pow_exp_bound (S n) x Hx) as b.
    assert (exp (- (k * x)) <= exp (- x)).
    { destruct (Req_dec k 1) as [->|]; [rewrite Rmult_1_l; lra|]. apply Rlt_le, exp_increasing. nra. }
    pose proof (exp_pos (- (k * x))) as ep'. assert (Hp : 0 < x ^ S n) by (apply pow_lt; auto).
    assert (ik : / k <= 1) by (rewrite <- Rinv_1; apply Rinv_le_contravar; lra).
    assert (ik0 : 0 < / k) by (apply Rinv_0_lt_compat; lra).
    apply Rle_trans with (x ^ S n * exp (- x) + INR (S n) * (C / x)).
    + eapply Rle_trans; [apply Rabs_triang|]. apply Rplus_le_compat.
      * rewrite Rabs_Ropp, Rabs_right.
        -- unfold Rdiv. apply Rle_trans with (x ^ S n * exp (- (k * x)) * 1); [|rewrite Rmult_1_r; apply Rmult_le_compat_l; lra].
           apply Rmult_le_compat_l; [|exact ik]. apply Rmult_le_pos; lra.
        -- apply Rle_ge, Rmult_le_pos; [apply Rmult_le_pos|]; lra.
      * rewrite Rabs_mult. pose proof (IH k x Hk Hx). pose proof (pos_INR (S n)). pose proof (Rabs_pos (Gk n k x)).
        rewrite (Rabs_right (INR (S n) / k)) by (apply Rle_ge, Rmult_le_pos; lra).
        apply Rmult_le_compat; auto; [apply Rmult_le_pos; lra|]. unfold Rdiv. nra.
    + unfold Rdiv in *. rewrite Rmult_plus_distr_r. nra.
Qed.

(** ** the alternating sum *)
Definition sg (k : nat) : R := (-1) ^ k.
Lemma sg_cases : forall k, sg k = 1 \/ sg k = -1.
Proof. induction k; unfold sg in *; cbn [pow]; [left; reflexivity|]. destruct IHk as [->| ->]; [right|left]; ring. Qed.
Fixpoint wsum (K : nat) (u : R) : R := match K with O => 0 | S m => wsum m u + sg m * INR (S m) * u ^ S m end.
Lemma wsum_eq : forall K u, (1 + u) ^ 2 * wsum K u = u - sg K * (INR (S K) * u ^ S K + INR K * u ^ S (S K)).
Proof.
  induction K as [|K IH]; intro u; cbn [wsum].
  - unfold sg. cbn. ring.
  - rewrite Rmult_plus_distr_l, IH. unfold sg. rewrite !S_INR. cbn [pow]. ring.
Qed.
Lemma wsum_wt : forall K x, 0 <= x -> Rabs (wt x - wsum K (exp (- x))) <= INR (2 * K + 1) * exp (- x) ^ S K.
Proof.
  intros K x Hx. set (u := exp (- x)). assert (u0 : 0 < u) by apply exp_pos.
  assert (u1 : u <= 1).
  { unfold u. rewrite <- exp_0. destruct (Req_dec x 0) as [->|]; [rewrite Ropp_0; lra|]. apply Rlt_le, exp_increasing. lra. }
  assert (E : wt x = u / (1 + u) ^ 2).
  { rewrite <- wt_even. unfold wt. fold u. reflexivity. }
  assert (D : wt x - wsum K u = sg K * (INR (S K) * u ^ S K + INR K * u ^ S (S K)) / (1 + u) ^ 2).
  { rewrite E. replace (wsum K u) with ((1 + u) ^ 2 * wsum K u / (1 + u) ^ 2) by (field; lra). rewrite wsum_eq. field. lra. }
  rewrite D. assert (p1 : 0 < u ^ S K) by (apply pow_lt; auto).
  pose proof (pos_INR K). pose proof (pos_INR (S K)).
  assert (p2 : 0 <= u ^ S (S K) <= u ^ S K) by (change (u ^ S (S K)) with (u * u ^ S K); split; nra).
  assert (q : 0 <= INR (S K) * u ^ S K + INR K * u ^ S (S K) <= INR (2 * K + 1) * u ^ S K).
  { split; [apply Rplus_le_le_0_compat; apply Rmult_le_pos; lra|].
    replace (INR (2 * K + 1)) with (INR (S K) + INR K) by (rewrite <- plus_INR; f_equal; lia).
    rewrite Rmult_plus_distr_r. apply Rplus_le_compat_l, Rmult_le_compat_l; lra. }
  assert (i1 : 1 <= (1 + u) ^ 2) by nra.
  assert (i2 : 0 < / (1 + u) ^ 2 <= 1).
  { split; [apply Rinv_0_lt_compat; lra|]. rewrite <- Rinv_1. apply Rinv_le_contravar; lra. }
  unfold Rdiv. rewrite !Rabs_mult. rewrite (Rabs_right (/ (1 + u) ^ 2)) by lra.
  rewrite (Rabs_right (INR (S K) * u ^ S K + INR K * u ^ S (S K))) by lra.
  replace (Rabs (sg K)) with 1 by (destruct (sg_cases K) as [->| ->]; [rewrite Rabs_R1|rewrite Rabs_left by lra]; ring).
  nra.
Qed.
Fixpoint Gsum (n K : nat) (x : R) : R := match K with O => 0 | S m => Gsum n m x + sg m * INR (S m) * Gk n (INR (S m)) x end.
Fixpoint asum (n K : nat) : R := match K with O => 0 | S m => asum n m + sg m * / INR (S m) ^ n end.
Lemma Gsum_derive : forall n K x, is_derive (Gsum n K) x (x ^ n * wsum K (exp (- x))).
Proof.
  induction K as [|K IH]; intro x; cbn [wsum].
  - cbn [Gsum]. rewrite Rmult_0_r. apply (is_derive_const (V:=R_NormedModule)).
  - apply (is_derive_ext (fun x => plus (Gsum n K x) (sg K * INR (S K) * Gk n (INR (S K)) x))). { reflexivity. }
    replace (x ^ n * (wsum K (exp (- x)) + sg K * INR (S K) * exp (- x) ^ S K)) with
      (plus (x ^ n * wsum K (exp (- x))) (sg K * INR (S K) * (x ^ n * exp (- (INR (S K) * x))))).
    + apply (is_derive_plus (V:=R_NormedModule)); [apply IH|].
      apply (is_derive_scal (fun x => Gk n (INR (S K)) x)). apply Gk_derive, lt_0_INR. lia.
    + unfold plus. cbn -[INR pow exp]. rewrite <- exp_pow. replace (INR (S K) * - x) with (- (INR (S K) * x)) by ring. ring.
Qed.
Lemma Gsum_0 : forall n K, Gsum n K 0 = - (INR (fact n) * asum n K).
Proof.
  induction K as [|K IH]; cbn [Gsum asum]; [ring|]. rewrite IH, Gk_0 by (apply lt_0_INR; lia).
  assert (0 < INR (S K)) by (apply lt_0_INR; lia). assert (0 < INR (S K) ^ n) by (apply pow_lt; auto).
  change (INR (S K) ^ S n) with (INR (S K) * INR (S K) ^ n). field. split; lra.
Qed.
Lemma Gsum_bound : forall n, exists C, 0 <= C /\ forall K x, 0 < x -> Rabs (Gsum n K x) <= INR (K * K) * (C / x).
Proof.
  intro n. destruct (Gk_bound n) as [C [HC b]]. exists C. split; auto. intros K x Hx.
  assert (0 <= C / x) by (apply Rmult_le_pos; [auto|apply Rlt_le, Rinv_0_lt_compat, Hx]).
  induction K as [|K IH]; cbn [Gsum].
  - rewrite Rabs_R0. cbn. lra.
  - eapply Rle_trans; [apply Rabs_triang|]. rewrite !Rabs_mult.
    replace (Rabs (sg K)) with 1 by (destruct (sg_cases K) as [->| ->]; [rewrite Rabs_R1|rewrite Rabs_left by lra]; ring).
    assert (1 <= INR (S K)) by (rewrite S_INR; pose proof (pos_INR K); lra).
    rewrite (Rabs_right (INR (S K))) by lra. pose proof (b (INR (S K)) x ltac:(auto) Hx).
    apply Rle_trans with (INR (K * K) * (C / x) + INR (S K) * (C / x)).
    + apply Rplus_le_compat; auto. rewrite Rmult_1_l. apply Rmult_le_compat_l; lra.
    + rewrite <- Rmult_plus_distr_r, <- plus_INR. apply Rmult_le_compat_r; auto. apply le_INR. lia.
Qed.

(** ** the half line moments *)
Definition Ph (n : nat) (B : R) : R := RInt (fun x => x ^ n * wt x) 0 B.
Lemma mom_cont : forall n (x : R), continuous (fun x => x ^ n * wt x) x.
Proof.
  intros n x. apply (ex_derive_continuous (V:=R_NormedModule)). unfold wt. auto_derive. pose proof (ep x). nra.
Qed.
Lemma mom_int : forall n a b, is_RInt (fun x => x ^ n * wt x) a b (RInt (fun x => x ^ n * wt x) a b).
Proof.
  intros. apply (RInt_correct (V:=R_CompleteNormedModule)), (ex_RInt_continuous (V:=R_CompleteNormedModule)). intros z _. apply mom_cont.
Qed.
Lemma Gk_int : forall n k B, 0 < k -> is_RInt (fun x => x ^ n * exp (- (k * x))) 0 B (Gk n k B - Gk n k 0).
Proof.
  intros n k B Hk. apply (is_RInt_derive (V:=R_CompleteNormedModule)).
  - intros x _. apply Gk_derive, Hk.
  - intros x _. apply (ex_derive_continuous (V:=R_NormedModule)). auto_derive. auto.
Qed.
Lemma Gsum_int : forall n K B, is_RInt (fun x => x ^ n * wsum K (exp (- x))) 0 B (Gsum n K B - Gsum n K 0).
Proof.
  intros n K B. apply (is_RInt_derive (V:=R_CompleteNormedModule)).
  - intros x _. apply Gsum_derive.
  - intros x _. apply (ex_derive_continuous (V:=R_NormedModule)).
    assert (D : forall K, ex_derive (fun x => wsum K (exp (- x))) x).
    { clear. induction K as [|K IH]; cbn [wsum]; [apply ex_derive_const|].
      apply (ex_derive_plus (V:=R_NormedModule)); [exact IH|]. auto_derive. auto. }
    apply ex_derive_mult; [auto_derive; auto|apply D].
Qed.
Lemma Ph_close : forall n K B, 0 <= B ->
  Rabs (Ph n B - (Gsum n K B + INR (fact n) * asum n K)) <= INR (2 * K + 1) * (INR (fact n) / INR (S K) ^ S n).
Proof.
  intros n K B HB. assert (k0 : 0 < INR (S K)) by (apply lt_0_INR; lia).
  pose proof (is_RInt_minus (V:=R_NormedModule) _ _ _ _ _ _ (mom_int n 0 B) (Gsum_int n K B)) as D.
  pose proof (is_RInt_scal (V:=R_NormedModule) _ _ _ (INR (2 * K + 1)) _ (Gk_int n (INR (S K)) B k0)) as U.
  assert (N : Rabs (Ph n B - (Gsum n K B - Gsum n K 0)) <= INR (2 * K + 1) * (Gk n (INR (S K)) B - Gk n (INR (S K)) 0)).
  { apply (norm_RInt_le (V:=R_NormedModule) _ _ 0 B _ _ HB) with (2 := D) (3 := U).
    intros x [Hx _].
    change (Rabs (x ^ n * wt x + - (x ^ n * wsum K (exp (- x)))) <= INR (2 * K + 1) * (x ^ n * exp (- (INR (S K) * x)))).
    rewrite <- Ropp_mult_distr_r_reverse.
    replace (x ^ n * wt x + x ^ n * - wsum K (exp (- x))) with (x ^ n * (wt x - wsum K (exp (- x)))) by ring.
    rewrite Rabs_mult, (Rabs_right (x ^ n)) by (apply Rle_ge, pow_le, Hx).
    pose proof (wsum_wt K x Hx) as w. rewrite <- exp_pow in w.
    replace (INR (S K) * - x) with (- (INR (S K) * x)) in w by ring.
    replace (INR (2 * K + 1) * (x ^ n * exp (- (INR (S K) * x)))) with (x ^ n * (INR (2 * K + 1) * exp (- (INR (S K) * x)))) by ring.
    apply Rmult_le_compat_l; [apply pow_le, Hx|exact w]. }
  rewrite Gsum_0 in N. replace (Gsum n K B + INR (fact n) * asum n K) with (Gsum n K B - - (INR (fact n) * asum n K)) by ring.
  eapply Rle_trans; [exact N|]. apply Rmult_le_compat_l; [apply pos_INR|].
  rewrite Gk_0 by auto. pose proof (Gk_neg n (INR (S K)) B k0 HB). lra.
Qed.
Lemma Ph_mono : forall n B B', 0 <= B -> B <= B' -> Ph n B <= Ph n B'.
Proof.
  intros n B B' H0 H1. unfold Ph.
  pose proof (is_RInt_Chasles (V:=R_NormedModule) _ _ _ _ _ _ (mom_int n 0 B) (mom_int n B B')) as c.
  pose proof (is_RInt_unique (V:=R_CompleteNormedModule) _ _ _ _ c) as u. rewrite u.
  change (RInt (fun x => x ^ n * wt x) 0 B <= RInt (fun x => x ^ n * wt x) 0 B + RInt (fun x => x ^ n * wt x) B B').
  assert (0 <= RInt (fun x => x ^ n * wt x) B B'); [|lra].
  apply RInt_ge_0; auto.
  - apply (ex_RInt_continuous (V:=R_CompleteNormedModule)). intros z _. apply mom_cont.
  - intros x Hx. apply Rmult_le_pos; [apply pow_le; lra|apply Rlt_le, wt_pos].
Qed.
Lemma Ph_bounded : forall n B, 0 <= B -> Ph n B <= INR (fact n).
Proof.
  intros n B HB. pose proof (Ph_close n 0 B HB) as c. cbn [Gsum asum] in c.
  change (INR 1) with 1 in c. rewrite pow1 in c. replace (2 * 0 + 1)%nat with 1%nat in c by lia. change (INR 1) with 1 in c.
  pose proof (Rle_abs (Ph n B - (0 + INR (fact n) * 0))). lra.
Qed.
Definition half (n : nat) (m : R) : Prop := forall eps, 0 < eps -> exists M, 0 <= M /\ forall B, M < B -> Rabs (Ph n B - m) < eps.
Lemma half_ex : forall n, exists m, half n m.
Proof.
  intro n. destruct (completeness (fun y => exists B, 0 <= B /\ y = Ph n B)) as [m [ub lub]].
  - exists (INR (fact n)). intros y [B [HB ->]]. apply Ph_bounded, HB.
  - exists (Ph n 0), 0. split; [lra|reflexivity].
  - exists m. intros eps He.
    destruct (Classical_Prop.classic (exists B, 0 <= B /\ m - eps < Ph n B)) as [[M [HM HB]]|N].
    + exists M. split; auto. intros B HMB. pose proof (Ph_mono n M B HM ltac:(lra)).
      assert (Ph n B <= m) by (apply ub; exists B; split; [lra|reflexivity]). apply Rabs_def1; lra.
    + exfalso. assert (m <= m - eps); [|lra]. apply lub. intros y [B [HB ->]]. apply Rnot_lt_le. intro. apply N. exists B. auto.
Qed.
Lemma half_close : forall n m K, half n m -> Rabs (m - INR (fact n) * asum n K) <= INR (2 * K + 1) * (INR (fact n) / INR (S K) ^ S n).
Proof.
  intros n m K H. apply Rnot_lt_le. intro L.
  set (d := Rabs (m - INR (fact n) * asum n K) - INR (2 * K + 1) * (INR (fact n) / INR (S K) ^ S n)).
  assert (Hd : 0 < d / 2) by (unfold d; lra). destruct (H _ Hd) as [M [HM HB]].
  destruct (Gsum_bound n) as [C [HC b]].
  set (k := INR (K * K) * C). assert (Hk : 0 <= k) by (apply Rmult_le_pos; [apply pos_INR|auto]).
  set (B := M + 1 + k * (4 / d)). assert (HdP : 0 < d) by lra.
  assert (HB1 : M < B /\ 0 < B).
  { assert (0 <= k * (4 / d)) by (apply Rmult_le_pos; [auto|apply Rlt_le, Rdiv_lt_0_compat; lra]). unfold B. lra. }
  specialize (HB B (proj1 HB1)). pose proof (b K B (proj2 HB1)) as g. pose proof (Ph_close n K B ltac:(lra)) as c.
  assert (g' : INR (K * K) * (C / B) <= d / 4).
  { replace (INR (K * K) * (C / B)) with (k / B) by (unfold k; field; lra).
    apply Rmult_le_reg_r with (B * (4 / d)); [apply Rmult_lt_0_compat; [lra|apply Rdiv_lt_0_compat; lra]|].
    replace (k / B * (B * (4 / d))) with (k * (4 / d)) by (field; lra).
    replace (d / 4 * (B * (4 / d))) with B by (field; lra). unfold B. lra. }
  assert (T : Rabs (m - INR (fact n) * asum n K) <= Rabs (Ph n B - m) + Rabs (Ph n B - (Gsum n K B + INR (fact n) * asum n K)) + Rabs (Gsum n K B)).
  { replace (m - INR (fact n) * asum n K) with (- (Ph n B - m) + (Ph n B - (Gsum n K B + INR (fact n) * asum n K)) + Gsum n K B) by ring.
    eapply Rle_trans; [apply Rabs_triang|]. apply Rplus_le_compat_r. eapply Rle_trans; [apply Rabs_triang|]. rewrite Rabs_Ropp. lra. }
  unfold d in *. lra.
Qed.

(** ** the zeta function *)
(** 1/K^n <= 1/(K-1) - 1/K *)
Lemma zeta_sum_bound : forall n K, (2 <= n)%nat -> zeta_sum n (S K) <= 2 - / INR (S K).
Proof.
  intros n K Hn. induction K as [|K IH].
  - cbn [zeta_sum]. change (INR 1) with 1. rewrite pow1, Rinv_1. lra.
  - change (zeta_sum n (S (S K))) with (zeta_sum n (S K) + / INR (S (S K)) ^ n).
    assert (k0 : 1 <= INR (S K)) by (rewrite S_INR; pose proof (pos_INR K); lra).
    assert (p : / INR (S (S K)) ^ n <= / (INR (S (S K)) * INR (S (S K)))).
    { rewrite (S_INR (S K)). apply Rinv_le_contravar; [nra|].
      replace ((INR (S K) + 1) * (INR (S K) + 1)) with ((INR (S K) + 1) ^ 2) by ring. apply Rle_pow; [lra|auto]. }
    assert (q : / (INR (S (S K)) * INR (S (S K))) <= / INR (S K) - / INR (S (S K))).
    { rewrite (S_INR (S K)). set (x := INR (S K)) in *. replace (/ x - / (x + 1)) with (/ (x * (x + 1))) by (field; lra).
      apply Rinv_le_contravar; nra. }
    lra.
Qed.
Lemma zeta_lim : forall n, (2 <= n)%nat -> is_lim_seq (zeta_sum n) (zeta n).
Proof.
  intros n Hn. unfold zeta. destruct n as [|n]; [lia|].
  apply Lim_seq_correct'. apply ex_finite_lim_seq_incr with 2.
  - intro K. cbn [zeta_sum]. assert (0 < / INR (S K) ^ S n) by (apply Rinv_0_lt_compat, pow_lt, lt_0_INR; lia). lra.
  - intros [|K]; [cbn; lra|]. pose proof (zeta_sum_bound (S n) K Hn).
    assert (0 < / INR (S K)) by (apply Rinv_0_lt_compat, lt_0_INR; lia). lra.
Qed.
Lemma asum_zeta : forall n L, asum n (2 * L) = zeta_sum n (2 * L) - 2 / 2 ^ n * zeta_sum n L.
Proof.
  intros n. induction L as [|L IH]; [cbn; ring|].
  replace (2 * S L)%nat with (S (S (2 * L))) by lia. cbn [asum]. rewrite IH.
  change (zeta_sum n (S (S (2 * L)))) with (zeta_sum n (2 * L) + / INR (S (2 * L)) ^ n + / INR (S (S (2 * L))) ^ n).
  change (zeta_sum n (S L)) with (zeta_sum n L + / INR (S L) ^ n).
  assert (E : INR (S (S (2 * L))) = 2 * INR (S L)) by (rewrite !S_INR, mult_INR; cbn; ring). rewrite E.
  assert (s0 : sg (2 * L) = 1) by (unfold sg; apply pow_1_even).
  assert (s1 : sg (S (2 * L)) = -1) by (unfold sg; apply pow_1_odd). rewrite s0, s1.
  rewrite Rpow_mult_distr.
  assert (0 < INR (S L) ^ n) by (apply pow_lt, lt_0_INR; lia). assert (0 < 2 ^ n) by (apply pow_lt; lra).
  assert (0 < INR (S (2 * L)) ^ n) by (apply pow_lt, lt_0_INR; lia). field. repeat split; lra.
Qed.
Lemma half_value : forall n m, (2 <= n)%nat -> half n m -> m = INR (fact n) * ((1 - 2 / 2 ^ n) * zeta n).
Proof.
  intros n m Hn H. pose proof (zeta_lim n Hn) as Z.
  assert (Z2 : is_lim_seq (fun L => zeta_sum n (2 * L)) (zeta n)).
  { apply (is_lim_seq_subseq (zeta_sum n) _ (fun L => (2 * L)%nat)); [|exact Z]. apply eventually_subseq. intro. lia. }
  assert (A : is_lim_seq (fun L => INR (fact n) * asum n (2 * L)) (INR (fact n) * ((1 - 2 / 2 ^ n) * zeta n))).
  { apply (is_lim_seq_scal_l _ (INR (fact n)) (Finite ((1 - 2 / 2 ^ n) * zeta n))).
    apply is_lim_seq_ext with (fun L => zeta_sum n (2 * L) - 2 / 2 ^ n * zeta_sum n L); [intro; symmetry; apply asum_zeta|].
    replace ((1 - 2 / 2 ^ n) * zeta n) with (zeta n - 2 / 2 ^ n * zeta n) by ring.
    apply is_lim_seq_minus'; [exact Z2|]. apply (is_lim_seq_scal_l _ (2 / 2 ^ n) (Finite (zeta n))), Z. }
  assert (Bd : is_lim_seq (fun L => INR (fact n) * asum n (2 * L)) m).
  { apply is_lim_seq_spec. intros [eps He]. cbn [RIneq.pos].
    destruct (archimed_cor1 (eps / (2 * INR (fact n)))) as [N [HN N0]].
    { apply Rdiv_lt_0_compat; [lra|]. pose proof (INR_fact_lt_0 n). lra. }
    exists N. intros L HL. rewrite Rabs_minus_sym. eapply Rle_lt_trans; [apply (half_close n m (2 * L) H)|].
    pose proof (INR_fact_lt_0 n) as f0. set (k := INR (S (2 * L))). assert (k1 : 1 <= k) by (unfold k; rewrite S_INR; pose proof (pos_INR (2 * L)); lra).
    assert (kN : INR N <= k) by (apply le_INR; lia). assert (N1 : 0 < INR N) by (apply lt_0_INR; lia).
    assert (a : INR (2 * (2 * L) + 1) <= 2 * k).
    { unfold k. replace 2 with (INR 2) by reflexivity. rewrite <- mult_INR. apply le_INR. lia. }
    assert (b : / k ^ S n <= / k * / k).
    { rewrite <- Rinv_mult. apply Rinv_le_contravar; [nra|]. replace (k * k) with (k ^ 2) by ring. apply Rle_pow; [lra|lia]. }
    assert (ik : 0 < / k <= / INR N) by (split; [apply Rinv_0_lt_compat; lra|apply Rinv_le_contravar; lra]).
    apply Rle_lt_trans with (2 * k * (INR (fact n) * (/ k * / k))).
    - apply Rmult_le_compat; [apply pos_INR| |exact a|].
      + apply Rmult_le_pos; [lra|]. apply Rlt_le, Rinv_0_lt_compat, pow_lt. unfold k in k1. lra.
      + apply Rmult_le_compat_l; [lra|]. exact b.
    - replace (2 * k * (INR (fact n) * (/ k * / k))) with (2 * INR (fact n) * / k) by (field; lra).
      apply Rle_lt_trans with (2 * INR (fact n) * / INR N); [apply Rmult_le_compat_l; lra|].
      apply Rlt_le_trans with (2 * INR (fact n) * (eps / (2 * INR (fact n)))); [apply Rmult_lt_compat_l; lra|]. right. field. lra. }
  pose proof (is_lim_seq_unique _ _ A) as u. rewrite (is_lim_seq_unique _ _ Bd) in u. injection u. auto.
Qed.
Lemma half_0 : half 0 (1 / 2).
Proof.
  intros eps He. assert (E : forall B, Ph 0 B = 1 / 2 - fermi B).
  { intro B. unfold Ph. apply (is_RInt_unique (V:=R_CompleteNormedModule)).
    replace (1 / 2 - fermi B) with (minus (opp (fermi B)) (opp (fermi 0)))
      by (unfold minus, plus, opp; cbn; unfold fermi; rewrite exp_0; field; pose proof (ep B); lra).
    apply is_RInt_ext with wt. { intros x _. cbn. ring. }
    apply (is_RInt_derive (V:=R_CompleteNormedModule) (fun x => opp (fermi x))).
    - intros x _. replace (wt x) with (opp (- wt x)) by (unfold opp; cbn; ring). apply (is_derive_opp (V:=R_NormedModule)), fermi_derive.
    - intros x _. apply wt_cont. }
  exists (Rabs (ln eps)). split; [apply Rabs_pos|]. intros B HB. rewrite E.
  replace (1 / 2 - fermi B - 1 / 2) with (- fermi B) by ring. rewrite Rabs_Ropp, Rabs_right by (pose proof (fermi_range B); lra).
  pose proof (exp_pos B). assert (H1 : / eps < exp B).
  { rewrite <- (exp_ln (/ eps)) by (apply Rinv_0_lt_compat, He). apply exp_increasing. rewrite ln_Rinv by auto.
    pose proof (Rle_abs (- ln eps)). rewrite Rabs_Ropp in *. lra. }
  unfold fermi. apply Rmult_lt_reg_r with (1 + exp B); [lra|]. replace (1 / (1 + exp B) * (1 + exp B)) with 1 by (field; lra).
  apply (Rmult_lt_compat_l eps) in H1; auto. rewrite Rinv_r in H1 by lra. lra.
Qed.

(** ** the moments over the real line *)
Lemma left_int : forall n A, is_RInt (fun x => x ^ n * wt x) A 0 ((-1) ^ n * Ph n (- A)).
Proof.
  intros n A.
  assert (c : is_RInt (fun y => opp ((- y) ^ n * wt (- y))) A 0 (opp (Ph n (- A)))).
  { apply (is_RInt_comp_opp (V:=R_NormedModule) (fun x => x ^ n * wt x)). rewrite Ropp_0.
    apply (is_RInt_swap (V:=R_NormedModule)). apply mom_int. }
  pose proof (is_RInt_scal (V:=R_NormedModule) _ _ _ (- (-1) ^ n) _ c) as s.
  replace ((-1) ^ n * Ph n (- A)) with (scal (- (-1) ^ n) (opp (Ph n (- A)))) by (unfold scal, opp; cbn; unfold mult; cbn; ring).
  refine (is_RInt_ext (V:=R_NormedModule) _ _ _ _ _ _ s). intros x _. unfold scal, opp. cbn -[pow wt]. unfold mult. cbn -[pow wt].
  rewrite wt_even. replace (- x) with (-1 * x) by ring. rewrite Rpow_mult_distr.
  destruct (sg_cases n) as [e|e]; unfold sg in e; rewrite e; ring.
Qed.
Theorem moment : forall n, is_improper (fun x => x ^ n * wt x) (INR (fact n) * b_coeff n).
Proof.
  intros n eps He. destruct (half_ex n) as [m Hm].
  assert (V : INR (fact n) * b_coeff n = m + (-1) ^ n * m).
  { unfold b_coeff. destruct (Nat.even n) eqn:en.
    - apply Nat.even_spec in en. destruct en as [h ->]. rewrite pow_1_even.
      destruct h as [|h].
      + change (2 * 0)%nat with 0%nat in *. assert (m = 1 / 2).
        { apply Rminus_diag_uniq. destruct (Req_dec (m - 1 / 2) 0) as [z|z]; auto. exfalso.
          assert (d : 0 < Rabs (m - 1 / 2) / 2) by (pose proof (Rabs_pos_lt _ z); lra).
          destruct (Hm _ d) as [M [_ h1]], (half_0 _ d) as [M' [_ h2]].
          set (B := Rmax M M' + 1). specialize (h1 B ltac:(unfold B; pose proof (Rmax_l M M'); lra)).
          specialize (h2 B ltac:(unfold B; pose proof (Rmax_r M M'); lra)).
          assert (Rabs (m - 1 / 2) <= Rabs (Ph 0 B - m) + Rabs (Ph 0 B - 1 / 2)).
          { replace (m - 1 / 2) with (- (Ph 0 B - m) + (Ph 0 B - 1 / 2)) by ring. eapply Rle_trans; [apply Rabs_triang|]. rewrite Rabs_Ropp. lra. }
          lra. }
        subst m. cbn. lra.
      + rewrite (half_value (2 * S h) m) by (lia || exact Hm). ring.
    - rewrite <- Nat.negb_odd in en. apply Bool.negb_false_iff, Nat.odd_spec in en. destruct en as [h ->].
      replace (2 * h + 1)%nat with (S (2 * h)) by lia. rewrite pow_1_odd. ring. }
  destruct (Hm (eps / 2) ltac:(lra)) as [M [HM HB]]. exists M. intros A B HA HB'.
  exists ((-1) ^ n * Ph n (- A) + Ph n B). split.
  - apply (is_RInt_Chasles (V:=R_NormedModule) _ A 0 B); [apply left_int|apply mom_int].
  - rewrite V. replace ((-1) ^ n * Ph n (- A) + Ph n B - (m + (-1) ^ n * m)) with ((-1) ^ n * (Ph n (- A) - m) + (Ph n B - m)) by ring.
    eapply Rle_lt_trans; [apply Rabs_triang|]. rewrite Rabs_mult.
    replace (Rabs ((-1) ^ n)) with 1 by (destruct (sg_cases n) as [e|e]; unfold sg in e; rewrite e; [rewrite Rabs_R1|rewrite Rabs_left by lra]; ring).
    pose proof (HB B HB'). pose proof (HB (- A) ltac:(lra)). lra.
Qed.
Lemma improper_shift : forall f l beta mu, 0 < beta -> is_improper f l -> is_improper (fun e => beta * f (beta * (e - mu))) l.
Proof.
  intros f l beta mu Hb H eps He. destruct (H eps He) as [M HM].
  exists (Rabs mu + Rabs M / beta). intros A B HA HB. pose proof (Rle_abs M). pose proof (Rle_abs mu).
  pose proof (Rle_abs (- mu)) as am. rewrite Rabs_Ropp in am.
  assert (E : beta * (Rabs M / beta) = Rabs M) by (field; lra).
  destruct (HM (beta * A + - beta * mu) (beta * B + - beta * mu)) as [v [Hv Hl]].
  - assert (beta * (A - mu) < beta * (- (Rabs M / beta))) by (apply Rmult_lt_compat_l; lra). nra.
  - assert (beta * (Rabs M / beta) < beta * (B - mu)) by (apply Rmult_lt_compat_l; lra). nra.
  - exists v. split; auto. pose proof (is_RInt_comp_lin (V:=R_NormedModule) f beta (- beta * mu) A B v Hv) as c.
    refine (is_RInt_ext (V:=R_NormedModule) _ _ _ _ _ _ c). intros x _. unfold scal. cbn. unfold mult. cbn.
    replace (beta * x + - beta * mu) with (beta * (x - mu)) by ring. reflexivity.
Qed.
Lemma improper_lin : forall f g l m c, is_improper f l -> is_improper g m -> is_improper (fun x => f x + c * g x) (l + c * m).
Proof.
  intros f g l m c Hf Hg eps He.
  assert (c0 : 0 < Rabs c + 1) by (pose proof (Rabs_pos c); lra).
  destruct (Hf (eps / 2) ltac:(lra)) as [M1 H1]. destruct (Hg (eps / (2 * (Rabs c + 1)))) as [M2 H2].
  { apply Rdiv_lt_0_compat; lra. }
  exists (Rmax M1 M2). intros A B HA HB. pose proof (Rmax_l M1 M2). pose proof (Rmax_r M1 M2).
  destruct (H1 A B ltac:(lra) ltac:(lra)) as [v [Hv Lv]]. destruct (H2 A B ltac:(lra) ltac:(lra)) as [w [Hw Lw]].
  exists (v + c * w). split.
  - apply (is_RInt_plus (V:=R_NormedModule)); [exact Hv|]. apply (is_RInt_scal (V:=R_NormedModule) g A B c w Hw).
  - replace (v + c * w - (l + c * m)) with ((v - l) + c * (w - m)) by ring.
    eapply Rle_lt_trans; [apply Rabs_triang|]. rewrite Rabs_mult.
    assert (Rabs c * Rabs (w - m) <= (Rabs c + 1) * (eps / (2 * (Rabs c + 1)))).
    { apply Rmult_le_compat; try apply Rabs_pos; lra. }
    replace ((Rabs c + 1) * (eps / (2 * (Rabs c + 1)))) with (eps / 2) in * by (field; lra). lra.
Qed.
Lemma improper_ext : forall f g l, (forall x, f x = g x) -> is_improper f l -> is_improper g l.
Proof.
  intros f g l E H eps He. destruct (H eps He) as [M HM]. exists M. intros A B HA HB.
  destruct (HM A B HA HB) as [v [Hv L]]. exists v. split; auto. apply (is_RInt_ext (V:=R_NormedModule) f); auto.
Qed.
Lemma improper_zero : is_improper (fun _ => 0) 0.
Proof.
  intros eps He. exists 0. intros A B _ _. exists 0. split; [apply int_c; ring|]. rewrite Rminus_0_r, Rabs_R0. exact He.
Qed.
(** the moments with temperature and chemical potential *)
Lemma moment_beta : forall n beta mu, 0 < beta ->
  is_improper (fun e => (e - mu) ^ n * wb beta (e - mu)) (INR (fact n) * iw_rhs beta n).
Proof.
  intros n beta mu Hb. pose proof (improper_shift _ _ beta mu Hb (moment n)) as s.
  assert (0 < beta ^ n) by (apply pow_lt; auto).
  pose proof (improper_lin _ _ _ _ (/ beta ^ n) improper_zero s) as t.
  replace (INR (fact n) * iw_rhs beta n) with (0 + / beta ^ n * (INR (fact n) * b_coeff n)) by (unfold iw_rhs; ring).
  refine (improper_ext _ _ _ _ t). intro e. unfold wb. rewrite Rpow_mult_distr. field. lra.
Qed.

(** Property C49: the closed forms for integrals with the derivative of the Fermi function. *)
From Coq Require Import Reals Lra Lia Psatz List.
From Coquelicot Require Import Coquelicot.
From Verif Require Import NbrModel SmearModel SmearCalc DosModel Basel.
Import ListNotations.
Local Open Scope R_scope.

(** ** Specification: the Fermi function and its negative derivative *)
Definition fermi (x : R) : R := 1 / (1 + exp x).
Definition wt (x : R) : R := exp x / (1 + exp x) ^ 2.
Lemma ep : forall x, 0 < 1 + exp x.
Proof. intros. pose proof (exp_pos x). lra. Qed.
Theorem C49_weight : forall x : R, is_derive fermi x (- wt x) /\ wt x = 1 / (2 * cosh (x / 2)) ^ 2.
Proof.
  intros x. pose proof (ep x) as P. split.
  - unfold fermi, wt. auto_derive; [lra|]. field. lra.
  - unfold wt, cosh. assert (E : exp x = exp (x / 2) * exp (x / 2)) by (rewrite <- exp_plus; f_equal; field).
    rewrite E in *. rewrite exp_Ropp. pose proof (exp_pos (x / 2)). set (h := exp (x / 2)) in *. field. split; [|lra]. nra.
Qed.
Print Assumptions C49_weight.
Lemma wt_pos : forall x, 0 < wt x.
Proof. intros x. unfold wt. apply Rdiv_lt_0_compat; [apply exp_pos|]. apply pow_lt, ep. Qed.
Lemma wt_even : forall x, wt (- x) = wt x.
Proof.
  intros x. unfold wt. rewrite exp_Ropp. pose proof (exp_pos x). field. lra.
Qed.
Lemma wt_cont : forall x, continuous wt x.
Proof. intros. apply (ex_derive_continuous (V:=R_NormedModule)). unfold wt. auto_derive. pose proof (ep x). nra. Qed.

(** ** the three moments *)
Theorem C49_int_df : forall x : R, is_derive int_df x (wt x).
Proof.
  intros x. unfold int_df, tanh, sinh, cosh.
  assert (H : forall t, 0 < exp t + exp (- t)) by (intros t; pose proof (exp_pos t); pose proof (exp_pos (- t)); lra).
  auto_derive.
  - specialize (H (x / 2)). unfold Rdiv in *. lra.
  - rewrite (proj2 (C49_weight x)). unfold cosh. specialize (H (x / 2)).
    change (x * / 2) with (x / 2). set (p := exp (x / 2)) in *. set (m := exp (- (x / 2))) in *.
    assert (E : p * m = 1) by (unfold p, m; rewrite <- exp_plus; replace (x / 2 + - (x / 2)) with 0 by ring; apply exp_0).
    match goal with |- ?l = ?r => replace l with ((4 * (p * m)) / (4 * (p + m) ^ 2)); [|field; lra] end.
    rewrite E. field. lra.
Qed.
Print Assumptions C49_int_df.

Lemma even_of_pos : forall (g : R -> R), (forall x, g (- x) = g x) -> forall x, g (- Rabs x) = g x.
Proof. intros g H x. unfold Rabs. destruct Rcase_abs; rewrite ?Ropp_involutive; auto. Qed.
Lemma int_xdf_all : forall x, int_xdf x = x * exp x / (1 + exp x) - ln (1 + exp x).
Proof.
  intros x. unfold int_xdf. cbv zeta. apply (even_of_pos (fun x => x * exp x / (1 + exp x) - ln (1 + exp x))).
  clear x. intros x. pose proof (exp_pos x) as P. rewrite exp_Ropp.
  replace (1 + / exp x) with ((1 + exp x) * / exp x) by (field; lra).
  rewrite ln_mult, ln_Rinv, ln_exp; [|auto|lra|apply Rinv_0_lt_compat; auto]. field. lra.
Qed.
Theorem C49_int_xdf : forall x : R, is_derive int_xdf x (x * wt x).
Proof.
  intros x. apply is_derive_ext with (fun x => x * exp x / (1 + exp x) - ln (1 + exp x)); [intros; symmetry; apply int_xdf_all|].
  pose proof (ep x). unfold wt. auto_derive; [split; lra|]. field. lra.
Qed.
Print Assumptions C49_int_xdf.

(** the dilogarithm *)
Lemma spence_lnq : forall u, 0 <= u -> spence (1 + u) = - RInt lnq 0 u.
Proof.
  intros u Hu. unfold spence. apply (is_RInt_unique (V:=R_CompleteNormedModule)).
  pose proof (RInt_correct (V:=R_CompleteNormedModule) _ _ _ (lnq_ex 0 u ltac:(lra) ltac:(lra))) as I.
  apply (is_RInt_opp (V:=R_NormedModule)) in I. cbv beta in I.
  replace 0 with (1 * 1 + -1) in I by ring. replace u with (1 * (1 + u) + -1) in I at 1 by ring.
  apply (is_RInt_comp_lin (V:=R_NormedModule)) in I.
  replace (RInt lnq (1 * 1 + -1) u) with (RInt lnq 0 u) in I by (f_equal; ring).
  eapply is_RInt_ext; [|exact I]. intros t Ht. rewrite Rmin_left, Rmax_right in Ht by lra.
  change ((1 * - lnq (1 * t + -1)) = ln t / (1 - t)).
  unfold lnq. destruct (Req_EM_T (1 * t + -1) 0); [lra|]. replace (1 + (1 * t + -1)) with t by ring. field. lra.
Qed.
Lemma RInt_lnq_derive : forall u : R, 0 < u -> is_derive (fun u => RInt lnq 0 u) u (lnq u).
Proof.
  intros u Hu. apply (is_derive_RInt (V:=R_NormedModule) lnq (fun u => RInt lnq 0 u) 0).
  - exists (mkposreal u Hu). intros y Hy. unfold ball in Hy; simpl in Hy. unfold AbsRing_ball, abs, minus, plus, opp in Hy; simpl in Hy.
    apply Rabs_lt_between in Hy. apply (RInt_correct (V:=R_CompleteNormedModule)), lnq_ex; lra.
  - apply lnq_cont; lra.
Qed.
Definition Gxx (x : R) : R := x * x * exp x / (1 + exp x) - 2 * x * ln (1 + exp x) + 2 * RInt lnq 0 (exp x) - PI ^ 2 / 6.
Lemma Gxx_derive : forall x : R, is_derive Gxx x (x * x * wt x).
Proof.
  intros x. pose proof (ep x) as P. pose proof (exp_pos x) as Q.
  assert (D1 : is_derive (fun x => x * x * exp x / (1 + exp x) - 2 * x * ln (1 + exp x)) x (x * x * wt x - 2 * ln (1 + exp x))).
  { unfold wt. auto_derive; [split; lra|]. field. lra. }
  assert (D2 : is_derive (fun x => RInt lnq 0 (exp x)) x (ln (1 + exp x))).
  { replace (ln (1 + exp x)) with (scal (exp x) (lnq (exp x))).
    - apply (is_derive_comp (fun u => RInt lnq 0 u) exp); [apply RInt_lnq_derive; auto|].
      apply is_derive_Reals, derivable_pt_lim_exp.
    - unfold lnq. destruct (Req_EM_T (exp x) 0); [lra|]. unfold scal; simpl; unfold mult; simpl. field. lra. }
  assert (D3 : is_derive (fun x => 2 * RInt lnq 0 (exp x) - PI ^ 2 / 6) x (2 * ln (1 + exp x))).
  { replace (2 * ln (1 + exp x)) with (minus (scal 2 (ln (1 + exp x))) 0) by (unfold minus, plus, opp, scal; simpl; unfold mult; simpl; ring).
    apply (is_derive_minus (V:=R_NormedModule)); [|exact (is_derive_const (V:=R_NormedModule) (PI ^ 2 / 6) x)].
    apply (is_derive_scal (fun x => RInt lnq 0 (exp x)) x 2 (ln (1 + exp x))); auto. }
  pose proof (is_derive_plus (V:=R_NormedModule) _ _ _ _ _ D1 D3) as D.
  replace (x * x * wt x) with (plus (x * x * wt x - 2 * ln (1 + exp x)) (2 * ln (1 + exp x))) by (unfold plus; simpl; ring).
  eapply is_derive_ext; [|exact D]. intros t. unfold Gxx, plus; simpl. ring.
Qed.
Lemma Gxx_0 : Gxx 0 = 0.
Proof. unfold Gxx. rewrite exp_0, lnq_int. field. Qed.
Lemma Gxx_odd : forall x, Gxx (- x) = - Gxx x.
Proof.
  intros x. set (H := fun x => Gxx x + Gxx (- x)).
  assert (DH : forall t, is_derive H t 0).
  { intros t. replace 0 with (plus (t * t * wt t) (scal (-1) ((- t) * (- t) * wt (- t)))).
    - unfold H. apply (is_derive_plus (V:=R_NormedModule) Gxx (fun x => Gxx (- x))); [apply Gxx_derive|].
      apply (is_derive_comp Gxx (fun x => - x)); [apply Gxx_derive|]. auto_derive; auto.
    - rewrite wt_even. unfold plus, scal; simpl; unfold mult; simpl. ring. }
  assert (I : is_RInt (fun _ => 0) 0 x (H x - H 0)).
  { apply (is_RInt_derive (V:=R_CompleteNormedModule) H (fun _ => 0)); intros t _; [apply DH|apply continuous_const]. }
  assert (I0 : is_RInt (fun _ : R => 0) 0 x 0) by (apply int_c; ring).
  pose proof (is_RInt_unique (V:=R_CompleteNormedModule) _ _ _ _ I) as U1.
  pose proof (is_RInt_unique (V:=R_CompleteNormedModule) _ _ _ _ I0) as U2. rewrite U1 in U2. unfold H in U2.
  rewrite Ropp_0, Gxx_0 in U2. lra.
Qed.
Lemma int_xxdf_all : forall x, int_xxdf x = Gxx x.
Proof.
  intros x. unfold int_xxdf. cbv zeta.
  assert (L : forall t, 2 * Li2 (- exp t) = - (2 * RInt lnq 0 (exp t))).
  { intros t. unfold Li2. replace (1 - - exp t) with (1 + exp t) by ring. rewrite spence_lnq; [ring|]. pose proof (exp_pos t); lra. }
  rewrite L. unfold rsign, Rltb, Rabs. destruct (Rcase_abs x), (Rlt_dec x 0); try lra.
  - rewrite Ropp_involutive. unfold Gxx. unfold Rdiv. ring.
  - destruct (Rlt_dec 0 x) as [H|H].
    + replace (Gxx x) with (- Gxx (- x)) by (rewrite Gxx_odd; ring). unfold Gxx. unfold Rdiv. ring.
    + replace x with 0 by lra. rewrite Gxx_0. ring.
Qed.
Theorem C49_int_xxdf : forall x : R, is_derive int_xxdf x (x ^ 2 * wt x).
Proof.
  intros x. replace (x ^ 2 * wt x) with (x * x * wt x) by ring.
  apply is_derive_ext with Gxx; [intros; symmetry; apply int_xxdf_all|apply Gxx_derive].
Qed.
Print Assumptions C49_int_xxdf.

(** documented: int_poly integrates (a x^2 + b x + c) (-df/dx) from x0 to x1 *)
Theorem C49_int_poly : forall x0 x1 a b c,
  is_RInt (fun x => (a * x ^ 2 + b * x + c) * wt x) x0 x1 (int_poly x0 x1 a b c).
Proof.
  intros x0 x1 a b c. set (F := fun x => a * int_xxdf x + b * int_xdf x + c * int_df x).
  replace (int_poly x0 x1 a b c) with (minus (F x1) (F x0)) by (unfold F, int_poly, minus, plus, opp; simpl; ring).
  apply (is_RInt_derive (V:=R_CompleteNormedModule) F).
  - intros x _. unfold F. replace ((a * x ^ 2 + b * x + c) * wt x) with (plus (plus (scal a (x ^ 2 * wt x)) (scal b (x * wt x))) (scal c (wt x)))
      by (unfold plus, scal; simpl; unfold mult; simpl; ring).
    apply (is_derive_plus (V:=R_NormedModule) (fun x => a * int_xxdf x + b * int_xdf x) (fun x => c * int_df x)).
    + apply (is_derive_plus (V:=R_NormedModule) (fun x => a * int_xxdf x) (fun x => b * int_xdf x)).
      * apply (is_derive_scal int_xxdf), C49_int_xxdf.
      * apply (is_derive_scal int_xdf), C49_int_xdf.
    + apply (is_derive_scal int_df), C49_int_df.
  - intros x _. apply (continuous_mult (K:=R_AbsRing) (fun x => a * x ^ 2 + b * x + c) wt); [|apply wt_cont].
    apply (ex_derive_continuous (V:=R_NormedModule)). auto_derive; auto.
Qed.
Print Assumptions C49_int_poly.
(** non-trivial instance: the cut-off at zero gives minus the value at one side *)
Example C49_poly_example : is_RInt (fun x => (0 * x ^ 2 + 1 * x + 0) * wt x) (-1) 2 (int_xdf 2 - int_xdf 1) /\ int_xdf 2 - int_xdf 1 <> 0.
Proof.
  split.
  - pose proof (C49_int_poly (-1) 2 0 1 0) as H. replace (int_xdf 2 - int_xdf 1) with (int_poly (-1) 2 0 1 0); auto.
    unfold int_poly. replace (int_xdf (-1)) with (int_xdf 1); [ring|]. unfold int_xdf. rewrite Rabs_R1.
    replace (Rabs (-1)) with 1 by (rewrite Rabs_left; lra). reflexivity.
  - destruct (MVT_cor2 int_xdf (fun x => x * wt x) 1 2) as (c & E & C); [lra| |].
    + intros c _. apply is_derive_Reals, C49_int_xdf.
    + rewrite E. pose proof (wt_pos c). assert (0 < c * wt c) by (apply Rmult_lt_0_compat; lra). lra.
Qed.

(** the normalisation stated in the comments of the source *)
Lemma int_xdf_bound : forall x, 0 < x -> Rabs (int_xdf x) <= 3 / x.
Proof.
  intros x Hx. unfold int_xdf. cbv zeta. rewrite (Rabs_right x) by lra. set (e := exp (- x)).
  assert (Pe : 0 < e) by apply exp_pos.
  assert (Q : e * (1 + x + x * x / 2) <= 1).
  { unfold e. rewrite exp_Ropp. assert (1 + x + x * x / 2 <= exp x).
    { assert (M : forall t, 0 <= t -> 1 + t <= exp t) by (intros; apply exp_ineq1_le).
      destruct (MVT_cor2 (fun t => exp t - 1 - t - t * t / 2) (fun t => exp t - 1 - t) 0 x) as (c & E & C); [lra| |].
      - intros c _. apply is_derive_Reals. auto_derive; auto. field.
      - rewrite exp_0 in E. pose proof (M c ltac:(lra)). nra. }
    apply Rmult_le_reg_l with (exp x); [apply exp_pos|]. rewrite <- Rmult_assoc, Rinv_r, Rmult_1_l, Rmult_1_r; auto. pose proof (exp_pos x); lra. }
  assert (L1 : 0 <= ln (1 + e) <= e).
  { split; [rewrite <- ln_1; apply ln_le; lra|]. rewrite <- (ln_exp e) at 2. apply ln_le; [lra|]. apply exp_ineq1_le. }
  assert (B1 : 0 <= x * e / (1 + e) <= 2 / x).
  { split; [apply Rdiv_le_0_compat; nra|]. apply Rmult_le_reg_r with (x * (1 + e)); [nra|]. field_simplify; [|lra|lra]. nra. }
  assert (B2 : e <= 1 / x).
  { apply Rmult_le_reg_r with x; auto. field_simplify; [|lra]. nra. }
  assert (Ip : 0 < / x) by (apply Rinv_0_lt_compat; auto).
  replace (- x * e / (1 + e)) with (- (x * e / (1 + e))) by (field; lra).
  apply Rabs_le. unfold Rdiv in *. lra.
Qed.
Theorem C49_normalisation : int_df 0 = 0 /\ int_xxdf 0 = 0 /\ is_lim int_xdf p_infty 0 /\ is_lim int_xdf m_infty 0.
Proof.
  assert (P : is_lim int_xdf p_infty 0).
  { apply is_lim_spec. intros eps. exists (3 / eps). intros x Hx.
    assert (Hp : 0 < 3 / eps) by (apply Rdiv_lt_0_compat; [lra|apply cond_pos]).
    assert (Hx0 : 0 < x) by lra.
    rewrite Rminus_0_r. eapply Rle_lt_trans; [apply int_xdf_bound; lra|].
    apply Rmult_lt_reg_r with x; [lra|]. apply Rmult_lt_compat_r with (r := eps) in Hx; [|apply cond_pos].
    pose proof (cond_pos eps) as He. replace (3 / eps * eps) with 3 in Hx by (field; lra).
    replace (3 / x * x) with 3 by (field; lra). lra. }
  split; [|split; [|split]]; auto.
  - unfold int_df. replace (0 / 2) with 0 by field. unfold tanh, sinh. rewrite Ropp_0. unfold Rdiv. ring.
  - rewrite int_xxdf_all. apply Gxx_0.
  - apply is_lim_ext with (fun x => int_xdf (- x)).
    + intros x. unfold int_xdf. rewrite Rabs_Ropp. reflexivity.
    + replace m_infty with (Rbar_opp p_infty) by reflexivity.
      apply (is_lim_comp int_xdf Ropp (Rbar_opp p_infty) 0 p_infty); auto.
      * apply (is_lim_opp (fun x => x) m_infty m_infty). apply is_lim_id.
      * exists 0. intros; discriminate.
Qed.
Print Assumptions C49_normalisation.

(** the second moment over all energies is pi^2/3: half of it is reached at infinity *)
Lemma lnq_le1 : forall u, 0 < u -> 0 <= lnq u <= 1.
Proof.
  intros u Hu. unfold lnq. destruct (Req_EM_T u 0); [lra|].
  assert (L1 : 0 <= ln (1 + u) <= u).
  { split; [rewrite <- ln_1; apply ln_le; lra|]. rewrite <- (ln_exp u) at 2. apply ln_le; [lra|]. apply exp_ineq1_le. }
  split; [apply Rdiv_le_0_compat; lra|]. apply Rmult_le_reg_r with u; auto. replace (ln (1 + u) / u * u) with (ln (1 + u)) by (field; lra). lra.
Qed.
Theorem C49_second_moment : is_lim int_xxdf p_infty (PI ^ 2 / 6) /\ is_lim int_xxdf m_infty (- (PI ^ 2 / 6)).
Proof.
  assert (B : forall x, 0 < x -> Rabs (int_xxdf x - PI ^ 2 / 6) <= 20 / x).
  { intros x Hx. rewrite int_xxdf_all. replace (Gxx x) with (- Gxx (- x)) by (rewrite Gxx_odd; ring). unfold Gxx.
    set (e := exp (- x)). assert (Pe : 0 < e) by apply exp_pos.
    assert (Q : e * (1 + x + x * x / 2 + x * x * x / 6) <= 1).
    { unfold e. rewrite exp_Ropp. assert (1 + x + x * x / 2 + x * x * x / 6 <= exp x).
      { assert (M : forall t, 0 <= t -> 1 + t + t * t / 2 <= exp t).
        { intros t Ht. destruct (Req_dec t 0) as [->|]; [rewrite exp_0; lra|].
          destruct (MVT_cor2 (fun t => exp t - 1 - t - t * t / 2) (fun t => exp t - 1 - t) 0 t) as (c & E & C); [lra| |].
          - intros c _. apply is_derive_Reals. auto_derive; auto. field.
          - rewrite exp_0 in E. pose proof (exp_ineq1_le c). nra. }
        destruct (MVT_cor2 (fun t => exp t - 1 - t - t * t / 2 - t * t * t / 6) (fun t => exp t - 1 - t - t * t / 2) 0 x) as (c & E & C); [lra| |].
        - intros c _. apply is_derive_Reals. auto_derive; auto. field.
        - rewrite exp_0 in E. pose proof (M c ltac:(lra)). nra. }
      apply Rmult_le_reg_l with (exp x); [apply exp_pos|]. rewrite <- Rmult_assoc, Rinv_r, Rmult_1_l, Rmult_1_r; auto. pose proof (exp_pos x); lra. }
    assert (L1 : 0 <= ln (1 + e) <= e).
    { split; [rewrite <- ln_1; apply ln_le; lra|]. rewrite <- (ln_exp e) at 2. apply ln_le; [lra|]. apply exp_ineq1_le. }
    assert (I : 0 <= RInt lnq 0 e <= e).
    { pose proof (RInt_correct (V:=R_CompleteNormedModule) _ _ _ (lnq_ex 0 e ltac:(lra) ltac:(lra))) as I. split.
      - apply (is_RInt_le (fun _ => 0) lnq 0 e); auto; [lra|apply int_c; ring|]. intros u Hu. apply lnq_le1; lra.
      - apply (is_RInt_le lnq (fun _ => 1) 0 e); auto; [lra|apply int_c; ring|]. intros u Hu. apply lnq_le1; lra. }
    set (J := RInt lnq 0 e) in *. set (L := ln (1 + e)) in *.
    assert (Ip : 0 < / x) by (apply Rinv_0_lt_compat; auto).
    assert (K1 : x * x * e / (1 + e) <= x * x * e).
    { apply Rmult_le_reg_r with (1 + e); [lra|]. unfold Rdiv. rewrite Rmult_assoc, Rinv_l by lra. assert (0 <= x * x * e) by (repeat apply Rmult_le_pos; lra). nra. }
    assert (K0 : 0 <= x * x * e / (1 + e)) by (apply Rdiv_le_0_compat; [repeat apply Rmult_le_pos; lra|lra]).
    assert (X : x * / x = 1) by (field; lra).
    assert (E3 : e * x * x * x <= 6) by nra.
    assert (E2 : e * x * x <= 2) by (assert (0 <= e * x * x * x) by (repeat apply Rmult_le_pos; lra); nra).
    assert (E1 : e * x <= 1) by (assert (0 <= e * x * x * x) by (repeat apply Rmult_le_pos; lra); assert (0 <= e * x * x) by (repeat apply Rmult_le_pos; lra); nra).
    assert (M1 : x * x * e <= 6 * / x) by (apply Rmult_le_reg_r with x; auto; nra).
    assert (M2 : x * e <= 2 * / x) by (apply Rmult_le_reg_r with x; auto; nra).
    assert (M3 : e <= / x) by (apply Rmult_le_reg_r with x; auto; nra).
    assert (M4 : 0 <= x * L <= x * e) by nra.
    replace (- (- x * - x * e / (1 + e) - 2 * - x * L + 2 * J - PI ^ 2 / 6) - PI ^ 2 / 6)
      with (- (x * x * e / (1 + e)) - 2 * (x * L) - 2 * J) by (field; lra).
    apply Rabs_le. change (20 / x) with (20 * / x). split; lra. }
  assert (P : is_lim int_xxdf p_infty (PI ^ 2 / 6)).
  { apply is_lim_spec. intros eps. exists (20 / eps). intros x Hx.
    assert (Hp : 0 < 20 / eps) by (apply Rdiv_lt_0_compat; [lra|apply cond_pos]).
    assert (Hx0 : 0 < x) by lra.
    eapply Rle_lt_trans; [apply B; lra|].
    apply Rmult_lt_reg_r with x; [lra|]. apply Rmult_lt_compat_r with (r := eps) in Hx; [|apply cond_pos].
    pose proof (cond_pos eps) as He. replace (20 / eps * eps) with 20 in Hx by (field; lra).
    replace (20 / x * x) with 20 by (field; lra). lra. }
  split; auto.
  apply is_lim_ext with (fun x => - int_xxdf (- x)).
  - intros x. rewrite !int_xxdf_all, Gxx_odd. ring.
  - apply (is_lim_opp (fun x => int_xxdf (- x)) m_infty (PI ^ 2 / 6)).
    apply (is_lim_comp int_xxdf Ropp m_infty (PI ^ 2 / 6) p_infty); auto.
    + apply (is_lim_opp (fun x => x) m_infty m_infty). apply is_lim_id.
    + exists 0. intros; discriminate.
Qed.
Print Assumptions C49_second_moment.

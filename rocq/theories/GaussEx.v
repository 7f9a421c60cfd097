(** Property C160: three points at one and at two temperatures. *)
From Coq Require Import Reals Lra Lia Psatz List Bool Sorted Permutation.
From Coquelicot Require Import Coquelicot.
From Verif Require Import CplxR NbrModel SmearCalc SmearProps DosModel DosMore DosProps Basel FermiInt FermiConv BulkModel FermiMoments BulkProps BulkWeights GaussPoly GaussModel GaussProps.
Import List ListNotations.
Local Open Scope R_scope.

Lemma zeta_bounds n : (2 <= n)%nat -> 1 <= zeta n <= 2.
Proof.
  intros Hn. pose proof (zeta_lim n Hn) as Z. split.
  - apply (is_lim_seq_le_loc (fun _ => 1) (zeta_sum n) 1 (zeta n)); [|apply is_lim_seq_const|exact Z].
    exists 1%nat. intros [|k] Hk; [lia|]. clear. induction k as [|k IH].
    + cbn [zeta_sum]. change (INR 1) with 1. rewrite pow1, Rinv_1. lra.
    + change (zeta_sum n (S (S k))) with (zeta_sum n (S k) + / INR (S (S k)) ^ n).
      assert (0 < / INR (S (S k)) ^ n) by (apply Rinv_0_lt_compat, pow_lt, lt_0_INR; lia). lra.
  - apply (is_lim_seq_le_loc (zeta_sum n) (fun _ => 2) (zeta n) 2); [|exact Z|apply is_lim_seq_const].
    exists 0%nat. intros [|k] _; [cbn; lra|]. pose proof (zeta_sum_bound n k Hn).
    assert (0 < / INR (S k)) by (apply Rinv_0_lt_compat, lt_0_INR; lia). lra.
Qed.
Lemma b4_bounds : 7 / 4 <= b_coeff 4 <= 7 / 2.
Proof. unfold b_coeff. cbn [Nat.even]. pose proof (zeta_bounds 4 ltac:(lia)). replace (2 * zeta 4 * (1 - 2 / 2 ^ 4)) with (7 / 4 * zeta 4) by field. lra. Qed.
Lemma sum0_4 f : sum0 4 f = f 0%nat + f 1%nat + f 2%nat + f 3%nat.
Proof. unfold sum0, lsum. cbn. ring. Qed.

(** the QR decomposition of the matrix with four rows *)
Section Qr.
Variables (a1 a2 a3 r0 r1 : R) (A : nat -> nat -> R).
Definition q3 (m l : nat) : R :=
  match m, l with
  | 0%nat, 0%nat => 1 / r0 | 2%nat, 0%nat => a2 / r0 | 0%nat, 2%nat => - a2 / r0 | 2%nat, 2%nat => 1 / r0
  | 1%nat, 1%nat => a1 / r1 | 3%nat, 1%nat => a3 / r1 | 1%nat, 3%nat => - a3 / r1 | 3%nat, 3%nat => a1 / r1
  | _, _ => 0
  end.
Definition u3 (l c : nat) : R :=
  match l, c with
  | 0%nat, 0%nat => r0 | 0%nat, 2%nat => (A 0%nat 2%nat + a2 * A 2%nat 2%nat) / r0 | 2%nat, 2%nat => (A 2%nat 2%nat - a2 * A 0%nat 2%nat) / r0 | 1%nat, 1%nat => r1
  | _, _ => 0
  end.
Lemma qr3 : 0 < r0 -> 0 < r1 -> 1 + a2 * a2 = r0 * r0 -> a1 * a1 + a3 * a3 = r1 * r1 ->
  A 0%nat 0%nat = 1 -> A 2%nat 0%nat = a2 -> A 1%nat 1%nat = a1 -> A 3%nat 1%nat = a3 ->
  (forall m c, Nat.odd (m + c) = true -> A m c = 0) -> is_qr 4 3 A q3.
Proof.
  intros P0 P1 E0 E1 A00 A20 A11 A31 AZ. split.
  - assert (S0 : 1 / r0 * (1 / r0) + a2 / r0 * (a2 / r0) = 1). { transitivity ((1 + a2 * a2) / (r0 * r0)); [field; lra|]. rewrite E0. field. lra. }
    assert (S1 : a1 / r1 * (a1 / r1) + a3 / r1 * (a3 / r1) = 1). { transitivity ((a1 * a1 + a3 * a3) / (r1 * r1)); [field; lra|]. rewrite E1. field. lra. }
    intros a b Ha Hb. rewrite sum0_4.
    destruct a as [|[|[|[|a]]]]; [| | | |lia]; (destruct b as [|[|[|[|b]]]]; [| | | |lia]); cbn [q3 Nat.eqb]; first [ring | solve [field; lra] | solve [etransitivity; [|exact S0]; field; lra] | solve [etransitivity; [|exact S1]; field; lra]].
  - exists u3. split.
    + intros i j Hi Hj L. destruct i as [|[|[|[|i]]]]; try lia; destruct j as [|[|[|j]]]; try lia; reflexivity.
    + intros m c Hm Hc. rewrite sum0_4. destruct c as [|[|[|c]]]; [| | |lia]; (destruct m as [|[|[|[|m]]]]; [| | | |lia]); cbn [q3 u3]; try (rewrite AZ by reflexivity; ring).
      * rewrite A00. field. lra.
      * rewrite A20. field. lra.
      * rewrite A11. field. lra.
      * rewrite A31. field. lra.
      * transitivity (A 0%nat 2%nat * (1 + a2 * a2) / (r0 * r0)); [rewrite E0; field; lra|field; lra].
      * transitivity (A 2%nat 2%nat * (1 + a2 * a2) / (r0 * r0)); [rewrite E0; field; lra|field; lra].
Qed.
End Qr.

Lemma fact_vals : INR (fact 0) = 1 /\ INR (fact 2) = 2 /\ INR (fact 4) = 24 /\ INR (fact 6) = 720.
Proof. repeat split; rewrite INR_IZR_INZ; apply f_equal; vm_compute; reflexivity. Qed.
Lemma mom_odd b n : Nat.odd n = true -> mom b n = 0.
Proof. intros H. unfold mom, iw_rhs, b_coeff. rewrite <- Nat.negb_odd, H. cbn. ring. Qed.
Lemma mat3 f bm bd (one : bool) m c : ip_mat f bm bd one 3 m c = mom (if one then bm else bd) (c + m) / (INR (fact (2 * c)) * INR (fact (2 * m))).
Proof.
  unfold ip_mat. cbv zeta. change (3 / 2 - 1)%nat with 0%nat. destruct one; [apply i_nj_val; lia|]. cbn [Nat.ltb Nat.leb]. rewrite Nat.sub_0_r. apply i_nj_val. lia.
Qed.

Section Three.
Variable b : R.
Hypothesis Hb : 0 < b.
Definition m2 := 2 * b_coeff 2 / b ^ 2.
Definition m4 := 24 * b_coeff 4 / b ^ 4.
Lemma m2_pos : 0 < m2. Proof. pose proof b2_bounds. unfold m2. apply Rdiv_lt_0_compat; [lra|apply pow_lt, Hb]. Qed.
Lemma m4_pos : 0 < m4. Proof. pose proof b4_bounds. unfold m4. apply Rdiv_lt_0_compat; [lra|apply pow_lt, Hb]. Qed.
Lemma mom2 : mom b 2 = m2. Proof. destruct fact_vals as (_ & F2 & _). unfold mom, iw_rhs, m2. rewrite F2. field. lra. Qed.
Lemma mom4 : mom b 4 = m4. Proof. destruct fact_vals as (_ & _ & F4 & _). unfold mom, iw_rhs, m4. rewrite F4. field. lra. Qed.
Lemma mom0 : mom b 0 = 1. Proof. unfold mom, iw_rhs. rewrite b0_val. cbn. field. Qed.
Definition qq : nat -> nat -> R :=
  q3 (m2 / 4) (m2 / 24) (m4 / 1440) (sqrt (1 + m2 / 24 * (m2 / 24))) (sqrt (m2 / 4 * (m2 / 4) + m4 / 1440 * (m4 / 1440))).
Lemma qq_ok f bm bd (one : bool) : (if one then bm else bd) = b -> is_qr 4 3 (ip_mat f bm bd one 3) qq.
Proof.
  intros E. pose proof m2_pos as P2. pose proof m4_pos as P4. destruct fact_vals as (F0 & F2 & F4 & F6).
  apply qr3.
  - apply sqrt_lt_R0. nra.
  - apply sqrt_lt_R0. nra.
  - symmetry. apply sqrt_sqrt. nra.
  - symmetry. apply sqrt_sqrt. nra.
  - rewrite mat3, E. cbn [Nat.add Nat.mul]. rewrite mom0, F0. field.
  - rewrite mat3, E. cbn [Nat.add Nat.mul]. rewrite mom2, F0, F4. field.
  - rewrite mat3, E. cbn [Nat.add Nat.mul]. rewrite mom2, F2. field.
  - rewrite mat3, E. cbn [Nat.add Nat.mul]. rewrite mom4, F2, F6. field.
  - intros m c H. rewrite mat3, mom_odd; [unfold Rdiv; ring|]. rewrite Nat.add_comm. exact H.
Qed.
Definition xi : R := sqrt (m4 / m2).
Lemma xi_sq : xi * xi = m4 / m2. Proof. apply sqrt_sqrt. pose proof m2_pos. pose proof m4_pos. apply Rlt_le, Rdiv_lt_0_compat; assumption. Qed.
Lemma xi_pos : 0 < xi. Proof. apply sqrt_lt_R0. pose proof m2_pos. pose proof m4_pos. apply Rdiv_lt_0_compat; assumption. Qed.
Definition roots3 (_ : list R) : list cplx := [(0, 0); (xi, 0); (- xi, 0)].
Definition qr_3 (_ _ : nat) (_ : nat -> nat -> R) : nat -> nat -> R := qq.
Lemma roots_ok : is_roots (ip_poly 3 qq) (roots3 (ip_poly 3 qq)).
Proof.
  intros _. split; [reflexivity|]. intros z. rewrite ip_rev. unfold ip_low, ip_poly. cbn [map seq hd Nat.sub Nat.mul Nat.add]. unfold qq, q3. set (r1 := sqrt _).
  destruct fact_vals as (F0 & F2 & F4 & F6). rewrite F0, F2, F4, F6. pose proof m2_pos as P2.
  assert (E : m4 = xi * xi * m2) by (rewrite xi_sq; field; lra). rewrite E. unfold roots3, cprod. cbn [fold_right cpeval]. destruct z as [x y].
  assert (R1 : r1 <> 0). { unfold r1. apply Rgt_not_eq, sqrt_lt_R0. pose proof m4_pos. nra. }
  apply cplx_eq; cbn; field; exact R1.
Qed.
Lemma points3 tmin tmax : tmin <= tmax -> integration_points qr_3 roots3 1 0 tmin tmax 3 = Some [- xi; 0; xi].
Proof.
  intros L. unfold integration_points. cbn [Nat.eqb Nat.even]. unfold Rleb at 1. destruct (Rle_dec tmin tmax); [|contradiction]. cbn [negb]. cbv zeta. unfold roots3. cbn [map fst rsort].
  pose proof xi_pos. cbn [rinsert]. rewrite (Rleb_f xi (- xi)) by lra. cbn [rinsert]. rewrite (Rleb_f 0 (- xi)) by lra. rewrite (Rleb_t 0 xi) by lra. cbn [map]. f_equal. repeat (f_equal; try ring).
Qed.

(** weights at beta = 1 *)
Definition v3 : R := b_coeff 2 * m2 / m4.
Definition ww : list R := [v3; 1 - 2 * v3; v3].
Definition solve_3 (_ : list (list R)) (_ : list R) : list R := ww.
Lemma v3_xi : v3 * (xi * xi) = b_coeff 2.
Proof. rewrite xi_sq. unfold v3. pose proof m2_pos. pose proof m4_pos. field. lra. Qed.
Lemma solve_ok : good_solve solve_3 [- xi; 0; xi] [(0, 1)].
Proof.
  intros mu beta [E|[]]. injection E as <- <-. split; [cbn; lra|]. split; [reflexivity|]. intros n Hn. unfold solve_3, ww, dot, iw_row, iw_rhs. cbn [length map seq] in Hn.
  cbn [map seq length]. rewrite b0_val, b1_val. destruct fact_vals as (F0 & F2 & _). pose proof v3_xi as V.
  destruct n as [|[|[|n]]]; try lia; cbn [nth map combine]; unfold lsum; cbn [fold_right fst snd]; rewrite ?F0, ?F2; cbn [fact Nat.add Nat.mul INR pow].
  - field.
  - field.
  - rewrite <- V. field.
Qed.
Hypothesis Hv : 1 / 100 <= v3 <= 2 / 5.
Hypothesis Hx : xi < 10.
Lemma lmax_ww : 0 < lmax ww <= 1.
Proof. unfold lmax, ww. cbn [fold_right]. unfold Rmax. repeat destruct (Rle_dec _ _); lra. Qed.
Lemma sel_ww i : (i < 3)%nat -> iw_select [- xi; 0; xi] [ww] (-10) 10 (/ 10 ^ 4) i = true.
Proof.
  intros Hi. unfold iw_select. cbn [map]. unfold lmax at 1. cbn [fold_right length]. pose proof lmax_ww as L. pose proof xi_pos.
  assert (B : 1 / 100 <= nth i ww 0) by (destruct i as [|[|[|i]]]; try lia; cbn [nth ww]; lra).
  rewrite Rltb_t.
  - destruct i as [|[|[|i]]]; try lia; cbn [nth]; rewrite !Rltb_t by lra; reflexivity.
  - apply Rlt_le_trans with (1 / 100); [cbn [INR pow]; lra|]. apply (Rmult_le_reg_r (lmax ww)); [lra|]. unfold Rdiv at 2. rewrite Rmult_assoc, Rinv_l by lra. nra.
Qed.
Lemma weights3 : integration_weights solve_3 [- xi; 0; xi] [(0, 1)] (-10) 10 (/ 10 ^ 4) = IWPair [- xi; 0; xi] [ww].
Proof.
  unfold integration_weights. cbn [length Nat.even Nat.eqb map fst snd]. unfold iw_weights. rewrite Rltb_f by (cbn [pow]; lra). cbn [all_some]. unfold solve_3.
  rewrite keep_all by (intros i Hi; apply sel_ww; exact Hi). cbn [map]. rewrite keep_all; [reflexivity|]. intros i Hi. apply sel_ww. exact Hi.
Qed.
End Three.

Lemma b_ratio : forall b, 0 < b -> v3 b = b_coeff 2 * b_coeff 2 / (12 * b_coeff 4) * b ^ 2 /\ xi b * xi b = 12 * b_coeff 4 / b_coeff 2 / b ^ 2.
Proof.
  intros b Hb. pose proof b2_bounds. pose proof b4_bounds. rewrite (xi_sq b Hb). unfold v3, m2, m4. split; field; lra.
Qed.
Lemma b_bounds : 1 / 42 <= b_coeff 2 * b_coeff 2 / (12 * b_coeff 4) <= 4 / 21 /\ 12 * b_coeff 4 / b_coeff 2 <= 42.
Proof.
  pose proof b2_bounds. pose proof b4_bounds. assert (1 <= b_coeff 2 * b_coeff 2 <= 4) by nra. repeat split.
  - apply (Rmult_le_reg_r (12 * b_coeff 4)); [lra|]. unfold Rdiv at 2. rewrite Rmult_assoc, Rinv_l by lra. lra.
  - apply (Rmult_le_reg_r (12 * b_coeff 4)); [lra|]. unfold Rdiv at 1. rewrite Rmult_assoc, Rinv_l by lra. lra.
  - apply (Rmult_le_reg_r (b_coeff 2)); [lra|]. unfold Rdiv at 1. rewrite Rmult_assoc, Rinv_l by lra. lra.
Qed.
Lemma inst_ok b : 1 <= b <= 4 / 3 -> 1 / 100 <= v3 b <= 2 / 5 /\ xi b < 10.
Proof.
  intros Hb. destruct (b_ratio b ltac:(lra)) as (E1 & E2). destruct b_bounds as (B1 & B2). rewrite E1. split; [cbn [pow]; nra|].
  pose proof (xi_pos b ltac:(lra)). assert (xi b * xi b <= 42); [|nra]. rewrite E2.
  assert (1 <= b ^ 2) by (cbn [pow]; nra). apply (Rmult_le_reg_r (b ^ 2)); [lra|]. unfold Rdiv at 1. rewrite Rmult_assoc, Rinv_l by lra. nra.
Qed.

(** one temperature: the three points and weights exist and the rule is exact up to degree 5 *)
Example C160_ex : 0 < 1 /\ good_libs (qr_3 1) (roots3 1) 1 0 1 1 3 /\
  integration_points (qr_3 1) (roots3 1) 1 0 1 1 3 = Some [- xi 1; 0; xi 1] /\ good_solve (solve_3 1) [- xi 1; 0; xi 1] [(0, 1 / (1 * 1))] /\
  integration_weights (solve_3 1) [- xi 1; 0; xi 1] [(0, 1 / (1 * 1))] (-10) 10 (/ 10 ^ 4) = IWPair [- xi 1; 0; xi 1] [ww 1] /\
  is_improper (fun e => e ^ 4 * wb 1 e) (2 * v3 1 * xi 1 ^ 4).
Proof.
  assert (H1 : 0 < 1) by lra. assert (E1 : 1 / (1 * 1) = 1) by field. destruct (inst_ok 1 ltac:(lra)) as (V & X).
  assert (G : good_libs (qr_3 1) (roots3 1) 1 0 1 1 3).
  { split; [|apply roots_ok, H1]. apply qq_ok; [exact H1|]. unfold Reqb. destruct (Req_EM_T 1 1); [exact E1|lra]. }
  assert (P := points3 1 H1 1 1 ltac:(lra)). rewrite E1. assert (W := weights3 1 H1 V X). assert (S := solve_ok 1 H1).
  split; [exact H1|]. split; [exact G|]. split; [exact P|]. split; [exact S|]. split; [exact W|].
  assert (GX := C160_gauss_partial (qr_3 1) (roots3 1) 1 0 1 3 [- xi 1; 0; xi 1] (solve_3 1) [(0, 1)] (-10) 10 (/ 10 ^ 4) _ _ 0%nat H1 H1 G P S W eq_refl ltac:(cbn; rewrite E1; reflexivity) [0; 0; 0; 0; 1] ltac:(cbn; lia)).
  rewrite E1 in GX. replace (2 * v3 1 * xi 1 ^ 4) with (qsum [- xi 1; 0; xi 1] (nth 0 [ww 1] []) (peval [0; 0; 0; 0; 1])).
  - refine (improper_ext _ _ _ _ GX). intros e. cbn [peval pow]. rewrite Rminus_0_r. ring.
  - unfold qsum, lsum, ww. cbn [nth combine fold_right fst snd peval pow]. ring.
Qed.

(** two temperatures: the rule is not exact for degree 4 at T_max *)
Theorem C160_two_refuted : ~ forall qr roots kB fermi tmin tmax N xs solve mubeta emin emax rtol x' ws j,
  0 < kB -> 0 < tmin <= tmax -> good_libs qr roots kB fermi tmin tmax N ->
  integration_points qr roots kB fermi tmin tmax N = Some xs -> good_solve solve xs mubeta ->
  integration_weights solve xs mubeta emin emax rtol = IWPair x' ws -> length x' = length xs -> nth_error mubeta j = Some (fermi, 1 / (kB * tmax)) ->
  forall cs, (length cs <= 2 * N)%nat ->
  is_improper (fun e => peval cs e * wb (1 / (kB * tmax)) (e - fermi)) (qsum x' (nth j ws []) (peval cs)).
Proof.
  intros C. set (b := 4 / 3). assert (Hb : 0 < b) by (unfold b; lra). assert (E1 : 1 / (1 * 1) = 1) by field. destruct (inst_ok b ltac:(unfold b; lra)) as (V & X).
  assert (G : good_libs (qr_3 b) (roots3 b) 1 0 (1 / 2) 1 3).
  { split; [|apply roots_ok, Hb]. apply qq_ok; [exact Hb|]. unfold Reqb. destruct (Req_EM_T (1 / 2) 1); [lra|]. unfold b. field. }
  assert (GX := C (qr_3 b) (roots3 b) 1 0 (1 / 2) 1 3%nat [- xi b; 0; xi b] (solve_3 b) [(0, 1)] (-10) 10 (/ 10 ^ 4) _ _ 0%nat ltac:(lra) ltac:(lra) G (points3 b Hb (1 / 2) 1 ltac:(lra)) (solve_ok b Hb) (weights3 b Hb V X) eq_refl ltac:(cbn; rewrite E1; reflexivity) [0; 0; 0; 0; 1] ltac:(cbn; lia)).
  clear C. rewrite E1 in GX. pose proof (moment_beta 4 1 0 ltac:(lra)) as M.
  assert (GY : is_improper (fun e => (e - 0) ^ 4 * wb 1 (e - 0)) (qsum [- xi b; 0; xi b] (nth 0 [ww b] []) (peval [0; 0; 0; 0; 1]))).
  { refine (improper_ext _ _ _ _ GX). intros e. cbn [peval pow]. rewrite Rminus_0_r. ring. }
  pose proof (improper_unique _ _ _ M GY) as E. destruct fact_vals as (_ & _ & F4 & _). rewrite F4 in E.
  replace (qsum [- xi b; 0; xi b] (nth 0 [ww b] []) (peval [0; 0; 0; 0; 1])) with (2 * (v3 b * (xi b * xi b)) * (xi b * xi b)) in E.
  - rewrite (v3_xi b Hb) in E. destruct (b_ratio b Hb) as (_ & R). rewrite R in E. unfold iw_rhs, b in E. pose proof b2_bounds. pose proof b4_bounds.
    assert (Z : 2 * b_coeff 2 * (12 * b_coeff 4 / b_coeff 2 / (4 / 3) ^ 2) = 27 / 2 * b_coeff 4) by (field; lra). rewrite Z in E.
    replace (/ 1 ^ 4) with 1 in E by field. lra.
  - unfold qsum, lsum, ww. cbn [nth combine fold_right fst snd peval pow]. ring.
Qed.
Print Assumptions C160_two_refuted.

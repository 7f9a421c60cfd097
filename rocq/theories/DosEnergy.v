(** Properties C67-C69: total energy, heat capacity and the distribution of the samples. *)
From Coq Require Import Reals Lra Lia Psatz List ZArith Bool Arith.
From Coquelicot Require Import Coquelicot.
From Verif Require Import NbrModel SmearModel SmearCalc SmearProps CellProps DosModel DosProps Basel FermiInt FermiConv.
Import List ListNotations.
Local Open Scope R_scope.

(** ** C67: energy at T = 0 *)
(** Specification: the energy of the states of one band below [mu] is the integral of e dN(e) up to [mu], which is
    [mu N(mu)] minus the integral of N by partial integration (N = 0 at the lower edge). *)
Definition is_band_energy (mu : R) (b : band) (v : R) : Prop :=
  exists I, is_RInt (fun e => states_below_band e b) (b_lo b) mu I /\ v = mu * states_below_band mu b - I.

Definition cub (c : R * R * R * R) (x : R) : R := let '(c3, c2, c1, c0) := c in c3 * x ^ 3 + c2 * x ^ 2 + c1 * x + c0.
Definition cubI (c : R * R * R * R) (x : R) : R := let '(c3, c2, c1, c0) := c in c3 * x ^ 4 / 4 + c2 * x ^ 3 / 3 + c1 * x ^ 2 / 2 + c0 * x.
Lemma cubI_derive : forall c (x : R), is_derive (cubI c) x (cub c x).
Proof. intros (((c3, c2), c1), c0) x. unfold cubI, cub. auto_derive; auto. field. Qed.
Lemma cub_int : forall c a b, is_RInt (cub c) a b (cubI c b - cubI c a).
Proof.
  intros c a b. apply (is_RInt_derive (V:=R_CompleteNormedModule) (cubI c) (cub c)).
  - intros; apply cubI_derive.
  - intros x _. destruct c as (((c3, c2), c1), c0). unfold cub. apply (ex_derive_continuous (V:=R_NormedModule)). auto_derive. auto.
Qed.
Definition grid_pts (f : R -> R) (a h : R) (n : nat) : samples_t := map (fun i => (a + INR i * h, f (a + INR i * h))) (seq 0 n).
Lemma grid_pts_S : forall f a h n, grid_pts f a h (S n) = (a, f a) :: grid_pts f (a + h) h n.
Proof.
  intros f a h n. unfold grid_pts. cbn [seq map]. f_equal.
  - change (INR 0) with 0. replace (a + 0 * h) with a by ring. reflexivity.
  - rewrite <- seq_shift, map_map. apply map_ext. intros i. rewrite S_INR. replace (a + (INR i + 1) * h) with (a + h + INR i * h) by ring. reflexivity.
Qed.
(** the extrapolated trapezoidal rule is Simpson's rule, exact for cubic polynomials *)
Lemma simpson : forall c h M a, let p := grid_pts (cub c) a h (2 * M + 1) in
  trapez p + (trapez p - trapez (every2 p)) / (4 - 1) = cubI c (a + INR (2 * M) * h) - cubI c a.
Proof.
  intros c h M. induction M as [|M IH]; intros a p; unfold p.
  - cbn. field_simplify. replace (a + 0 * h) with a by ring. field.
  - replace (2 * S M + 1)%nat with (S (S (2 * M + 1))) by lia. rewrite !grid_pts_S.
    set (q := grid_pts (cub c) (a + h + h) h (2 * M + 1)) in *.
    assert (Q : exists r, q = (a + h + h, cub c (a + h + h)) :: r).
    { unfold q. replace (2 * M + 1)%nat with (S (2 * M)) by lia. rewrite grid_pts_S. eexists; reflexivity. }
    specialize (IH (a + h + h)). cbv zeta in IH. fold q in IH.
    assert (T1 : trapez ((a, cub c a) :: (a + h, cub c (a + h)) :: q) = (cub c a + cub c (a + h)) / 2 * h + (cub c (a + h) + cub c (a + h + h)) / 2 * h + trapez q).
    { destruct Q as (r & Q). rewrite Q. cbn [trapez fst snd]. ring. }
    assert (T2 : trapez (every2 ((a, cub c a) :: (a + h, cub c (a + h)) :: q)) = (cub c a + cub c (a + h + h)) / 2 * (2 * h) + trapez (every2 q)).
    { cbn [every2]. destruct Q as (r & Q). rewrite Q. destruct r as [|r1 r2]; cbn [every2 trapez fst snd]; ring. }
    rewrite T1, T2. replace (2 * S M)%nat with (S (S (2 * M))) by lia. rewrite !S_INR.
    replace (a + (INR (2 * M) + 1 + 1) * h) with (a + h + h + INR (2 * M) * h) by ring.
    set (X := cubI c (a + h + h + INR (2 * M) * h)) in *.
    assert (B : cubI c (a + h + h) - cubI c a = h / 3 * (cub c a + 4 * cub c (a + h) + cub c (a + h + h))).
    { destruct c as (((c3, c2), c1), c0). unfold cubI, cub. field. }
    lra.
Qed.
Lemma grid_last : forall f a h n, p_last (grid_pts f a h (S n)) = (a + INR n * h, f (a + INR n * h)).
Proof.
  intros f a h n. unfold p_last, grid_pts. replace (S n) with (n + 1)%nat by lia. rewrite seq_app, map_app. cbn [seq map]. rewrite last_last. reflexivity.
Qed.
Lemma energy_band_grid : forall mu N b, b_lo b < mu -> (1 <= Nat.div N 2)%nat ->
  let p := grid_pts (fun e => states_below_band e b) (b_lo b) ((Rmin (b_hi b) mu - b_lo b) / INR (2 * Nat.div N 2)) (2 * Nat.div N 2 + 1) in
  energy_band mu N b = mu * states_below_band (Rmin (b_hi b) mu) b - (trapez p + (trapez p - trapez (every2 p)) / (4 - 1)).
Proof.
  intros mu N b Hl HN p. unfold energy_band. rewrite Rltb_t by auto. set (M := Nat.div N 2) in *.
  assert (E : map (fun e => (e, states_below_band e b)) (linspace_end (b_lo b) (Rmin (b_hi b) mu) (M * 2 + 1)) = p).
  { unfold linspace_end, p, grid_pts. rewrite map_map. replace (M * 2 + 1 - 1)%nat with (2 * M)%nat by lia. replace (M * 2 + 1)%nat with (2 * M + 1)%nat by lia. reflexivity. }
  rewrite E. f_equal. f_equal. unfold p. replace (2 * M + 1)%nat with (S (2 * M)) by lia. rewrite grid_last. cbn [snd]. f_equal.
  field. apply not_0_INR. lia.
Qed.
Lemma grid_ext : forall f g a h n, (forall i, (i < n)%nat -> f (a + INR i * h) = g (a + INR i * h)) -> grid_pts f a h n = grid_pts g a h n.
Proof. intros f g a h n H. unfold grid_pts. apply map_ext_in. intros i Hi. apply in_seq in Hi. rewrite H by lia. reflexivity. Qed.
(** Full statement: for every band and every mu, energy_band is the energy of the states below mu.  Proved when the number
    of states is a cubic polynomial of the energy on the occupied range and the band is at most partially filled.  Missing:
    other curves, for which the rule is only approximate; completely filled bands, for which it is wrong (below). *)
Theorem C67_partial : forall mu N b c, (2 <= N)%nat -> b_lo b < mu -> mu <= b_hi b ->
  (forall e, b_lo b <= e <= mu -> states_below_band e b = cub c e) -> is_band_energy mu b (energy_band mu N b).
Proof.
  intros mu N b c HN H1 H2 Hc. assert (HM : (1 <= Nat.div N 2)%nat) by (apply Nat.div_le_lower_bound; lia).
  rewrite energy_band_grid by auto. rewrite Rmin_right by auto. set (M := Nat.div N 2) in *.
  assert (P : 0 < INR (2 * M)) by (apply lt_0_INR; lia).
  rewrite (grid_ext _ (cub c)).
  2: { intros i Hi. apply Hc. assert (0 <= INR i) by apply pos_INR. assert (INR i <= INR (2 * M)) by (apply le_INR; lia).
       assert (Q : 0 <= INR i / INR (2 * M) <= 1).
       { split; [apply Rmult_le_pos; auto; apply Rlt_le, Rinv_0_lt_compat; auto|]. apply Rmult_le_reg_r with (INR (2 * M)); auto. unfold Rdiv. rewrite Rmult_assoc, Rinv_l by lra. lra. }
       replace (INR i * ((mu - b_lo b) / INR (2 * M))) with (INR i / INR (2 * M) * (mu - b_lo b)) by (unfold Rdiv; ring). nra. }
  rewrite simpson. replace (b_lo b + INR (2 * M) * ((mu - b_lo b) / INR (2 * M))) with mu by (field; lra).
  exists (cubI c mu - cubI c (b_lo b)). split; auto.
  apply (is_RInt_ext (cub c)); [|apply cub_int]. rewrite Rmin_left, Rmax_right by lra. intros x Hx. symmetry. apply Hc. lra.
Qed.
Print Assumptions C67_partial.
(** a completely filled band: the result is too large by the distance between [mu] and the upper edge *)
Theorem C67_filled : forall mu N b c, (2 <= N)%nat -> b_lo b < b_hi b -> b_hi b <= mu ->
  (forall e, b_lo b <= e <= b_hi b -> states_below_band e b = cub c e) -> is_band_energy mu b (energy_band mu N b - (mu - b_hi b)).
Proof.
  intros mu N b c HN H1 H2 Hc. assert (HM : (1 <= Nat.div N 2)%nat) by (apply Nat.div_le_lower_bound; lia).
  rewrite energy_band_grid by (auto; lra). rewrite Rmin_left by auto. set (M := Nat.div N 2) in *.
  assert (P : 0 < INR (2 * M)) by (apply lt_0_INR; lia).
  rewrite (grid_ext _ (cub c)).
  2: { intros i Hi. apply Hc. assert (0 <= INR i) by apply pos_INR. assert (INR i <= INR (2 * M)) by (apply le_INR; lia).
       assert (Q : 0 <= INR i / INR (2 * M) <= 1).
       { split; [apply Rmult_le_pos; auto; apply Rlt_le, Rinv_0_lt_compat; auto|]. apply Rmult_le_reg_r with (INR (2 * M)); auto. unfold Rdiv. rewrite Rmult_assoc, Rinv_l by lra. lra. }
       replace (INR i * ((b_hi b - b_lo b) / INR (2 * M))) with (INR i / INR (2 * M) * (b_hi b - b_lo b)) by (unfold Rdiv; ring). nra. }
  rewrite simpson. replace (b_lo b + INR (2 * M) * ((b_hi b - b_lo b) / INR (2 * M))) with (b_hi b) by (field; lra).
  assert (F : forall e, b_hi b <= e -> states_below_band e b = 1).
  { intros e He. unfold states_below_band. rewrite (Rltb_f e (b_hi b)), andb_false_r, Rleb_t by lra. reflexivity. }
  exists (cubI c (b_hi b) - cubI c (b_lo b) + (mu - b_hi b)). split.
  - apply (is_RInt_Chasles (V:=R_NormedModule) _ (b_lo b) (b_hi b) mu).
    + apply (is_RInt_ext (cub c)); [|apply cub_int]. rewrite Rmin_left, Rmax_right by lra. intros x Hx. symmetry. apply Hc. lra.
    + apply (is_RInt_ext (fun _ => 1)); [|apply int_c; ring]. rewrite Rmin_left, Rmax_right by lra. intros x Hx. symmetry. apply F. lra.
  - rewrite (F mu), (F (b_hi b)) by lra. ring.
Qed.
Print Assumptions C67_filled.
(** witness: one band of uniform density between 0 and 1 has energy 1/2, but 5/2 is returned for mu = 3 *)
Theorem C67_refuted : exists b mu N v, good_band b /\ (2 <= N)%nat /\ is_band_energy mu b v /\ v = 1 / 2 /\ energy_T0 mu N 1 [b] = 5 / 2.
Proof.
  assert (Hc : forall e, b_lo uniform_band <= e <= b_hi uniform_band -> states_below_band e uniform_band = cub (0, 0, 1, 0) e).
  { cbn [uniform_band b_lo b_hi]. intros e He. unfold states_below_band, cub. cbn [uniform_band b_lo b_hi b_vol].
    destruct (Rlt_dec 0 e); [destruct (Rlt_dec e 1)|].
    - rewrite !Rltb_t by lra. cbn [andb]. rewrite Rmax_right, Rmin_right by lra. ring.
    - rewrite (Rltb_f e 1), andb_false_r, Rleb_t by lra. replace e with 1 by lra. ring.
    - rewrite (Rltb_f 0 e) by lra. cbn [andb]. unfold Rleb. destruct Rle_dec; [lra|]. replace e with 0 by lra. ring. }
  assert (E : energy_band 3 2 uniform_band = 5 / 2).
  { rewrite energy_band_grid by (cbn; try lra; lia). cbn [uniform_band b_lo b_hi]. rewrite Rmin_left by lra. change (Nat.div 2 2) with 1%nat.
    change (2 * 1 + 1)%nat with 3%nat. change (2 * 1)%nat with 2%nat. unfold grid_pts. cbn [seq map every2 trapez fst snd].
    fold uniform_band. change (INR 0) with 0. change (INR 1) with 1. change (INR 2) with (1 + 1).
    rewrite !Hc by (cbn; lra). unfold cub. field. }
  exists uniform_band, 3, 2%nat, (1 / 2). split; [|split; [|split; [|split]]]; auto.
  - pose proof C50_fermi_example as [_ G]. inversion G; auto.
  - replace (1 / 2) with (energy_band 3 2 uniform_band - (3 - b_hi uniform_band)) by (rewrite E; cbn; field). apply C67_filled with (0, 0, 1, 0); auto; cbn; lra.
  - unfold energy_T0. cbn [map]. rewrite E. simpl. field.
Qed.
Print Assumptions C67_refuted.
(** example of the correct case: half filling *)
Example C67_example : is_band_energy (1/2) uniform_band (energy_band (1/2) 30 uniform_band).
Proof.
  apply (C67_partial (1/2) 30 uniform_band (0, 0, 1, 0)); cbn [uniform_band b_lo b_hi]; try lra; try lia.
  intros e He. unfold states_below_band, cub. cbn [uniform_band b_lo b_hi b_vol]. destruct (Rlt_dec 0 e).
  - rewrite !Rltb_t by lra. cbn [andb]. rewrite Rmax_right, Rmin_right by lra. ring.
  - rewrite (Rltb_f 0 e) by lra. cbn [andb]. unfold Rleb. destruct Rle_dec; [lra|]. replace e with 0 by lra. ring.
Qed.

(** ** C68: one segment of the heat capacity integral *)
(** change of variables in the integrals of int_poly *)
Lemma int_poly_shift : forall mu beta e0 e1 a b c, beta <> 0 ->
  is_RInt (fun e => (a * ((e - mu) * beta) ^ 2 + b * ((e - mu) * beta) + c) * wb beta (e - mu)) e0 e1
    (int_poly ((e0 - mu) * beta) ((e1 - mu) * beta) a b c).
Proof.
  intros mu beta e0 e1 a b c Hb.
  pose proof (C49_int_poly ((e0 - mu) * beta) ((e1 - mu) * beta) a b c) as H.
  replace ((e0 - mu) * beta) with (beta * e0 + (- mu * beta)) in H by ring. replace ((e1 - mu) * beta) with (beta * e1 + (- mu * beta)) in H by ring.
  apply (is_RInt_comp_lin (V:=R_NormedModule)) in H.
  replace ((e0 - mu) * beta) with (beta * e0 + (- mu * beta)) by ring. replace ((e1 - mu) * beta) with (beta * e1 + (- mu * beta)) by ring.
  eapply is_RInt_ext; [|exact H]. intros x _. cbv beta. unfold scal; simpl; unfold mult; simpl. unfold wb.
  replace (beta * (x - mu)) with (beta * x + - mu * beta) by ring. ring.
Qed.
(** The segment is the integral against the weight of the quadratic Taylor polynomial about the middle (the cubic term is
    dropped) of rho(e) e (e - mu + s), rho being the straight line through the two densities; exact for equal densities. *)
Theorem C68_segment : forall mu s beta e0 e1 y0 y1, beta <> 0 -> e0 <> e1 ->
  is_RInt (fun e => ((y0 + (y1 - y0) * ((e - e0) / (e1 - e0))) * e * (e - mu + s)
                     - (y1 - y0) / (e1 - e0) * (e - (e0 + e1) / 2) ^ 3) * wb beta (e - mu)) e0 e1 (hc_segment mu s beta e0 e1 y0 y1) /\
  (y0 = y1 -> is_RInt (fun e => y0 * e * (e - mu + s) * wb beta (e - mu)) e0 e1 (hc_segment mu s beta e0 e1 y0 y1)).
Proof.
  intros mu s beta e0 e1 y0 y1 Hb He.
  assert (A : is_RInt (fun e => ((y0 + (y1 - y0) * ((e - e0) / (e1 - e0))) * e * (e - mu + s)
                     - (y1 - y0) / (e1 - e0) * (e - (e0 + e1) / 2) ^ 3) * wb beta (e - mu)) e0 e1 (hc_segment mu s beta e0 e1 y0 y1)).
  { unfold hc_segment, hc_coeffs. eapply is_RInt_ext; [|apply int_poly_shift; auto]. intros e _. cbv beta. f_equal. field. split; [lra|auto]. }
  split; auto. intros ->. eapply is_RInt_ext; [|exact A]. intros e _. cbv beta. f_equal. field. lra.
Qed.
Print Assumptions C68_segment.

(** example: with unit density between -1 and 2, mu = 0, s = 0 the segment is the second moment, which is positive *)
Example C68_example : is_RInt (fun e => 1 * e * (e - 0 + 0) * wb 1 (e - 0)) (-1) 2 (hc_segment 0 0 1 (-1) 2 1 1) /\ 0 < hc_segment 0 0 1 (-1) 2 1 1.
Proof.
  split; [apply C68_segment; lra|]. unfold hc_segment, hc_coeffs. cbv beta iota zeta.
  destruct (MVT_cor2 int_xxdf (fun x => x ^ 2 * wt x) (-1) 0) as (c & E & C); [lra|intros; apply is_derive_Reals, C49_int_xxdf|].
  destruct (MVT_cor2 int_xxdf (fun x => x ^ 2 * wt x) 0 2) as (c' & E' & C'); [lra|intros; apply is_derive_Reals, C49_int_xxdf|].
  unfold int_poly. replace ((-1 - 0) * 1) with (-1) by ring. replace ((2 - 0) * 1) with 2 by ring.
  pose proof (wt_pos c). pose proof (wt_pos c').
  assert (0 < c ^ 2 * wt c) by (apply Rmult_lt_0_compat; auto; nra). assert (0 < c' ^ 2 * wt c') by (apply Rmult_lt_0_compat; auto; nra).
  replace ((1 - 1) / (2 - -1)) with 0 by field. replace ((1 + 1) / 2) with 1 by field.
  match goal with |- 0 < ?l => replace l with (int_xxdf 2 - int_xxdf (-1)) by field end. lra.
Qed.

(** ** C69: the distribution of the samples *)
Definition strictly_increasing (l : list R) : Prop := forall i j, (i < j < length l)%nat -> nth i l 0 < nth j l 0.
Lemma expit_fermi : forall x, expit (- x) = fermi x.
Proof. intros x. unfold expit, fermi. rewrite Ropp_involutive. unfold Rdiv. ring. Qed.
Lemma logit_fermi : forall x, - logit (fermi x) = x.
Proof.
  intros x. unfold logit, fermi. pose proof (ep x) as P. pose proof (exp_pos x) as Q.
  replace (1 / (1 + exp x) / (1 - 1 / (1 + exp x))) with (exp (- x)); [rewrite ln_exp; ring|].
  rewrite exp_Ropp. field. repeat split; lra.
Qed.
Lemma fermi_logit : forall p, 0 < p < 1 -> fermi (- logit p) = p.
Proof.
  intros p H. unfold fermi, logit. rewrite exp_Ropp, exp_ln; [field; lra|]. apply Rdiv_lt_0_compat; lra.
Qed.
Lemma logit_incr : forall p q, 0 < p -> p < q -> q < 1 -> logit p < logit q.
Proof.
  intros p q H1 H2 H3. unfold logit. apply ln_increasing; [apply Rdiv_lt_0_compat; lra|].
  apply Rmult_lt_reg_r with (1 - p); [lra|]. apply Rmult_lt_reg_r with (1 - q); [lra|].
  unfold Rdiv. replace (p * / (1 - p) * (1 - p) * (1 - q)) with (p * (1 - q)) by (field; lra). replace (q * / (1 - q) * (1 - p) * (1 - q)) with (q * (1 - p)) by (field; lra). lra.
Qed.
(** the values of the Fermi function at the samples: two arithmetic sequences meeting at 1/2 *)
Definition p_list (p0 p1 : R) (N : nat) : list R := linspace_open p0 (1/2) (Nat.div N 2) ++ linspace_end (1/2) p1 (Nat.div (N + 1) 2).
Lemma linspace_open_nth : forall a b n i, (i < n)%nat -> nth i (linspace_open a b n) 0 = a + INR i * ((b - a) / INR n).
Proof.
  intros a b n i H. unfold linspace_open. rewrite (nth_indep _ 0 (a + INR 0 * ((b - a) / INR n))) by (rewrite map_length, seq_length; auto).
  rewrite (map_nth (fun i => a + INR i * ((b - a) / INR n))). rewrite seq_nth by auto. reflexivity.
Qed.
Lemma linspace_end_nth : forall a b n i, (i < n)%nat -> nth i (linspace_end a b n) 0 = a + INR i * ((b - a) / INR (n - 1)).
Proof.
  intros a b n i H. unfold linspace_end. rewrite (nth_indep _ 0 (a + INR 0 * ((b - a) / INR (n - 1)))) by (rewrite map_length, seq_length; auto).
  rewrite (map_nth (fun i => a + INR i * ((b - a) / INR (n - 1)))). rewrite seq_nth by auto. reflexivity.
Qed.
Lemma open_len : forall a b n, length (linspace_open a b n) = n.
Proof. intros. unfold linspace_open. rewrite map_length, seq_length. reflexivity. Qed.
Lemma end_len : forall a b n, length (linspace_end a b n) = n.
Proof. intros. unfold linspace_end. rewrite map_length, seq_length. reflexivity. Qed.
Lemma frac_lt : forall i n, (i < n)%nat -> 0 <= INR i / INR n < 1.
Proof.
  intros i n H. assert (0 < INR n) by (apply lt_0_INR; lia). assert (INR i < INR n) by (apply lt_INR; auto). split.
  - apply Rmult_le_pos; [apply pos_INR|]. apply Rlt_le, Rinv_0_lt_compat; auto.
  - apply Rmult_lt_reg_r with (INR n); auto. unfold Rdiv. rewrite Rmult_assoc, Rinv_l by lra. lra.
Qed.
Lemma frac_le : forall i n, (i <= n)%nat -> (0 < n)%nat -> 0 <= INR i / INR n <= 1.
Proof.
  intros i n H Hn. assert (0 < INR n) by (apply lt_0_INR; lia). assert (INR i <= INR n) by (apply le_INR; auto). split.
  - apply Rmult_le_pos; [apply pos_INR|]. apply Rlt_le, Rinv_0_lt_compat; auto.
  - apply Rmult_le_reg_r with (INR n); auto. unfold Rdiv. rewrite Rmult_assoc, Rinv_l by lra. lra.
Qed.
Lemma frac_mono : forall i j n, (i < j)%nat -> (0 < n)%nat -> INR i / INR n < INR j / INR n.
Proof. intros. apply Rmult_lt_compat_r; [apply Rinv_0_lt_compat, lt_0_INR; auto|]. apply lt_INR; auto. Qed.
Lemma p_list_range : forall p0 p1 N, (4 <= N)%nat -> 0 < p1 < 1/2 -> 1/2 < p0 < 1 -> forall p, In p (p_list p0 p1 N) -> 0 < p < 1.
Proof.
  intros p0 p1 N HN H1 H0 p Hp. unfold p_list in Hp. assert (HM : (2 <= Nat.div N 2)%nat) by (apply Nat.div_le_lower_bound; lia).
  assert (HM' : (2 <= Nat.div (N + 1) 2)%nat) by (apply Nat.div_le_lower_bound; lia).
  apply in_app_iff in Hp. destruct Hp as [Hp|Hp]; apply (In_nth _ _ 0) in Hp; destruct Hp as (i & Hi & <-).
  - rewrite open_len in Hi. rewrite linspace_open_nth by auto. pose proof (frac_lt i _ Hi).
    replace (INR i * ((1 / 2 - p0) / INR (N / 2))) with (INR i / INR (N / 2) * (1 / 2 - p0)) by (unfold Rdiv; ring). nra.
  - rewrite end_len in Hi. rewrite linspace_end_nth by auto. pose proof (frac_le i (Nat.div (N + 1) 2 - 1) ltac:(lia) ltac:(lia)).
    replace (INR i * ((p1 - 1 / 2) / INR ((N + 1) / 2 - 1))) with (INR i / INR ((N + 1) / 2 - 1) * (p1 - 1 / 2)) by (unfold Rdiv; ring). nra.
Qed.
Lemma p_list_decr : forall p0 p1 N, (4 <= N)%nat -> 0 < p1 < 1/2 -> 1/2 < p0 < 1 -> forall i j, (i < j < length (p_list p0 p1 N))%nat ->
  nth j (p_list p0 p1 N) 0 < nth i (p_list p0 p1 N) 0.
Proof.
  intros p0 p1 N HN H1 H0 i j Hij. unfold p_list in *. assert (HM : (2 <= Nat.div N 2)%nat) by (apply Nat.div_le_lower_bound; lia).
  assert (HM' : (2 <= Nat.div (N + 1) 2)%nat) by (apply Nat.div_le_lower_bound; lia). set (n := Nat.div N 2) in *. set (m := Nat.div (N + 1) 2) in *.
  rewrite app_length, open_len, end_len in Hij.
  assert (A : forall i, (i < n)%nat -> nth i (linspace_open p0 (1 / 2) n ++ linspace_end (1 / 2) p1 m) 0 = p0 + INR i / INR n * (1/2 - p0)).
  { intros k Hk. rewrite app_nth1 by (rewrite open_len; auto). rewrite linspace_open_nth by auto. unfold Rdiv; ring. }
  assert (B : forall i, (n <= i < n + m)%nat -> nth i (linspace_open p0 (1 / 2) n ++ linspace_end (1 / 2) p1 m) 0 = 1/2 + INR (i - n) / INR (m - 1) * (p1 - 1/2)).
  { intros k Hk. rewrite app_nth2 by (rewrite open_len; lia). rewrite open_len, linspace_end_nth by lia. unfold Rdiv; ring. }
  destruct (lt_dec j n); [|destruct (lt_dec i n)].
  - rewrite !A by lia. pose proof (frac_mono i j n ltac:(lia) ltac:(lia)). nra.
  - rewrite (A i), (B j) by lia. pose proof (frac_lt i n ltac:(lia)). pose proof (frac_le (j - n) (m - 1) ltac:(lia) ltac:(lia)). nra.
  - rewrite !B by lia. pose proof (frac_mono (i - n) (j - n) (m - 1) ltac:(lia) ltac:(lia)). nra.
Qed.
Lemma e_samples_p : forall e0 e1 mu beta N, e_samples e0 e1 mu beta N =
  map (fun p => - logit p / beta + mu) (p_list (fermi (beta * (Rmax (mu - 30 / beta) e0 - mu))) (fermi (beta * (Rmin (mu + 30 / beta) e1 - mu))) N).
Proof.
  intros. unfold e_samples, p_list. replace (- beta * (Rmax (mu - 30 / beta) e0 - mu)) with (- (beta * (Rmax (mu - 30 / beta) e0 - mu))) by ring.
  replace (- beta * (Rmin (mu + 30 / beta) e1 - mu)) with (- (beta * (Rmin (mu + 30 / beta) e1 - mu))) by ring. rewrite !expit_fermi. reflexivity.
Qed.
(** For mu inside the range: N samples, strictly increasing, from the (limited) lower end through mu to the (limited) upper end,
    and the values of the Fermi function at them are two arithmetic sequences, from the lower end to 1/2 and from 1/2 to the
    upper end, so the weight -df/de has the same integral between any two neighbors on the same side of mu. *)
Theorem C69_samples : forall e0 e1 mu beta N, 0 < beta -> (4 <= N)%nat -> e0 < mu < e1 ->
  let l := e_samples e0 e1 mu beta N in let f := fun e => fermi (beta * (e - mu)) in
  let lo := Rmax (mu - 30 / beta) e0 in let hi := Rmin (mu + 30 / beta) e1 in
  length l = N /\ strictly_increasing l /\ nth 0 l 0 = lo /\ last l 0 = hi /\ nth (Nat.div N 2) l 0 = mu /\
  (forall i, (i < Nat.div N 2)%nat -> f (nth i l 0) - f (nth (S i) l 0) = (f lo - 1/2) / INR (Nat.div N 2)) /\
  (forall i, (Nat.div N 2 <= i < N - 1)%nat -> f (nth i l 0) - f (nth (S i) l 0) = (1/2 - f hi) / INR (Nat.div (N + 1) 2 - 1)).
Proof.
  intros e0 e1 mu beta N Hb HN He l f lo hi. assert (HM : (2 <= Nat.div N 2)%nat) by (apply Nat.div_le_lower_bound; lia).
  assert (HM' : (2 <= Nat.div (N + 1) 2)%nat) by (apply Nat.div_le_lower_bound; lia).
  assert (HS : (Nat.div N 2 + Nat.div (N + 1) 2 = N)%nat).
  { pose proof (Nat.div_mod N 2 ltac:(lia)). pose proof (Nat.div_mod (N + 1) 2 ltac:(lia)). pose proof (Nat.mod_upper_bound N 2 ltac:(lia)). pose proof (Nat.mod_upper_bound (N + 1) 2 ltac:(lia)). lia. }
  assert (P30 : 0 < 30 / beta) by (apply Rdiv_lt_0_compat; lra).
  assert (Hlo : lo < mu) by (unfold lo; apply Rmax_lub_lt; lra). assert (Hhi : mu < hi) by (unfold hi; apply Rmin_glb_lt; lra).
  assert (F0 : fermi 0 = 1/2) by (unfold fermi; rewrite exp_0; field).
  assert (H0 : 1/2 < f lo < 1) by (unfold f; rewrite <- F0; split; [apply fermi_decr; nra|apply fermi_range]).
  assert (H1 : 0 < f hi < 1/2) by (unfold f; rewrite <- F0; split; [apply fermi_range|apply fermi_decr; nra]).
  assert (EL : l = map (fun p => - logit p / beta + mu) (p_list (f lo) (f hi) N)) by (unfold l; rewrite e_samples_p; reflexivity).
  assert (LP : length (p_list (f lo) (f hi) N) = N) by (unfold p_list; rewrite app_length, open_len, end_len; auto).
  assert (LL : length l = N) by (rewrite EL, map_length; auto).
  assert (NL : forall i, (i < N)%nat -> nth i l 0 = - logit (nth i (p_list (f lo) (f hi) N) 0) / beta + mu).
  { intros i Hi. rewrite EL. rewrite (nth_indep _ 0 (- logit 0 / beta + mu)) by (rewrite map_length; lia). apply (map_nth (fun p => - logit p / beta + mu)). }
  assert (PR : forall i, (i < N)%nat -> 0 < nth i (p_list (f lo) (f hi) N) 0 < 1).
  { intros i Hi. apply (p_list_range (f lo) (f hi) N); auto. apply nth_In. lia. }
  assert (FL : forall i, (i < N)%nat -> f (nth i l 0) = nth i (p_list (f lo) (f hi) N) 0).
  { intros i Hi. rewrite NL by auto. unfold f at 1. match goal with |- fermi (beta * (- logit ?p / beta + mu - mu)) = _ => replace (beta * (- logit p / beta + mu - mu)) with (- logit p) by (field; lra) end. apply fermi_logit; auto. }
  assert (A : forall i, (i < Nat.div N 2)%nat -> nth i (p_list (f lo) (f hi) N) 0 = f lo + INR i * ((1/2 - f lo) / INR (Nat.div N 2))).
  { intros k Hk. unfold p_list. rewrite app_nth1 by (rewrite open_len; auto). apply linspace_open_nth; auto. }
  assert (B : forall i, (Nat.div N 2 <= i < N)%nat -> nth i (p_list (f lo) (f hi) N) 0 = 1/2 + INR (i - Nat.div N 2) * ((f hi - 1/2) / INR (Nat.div (N + 1) 2 - 1))).
  { intros k Hk. unfold p_list. rewrite app_nth2 by (rewrite open_len; lia). rewrite open_len. apply linspace_end_nth; lia. }
  assert (FI : forall e, - logit (f e) / beta + mu = e) by (intros e; unfold f; rewrite logit_fermi; field; lra).
  split; [auto|]. split; [|split; [|split; [|split; [|split]]]].
  - intros i j Hij. rewrite LL in Hij. rewrite !NL by lia. apply Rplus_lt_compat_r. apply Rmult_lt_compat_r; [apply Rinv_0_lt_compat; auto|].
    apply Ropp_lt_contravar. apply logit_incr; [apply PR; lia| |apply PR; lia]. apply p_list_decr; auto. rewrite LP. auto.
  - rewrite NL by lia. rewrite A by lia. change (INR 0) with 0. rewrite Rmult_0_l, Rplus_0_r. apply FI.
  - assert (LN : forall (l : list R) d, l <> [] -> last l d = nth (length l - 1) l d).
    { clear. induction l as [|a l IH]; intros d H; [congruence|]. destruct l as [|b l]; [reflexivity|].
      replace (length (a :: b :: l) - 1)%nat with (S (length (b :: l) - 1)) by (cbn; lia). change (last (b :: l) d = nth (length (b :: l) - 1) (b :: l) d). apply IH; discriminate. }
    rewrite LN by (intros E; rewrite E in LL; cbn in LL; lia). rewrite LL, NL by lia. rewrite B by lia.
    replace (N - 1 - Nat.div N 2)%nat with (Nat.div (N + 1) 2 - 1)%nat by lia.
    replace (1 / 2 + INR ((N + 1) / 2 - 1) * ((f hi - 1 / 2) / INR ((N + 1) / 2 - 1))) with (f hi); [apply FI|]. field. apply not_0_INR. lia.
  - rewrite NL by lia. rewrite B by lia. rewrite Nat.sub_diag. change (INR 0) with 0. rewrite Rmult_0_l, Rplus_0_r.
    replace (1/2) with (f mu) by (unfold f; rewrite Rminus_diag_eq, Rmult_0_r by auto; exact F0). apply FI.
  - intros i Hi. rewrite !FL by lia. rewrite A by auto. destruct (Nat.eq_dec (S i) (Nat.div N 2)) as [E|Ne].
    + rewrite B by lia. rewrite E, Nat.sub_diag. change (INR 0) with 0. rewrite <- E, S_INR. assert (0 <= INR i) by apply pos_INR. field. split; [lra|]. apply not_0_INR; lia.
    + rewrite A by lia. rewrite S_INR. field. apply not_0_INR; lia.
  - intros i Hi. rewrite !FL by lia. rewrite !B by lia. replace (S i - Nat.div N 2)%nat with (S (i - Nat.div N 2)) by lia. rewrite S_INR. field. apply not_0_INR; lia.
Qed.
Print Assumptions C69_samples.
Example C69_example : let l := e_samples (-1) 2 0 1 5 in length l = 5%nat /\ nth 0 l 0 = -1 /\ last l 0 = 2 /\ nth 2 l 0 = 0.
Proof.
  destruct (C69_samples (-1) 2 0 1 5) as (A & _ & B & C & D & _); [lra|lia|lra|]. cbv zeta.
  replace (0 - 30 / 1) with (-30) in B by field. replace (0 + 30 / 1) with 30 in C by field. rewrite Rmax_right in B by lra. rewrite Rmin_right in C by lra. auto.
Qed.

(** Property C164: full_curve at a temperature. *)
From Coq Require Import Reals Lra Lia Psatz List Bool Arith Sorted Permutation.
From Coquelicot Require Import Coquelicot.
From Verif Require Import NbrModel SmearModel SmearCalc DosModel DosProps DosMore Basel FermiInt FermiConv FermiMoments DosEnergy BulkProps ChemModel ChemProps CurveModel.
Import List ListNotations.
Local Open Scope R_scope.

(** ** np.unique *)
Lemma rdedup_in : forall l e, In e (rdedup l) <-> In e l.
Proof.
  induction l as [|x [|y r] IH]; intros e; [reflexivity|reflexivity|]. cbn [rdedup] in *. unfold Reqb. destruct (Req_EM_T x y) as [->|].
  - rewrite IH. cbn [In]. tauto.
  - cbn [In]. rewrite IH. cbn [In]. tauto.
Qed.
Lemma rdedup_strict : forall l, StronglySorted Rle l -> StronglySorted Rlt (rdedup l).
Proof.
  induction l as [|x [|y r] IH]; intros H; [constructor|repeat constructor|]. inversion H as [|a b S F]; subst. specialize (IH S). cbn [rdedup] in *. unfold Reqb. destruct (Req_EM_T x y) as [|N]; [exact IH|].
  constructor; [exact IH|]. apply Forall_forall. intros e He. apply (rdedup_in (y :: r)) in He. inversion F as [|a b F1 F2]; subst. inversion S as [|a b S1 S2]; subst. rewrite Forall_forall in S2.
  destruct He as [<-|He]; [lra|]. specialize (S2 e He). lra.
Qed.
(** ** lists *)
Lemma sorted_join l1 l2 : StronglySorted Rlt l1 -> StronglySorted Rlt l2 -> (forall a b, In a l1 -> In b l2 -> a < b) -> StronglySorted Rlt (l1 ++ l2).
Proof.
  induction 1 as [|a l S IH F]; intros H2 H; [exact H2|]. cbn [app]. constructor; [apply IH; [exact H2|intros; apply H; [right|]; assumption]|].
  rewrite Forall_forall in *. intros b Hb. apply in_app_or in Hb. destruct Hb as [Hb|Hb]; [apply F, Hb|apply H; [left; reflexivity|exact Hb]].
Qed.
Lemma sorted_rev l : StronglySorted Rgt l -> StronglySorted Rlt (rev l).
Proof.
  induction 1 as [|a l S IH F]; [constructor|]. cbn [rev]. apply sorted_join; [exact IH|repeat constructor|]. intros u v Hu [<-|[]]. apply in_rev in Hu. rewrite Forall_forall in F. apply F, Hu.
Qed.
Lemma line_sorted a c n s : 0 < c -> StronglySorted Rlt (map (fun i => a + INR i * c) (seq s n)) /\ StronglySorted Rgt (map (fun i => a + INR i * - c) (seq s n)).
Proof.
  intros Hc. revert s. induction n as [|n IH]; intros s; [split; constructor|]. cbn [seq map]. destruct (IH (S s)) as (H1 & H2).
  split; (constructor; [assumption|]); apply Forall_forall; intros e He; apply in_map_iff in He; destruct He as (i & <- & Hi); apply in_seq in Hi;
  assert (INR s < INR i) by (apply lt_INR; lia); nra.
Qed.
Lemma open_spec a b n : a < b -> (0 < n)%nat -> StronglySorted Rlt (linspace_open a b n) /\ (forall e, In e (linspace_open a b n) -> a <= e < b) /\ nth 0 (linspace_open a b n) 0 = a /\ length (linspace_open a b n) = n.
Proof.
  intros H Hn. assert (NN : 0 < INR n) by (apply lt_0_INR; exact Hn). assert (C : 0 < (b - a) / INR n) by (apply Rdiv_lt_0_compat; lra). unfold linspace_open. split; [apply line_sorted, C|]. split.
  - intros e He. apply in_map_iff in He. destruct He as (i & <- & Hi). apply in_seq in Hi. assert (0 <= INR i) by apply pos_INR. assert (INR i < INR n) by (apply lt_INR; lia).
    assert (E : INR n * ((b - a) / INR n) = b - a) by (field; lra). split; nra.
  - split; [|rewrite map_length, seq_length; reflexivity]. destruct n; [lia|]. cbn [seq map nth]. change (INR 0) with 0. ring.
Qed.
Lemma open_down a b n : b < a -> (0 < n)%nat -> StronglySorted Rlt (rev (linspace_open a b n)) /\ (forall e, In e (rev (linspace_open a b n)) -> b < e <= a) /\ (forall z, last (rev (linspace_open a b n)) z = a) /\ length (rev (linspace_open a b n)) = n.
Proof.
  intros H Hn. assert (NN : 0 < INR n) by (apply lt_0_INR; exact Hn). assert (C : 0 < (a - b) / INR n) by (apply Rdiv_lt_0_compat; lra).
  assert (E : linspace_open a b n = map (fun i => a + INR i * - ((a - b) / INR n)) (seq 0 n)).
  { unfold linspace_open. apply map_ext. intros i. replace ((b - a) / INR n) with (- ((a - b) / INR n)) by (field; lra). reflexivity. }
  rewrite E. split; [apply sorted_rev, line_sorted, C|]. split; [|split].
  - intros e He. apply in_rev in He. apply in_map_iff in He. destruct He as (i & <- & Hi). apply in_seq in Hi. assert (0 <= INR i) by apply pos_INR. assert (INR i < INR n) by (apply lt_INR; lia).
    assert (EN : INR n * ((a - b) / INR n) = a - b) by (field; lra). split; nra.
  - intros z. destruct n; [lia|]. cbn [seq map rev]. rewrite last_last. change (INR 0) with 0. ring.
  - rewrite rev_length, map_length, seq_length. reflexivity.
Qed.
Lemma sorted_nth l : StronglySorted Rlt l -> strictly_increasing l.
Proof.
  induction 1 as [|a l S IH F]; intros i j Hij; [cbn in Hij; lia|]. destruct i as [|i], j as [|j]; try lia; cbn [nth length] in *.
  - rewrite Forall_forall in F. apply F, nth_In. lia.
  - apply IH. lia.
Qed.
Lemma sorted_first l e : StronglySorted Rlt l -> In e l -> nth 0 l 0 <= e.
Proof. intros S I. inversion S as [|a r S1 F]; subst; [destruct I|]. destruct I as [<-|I]; cbn [nth]; [lra|]. rewrite Forall_forall in F. specialize (F e I). lra. Qed.
Lemma sorted_last l e z : StronglySorted Rlt l -> In e l -> e <= last l z.
Proof.
  intros S. revert e. induction S as [|a l S IH F]; intros e I; [destruct I|]. destruct l as [|b l]; [destruct I as [<-|[]]; cbn; lra|]. change (last (a :: b :: l) z) with (last (b :: l) z).
  destruct I as [<-|I]; [|apply IH, I]. rewrite Forall_forall in F. assert (a < b) by (apply F; left; reflexivity). specialize (IH b (or_introl eq_refl)). lra.
Qed.

(** ** the convolution outside of the samples *)
Lemma seg_upper beta x x0 x1 y0 y1 hi : 0 < beta -> x0 < x1 -> y0 <= hi -> y1 <= hi -> cv_segment beta x x0 x1 y0 y1 <= hi * (cv_f beta (x - x1) - cv_f beta (x - x0)).
Proof.
  intros Hb Hx H0 H1. assert (X := seg_nonneg beta x x0 x1 (hi - y0) (hi - y1) Hb Hx ltac:(lra) ltac:(lra)). unfold cv_segment in *.
  replace (hi - y1 - (hi - y0)) with (- (y1 - y0)) in X by ring. unfold Rdiv in *. nra.
Qed.
Lemma conv_upper beta x pts hi : 0 < beta -> ascending pts -> pts <> [] -> (forall p, In p pts -> 0 <= snd p <= hi) ->
  convolve_df x pts beta EFlat <= snd (p_first pts) + hi * fermi (beta * (fst (p_first pts) - x)).
Proof.
  intros Hb Ha Hn Hp. unfold convolve_df.
  assert (S : seg_sum (cv_segment beta x) pts <= hi * (cv_f beta (x - fst (p_last pts)) - cv_f beta (x - fst (p_first pts)))).
  { clear Hn. unfold p_first, p_last. induction pts as [|p [|q r] IH]; [cbn; lra|cbn; lra|]. destruct Ha as [H1 H2]. cbn [seg_sum] in IH |- *.
    assert (X := seg_upper beta x (fst p) (fst q) (snd p) (snd q) hi Hb H1 (proj2 (Hp p (or_introl eq_refl))) (proj2 (Hp q (or_intror (or_introl eq_refl))))).
    specialize (IH H2 (fun p H => Hp p (or_intror H))). cbn [nth] in *. change (last (p :: q :: r) (0, 0)) with (last (q :: r) (0, 0)). lra. }
  assert (P0 : 0 <= snd (p_first pts) <= hi) by (apply Hp; unfold p_first; apply nth_In; destruct pts; [congruence|cbn; lia]).
  assert (P1 : 0 <= snd (p_last pts) <= hi).
  { apply Hp. unfold p_last. clear - Hn. induction pts as [|p [|q r] IH]; [congruence|cbn; auto|]. right. apply IH. discriminate. }
  rewrite !cv_f_fermi in *. replace (beta * (fst (p_last pts) - x)) with (- (beta * (x - fst (p_last pts)))) by ring. replace (beta * (fst (p_first pts) - x)) with (- (beta * (x - fst (p_first pts)))) by ring.
  rewrite !fermi_opp. pose proof (fermi_range (beta * (x - fst (p_last pts)))). pose proof (fermi_range (beta * (x - fst (p_first pts)))). nra.
Qed.
Lemma conv_lower beta x pts : 0 < beta -> ascending pts -> pts <> [] -> (forall p, In p pts -> 0 <= snd p) ->
  snd (p_last pts) * fermi (beta * (fst (p_last pts) - x)) <= convolve_df x pts beta EFlat /\ 0 <= convolve_df x pts beta ENone.
Proof.
  intros Hb Ha Hn Hp. unfold convolve_df.
  assert (S : 0 <= seg_sum (cv_segment beta x) pts).
  { clear Hn. induction pts as [|p [|q r] IH]; [cbn; lra|cbn; lra|]. destruct Ha as [H1 H2]. cbn [seg_sum] in IH |- *.
    assert (0 <= cv_segment beta x (fst p) (fst q) (snd p) (snd q)) by (apply seg_nonneg; auto; apply Hp; cbn; auto).
    specialize (IH H2 (fun p H => Hp p (or_intror H))). lra. }
  assert (P0 : 0 <= snd (p_first pts)) by (apply Hp; unfold p_first; apply nth_In; destruct pts; [congruence|cbn; lia]).
  rewrite !cv_f_fermi. pose proof (fermi_range (beta * (x - fst (p_first pts)))). split; [nra|exact S].
Qed.

(** ** the samples at T = 0 *)
Definition curve_energies (N : nat) (d : dos) : list R := rdedup (rsort (concat (map (fun b => linspace_end (b_lo b) (b_hi b) N) d))).
Lemma energies_in N d e : In e (curve_energies N d) <-> exists b i, In b d /\ (i < N)%nat /\ e = b_lo b + INR i / INR (N - 1) * (b_hi b - b_lo b).
Proof.
  unfold curve_energies. rewrite rdedup_in. rewrite <- (rsort_perm (concat (map (fun b => linspace_end (b_lo b) (b_hi b) N) d))). rewrite in_concat. split.
  - intros (l & Il & Ie). apply in_map_iff in Il. destruct Il as (b & <- & Ib). unfold linspace_end in Ie. apply in_map_iff in Ie. destruct Ie as (i & <- & Hi). apply in_seq in Hi.
    exists b, i. split; [exact Ib|]. split; [lia|]. unfold Rdiv. ring.
  - intros (b & i & Ib & Hi & ->). exists (linspace_end (b_lo b) (b_hi b) N). split; [apply in_map_iff; exists b; split; [reflexivity|exact Ib]|].
    unfold linspace_end. apply in_map_iff. exists i. split; [unfold Rdiv; ring|apply in_seq; lia].
Qed.
Lemma energies_sorted N d : StronglySorted Rlt (curve_energies N d).
Proof. apply rdedup_strict, rsort_sorted. Qed.
Lemma asc_map (f : R -> R) es : StronglySorted Rlt es -> ascending (map (fun e => (e, f e)) es).
Proof.
  induction 1 as [|a l S IH F]; [exact I|]. destruct l as [|b l]; [exact I|]. split; [cbn [fst]; inversion F; subst; assumption|exact IH].
Qed.
Lemma nondec_map (f : R -> R) es : (forall e e', e <= e' -> f e <= f e') -> StronglySorted Rlt es -> nondecreasing (map (fun e => (e, f e)) es).
Proof.
  intros M. induction 1 as [|a l S IH F]; [exact I|]. destruct l as [|b l]; [exact I|]. split; [|exact IH]. cbn [snd]. inversion F; subst. apply M. lra.
Qed.
Lemma first_map (f : R -> R) es : es <> [] -> p_first (map (fun e => (e, f e)) es) = (nth 0 es 0, f (nth 0 es 0)).
Proof. destruct es; [congruence|reflexivity]. Qed.
Lemma last_map2 (f : R -> R) es : es <> [] -> p_last (map (fun e => (e, f e)) es) = (last es 0, f (last es 0)).
Proof.
  unfold p_last. induction es as [|a [|b r] IH]; intros H; [congruence|reflexivity|]. change (last (map (fun e => (e, f e)) (b :: r)) (0, 0) = (last (b :: r) 0, f (last (b :: r) 0))). apply IH. discriminate.
Qed.
Lemma nth_map0 (f : R -> R) l j : (j < length l)%nat -> nth j (map f l) 0 = f (nth j l 0).
Proof. intros H. rewrite (nth_indep _ 0 (f 0)) by (rewrite map_length; exact H). apply map_nth. Qed.

Theorem C164_curve : forall d N T, Forall good_band d -> d <> [] -> (forall b E, In b d -> 0 <= b_dvol b E) -> (2 <= N)%nat -> 0 < T ->
  exists es en st de lo hi, full_curve_T N T d = Some (en, st, de) /\
    (* the samples at T = 0 *)
    (forall e, In e es <-> exists b i, In b d /\ (i < N)%nat /\ e = b_lo b + INR i / INR (N - 1) * (b_hi b - b_lo b)) /\ StronglySorted Rlt es /\
    (* the energies *)
    length en = (length es + 2 * N)%nat /\ length st = length en /\ length de = length en /\ StronglySorted Rlt en /\ (forall e, In e es -> In e en) /\
    (forall b, In b d -> lo <= b_lo b /\ b_hi b <= hi) /\ (exists b, In b d /\ b_lo b = lo) /\ (exists b, In b d /\ b_hi b = hi) /\
    nth 0 en 0 = lo - 5 * (k_B * T) /\ last en 0 = hi + 5 * (k_B * T) /\
    (* the values *)
    (forall j, (j < length en)%nat ->
      is_improper (fun e => interp (map (fun e => (e, states_below e d)) es) e * wb (1 / (k_B * T)) (nth j en 0 - e)) (nth j st 0) /\
      is_RInt (fun e => interp (map (fun e => (e, density e d)) es) e * wb (1 / (k_B * T)) (nth j en 0 - e)) lo hi (nth j de 0) /\
      0 <= nth j st 0 <= INR (length d) /\ 0 <= nth j de 0) /\
    (forall i j, (i <= j < length en)%nat -> nth i st 0 <= nth j st 0) /\
    nth 0 st 0 <= states_below lo d + INR (length d) / (1 + exp 5) /\ INR (length d) / (1 + exp (- 5)) <= last st 0.
Proof.
  intros d N T HG HD HV HN HT. pose proof kB_pos as KB. assert (KT : 0 < k_B * T) by (apply Rmult_lt_0_compat; assumption).
  set (es := curve_energies N d). set (beta := 1 / (k_B * T)). assert (Hb : 0 < beta) by (apply Rdiv_lt_0_compat; lra).
  assert (DE : 5 / beta = 5 * (k_B * T)) by (unfold beta; field; lra).
  assert (N1 : 0 < INR (N - 1)) by (apply lt_0_INR; lia).
  assert (ES : StronglySorted Rlt es) by apply energies_sorted.
  assert (IN := energies_in N d). fold es in IN.
  assert (ILO : forall b, In b d -> In (b_lo b) es). { intros b Ib. apply IN. exists b, 0%nat. split; [exact Ib|]. split; [lia|]. change (INR 0) with 0. field. lra. }
  assert (IHI : forall b, In b d -> In (b_hi b) es). { intros b Ib. apply IN. exists b, (N - 1)%nat. split; [exact Ib|]. split; [lia|]. field. lra. }
  assert (NE : es <> []). { destruct d as [|b d]; [congruence|]. intros C. specialize (ILO b (or_introl eq_refl)). rewrite C in ILO. exact ILO. }
  set (lo := nth 0 es 0). set (hi := last es 0).
  assert (ILO2 : In lo es) by (apply nth_In; destruct es; [congruence|cbn; lia]).
  assert (IHI2 : In hi es). { unfold hi. clear - NE. induction es as [|a [|b r] IH]; [congruence|left; reflexivity|]. right. apply IH. discriminate. }
  rewrite Forall_forall in HG.
  assert (BND : forall b i, In b d -> (i < N)%nat -> b_lo b <= b_lo b + INR i / INR (N - 1) * (b_hi b - b_lo b) <= b_hi b).
  { intros b i Ib Hi. destruct (HG b Ib) as (H1 & _). assert (0 <= INR i / INR (N - 1) <= 1).
    { split; [apply Rdiv_le_0_compat; [apply pos_INR|exact N1]|]. apply (Rmult_le_reg_r (INR (N - 1))); [exact N1|]. unfold Rdiv. rewrite Rmult_assoc, Rinv_l by lra. rewrite Rmult_1_r, Rmult_1_l. apply le_INR. lia. }
    split; nra. }
  assert (LOE : exists b, In b d /\ b_lo b = lo).
  { destruct (proj1 (IN lo) ILO2) as (b & i & Ib & Hi & E). exists b. split; [exact Ib|]. pose proof (BND b i Ib Hi). pose proof (sorted_first es _ ES (ILO b Ib)). fold lo in H0. lra. }
  assert (HIE : exists b, In b d /\ b_hi b = hi).
  { destruct (proj1 (IN hi) IHI2) as (b & i & Ib & Hi & E). exists b. split; [exact Ib|]. pose proof (BND b i Ib Hi). pose proof (sorted_last es _ 0 ES (IHI b Ib)). fold hi in H0. lra. }
  set (L1 := linspace_open (lo - 5 / beta) lo N). set (L3 := rev (linspace_open (hi + 5 / beta) hi N)).
  destruct (open_spec (lo - 5 / beta) lo N ltac:(lra) ltac:(lia)) as (S1 & B1 & F1 & LL1). fold L1 in S1, B1, F1, LL1.
  destruct (open_down (hi + 5 / beta) hi N ltac:(lra) ltac:(lia)) as (S3 & B3 & F3 & LL3). fold L3 in S3, B3, F3, LL3.
  set (en := L1 ++ es ++ L3).
  set (ps := map (fun e => (e, states_below e d)) es). set (pd := map (fun e => (e, density e d)) es).
  assert (FC : full_curve N d = map (fun e => (e, (states_below e d, density e d))) es).
  { unfold full_curve. fold (curve_energies N d). fold es. apply map_ext. intros e. rewrite C50_states_density. reflexivity. }
  exists es, en, (map (fun x => convolve_df x ps beta EFlat) en), (map (fun x => convolve_df x pd beta ENone) en), lo, hi.
  assert (LEN : length en = (length es + 2 * N)%nat) by (unfold en; rewrite !app_length, LL1, LL3; lia).
  assert (SEN : StronglySorted Rlt en).
  { unfold en. apply sorted_join; [exact S1| |].
    - apply sorted_join; [exact ES|exact S3|]. intros a b Ia Ib. pose proof (sorted_last es a 0 ES Ia). fold hi in H. pose proof (B3 b Ib). lra.
    - intros a b Ia Ib. pose proof (B1 a Ia). apply in_app_or in Ib. destruct Ib as [Ib|Ib].
      + pose proof (sorted_first es b ES Ib). fold lo in H0. lra.
      + pose proof (B3 b Ib). pose proof (sorted_first es hi ES IHI2). fold lo in H1. lra. }
  assert (APS : ascending ps) by (apply asc_map, ES). assert (APD : ascending pd) by (apply asc_map, ES).
  assert (NPS : ps <> []) by (intros C; apply map_eq_nil in C; contradiction). assert (NPD : pd <> []) by (intros C; apply map_eq_nil in C; contradiction).
  assert (HGF : Forall good_band d) by (apply Forall_forall; exact HG).
  assert (RPS : forall p, In p ps -> 0 <= snd p <= INR (length d)). { intros p Ip. apply in_map_iff in Ip. destruct Ip as (e & <- & _). cbn [snd]. apply C50_bounds, HGF. }
  assert (RPD : forall p, In p pd -> 0 <= snd p).
  { intros p Ip. apply in_map_iff in Ip. destruct Ip as (e & <- & _). cbn [snd]. unfold density. clear - HV. induction d as [|b d IH]; [cbn; lra|]. cbn [map]. change (rsum (?a :: ?l)) with (a + rsum l).
    assert (0 <= density_band e b) by (unfold density_band; destruct (_ && _); [apply HV; left; reflexivity|lra]). specialize (IH (fun b E Ib => HV b E (or_intror Ib))). change (0 <= density_band e b + rsum (map (density_band e) d)). lra. }
  assert (MPS : nondecreasing ps) by (apply nondec_map; [intros; apply C50_monotone; assumption|exact ES]).
  assert (E0 : nth 0 en 0 = lo - 5 / beta). { unfold en. rewrite app_nth1 by (rewrite LL1; lia). exact F1. }
  assert (L3N : L3 <> []) by (intros C; rewrite C in LL3; cbn in LL3; lia).
  assert (LAPP : forall (a b : list R), b <> [] -> last (a ++ b) 0 = last b 0).
  { intros a b Hn. induction a as [|x a IH]; [reflexivity|]. cbn [app]. destruct (a ++ b) as [|y r] eqn:E; [apply app_eq_nil in E; destruct E; contradiction|]. change (last (x :: y :: r) 0) with (last (y :: r) 0). exact IH. }
  assert (EL : last en 0 = hi + 5 / beta). { unfold en. rewrite LAPP; [|intros C; apply app_eq_nil in C; destruct C; contradiction]. rewrite LAPP by exact L3N. apply F3. }
  assert (HIS : states_below hi d = INR (length d)).
  { unfold states_below. rewrite (rsum_const (states_below_band hi) 1); [ring|]. intros b Ib. pose proof (sorted_last es _ 0 ES (IHI b Ib)). fold hi in H. unfold states_below_band. unfold Rltb, Rleb. destruct (Rlt_dec hi (b_hi b)); [lra|]. rewrite andb_false_r. destruct (Rle_dec (b_hi b) hi); [reflexivity|lra]. }
  split.
  { unfold full_curve_T. rewrite FC. unfold Reqb. destruct (Req_EM_T T 0); [lra|]. rewrite !map_map. cbn [fst snd]. rewrite map_id.
    destruct (map (fun e => (e, (states_below e d, density e d))) es) as [|c cs] eqn:EM; [apply map_eq_nil in EM; contradiction|]. reflexivity. }
  split; [exact IN|]. split; [exact ES|]. split; [exact LEN|]. split; [apply map_length|]. split; [apply map_length|]. split; [exact SEN|].
  split; [intros e Ie; unfold en; apply in_or_app; right; apply in_or_app; left; exact Ie|].
  split; [intros b Ib; split; [apply sorted_first; [exact ES|apply ILO, Ib]|apply sorted_last; [exact ES|apply IHI, Ib]]|]. split; [exact LOE|]. split; [exact HIE|].
  split; [rewrite E0, DE; reflexivity|]. split; [rewrite EL, DE; reflexivity|]. split; [|split; [|split]].
  - intros j Hj. rewrite !(nth_map0 _ en j Hj). split; [apply conv_interp; assumption|]. split; [|split].
    + assert (X := C49_convolve_range beta (nth j en 0) pd (interp pd) Hb NPD (interp_pl pd APD)). assert (PF : p_first pd = (lo, density lo d)) by (apply (first_map (fun e => density e d)), NE). assert (PL : p_last pd = (hi, density hi d)) by (apply (last_map2 (fun e => density e d)), NE). rewrite PF, PL in X. exact X.
    + apply C49_convolve_bounds; assumption.
    + apply conv_lower; assumption.
  - intros i j Hij. rewrite !nth_map0 by lia. apply C66_monotone; try assumption. destruct (Nat.eq_dec i j) as [->|]; [lra|]. apply Rlt_le. apply (sorted_nth en SEN). lia.
  - rewrite nth_map0 by lia. rewrite E0. eapply Rle_trans; [apply (conv_upper beta _ ps (INR (length d))); assumption|]. unfold ps. rewrite first_map by exact NE. cbn [fst snd]. fold lo.
    replace (beta * (lo - (lo - 5 / beta))) with 5 by (field; lra). unfold fermi. apply Req_le. unfold Rdiv. ring.
  - assert (LM : last (map (fun x => convolve_df x ps beta EFlat) en) 0 = convolve_df (last en 0) ps beta EFlat).
    { assert (Q : forall l, l <> [] -> last (map (fun x => convolve_df x ps beta EFlat) l) 0 = convolve_df (last l 0) ps beta EFlat).
      { induction l as [|x [|y l] IH]; intros Hn; [congruence|reflexivity|]. change (last (map (fun x => convolve_df x ps beta EFlat) (y :: l)) 0 = convolve_df (last (y :: l) 0) ps beta EFlat). apply IH. discriminate. }
      apply Q. intros C. rewrite C in LEN. cbn in LEN. lia. }
    rewrite LM, EL. eapply Rle_trans; [|apply (conv_lower beta _ ps); [exact Hb|exact APS|exact NPS|intros p Ip; apply RPS, Ip]]. unfold ps. rewrite last_map2 by exact NE. cbn [fst snd]. fold hi. rewrite HIS.
    replace (beta * (hi - (hi + 5 / beta))) with (- 5) by (field; lra). unfold fermi. apply Req_le. unfold Rdiv. ring.
Qed.
Print Assumptions C164_curve.

(** ** an example and what is false *)
Lemma uniform_good : good_band uniform_band /\ forall E, 0 <= b_dvol uniform_band E.
Proof.
  split; [destruct C50_fermi_example as (_ & F); inversion F; subst; assumption|]. intros E. unfold uniform_band. cbn [b_dvol]. lra.
Qed.
Lemma uniform_ends : states_below 0 [uniform_band] = 0 /\ density 0 [uniform_band] = 0 /\ density 1 [uniform_band] = 0.
Proof.
  unfold states_below, density, states_below_band, density_band, uniform_band, Rltb, Rleb. cbn [map b_lo b_hi b_vol b_dvol].
  destruct (Rlt_dec 0 0); [lra|]. destruct (Rle_dec 1 0); [lra|]. destruct (Rlt_dec 1 1); [lra|]. rewrite andb_false_r. cbn. lra.
Qed.
Lemma exp5 : 32 <= exp 5.
Proof.
  assert (E1 : 2 <= exp 1) by (pose proof (exp_ineq1 1 ltac:(lra)); lra). replace 5 with (1 + (1 + (1 + (1 + 1)))) by ring. rewrite !exp_plus. set (x := exp 1) in *.
  assert (4 <= x * x) by nra. assert (16 <= (x * x) * (x * x)) by nra. replace (x * (x * (x * (x * x)))) with (x * ((x * x) * (x * x))) by ring. nra.
Qed.
Lemma interp_zero : forall pts e, (forall p, In p pts -> snd p = 0) -> interp pts e = 0.
Proof.
  induction pts as [|[x0 y0] pts IH]; intros e H; [reflexivity|]. assert (Y0 : y0 = 0) by (apply (H (x0, y0)); left; reflexivity). subst y0. destruct pts as [|[x1 y1] r]; [reflexivity|].
  assert (Y1 : y1 = 0) by (apply (H (x1, y1)); right; left; reflexivity). subst y1. specialize (IH e (fun p I => H p (or_intror I))).
  change ((if Rle_dec e x0 then 0 else if Rle_dec e x1 then 0 + (0 - 0) * ((e - x0) / (x1 - x0)) else interp ((x1, 0) :: r) e) = 0). destruct (Rle_dec e x0); [reflexivity|]. destruct (Rle_dec e x1); [ring|exact IH].
Qed.
Theorem C164_density_refuted : exists d N, (2 <= N)%nat /\ Forall good_band d /\ forall T, 0 < T -> exists en st de,
  full_curve_T N T d = Some (en, st, de) /\ Forall (fun x => x = 0) de /\ nth 0 st 0 < 1 / 10 /\ 9 / 10 < last st 0.
Proof.
  exists [uniform_band], 2%nat. destruct uniform_good as (UG & UV). split; [lia|]. split; [constructor; [exact UG|constructor]|]. intros T HT.
  destruct (C164_curve [uniform_band] 2 T) as (es & en & st & de & lo & hi & FE & IN & _ & _ & _ & LD & _ & _ & LH & (b & Ib & EL) & (b' & Ib' & EH) & _ & _ & V & _ & F & L);
    [constructor; [exact UG|constructor]|discriminate|intros b E [<-|[]]; apply UV|lia|exact HT|].
  destruct Ib as [<-|[]]. destruct Ib' as [<-|[]]. cbn in EL, EH. subst lo hi. destruct uniform_ends as (U0 & U1 & U2).
  exists en, st, de. split; [exact FE|]. split; [|].
  - apply Forall_forall. intros x Hx. apply (In_nth _ _ 0) in Hx. destruct Hx as (j & Hj & <-). rewrite LD in Hj. destruct (V j Hj) as (_ & RI & _).
    assert (Z : forall e, interp (map (fun e => (e, density e [uniform_band])) es) e = 0).
    { assert (ZD : forall e, In e es -> density e [uniform_band] = 0).
      { intros e He. apply IN in He. destruct He as (b & i & [<-|[]] & Hi & ->). cbn [uniform_band b_lo b_hi]. change (INR (2 - 1)) with 1. destruct i as [|[|i]]; [|  |lia]; cbn [INR].
        - replace (0 + 0 / 1 * (1 - 0)) with 0 by field. exact U1.
        - replace (0 + 1 / 1 * (1 - 0)) with 1 by field. exact U2. }
      intros e. apply interp_zero. intros p Ip. apply in_map_iff in Ip. destruct Ip as (e' & <- & Ie). apply ZD, Ie. }
    assert (RZ : is_RInt (fun _ : R => 0) 0 1 0). { assert (X := @is_RInt_const R_NormedModule 0 1 0). unfold scal in X. cbn in X. unfold mult in X. cbn in X. rewrite Rmult_0_r in X. exact X. }
    assert (RI' : is_RInt (fun _ : R => 0) 0 1 (nth j de 0)). { eapply is_RInt_ext; [|exact RI]. intros y _. cbv beta. rewrite Z. apply Rmult_0_l. }
    rewrite <- (is_RInt_unique (V:=R_CompleteNormedModule) _ _ _ _ RI'). apply (is_RInt_unique (V:=R_CompleteNormedModule)). exact RZ.
  - cbn [length] in F, L. change (INR 1) with 1 in F, L. rewrite U0 in F. pose proof exp5. change (- 5) with (- (5)) in L. rewrite exp_Ropp in L. split.
    + apply (Rle_lt_trans _ _ _ F). apply (Rmult_lt_reg_r (1 + exp 5)); [lra|]. unfold Rdiv. rewrite Rplus_0_l, Rmult_1_l, Rinv_l by lra. lra.
    + refine (Rlt_le_trans _ _ _ _ L). assert (I5 : / exp 5 <= / 32) by (apply Rinv_le_contravar; lra). assert (P5 : 0 < / exp 5) by (apply Rinv_0_lt_compat; lra). set (u := / exp 5) in *.
      apply (Rmult_lt_reg_r (1 + u)); [lra|]. replace (1 / (1 + u) * (1 + u)) with 1 by (field; lra). lra.
Qed.
Print Assumptions C164_density_refuted.
(** without bands: empty arrays at T = 0, an IndexError at any other temperature *)
Theorem C164_empty : forall N T, full_curve_T N 0 [] = Some ([], [], []) /\ (T <> 0 -> full_curve_T N T [] = None).
Proof. intros N T. unfold full_curve_T, Reqb. split; [destruct (Req_EM_T 0 0); [reflexivity|lra]|]. intros H. destruct (Req_EM_T T 0); [contradiction|reflexivity]. Qed.
Example C164_ex : exists en st de, full_curve_T 10 300 [uniform_band] = Some (en, st, de) /\ StronglySorted Rlt en /\ nth 0 en 0 = - 5 * (k_B * 300) /\ 32 / 33 <= last st 0.
Proof.
  destruct uniform_good as (UG & UV).
  destruct (C164_curve [uniform_band] 10 300) as (es & en & st & de & lo & hi & FE & IN & _ & _ & _ & LD & SE & _ & LH & (b & Ib & EL) & _ & E0 & _ & V & _ & F & L);
    [constructor; [exact UG|constructor]|discriminate|intros b E [<-|[]]; apply UV|lia|lra|].
  destruct Ib as [<-|[]]. cbn in EL. subst lo. exists en, st, de. split; [exact FE|]. split; [exact SE|]. split; [rewrite E0; ring|].
  refine (Rle_trans _ _ _ _ L). cbn [length]. change (INR 1) with 1. pose proof exp5. change (- 5) with (- (5)). rewrite exp_Ropp. assert (I5 : / exp 5 <= / 32) by (apply Rinv_le_contravar; lra). assert (P5 : 0 < / exp 5) by (apply Rinv_0_lt_compat; lra). set (u := / exp 5) in *.
  apply (Rmult_le_reg_r (1 + u)); [lra|]. replace (1 / (1 + u) * (1 + u)) with 1 by (field; lra). lra.
Qed.
(** at T = 0: the samples with the number of states and the density there *)
Theorem C164_zero : forall N d, exists es, full_curve_T N 0 d = Some (es, map (fun e => states_below e d) es, map (fun e => density e d) es) /\
  StronglySorted Rlt es /\ (forall e, In e es <-> exists b i, In b d /\ (i < N)%nat /\ e = b_lo b + INR i / INR (N - 1) * (b_hi b - b_lo b)).
Proof.
  intros N d. exists (curve_energies N d). split; [|split; [apply energies_sorted|apply energies_in]].
  unfold full_curve_T, Reqb. destruct (Req_EM_T 0 0); [|lra]. unfold full_curve. fold (curve_energies N d). rewrite !map_map. cbn [fst snd]. rewrite map_id. f_equal. f_equal; [f_equal|]; apply map_ext; intros e0; rewrite C50_states_density; reflexivity.
Qed.
Print Assumptions C164_zero.
Example C164_zero_ex : full_curve_T 2 0 [uniform_band] = Some ([0; 1], [0; 1], [0; 0]).
Proof.
  destruct (C164_zero 2 [uniform_band]) as (es & E & S & I). rewrite E.
  assert (I0 : In 0 es). { apply I. exists uniform_band, 0%nat. split; [left; reflexivity|]. split; [lia|]. cbn. field. }
  assert (I1 : In 1 es). { apply I. exists uniform_band, 1%nat. split; [left; reflexivity|]. split; [lia|]. cbn. field. }
  assert (A : forall e, In e es -> e = 0 \/ e = 1). { intros e He. apply I in He. destruct He as (b & i & [<-|[]] & Hi & ->). destruct i as [|[|i]]; [left|right|lia]; cbn; field. }
  assert (ES : es = [0; 1]).
  { destruct S as [|a l S F]; [destruct I0|]. rewrite Forall_forall in F. destruct S as [|b l S F2]; [destruct I0 as [Q0|[]]; destruct I1 as [Q1|[]]; lra|]. rewrite Forall_forall in F2.
    pose proof (F b (or_introl eq_refl)). destruct (A a (or_introl eq_refl)), (A b (or_intror (or_introl eq_refl))); try lra. subst a b.
    destruct l as [|c l]; [reflexivity|]. pose proof (F2 c (or_introl eq_refl)). destruct (A c (or_intror (or_intror (or_introl eq_refl)))); lra. }
  rewrite ES. destruct uniform_ends as (U0 & U1 & U2). cbn [map]. rewrite U0, U1, U2. do 4 f_equal.
  unfold states_below, states_below_band, uniform_band, Rltb, Rleb. cbn [map b_lo b_hi b_vol]. destruct (Rlt_dec 1 1); [lra|]. rewrite andb_false_r. destruct (Rle_dec 1 1); [|lra]. cbn. do 2 f_equal. ring.
Qed.

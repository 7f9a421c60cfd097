(** Property C165: the heat capacity as an integral. *)
From Coq Require Import Reals Lra Lia Psatz List Bool Arith Sorted.
From Coquelicot Require Import Coquelicot.
From Verif Require Import NbrModel SmearModel SmearCalc DosModel DosProps DosMore Basel FermiInt FermiConv FermiMoments DosEnergy BulkProps ChemModel ChemProps CurveProps HeatModel.
Import List ListNotations.
Local Open Scope R_scope.

Ltac toR := match goal with |- @eq _ ?a ?b => change (@eq R a b) end.
Lemma is_RInt_zero_fun a b : is_RInt (V:=R_NormedModule) (fun _ => 0) a b 0.
Proof. assert (X := @is_RInt_const R_NormedModule a b 0). unfold scal in X. cbn in X. unfold mult in X. cbn in X. rewrite Rmult_0_r in X. exact X. Qed.
(** ** one segment *)
Lemma w_cont mu beta e : continuous (fun e => wb beta (e - mu)) e.
Proof. apply (continuous_comp (fun e => e - mu) (wb beta)); [|apply wb_cont]. apply (ex_derive_continuous (V:=R_NormedModule)); auto_derive; auto. Qed.
Lemma w_int mu beta a b : beta <> 0 -> is_RInt (fun e => wb beta (e - mu)) a b (fermi (beta * (a - mu)) - fermi (beta * (b - mu))).
Proof.
  intros Hb. pose proof (int_poly_shift mu beta a b 0 0 1 Hb) as H. unfold int_poly in H. rewrite !int_df_fermi in H.
  replace (beta * (a - mu)) with ((a - mu) * beta) by ring. replace (beta * (b - mu)) with ((b - mu) * beta) by ring.
  match type of H with is_RInt _ _ _ ?v => replace (fermi ((a - mu) * beta) - fermi ((b - mu) * beta)) with v by ring end.
  eapply is_RInt_ext; [|exact H]. intros e _. cbv beta. toR. ring.
Qed.
Lemma segment_error mu s beta e0 e1 y0 y1 : 0 < beta -> e0 < e1 -> exists I,
  is_RInt (fun e => (y0 + (y1 - y0) * ((e - e0) / (e1 - e0))) * (e * (e - mu + s)) * wb beta (e - mu)) e0 e1 I /\
  Rabs (hc_segment mu s beta e0 e1 y0 y1 - I) <= Rabs (y1 - y0) * (e1 - e0) ^ 2 / 8 * (fermi (beta * (e0 - mu)) - fermi (beta * (e1 - mu))).
Proof.
  intros Hb He. set (a := (y1 - y0) / (e1 - e0)). set (em := (e0 + e1) / 2). set (C := fun e => a * (e - em) ^ 3 * wb beta (e - mu)).
  assert (EX : ex_RInt (V:=R_NormedModule) C e0 e1).
  { apply (ex_RInt_continuous (V:=R_CompleteNormedModule)). intros e _. unfold C. apply (continuous_mult (K:=R_AbsRing) (fun e => a * (e - em) ^ 3) (fun e => wb beta (e - mu))); [|apply w_cont].
    apply (ex_derive_continuous (V:=R_NormedModule)). auto_derive; auto. }
  destruct EX as (J & HJ). exists (hc_segment mu s beta e0 e1 y0 y1 + J). split.
  - destruct (C68_segment mu s beta e0 e1 y0 y1 ltac:(lra) ltac:(lra)) as (S & _). assert (P := is_RInt_plus (V:=R_NormedModule) _ _ _ _ _ _ S HJ).
    eapply is_RInt_ext; [|exact P]. intros e _. unfold C, plus; cbn. fold a em. toR. ring.
  - replace (hc_segment mu s beta e0 e1 y0 y1 - (hc_segment mu s beta e0 e1 y0 y1 + J)) with (- J) by ring. rewrite Rabs_Ropp.
    set (K := Rabs a * ((e1 - e0) / 2) ^ 3). assert (WI := w_int mu beta e0 e1 ltac:(lra)). set (F := fermi (beta * (e0 - mu)) - fermi (beta * (e1 - mu))) in *.
    assert (BC : forall e, e0 < e < e1 -> - K * wb beta (e - mu) <= C e <= K * wb beta (e - mu)).
    { intros e H. pose proof (wb_pos beta (e - mu) Hb) as W. assert (Q : Rabs (a * (e - em) ^ 3) <= K).
      { rewrite Rabs_mult, <- RPow_abs. unfold K. apply Rmult_le_compat_l; [apply Rabs_pos|]. apply pow_incr. split; [apply Rabs_pos|]. apply Rabs_le. unfold em. lra. }
      apply Rabs_le_between in Q. unfold C. split; apply Rmult_le_compat_r; lra. }
    assert (I1 := is_RInt_scal (V:=R_NormedModule) _ _ _ K _ WI). assert (I2 := is_RInt_scal (V:=R_NormedModule) _ _ _ (- K) _ WI).
    assert (U : J <= K * F). { apply (is_RInt_le C _ e0 e1 J (K * F) ltac:(lra) HJ I1). intros e H. apply (BC e H). }
    assert (L : - K * F <= J). { apply (is_RInt_le _ C e0 e1 (- K * F) J ltac:(lra) I2 HJ). intros e H. apply (BC e H). }
    assert (EK : K = Rabs (y1 - y0) * (e1 - e0) ^ 2 / 8). { unfold K, a, Rdiv. rewrite Rabs_mult, Rabs_inv, (Rabs_right (e1 - e0)) by lra. field. lra. }
    rewrite <- EK. apply Rabs_le. lra.
Qed.

(** ** all segments *)
(** neighboring samples differ by at most D in the value and by at most W in the energy *)
Fixpoint close_samples (D W : R) (pts : list (R * R)) : Prop :=
  match pts with p :: ((q :: _) as r) => Rabs (snd q - snd p) <= D /\ fst q - fst p <= W /\ close_samples D W r | _ => True end.
Lemma sum_error mu s beta D W : 0 < beta -> 0 <= D -> forall pts f, pts <> [] -> piecewise_linear pts f -> close_samples D W pts -> exists I,
  is_RInt (fun e => f e * (e * (e - mu + s)) * wb beta (e - mu)) (fst (p_first pts)) (fst (p_last pts)) I /\
  Rabs (seg_sum (hc_segment mu s beta) pts - I) <= D * W ^ 2 / 8 * (fermi (beta * (fst (p_first pts) - mu)) - fermi (beta * (fst (p_last pts) - mu))).
Proof.
  intros Hb HD. induction pts as [|[x0 y0] [|[x1 y1] rest] IH]; intros f Hn PL CL; [congruence| |].
  - exists 0. unfold p_first, p_last. cbn [nth last fst seg_sum]. split; [exact (is_RInt_point (V:=R_NormedModule) _ x0)|]. rewrite Rminus_0_r, Rabs_R0. apply Req_le. ring.
  - destruct PL as (H1 & H2 & H3). destruct CL as (C1 & C2 & C3). cbn [fst snd] in C1, C2. destruct (IH f ltac:(discriminate) H3 C3) as (I2 & R2 & B2).
    destruct (segment_error mu s beta x0 x1 y0 y1 Hb H1) as (I1 & R1 & B1).
    exists (I1 + I2). unfold p_first, p_last in *. cbn [nth fst] in *. change (last ((x0, y0) :: (x1, y1) :: rest) (0, 0)) with (last ((x1, y1) :: rest) (0, 0)). split.
    + apply (is_RInt_Chasles (V:=R_NormedModule) _ _ x1); [|exact R2]. eapply is_RInt_ext; [|exact R1]. intros e He. rewrite Rmin_left, Rmax_right in He by lra. cbv beta. rewrite H2 by lra. reflexivity.
    + change (seg_sum (hc_segment mu s beta) ((x0, y0) :: (x1, y1) :: rest)) with (hc_segment mu s beta x0 x1 y0 y1 + seg_sum (hc_segment mu s beta) ((x1, y1) :: rest)).
      set (G := seg_sum (hc_segment mu s beta) ((x1, y1) :: rest)) in *. set (E1 := fst (last ((x1, y1) :: rest) (0, 0))) in *.
      replace (hc_segment mu s beta x0 x1 y0 y1 + G - (I1 + I2)) with ((hc_segment mu s beta x0 x1 y0 y1 - I1) + (G - I2)) by ring.
      eapply Rle_trans; [apply Rabs_triang|].
      assert (F01 : 0 <= fermi (beta * (x0 - mu)) - fermi (beta * (x1 - mu))) by (assert (fermi (beta * (x1 - mu)) < fermi (beta * (x0 - mu))) by (apply fermi_decr; nra); lra).
      assert (Q : Rabs (y1 - y0) * (x1 - x0) ^ 2 / 8 <= D * W ^ 2 / 8).
      { unfold Rdiv. apply Rmult_le_compat_r; [lra|]. apply Rmult_le_compat; [apply Rabs_pos|apply pow_le; lra|exact C1|apply pow_incr; lra]. }
      assert (Q2 := Rmult_le_compat_r _ _ _ F01 Q). set (K := D * W ^ 2 / 8) in *. lra.
Qed.
Print Assumptions sum_error.

(** ** a shift of the energies *)
Lemma seg_shift mu s beta c e0 e1 y0 y1 : 0 < beta -> e0 < e1 -> exists J,
  is_RInt (fun e => (y0 + (y1 - y0) * ((e - e0) / (e1 - e0))) * (e - mu + s) * wb beta (e - mu)) e0 e1 J /\
  hc_segment (mu + c) s beta (e0 + c) (e1 + c) y0 y1 = hc_segment mu s beta e0 e1 y0 y1 + c * J.
Proof.
  intros Hb He.
  assert (EX : ex_RInt (V:=R_NormedModule) (fun e => (y0 + (y1 - y0) * ((e - e0) / (e1 - e0))) * (e - mu + s) * wb beta (e - mu)) e0 e1).
  { apply (ex_RInt_continuous (V:=R_CompleteNormedModule)). intros e _. apply (continuous_mult (K:=R_AbsRing) (fun e => (y0 + (y1 - y0) * ((e - e0) / (e1 - e0))) * (e - mu + s)) (fun e => wb beta (e - mu))); [|apply w_cont].
    apply (ex_derive_continuous (V:=R_NormedModule)). auto_derive; auto. }
  destruct EX as (J & HJ). exists J. split; [exact HJ|].
  destruct (C68_segment mu s beta e0 e1 y0 y1 ltac:(lra) ltac:(lra)) as (S & _).
  destruct (C68_segment (mu + c) s beta (e0 + c) (e1 + c) y0 y1 ltac:(lra) ltac:(lra)) as (S' & _).
  assert (CL : forall (f : R -> R) u v l, is_RInt f (u + c) (v + c) l -> is_RInt (fun y => scal 1 (f (1 * y + c))) u v l).
  { intros f u v l H. apply (is_RInt_comp_lin (V:=R_NormedModule) f 1 c u v l). rewrite !Rmult_1_l. exact H. }
  apply CL in S'.
  assert (P := is_RInt_plus (V:=R_NormedModule) _ _ _ _ _ _ S (is_RInt_scal (V:=R_NormedModule) _ _ _ c _ HJ)).
  assert (P' : is_RInt (V:=R_NormedModule) (fun y => plus (((y0 + (y1 - y0) * ((y - e0) / (e1 - e0))) * y * (y - mu + s) - (y1 - y0) / (e1 - e0) * (y - (e0 + e1) / 2) ^ 3) * wb beta (y - mu))
      (scal c ((y0 + (y1 - y0) * ((y - e0) / (e1 - e0))) * (y - mu + s) * wb beta (y - mu)))) e0 e1 (hc_segment (mu + c) s beta (e0 + c) (e1 + c) y0 y1)).
  { eapply is_RInt_ext; [|exact S']. intros e _. cbv beta. unfold scal, plus; cbn. unfold mult; cbn. replace (1 * e + c - (mu + c)) with (e - mu) by ring. toR. field. lra. }
  rewrite <- (is_RInt_unique (V:=R_CompleteNormedModule) _ _ _ _ P'). apply (is_RInt_unique (V:=R_CompleteNormedModule)). exact P.
Qed.
Lemma sum_shift mu s beta c : 0 < beta -> forall pts f, pts <> [] -> piecewise_linear pts f -> exists J,
  is_RInt (fun e => f e * (e - mu + s) * wb beta (e - mu)) (fst (p_first pts)) (fst (p_last pts)) J /\
  seg_sum (hc_segment (mu + c) s beta) (map (fun p => (fst p + c, snd p)) pts) = seg_sum (hc_segment mu s beta) pts + c * J.
Proof.
  intros Hb. induction pts as [|[x0 y0] [|[x1 y1] rest] IH]; intros f Hn PL; [congruence| |].
  - exists 0. unfold p_first, p_last. cbn [nth last fst seg_sum map]. split; [exact (is_RInt_point (V:=R_NormedModule) _ x0)|]. ring.
  - destruct PL as (H1 & H2 & H3). destruct (IH f ltac:(discriminate) H3) as (I2 & R2 & B2).
    destruct (seg_shift mu s beta c x0 x1 y0 y1 Hb H1) as (I1 & R1 & B1).
    exists (I1 + I2). unfold p_first, p_last in *. cbn [nth fst] in *. change (last ((x0, y0) :: (x1, y1) :: rest) (0, 0)) with (last ((x1, y1) :: rest) (0, 0)). split.
    + apply (is_RInt_Chasles (V:=R_NormedModule) _ _ x1); [|exact R2]. eapply is_RInt_ext; [|exact R1]. intros e He. rewrite Rmin_left, Rmax_right in He by lra. cbv beta. rewrite H2 by lra. reflexivity.
    + change (seg_sum (hc_segment mu s beta) ((x0, y0) :: (x1, y1) :: rest)) with (hc_segment mu s beta x0 x1 y0 y1 + seg_sum (hc_segment mu s beta) ((x1, y1) :: rest)).
      change (hc_segment (mu + c) s beta (x0 + c) (x1 + c) y0 y1 + seg_sum (hc_segment (mu + c) s beta) (map (fun p => (fst p + c, snd p)) ((x1, y1) :: rest))
        = hc_segment mu s beta x0 x1 y0 y1 + seg_sum (hc_segment mu s beta) ((x1, y1) :: rest) + c * (I1 + I2)).
      rewrite B1, B2. ring.
Qed.
(** the band with all energies moved by c *)
Definition shift_band (c : R) (b : band) : band := mkBand (b_lo b + c) (b_hi b + c) (fun E => b_vol b (E - c)) (fun E => b_dvol b (E - c)).
Lemma density_shift c d e : density (e + c) (map (shift_band c) d) = density e d.
Proof.
  unfold density. rewrite map_map. f_equal. apply map_ext. intros b. unfold density_band, shift_band. cbn [b_lo b_hi b_dvol]. replace (e + c - c) with e by ring.
  assert (Q : forall u v, Rltb (u + c) (v + c) = Rltb u v) by (intros u v; unfold Rltb; destruct (Rlt_dec (u + c) (v + c)), (Rlt_dec u v); [reflexivity|lra|lra|reflexivity]). rewrite !Q. reflexivity.
Qed.
Lemma samples_shift c e0 e1 mu beta N : e_samples (e0 + c) (e1 + c) (mu + c) beta N = map (fun e => e + c) (e_samples e0 e1 mu beta N).
Proof.
  rewrite !e_samples_p, map_map. replace (Rmax (mu + c - 30 / beta) (e0 + c) - (mu + c)) with (Rmax (mu - 30 / beta) e0 - mu).
  - replace (Rmin (mu + c + 30 / beta) (e1 + c) - (mu + c)) with (Rmin (mu + 30 / beta) e1 - mu); [apply map_ext; intros p; ring|]. unfold Rmin. destruct (Rle_dec (mu + 30 / beta) e1), (Rle_dec (mu + c + 30 / beta) (e1 + c)); lra.
  - unfold Rmax. destruct (Rle_dec (mu - 30 / beta) e0), (Rle_dec (mu + c - 30 / beta) (e0 + c)); lra.
Qed.
Lemma range_shift c d : d <> [] -> energy_range (map (shift_band c) d) = (fst (energy_range d) + c, snd (energy_range d) + c).
Proof.
  intros H. unfold energy_range. cbn [fst snd]. f_equal; [destruct d; [congruence|reflexivity]|]. induction d as [|a [|b r] IH]; [congruence|reflexivity|]. apply IH. discriminate.
Qed.
Lemma interp_nonneg : forall pts e, ascending pts -> (forall p, In p pts -> 0 <= snd p) -> 0 <= interp pts e.
Proof.
  induction pts as [|[x0 y0] pts IH]; intros e A H; [cbn; lra|]. assert (Y0 : 0 <= y0) by (apply (H (x0, y0)); left; reflexivity). destruct pts as [|[x1 y1] r]; [exact Y0|].
  assert (Y1 : 0 <= y1) by (apply (H (x1, y1)); right; left; reflexivity). destruct A as [A1 A2]. cbn [fst] in A1. specialize (IH e A2 (fun p I => H p (or_intror I))).
  change (0 <= (if Rle_dec e x0 then y0 else if Rle_dec e x1 then y0 + (y1 - y0) * ((e - x0) / (x1 - x0)) else interp ((x1, y1) :: r) e)). destruct (Rle_dec e x0); [exact Y0|]. destruct (Rle_dec e x1); [|exact IH].
  assert (0 <= (e - x0) / (x1 - x0) <= 1). { split; [apply Rdiv_le_0_compat; lra|]. apply (Rmult_le_reg_r (x1 - x0)); [lra|]. unfold Rdiv. rewrite Rmult_assoc, Rinv_l by lra. lra. } nra.
Qed.

(** ** the method *)
Theorem C165_integral : forall chem d T N spin h D W, 0 < T -> (4 <= N)%nat -> 0 <= D ->
  let mu := nth 1 (chem [T - h * T; T; T + h * T]) 0 in
  let s := T * ((nth 2 (chem [T - h * T; T; T + h * T]) 0 - nth 0 (chem [T - h * T; T; T + h * T]) 0) / (2 * (h * T))) in
  fst (energy_range d) < mu < snd (energy_range d) ->
  exists es I J, length es = N /\ strictly_increasing es /\ In mu es /\ nth 0 es 0 = Rmax (mu - 30 * (k_B * T)) (fst (energy_range d)) /\ last es 0 = Rmin (mu + 30 * (k_B * T)) (snd (energy_range d)) /\
    is_RInt (fun e => interp (map (fun e => (e, density e d)) es) e * (e * (e - mu + s)) * wb (/ (k_B * T)) (e - mu)) (nth 0 es 0) (last es 0) I /\
    is_RInt (fun e => interp (map (fun e => (e, density e d)) es) e * (e - mu + s) * wb (/ (k_B * T)) (e - mu)) (nth 0 es 0) (last es 0) J /\
    (forall c chem', chem' [T - h * T; T; T + h * T] = map (fun m => m + c) (chem [T - h * T; T; T + h * T]) -> length (chem [T - h * T; T; T + h * T]) = 3%nat ->
      heat_capacity chem' (map (shift_band c) d) T N spin h = heat_capacity chem d T N spin h + c * (spin / T * J)) /\
    ((forall e, In e es -> 0 <= density e d) -> J = 0 -> 0 <= I) /\
    (close_samples D W (map (fun e => (e, density e d)) es) -> Rabs (heat_capacity chem d T N spin h - spin / T * I) <= Rabs spin / T * (D * W ^ 2 / 8)).
Proof.
  intros chem d T N spin h D W HT HN HD mu s HE. pose proof kB_pos as KB. assert (KT : 0 < k_B * T) by (apply Rmult_lt_0_compat; lra).
  unfold heat_capacity. rewrite Rleb_f by lra. destruct (energy_range d) as [e0 e1] eqn:ER. cbn [fst snd] in *. fold mu.
  replace ((nth 2 (chem [T - h * T; T; T + h * T]) 0 - nth 0 (chem [T - h * T; T; T + h * T]) 0) / (2 * (h * T)) * T) with s by (unfold s; ring).
  replace (1 / (k_B * T)) with (/ (k_B * T)) by (unfold Rdiv; ring). set (beta := / (k_B * T)). assert (Hb : 0 < beta) by (apply Rinv_0_lt_compat; exact KT).
  destruct (C69_samples e0 e1 mu beta N Hb HN HE) as (L & SI & F0 & FL & FM & _). set (es := e_samples e0 e1 mu beta N) in *.
  assert (B30 : 30 / beta = 30 * (k_B * T)) by (unfold beta; field; lra). rewrite B30 in F0, FL.
  assert (NE : es <> []) by (intros C; rewrite C in L; cbn in L; lia). set (pts := map (fun e => (e, density e d)) es).
  assert (SS : StronglySorted Rlt es).
  { clear - SI. induction es as [|a l IH]; [constructor|]. constructor; [apply IH; intros i j H; apply (SI (S i) (S j)); cbn [length]; lia|].
    apply Forall_forall. intros e He. apply (In_nth _ _ 0) in He. destruct He as (i & Hi & <-). apply (SI 0%nat (S i)). cbn [length]. lia. }
  assert (AP : ascending pts) by (apply asc_map, SS). assert (NP : pts <> []) by (intros C; apply map_eq_nil in C; contradiction).
  assert (PF : p_first pts = (nth 0 es 0, density (nth 0 es 0) d)) by (apply (first_map (fun e => density e d)), NE).
  assert (PL : p_last pts = (last es 0, density (last es 0) d)) by (apply (last_map2 (fun e => density e d)), NE).
  assert (CLM : exists D' W', 0 <= D' /\ close_samples D' W' pts).
  { clear. induction pts as [|p [|q r] (D' & W' & H0 & H)]; [exists 0, 0; split; [lra|exact I]|exists 0, 0; split; [lra|exact I]|].
    exists (Rmax D' (Rabs (snd q - snd p))), (Rmax W' (fst q - fst p)). split; [eapply Rle_trans; [exact H0|apply Rmax_l]|]. split; [apply Rmax_r|]. split; [apply Rmax_r|].
    revert H. generalize (q :: r). clear. intros l. revert D' W'. induction l as [|a [|b t] IH]; intros D' W' H; [exact I|exact I|]. destruct H as (H1 & H2 & H3).
    split; [eapply Rle_trans; [exact H1|apply Rmax_l]|]. split; [eapply Rle_trans; [exact H2|apply Rmax_l]|]. apply IH, H3. }
  destruct CLM as (D' & W' & HD' & CL'). destruct (sum_error mu s beta D' W' Hb HD' pts (interp pts) NP (interp_pl pts AP) CL') as (I & RI & _). rewrite PF, PL in RI. cbn [fst] in RI.
  destruct (sum_shift mu s beta 0 Hb pts (interp pts) NP (interp_pl pts AP)) as (J & RJ & _). rewrite PF, PL in RJ. cbn [fst] in RJ.
  exists es, I, J. split; [exact L|]. split; [exact SI|]. split; [rewrite <- FM; apply nth_In; rewrite L; apply Nat.div_lt; lia|]. split; [exact F0|]. split; [exact FL|]. split; [exact RI|]. split; [exact RJ|]. split; [|split].
  { intros c chem' EC LC. rewrite EC. rewrite range_shift by (intros ->; cbn in ER; inversion ER; lra). rewrite ER. cbn [fst snd].
    assert (EM : nth 1 (map (fun m => m + c) (chem [T - h * T; T; T + h * T])) 0 = mu + c /\
      (nth 2 (map (fun m => m + c) (chem [T - h * T; T; T + h * T])) 0 - nth 0 (map (fun m => m + c) (chem [T - h * T; T; T + h * T])) 0) / (2 * (h * T)) * T = s).
    { unfold mu, s. destruct (chem [T - h * T; T; T + h * T]) as [|m0 [|m1 [|m2 [|]]]]; try discriminate LC. cbn [map nth]. split; [reflexivity|]. unfold Rdiv. ring. }
    destruct EM as (EM & ES). rewrite EM, ES, samples_shift. fold es.
    destruct (sum_shift mu s beta c Hb pts (interp pts) NP (interp_pl pts AP)) as (J' & RJ' & B). rewrite PF, PL in RJ'. cbn [fst] in RJ'.
    assert (EJ : J' = J) by (rewrite <- (is_RInt_unique (V:=R_CompleteNormedModule) _ _ _ _ RJ'); apply (is_RInt_unique (V:=R_CompleteNormedModule)); exact RJ). subst J'.
    assert (EP : map (fun e => (e, density e (map (shift_band c) d))) (map (fun e => e + c) es) = map (fun p => (fst p + c, snd p)) pts).
    { unfold pts. rewrite !map_map. apply map_ext. intros e. cbn [fst snd]. rewrite density_shift. reflexivity. }
    rewrite EP, B. fold pts. unfold Rdiv. ring. }
  { intros HP J0. subst J. assert (PD := is_RInt_minus (V:=R_NormedModule) _ _ _ _ _ _ RI (is_RInt_scal (V:=R_NormedModule) _ _ _ (mu - s) _ RJ)).
    assert (PZ : is_RInt (V:=R_NormedModule) (fun _ => 0) (nth 0 es 0) (last es 0) 0) by apply is_RInt_zero_fun.
    assert (LE : nth 0 es 0 <= last es 0) by (apply sorted_last; [exact SS|apply nth_In; rewrite L; lia]).
    assert (PQ : is_RInt (V:=R_NormedModule) (fun e => interp pts e * (e - mu + s) ^ 2 * wb beta (e - mu)) (nth 0 es 0) (last es 0) (I - (mu - s) * 0)).
    { eapply is_RInt_ext; [|exact PD]. intros e _. cbv beta. fold pts. generalize (interp pts e), (wb beta (e - mu)). intros u w. change (u * (e * (e - mu + s)) * w + - ((mu - s) * (u * (e - mu + s) * w)) = u * (e - mu + s) ^ 2 * w). ring. }
    enough (0 <= I - (mu - s) * 0) by lra. apply (is_RInt_le _ _ _ _ _ _ LE PZ PQ).
    intros e _. pose proof (wb_pos beta (e - mu) Hb). assert (IN : 0 <= interp pts e). { apply interp_nonneg; [exact AP|]. intros p Ip. apply in_map_iff in Ip. destruct Ip as (e' & <- & Ie). apply HP, Ie. }
    apply Rmult_le_pos; [apply Rmult_le_pos; [exact IN|apply pow2_ge_0]|lra]. }
  intros CL. destruct (sum_error mu s beta D W Hb HD pts (interp pts) NP (interp_pl pts AP) CL) as (I' & RI' & B). rewrite PF, PL in RI', B. cbn [fst] in RI', B.
  assert (EI : I' = I) by (rewrite <- (is_RInt_unique (V:=R_CompleteNormedModule) _ _ _ _ RI'); apply (is_RInt_unique (V:=R_CompleteNormedModule)); exact RI). subst I'.
  fold pts. set (G := seg_sum (hc_segment mu s beta) pts) in *. replace (G / T * spin - spin / T * I) with (spin / T * (G - I)) by (unfold Rdiv; ring).
  rewrite Rabs_mult. unfold Rdiv at 1. rewrite Rabs_mult, (Rabs_right (/ T)) by (apply Rle_ge, Rlt_le, Rinv_0_lt_compat, HT). fold (Rabs spin / T).
  apply Rmult_le_compat_l; [apply Rmult_le_pos; [apply Rabs_pos|apply Rlt_le, Rinv_0_lt_compat, HT]|]. eapply Rle_trans; [exact B|].
  pose proof (fermi_range (beta * (nth 0 es 0 - mu))). pose proof (fermi_range (beta * (last es 0 - mu))).
  assert (0 <= D * W ^ 2 / 8) by (assert (0 <= W ^ 2) by apply pow2_ge_0; nra). nra.
Qed.
Print Assumptions C165_integral.
Theorem C165_zero : forall chem d T N spin h, T <= 0 -> heat_capacity chem d T N spin h = 0.
Proof. intros. unfold heat_capacity, Rleb. destruct (Rle_dec T 0); [reflexivity|contradiction]. Qed.

(** the uniform band at 100 K with the chemical potential in its middle: all samples have the density 1, so the sum is the integral *)
Lemma uniform_density e : 0 < e < 1 -> density e [uniform_band] = 1.
Proof.
  intros H. unfold density, density_band, uniform_band, Rltb. cbn [map b_lo b_hi b_dvol]. destruct (Rlt_dec 0 e); [|lra]. destruct (Rlt_dec e 1); [|lra]. cbn. lra.
Qed.
Lemma close_same : forall es, (forall e, In e es -> density e [uniform_band] = 1 /\ 0 < e < 1) -> close_samples 0 1 (map (fun e => (e, density e [uniform_band])) es).
Proof.
  induction es as [|a [|b r] IH]; intros H; [exact I|exact I|]. cbn [map] in *. destruct (H a (or_introl eq_refl)) as (A1 & A2). destruct (H b (or_intror (or_introl eq_refl))) as (B1 & B2).
  split; [cbn [snd]; rewrite A1, B1, Rminus_diag_eq, Rabs_R0 by reflexivity; lra|]. split; [cbn [fst]; lra|]. apply IH. intros e He. apply H. right. exact He.
Qed.
Example C165_ex : exists I, heat_capacity (map (fun _ => 1 / 2)) [uniform_band] 100 256 2 (1 / 10000) = 2 / 100 * I /\
  is_RInt (fun e => e * (e - 1 / 2) * wb (/ (k_B * 100)) (e - 1 / 2)) (1 / 2 - 30 * (k_B * 100)) (1 / 2 + 30 * (k_B * 100)) I.
Proof.
  assert (KB : 0 < 30 * (k_B * 100) < 1 / 2) by (unfold k_B; lra).
  destruct (C165_integral (map (fun _ => 1 / 2)) [uniform_band] 100 256 2 (1 / 10000) 0 1) as (es & I & J & L & SI & _ & E0 & E1 & RI & _ & _ & _ & B); [lra|lia|lra|cbn; lra|].
  cbn [map nth] in *. change (fst (energy_range [uniform_band])) with 0 in E0. change (snd (energy_range [uniform_band])) with 1 in E1.
  rewrite Rmax_left in E0 by lra. rewrite Rmin_left in E1 by lra.
  assert (SS : StronglySorted Rlt es).
  { clear - SI. induction es as [|a l IH]; [constructor|]. constructor; [apply IH; intros i j H; apply (SI (S i) (S j)); cbn [length]; lia|].
    apply Forall_forall. intros e He. apply (In_nth _ _ 0) in He. destruct He as (i & Hi & <-). apply (SI 0%nat (S i)). cbn [length]. lia. }
  assert (RG : forall e, In e es -> density e [uniform_band] = 1 /\ 0 < e < 1).
  { intros e He. pose proof (sorted_first es e SS He). pose proof (sorted_last es e 0 SS He). assert (0 < e < 1) by lra. split; [apply uniform_density|]; assumption. }
  exists I. split.
  - specialize (B (close_same es RG)). replace (Rabs 2 / 100 * (0 * 1 ^ 2 / 8)) with 0 in B by (unfold Rdiv; ring).
    pose proof (Rabs_pos (heat_capacity (map (fun _ => 1 / 2)) [uniform_band] 100 256 2 (1 / 10000) - 2 / 100 * I)) as P.
    assert (Z : Rabs (heat_capacity (map (fun _ => 1 / 2)) [uniform_band] 100 256 2 (1 / 10000) - 2 / 100 * I) = 0) by (apply Rle_antisym; assumption).
    destruct (Req_dec (heat_capacity (map (fun _ => 1 / 2)) [uniform_band] 100 256 2 (1 / 10000) - 2 / 100 * I) 0) as [Q|Q]; [apply Rminus_diag_uniq, Q|]. apply Rabs_no_R0 in Q. contradiction.
  - rewrite E0, E1 in RI. eapply is_RInt_ext; [|exact RI]. intros e He. cbv beta. rewrite Rmin_left, Rmax_right in He by lra.
    assert (IO : interp (map (fun e => (e, density e [uniform_band])) es) e = 1).
    { assert (NE : es <> []) by (intros C; rewrite C in L; discriminate). clear - RG NE. induction es as [|a [|b r] IH]; [congruence|cbn; apply RG; left; reflexivity|].
      specialize (IH (fun e H => RG e (or_intror H)) ltac:(discriminate)).
      destruct (RG a (or_introl eq_refl)) as (A1 & _). destruct (RG b (or_intror (or_introl eq_refl))) as (B1 & _). cbn [map] in *. rewrite A1. rewrite B1 in *.
      change ((if Rle_dec e a then 1 else if Rle_dec e b then 1 + (1 - 1) * ((e - a) / (b - a)) else interp ((b, 1) :: map (fun e => (e, density e [uniform_band])) r) e) = 1).
      destruct (Rle_dec e a); [reflexivity|]. destruct (Rle_dec e b); [ring|exact IH]. }
    rewrite IO. toR. generalize (wb (/ (k_B * 100)) (e - 1 / 2)). intros w. field.
Qed.

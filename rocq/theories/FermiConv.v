(** Properties C49 (convolution with the Fermi function) and C66 (its derivative). *)
From Coq Require Import Reals Lra Lia Psatz List.
From Coquelicot Require Import Coquelicot.
From Verif Require Import NbrModel SmearModel SmearCalc DosModel Basel FermiInt.
Import ListNotations.
Local Open Scope R_scope.

(** ** Specification *)
(** minus the derivative of the Fermi function of inverse temperature beta *)
Definition wb (beta e : R) : R := beta * wt (beta * e).
(** [N] is the piecewise linear function through the sample points, whose energies ascend *)
Fixpoint piecewise_linear (pts : list (R * R)) (N : R -> R) : Prop :=
  match pts with
  | (x0, y0) :: (((x1, y1) :: _) as rest) =>
      x0 < x1 /\ (forall e, x0 <= e <= x1 -> N e = y0 + (y1 - y0) * ((e - x0) / (x1 - x0))) /\ piecewise_linear rest N
  | _ => True
  end.
(** improper integral over the real line *)
Definition is_improper (f : R -> R) (l : R) : Prop :=
  forall eps, 0 < eps -> exists M, forall A B, A < - M -> M < B -> exists v, is_RInt f A B v /\ Rabs (v - l) < eps.

(** ** Proofs *)
Lemma cv_f_fermi : forall beta e, cv_f beta e = fermi (beta * e).
Proof. intros. unfold cv_f, expit, fermi. replace (- (- beta * e)) with (beta * e) by ring. field. pose proof (ep (beta * e)); lra. Qed.
Lemma fermi_derive : forall x, is_derive fermi x (- wt x).
Proof. intros. apply C49_weight. Qed.
Lemma fermi_opp : forall x, fermi (- x) = 1 - fermi x.
Proof. intros x. unfold fermi. rewrite exp_Ropp. pose proof (exp_pos x). field. lra. Qed.
Lemma fermi_range : forall x, 0 < fermi x < 1.
Proof.
  intros x. unfold fermi. pose proof (exp_pos x). split; [apply Rdiv_lt_0_compat; lra|].
  apply Rmult_lt_reg_r with (1 + exp x); [lra|]. replace (1 / (1 + exp x) * (1 + exp x)) with 1 by (field; lra). lra.
Qed.
Lemma fermi_decr : forall x y, x < y -> fermi y < fermi x.
Proof.
  intros x y H. unfold fermi, Rdiv. rewrite !Rmult_1_l. apply Rinv_lt_contravar; [apply Rmult_lt_0_compat; apply ep|].
  apply exp_increasing in H. lra.
Qed.
Lemma cv_f_derive : forall beta e, is_derive (cv_f beta) e (- wb beta e).
Proof.
  intros beta e. apply is_derive_ext with (fun e => fermi (beta * e)); [intros; symmetry; apply cv_f_fermi|].
  replace (- wb beta e) with (scal beta (- wt (beta * e))) by (unfold wb, scal; simpl; unfold mult; simpl; ring).
  apply (is_derive_comp fermi (fun e => beta * e)); [apply fermi_derive|]. auto_derive; auto. ring.
Qed.
Lemma cv_df_wb : forall beta e, cv_df beta e = - wb beta e.
Proof.
  intros. unfold cv_df, wb. rewrite (proj2 (C49_weight _)).
  replace (1 / 2 * beta * e) with (beta * e / 2) by field.
  assert (0 < cosh (beta * e / 2)) by (unfold cosh; pose proof (exp_pos (beta * e / 2)); pose proof (exp_pos (- (beta * e / 2))); lra).
  field. lra.
Qed.
Lemma cv_F_derive : forall beta e, beta <> 0 -> is_derive (cv_F beta) e (cv_f beta e).
Proof.
  intros beta e Hb. rewrite cv_f_fermi. unfold cv_F, log_expit.
  pose proof (exp_pos (- (beta * e))). auto_derive; [lra|].
  unfold fermi. replace (exp (beta * e)) with (/ exp (- (beta * e))) by (rewrite <- exp_Ropp; f_equal; ring).
  field. lra.
Qed.
Lemma wb_pos : forall beta e, 0 < beta -> 0 < wb beta e.
Proof. intros. unfold wb. apply Rmult_lt_0_compat; auto. apply wt_pos. Qed.
Lemma wb_even : forall beta e, wb beta (- e) = wb beta e.
Proof. intros. unfold wb. rewrite <- wt_even. do 2 f_equal. ring. Qed.
Lemma wb_cont : forall beta e, continuous (wb beta) e.
Proof.
  intros. unfold wb. apply (continuous_scal_r (K:=R_AbsRing) (V:=R_NormedModule) beta (fun e => wt (beta * e))).
  apply (continuous_comp (fun e => beta * e) wt); [|apply wt_cont].
  apply (ex_derive_continuous (V:=R_NormedModule)). auto_derive; auto.
Qed.

(** one segment *)
Lemma segment_int : forall beta x x0 x1 y0 y1, beta <> 0 -> x0 <> x1 ->
  is_RInt (fun e => (y0 + (y1 - y0) * ((e - x0) / (x1 - x0))) * wb beta (x - e)) x0 x1 (cv_segment beta x x0 x1 y0 y1).
Proof.
  intros beta x x0 x1 y0 y1 Hb Hx.
  set (s := (y1 - y0) / (x1 - x0)). set (yl := fun e => y0 + (y1 - y0) * ((e - x0) / (x1 - x0))).
  set (H := fun e => yl e * cv_f beta (x - e) + s * cv_F beta (x - e)).
  replace (cv_segment beta x x0 x1 y0 y1) with (minus (H x1) (H x0)).
  2:{ unfold H, cv_segment, minus, plus, opp; simpl. fold s.
      replace (yl x1) with y1 by (unfold yl; field; lra). replace (yl x0) with y0 by (unfold yl; field; lra). ring. }
  apply (is_RInt_derive (V:=R_CompleteNormedModule) H).
  - intros e _. change (is_derive H e (yl e * wb beta (x - e))). unfold H.
    assert (Df : is_derive (fun e => cv_f beta (x - e)) e (wb beta (x - e))).
    { replace (wb beta (x - e)) with (scal (-1) (- wb beta (x - e))) by (unfold scal; simpl; unfold mult; simpl; ring).
      apply (is_derive_comp (cv_f beta) (fun e => x - e)); [apply cv_f_derive|]. auto_derive; auto; ring. }
    assert (DF : is_derive (fun e => cv_F beta (x - e)) e (- cv_f beta (x - e))).
    { replace (- cv_f beta (x - e)) with (scal (-1) (cv_f beta (x - e))) by (unfold scal; simpl; unfold mult; simpl; ring).
      apply (is_derive_comp (cv_F beta) (fun e => x - e)); [apply cv_F_derive; auto|]. auto_derive; auto; ring. }
    assert (Dy : is_derive yl e s) by (unfold yl, s; auto_derive; [auto|field; lra]).
    replace (yl e * wb beta (x - e)) with (plus (plus (mult s (cv_f beta (x - e))) (mult (yl e) (wb beta (x - e)))) (scal s (- cv_f beta (x - e))))
      by (unfold plus, scal, mult; simpl; unfold mult; simpl; ring).
    apply (is_derive_plus (V:=R_NormedModule) (fun e => yl e * cv_f beta (x - e)) (fun e => s * cv_F beta (x - e))).
    + apply (is_derive_mult yl (fun e => cv_f beta (x - e)) e s); auto. intros; apply Rmult_comm.
    + apply (is_derive_scal (fun e => cv_F beta (x - e))); auto.
  - intros e _. apply (continuous_mult (K:=R_AbsRing) yl (fun e => wb beta (x - e))).
    + apply (ex_derive_continuous (V:=R_NormedModule)). unfold yl. auto_derive; auto.
    + apply (continuous_comp (fun e => x - e) (wb beta)); [|apply wb_cont].
      apply (ex_derive_continuous (V:=R_NormedModule)). auto_derive; auto.
Qed.
(** constant pieces *)
Lemma const_int : forall beta x a b y, beta <> 0 ->
  is_RInt (fun e => y * wb beta (x - e)) a b (y * (cv_f beta (x - b) - cv_f beta (x - a))).
Proof.
  intros beta x a b y Hb.
  replace (y * (cv_f beta (x - b) - cv_f beta (x - a))) with (minus (y * cv_f beta (x - b)) (y * cv_f beta (x - a))) by (unfold minus, plus, opp; simpl; ring).
  apply (is_RInt_derive (V:=R_CompleteNormedModule) (fun e => y * cv_f beta (x - e))).
  - intros e _.
    assert (Df : is_derive (fun e => cv_f beta (x - e)) e (wb beta (x - e))).
    { replace (wb beta (x - e)) with (scal (-1) (- wb beta (x - e))) by (unfold scal; simpl; unfold mult; simpl; ring).
      apply (is_derive_comp (cv_f beta) (fun e => x - e)); [apply cv_f_derive|]. auto_derive; auto; ring. }
    exact (is_derive_scal _ _ y _ Df).
  - intros e _. apply (continuous_scal_r (K:=R_AbsRing) (V:=R_NormedModule) y (fun e => wb beta (x - e))).
    apply (continuous_comp (fun e => x - e) (wb beta)); [|apply wb_cont].
    apply (ex_derive_continuous (V:=R_NormedModule)). auto_derive; auto.
Qed.
Lemma is_RInt_zero : forall f a, is_RInt f a a 0.
Proof. intros. exact (is_RInt_point (V:=R_NormedModule) f a). Qed.
Lemma pl_le : forall pts N, piecewise_linear pts N -> pts <> [] -> fst (p_first pts) <= fst (p_last pts).
Proof.
  induction pts as [|[x0 y0] [|[x1 y1] rest] IH]; intros N H Hn; [congruence|unfold p_first, p_last; simpl; lra|].
  destruct H as (H1 & _ & H3). specialize (IH N H3 ltac:(discriminate)).
  unfold p_first, p_last in *. cbn [nth fst] in *. change (last ((x0, y0) :: (x1, y1) :: rest) (0, 0)) with (last ((x1, y1) :: rest) (0, 0)). lra.
Qed.
(** without extrapolation: the integral over the range of the samples *)
Theorem C49_convolve_range : forall beta x pts N, 0 < beta -> pts <> [] -> piecewise_linear pts N ->
  is_RInt (fun e => N e * wb beta (x - e)) (fst (p_first pts)) (fst (p_last pts)) (convolve_df x pts beta ENone).
Proof.
  intros beta x pts N Hb Hn. unfold convolve_df.
  induction pts as [|[x0 y0] [|[x1 y1] rest] IH]; intros H; [congruence| |].
  - cbn. apply is_RInt_zero.
  - destruct H as (H1 & H2 & H3). specialize (IH ltac:(discriminate) H3).
    cbn [seg_sum]. unfold p_first, p_last in *. cbn [nth fst snd] in *.
    change (last ((x0, y0) :: (x1, y1) :: rest) (0, 0)) with (last ((x1, y1) :: rest) (0, 0)).
    apply (is_RInt_Chasles (V:=R_NormedModule) _ _ x1); auto.
    eapply is_RInt_ext; [|apply segment_int; lra].
    intros e He. rewrite Rmin_left, Rmax_right in He by lra. cbv beta. rewrite H2 by lra. reflexivity.
Qed.
Print Assumptions C49_convolve_range.

(** with flat extrapolation: the integral over all energies *)
Lemma fermi_tail : forall eps, 0 < eps -> exists M, forall x, M < x -> fermi x < eps.
Proof.
  intros eps He. exists (/ eps). intros x Hx. unfold fermi.
  assert (0 < / eps) by (apply Rinv_0_lt_compat; auto). pose proof (exp_ineq1 x ltac:(lra)).
  apply Rmult_lt_reg_r with (1 + exp x); [lra|]. replace (1 / (1 + exp x) * (1 + exp x)) with 1 by (field; lra).
  assert (/ eps * eps = 1) by (field; lra). nra.
Qed.
Theorem C49_convolve_flat : forall beta x pts N, 0 < beta -> pts <> [] -> piecewise_linear pts N ->
  (forall e, e <= fst (p_first pts) -> N e = snd (p_first pts)) -> (forall e, fst (p_last pts) <= e -> N e = snd (p_last pts)) ->
  is_improper (fun e => N e * wb beta (x - e)) (convolve_df x pts beta EFlat).
Proof.
  intros beta x pts N Hb Hn H HL HR eps He.
  pose proof (C49_convolve_range beta x pts N Hb Hn H) as I. pose proof (pl_le pts N H Hn) as Hle.
  unfold convolve_df in I |- *. set (S := seg_sum _ pts) in *.
  destruct (p_first pts) as [e0 y0]. destruct (p_last pts) as [e1 y1]. cbn [fst snd] in *.
  set (K := Rabs y0 + Rabs y1 + 1). assert (HK : 0 < K) by (unfold K; pose proof (Rabs_pos y0); pose proof (Rabs_pos y1); lra).
  destruct (fermi_tail (eps / K)) as [M HM]; [apply Rdiv_lt_0_compat; lra|].
  exists (Rmax (Rmax (- e0) e1) (Rmax (M / beta - x) (M / beta + x))). intros A B HA HB.
  assert (Q : - e0 <= Rmax (Rmax (- e0) e1) (Rmax (M / beta - x) (M / beta + x)) /\ e1 <= Rmax (Rmax (- e0) e1) (Rmax (M / beta - x) (M / beta + x))
    /\ M / beta - x <= Rmax (Rmax (- e0) e1) (Rmax (M / beta - x) (M / beta + x)) /\ M / beta + x <= Rmax (Rmax (- e0) e1) (Rmax (M / beta - x) (M / beta + x))).
  { pose proof (Rmax_l (- e0) e1). pose proof (Rmax_r (- e0) e1). pose proof (Rmax_l (M / beta - x) (M / beta + x)). pose proof (Rmax_r (M / beta - x) (M / beta + x)).
    pose proof (Rmax_l (Rmax (- e0) e1) (Rmax (M / beta - x) (M / beta + x))). pose proof (Rmax_r (Rmax (- e0) e1) (Rmax (M / beta - x) (M / beta + x))).
    repeat split; lra. }
  set (mm := Rmax (Rmax _ _) _) in *. destruct Q as (Q1 & Q2 & Q3 & Q4). clearbody mm.
  exists (y0 * (cv_f beta (x - e0) - cv_f beta (x - A)) + S + y1 * (cv_f beta (x - B) - cv_f beta (x - e1))). split.
  - apply (is_RInt_Chasles (V:=R_NormedModule) _ A e1).
    + apply (is_RInt_Chasles (V:=R_NormedModule) _ A e0); [|exact I].
      eapply is_RInt_ext; [|apply (const_int beta x A e0 y0); lra]. intros e Hx. rewrite Rmin_left, Rmax_right in Hx by lra. cbv beta. rewrite HL by lra. reflexivity.
    + eapply is_RInt_ext; [|apply (const_int beta x e1 B y1); lra]. intros e Hx. rewrite Rmin_left, Rmax_right in Hx by lra. cbv beta. rewrite HR by lra. reflexivity.
  - rewrite !cv_f_fermi.
    replace (beta * (e1 - x)) with (- (beta * (x - e1))) by ring. rewrite fermi_opp.
    replace (fermi (beta * (x - B))) with (1 - fermi (beta * (B - x))) by (rewrite <- fermi_opp; f_equal; ring).
    set (u := fermi (beta * (x - A))). set (v := fermi (beta * (B - x))).
    assert (Hu : 0 < u < eps / K).
    { split; [apply fermi_range|]. apply HM. apply Rmult_lt_reg_r with (/ beta); [apply Rinv_0_lt_compat; auto|]. change (M * / beta) with (M / beta). replace (beta * (x - A) * / beta) with (x - A) by (field; lra). lra. }
    assert (Hv : 0 < v < eps / K).
    { split; [apply fermi_range|]. apply HM. apply Rmult_lt_reg_r with (/ beta); [apply Rinv_0_lt_compat; auto|]. change (M * / beta) with (M / beta). replace (beta * (B - x) * / beta) with (B - x) by (field; lra). lra. }
    match goal with |- Rabs ?t < _ => replace t with (- (y0 * u) - y1 * v) by ring end.
    apply Rle_lt_trans with (Rabs y0 * u + Rabs y1 * v).
    + replace (- (y0 * u) - y1 * v) with (- (y0 * u + y1 * v)) by ring. rewrite Rabs_Ropp. eapply Rle_trans; [apply Rabs_triang|].
      rewrite !Rabs_mult, (Rabs_right u), (Rabs_right v) by lra. lra.
    + assert (EK : K * (eps / K) = eps) by (field; lra). set (q := eps / K) in *.
      assert (Rabs y0 * u <= Rabs y0 * q) by (apply Rmult_le_compat_l; [apply Rabs_pos|lra]).
      assert (Rabs y1 * v <= Rabs y1 * q) by (apply Rmult_le_compat_l; [apply Rabs_pos|lra]).
      unfold K in EK. nra.
Qed.
Print Assumptions C49_convolve_flat.
(** hypotheses met: a ramp from 0 to 1 *)
Definition ramp (e : R) : R := Rmin 1 (Rmax 0 e).
Example C49_convolve_example : is_improper (fun e => ramp e * wb 2 (3 - e)) (convolve_df 3 [(0, 0); (1, 1)] 2 EFlat).
Proof.
  apply C49_convolve_flat; [lra|discriminate| | |].
  - cbn [piecewise_linear]. split; [lra|]. split; auto. intros e He. unfold ramp. rewrite Rmax_right, Rmin_right by lra. field.
  - intros e He. unfold p_first in *. cbn in *. unfold ramp. rewrite Rmax_left, Rmin_right by lra. reflexivity.
  - intros e He. unfold p_last in *. cbn in *. unfold ramp. rewrite Rmin_left; auto. apply Rle_trans with e; auto. apply Rmax_r.
Qed.

(** bounds: the result lies between the smallest and the largest value *)
Fixpoint ascending (pts : list (R * R)) : Prop :=
  match pts with p :: ((q :: _) as r) => fst p < fst q /\ ascending r | _ => True end.
Lemma seg_nonneg : forall beta x x0 x1 y0 y1, 0 < beta -> x0 < x1 -> 0 <= y0 -> 0 <= y1 -> 0 <= cv_segment beta x x0 x1 y0 y1.
Proof.
  intros beta x x0 x1 y0 y1 Hb Hx H0 H1.
  apply (is_RInt_le (fun _ => 0) (fun e => (y0 + (y1 - y0) * ((e - x0) / (x1 - x0))) * wb beta (x - e)) x0 x1); [lra|apply int_c; ring|apply segment_int; lra|].
  intros e He. apply Rmult_le_pos; [|apply Rlt_le, wb_pos; auto].
  assert (0 <= (e - x0) / (x1 - x0) <= 1).
  { split; [apply Rdiv_le_0_compat; lra|]. apply Rmult_le_reg_r with (x1 - x0); [lra|]. replace ((e - x0) / (x1 - x0) * (x1 - x0)) with (e - x0) by (field; lra). lra. }
  set (t := (e - x0) / (x1 - x0)) in *. replace (y0 + (y1 - y0) * t) with ((1 - t) * y0 + t * y1) by ring.
  assert (0 <= (1 - t) * y0) by (apply Rmult_le_pos; lra). assert (0 <= t * y1) by (apply Rmult_le_pos; lra). lra.
Qed.
Definition shift (c : R) (p : R * R) : R * R := (fst p, snd p + c).
Definition negy (p : R * R) : R * R := (fst p, - snd p).
Lemma nth0_map : forall (f : R * R -> R * R) l, l <> [] -> nth 0 (map f l) (0, 0) = f (nth 0 l (0, 0)).
Proof. intros f [|a l] H; [congruence|reflexivity]. Qed.
Lemma last_map : forall (f : R * R -> R * R) l, l <> [] -> last (map f l) (0, 0) = f (last l (0, 0)).
Proof.
  induction l as [|a [|b l] IH]; intros H; [congruence|reflexivity|]. specialize (IH ltac:(discriminate)).
  cbn [map last] in *. exact IH.
Qed.
Lemma conv_shift : forall beta x pts c, ascending pts -> pts <> [] ->
  convolve_df x (map (shift c) pts) beta EFlat = convolve_df x pts beta EFlat + c.
Proof.
  intros beta x pts c Ha Hn. unfold convolve_df, p_first, p_last. rewrite nth0_map, last_map by auto. cbn [shift fst snd].
  assert (T : seg_sum (cv_segment beta x) (map (shift c) pts) = seg_sum (cv_segment beta x) pts
     + c * (cv_f beta (x - fst (last pts (0,0))) - cv_f beta (x - fst (nth 0 pts (0,0))))).
  { clear Hn. induction pts as [|p [|q r] IH]; [simpl; ring|simpl; ring|].
    destruct Ha as [H1 H2]. specialize (IH H2). cbn [map seg_sum] in IH |- *. rewrite IH. cbn [shift fst snd nth].
    change (last (p :: q :: r) (0, 0)) with (last (q :: r) (0, 0)).
    assert (Z : cv_segment beta x (fst p) (fst q) (snd p + c) (snd q + c) = cv_segment beta x (fst p) (fst q) (snd p) (snd q)
      + c * (cv_f beta (x - fst q) - cv_f beta (x - fst p))).
    { unfold cv_segment. replace (snd q + c - (snd p + c)) with (snd q - snd p) by ring. ring. }
    rewrite Z. ring. }
  rewrite T. set (e0 := nth 0 pts (0,0)). set (e1 := last pts (0,0)).
  replace (cv_f beta (fst e1 - x)) with (1 - cv_f beta (x - fst e1)).
  - ring.
  - rewrite !cv_f_fermi, <- fermi_opp. f_equal. ring.
Qed.
Lemma conv_neg : forall beta x pts, pts <> [] -> convolve_df x (map negy pts) beta EFlat = - convolve_df x pts beta EFlat.
Proof.
  intros beta x pts Hn. unfold convolve_df, p_first, p_last. rewrite nth0_map, last_map by auto. cbn [negy fst snd].
  assert (T : seg_sum (cv_segment beta x) (map negy pts) = - seg_sum (cv_segment beta x) pts).
  { clear Hn. induction pts as [|p [|q r] IH]; [simpl; ring|simpl; ring|].
    cbn [map seg_sum] in IH |- *. rewrite IH. cbn [negy fst snd].
    assert (Z : cv_segment beta x (fst p) (fst q) (- snd p) (- snd q) = - cv_segment beta x (fst p) (fst q) (snd p) (snd q))
      by (unfold cv_segment, Rdiv; ring).
    rewrite Z. ring. }
  rewrite T. ring.
Qed.
Lemma conv_nonneg : forall beta x pts, 0 < beta -> ascending pts -> pts <> [] -> (forall p, In p pts -> 0 <= snd p) ->
  0 <= convolve_df x pts beta EFlat.
Proof.
  intros beta x pts Hb Ha Hn Hp. unfold convolve_df.
  assert (F : forall t, 0 <= cv_f beta t) by (intros; rewrite cv_f_fermi; apply Rlt_le, fermi_range).
  assert (S : 0 <= seg_sum (cv_segment beta x) pts).
  { clear Hn. induction pts as [|p [|q r] IH]; [simpl; lra|simpl; lra|]. destruct Ha as [H1 H2]. cbn [seg_sum] in IH |- *.
    assert (0 <= cv_segment beta x (fst p) (fst q) (snd p) (snd q)) by (apply seg_nonneg; auto; apply Hp; simpl; auto).
    specialize (IH H2 (fun p H => Hp p (or_intror H))). lra. }
  assert (P0 : 0 <= snd (p_first pts)) by (apply Hp; unfold p_first; apply nth_In; destruct pts; [congruence|simpl; lia]).
  assert (P1 : 0 <= snd (p_last pts)).
  { apply Hp. unfold p_last. clear - Hn. induction pts as [|p [|q r] IH]; [congruence|simpl; auto|]. right. apply IH. discriminate. }
  pose proof (Rmult_le_pos _ _ (F (x - fst (p_first pts))) P0). pose proof (Rmult_le_pos _ _ (F (fst (p_last pts) - x)) P1). lra.
Qed.
Theorem C49_convolve_bounds : forall beta x pts lo hi, 0 < beta -> ascending pts -> pts <> [] ->
  (forall p, In p pts -> lo <= snd p <= hi) -> lo <= convolve_df x pts beta EFlat <= hi.
Proof.
  intros beta x pts lo hi Hb Ha Hn Hp.
  assert (A : forall (f : R * R -> R * R) l, (forall p, fst (f p) = fst p) -> ascending l -> ascending (map f l)).
  { intros f l Hf. induction l as [|p [|q r] IH]; simpl; auto. intros [H1 H2]. split; [rewrite !Hf; exact H1|exact (IH H2)]. }
  assert (N : forall (f : R * R -> R * R) l, l <> [] -> map f l <> []) by (intros f [|]; simpl; congruence).
  split.
  - pose proof (conv_nonneg beta x (map (shift (- lo)) pts) Hb (A (shift (- lo)) pts (fun _ => eq_refl) Ha) (N _ _ Hn)) as C. rewrite conv_shift in C by auto.
    cut (0 <= convolve_df x pts beta EFlat + - lo); [lra|]. apply C. intros p Hi. apply in_map_iff in Hi. destruct Hi as (q & <- & Hq).
    specialize (Hp q Hq). cbn [shift snd]. lra.
  - pose proof (conv_nonneg beta x (map (shift hi) (map negy pts)) Hb (A (shift hi) (map negy pts) (fun _ => eq_refl) (A negy pts (fun _ => eq_refl) Ha)) (N _ _ (N _ _ Hn))) as C.
    rewrite conv_shift in C; [|apply A; auto|apply N; auto]. rewrite conv_neg in C by auto.
    cut (0 <= - convolve_df x pts beta EFlat + hi); [lra|]. apply C. intros p Hi. apply in_map_iff in Hi. destruct Hi as (q & <- & Hq).
    apply in_map_iff in Hq. destruct Hq as (r & <- & Hr). specialize (Hp r Hr). cbn [shift negy snd]. lra.
Qed.
Print Assumptions C49_convolve_bounds.
Example C49_bounds_example : 0 <= convolve_df 3 [(0, 0); (1, 1); (2, 1/2)] 2 EFlat <= 1.
Proof.
  apply C49_convolve_bounds; [lra|simpl; lra|discriminate|]. intros p [<-|[<-|[<-|[]]]]; simpl; lra.
Qed.

(** ** C66 *)
Lemma seg_derive : forall beta x0 x1 y0 y1 x, beta <> 0 -> is_derive (fun x => cv_segment beta x x0 x1 y0 y1) x (cv_dsegment beta x x0 x1 y0 y1).
Proof.
  intros beta x0 x1 y0 y1 x Hb. unfold cv_segment, cv_dsegment. rewrite !cv_df_wb. set (s := (y1 - y0) / (x1 - x0)).
  assert (Df : forall a, is_derive (fun x => cv_f beta (x - a)) x (- wb beta (x - a))).
  { intros a. replace (- wb beta (x - a)) with (scal 1 (- wb beta (x - a))) by (unfold scal; simpl; unfold mult; simpl; ring).
    apply (is_derive_comp (cv_f beta) (fun x => x - a)); [apply cv_f_derive|]. auto_derive; auto; ring. }
  assert (DF : forall a, is_derive (fun x => cv_F beta (x - a)) x (cv_f beta (x - a))).
  { intros a. replace (cv_f beta (x - a)) with (scal 1 (cv_f beta (x - a))) by (unfold scal; simpl; unfold mult; simpl; ring).
    apply (is_derive_comp (cv_F beta) (fun x => x - a)); [apply cv_F_derive; auto|]. auto_derive; auto; ring. }
  apply (is_derive_plus (V:=R_NormedModule) (fun x => y1 * cv_f beta (x - x1) - y0 * cv_f beta (x - x0)) (fun x => s * (cv_F beta (x - x1) - cv_F beta (x - x0)))).
  - apply (is_derive_minus (V:=R_NormedModule) (fun x => y1 * cv_f beta (x - x1)) (fun x => y0 * cv_f beta (x - x0))).
    + apply (is_derive_scal (fun x => cv_f beta (x - x1))); auto.
    + apply (is_derive_scal (fun x => cv_f beta (x - x0))); auto.
  - apply (is_derive_scal (fun x => cv_F beta (x - x1) - cv_F beta (x - x0))).
    apply (is_derive_minus (V:=R_NormedModule) (fun x => cv_F beta (x - x1)) (fun x => cv_F beta (x - x0))); auto.
Qed.
(** without extrapolation convolve_ddf is the derivative of convolve_df *)
Theorem C66_none_partial : forall beta pts x, beta <> 0 ->
  is_derive (fun x => convolve_df x pts beta ENone) x (convolve_ddf x pts beta ENone).
Proof.
  intros beta pts x Hb. unfold convolve_df, convolve_ddf.
  induction pts as [|p [|q r] IH]; cbn [seg_sum] in *.
  - exact (is_derive_const (V:=R_NormedModule) 0 x).
  - exact (is_derive_const (V:=R_NormedModule) 0 x).
  - apply (is_derive_plus (V:=R_NormedModule) (fun x => cv_segment beta x (fst p) (fst q) (snd p) (snd q))); auto. apply seg_derive; auto.
Qed.
Print Assumptions C66_none_partial.
(** With flat extrapolation the true derivative has the opposite sign at the upper end. *)
Lemma conv_flat_derive : forall beta pts x, beta <> 0 ->
  is_derive (fun x => convolve_df x pts beta EFlat) x
    (convolve_ddf x pts beta ENone + cv_df beta (x - fst (p_first pts)) * snd (p_first pts) - cv_df beta (fst (p_last pts) - x) * snd (p_last pts)).
Proof.
  intros beta pts x Hb. rewrite !cv_df_wb.
  destruct (p_first pts) as [e0 y0] eqn:E0. destruct (p_last pts) as [e1 y1] eqn:E1. cbn [fst snd].
  apply is_derive_ext with (fun x => convolve_df x pts beta ENone + cv_f beta (x - e0) * y0 + cv_f beta (e1 - x) * y1).
  { intros t. unfold convolve_df. rewrite E0, E1. reflexivity. }
  apply (is_derive_plus (V:=R_NormedModule) (fun x => convolve_df x pts beta ENone + cv_f beta (x - e0) * y0) (fun x => cv_f beta (e1 - x) * y1)).
  - apply (is_derive_plus (V:=R_NormedModule) (fun x => convolve_df x pts beta ENone) (fun x => cv_f beta (x - e0) * y0)); [apply C66_none_partial; auto|].
    apply is_derive_ext with (fun x => y0 * cv_f beta (x - e0)); [intros; apply Rmult_comm|].
    replace (- wb beta (x - e0) * y0) with (y0 * (1 * - wb beta (x - e0))) by ring.
    apply (is_derive_scal (fun x => cv_f beta (x - e0))).
    apply (is_derive_comp (cv_f beta) (fun x => x - e0)); [apply cv_f_derive|]. auto_derive; auto; ring.
  - apply is_derive_ext with (fun x => y1 * cv_f beta (e1 - x)); [intros; apply Rmult_comm|].
    change (is_derive (fun x => y1 * cv_f beta (e1 - x)) x (- (- wb beta (e1 - x) * y1))).
    replace (- (- wb beta (e1 - x) * y1)) with (y1 * (-1 * - wb beta (e1 - x))) by ring.
    apply (is_derive_scal (fun x => cv_f beta (e1 - x))).
    apply (is_derive_comp (cv_f beta) (fun x => e1 - x)); [apply cv_f_derive|]. auto_derive; auto; ring.
Qed.
(** A constant number of states: the convolution is constant, but convolve_ddf returns a negative number. *)
Theorem C66_flat_refuted : exists beta pts, 0 < beta /\ ascending pts /\ pts <> [] /\
  (forall x, is_derive (fun x => convolve_df x pts beta EFlat) x 0) /\ forall x, convolve_ddf x pts beta EFlat < 0.
Proof.
  exists 1, [(0, 1); (1, 1)]. split; [lra|]. split; [simpl; lra|]. split; [discriminate|].
  assert (V : forall x, convolve_ddf x [(0, 1); (1, 1)] 1 EFlat = - 2 * wb 1 (x - 1)).
  { intros x. unfold convolve_ddf, p_first, p_last, cv_dsegment. cbn [seg_sum nth last fst snd]. rewrite !cv_df_wb.
    replace (1 - x) with (- (x - 1)) by ring. rewrite wb_even. field. }
  split.
  - intros x. apply is_derive_ext with (fun _ => 1).
    + intros t. pose proof (conv_shift 1 t [(0, 0); (1, 0)] 1 ltac:(simpl; lra) ltac:(discriminate)) as C.
      unfold shift in C. cbn [map fst snd] in C. replace (0 + 1) with 1 in C by ring.
      change (1 = convolve_df t [(0, 1); (1, 1)] 1 EFlat). rewrite C. unfold convolve_df, cv_segment, p_first, p_last. cbn [seg_sum nth last fst snd]. field.
    + exact (is_derive_const (V:=R_NormedModule) 1 x).
  - intros x. rewrite V. pose proof (wb_pos 1 (x - 1) ltac:(lra)). lra.
Qed.
Print Assumptions C66_flat_refuted.
(** the smoothed number of states does not decrease when the states do not *)
Fixpoint nondecreasing (pts : list (R * R)) : Prop :=
  match pts with p :: ((q :: _) as r) => snd p <= snd q /\ nondecreasing r | _ => True end.
Theorem C66_monotone : forall beta pts x x', 0 < beta -> ascending pts -> nondecreasing pts -> pts <> [] -> x <= x' ->
  convolve_df x pts beta EFlat <= convolve_df x' pts beta EFlat.
Proof.
  intros beta pts x x' Hb Ha Hd Hn Hx. destruct (Req_dec x x') as [->|Ne]; [lra|].
  assert (D : forall t, exists d, is_derive (fun x => convolve_df x pts beta EFlat) t d /\ 0 <= d).
  { intros t. eexists. split; [apply conv_flat_derive; lra|]. rewrite !cv_df_wb.
    assert (G : forall l, ascending l -> nondecreasing l -> l <> [] ->
       0 <= seg_sum (cv_dsegment beta t) l + wb beta (t - fst (last l (0,0))) * snd (last l (0,0)) - wb beta (t - fst (nth 0 l (0,0))) * snd (nth 0 l (0,0))).
    { induction l as [|p [|q r] IH]; intros A M N; [congruence|simpl; lra|]. destruct A as [A1 A2]. destruct M as [M1 M2].
      specialize (IH A2 M2 ltac:(discriminate)). cbn [seg_sum nth] in *. change (last (p :: q :: r) (0, 0)) with (last (q :: r) (0, 0)).
      unfold cv_dsegment at 1. rewrite !cv_df_wb.
      assert (0 <= (snd q - snd p) / (fst q - fst p) * (cv_f beta (t - fst q) - cv_f beta (t - fst p))).
      { apply Rmult_le_pos; [apply Rdiv_le_0_compat; lra|]. rewrite !cv_f_fermi.
        assert (fermi (beta * (t - fst p)) < fermi (beta * (t - fst q))) by (apply fermi_decr, Rmult_lt_compat_l; lra). lra. }
      lra. }
    specialize (G pts Ha Hd Hn). unfold convolve_ddf, p_first, p_last.
    replace (wb beta (fst (last pts (0, 0)) - t)) with (wb beta (t - fst (last pts (0, 0)))) by (rewrite <- wb_even; f_equal; ring). lra. }
  destruct (MVT_gen (fun x => convolve_df x pts beta EFlat) x x' (fun t => convolve_ddf t pts beta ENone + cv_df beta (t - fst (p_first pts)) * snd (p_first pts) - cv_df beta (fst (p_last pts) - t) * snd (p_last pts))) as (c & _ & E).
  - intros t _. apply conv_flat_derive; lra.
  - intros t _. apply continuity_pt_filterlim. apply (ex_derive_continuous (V:=R_NormedModule) (fun x => convolve_df x pts beta EFlat)).
    destruct (D t) as (d & H & _). exists d. exact H.
  - destruct (D c) as (d & H1 & H2). pose proof (conv_flat_derive beta pts c ltac:(lra)) as H3.
    apply is_derive_unique in H1. apply is_derive_unique in H3. rewrite H1 in H3. rewrite <- H3 in E.
    assert (0 <= d * (x' - x)) by (apply Rmult_le_pos; lra). lra.
Qed.
Print Assumptions C66_monotone.
Example C66_example : convolve_df 0 [(0, 0); (1, 1); (2, 5)] 2 EFlat <= convolve_df 1 [(0, 0); (1, 1); (2, 5)] 2 EFlat.
Proof. apply C66_monotone; simpl; try lra; discriminate. Qed.

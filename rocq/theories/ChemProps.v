(** Properties C140 (chemical potentials of a list of temperatures), C141 (seebeck), C142 (k_resolved_density). *)
From Coq Require Import Reals Lra Lia Psatz List Bool Arith Sorted.
From Coquelicot Require Import Coquelicot.
From Verif Require Import NbrModel SmearModel SmearCalc DosModel DosProps Basel FermiInt FermiConv FermiMoments DosEnergy ChemModel.
Import List ListNotations.
Local Open Scope R_scope.

Lemma kB_pos : 0 < k_B.
Proof. unfold k_B. apply Rdiv_lt_0_compat; [lra|apply pow_lt; lra]. Qed.
Lemma Rleb_f : forall x y, y < x -> Rleb x y = false.
Proof. intros x y H. unfold Rleb. destruct Rle_dec; [lra|reflexivity]. Qed.

(** ** C140: no exception for ascending temperatures *)
Lemma loop_ok : forall d el ef tol N steps Ts beta smpl, Sorted Rle Ts ->
  (smpl <> None \/ beta = - 10000 \/ Forall (fun T => T_lin (fst (energy_range d)) (snd (energy_range d)) ef <= T) Ts) ->
  exists l, chem_loop d el ef tol N steps beta smpl Ts = Some l /\ length l = length Ts /\
    forall i, (i < length Ts)%nat -> nth i Ts 0 <= 0 -> nth i l None = Some (ef, true).
Proof.
  induction Ts as [|T r IH]; intros beta smpl HS HI; cbn [chem_loop].
  - destruct (energy_range d). exists []. repeat split; cbn; intros; lia.
  - destruct (energy_range d) as [e0 e1]. cbn [fst snd] in *. apply Sorted_inv in HS. destruct HS as [HS HH].
    assert (IH' : forall beta smpl v, (smpl <> None \/ beta = - 10000 \/ Forall (fun T => T_lin e0 e1 ef <= T) r) -> (T <= 0 -> v = Some (ef, true)) ->
      exists l, option_map (cons v) (chem_loop d el ef tol N steps beta smpl r) = Some l /\ length l = length (T :: r) /\
        forall i, (i < length (T :: r))%nat -> nth i (T :: r) 0 <= 0 -> nth i l None = Some (ef, true)).
    { intros b s v HI' HV. destruct (IH b s HS HI') as (l & E & L & P). exists (v :: l). rewrite E. split; [reflexivity|]. split; [cbn [length]; f_equal; exact L|].
      intros [|i] Hi HT; [exact (HV HT)|]. apply P; cbn in *; [lia|exact HT]. }
    unfold Rleb at 1. destruct (Rle_dec T 0) as [T0|T0].
    { apply IH'; [|intros; reflexivity]. destruct HI as [H|[H|H]]; auto. right. right. inversion H; assumption. }
    unfold Rleb at 1. destruct (Rle_dec (T_lin e0 e1 ef) T) as [TL|TL].
    { apply IH'; [|intros; lra]. right. right. apply Forall_forall. intros x Hx.
      assert (ST : StronglySorted Rle (T :: r)) by (apply Sorted_StronglySorted; [intros x1 y1 z1; apply Rle_trans|constructor; assumption]).
      apply StronglySorted_inv in ST. destruct ST as [_ F]. rewrite Forall_forall in F. specialize (F x Hx). lra. }
    set (nb := 1 / (k_B * T)). set (s' := if Rltb _ _ then _ else _).
    assert (NN : s' <> None).
    { unfold s', Rltb. destruct (Rlt_dec (5 / 100) (Rabs (beta - nb) / nb)) as [D|D]; [discriminate|].
      destruct HI as [H|[H|H]]; [exact H| |inversion H; subst; lra]. exfalso. apply D. subst beta.
      assert (P : 0 < nb) by (unfold nb; pose proof kB_pos; apply Rdiv_lt_0_compat; [lra|apply Rmult_lt_0_compat; lra]).
      apply Rmult_lt_reg_r with nb; [exact P|]. unfold Rdiv at 2. rewrite Rmult_assoc, Rinv_l, Rmult_1_r by lra. rewrite Rabs_left by lra. lra. }
    destruct s' as [s|]; [|congruence]. apply IH'; [left; discriminate|intros; lra].
Qed.
(** a value for every temperature, the Fermi energy at T <= 0 *)
Theorem C140_ascending : forall d el Ts N tol steps ef, fermi_energy el d tol steps = Ok ef -> Ts <> [] -> Sorted Rle Ts ->
  exists l, chemical_potential d el Ts N tol steps = CVals l /\ length l = length Ts /\
    forall i, (i < length Ts)%nat -> nth i Ts 0 <= 0 -> nth i l None = Some (ef, true).
Proof.
  intros d el Ts N tol steps ef HF HN HS. unfold chemical_potential. rewrite HF. destruct Ts as [|T r]; [congruence|].
  destruct (loop_ok d el ef tol N steps (T :: r) (- 10000) None HS) as (l & E & H); [right; left; reflexivity|]. rewrite E. exists l. split; [reflexivity|exact H].
Qed.
Print Assumptions C140_ascending.
(** the temperatures have to be sorted in ascending order: descending ones end in an UnboundLocalError *)
Theorem C140_descending_refuted : forall d el N tol steps ef, fermi_energy el d tol steps = Ok ef ->
  let TL := T_lin (fst (energy_range d)) (snd (energy_range d)) ef in 0 < TL ->
  Sorted Rge [TL; 99 / 100 * TL] /\ chemical_potential d el [TL; 99 / 100 * TL] N tol steps = CUnbound.
Proof.
  intros d el N tol steps ef HF TL HT. split; [repeat constructor; lra|]. unfold chemical_potential. rewrite HF. cbn [chem_loop]. subst TL.
  destruct (energy_range d) as [e0 e1]. cbn [fst snd] in *. set (TL := T_lin e0 e1 ef) in *.
  rewrite (Rleb_f TL 0), (Rleb_t TL TL), (Rleb_f (99 / 100 * TL) 0), (Rleb_f TL (99 / 100 * TL)) by lra.
  rewrite Rltb_f; [reflexivity|]. pose proof kB_pos.
  replace (Rabs (1 / (k_B * TL) - 1 / (k_B * (99 / 100 * TL))) / (1 / (k_B * (99 / 100 * TL)))) with (1 / 100); [lra|].
  rewrite Rabs_left.
  - field. lra.
  - replace (1 / (k_B * TL) - 1 / (k_B * (99 / 100 * TL))) with (- (1 / 99) * / (k_B * TL)) by (field; lra).
    assert (0 < / (k_B * TL)) by (apply Rinv_0_lt_compat, Rmult_lt_0_compat; lra). lra.
Qed.
Print Assumptions C140_descending_refuted.

(** ** C140: one temperature *)
(** Specification: linear interpolation of the samples, constant outside *)
Fixpoint interp (pts : list (R * R)) (e : R) : R :=
  match pts with
  | [] => 0
  | (x0, y0) :: rest =>
      match rest with
      | [] => y0
      | (x1, y1) :: _ => if Rle_dec e x0 then y0 else if Rle_dec e x1 then y0 + (y1 - y0) * ((e - x0) / (x1 - x0)) else interp rest e
      end
  end.
Lemma interp_first : forall pts e, pts <> [] -> e <= fst (p_first pts) -> interp pts e = snd (p_first pts).
Proof.
  intros [|[x0 y0] [|[x1 y1] r]] e HN H; [congruence|reflexivity|]. unfold p_first in *. cbn [nth fst snd] in *.
  cbn [interp]. destruct (Rle_dec e x0); [reflexivity|lra].
Qed.
Lemma pl_ext : forall pts N M, piecewise_linear pts N -> (forall e, fst (p_first pts) <= e -> N e = M e) -> piecewise_linear pts M.
Proof.
  induction pts as [|[x0 y0] [|[x1 y1] r] IH]; intros N M H HE; [exact I|exact I|]. destruct H as (H1 & H2 & H3). unfold p_first in HE. cbn [nth fst] in HE.
  split; [exact H1|]. split; [intros e He; rewrite <- HE by lra; apply H2; exact He|]. apply (IH N); [exact H3|]. intros e He. apply HE.
  unfold p_first in He. cbn [nth fst] in He. lra.
Qed.
Lemma interp_step : forall x0 y0 x1 y1 r e, x0 < x1 -> x1 <= e -> interp ((x0, y0) :: (x1, y1) :: r) e = interp ((x1, y1) :: r) e.
Proof.
  intros x0 y0 x1 y1 r e H He. change (interp ((x0, y0) :: (x1, y1) :: r) e) with
    (if Rle_dec e x0 then y0 else if Rle_dec e x1 then y0 + (y1 - y0) * ((e - x0) / (x1 - x0)) else interp ((x1, y1) :: r) e).
  destruct (Rle_dec e x0); [lra|]. destruct (Rle_dec e x1) as [L|L]; [|reflexivity].
  assert (E : e = x1) by lra. subst e. rewrite (interp_first ((x1, y1) :: r)) by (try discriminate; unfold p_first; cbn; lra). unfold p_first. cbn. field. lra.
Qed.
Lemma interp_pl : forall pts, ascending pts -> piecewise_linear pts (interp pts).
Proof.
  induction pts as [|[x0 y0] [|[x1 y1] r] IH]; intros H; [exact I|exact I|]. destruct H as (H1 & H2). cbn [fst] in H1. split; [exact H1|]. split.
  - intros e He. cbn [interp]. destruct (Rle_dec e x0) as [L|L].
    + replace e with x0 by lra. replace (x0 - x0) with 0 by ring. unfold Rdiv. ring.
    + destruct (Rle_dec e x1); [reflexivity|lra].
  - apply (pl_ext _ (interp ((x1, y1) :: r))); [apply IH; exact H2|]. intros e He. symmetry. apply interp_step; [exact H1|]. unfold p_first in He. cbn in He. exact He.
Qed.
Lemma interp_last : forall pts e, ascending pts -> pts <> [] -> fst (p_last pts) <= e -> interp pts e = snd (p_last pts).
Proof.
  induction pts as [|[x0 y0] [|[x1 y1] r] IH]; intros e H HN He; [congruence|reflexivity|]. destruct H as (H1 & H2). cbn [fst] in H1.
  unfold p_last in *. change (last ((x0, y0) :: (x1, y1) :: r) (0, 0)) with (last ((x1, y1) :: r) (0, 0)) in *.
  pose proof (pl_le _ _ (interp_pl _ H2)) as L. specialize (L ltac:(discriminate)). unfold p_first, p_last in L. cbn [nth fst] in L.
  rewrite interp_step by lra. apply IH; [exact H2|discriminate|exact He].
Qed.
(** the number of electrons at the chemical potential x *)
Lemma conv_interp : forall beta x pts, 0 < beta -> ascending pts -> pts <> [] -> is_improper (fun e => interp pts e * wb beta (x - e)) (convolve_df x pts beta EFlat).
Proof.
  intros beta x pts Hb Ha Hn. apply C49_convolve_flat; [exact Hb|exact Hn|apply interp_pl; exact Ha|intros; apply interp_first; assumption|intros; apply interp_last; assumption].
Qed.
Lemma asc_states : forall d es, strictly_increasing es -> ascending (with_states d es).
Proof.
  intros d. induction es as [|a [|b r] IH]; intro H; [exact I|exact I|]. split; [exact (H 0%nat 1%nat ltac:(cbn; lia))|].
  apply IH. intros i j Hij. exact (H (S i) (S j) ltac:(cbn in *; lia)).
Qed.
Lemma last_states : forall d es, es <> [] -> p_last (with_states d es) = (last es 0, states_below (last es 0) d).
Proof.
  intros d. induction es as [|a [|b r] IH]; intro H; [congruence|reflexivity|]. unfold p_last, with_states in *.
  change (last (map (fun e => (e, states_below e d)) (b :: r)) (0, 0) = (last (b :: r) 0, states_below (last (b :: r) 0) d)). apply IH. discriminate.
Qed.
Lemma fermi_exp : forall x, fermi x <= exp (- x).
Proof.
  intro x. unfold fermi. rewrite exp_Ropp. pose proof (exp_pos x). unfold Rdiv. rewrite Rmult_1_l. apply Rinv_le_contravar; lra.
Qed.
(** for one temperature the secant method solves, up to the tails of the Fermi function, the exact equation for the interpolated number of states *)
Theorem C140_single : forall d el T N tol steps ef, Forall good_band d -> sorted_ranges d -> b_lo (nth 0 d no_band) < b_hi (nth 0 d no_band) ->
  fermi_energy el d tol steps = Ok ef -> (4 <= N)%nat -> fst (energy_range d) < ef < snd (energy_range d) ->
  0 < T < T_lin (fst (energy_range d)) (snd (energy_range d)) ef ->
  exists g es, chemical_potential d el [T] N tol steps = CVals [secant el g ef (ef + k_B * T) tol steps] /\
    length es = N /\ strictly_increasing es /\ In ef es /\
    forall x, Rabs (x - ef) <= 60 * (k_B * T) ->
      exists v, is_improper (fun e => interp (map (fun e => (e, states_below e d)) es) e * wb (/ (k_B * T)) (x - e)) v /\
        Rabs (g x - v) <= 2 * INR (length d) * exp (- 60).
Proof.
  intros d el T N tol steps ef HG HSr HW HF HN HE HT. pose proof kB_pos as KB.
  assert (DN : d <> []) by (intros ->; cbn in HW; lra).
  assert (Bk : forall b, In b d -> fst (energy_range d) < b_hi b /\ b_hi b <= snd (energy_range d) /\ fst (energy_range d) <= b_lo b).
  { intros b Hb. apply (In_nth _ _ no_band) in Hb. destruct Hb as (i & Hi & <-). unfold energy_range. cbn [fst snd].
    assert (LA : last d no_band = nth (length d - 1) d no_band).
    { clear - DN. induction d as [|a [|b r] IH]; [congruence|reflexivity|]. change (last (a :: b :: r) no_band) with (last (b :: r) no_band).
      rewrite IH by discriminate. cbn [length]. replace (S (S (length r)) - 1)%nat with (S (S (length r) - 1)) by lia. reflexivity. }
    rewrite LA. split; [|split].
    - destruct i as [|i]; [lra|]. destruct (HSr 0%nat (S i) ltac:(lia)). lra.
    - destruct (Nat.eq_dec i (length d - 1)) as [->|Ne]; [lra|]. destruct (HSr i (length d - 1)%nat ltac:(lia)). lra.
    - destruct i as [|i]; [lra|]. destruct (HSr 0%nat (S i) ltac:(lia)). lra. }
  destruct (energy_range d) as [e0 e1] eqn:ER. cbn [fst snd] in *.
  set (beta := / (k_B * T)). assert (KT : 0 < k_B * T) by (apply Rmult_lt_0_compat; lra). assert (PB : 0 < beta) by (apply Rinv_0_lt_compat; exact KT).
  set (es := e_samples e0 e1 ef (1 / 4 / (k_B * T)) N).
  assert (Hb4 : 0 < 1 / 4 / (k_B * T)) by (apply Rdiv_lt_0_compat; lra).
  destruct (C69_samples e0 e1 ef (1 / 4 / (k_B * T)) N Hb4 HN HE) as (L & SI & F0 & FL & FM & _). fold es in L, SI, F0, FL, FM.
  assert (EN : es <> []) by (intro Z; rewrite Z in L; cbn in L; lia).
  assert (Y0 : states_below e0 d = 0).
  { unfold states_below. rewrite (rsum_const _ 0); [ring|]. intros b Hb. destruct (Bk b Hb) as (B1 & B2 & B3). dos_cases; lra. }
  assert (Y1 : states_below e1 d = INR (length d)).
  { apply C50_extremes, Forall_forall. intros b Hb. destruct (Bk b Hb) as (B1 & B2 & B3). exact B2. }
  exists (fun x => convolve_df x (with_states d es) beta (EPoint e1 (INR (length d)))), es. split; [|split; [exact L|split; [exact SI|split]]].
  - unfold chemical_potential. rewrite HF. cbn [chem_loop]. rewrite ER. rewrite (Rleb_f T 0), (Rleb_f (T_lin e0 e1 ef) T) by lra.
    assert (NB : 1 / (k_B * T) = beta) by (unfold beta, Rdiv; ring). rewrite NB.
    rewrite Rltb_t.
    + cbn [option_map]. fold es. do 3 f_equal. unfold beta. field. lra.
    + apply Rmult_lt_reg_r with beta; [exact PB|]. unfold Rdiv at 2. rewrite Rmult_assoc, Rinv_l, Rmult_1_r by lra. rewrite Rabs_left by lra. lra.
  - rewrite <- FM. apply nth_In. rewrite L. apply Nat.div_lt; lia.
  - intros x Hx. fold (with_states d es). exists (convolve_df x (with_states d es) beta EFlat). split.
    + apply conv_interp; [exact PB|apply asc_states; exact SI|]. intro Z. apply EN. destruct es; [reflexivity|discriminate].
    + unfold convolve_df. rewrite last_states by exact EN. cbn [fst snd]. rewrite FL.
      assert (PF : p_first (with_states d es) = (nth 0 es 0, states_below (nth 0 es 0) d)) by (destruct es; [congruence|reflexivity]). rewrite PF, F0. cbn [fst snd].
      assert (NB : forall e, 0 <= states_below e d <= INR (length d)) by (intro; apply C50_bounds; exact HG).
      assert (EX : forall t, 60 * (k_B * T) <= t -> 0 <= cv_f beta t <= exp (- 60)).
      { intros t Ht. rewrite cv_f_fermi. split; [left; apply fermi_range|]. eapply Rle_trans; [apply fermi_exp|].
        destruct (Req_dec (beta * t) 60) as [->|N']; [apply Rle_refl|]. left. apply exp_increasing.
        assert (60 <= beta * t); [|lra]. replace 60 with (beta * (60 * (k_B * T))) by (unfold beta; field; lra). apply Rmult_le_compat_l; lra. }
      assert (NN := NB e0). assert (P30 : 30 / (1 / 4 / (k_B * T)) = 120 * (k_B * T)) by (field; lra). rewrite P30 in *.
      assert (Ax : - (60 * (k_B * T)) <= x - ef <= 60 * (k_B * T)) by (split; [pose proof (Rle_abs (- (x - ef))) as Q; rewrite Rabs_Ropp in Q; lra|pose proof (Rle_abs (x - ef)); lra]).
      (* the lower end *)
      assert (A : forall p q, 0 <= p <= exp (- 60) -> 0 <= q <= INR (length d) -> 0 <= p * q <= exp (- 60) * INR (length d)).
      { intros p q Hp Hq. split; [apply Rmult_le_pos; lra|apply Rmult_le_compat; lra]. }
      assert (LO : 0 <= cv_f beta (x - Rmax (ef - 120 * (k_B * T)) e0) * states_below (Rmax (ef - 120 * (k_B * T)) e0) d <= exp (- 60) * INR (length d)).
      { unfold Rmax. destruct (Rle_dec (ef - 120 * (k_B * T)) e0) as [Q|Q].
        - rewrite Y0, Rmult_0_r. split; [lra|]. apply Rmult_le_pos; [left; apply exp_pos|apply pos_INR].
        - apply A; [apply EX; lra|apply NB]. }
      assert (HI : Rabs (cv_f beta (e1 - x) * INR (length d) - cv_f beta (Rmin (ef + 120 * (k_B * T)) e1 - x) * states_below (Rmin (ef + 120 * (k_B * T)) e1) d) <= exp (- 60) * INR (length d)).
      { unfold Rmin. destruct (Rle_dec (ef + 120 * (k_B * T)) e1) as [Q|Q].
        - pose proof (A _ _ (EX (e1 - x) ltac:(lra)) (conj (pos_INR (length d)) (Rle_refl _))) as A1.
          pose proof (A _ _ (EX (ef + 120 * (k_B * T) - x) ltac:(lra)) (NB (ef + 120 * (k_B * T)))) as A2. apply Rabs_le. lra.
        - rewrite Y1. rewrite Rminus_diag_eq by reflexivity. rewrite Rabs_R0. apply Rmult_le_pos; [left; apply exp_pos|apply pos_INR]. }
      match type of HI with Rabs (?a - ?b) <= _ => set (u := a) in *; set (v := b) in * end. match type of LO with 0 <= ?w <= _ => set (w' := w) in * end.
      match goal with |- Rabs ?t <= _ => replace t with ((u - v) - w') by ring end.
      eapply Rle_trans; [apply Rabs_triang|]. rewrite Rabs_Ropp, (Rabs_right w') by lra. lra.
Qed.
Print Assumptions C140_single.
(** at high temperatures the samples are equidistant and the number of electrons is exact for them *)
Theorem C140_high : forall d el T N tol steps ef e0 e1, energy_range d = (e0, e1) -> e0 < e1 -> fermi_energy el d tol steps = Ok ef -> (2 <= N)%nat ->
  0 < T -> T_lin e0 e1 ef <= T ->
  exists g es, chemical_potential d el [T] N tol steps = CVals [secant el g ef (ef + 1 / 10) tol steps] /\
    length es = N /\ (forall i, (i < N)%nat -> nth i es 0 = e0 + INR i * ((e1 - e0) / (INR N - 1))) /\
    forall x, is_improper (fun e => interp (map (fun e => (e, states_below e d)) es) e * wb (/ (k_B * T)) (x - e)) (g x).
Proof.
  intros d el T N tol steps ef e0 e1 ER HE HF HN HT HL. pose proof kB_pos as KB.
  assert (KT : 0 < k_B * T) by (apply Rmult_lt_0_compat; lra).
  assert (NN : INR (N - 1) = INR N - 1) by (rewrite minus_INR by lia; reflexivity).
  assert (NP : 0 < INR (N - 1)) by (apply lt_0_INR; lia).
  assert (NT : forall i, (i < N)%nat -> nth i (linspace_end e0 e1 N) 0 = e0 + INR i * ((e1 - e0) / INR (N - 1))) by (intros; apply linspace_end_nth; assumption).
  exists (fun x => convolve_df x (with_states d (linspace_end e0 e1 N)) (/ (k_B * T)) EFlat), (linspace_end e0 e1 N).
  split; [|split; [apply end_len|split]].
  - unfold chemical_potential. rewrite HF. cbn [chem_loop]. rewrite ER. rewrite (Rleb_f T 0) by lra.
    assert (LB : Rleb (T_lin e0 e1 ef) T = true) by (unfold Rleb; destruct (Rle_dec (T_lin e0 e1 ef) T); [reflexivity|contradiction]). rewrite LB.
    cbn [option_map]. assert (NB : 1 / (k_B * T) = / (k_B * T)) by (unfold Rdiv; ring). rewrite NB. reflexivity.
  - intros i Hi. rewrite <- NN. apply NT, Hi.
  - intro x. apply conv_interp; [apply Rinv_0_lt_compat; exact KT| |].
    + apply asc_states. intros i j Hij. rewrite end_len in Hij. rewrite !NT by lia. apply Rplus_lt_compat_l, Rmult_lt_compat_r; [apply Rdiv_lt_0_compat; lra|apply lt_INR; lia].
    + intro Z. apply (f_equal (@length _)) in Z. unfold with_states in Z. rewrite map_length, end_len in Z. cbn in Z. lia.
Qed.
Print Assumptions C140_high.

(** ** C140: many temperatures *)
(** one band with constant density between -1 and 1, half filled; its chemical potential is 0 at every temperature *)
Definition flat_band : band := mkBand (- 1) 1 (fun E => Rmax 0 (Rmin 1 ((E + 1) / 2))) (fun _ => 1 / 2).
Lemma flat_good : good_band flat_band.
Proof.
  split; [cbn; lra|]. split; cbn.
  - intro E. split; [apply Rmax_l|]. apply Rmax_lub; [lra|apply Rmin_l].
  - intros E E' H. apply Rmax_lub; [apply Rmax_l|]. eapply Rle_trans; [|apply Rmax_r]. apply Rle_min_compat_l. lra.
Qed.
Lemma flat_states : forall e, -1 <= e <= 1 -> states_below e [flat_band] = (e + 1) / 2.
Proof.
  intros e He. unfold states_below, states_below_band, flat_band. cbn [map rsum fold_right b_lo b_hi b_vol].
  destruct (Req_dec e (-1)) as [->|N1]; [rewrite Rltb_f, Rleb_f by lra; cbn [andb]; lra|]. rewrite Rltb_t by lra. cbn [andb].
  destruct (Req_dec e 1) as [->|N2]; [rewrite Rltb_f, Rleb_t by lra; lra|]. rewrite Rltb_t by lra. rewrite Rmin_right, Rmax_right by lra. ring.
Qed.
Lemma flat_fermi : forall tol steps, 0 < tol -> (1 <= steps)%nat -> fermi_energy (1 / 2) [flat_band] tol steps = Ok 0.
Proof.
  intros tol steps Ht Hs. unfold fermi_energy. cbn [length INR]. rewrite !Rleb_t by lra. cbn [andb].
  assert (NI : is_int (1 / 2) = false).
  { unfold is_int, Reqb. destruct (Req_EM_T (IZR (Int_part (1 / 2))) (1 / 2)) as [E|E]; [|reflexivity]. exfalso.
    assert (0 < Int_part (1 / 2) < 1)%Z by (split; apply lt_IZR; lra). lia. }
  rewrite NI. unfold fermi_search, fermi_start, full_curve. cbn [map concat app]. unfold linspace_end. cbn [seq map b_lo b_hi flat_band Nat.sub INR].
  replace (-1 + 0 * ((1 - -1) / 1)) with (-1) by field. replace (-1 + 1 * ((1 - -1) / 1)) with 1 by field.
  cbn [rsort app rinsert]. rewrite Rleb_t by lra. cbn [rdedup]. assert (QN : Reqb (-1) 1 = false) by (unfold Reqb; destruct (Req_EM_T (-1) 1) as [Z|_]; [lra|reflexivity]). rewrite !QN. cbn [map fst snd].
  assert (SD : forall e, states_density e [flat_band] = (states_below e [flat_band], density e [flat_band])) by (intro; apply C50_states_density).
  rewrite !SD. cbn [fst snd]. rewrite !flat_states by lra. cbn [first_above]. rewrite Rltb_f, Rltb_t by lra. cbn [nth fst snd length].
  destruct steps as [|s]; [lia|]. cbn [fermi_newton]. rewrite !SD. cbn [fst snd].
  replace ((1 / 2 - (-1 + 1) / 2) / ((1 + 1) / 2 - (-1 + 1) / 2) * (1 - -1) + -1) with 0 by field.
  rewrite flat_states by lra.
  assert (DE : density 0 [flat_band] = 1 / 2) by (unfold density, density_band, flat_band; cbn [map rsum fold_right b_lo b_hi b_dvol]; rewrite !Rltb_t by lra; cbn [andb]; ring).
  rewrite DE. unfold Reqb. destruct (Req_EM_T (1 / 2) 0); [lra|]. replace (((0 + 1) / 2 - 1 / 2) / (1 / 2)) with 0 by field. rewrite Rabs_R0, Rleb_t by lra. f_equal. ring.
Qed.
(** the exact number of electrons at mu = 0 is 1/2 for every temperature *)
Lemma flat_exact : forall beta, 0 < beta -> is_improper (fun e => Rmax 0 (Rmin 1 ((e + 1) / 2)) * wb beta (0 - e)) (1 / 2).
Proof.
  intros beta Hb.
  assert (E : convolve_df 0 [(-1, 0); (1, 1)] beta EFlat = 1 / 2).
  { unfold convolve_df, cv_segment, p_first, p_last. cbn [seg_sum nth last fst snd]. rewrite !cv_f_fermi.
    assert (FF : cv_F beta (0 - 1) - cv_F beta (0 - -1) = -1).
    { unfold cv_F, log_expit. replace (- (beta * (0 - 1))) with beta by ring. replace (- (beta * (0 - -1))) with (- beta) by ring.
      assert (Q : ln (1 + exp beta) = beta + ln (1 + exp (- beta))).
      { rewrite <- (ln_exp beta) at 2. rewrite <- ln_mult by (pose proof (exp_pos beta); pose proof (exp_pos (- beta)); lra). f_equal.
        rewrite exp_Ropp. field. pose proof (exp_pos beta). lra. }
      rewrite Q. field. lra. }
    rewrite FF. replace (beta * (0 - 1)) with (- beta) by ring. replace (beta * (1 - 0)) with beta by ring. rewrite fermi_opp. field. }
  rewrite <- E. apply C49_convolve_flat; [exact Hb|discriminate| | |].
  - cbn [piecewise_linear]. split; [lra|]. split; [|exact I]. intros e He. rewrite Rmin_right, Rmax_right by lra. field.
  - unfold p_first. cbn [nth fst snd]. intros e He. apply Rmax_left. eapply Rle_trans; [apply Rmin_r|lra].
  - unfold p_last. cbn [last fst snd]. intros e He. rewrite Rmin_left by lra. apply Rmax_right. lra.
Qed.
(** temperatures in steps of 4 percent *)
Fixpoint geo (T : R) (n : nat) : list R := match n with O => [] | S m => T :: geo (26 / 25 * T) m end.
Lemma geo_sorted : forall n T, 0 < T -> Sorted Rle (geo T n).
Proof.
  induction n as [|n IH]; intros T HT; cbn [geo]; [constructor|]. constructor; [apply IH; lra|]. destruct n; cbn [geo]; constructor. lra.
Qed.
Lemma geo_last : forall n T, last (geo T (S n)) 0 = T * (26 / 25) ^ n.
Proof.
  induction n as [|n IH]; intro T; [cbn; ring|]. change (geo T (S (S n))) with (T :: geo (26 / 25 * T) (S n)).
  assert (E : last (T :: geo (26 / 25 * T) (S n)) 0 = last (geo (26 / 25 * T) (S n)) 0) by reflexivity. rewrite E, IH. cbn [pow]. ring.
Qed.
Definition low_entry (d : dos) (el ef tol : R) (steps : nat) (s : samples_t) (T : R) : entry :=
  secant el (fun x => convolve_df x s (1 / (k_B * T)) (EPoint (snd (energy_range d)) (INR (length d)))) ef (ef + 1 / (1 / (k_B * T))) tol steps.
Lemma loop_geo : forall d el ef tol N steps s n T, 0 < T -> last (geo (26 / 25 * T) n) 0 < T_lin (fst (energy_range d)) (snd (energy_range d)) ef ->
  chem_loop d el ef tol N steps (1 / (k_B * T)) (Some s) (geo (26 / 25 * T) n) = Some (map (low_entry d el ef tol steps s) (geo (26 / 25 * T) n)).
Proof.
  intros d el ef tol N steps s. pose proof kB_pos as KB. induction n as [|n IH]; intros T HT HL; cbn [geo chem_loop map].
  - destruct (energy_range d). reflexivity.
  - assert (LT : 26 / 25 * T < T_lin (fst (energy_range d)) (snd (energy_range d)) ef).
    { eapply Rle_lt_trans; [|exact HL]. rewrite geo_last. rewrite <- (Rmult_1_r (26 / 25 * T)) at 1. apply Rmult_le_compat_l; [lra|]. apply pow_R1_Rle. lra. }
    assert (HL' : last (geo (26 / 25 * (26 / 25 * T)) n) 0 < T_lin (fst (energy_range d)) (snd (energy_range d)) ef).
    { destruct n as [|n]; [cbn [geo last]; lra|]. exact HL. }
    specialize (IH (26 / 25 * T) ltac:(lra) HL'). unfold low_entry at 1. destruct (energy_range d) as [e0 e1]. cbn [fst snd] in *.
    rewrite Rleb_f, Rleb_f by lra. rewrite Rltb_f.
    + rewrite IH. reflexivity.
    + assert (Q : Rabs (1 / (k_B * T) - 1 / (k_B * (26 / 25 * T))) / (1 / (k_B * (26 / 25 * T))) = 1 / 25); [|rewrite Q; lra].
      assert (0 < k_B * T) by (apply Rmult_lt_0_compat; lra). assert (0 < / (k_B * T)) by (apply Rinv_0_lt_compat; lra).
      replace (1 / (k_B * T) - 1 / (k_B * (26 / 25 * T))) with (1 / 26 * / (k_B * T)) by (field; lra). rewrite Rabs_right by lra. field. lra.
Qed.
(** bounds of the sum over the segments by the weight of their range *)
Lemma seg_upper : forall beta x pts, 0 < beta -> ascending pts -> pts <> [] -> (forall p, In p pts -> 0 <= snd p <= 1) ->
  seg_sum (cv_segment beta x) pts <= fermi (beta * (x - fst (p_last pts))) - fermi (beta * (x - fst (p_first pts))).
Proof.
  intros beta x pts Hb. induction pts as [|[x0 y0] [|[x1 y1] r] IH]; intros Ha Hn Hp; [congruence|unfold p_first, p_last; cbn; lra|].
  destruct Ha as [H1 H2]. cbn [fst] in H1. specialize (IH H2 ltac:(discriminate) (fun p H => Hp p (or_intror H))).
  unfold p_first, p_last in *. change (last ((x0, y0) :: (x1, y1) :: r) (0, 0)) with (last ((x1, y1) :: r) (0, 0)). cbn [nth fst snd] in *. cbn [seg_sum fst snd].
  pose proof (Hp _ (or_introl eq_refl)) as P0. pose proof (Hp _ (or_intror (or_introl eq_refl))) as P1. cbn [snd] in P0, P1.
  pose proof (seg_nonneg beta x x0 x1 (1 - y0) (1 - y1) Hb H1 ltac:(lra) ltac:(lra)) as S.
  assert (E : cv_segment beta x x0 x1 (1 - y0) (1 - y1) + cv_segment beta x x0 x1 y0 y1 = fermi (beta * (x - x1)) - fermi (beta * (x - x0))).
  { unfold cv_segment. rewrite !cv_f_fermi. field. lra. }
  cbn [seg_sum fst snd] in IH. lra.
Qed.
Lemma fermi_lip : forall a b, a <= b -> fermi a - fermi b <= (b - a) / 4.
Proof.
  intros a b H. destruct (Req_dec a b) as [->|N]; [lra|].
  destruct (MVT_gen fermi a b (fun t => - wt t)) as (c & _ & E).
  - intros t _. apply fermi_derive.
  - intros t _. apply continuity_pt_filterlim. apply (ex_derive_continuous (V:=R_NormedModule)). eexists. apply fermi_derive.
  - assert (W : wt c <= 1 / 4).
    { unfold wt. pose proof (exp_pos c). apply Rmult_le_reg_r with ((1 + exp c) ^ 2); [apply pow_lt; lra|]. unfold Rdiv. rewrite Rmult_assoc, Rinv_l by (apply pow_nonzero; lra).
      assert (0 <= (1 - exp c) * (1 - exp c)) by apply Rle_0_sqr. nra. }
    assert (fermi a - fermi b = wt c * (b - a)) by lra. nra.
Qed.
Lemma pow_half : (25 / 26) ^ 200 <= 1 / 2048.
Proof.
  assert (A : (25 / 26) ^ 18 <= 1 / 2) by (cbn [pow]; lra). assert (P : 0 <= (25 / 26) ^ 18) by (apply pow_le; lra).
  replace 200%nat with (18 * 11 + 2)%nat by reflexivity. rewrite pow_add, pow_mult.
  assert (B : ((25 / 26) ^ 18) ^ 11 <= (1 / 2) ^ 11) by (apply pow_incr; lra). assert (C : (1 / 2) ^ 11 = 1 / 2048) by field.
  assert (0 <= ((25 / 26) ^ 18) ^ 11) by (apply pow_le; exact P). replace ((25 / 26) ^ 2) with (625 / 676) by field. nra.
Qed.
Lemma flat_vol : forall e, states_below e [flat_band] = Rmax 0 (Rmin 1 ((e + 1) / 2)).
Proof.
  intro e. destruct (Rle_dec e (-1)) as [A|A]; [|destruct (Rle_dec 1 e) as [B|B]].
  - rewrite Rmin_right, Rmax_left by lra. unfold states_below, states_below_band, flat_band. cbn [map rsum fold_right b_lo b_hi b_vol]. rewrite Rltb_f, Rleb_f by lra. cbn [andb]. ring.
  - rewrite Rmin_left, Rmax_right by lra. unfold states_below, states_below_band, flat_band. cbn [map rsum fold_right b_lo b_hi b_vol].
    rewrite (Rltb_f e 1), Rleb_t by lra. rewrite andb_false_r. ring.
  - rewrite flat_states, Rmin_right, Rmax_right by lra. reflexivity.
Qed.
Lemma batch_core : forall T0 n, 0 < T0 -> T0 <= 1000 / 2048 -> last (geo T0 (S n)) 0 = 1000 ->
  forall N tol steps, (4 <= N)%nat -> (1 <= steps)%nat -> 0 < tol ->
    exists l g, chemical_potential [flat_band] (1 / 2) (geo T0 (S n)) N tol steps = CVals l /\ length l = length (geo T0 (S n)) /\
      last l None = secant (1 / 2) g 0 (k_B * 1000) tol steps /\ forall x, x <= 1 / 2 -> g x < 1 / 2 - 1 / 4.
Proof.
  pose proof kB_pos as KB. intros T0 n P0 H0 LA.
  intros N tol steps HN Hs Ht.
  assert (TL : T_lin (-1) 1 0 = 1 / 8 / k_B).
  { unfold T_lin. rewrite Rabs_left, Rabs_right by lra. rewrite Rmax_left by lra. ring. }
  assert (K4 : k_B < 87 / 1000000 /\ 86 / 1000000 < k_B) by (unfold k_B; split; lra).
  assert (L1 : 1000 < T_lin (-1) 1 0).
  { rewrite TL. apply Rmult_lt_reg_r with k_B; [exact KB|]. unfold Rdiv at 1. rewrite Rmult_assoc, Rinv_l by lra. lra. }
  set (es := e_samples (-1) 1 0 (1 / 4 / (k_B * T0)) N). set (s := with_states [flat_band] es).
  set (lst := map (low_entry [flat_band] (1 / 2) 0 tol steps s) (geo T0 (S n))).
  set (b1 := / (k_B * 1000)).
  assert (CH : chemical_potential [flat_band] (1 / 2) (geo T0 (S n)) N tol steps = CVals lst).
  { unfold chemical_potential. rewrite flat_fermi by assumption. unfold lst. change (geo T0 (S n)) with (T0 :: geo (26 / 25 * T0) n). cbn [map].
    cbn [chem_loop]. change (energy_range [flat_band]) with (-1, 1). cbv iota beta.
    rewrite (Rleb_f T0 0) by exact P0. rewrite (Rleb_f (T_lin (-1) 1 0) T0) by lra. rewrite Rltb_t.
    - fold es. fold s. rewrite loop_geo; [|exact P0|].
      + cbn [option_map]. unfold low_entry at 2. change (snd (energy_range [flat_band])) with 1. reflexivity.
      + change (fst (energy_range [flat_band])) with (-1). change (snd (energy_range [flat_band])) with 1.
        destruct n as [|n']; [cbn [geo last]; lra|]. change (last (geo T0 (S (S n'))) 0 < T_lin (-1) 1 0). rewrite LA. exact L1.
    - assert (PB : 0 < 1 / (k_B * T0)) by (apply Rdiv_lt_0_compat; [lra|apply Rmult_lt_0_compat; lra]). set (nb := 1 / (k_B * T0)) in *. rewrite Rabs_left by lra.
      apply Rmult_lt_reg_r with nb; [exact PB|]. unfold Rdiv at 2. rewrite Rmult_assoc, Rinv_l, Rmult_1_r by lra. lra. }
  exists lst, (fun x => convolve_df x s b1 (EPoint 1 1)). split; [exact CH|]. split; [unfold lst; apply map_length|].
  assert (LL : last lst None = low_entry [flat_band] (1 / 2) 0 tol steps s 1000).
  { rewrite <- LA. unfold lst. assert (LM : forall (f : R -> entry) l, l <> [] -> last (map f l) None = f (last l 0)).
    { intros f. induction l as [|a [|b r] IH]; intro H; [congruence|reflexivity|]. change (last (map f (b :: r)) None = f (last (b :: r) 0)). apply IH. discriminate. }
    apply LM. discriminate. }
  split.
  { rewrite LL. unfold low_entry. change (snd (energy_range [flat_band])) with 1. cbn [length INR]. assert (Q : 1 / (k_B * 1000) = b1) by (unfold b1; field; lra). rewrite Q.
    f_equal. unfold b1. field. lra. }
  intros x Hx. assert (KT : 0 < k_B * T0) by (apply Rmult_lt_0_compat; lra).
  assert (Hb4 : 0 < 1 / 4 / (k_B * T0)) by (apply Rdiv_lt_0_compat; lra).
  destruct (C69_samples (-1) 1 0 (1 / 4 / (k_B * T0)) N Hb4 HN ltac:(lra)) as (L & SI & F0 & FL & _ & _). fold es in L, SI, F0, FL.
  assert (EN : es <> []) by (intro Z; rewrite Z in L; cbn in L; lia).
  assert (SN : s <> []) by (unfold s; intro Z; apply EN; destruct es; [reflexivity|discriminate]).
  assert (PB : 0 < b1) by (unfold b1; apply Rinv_0_lt_compat; lra).
  pose proof (seg_upper b1 x s PB (asc_states _ _ SI) SN) as U.
  assert (PF : p_first s = (nth 0 es 0, states_below (nth 0 es 0) [flat_band])) by (unfold s; destruct es; [congruence|reflexivity]).
  assert (PL : p_last s = (last es 0, states_below (last es 0) [flat_band])) by (apply last_states; exact EN).
  rewrite PF, PL in U. cbn [fst] in U.
  assert (NB : forall e, 0 <= states_below e [flat_band] <= 1).
  { intro e. rewrite flat_vol. split; [apply Rmax_l|]. apply Rmax_lub; [lra|apply Rmin_l]. }
  specialize (U ltac:(intros p Hp; unfold s, with_states in Hp; apply in_map_iff in Hp; destruct Hp as (e & <- & _); apply NB)).
  rewrite F0, FL in U.
  assert (P30 : 30 / (1 / 4 / (k_B * T0)) = 120 * (k_B * T0)) by (field; lra). rewrite P30 in U.
  assert (LO : - (120 * (k_B * T0)) <= Rmax (0 - 120 * (k_B * T0)) (-1)) by (eapply Rle_trans; [|apply Rmax_l]; lra).
  assert (HI : Rmin (0 + 120 * (k_B * T0)) 1 <= 120 * (k_B * T0)) by (eapply Rle_trans; [apply Rmin_l|]; lra).
  assert (LH : Rmax (0 - 120 * (k_B * T0)) (-1) <= Rmin (0 + 120 * (k_B * T0)) 1) by (apply Rmax_lub; apply Rmin_glb; lra).
  set (lo := Rmax (0 - 120 * (k_B * T0)) (-1)) in *. set (hi := Rmin (0 + 120 * (k_B * T0)) 1) in *.
  pose proof (fermi_lip (b1 * (x - hi)) (b1 * (x - lo)) ltac:(apply Rmult_le_compat_l; lra)) as FLP.
  assert (W : (b1 * (x - lo) - b1 * (x - hi)) / 4 <= 60 / 2048).
  { replace (b1 * (x - lo) - b1 * (x - hi)) with (b1 * (hi - lo)) by ring. apply Rle_trans with (b1 * (240 * (k_B * T0)) / 4).
    - apply Rmult_le_compat_r; [lra|]. apply Rmult_le_compat_l; lra.
    - unfold b1. replace (/ (k_B * 1000) * (240 * (k_B * T0)) / 4) with (60 * T0 / 1000) by (field; lra). lra. }
  unfold convolve_df. rewrite cv_f_fermi.
  assert (FF : fermi (b1 * (1 - x)) <= 1 / 7).
  { assert (5 <= b1 * (1 - x)).
    { apply Rle_trans with (b1 * (1 / 2)); [|apply Rmult_le_compat_l; lra]. unfold b1. apply Rmult_le_reg_l with (k_B * 1000); [lra|]. rewrite <- Rmult_assoc, Rinv_r by lra. lra. }
    unfold fermi. pose proof (exp_ineq1_le (b1 * (1 - x))). unfold Rdiv. apply Rmult_le_compat_l; [lra|]. apply Rinv_le_contravar; lra. }
  lra.
Qed.
(** the samples of the first temperature are kept as long as consecutive temperatures differ by less than 5 percent. In steps of 4 percent up to 1000 K
    the equation for the last temperature has no solution anywhere near the chemical potential *)
Theorem C140_batch_refuted : exists d electrons Ts, Forall good_band d /\ sorted_ranges d /\ Sorted Rle Ts /\ Forall (fun T => 0 < T) Ts /\ last Ts 0 = 1000 /\
  (forall T, 0 < T -> is_improper (fun e => states_below e d * wb (/ (k_B * T)) (0 - e)) electrons) /\
  forall N tol steps, (4 <= N)%nat -> (1 <= steps)%nat -> 0 < tol ->
    exists l g, chemical_potential d electrons Ts N tol steps = CVals l /\ length l = length Ts /\
      last l None = secant electrons g 0 (k_B * 1000) tol steps /\ forall x, x <= 1 / 2 -> g x < electrons - 1 / 4.
Proof.
  pose proof kB_pos as KB. assert (ET : exists T0, T0 = 1000 * (25 / 26) ^ 200) by (eexists; reflexivity). destruct ET as [T0 ET].
  assert (P0 : 0 < T0) by (rewrite ET; apply Rmult_lt_0_compat; [lra|apply pow_lt; lra]).
  assert (H0 : T0 <= 1000 / 2048) by (rewrite ET; pose proof pow_half; lra).
  assert (LA : last (geo T0 201) 0 = 1000).
  { rewrite geo_last, ET. rewrite Rmult_assoc, <- Rpow_mult_distr. replace (25 / 26 * (26 / 25)) with 1 by field. rewrite pow1. ring. }
  exists [flat_band], (1 / 2), (geo T0 201). split; [constructor; [apply flat_good|constructor]|]. split; [intros i j H; cbn in H; lia|].
  split; [apply geo_sorted; exact P0|]. split.
  { assert (G : forall n T, 0 < T -> Forall (fun T => 0 < T) (geo T n)) by (induction n as [|n IH]; intros T HT; cbn [geo]; constructor; [exact HT|apply IH; lra]). apply G, P0. }
  split; [exact LA|]. split.
  { intros T HT. apply (improper_ext (fun e => Rmax 0 (Rmin 1 ((e + 1) / 2)) * wb (/ (k_B * T)) (0 - e))).
    - intro e. rewrite flat_vol. reflexivity.
    - apply flat_exact, Rinv_0_lt_compat, Rmult_lt_0_compat; lra. }
  intros N tol steps HN Hs Ht. apply batch_core; assumption.
Qed.
Print Assumptions C140_batch_refuted.
(** non-trivial instances *)
Example C140_ex : exists l, chemical_potential [flat_band] (1 / 2) [0; 100; 300; 2000] 30 (1 / 10 ^ 8) 30 = CVals l /\ length l = 4%nat /\ nth 0 l None = Some (0, true).
Proof.
  destruct (C140_ascending [flat_band] (1 / 2) [0; 100; 300; 2000] 30 (1 / 10 ^ 8) 30 0) as (l & E & L & P).
  - apply flat_fermi; [lra|lia].
  - discriminate.
  - repeat constructor; lra.
  - exists l. split; [exact E|]. split; [exact L|]. apply P; [cbn; lia|cbn; lra].
Qed.
Example C140_ex_high : exists g es, chemical_potential [flat_band] (1 / 2) [2000] 30 (1 / 10 ^ 8) 30 = CVals [secant (1 / 2) g 0 (0 + 1 / 10) (1 / 10 ^ 8) 30] /\ length es = 30%nat /\
  is_improper (fun e => interp (map (fun e => (e, states_below e [flat_band])) es) e * wb (/ (k_B * 2000)) (0 - e)) (g 0).
Proof.
  assert (K4 : 86 / 1000000 < k_B) by (unfold k_B; lra).
  destruct (C140_high [flat_band] (1 / 2) 2000 30 (1 / 10 ^ 8) 30 0 (- 1) 1) as (g & es & E & L & _ & P); [reflexivity|lra|apply flat_fermi; [lra|lia]|lia|lra| |].
  - unfold T_lin. replace (-1 - 0) with (- (1)) by lra. rewrite Rabs_Ropp, Rminus_0_r, Rabs_R1. rewrite Rmax_left by lra. rewrite Rmult_1_r.
    apply Rmult_le_reg_r with k_B; [lra|]. unfold Rdiv. rewrite Rmult_assoc, Rinv_l by lra. lra.
  - exists g, es. auto.
Qed.
Example C140_ex_single : exists g es, chemical_potential [flat_band] (1 / 2) [300] 30 (1 / 10 ^ 8) 30 = CVals [secant (1 / 2) g 0 (0 + k_B * 300) (1 / 10 ^ 8) 30] /\ length es = 30%nat /\
  exists v, is_improper (fun e => interp (map (fun e => (e, states_below e [flat_band])) es) e * wb (/ (k_B * 300)) (0 - e)) v /\ Rabs (g 0 - v) <= 2 * exp (- 60).
Proof.
  assert (K4 : 0 < k_B < 87 / 1000000) by (unfold k_B; split; lra).
  destruct (C140_single [flat_band] (1 / 2) 300 30 (1 / 10 ^ 8) 30 0) as (g & es & E & L & _ & _ & P).
  - constructor; [apply flat_good|constructor].
  - intros i j H. cbn in H. lia.
  - cbn. lra.
  - apply flat_fermi; [lra|lia].
  - lia.
  - cbn. lra.
  - change (0 < 300 < T_lin (-1) 1 0). split; [lra|]. unfold T_lin. rewrite Rabs_left, Rabs_right by lra. rewrite Rmax_left by lra.
    apply Rmult_lt_reg_r with k_B; [lra|]. replace (1 / 8 / k_B * - (-1 - 0) * k_B) with (1 / 8) by (field; lra). lra.
  - exists g, es. split; [exact E|]. split; [exact L|]. destruct (P 0) as (v & V1 & V2); [rewrite Rminus_0_r, Rabs_R0; lra|].
    exists v. split; [exact V1|]. cbn [length INR] in V2. rewrite Rmult_1_r in V2. exact V2.
Qed.

(** ** C141: seebeck *)
Lemma index_of_ok : forall i l, In i l -> exists j, index_of i l = Some j /\ (j < length l)%nat /\ nth j l 0%nat = i.
Proof.
  intros i. induction l as [|a r IH]; intro H; [destruct H|]. cbn [index_of]. destruct (Nat.eqb_spec i a) as [->|N].
  - exists 0%nat. cbn. repeat split; lia.
  - destruct IH as (j & E & L & Q); [destruct H; [congruence|assumption]|]. exists (S j). rewrite E. cbn. repeat split; [lia|exact Q].
Qed.
Lemma concat_pairs : forall (f g : R -> R) l j, (j < length l)%nat ->
  nth (j * 2) (concat (map (fun T => [f T; g T]) l)) 0 = f (nth j l 0) /\ nth (j * 2 + 1) (concat (map (fun T => [f T; g T]) l)) 0 = g (nth j l 0) /\
  (j * 2 + 1 < length (concat (map (fun T => [f T; g T]) l)))%nat.
Proof.
  intros f g. induction l as [|a r IH]; intros j H; [cbn in H; lia|]. cbn [map concat app].
  destruct j as [|j]; [cbn; repeat split; lia|]. destruct (IH j ltac:(cbn in H; lia)) as (A & B & C).
  replace (S j * 2)%nat with (S (S (j * 2))) by lia. replace (S (S (j * 2)) + 1)%nat with (S (S (j * 2 + 1))) by lia. cbn [nth length]. repeat split; [exact A|exact B|lia].
Qed.
Lemma nth_map_lt : forall (m : R -> R) l j, (j < length l)%nat -> nth j (map m l) 0 = m (nth j l 0).
Proof. intros m l j H. rewrite (nth_indep _ 0 (m 0)) by (rewrite map_length; exact H). apply map_nth. Qed.
Lemma fold_min : forall h r T, h < T -> (forall x, In x r -> h < x) -> h < fold_right Rmin T r.
Proof.
  intros h. induction r as [|a r IH]; intros T HT H; cbn [fold_right]; [exact HT|]. apply Rmin_glb_lt; [apply H; left; reflexivity|apply IH; [exact HT|intros; apply H; right; assumption]].
Qed.
(** central differences of the chemical potential at positive temperatures, 0 elsewhere, in the order of the given temperatures *)
Theorem C141_values : forall m Ts h, (exists T, In T Ts /\ 0 < T) -> (forall T, In T Ts -> 0 < T -> h < T) ->
  seebeck (map m) Ts h = Some (map (fun T => if Rlt_dec 0 T then (m (T + h) - m (T - h)) / (2 * h) else 0) Ts).
Proof.
  intros m Ts h HE HH. unfold seebeck. set (subset := filter (fun i => Rltb 0 (nth i Ts 0)) (seq 0 (length Ts))).
  assert (SI : forall i, In i subset <-> (i < length Ts)%nat /\ 0 < nth i Ts 0).
  { intro i. unfold subset. rewrite filter_In, in_seq. unfold Rltb. destruct (Rlt_dec 0 (nth i Ts 0)); intuition (try lia; try discriminate). }
  destruct (map (fun i => nth i Ts 0) subset) as [|T r] eqn:ET.
  - exfalso. destruct HE as (T & HT & P). apply (In_nth _ _ 0) in HT. destruct HT as (i & Hi & <-).
    assert (IN : In i subset) by (apply SI; auto). destruct subset; [destruct IN|discriminate].
  - assert (AL : forall x, In x (T :: r) -> h < x).
    { intros x Hx. rewrite <- ET in Hx. apply in_map_iff in Hx. destruct Hx as (i & <- & Hi). apply SI in Hi. apply HH; [apply nth_In; tauto|tauto]. }
    rewrite Rltb_t by (apply fold_min; [apply AL; left; reflexivity|intros; apply AL; right; assumption]). f_equal. rewrite <- ET.
    assert (SQ : forall (f : R -> R) l, map f l = map (fun i => f (nth i l 0)) (seq 0 (length l))).
    { intros f. induction l as [|a l IH]; [reflexivity|]. cbn [length seq map nth]. f_equal. rewrite <- seq_shift, map_map. exact IH. }
    rewrite (SQ (fun T => if Rlt_dec 0 T then (m (T + h) - m (T - h)) / (2 * h) else 0) Ts). apply map_ext_in. intros i Hi. apply in_seq in Hi.
    destruct (Rlt_dec 0 (nth i Ts 0)) as [P|P].
    + rewrite Rltb_t by exact P. destruct (index_of_ok i subset) as (j & E & L & Q); [apply SI; split; [lia|exact P]|]. rewrite E.
      assert (LM : (j < length (map (fun i => nth i Ts 0%R) subset))%nat) by (rewrite map_length; exact L).
      destruct (concat_pairs (fun T => T + -1 * h) (fun T => T + 1 * h) _ j LM) as (A & B & C).
      rewrite !nth_map_lt by lia. rewrite A, B.
      assert (NM : nth j (map (fun i => nth i Ts 0) subset) 0 = nth i Ts 0).
      { rewrite (nth_indep _ 0 (nth 0 Ts 0)) by exact LM. rewrite (map_nth (fun i => nth i Ts 0)). rewrite Q. reflexivity. }
      rewrite NM. f_equal. f_equal; f_equal; ring.
    + rewrite Rltb_f by lra. reflexivity.
Qed.
Print Assumptions C141_values.
Example C141_ex : seebeck (map (fun T => 3 - T * T)) [0; 2; 1] (1 / 10) = Some [0; - 4; - 2].
Proof.
  rewrite C141_values.
  - cbn [map]. do 2 (try (destruct Rlt_dec; [|lra])). destruct (Rlt_dec 0 0); [lra|]. destruct (Rlt_dec 0 2), (Rlt_dec 0 1); try lra. apply f_equal. apply f_equal2; [reflexivity|]. apply f_equal2; [field|]. apply f_equal2; [field|reflexivity].
  - exists 2. split; [right; left; reflexivity|lra].
  - intros T [<-|[<-|[<-|[]]]] H; lra.
Qed.
(** for small h the value is the derivative of the chemical potential *)
Theorem C141_derivative : forall m T d, is_derive m T d -> 0 < T -> forall eps, 0 < eps -> exists delta, 0 < delta /\
  forall h, 0 < h < delta -> exists v, seebeck (map m) [T] h = Some [v] /\ Rabs (v - d) < eps.
Proof.
  intros m T d HD HT eps He. apply is_derive_Reals in HD. destruct (HD eps He) as [delta HDL].
  exists (Rmin delta T). split; [apply Rmin_glb_lt; [apply cond_pos|exact HT]|]. intros h Hh.
  assert (H1 : h < delta) by (eapply Rlt_le_trans; [apply Hh|apply Rmin_l]). assert (H2 : h < T) by (eapply Rlt_le_trans; [apply Hh|apply Rmin_r]).
  rewrite C141_values; [|exists T; split; [left; reflexivity|exact HT]|intros x [<-|[]] _; exact H2]. cbn [map]. destruct (Rlt_dec 0 T); [|lra].
  exists ((m (T + h) - m (T - h)) / (2 * h)). split; [reflexivity|].
  pose proof (HDL h ltac:(lra) ltac:(rewrite Rabs_right; lra)) as A. pose proof (HDL (- h) ltac:(lra) ltac:(rewrite Rabs_Ropp, Rabs_right; lra)) as B.
  replace (T + - h) with (T - h) in B by ring.
  replace ((m (T + h) - m (T - h)) / (2 * h) - d) with (1 / 2 * ((m (T + h) - m T) / h - d) + 1 / 2 * ((m (T - h) - m T) / - h - d)) by (field; lra).
  eapply Rle_lt_trans; [apply Rabs_triang|]. rewrite !Rabs_mult, (Rabs_right (1 / 2)) by lra. lra.
Qed.
Print Assumptions C141_derivative.
Example C141_ex_derivative : exists delta, 0 < delta /\ forall h, 0 < h < delta -> exists v, seebeck (map (fun T => 3 - T * T)) [2] h = Some [v] /\ Rabs (v - -4) < 1 / 100.
Proof. apply C141_derivative; [|lra|lra]. auto_derive; [exact I|ring]. Qed.
(** "for T=0 the seebeck coefficient is 0", but it is only returned next to a positive temperature *)
Theorem C141_zero_refuted : forall chem Ts h, (forall T, In T Ts -> T <= 0) -> seebeck chem Ts h = None.
Proof.
  intros chem Ts h H. unfold seebeck.
  assert (E : filter (fun i => Rltb 0 (nth i Ts 0)) (seq 0 (length Ts)) = []); [|rewrite E; reflexivity].
  assert (N : forall i, In i (seq 0 (length Ts)) -> Rltb 0 (nth i Ts 0) = false) by (intros i Hi; apply in_seq in Hi; apply Rltb_f, H, nth_In; lia).
  induction (seq 0 (length Ts)) as [|a l IH]; [reflexivity|]. cbn [filter]. rewrite N by (left; reflexivity). apply IH. intros i Hi. apply N. right. exact Hi.
Qed.
Print Assumptions C141_zero_refuted.
Example C141_ex_zero : seebeck (map (fun T => 3 - T * T)) [0] (1 / 10) = None.
Proof. apply C141_zero_refuted. intros T [<-|[]]. lra. Qed.

(** ** C142: k_resolved_density *)
Definition cell_states (vol : list (R -> R)) (e : R) : R := rsum (map (fun v => v e) vol).
Lemma asc_map : forall (f : R -> R) es, strictly_increasing es -> ascending (map (fun e => (e, f e)) es).
Proof.
  intros f. induction es as [|a [|b r] IH]; intro H; [exact I|exact I|]. split; [exact (H 0%nat 1%nat ltac:(cbn; lia))|].
  apply IH. intros i j Hij. exact (H (S i) (S j) ltac:(cbn in *; lia)).
Qed.
Lemma last_map : forall (f : R -> R) es, es <> [] -> p_last (map (fun e => (e, f e)) es) = (last es 0, f (last es 0)).
Proof.
  intros f. induction es as [|a [|b r] IH]; intro H; [congruence|reflexivity|]. unfold p_last in *.
  change (last (map (fun e => (e, f e)) (b :: r)) (0, 0) = (last (b :: r) 0, f (last (b :: r) 0))). apply IH. discriminate.
Qed.
Theorem C142_zero : forall vol dvol e0 e1 mu N, k_resolved vol dvol e0 e1 mu 0 N = Some (cell_states dvol mu).
Proof. intros. unfold k_resolved. rewrite Rltb_f by lra. unfold Reqb. destruct (Req_EM_T 0 0); [reflexivity|lra]. Qed.
Print Assumptions C142_zero.
(** the derivative of the smeared number of states of the cell, minus twice the weight of the last sample *)
Theorem C142_value : forall vol dvol e0 e1 mu T N, 0 < T -> (4 <= N)%nat -> e0 < mu < e1 ->
  exists es F D, length es = N /\ strictly_increasing es /\ last es 0 = Rmin (mu + 30 * (k_B * T)) e1 /\
    (forall x, is_improper (fun e => interp (map (fun e => (e, cell_states vol e)) es) e * wb (/ (k_B * T)) (x - e)) (F x)) /\ is_derive F mu D /\
    k_resolved vol dvol e0 e1 mu T N = Some (D - 2 * wb (/ (k_B * T)) (last es 0 - mu) * cell_states vol (last es 0)).
Proof.
  intros vol dvol e0 e1 mu T N HT HN HE. pose proof kB_pos as KB. assert (KT : 0 < k_B * T) by (apply Rmult_lt_0_compat; lra).
  set (beta := / (k_B * T)). assert (PB : 0 < beta) by (apply Rinv_0_lt_compat; exact KT).
  destruct (C69_samples e0 e1 mu beta N PB HN HE) as (L & SI & F0 & FL & _ & _). set (es := e_samples e0 e1 mu beta N) in *.
  assert (EN : es <> []) by (intro Z; rewrite Z in L; cbn in L; lia).
  set (pts := map (fun e => (e, cell_states vol e)) es). assert (PN : pts <> []) by (unfold pts; intro Z; apply EN; destruct es; [reflexivity|discriminate]).
  exists es, (fun x => convolve_df x pts beta EFlat). eexists. split; [exact L|]. split; [exact SI|]. split; [rewrite FL; do 2 f_equal; unfold beta; field; lra|].
  split; [intro x; apply conv_interp; [exact PB|apply asc_map; exact SI|exact PN]|]. split; [apply conv_flat_derive; lra|].
  unfold k_resolved. rewrite Rltb_f by lra. unfold Reqb. destruct (Req_EM_T T 0); [lra|]. f_equal.
  assert (NB : 1 / (k_B * T) = beta) by (unfold beta; field; lra). rewrite NB. change (map (fun e => (e, rsum (map (fun v => v e) vol))) (e_samples e0 e1 mu beta N)) with pts.
  assert (PL : p_last pts = (last es 0, cell_states vol (last es 0))) by (apply (last_map (cell_states vol)); exact EN).
  unfold convolve_ddf. rewrite PL. cbn [fst snd]. rewrite !cv_df_wb. ring.
Qed.
Print Assumptions C142_value.
Lemma filled_ddf : forall beta x es, es <> [] -> convolve_ddf x (map (fun e => (e, 1 + 0)) es) beta EFlat = - 2 * wb beta (last es 0 - x).
Proof.
  intros beta x es HN. unfold convolve_ddf. rewrite (last_map (fun _ => 1 + 0)) by exact HN. cbn [fst snd].
  assert (S' : seg_sum (cv_dsegment beta x) (map (fun e => (e, 1 + 0)) es) = cv_df beta (x - last es 0) - cv_df beta (x - nth 0 es 0)).
  { clear HN. induction es as [|a [|b r] IH]; [cbn; ring|cbn; ring|].
    change (last (a :: b :: r) 0) with (last (b :: r) 0). cbn [map nth] in *. cbn [seg_sum fst snd] in *. rewrite IH. unfold cv_dsegment, Rdiv. ring. }
  rewrite S'. assert (PF : p_first (map (fun e => (e, 1 + 0)) es) = (nth 0 es 0, 1 + 0)) by (destruct es; [congruence|reflexivity]). rewrite PF. cbn [fst snd].
  rewrite !cv_df_wb. rewrite <- (wb_even beta (x - last es 0)). replace (- (x - last es 0)) with (last es 0 - x) by ring. ring.
Qed.
(** a cell whose states are all filled has density 0, the value is negative *)
Theorem C142_filled_refuted : forall e0 e1 mu T N, 0 < T -> (4 <= N)%nat -> e0 < mu < e1 ->
  exists v, k_resolved [fun _ => 1] [fun _ => 0] e0 e1 mu T N = Some v /\ v < 0 /\ k_resolved [fun _ => 1] [fun _ => 0] e0 e1 mu 0 N = Some 0.
Proof.
  intros e0 e1 mu T N HT HN HE. destruct (C142_value [fun _ => 1] [fun _ => 0] e0 e1 mu T N HT HN HE) as (es & F & D & L & SI & _ & HF & HD & E).
  pose proof kB_pos as KB. assert (KT : 0 < / (k_B * T)) by (apply Rinv_0_lt_compat, Rmult_lt_0_compat; lra).
  set (beta := / (k_B * T)) in *. destruct (C69_samples e0 e1 mu beta N KT HN HE) as (L' & _). set (es' := e_samples e0 e1 mu beta N) in *.
  assert (EN : es' <> []) by (intro Z; rewrite Z in L'; cbn in L'; lia).
  exists (- 2 * wb beta (last es' 0 - mu)). split; [|split].
  - unfold k_resolved. rewrite Rltb_f by lra. unfold Reqb. destruct (Req_EM_T T 0); [lra|]. f_equal.
    assert (NB : 1 / (k_B * T) = beta) by (unfold beta; field; lra). rewrite NB. fold es'. cbn [map rsum fold_right].
    apply filled_ddf. exact EN.
  - pose proof (wb_pos beta (last es' 0 - mu) KT). lra.
  - rewrite C142_zero. unfold cell_states. cbn. f_equal. ring.
Qed.
Print Assumptions C142_filled_refuted.
Example C142_ex : exists v, k_resolved [fun _ => 1] [fun _ => 0] (-1) 1 (1 / 2) 1000 10 = Some v /\ v < 0 /\ k_resolved [fun _ => 1] [fun _ => 0] (-1) 1 (1 / 2) 0 10 = Some 0.
Proof. apply C142_filled_refuted; [lra|lia|lra]. Qed.
(** the error is negligible if the band structure ends more than 30 k_B T above mu *)
Theorem C142_interior : forall vol dvol e0 e1 mu T N, 0 < T -> (4 <= N)%nat -> e0 < mu -> mu + 30 * (k_B * T) <= e1 ->
  exists es F D v, length es = N /\ strictly_increasing es /\
    (forall x, is_improper (fun e => interp (map (fun e => (e, cell_states vol e)) es) e * wb (/ (k_B * T)) (x - e)) (F x)) /\ is_derive F mu D /\
    k_resolved vol dvol e0 e1 mu T N = Some v /\ Rabs (v - D) <= 2 * exp (- 30) / (k_B * T) * Rabs (cell_states vol (mu + 30 * (k_B * T))).
Proof.
  intros vol dvol e0 e1 mu T N HT HN H0 H1. pose proof kB_pos as KB. assert (KT : 0 < k_B * T) by (apply Rmult_lt_0_compat; lra).
  destruct (C142_value vol dvol e0 e1 mu T N HT HN ltac:(lra)) as (es & F & D & L & SI & LA & HF & HD & E). rewrite Rmin_left in LA by lra. rewrite LA in E.
  exists es, F, D. eexists. split; [exact L|]. split; [exact SI|]. split; [exact HF|]. split; [exact HD|]. split; [exact E|].
  replace (mu + 30 * (k_B * T) - mu) with (30 * (k_B * T)) by ring. set (V := cell_states vol (mu + 30 * (k_B * T))).
  replace (D - 2 * wb (/ (k_B * T)) (30 * (k_B * T)) * V - D) with (- (2 * wb (/ (k_B * T)) (30 * (k_B * T)) * V)) by ring. rewrite Rabs_Ropp, Rabs_mult.
  apply Rmult_le_compat_r; [apply Rabs_pos|]. assert (PB : 0 < / (k_B * T)) by (apply Rinv_0_lt_compat; exact KT).
  pose proof (wb_pos (/ (k_B * T)) (30 * (k_B * T)) PB) as W. rewrite Rabs_right by lra.
  unfold wb. replace (/ (k_B * T) * (30 * (k_B * T))) with 30 by (field; lra).
  assert (WT : wt 30 <= exp (- 30)).
  { unfold wt. assert (E30 : exp (- 30) = / exp 30) by (rewrite <- exp_Ropp; f_equal; lra). rewrite E30. pose proof (exp_pos 30). apply Rmult_le_reg_r with (exp 30 * (1 + exp 30) ^ 2); [apply Rmult_lt_0_compat; [lra|apply pow_lt; lra]|].
    replace (exp 30 / (1 + exp 30) ^ 2 * (exp 30 * (1 + exp 30) ^ 2)) with (exp 30 ^ 2) by (field; apply not_eq_sym, Rlt_not_eq; lra).
    replace (/ exp 30 * (exp 30 * (1 + exp 30) ^ 2)) with ((1 + exp 30) ^ 2) by (field; apply not_eq_sym, Rlt_not_eq; lra). apply pow_incr. lra. }
  unfold Rdiv. replace (2 * exp (- 30) * / (k_B * T)) with (2 * (/ (k_B * T) * exp (- 30))) by ring. apply Rmult_le_compat_l; [lra|]. apply Rmult_le_compat_l; lra.
Qed.
Print Assumptions C142_interior.
Example C142_ex_interior : exists es F D v, length es = 10%nat /\ strictly_increasing es /\
    (forall x, is_improper (fun e => interp (map (fun e => (e, e * e + (e + 0))) es) e * wb (/ (k_B * 300)) (x - e)) (F x)) /\ is_derive F 0 D /\
    k_resolved [fun e => e * e; fun e => e] [fun e => 2 * e; fun _ => 1] (-1) 1 0 300 10 = Some v /\ Rabs (v - D) <= 2 * exp (- 30) / (k_B * 300) * Rabs ((0 + 30 * (k_B * 300)) * (0 + 30 * (k_B * 300)) + ((0 + 30 * (k_B * 300)) + 0)).
Proof. apply (C142_interior [fun e => e * e; fun e => e]); [lra|lia|lra|]. unfold k_B. lra. Qed.

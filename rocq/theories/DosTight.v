(** Properties C67 and C74: the whole result of [DensityOfStates.energy]. *)
From Coq Require Import Reals Lra Lia Psatz List ZArith Bool Arith.
From Coquelicot Require Import Coquelicot.
From Verif Require Import NbrModel SmearModel SmearCalc SmearProps CellProps DosModel DosProps Basel FermiInt FermiConv DosEnergy DosMore.
Import List ListNotations.
Local Open Scope R_scope.

(** ** The whole result of energy(mu, T) *)
Lemma k_B_pos : 0 < k_B.
Proof. unfold k_B. lra. Qed.

(** at T = 0: [spin] times the sum over the bands of the energy of their occupied states *)
Theorem C67_total_partial : forall mu N spin d, (2 <= N)%nat ->
  Forall (fun b => mu <= b_lo b \/ (b_lo b < mu <= b_hi b /\ exists c, forall e, b_lo b <= e <= mu -> states_below_band e b = cub c e)) d ->
  exists vs, Forall2 (fun b v => (mu <= b_lo b /\ v = 0) \/ (b_lo b < mu /\ is_band_energy mu b v)) d vs /\
             energy_T0 mu N spin d = spin * fold_right Rplus 0 vs.
Proof.
  intros mu N spin d HN H. exists (map (energy_band mu N) d). split.
  - induction H as [|b d Hb H IH]; cbn [map]; constructor; auto.
    destruct Hb as [Hb|[Hb [c Hc]]].
    + left. split; auto. unfold energy_band. rewrite Rltb_f; auto.
    + right. split; [lra|]. apply C67_partial with c; auto; lra.
  - unfold energy_T0, rsum. ring.
Qed.
Print Assumptions C67_total_partial.
(** example: a half filled band and an empty one, two electrons per state *)
Example C67_total_example : exists v, is_band_energy (1/2) uniform_band v /\
  energy_T0 (1/2) 30 2 [uniform_band; mkBand 1 2 (fun E => E - 1) (fun _ => 1)] = 2 * v.
Proof.
  destruct (C67_total_partial (1/2) 30 2 [uniform_band; mkBand 1 2 (fun E => E - 1) (fun _ => 1)] ltac:(lia)) as (vs & F & E).
  - constructor; [right|constructor; [left; cbn; lra|constructor]]. cbn [uniform_band b_lo b_hi]. split; [lra|]. exists (0, 0, 1, 0).
    intros e He. unfold states_below_band, cub. cbn [uniform_band b_lo b_hi b_vol]. destruct (Rlt_dec 0 e).
    + rewrite !Rltb_t by lra. cbn [andb]. rewrite Rmax_right, Rmin_right by lra. ring.
    + rewrite (Rltb_f 0 e) by lra. cbn [andb]. unfold Rleb. destruct Rle_dec; [lra|]. replace e with 0 by lra. ring.
  - inversion F as [|? v ? r Hv F2]; subst. inversion F2 as [|? w ? r' Hw F3]; subst. inversion F3; subst.
    destruct Hv as [[Hv _]|[_ Hv]]; [cbn in Hv; lra|]. destruct Hw as [[_ ->]|[Hw _]]; [|cbn in Hw; lra].
    exists v. split; auto. rewrite E. cbn [fold_right]. ring.
Qed.

(** at T > 0: [spin] times the integral of - (f + e f') N, when the number of
    states is linear between the samples (and constant above them), its slope
    below mu is the density at mu, and the sum over the bands of C67 is the
    energy at T = 0 *)
Theorem C74_energy : forall mu T N spin d J I, 0 < T -> (4 <= N)%nat ->
  let beta := 1 / (k_B * T) in let n := fun e => states_below e d in
  let e0 := fst (energy_range d) in let e1 := snd (energy_range d) in
  let lo := Rmax (mu - 30 / beta) e0 in let hi := Rmin (mu + 30 / beta) e1 in
  let es := e_samples e0 e1 mu beta N in
  e0 < mu < e1 ->
  piecewise_linear (map (fun e => (e, n e)) (es ++ [hi + 8 / beta])) n ->
  n hi = INR (length d) -> n (hi + 8 / beta) = INR (length d) ->
  n mu - n (nth (Nat.div N 2 - 1) es 0) = density mu d * (mu - nth (Nat.div N 2 - 1) es 0) ->
  is_RInt n e0 lo J -> is_RInt n lo mu I -> rsum (map (energy_band mu N) d) = mu * n mu - I - J ->
  is_RInt (fun e => n e * (e * wb beta (e - mu) - fermi (beta * (e - mu)))) lo (hi + 8 / beta) (energy_T mu T N 1 d + J) /\
  energy_T mu T N spin d = spin * energy_T mu T N 1 d.
Proof.
  intros mu T N spin d J I HT HN beta n e0 e1 lo hi es Hmu HP Hhi Htop Hden HJ HI HE.
  assert (Hb : 0 < beta) by (unfold beta; apply Rdiv_lt_0_compat; [lra|]; apply Rmult_lt_0_compat; auto; apply k_B_pos).
  assert (Sp : energy_T mu T N spin d = spin * energy_T mu T N 1 d).
  { unfold energy_T. unfold Rleb. destruct Rle_dec; [lra|]. ring. }
  split; auto.
  destruct (C69_samples e0 e1 mu beta N Hb HN Hmu) as (LL & SI & L0 & LE & LM & _). fold es in LL, SI, L0, LE, LM. fold lo in L0. fold hi in LE.
  assert (HM : (2 <= Nat.div N 2)%nat) by (apply Nat.div_le_lower_bound; lia).
  assert (HM2 : (Nat.div N 2 < N)%nat) by (apply Nat.div_lt; lia).
  destruct (nth_split es 0 (n := Nat.div N 2)) as (l1 & l2 & Es & L1); [lia|]. rewrite LM in Es.
  destruct l1 as [|x l1]; [cbn [length] in L1; lia|].
  assert (Ex : x = lo) by (rewrite <- L0, Es; reflexivity).
  set (g := fun e : R => (e, n e)) in *.
  assert (EP : map g (es ++ [hi + 8 / beta]) = (x, n x) :: map g l1 ++ (mu, n mu) :: map g (l2 ++ [hi + 8 / beta])).
  { rewrite Es. rewrite <- app_assoc. cbn [app map]. rewrite !map_app. cbn [map]. rewrite !map_app. reflexivity. }
  rewrite EP in HP.
  pose proof (C74_correction mu beta n (x, n x) (map g l1) (n mu) (map g (l2 ++ [hi + 8 / beta])) Hb HP) as [_ C].
  cbv zeta in C. cbn [fst] in C. rewrite Ex in C. specialize (C I HI). rewrite <- Ex in C.
  assert (Q : last ((x, n x) :: map g l1) (0, 0) = g (nth (Nat.div N 2 - 1) es 0)).
  { change ((x, n x) :: map g l1) with (map g (x :: l1)).
    assert (LG : forall (l : list R) a, last (map g (a :: l)) (0, 0) = g (nth (length l) (a :: l) 0)).
    { clear. intros l. induction l as [|b l IH]; intros a; [reflexivity|]. cbn [map length nth] in *. rewrite <- IH. reflexivity. }
    rewrite LG. f_equal. rewrite Es. cbn [length] in L1. replace (Nat.div N 2 - 1)%nat with (length l1) by lia.
    rewrite (app_nth1 (x :: l1)) by (cbn [length]; lia). reflexivity. }
  rewrite Q in C. set (w := nth (Nat.div N 2 - 1) es 0) in *.
  change (snd (g w)) with (n w) in C. change (fst (g w)) with w in C.
  assert (Lt : w < mu) by (rewrite <- LM; apply SI; lia).
  assert (A : (n mu - n w) / (mu - w) = density mu d).
  { rewrite Hden. field. lra. }
  rewrite A in C.
  assert (LA : fst (last ((mu, n mu) :: map g (l2 ++ [hi + 8 / beta])) (0, 0)) = hi + 8 / beta).
  { rewrite map_app. cbn [map]. rewrite app_comm_cons, last_last. reflexivity. }
  rewrite LA in C. rewrite Ex in C.
  match type of C with is_RInt _ _ _ ?v => replace (energy_T mu T N 1 d + J) with v; [exact C|] end.
  rewrite <- Ex, <- EP.
  rewrite map_app. cbn [map].
  destruct (exists_last (l := map g es)) as (k & z & Ek).
  { rewrite Es. discriminate. }
  assert (Zl : z = g hi).
  { assert (last (map g es) (0, 0) = z) by (rewrite Ek; apply last_last). rewrite <- H.
    assert (LG : forall (l : list R) a, last (map g (a :: l)) (0, 0) = g (last (a :: l) 0)).
    { clear. intros l. induction l as [|b l IH]; intros a; [reflexivity|]. change (last (map g (a :: b :: l)) (0, 0)) with (last (map g (b :: l)) (0, 0)).
      rewrite IH. reflexivity. }
    destruct es as [|a es']; [cbn in LL; lia|]. rewrite LG, LE. reflexivity. }
  assert (SS : seg_sum (en_segment mu beta) (map g es ++ [g (hi + 8 / beta)])
     = seg_sum (en_segment mu beta) (map g es) + en_segment mu beta hi (hi + 8 / beta) (INR (length d)) (INR (length d))).
  { rewrite Ek, Zl. rewrite <- app_assoc. cbn [app]. rewrite seg_sum_split. cbn [seg_sum g fst snd]. rewrite Hhi, Htop. ring. }
  rewrite SS. unfold energy_T. unfold Rleb. destruct Rle_dec; [lra|]. fold beta. fold e0 e1. fold es. change (fun e : R => (e, states_below e d)) with g.
  assert (PL : p_last (map g es) = g hi) by (unfold p_last; rewrite Ek, Zl; apply last_last).
  rewrite PL. cbn [g fst]. rewrite HE. ring.
Qed.
Print Assumptions C74_energy.
(** example: a uniform density between 0 and 1, beta = 7, mu = 1/2 *)
Lemma uniform_below : forall e, 0 <= e <= 1 -> states_below e [uniform_band] = e.
Proof.
  intros e He. unfold states_below, rsum, states_below_band. cbn [map uniform_band b_lo b_hi b_vol fold_right].
  destruct (Rlt_dec 0 e); [destruct (Rlt_dec e 1)|].
  - rewrite !Rltb_t by lra. cbn [andb]. rewrite Rmax_right, Rmin_right by lra. ring.
  - rewrite (Rltb_f e 1), andb_false_r, Rleb_t by lra. lra.
  - rewrite (Rltb_f 0 e) by lra. cbn [andb]. unfold Rleb. destruct Rle_dec; lra.
Qed.
Lemma uniform_above : forall e, 1 <= e -> states_below e [uniform_band] = 1.
Proof.
  intros e He. unfold states_below, rsum, states_below_band. cbn [map uniform_band b_lo b_hi b_vol fold_right].
  rewrite (Rltb_f e 1), andb_false_r, Rleb_t by lra. ring.
Qed.
Example C74_energy_example : let T := 1 / (7 * k_B) in
  is_RInt (fun e => states_below e [uniform_band] * (e * wb 7 (e - 1/2) - fermi (7 * (e - 1/2)))) 0 (1 + 8 / 7) (energy_T (1/2) T 4 1 [uniform_band]) /\
  energy_T (1/2) T 4 2 [uniform_band] = 2 * energy_T (1/2) T 4 1 [uniform_band].
Proof.
  intros T. pose proof k_B_pos as K.
  assert (HT : 0 < T) by (unfold T; apply Rdiv_lt_0_compat; lra).
  assert (Hb : 1 / (k_B * T) = 7) by (unfold T; field; lra).
  pose proof (C74_energy (1/2) T 4 2 [uniform_band] 0 (1/8) HT ltac:(lia)) as C. cbv zeta in C. rewrite Hb in C.
  cbn [energy_range nth last fst snd uniform_band b_lo b_hi] in C. fold uniform_band in C.
  rewrite Rmax_right in C by lra. rewrite Rmin_right in C by lra.
  destruct (C69_samples 0 1 (1/2) 7 4 ltac:(lra) ltac:(lia) ltac:(lra)) as (LL & SI & L0 & LE & LM & _).
  rewrite Rmax_right in L0 by lra. rewrite Rmin_right in LE by lra. change (Nat.div 4 2) with 2%nat in *.
  change (2 - 1)%nat with 1%nat in C.
  revert C LL SI L0 LE LM. generalize (e_samples 0 1 (1/2) 7 4). intros es C LL SI L0 LE LM.
  destruct es as [|a [|b [|c [|d [|? ?]]]]]; try discriminate LL. cbn [nth last] in *. subst a c d.
  pose proof (SI 0 1 ltac:(cbn; lia))%nat as S1. pose proof (SI 1 2 ltac:(cbn; lia))%nat as S2. cbn [nth] in S1, S2.
  replace (energy_T (1/2) T 4 1 [uniform_band]) with (energy_T (1/2) T 4 1 [uniform_band] + 0) at 1 by ring.
  apply C; clear C.
  - lra.
  - cbn [app map]. cbn [piecewise_linear]. 
    assert (U : forall x y e, 0 <= x -> x < y <= 1 -> x <= e <= y -> states_below e [uniform_band] = states_below x [uniform_band] + (states_below y [uniform_band] - states_below x [uniform_band]) * ((e - x) / (y - x))).
    { intros x y e Hx Hy He. rewrite !uniform_below by lra. field. lra. }
    split; [lra|]. split; [intros; apply U; lra|]. split; [lra|]. split; [intros; apply U; lra|]. split; [lra|]. split; [intros; apply U; lra|].
    split; [lra|]. split; [|exact Coq.Init.Logic.I]. intros e He. rewrite !uniform_above by lra. ring.
  - rewrite uniform_above by lra. reflexivity.
  - rewrite uniform_above by lra. reflexivity.
  - rewrite !uniform_below by lra. unfold density, rsum, density_band. cbn [map uniform_band b_lo b_hi b_dvol fold_right].
    rewrite !Rltb_t by lra. cbn [andb]. ring.
  - apply (is_RInt_point (V:=R_NormedModule)).
  - apply (is_RInt_ext (cub (0, 0, 1, 0))).
    + rewrite Rmin_left, Rmax_right by lra. intros x Hx. rewrite uniform_below by lra. unfold cub. simpl. ring.
    + match goal with |- is_RInt _ _ _ ?v => replace v with (cubI (0, 0, 1, 0) (1/2) - cubI (0, 0, 1, 0) 0) by (unfold cubI; simpl; field) end. apply cub_int.
  - assert (Ge : is_band_energy (1/2) uniform_band (energy_band (1/2) 4 uniform_band)).
    { apply (C67_partial (1/2) 4 uniform_band (0, 0, 1, 0)); cbn [uniform_band b_lo b_hi]; try lra; try lia.
      intros e He. pose proof (uniform_below e ltac:(lra)) as B. unfold states_below, rsum in B. cbn [map fold_right] in B. unfold cub.
      fold uniform_band in *. lra. }
    destruct Ge as (I1 & HI1 & Eq). rewrite uniform_below by lra. unfold rsum. cbn [map fold_right]. rewrite Eq.
    assert (B : states_below_band (1/2) uniform_band = 1/2).
    { pose proof (uniform_below (1/2) ltac:(lra)) as B. unfold states_below, rsum in B. cbn [map fold_right] in B. lra. }
    rewrite B. replace I1 with (1/8); [field|].
    cbn [uniform_band b_lo] in HI1. fold uniform_band in HI1.
    apply (is_RInt_unique (V:=R_CompleteNormedModule)) in HI1. rewrite <- HI1. symmetry. apply (is_RInt_unique (V:=R_CompleteNormedModule)).
    apply (is_RInt_ext (cub (0, 0, 1, 0))).
    + rewrite Rmin_left, Rmax_right by lra. intros x Hx. pose proof (uniform_below x ltac:(lra)) as B'. unfold states_below, rsum in B'. cbn [map fold_right] in B'. unfold cub. simpl. lra.
    + match goal with |- is_RInt _ _ _ ?v => replace v with (cubI (0, 0, 1, 0) (1/2) - cubI (0, 0, 1, 0) 0) by (unfold cubI; simpl; field) end. apply cub_int.
Qed.

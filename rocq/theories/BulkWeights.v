(** * C52: integration weights; C77-C79: scattering times, Hessians and the set up of KIntegral *)
From Coq Require Import Reals Lra Lia Psatz List Bool.
From Coquelicot Require Import Coquelicot.
From Verif Require Import NbrModel SmearCalc SmearProps DosModel DosProps Basel FermiInt FermiConv BulkModel FermiMoments BulkProps.
Import List ListNotations.
Local Open Scope R_scope.

(** ** C52: specification *)
(** value of the polynomial with coefficients [cs] *)
Fixpoint peval (cs : list R) (e : R) : R := match cs with [] => 0 | c :: r => c + e * peval r e end.
Definition dot (a b : list R) : R := lsum (combine a b) (fun p => fst p * snd p).
(** [w] solves the linear system X w = I *)
Definition solves (X : list (list R)) (I w : list R) : Prop :=
  length w = length I /\ forall n, (n < length I)%nat -> dot (nth n X []) w = nth n I 0.

(** ** proofs *)
Lemma pscale : forall c ps e, peval (map (Rmult c) ps) e = c * peval ps e.
Proof. induction ps as [|p ps IH]; intro e; cbn [map peval]; [ring|]. rewrite IH. ring. Qed.
Fixpoint padd (a b : list R) : list R :=
  match a, b with [], _ => b | _, [] => a | x :: a', y :: b' => x + y :: padd a' b' end.
Lemma padd_eval : forall a b e, peval (padd a b) e = peval a e + peval b e.
Proof.
  induction a as [|x a IH]; intros [|y b] e; cbn [padd peval]; try ring. rewrite IH. ring.
Qed.
Lemma padd_len : forall a b, length (padd a b) = Nat.max (length a) (length b).
Proof. induction a as [|x a IH]; intros [|y b]; cbn [padd length]; try lia. rewrite IH. lia. Qed.
Lemma recentre : forall mu cs, exists ds, length ds = length cs /\ forall e, peval cs e = peval ds (e - mu).
Proof.
  intros mu. induction cs as [|c cs [ds [L IH]]].
  - exists []. split; reflexivity.
  - destruct ds as [|d ds].
    + destruct cs; [|discriminate]. exists [c]. split; [reflexivity|]. intro. cbn. ring.
    + exists (padd (c :: d :: ds) (map (Rmult mu) (d :: ds))). split.
      * rewrite padd_len, map_length. cbn [length] in *. lia.
      * intro e. rewrite padd_eval, pscale. cbn [peval]. cbn [peval] in IH. rewrite IH. ring.
Qed.
Lemma dot_row : forall x mu n w, length w = length x ->
  dot (iw_row x mu n) w = lsum (combine x w) (fun p => (fst p - mu) ^ n / INR (fact n) * snd p).
Proof.
  unfold dot, iw_row. induction x as [|a x IH]; intros mu n [|v w] L; try discriminate; [reflexivity|].
  unfold lsum in *. cbn [map combine fold_right fst snd]. f_equal. apply IH. injection L. auto.
Qed.
(** a polynomial around mu, from the power [s] on *)
Definition qsum (x w : list R) (p : R -> R) : R := lsum (combine x w) (fun q => p (fst q) * snd q).
Lemma qsum_lin : forall x w p q c, qsum x w (fun e => p e + c * q e) = qsum x w p + c * qsum x w q.
Proof.
  intros. unfold qsum. rewrite <- lsum_lin. apply lsum_ext. intros. ring.
Qed.
Lemma exact_from : forall x w mu beta, 0 < beta -> length w = length x ->
  (forall n, (n < length x)%nat -> dot (iw_row x mu n) w = iw_rhs beta n) ->
  forall ds s, (s + length ds <= length x)%nat ->
  is_improper (fun e => ((e - mu) ^ s * peval ds (e - mu)) * wb beta (e - mu)) (qsum x w (fun e => (e - mu) ^ s * peval ds (e - mu))).
Proof.
  intros x w mu beta Hb L H. induction ds as [|d ds IH]; intros s Hs.
  - cbn [peval]. replace (qsum x w (fun e => (e - mu) ^ s * 0)) with 0.
    + refine (improper_ext _ _ _ _ improper_zero). intro. ring.
    + unfold qsum. rewrite <- (lsum_zero (combine x w)) at 1. apply lsum_ext. intros. ring.
  - cbn [length] in Hs. specialize (IH (S s) ltac:(lia)).
    pose proof (improper_lin _ _ _ _ d IH (moment_beta s beta mu Hb)) as I.
    assert (E : qsum x w (fun e => (e - mu) ^ s * peval (d :: ds) (e - mu)) =
       qsum x w (fun e => (e - mu) ^ S s * peval ds (e - mu)) + d * (INR (fact s) * iw_rhs beta s)).
    { rewrite <- (H s) by lia. rewrite dot_row by auto.
      replace (INR (fact s) * lsum (combine x w) (fun p => (fst p - mu) ^ s / INR (fact s) * snd p)) with (qsum x w (fun e => (e - mu) ^ s)).
      - rewrite <- qsum_lin. unfold qsum. apply lsum_ext. intros. cbn [peval pow]. ring.
      - unfold qsum. pose proof (INR_fact_lt_0 s) as f0.
        pose proof (lsum_lin (combine x w) (fun _ => 0) (fun p => (fst p - mu) ^ s / INR (fact s) * snd p) (INR (fact s))) as e.
        rewrite lsum_zero, Rplus_0_l in e. rewrite <- e. apply lsum_ext. intros. field. lra. }
    rewrite E. refine (improper_ext _ _ _ _ I). intro e. cbn [peval pow]. ring.
Qed.
Lemma filter_all {A} (f : A -> bool) : forall l, length (filter f l) = length l -> filter f l = l.
Proof.
  induction l as [|a l IH]; intro H; [reflexivity|]. cbn [filter] in *. destruct (f a); cbn [length] in *.
  - f_equal. apply IH. lia.
  - exfalso. assert (length (filter f l) <= length l)%nat; [|lia].
    clear. induction l as [|b l IH]; cbn [filter]; [lia|]. destruct (f b); cbn [length]; lia.
Qed.
Lemma filter_all_iff {A} (f : A -> bool) : forall l, length (filter f l) = length l -> forall a, In a l -> f a = true.
Proof. intros l H a Ha. rewrite <- (filter_all f l H) in Ha. apply filter_In in Ha. tauto. Qed.
Lemma combine_snd {A B} : forall (a : list A) (b : list B), length a = length b -> map snd (combine a b) = b.
Proof. induction a as [|x a IH]; intros [|y b] H; try discriminate; [reflexivity|]. cbn. f_equal. apply IH. injection H. auto. Qed.
Lemma combine_fst {A B} : forall (a : list A) (b : list B), length a = length b -> map fst (combine a b) = a.
Proof. induction a as [|x a IH]; intros [|y b] H; try discriminate; [reflexivity|]. cbn. f_equal. apply IH. injection H. auto. Qed.
Lemma keep_all {A} : forall sel (l : list A), (forall i, (i < length l)%nat -> sel i = true) -> keep sel l = l.
Proof.
  intros sel l H. unfold keep.
  assert (E : filter (fun p => sel (fst p)) (combine (seq 0 (length l)) l) = combine (seq 0 (length l)) l).
  { assert (G : forall p, In p (combine (seq 0 (length l)) l) -> sel (fst p) = true).
    { intros [i a] Hp. apply in_combine_l, in_seq in Hp. apply H. cbn. lia. }
    revert G. generalize (combine (seq 0 (length l)) l). induction l0 as [|p r IH]; intro G; [reflexivity|].
    cbn [filter]. rewrite G by (left; reflexivity). f_equal. apply IH. intros. apply G. right. auto. }
  rewrite E. apply combine_snd, seq_length.
Qed.
Lemma keep_length_all {A} : forall sel (l : list A), length (keep sel l) = length l -> forall i, (i < length l)%nat -> sel i = true.
Proof.
  intros sel l H i Hi. unfold keep in H. rewrite map_length in H.
  assert (Lc : length (combine (seq 0 (length l)) l) = length l) by (rewrite combine_length, seq_length; lia).
  rewrite <- Lc in H at 2. pose proof (filter_all_iff _ _ H) as F.
  assert (In i (map fst (combine (seq 0 (length l)) l))).
  { rewrite combine_fst by apply seq_length. apply in_seq. lia. }
  apply in_map_iff in H0. destruct H0 as [[i' a] [<- Ha]]. apply (F _ Ha).
Qed.
Lemma all_some_nth {A} : forall (l : list (option A)) r, all_some l = Some r ->
  length r = length l /\ forall i d, (i < length l)%nat -> nth i l None = Some (nth i r d).
Proof.
  induction l as [|[a|] l IH]; intros r H; cbn in H; try discriminate.
  - injection H as <-. split; [reflexivity|]. intros. cbn in *. lia.
  - destruct (all_some l) as [r'|]; [|discriminate]. injection H as <-. destruct (IH r' eq_refl) as [L N]. split; [cbn; lia|].
    intros [|i] d Hi; [reflexivity|]. cbn in *. apply N. lia.
Qed.

(** When no point is filtered out, the weights for every temperature integrate
    every polynomial with at most as many coefficients as there are points
    exactly against -df/dE. *)
Theorem C52_partial : forall solve x mubeta emin emax rtol x' ws,
  (forall mu beta, In (mu, beta) mubeta -> 0 < beta <= 10 ^ 16 /\
     let N := length x in
     solves (map (iw_row x mu) (seq 0 N)) (map (iw_rhs beta) (seq 0 N)) (solve (map (iw_row x mu) (seq 0 N)) (map (iw_rhs beta) (seq 0 N)))) ->
  integration_weights solve x mubeta emin emax rtol = IWPair x' ws -> length x' = length x ->
  length ws = length mubeta /\ x' = x /\
  forall j mu beta, nth_error mubeta j = Some (mu, beta) -> forall cs, (length cs <= length x)%nat ->
  is_improper (fun e => peval cs e * wb beta (e - mu)) (qsum x' (nth j ws []) (peval cs)).
Proof.
  intros solve x mubeta emin emax rtol x' ws HS HI HL. unfold integration_weights in HI.
  destruct (Nat.even (length x)); [discriminate|]. destruct (Nat.eqb (length x) 1); [discriminate|].
  destruct (all_some _) as [w|] eqn:AS; [|discriminate]. injection HI as <- <-.
  destruct (all_some_nth _ _ AS) as [Lw Nw]. rewrite map_length in Lw, Nw.
  set (sel := iw_select x w emin emax rtol) in *.
  pose proof (keep_length_all sel x HL) as all.
  split; [rewrite map_length; exact Lw|]. split; [apply keep_all; auto|].
  intros j mu beta Hj cs Hc.
  assert (jl : (j < length mubeta)%nat) by (apply nth_error_Some; congruence).
  assert (Hin : In (mu, beta) mubeta) by (eapply nth_error_In; eauto).
  destruct (HS mu beta Hin) as [[Hb1 Hb2] [SL SE]]. rewrite map_length, seq_length in SL, SE.
  pose proof (Nw j [] jl) as n.
  rewrite (nth_indep _ None (iw_weights solve x (fst (0, 0)) (snd (0, 0)))) in n by (rewrite map_length; exact jl).
  rewrite (map_nth (fun mb => iw_weights solve x (fst mb) (snd mb))) in n.
  rewrite (nth_error_nth mubeta j (0, 0) Hj) in n. cbn [fst snd] in n. unfold iw_weights in n.
  rewrite Rltb_f in n by exact Hb2. injection n as n.
  rewrite (nth_indep _ [] (keep sel [])) by (rewrite map_length, Lw; exact jl). rewrite map_nth, <- n.
  set (W := solve _ _) in *.
  rewrite !keep_all by (rewrite ?SL; auto).
  destruct (recentre mu cs) as [ds [Ld Ed]].
  assert (X : is_improper (fun e => ((e - mu) ^ 0 * peval ds (e - mu)) * wb beta (e - mu)) (qsum x W (fun e => (e - mu) ^ 0 * peval ds (e - mu)))).
  { apply exact_from; auto; [|lia]. intros k Hk. specialize (SE k Hk).
    rewrite (nth_indep _ [] (iw_row x mu 0)) in SE by (rewrite map_length, seq_length; exact Hk).
    rewrite map_nth, seq_nth in SE by exact Hk.
    rewrite (nth_indep _ 0 (iw_rhs beta 0)) in SE by (rewrite map_length, seq_length; exact Hk).
    rewrite map_nth, seq_nth in SE by exact Hk. exact SE. }
  replace (qsum x W (peval cs)) with (qsum x W (fun e => (e - mu) ^ 0 * peval ds (e - mu))).
  - refine (improper_ext _ _ _ _ X). intro e. rewrite Ed. cbn [pow]. ring.
  - unfold qsum. apply lsum_ext. intros. rewrite Ed. cbn [pow]. ring.
Qed.
Print Assumptions C52_partial.

(** the system of three points -1, 0, 1 for mu = 0 and beta = 4 *)
Lemma b2_bounds : 1 <= b_coeff 2 <= 2.
Proof.
  unfold b_coeff. cbn [Nat.even]. replace (2 * zeta 2 * (1 - 2 / 2 ^ 2)) with (zeta 2) by field.
  pose proof (zeta_lim 2 ltac:(lia)) as Z. split.
  - apply (is_lim_seq_le_loc (fun _ => 1) (zeta_sum 2) 1 (zeta 2)); [|apply is_lim_seq_const|exact Z].
    exists 1%nat. intros [|n] Hn; [lia|]. clear. induction n as [|n IH].
    + cbn. lra.
    + change (zeta_sum 2 (S (S n))) with (zeta_sum 2 (S n) + / INR (S (S n)) ^ 2).
      assert (0 < / INR (S (S n)) ^ 2) by (apply Rinv_0_lt_compat, pow_lt, lt_0_INR; lia). lra.
  - apply (is_lim_seq_le_loc (zeta_sum 2) (fun _ => 2) (zeta 2) 2); [|exact Z|apply is_lim_seq_const].
    exists 0%nat. intros [|n] _; [cbn; lra|]. pose proof (zeta_sum_bound 2 n ltac:(lia)).
    assert (0 < / INR (S n)) by (apply Rinv_0_lt_compat, lt_0_INR; lia). lra.
Qed.
Lemma b0_val : b_coeff 0 = 1. Proof. unfold b_coeff. cbn. lra. Qed.
Lemma b1_val : b_coeff 1 = 0. Proof. reflexivity. Qed.
Definition w3 : list R := [b_coeff 2 / 16; 1 - b_coeff 2 / 8; b_coeff 2 / 16].
Definition solve3 (_ : list (list R)) (_ : list R) : list R := w3.
Lemma solves3 : solves (map (iw_row [-1; 0; 1] 0) (seq 0 3)) (map (iw_rhs 4) (seq 0 3)) (solve3 (map (iw_row [-1; 0; 1] 0) (seq 0 3)) (map (iw_rhs 4) (seq 0 3))).
Proof.
  split; [reflexivity|]. intros n Hn. unfold solve3, w3, dot, iw_row, iw_rhs. cbn [length map seq] in Hn.
  cbn [map seq]. rewrite b0_val, b1_val.
  destruct n as [|[|[|n]]]; try lia; cbn [nth map combine lsum fold_right fst snd fact INR pow Nat.add Nat.mul]; unfold lsum; cbn [fold_right fst snd]; field.
Qed.
Lemma lmax3 : lmax w3 = 1 - b_coeff 2 / 8.
Proof.
  pose proof b2_bounds. unfold lmax, w3. cbn [fold_right].
  rewrite (Rmax_right (b_coeff 2 / 16) (b_coeff 2 / 16)) by lra. apply Rmax_left. lra.
Qed.
Lemma sel3 : forall emin emax i, (i < 3)%nat -> iw_select [-1; 0; 1] [w3] emin emax (/ 10 ^ 4) i =
  Rltb emin (nth i [-1; 0; 1] 0) && Rltb (nth i [-1; 0; 1] 0) emax.
Proof.
  intros emin emax i Hi. unfold iw_select. cbn [map]. unfold lmax at 1. cbn [fold_right]. rewrite lmax3.
  rewrite Rltb_t; [reflexivity|]. pose proof b2_bounds. cbn [length INR].
  assert (b : b_coeff 2 / 16 <= nth i w3 0) by (destruct i as [|[|[|i]]]; try lia; cbn [nth w3]; lra).
  apply Rlt_le_trans with (b_coeff 2 / 16 / (1 - b_coeff 2 / 8)).
  - apply Rmult_lt_reg_r with (1 - b_coeff 2 / 8); [lra|]. replace (b_coeff 2 / 16 / (1 - b_coeff 2 / 8) * (1 - b_coeff 2 / 8)) with (b_coeff 2 / 16) by (field; lra).
    replace (/ 10 ^ 4) with (1 / 10000) by (cbn [pow]; field). lra.
  - apply Rmult_le_compat_r; [apply Rlt_le, Rinv_0_lt_compat; lra|exact b].
Qed.
(** all points are kept in the range from -2 to 2: the hypotheses can be met *)
Example C52_ex : integration_weights solve3 [-1; 0; 1] [(0, 4)] (-2) 2 (/ 10 ^ 4) = IWPair [-1; 0; 1] [w3].
Proof.
  unfold integration_weights. cbn [length Nat.even Nat.eqb map fst snd]. unfold iw_weights.
  rewrite Rltb_f by (cbn [pow]; lra). cbn [all_some]. unfold solve3.
  rewrite keep_all. 2:{ intros i Hi. rewrite sel3 by exact Hi. destruct i as [|[|[|i]]]; cbn [length] in Hi; try lia; cbn [nth]; rewrite !Rltb_t by lra; reflexivity. }
  cbn [map]. rewrite keep_all; [reflexivity|]. intros i Hi. cbn [length w3] in Hi. rewrite sel3 by exact Hi.
  destruct i as [|[|[|i]]]; try lia; cbn [nth]; rewrite !Rltb_t by lra; reflexivity.
Qed.
(** the full claim fails: with one point no pair of points and weights is returned ... *)
Theorem C52_one_point_refuted : forall solve x mubeta emin emax rtol,
  integration_weights solve [x] mubeta emin emax rtol = IWBare [1].
Proof. reflexivity. Qed.
(** ... and points outside of the energy range of the bands are dropped, after
    which even constants are integrated wrongly *)
Theorem C52_filter_refuted : exists solve x mu beta emin emax x' w,
  solves (map (iw_row x mu) (seq 0 3)) (map (iw_rhs beta) (seq 0 3)) (solve (map (iw_row x mu) (seq 0 3)) (map (iw_rhs beta) (seq 0 3))) /\
  integration_weights solve x [(mu, beta)] emin emax (/ 10 ^ 4) = IWPair x' [w] /\
  is_improper (fun e => peval [1] e * wb beta (e - mu)) 1 /\ qsum x' w (peval [1]) < 1.
Proof.
  exists solve3, [-1; 0; 1], 0, 4, (-1 / 2), 2, [0; 1], [1 - b_coeff 2 / 8; b_coeff 2 / 16].
  split; [exact solves3|]. split; [|split].
  - unfold integration_weights. cbn [length Nat.even Nat.eqb map fst snd]. unfold iw_weights.
    rewrite Rltb_f by (cbn [pow]; lra). cbn [all_some]. unfold solve3. unfold keep. cbn [length w3 seq combine map].
    cbn [filter fst]. rewrite !sel3 by lia. cbn [nth].
    rewrite (Rltb_f (-1 / 2) (-1)) by lra. rewrite !Rltb_t by lra. reflexivity.
  - pose proof (moment_beta 0 4 0 ltac:(lra)) as m. unfold iw_rhs in m. rewrite b0_val in m.
    replace (INR (fact 0) * (/ 4 ^ 0 * 1)) with 1 in m by (cbn; field).
    refine (improper_ext _ _ _ _ m). intro e. cbn [peval pow]. ring.
  - pose proof b2_bounds. unfold qsum, lsum. cbn [combine fold_right fst snd peval]. lra.
Qed.
Print Assumptions C52_one_point_refuted.
Print Assumptions C52_filter_refuted.
(** the zero temperature weights: a delta function on a sample point next to mu *)
Theorem C52_zero_temperature : forall solve x mu beta w, 10 ^ 16 < beta -> x <> [] -> iw_weights solve x mu beta = Some w ->
  exists i, (i < length x)%nat /\ Rabs (nth i x 0 - mu) < / 10 ^ 10 /\ forall p, qsum x w p = p (nth i x 0).
Proof.
  intros solve x mu beta w Hb Hx H. unfold iw_weights in H. rewrite Rltb_t in H by exact Hb.
  set (i := argmin _) in H. destruct (Rltb _ _) eqn:E; [|discriminate]. apply Rltb_true in E. injection H as <-.
  assert (Hi : (i < length x)%nat).
  { unfold i, argmin. destruct x as [|a x]; [congruence|]. cbn [map length].
    assert (G : forall l k b v, (b < k)%nat -> (argmin_from l k b v < k + length l)%nat).
    { induction l as [|c l IH]; intros k b v Hk; cbn [argmin_from length]; [lia|].
      destruct (Rltb c v); [specialize (IH (S k) k c)|specialize (IH (S k) b v)]; lia. }
    pose proof (G (map (fun x_ => Rabs (x_ - mu)) x) 1%nat 0%nat (Rabs (a - mu)) ltac:(lia)) as g. rewrite map_length in g. lia. }
  exists i. split; [exact Hi|]. split; [exact E|]. intro p. clear E Hb. revert Hi. generalize i. clear i.
  assert (G : forall x s i, (s <= i < s + length x)%nat ->
     qsum x (map (fun j => if Nat.eqb j i then 1 else 0) (seq s (length x))) p = p (nth (i - s) x 0)).
  { clear. induction x as [|a x IH]; intros s i Hi; cbn [length] in Hi; [lia|].
    unfold qsum, lsum in *. cbn [length seq map combine fold_right fst snd].
    destruct (Nat.eqb s i) eqn:E.
    - apply Nat.eqb_eq in E. subst. rewrite Nat.sub_diag. cbn [nth].
      assert (Z : forall x s, (i < s)%nat -> fold_right (fun q r => p (fst q) * snd q + r) 0 (combine x (map (fun j => if Nat.eqb j i then 1 else 0) (seq s (length x)))) = 0).
      { clear. induction x as [|b x IH]; intros s Hs; [reflexivity|]. cbn [length seq map combine fold_right fst snd].
        rewrite IH by lia. replace (Nat.eqb s i) with false by (symmetry; apply Nat.eqb_neq; lia). ring. }
      rewrite Z by lia. ring.
    - apply Nat.eqb_neq in E. rewrite IH by lia. replace (i - s)%nat with (S (i - S s)) by lia. cbn [nth]. ring. }
  intros i Hi. rewrite (G x 0%nat i) by lia. rewrite Nat.sub_0_r. reflexivity.
Qed.
Print Assumptions C52_zero_temperature.
Example C52_zero_ex : iw_weights solve3 [-1; 0; 1] 0 (10 ^ 17) = Some [0; 1; 0].
Proof.
  unfold iw_weights. rewrite Rltb_t by (cbn [pow]; lra). cbn [map].
  replace (Rabs (-1 - 0)) with 1 by (rewrite Rabs_left; lra). replace (Rabs (0 - 0)) with 0 by (rewrite Rminus_0_r, Rabs_R0; reflexivity).
  replace (Rabs (1 - 0)) with 1 by (rewrite Rabs_right; lra). unfold argmin. cbn [argmin_from].
  rewrite (Rltb_t 0 1) by lra. rewrite (Rltb_f 1 0) by lra. cbn [nth].
  rewrite Rminus_0_r, Rabs_R0. rewrite Rltb_t by (apply Rinv_0_lt_compat, pow_lt; lra). reflexivity.
Qed.

(** ** C77: the scattering time in conductivity_hall_tensor *)
(** a constant scattering time scales sigma2 by tau, sigma3 by tau^2 and
    cancels in the Hall coefficients *)
Theorem C77_constant_partial : forall tau sf ws mu spin V Vi Wi, tau <> 0 ->
  (forall i j, sigma2_tau tau sf ws mu spin V i j = tau * sigma2 sf ws mu spin V i j) /\
  (forall a b y, sigma3_tau tau sf ws mu spin V a b y = tau ^ 2 * sigma3 sf ws mu spin V a b y) /\
  ((forall i j, (i < 3)%nat -> (j < 3)%nat ->
      sum3 (fun b => Vi i b * sigma2 sf ws mu spin V b j) = delta i j /\ sum3 (fun b => sigma2 sf ws mu spin V i b * Vi b j) = delta i j /\
      sum3 (fun b => Wi i b * sigma2_tau tau sf ws mu spin V b j) = delta i j) ->
   forall i j k, (i < 3)%nat -> (j < 3)%nat -> (k < 3)%nat ->
   hall_coefficients Wi (sigma3_tau tau sf ws mu spin V) i j k = hall_coefficients Vi (sigma3 sf ws mu spin V) i j k).
Proof.
  intros tau sf ws mu spin V Vi Wi Ht.
  assert (S2 : forall i j, sigma2_tau tau sf ws mu spin V i j = tau * sigma2 sf ws mu spin V i j).
  { intros i j. unfold sigma2_tau, sigma2. rewrite (idf_ext _ _ _ _ _ (fun p => tau * (kv p j * kv p i))) by (intro; ring).
    rewrite idf_scal. ring. }
  assert (S3 : forall a b y, sigma3_tau tau sf ws mu spin V a b y = tau ^ 2 * sigma3 sf ws mu spin V a b y).
  { intros a b y. unfold sigma3_tau, sigma3. rewrite (idf_ext _ _ _ _ _ (fun p => tau ^ 2 * hall_integrand a b y p)) by (intro; ring).
    rewrite idf_scal. ring. }
  split; [exact S2|]. split; [exact S3|]. intros H i j k Hi Hj Hk.
  assert (WV : forall i j, (i < 3)%nat -> (j < 3)%nat -> Wi i j = Vi i j / tau).
  { clear i j Hi Hj. intros i j Hi Hj. set (s := sigma2 sf ws mu spin V) in *.
    transitivity (sum3 (fun b => sum3 (fun c => Wi i c * sigma2_tau tau sf ws mu spin V c b) * Vi b j) / tau).
    - transitivity (sum3 (fun c => Wi i c * sum3 (fun b => s c b * Vi b j))).
      + unfold sum3 at 1. rewrite (proj1 (proj2 (H 0%nat j ltac:(lia) Hj))), (proj1 (proj2 (H 1%nat j ltac:(lia) Hj))), (proj1 (proj2 (H 2%nat j ltac:(lia) Hj))).
        unfold delta. destruct j as [|[|[|j]]]; try lia; cbn [Nat.eqb]; ring.
      + unfold sum3. rewrite !S2. fold s. field. exact Ht.
    - f_equal. unfold sum3 at 1. rewrite (proj2 (proj2 (H i 0%nat Hi ltac:(lia)))), (proj2 (proj2 (H i 1%nat Hi ltac:(lia)))), (proj2 (proj2 (H i 2%nat Hi ltac:(lia)))).
      unfold delta. destruct i as [|[|[|i]]]; try lia; cbn [Nat.eqb]; ring. }
  unfold hall_coefficients, sum3. rewrite !WV, !S3 by lia. field. exact Ht.
Qed.
(** a callable scattering time: the product fails for every number of points
    but one and three, and for three points it uses the wrong point *)
Theorem C77_refuted : (forall n v tau, n <> 1%nat -> n <> 3%nat -> bcast_mul n v tau = None) /\
  exists v tau w, bcast_mul 3 v tau = Some w /\ w 0%nat 1%nat 1%nat <> reshape_mul v tau 0%nat 1%nat 1%nat.
Proof.
  split.
  - intros n v tau h1 h3. unfold bcast_mul. rewrite (proj2 (Nat.eqb_neq n 3)), (proj2 (Nat.eqb_neq n 1)) by assumption. reflexivity.
  - exists (fun _ _ _ => 1), INR, (fun m i j => 1 * INR j). split; [reflexivity|]. unfold reshape_mul. cbn. lra.
Qed.
(** one point is multiplied with its own scattering time; for three points the
    product is the right one for every integrand exactly when the scattering
    time is the same at the three points. Missing from the full property: a
    scattering time that depends on k, see C77_refuted. *)
Theorem C77_points_partial :
  (forall v tau, exists w, bcast_mul 1 v tau = Some w /\ forall i j, w 0%nat i j = v 0%nat i j * tau 0%nat) /\
  (forall tau, (forall v, exists w, bcast_mul 3 v tau = Some w /\
      forall m i j, (m < 3)%nat -> (i < 3)%nat -> (j < 3)%nat -> w m i j = v m i j * tau m) <->
    tau 0%nat = tau 1%nat /\ tau 1%nat = tau 2%nat).
Proof.
  split.
  - intros v tau. eexists. split; [reflexivity|]. intros i j. reflexivity.
  - intro tau. split.
    + intro H. destruct (H (fun _ _ _ => 1)) as (w & E & W). unfold bcast_mul in E. cbn [Nat.eqb] in E.
      injection E as E. subst w.
      pose proof (W 0%nat 0%nat 1%nat ltac:(lia) ltac:(lia) ltac:(lia)).
      pose proof (W 1%nat 0%nat 2%nat ltac:(lia) ltac:(lia) ltac:(lia)). cbv beta in *. lra.
    + intros [H0 H1] v. eexists. split; [reflexivity|]. intros m i j Hm Hi Hj. cbv beta. f_equal.
      destruct m as [|[|[|m]]]; try lia; destruct j as [|[|[|j]]]; try lia; congruence.
Qed.
Print Assumptions C77_constant_partial.
Print Assumptions C77_points_partial.
Example C77_points_ex : exists w, bcast_mul 1 (fun _ i j => INR (i + j)) (fun _ => 7) = Some w /\ w 0%nat 1%nat 2%nat = 21.
Proof. eexists. split; [reflexivity|]. cbn. lra. Qed.
Print Assumptions C77_refuted.
Example C77_ex : sigma2_tau 5 [(0, octa)] [1] 0 2 1 0 0 = 5 * (4 * elementary_charge).
Proof.
  unfold sigma2_tau, eV, integrate_df, lsum, octa. cbn [combine fold_right fst snd map flat_map app kv kw pow].
  unfold delta. cbn [Nat.eqb]. pose proof charge_pos. field. lra.
Qed.

(** ** C78: Hessians of free electrons *)
(** without limit there is one Hessian for every band; all are the matrix of
    second derivatives of every parabola *)
Theorem C78_partial : forall gs lim k, lim = None \/ lim = Some 0%nat ->
  let r := fe_bands_grad_hess gs lim k in
  length (snd r) = length (fst r) /\
  forall h, In h (snd r) -> forall g i j, In g gs -> (i < 3)%nat -> (j < 3)%nat ->
    is_derive (fun t : R => fe_fac * (2 * (upd k j t i - g i))) (k j) (h i j) /\
    is_derive (fun t : R => fe_fac * fe_norm2 (upd k i t) g) (k i) (fe_fac * (2 * (k i - g i))).
Proof.
  intros gs lim k Hl r. unfold r, fe_bands_grad_hess. cbn [fst snd]. split.
  - unfold fe_hess, fe_bands_grad. rewrite !map_length, limit_length.
    rewrite <- (Permutation.Permutation_length (psort_perm _)), map_length. destruct Hl as [-> | ->]; reflexivity.
  - intros h Hh g i j _ Hi Hj. unfold fe_hess in Hh. apply in_map_iff in Hh. destruct Hh as [_ [<- _]]. split.
    + unfold upd. destruct (Nat.eqb i j).
      * auto_derive; auto. ring.
      * rewrite Rmult_0_r. apply (is_derive_const (V:=R_NormedModule)).
    + unfold fe_norm2, sum3, upd. destruct i as [|[|[|i]]]; try lia; cbn [Nat.eqb]; auto_derive; auto; ring.
Qed.
(** with a limit there are more Hessians than bands *)
Theorem C78_refuted : exists gs lim k, let r := fe_bands_grad_hess gs lim k in
  length (fst r) = 1%nat /\ length (snd r) = 2%nat.
Proof.
  exists [ax 0; ax 1], (Some 1%nat), (ax 0). cbn zeta. split; [|reflexivity]. unfold fe_bands_grad_hess, fe_bands_grad. cbn [fst].
  rewrite map_length, limit_length, <- (Permutation.Permutation_length (psort_perm _)). reflexivity.
Qed.
Print Assumptions C78_partial.
Print Assumptions C78_refuted.
Example C78_ex : length (fe_bands_grad [ax 0; ax 1; ax 2] None (ax (6 / 10))) = 3%nat /\ length (fe_hess [ax 0; ax 1; ax 2]) = 3%nat.
Proof.
  unfold fe_bands_grad. split; [|reflexivity].
  rewrite map_length, limit_length, <- (Permutation.Permutation_length (psort_perm _)). reflexivity.
Qed.

(** ** C79: KIntegral has one value for every temperature *)
(** for a metal and a list with a positive temperature, whenever the set up succeeds *)
Theorem C79_partial : forall kB fermi mu Ts N points solve emin emax rtol x w,
  length mu = length Ts -> Exists (fun T => 0 < T) Ts ->
  kint_init true kB fermi mu Ts N points solve emin emax rtol = KOk x w ->
  kint_values mu (KOk x w) = Some (length Ts).
Proof.
  intros kB fermi mu Ts N points solve emin emax rtol x w HL HE H. unfold kint_init in H.
  destruct (negb _); [discriminate|]. destruct (Nat.even N); [discriminate|].
  assert (E : existsb (fun T => Rltb 0 T) Ts = true).
  { apply existsb_exists. apply Exists_exists in HE. destruct HE as [T [i p]]. exists T. split; auto. apply Rltb_t, p. }
  rewrite E in H. unfold integration_weights in H. destruct (Nat.even (length points)); [discriminate|].
  destruct (Nat.eqb (length points) 1); [discriminate|]. destruct (all_some _) as [l|] eqn:A; [|discriminate].
  destruct (all_some_nth _ _ A) as [La _]. injection H as <- <-. unfold kint_values. f_equal.
  rewrite map_length, combine_length, map_length in La. rewrite combine_length, map_length. lia.
Qed.
(** at zero temperature only the Fermi surface counts *)
Theorem C79_zero_temperature : forall kB fermi mu0 N points solve emin emax rtol, Nat.even N = false ->
  kint_init true kB fermi [mu0] [0] N points solve emin emax rtol = KOk [fermi] [[1]] /\
  kint_values [mu0] (KOk [fermi] [[1]]) = Some 1%nat.
Proof.
  intros. unfold kint_init. cbn [forallb existsb]. rewrite Rleb_t by lra. rewrite Rltb_f by lra. rewrite H. split; reflexivity.
Qed.
(** the full claim fails: an insulator at T = 0 (AttributeError instead of the
    documented empty integrals), the list [0; 0] (one value for two
    temperatures) and N = 1 at positive temperature (ValueError) *)
Theorem C79_refuted : forall kB fermi mu0 solve emin emax rtol points p T,
  kint_init false kB fermi [mu0] [0] 1 points solve emin emax rtol = KAttributeError /\
  kint_values [mu0; mu0] (kint_init true kB fermi [mu0; mu0] [0; 0] 11 points solve emin emax rtol) = Some 1%nat /\
  (0 < T -> kint_init true kB fermi [mu0] [T] 1 [p] solve emin emax rtol = KValueError).
Proof.
  intros. unfold kint_init. cbn [forallb existsb]. rewrite (Rleb_t 0 0) by lra. rewrite (Rltb_f 0 0) by lra. split; [reflexivity|].
  split; [reflexivity|]. intro HT. rewrite Rleb_t, Rltb_t by lra. reflexivity.
Qed.
(** a zero temperature among positive ones is no division by zero: its weights,
    before points are filtered, evaluate every function at a sample less than
    10^-10 from the chemical potential, and exist when there is such a sample.
    Missing from the full property: see C79_refuted. *)
Theorem C79_mixed_partial : forall kB solve x mu, x <> [] ->
  (forall w, iw_weights solve x mu (beta_of kB 0) = Some w ->
     exists i, (i < length x)%nat /\ Rabs (nth i x 0 - mu) < / 10 ^ 10 /\ forall p, qsum x w p = p (nth i x 0)) /\
  (hd 0 x = mu -> exists w, iw_weights solve x mu (beta_of kB 0) = Some w).
Proof.
  intros kB solve x mu Hx.
  assert (Hb : 10 ^ 16 < beta_of kB 0).
  { unfold beta_of. rewrite Rmult_0_r, Rplus_0_l. unfold Rdiv. rewrite Rinv_inv, Rmult_1_l. lra. }
  split.
  - intros w. apply C52_zero_temperature; assumption.
  - intro H0. unfold iw_weights. rewrite Rltb_t by exact Hb. destruct x as [|a x]; [congruence|]. cbn [hd] in H0. subst a.
    assert (G : forall l k v, (forall y, In y l -> v <= y) -> argmin_from l k 0 v = 0%nat).
    { induction l as [|c l IH]; intros k v Hl; cbn [argmin_from]; [reflexivity|].
      rewrite Rltb_f by (apply Hl; left; reflexivity). apply IH. intros y Hy. apply Hl. right. exact Hy. }
    unfold argmin. cbn [map]. rewrite G.
    + cbn [nth]. rewrite Rminus_diag_eq, Rabs_R0 by reflexivity.
      rewrite Rltb_t by (apply Rinv_0_lt_compat, pow_lt; lra). eexists. reflexivity.
    + intros y Hy. apply in_map_iff in Hy. destruct Hy as (z & <- & _).
      rewrite (Rminus_diag_eq mu mu), Rabs_R0 by reflexivity. apply Rabs_pos.
Qed.
Print Assumptions C79_partial.
Print Assumptions C79_mixed_partial.
Example C79_mixed_ex : exists w, iw_weights solve3 [0; 1; 2] 0 (beta_of 1 0) = Some w /\ qsum [0; 1; 2] w (fun e => e + 5) = 5.
Proof.
  destruct (C79_mixed_partial 1 solve3 [0; 1; 2] 0 ltac:(discriminate)) as [H1 H2]. destruct (H2 eq_refl) as [w H]. exists w. split; [exact H|].
  destruct (H1 w H) as (i & Hi & Ha & Hp). rewrite Hp. cbn [length] in Hi.
  assert (/ 10 ^ 10 < 1) by (rewrite <- Rinv_1; apply Rinv_lt_contravar; cbn [pow]; lra).
  destruct i as [|[|[|i]]]; try lia; cbn [nth] in *; [lra| |]; rewrite Rabs_right in Ha by lra; lra.
Qed.
Print Assumptions C79_zero_temperature.
Print Assumptions C79_refuted.
Example C79_ex : forall N : nat, N = 3%nat -> kint_init true 1 0 [0] [1 / 4 - / 10 ^ 20] N [-1; 0; 1] solve3 (-2) 2 (/ 10 ^ 4) = KOk [-1; 0; 1] [w3].
Proof.
  intros N ->. unfold kint_init. cbn [forallb existsb Nat.even combine map].
  assert (0 < / 10 ^ 20 < 1 / 4).
  { split; [apply Rinv_0_lt_compat, pow_lt; lra|]. apply Rmult_lt_reg_r with (10 ^ 20); [apply pow_lt; lra|]. rewrite Rinv_l by (apply pow_nonzero; lra). cbn [pow]. lra. }
  rewrite Rleb_t, Rltb_t by lra.
  replace (beta_of 1 (1 / 4 - / 10 ^ 20)) with 4 by (unfold beta_of; replace (1 * (1 / 4 - / 10 ^ 20) + / 10 ^ 20) with (1 / 4) by ring; field).
  cbn [andb orb negb]. rewrite C52_ex. reflexivity.
Qed.

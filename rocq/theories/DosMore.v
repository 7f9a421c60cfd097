(** Properties C70-C74: naive Fermi energy, secant method, surface weights, quadrature rules, energy at T > 0. *)
From Coq Require Import Reals Lra Lia Psatz List ZArith Bool Arith Permutation Sorted Machin.
From Coquelicot Require Import Coquelicot.
From Verif Require Import NbrModel SmearModel SmearCalc SmearProps CellProps DosModel DosProps Basel FermiInt FermiConv DosEnergy.
Import List ListNotations.
Local Open Scope R_scope.

(** ** C70: naive_fermi_energy *)
(** Specification: [E] separates the [i] lowest levels from the others. *)
Definition separates (levels : list R) (i : nat) (E : R) : Prop :=
  exists low high, Permutation levels (low ++ high) /\ length low = i /\ (forall x, In x low -> x <= E) /\ (forall x, In x high -> E <= x).
Lemma rinsert_perm : forall x l, Permutation (x :: l) (rinsert x l).
Proof.
  intros x l. induction l as [|y l IH]; cbn [rinsert]; auto. destruct (Rleb x y); auto.
  eapply Permutation_trans; [apply perm_swap|]. apply perm_skip, IH.
Qed.
Lemma rsort_perm : forall l, Permutation l (rsort l).
Proof. induction l as [|x l IH]; cbn [rsort]; auto. eapply Permutation_trans; [apply perm_skip, IH|apply rinsert_perm]. Qed.
Lemma rinsert_sorted : forall x l, StronglySorted Rle l -> StronglySorted Rle (rinsert x l).
Proof.
  intros x l H. induction H as [|y l Hs IH Hf]; cbn [rinsert]; [repeat constructor|].
  unfold Rleb. destruct (Rle_dec x y).
  - constructor; [constructor; auto|]. constructor; auto. rewrite Forall_forall in *. intros z Hz. specialize (Hf z Hz). lra.
  - constructor; auto. rewrite Forall_forall in *. intros z Hz. apply (Permutation_in _ (Permutation_sym (rinsert_perm x l))) in Hz.
    destruct Hz as [<-|Hz]; [lra|auto].
Qed.
Lemma rsort_sorted : forall l, StronglySorted Rle (rsort l).
Proof. induction l; cbn [rsort]; [constructor|apply rinsert_sorted; auto]. Qed.
Lemma sorted_split : forall l i, StronglySorted Rle l -> forall x y, In x (firstn i l) -> In y (skipn i l) -> x <= y.
Proof.
  intros l i H. revert i. induction H as [|a l Hs IH Hf]; intros [|i] x y Hx Hy; cbn [firstn skipn] in *; try contradiction.
  destruct Hx as [<-|Hx]; [|eapply IH; eauto]. rewrite Forall_forall in Hf. apply Hf.
  rewrite <- (firstn_skipn i l). apply in_app_iff. auto.
Qed.
(** what it returns: an energy that separates the i + 1 lowest levels (one too many) from the others *)
Theorem C70_value_partial : forall bands i E, naive_fermi_energy bands i = Some E -> separates (concat bands) (S i) E.
Proof.
  intros bands i E H. unfold naive_fermi_energy in H. set (l := rsort (concat bands)) in *.
  assert (S : StronglySorted Rle l) by apply rsort_sorted.
  destruct (skipn i l) as [|a r] eqn:K; [destruct i; discriminate|].
  assert (L : l = firstn i l ++ [a] ++ r) by (rewrite <- (firstn_skipn i l) at 1; rewrite K; reflexivity).
  assert (Len : length (firstn i l) = i).
  { rewrite firstn_length. assert (length (skipn i l) <> 0%nat) by (rewrite K; discriminate). rewrite skipn_length in H0. lia. }
  exists (firstn i l ++ [a]), r. split; [|split; [|split]].
  - eapply Permutation_trans; [apply rsort_perm|]. fold l. rewrite L at 1. rewrite app_assoc. apply Permutation_refl.
  - rewrite app_length, Len. cbn. lia.
  - intros x Hx. assert (A : a <= E).
    { destruct r as [|b r]; cbn [firstn] in H; injection H as <-; unfold rmean; cbn; [lra|].
      assert (a <= b); [|lra]. assert (S2 : StronglySorted Rle (skipn i l)).
      { clear - S. revert i. induction S as [|x l Hs IH Hf]; intros [|i]; cbn [skipn]; try constructor; auto. }
      rewrite K in S2. inversion S2 as [|? ? _ F2]; subst. rewrite Forall_forall in F2. apply F2. left; auto. }
    apply in_app_iff in Hx. destruct Hx as [Hx|[<-|[]]]; auto.
    assert (x <= a); [|lra]. apply (sorted_split l i S); auto. rewrite K. left; auto.
  - intros y Hy. assert (S2 : StronglySorted Rle (skipn i l)).
    { clear - S. revert i. induction S as [|x l Hs IH Hf]; intros [|i]; cbn [skipn]; try constructor; auto. }
    rewrite K in S2. inversion S2 as [|? ? S3 F3]; subst. rewrite Forall_forall in F3.
    destruct r as [|b r]; [destruct Hy|]. cbn [firstn] in H. injection H as <-. unfold rmean; cbn.
    assert (a <= b) by (apply F3; left; auto). assert (b <= y); [|lra].
    destruct Hy as [<-|Hy]; [lra|]. inversion S3 as [|? ? _ F4]; subst. rewrite Forall_forall in F4. auto.
Qed.
Print Assumptions C70_value_partial.
Lemma filter_perm_len : forall (p : R -> bool) a b, Permutation a b -> length (filter p a) = length (filter p b).
Proof.
  intros p a b H. induction H; cbn [filter]; auto.
  - destruct (p x); cbn [length]; auto.
  - destruct (p x), (p y); auto.
  - congruence.
Qed.
Lemma separates_count : forall l i E, separates l i E -> (length (filter (fun x => Rltb x E) l) <= i)%nat.
Proof.
  intros l i E (low & high & P & L & _ & H). rewrite (filter_perm_len _ _ _ P), filter_app, app_length.
  assert (Z : filter (fun x => Rltb x E) high = []).
  { clear - H. induction high as [|x r IH]; cbn [filter]; auto. rewrite Rltb_f; [apply IH; intros; apply H; right; auto|].
    specialize (H x (or_introl eq_refl)). lra. }
  rewrite Z. cbn [length]. rewrite Nat.add_0_r, <- L. clear. induction low as [|x r IH]; cbn [filter length]; auto. destruct (Rltb x E); cbn [length]; lia.
Qed.
(** Two k points with the bands 0, 2 and 1, 3 and one electron per cell: the result 5/2 has three of the four levels below
    it.  With both bands full the result is nan.  For an insulator the result is inside the upper band instead of the gap:
    the levels 0, 0, 1, 1 give 1. *)
Theorem C70_refuted : exists bands E, naive_fermi_energy bands 2 = Some E /\ length (concat bands) = 4%nat /\ ~ separates (concat bands) 2 E /\ naive_fermi_energy bands 4 = None.
Proof.
  exists [[0; 2]; [1; 3]], (5/2).
  assert (S : rsort (concat [[0; 2]; [1; 3]]) = [0; 1; 2; 3]).
  { assert (Z : Rleb 2 1 = false) by (unfold Rleb; destruct Rle_dec; auto; lra).
    cbn [concat app rsort]. repeat (cbn [rinsert]; rewrite ?Z, ?(Rleb_t 1 3), ?(Rleb_t 2 3), ?(Rleb_t 0 1) by lra). reflexivity. }
  unfold naive_fermi_energy. rewrite S. cbn [firstn skipn].
  split; [unfold rmean; cbn; f_equal; field|]. split; [reflexivity|]. split; [|reflexivity].
  intros H. apply separates_count in H. cbn [concat app filter] in H.
  rewrite (Rltb_t 0), (Rltb_t 2), (Rltb_t 1), (Rltb_f 3) in H by lra. cbn in H. lia.
Qed.
Print Assumptions C70_refuted.

(** ** C71: secant *)
Lemma secant_loop_ok : forall y f tol n a b fa fb x,
  0 < tol -> (forall u v, f u = f v -> u = v) -> fa = f a - y -> fb = f b - y ->
  secant_loop y f tol n a b fa fb = Some (x, true) -> Rabs (f x - y) < tol \/ f x = y.
Proof.
  induction n as [|n IH]; intros a b fa fb x Ht Hi -> ->; cbn [secant_loop].
  - destruct (Reqb _ 0); discriminate.
  - destruct (Reqb (f b - y - (f a - y)) 0) eqn:D; [discriminate|].
    assert (Nz : f b - f a <> 0). { intros Z. replace (f b - y - (f a - y)) with 0 in D by lra. rewrite Reqb_refl in D. discriminate. }
    set (x0 := (a * (f b - y) - b * (f a - y)) / (f b - y - (f a - y))).
    assert (EX : x0 * (f b - f a) = a * (f b - y) - b * (f a - y)) by (unfold x0; field; lra).
    destruct (Reqb a x0 || Reqb b x0) eqn:Q.
    + intros H. injection H as <-. apply orb_prop in Q. destruct Q as [Q|Q]; apply Reqb_true in Q; rewrite <- Q in *.
      * right. assert ((b - a) * (f a - y) = 0) by lra. apply Rmult_integral in H. destruct H; [|lra]. exfalso. apply Nz. replace b with a by lra. lra.
      * right. assert ((b - a) * (f b - y) = 0) by lra. apply Rmult_integral in H. destruct H; [|lra]. exfalso. apply Nz. replace b with a by lra. lra.
    + destruct (Rltb (Rabs (f x0 - y)) tol || Reqb (f b - y) (f x0 - y)) eqn:Q2.
      * intros H. injection H as <-. apply orb_prop in Q2. destruct Q2 as [Q2|Q2]; [left; apply Rltb_true; auto|].
        apply Reqb_true in Q2. exfalso. assert (b = x0) by (apply Hi; lra). apply orb_false_elim in Q. destruct Q as [_ Q]. rewrite <- H, Reqb_refl in Q. discriminate.
      * apply IH; auto.
Qed.
(** An early return is a root up to the tolerance, for every injective (in particular strictly monotonic) function. *)
Theorem C71_early_return : forall y f a b tol n x, 0 < tol -> (forall u v, f u = f v -> u = v) ->
  secant y f a b tol n = Some (x, true) -> Rabs (f x - y) < tol.
Proof.
  intros y f a b tol n x Ht Hi H. destruct (secant_loop_ok _ _ _ _ _ _ _ _ _ Ht Hi eq_refl eq_refl H) as [|E]; auto.
  rewrite E. replace (y - y) with 0 by ring. rewrite Rabs_R0. auto.
Qed.
Print Assumptions C71_early_return.
(** Affine functions are solved exactly in the first step. *)
Theorem C71_affine : forall m c y a b tol n, 0 < tol -> m <> 0 -> a <> b -> (0 < n)%nat ->
  secant y (fun x => m * x + c) a b tol n = Some ((y - c) / m, true).
Proof.
  intros m c y a b tol n Ht Hm Hab Hn. destruct n as [|n]; [lia|]. unfold secant. cbn [secant_loop].
  assert (Nz : m * b + c - y - (m * a + c - y) <> 0) by (replace (m * b + c - y - (m * a + c - y)) with (m * (b - a)) by ring; apply Rmult_integral_contrapositive_currified; lra).
  unfold Reqb at 1. destruct Req_EM_T; [contradiction|].
  replace ((a * (m * b + c - y) - b * (m * a + c - y)) / (m * b + c - y - (m * a + c - y))) with ((y - c) / m) by (field; split; auto; replace (m * b + c - y - (m * a + c - y)) with (m * (b - a)) in Nz by ring; lra).
  destruct (Reqb a ((y - c) / m) || Reqb b ((y - c) / m)); auto.
  replace (m * ((y - c) / m) + c - y) with 0 by (field; auto). rewrite Rabs_R0, Rltb_t by auto. reflexivity.
Qed.
Print Assumptions C71_affine.
Example C71_example : secant 5 (fun x => 2 * x + 1) 0 1 (/ 10 ^ 16) 100 = Some (2, true).
Proof. assert (0 < / 10 ^ 16) by (apply Rinv_0_lt_compat, pow_lt; lra). rewrite C71_affine; try lra; try lia. repeat f_equal; field. Qed.
(** Without injectivity the early return because of equal values is no root: two equal values, then the method gives up. *)
Theorem C71_needs_injective : exists y f a b tol n x, 0 < tol /\ (forall u v, u <= v -> f u <= f v) /\ (exists r, f r = y) /\
  secant y f a b tol n = Some (x, true) /\ tol < Rabs (f x - y).
Proof.
  (* f x = min (x, 1) below 10, x - 9 above: flat between 1 and 10 *)
  exists 2, (fun x => Rmax (Rmin x 1) (x - 9)), 0, (3/2), (1/2), 1%nat, 3. split; [lra|]. split; [|split; [|split]].
  - intros u v H. apply Rmax_lub; [eapply Rle_trans; [|apply Rmax_l]; apply Rle_min_compat_r; auto|eapply Rle_trans; [|apply Rmax_r]; lra].
  - exists 11. rewrite Rmin_right, Rmax_right by lra. lra.
  - unfold secant. cbn [secant_loop]. rewrite (Rmin_left 0 1), (Rmin_right (3/2) 1), (Rmax_left 0), (Rmax_left 1) by lra.
    unfold Reqb at 1. destruct Req_EM_T; [lra|]. replace ((0 * (1 - 2) - 3 / 2 * (0 - 2)) / (1 - 2 - (0 - 2))) with 3 by field.
    unfold Reqb at 1 2. destruct Req_EM_T; [lra|]. destruct Req_EM_T; [lra|]. cbn [orb].
    rewrite (Rmin_right 3 1), (Rmax_left 1) by lra. rewrite Reqb_refl, orb_true_r. reflexivity.
  - rewrite Rmin_right, Rmax_left by lra. rewrite Rabs_left; lra.
Qed.
Print Assumptions C71_needs_injective.

(** ** C72: normalized weights of fermi_surface_samples *)
Lemma rsum_div : forall l c, rsum (map (fun x => x / c) l) = rsum l / c.
Proof. induction l as [|x l IH]; intros c; simpl; [unfold Rdiv; ring|]. change (fold_right Rplus 0 (map (fun x => x / c) l)) with (rsum (map (fun x => x / c) l)). rewrite IH. unfold rsum, Rdiv. ring. Qed.
Lemma rsum_app : forall a b, rsum (a ++ b) = rsum a + rsum b.
Proof. induction a as [|x a IH]; intros b; simpl; [ring|]. unfold rsum in *. simpl. rewrite IH. ring. Qed.
Lemma rsum_concat : forall l, rsum (concat l) = rsum (map rsum l).
Proof. induction l as [|x l IH]; simpl; auto. rewrite rsum_app, IH. reflexivity. Qed.
Theorem C72_band_partial : forall bs, (forall ws, In ws bs -> rsum (map fst ws) <> 0) ->
  forall w, In w (fs_weights false NormBand bs) -> rsum w = 1.
Proof.
  intros bs H w Hw. unfold fs_weights in Hw. apply in_map_iff in Hw. destruct Hw as (ws & <- & Hw). unfold fs_band. rewrite rsum_div.
  apply Rinv_r. apply H; auto.
Qed.
Print Assumptions C72_band_partial.
Theorem C72_total_partial : forall bs, rsum (map (fun ws => rsum (map fst ws)) bs) <> 0 -> rsum (concat (fs_weights false NormTotal bs)) = 1.
Proof.
  intros bs H. unfold fs_weights. set (t := rsum (map (fun ws => rsum (map fst ws)) bs)) in *. rewrite map_map, rsum_concat, map_map.
  rewrite (map_ext _ (fun ws => (fun x => x / t) (rsum (map fst ws)))).
  - rewrite <- (map_map (fun ws => rsum (map fst ws)) (fun x => x / t)), rsum_div. apply Rinv_r. auto.
  - intros ws. unfold fs_band. rewrite rsum_div. reflexivity.
Qed.
Print Assumptions C72_total_partial.
(** weighted by the gradient, the weights are still divided by the area: two samples of weight 1 with gradients of norm 2 *)
Theorem C72_gradient_refuted : rsum (fs_band true NormBand [(1, 2); (1, 2)]) < 1 /\ rsum (concat (fs_weights true NormTotal [[(1, 2); (1, 2)]])) < 1.
Proof.
  assert (P : 0 < / 10 ^ 20) by (apply Rinv_0_lt_compat, pow_lt; lra). set (e := / 10 ^ 20) in *.
  assert (Q : / (2 + e) < / 2) by (apply Rinv_lt_contravar; lra).
  split; cbn; fold e; unfold Rdiv; lra.
Qed.
Print Assumptions C72_gradient_refuted.
Example C72_example : rsum (concat (fs_weights false NormTotal [[(1, 2); (3, 2)]; [(4, 7)]])) = 1.
Proof. apply C72_total_partial. cbn. lra. Qed.

(** ** C73: the quadrature rules *)
Lemma PI_bounds : 314159265358979 / 10 ^ 14 < PI < 314159265358980 / 10 ^ 14.
Proof.
  pose proof (PI_2_3_7_ineq 8) as [A B]. unfold PI_2_3_7_tg, tg_alt, Ratan_seq in *. cbn [sum_f_R0 Nat.mul Nat.add] in A, B.
  split; simpl in *; lra.
Qed.
Lemma int_df_fermi : forall x, int_df x = 1 / 2 - fermi x.
Proof.
  intros x. unfold int_df, fermi, tanh, sinh, cosh. replace (exp x) with (exp (x / 2) * exp (x / 2)) by (rewrite <- exp_plus; f_equal; field).
  rewrite exp_Ropp. pose proof (exp_pos (x / 2)) as P. set (u := exp (x / 2)) in *. field. repeat split; nra.
Qed.
(** the exact integral of a quadratic polynomial against the derivative of the Fermi function *)
Theorem C73_exact : forall mu beta a b c, 0 < beta ->
  is_improper (fun e => (a * (e - mu) ^ 2 + b * (e - mu) + c) * wb beta (e - mu)) (a * (PI ^ 2 / 3) / beta ^ 2 + c).
Proof.
  intros mu beta a b c Hb eps He.
  destruct C49_second_moment as [X1 X2]. destruct C49_normalisation as (_ & _ & Y1 & Y2).
  apply is_lim_spec in X1, X2, Y1, Y2.
  set (K := Rabs (a / beta ^ 2) + Rabs (b / beta) + Rabs c + 1).
  assert (HK : 0 < K) by (unfold K; pose proof (Rabs_pos (a / beta ^ 2)); pose proof (Rabs_pos (b / beta)); pose proof (Rabs_pos c); lra).
  assert (Hq : 0 < eps / (2 * K)) by (apply Rdiv_lt_0_compat; lra). set (q := mkposreal _ Hq).
  destruct (X1 q) as [m1 M1]. destruct (X2 q) as [m2 M2]. destruct (Y1 q) as [m3 M3]. destruct (Y2 q) as [m4 M4]. destruct (fermi_tail q (cond_pos q)) as [m5 M5]. cbn [RIneq.pos q] in *.
  set (m := Rmax (Rmax (Rmax m1 (- m2)) (Rmax m3 (- m4))) m5).
  assert (Hm : m1 <= m /\ - m2 <= m /\ m3 <= m /\ - m4 <= m /\ m5 <= m).
  { pose proof (Rmax_l (Rmax (Rmax m1 (- m2)) (Rmax m3 (- m4))) m5). pose proof (Rmax_r (Rmax (Rmax m1 (- m2)) (Rmax m3 (- m4))) m5).
    pose proof (Rmax_l (Rmax m1 (- m2)) (Rmax m3 (- m4))). pose proof (Rmax_r (Rmax m1 (- m2)) (Rmax m3 (- m4))).
    pose proof (Rmax_l m1 (- m2)). pose proof (Rmax_r m1 (- m2)). pose proof (Rmax_l m3 (- m4)). pose proof (Rmax_r m3 (- m4)). unfold m. repeat split; lra. }
  clearbody m. destruct Hm as (N1 & N2 & N3 & N4 & N5).
  exists (Rabs mu + Rabs m / beta). intros A B HA HB.
  set (xa := (A - mu) * beta). set (xb := (B - mu) * beta).
  assert (Am : Rabs m / beta * beta = Rabs m) by (field; lra). pose proof (Rle_abs m). pose proof (Rle_abs mu). pose proof (Rle_abs (- mu)). rewrite Rabs_Ropp in H1.
  assert (Ha : xa < - m) by (unfold xa; nra). assert (Hbb : m < xb) by (unfold xb; nra).
  exists (int_poly xa xb (a / beta ^ 2) (b / beta) c). split.
  - eapply is_RInt_ext; [|apply int_poly_shift; lra]. intros e _. cbv beta. f_equal. field. lra.
  - unfold int_poly. specialize (M1 xb ltac:(lra)). specialize (M2 xa ltac:(lra)). specialize (M3 xb ltac:(lra)). specialize (M4 xa ltac:(lra)).
    pose proof (M5 xb ltac:(lra)) as M5b. pose proof (M5 (- xa) ltac:(lra)) as M5a. rewrite fermi_opp in M5a. rewrite !int_df_fermi.
    pose proof (fermi_range xb). pose proof (fermi_range xa). rewrite Rminus_0_r in M3, M4.
    set (d := eps / (2 * K)) in *. assert (Ed : 2 * K * d = eps) by (unfold d; field; lra).
    set (u := int_xxdf xb - PI ^ 2 / 6) in *. set (v := int_xxdf xa - - (PI ^ 2 / 6)) in *.
    replace (int_xxdf xb) with (u + PI ^ 2 / 6) by (unfold u; ring). replace (int_xxdf xa) with (v - PI ^ 2 / 6) by (unfold v; ring).
    match goal with |- Rabs ?t < _ => replace t with (a / beta ^ 2 * (u - v) + b / beta * (int_xdf xb - int_xdf xa) + c * ((fermi xa - 1) - fermi xb)) by (field; lra) end.
    assert (T : forall p r, Rabs r <= 2 * d -> Rabs (p * r) <= Rabs p * (2 * d)) by (intros; rewrite Rabs_mult; apply Rmult_le_compat_l; auto; apply Rabs_pos).
    assert (S : forall r s, Rabs r < d -> Rabs s < d -> Rabs (r - s) <= 2 * d) by (intros r s R1 R2; apply Rabs_def2 in R1; apply Rabs_def2 in R2; apply Rabs_le; lra).
    pose proof (T (a / beta ^ 2) (u - v) (S _ _ M1 M2)). pose proof (T (b / beta) (int_xdf xb - int_xdf xa) (S _ _ M3 M4)).
    change (RIneq.pos q) with d in M5a, M5b. assert (HQd : Rabs (fermi xa - 1 - fermi xb) <= 2 * d) by (apply Rabs_le; lra). pose proof (T c _ HQd).
    eapply Rle_lt_trans; [apply Rabs_triang|]. eapply Rle_lt_trans; [apply Rplus_le_compat_r, Rabs_triang|]. unfold K in Ed. nra.
Qed.
Print Assumptions C73_exact.
(** the two rules for the derivative agree with it up to 10^-12, the linear term is integrated exactly *)
Theorem C73_df_rules : forall mu beta a b c, 0 < beta -> let f := fun e => a * (e - mu) ^ 2 + b * (e - mu) + c in
  let exact := a * (PI ^ 2 / 3) / beta ^ 2 + c in
  Rabs (gauss_5_df f mu beta - exact) <= (Rabs a / beta ^ 2 + Rabs c) / 10 ^ 12 /\
  Rabs (gauss_7_df f mu beta - exact) <= (Rabs a / beta ^ 2 + Rabs c) / 10 ^ 12.
Proof.
  intros mu beta a b c Hb f exact. pose proof PI_bounds as [P1 P2].
  assert (Q1 : 986960440108931 / 10 ^ 14 < PI ^ 2 < 986960440108945 / 10 ^ 14).
  { split.
    - apply Rlt_le_trans with ((314159265358979 / 10 ^ 14) ^ 2); [lra|]. apply pow_incr. lra.
    - apply Rle_lt_trans with ((314159265358980 / 10 ^ 14) ^ 2); [apply pow_incr; lra|lra]. }
  assert (G : forall A2 A0, Rabs (A2 - PI ^ 2 / 3) <= / 10 ^ 12 -> Rabs (A0 - 1) <= / 10 ^ 12 ->
    Rabs (a * A2 / beta ^ 2 + c * A0 - exact) <= (Rabs a / beta ^ 2 + Rabs c) / 10 ^ 12).
  { intros A2 A0 H2 H0. unfold exact. assert (Pb : 0 < / beta ^ 2) by (apply Rinv_0_lt_compat, pow_lt; auto).
    replace (a * A2 / beta ^ 2 + c * A0 - (a * (PI ^ 2 / 3) / beta ^ 2 + c)) with (a * / beta ^ 2 * (A2 - PI ^ 2 / 3) + c * (A0 - 1)) by (unfold Rdiv; ring).
    eapply Rle_trans; [apply Rabs_triang|]. rewrite !Rabs_mult. rewrite (Rabs_right (/ beta ^ 2)) by lra.
    replace ((Rabs a / beta ^ 2 + Rabs c) / 10 ^ 12) with (Rabs a * / beta ^ 2 * / 10 ^ 12 + Rabs c * / 10 ^ 12) by (unfold Rdiv; ring).
    apply Rplus_le_compat; apply Rmult_le_compat_l; auto; [|apply Rabs_pos]. apply Rmult_le_pos; [apply Rabs_pos|lra]. }
  split.
  - replace (gauss_5_df f mu beta) with (a * (2 * (18831678927720540279 / 10 ^ 22 * (8211650879369324585 / 10 ^ 18) ^ 2 + 16265409664449248517 / 10 ^ 20 * (3054894371595123559 / 10 ^ 18) ^ 2)) / beta ^ 2
      + c * (2 * (18831678927720540279 / 10 ^ 22 + 16265409664449248517 / 10 ^ 20) + 6709254709254709216 / 10 ^ 19)).
    + apply G; apply Rabs_le; lra.
    + unfold gauss_5_df, quad_at, g5_x, g5_w, f. cbn [combine map fst snd rsum fold_right]. field. lra.
  - replace (gauss_7_df f mu beta) with (a * (2 * (15006783863250833195 / 10 ^ 24 * (13208619179276130495 / 10 ^ 18) ^ 2 + 54715468031045289346 / 10 ^ 22 * (6822258565704534483 / 10 ^ 18) ^ 2 + 18481163647966422636 / 10 ^ 20 * (274015863439980345 / 10 ^ 17) ^ 2)) / beta ^ 2
      + c * (2 * (15006783863250833195 / 10 ^ 24 + 54715468031045289346 / 10 ^ 22 + 18481163647966422636 / 10 ^ 20) + 61940361986673598773 / 10 ^ 20)).
    + apply G; apply Rabs_le; lra.
    + unfold gauss_7_df, quad_at, g7_x, g7_w, f. cbn [combine map fst snd rsum fold_right]. field. lra.
Qed.
Print Assumptions C73_df_rules.
(** all four rules: functions odd around mu give exactly 0 *)
Theorem C73_odd : forall f mu beta, (forall x, f (mu - x) = - f (mu + x)) ->
  gauss_5_df f mu beta = 0 /\ gauss_7_df f mu beta = 0 /\ gauss_4_f f mu beta = 0 /\ gauss_6_f f mu beta = 0.
Proof.
  intros f mu beta H.
  assert (O : forall x, f (- x / beta + mu) = - f (x / beta + mu)).
  { intros x. replace (- x / beta + mu) with (mu - x / beta) by (unfold Rdiv; ring). rewrite H. f_equal. f_equal. ring. }
  assert (Z : f (0 / beta + mu) = 0) by (pose proof (H 0) as Q; replace (mu - 0) with (mu + 0) in Q by ring; replace (0 / beta + mu) with (mu + 0) by (unfold Rdiv; ring); lra).
  unfold gauss_5_df, gauss_7_df, gauss_4_f, gauss_6_f, quad_at, g5_x, g5_w, g7_x, g7_w, g4_x, g4_w, g6_x, g6_w.
  cbn [combine map fst snd rsum fold_right]. rewrite !O, ?Z. repeat split; unfold Rdiv; ring.
Qed.
Print Assumptions C73_odd.
(** the rules for the function itself: constants give 2 ln 2 / beta, the integral of 1/(1+exp(|beta x|)) *)
Theorem C73_f_constant : forall mu beta c, 0 < beta ->
  Rabs (gauss_4_f (fun _ => c) mu beta - c * (2 * ln 2 / beta)) <= Rabs c * (2 * ln 2 / beta) / 10 ^ 16 /\
  Rabs (gauss_6_f (fun _ => c) mu beta - c * (2 * ln 2 / beta)) <= Rabs c * (2 * ln 2 / beta) / 10 ^ 16.
Proof.
  intros mu beta c Hb. assert (L : 0 < 2 * ln 2 / beta) by (apply Rdiv_lt_0_compat; auto; pose proof ln_lt_2; lra).
  assert (G : forall A, Rabs (A - 1) <= / 10 ^ 16 -> Rabs (c * A * (2 * ln 2 / beta) - c * (2 * ln 2 / beta)) <= Rabs c * (2 * ln 2 / beta) / 10 ^ 16).
  { intros A HA. replace (c * A * (2 * ln 2 / beta) - c * (2 * ln 2 / beta)) with (c * (2 * ln 2 / beta) * (A - 1)) by ring.
    rewrite !Rabs_mult, (Rabs_right (2 * ln 2 / beta)) by lra. apply Rmult_le_compat_l; auto. apply Rmult_le_pos; [apply Rabs_pos|lra]. }
  split.
  - replace (gauss_4_f (fun _ => c) mu beta) with (c * (2 * (13822390808990555472 / 10 ^ 21 + 48617760919100944106 / 10 ^ 20)) * (2 * ln 2 / beta)).
    + apply G. apply Rabs_le; lra.
    + unfold gauss_4_f, quad_at, g4_x, g4_w. cbn [combine map fst snd rsum fold_right]. field. lra.
  - replace (gauss_6_f (fun _ => c) mu beta) with (c * (2 * (13527426019966680491 / 10 ^ 23 + 2778699826589691238 / 10 ^ 20 + 47207772747390341905 / 10 ^ 20)) * (2 * ln 2 / beta)).
    + apply G. apply Rabs_le; lra.
    + unfold gauss_6_f, quad_at, g6_x, g6_w. cbn [combine map fst snd rsum fold_right]. field. lra.
Qed.
Print Assumptions C73_f_constant.

(** ** C74: the correction of the energy for T > 0 *)
Definition occ (mu e : R) : R := if Rltb e mu then 1 else 0.
Definition line (x0 x1 y0 y1 e : R) : R := y0 + (y1 - y0) * ((e - x0) / (x1 - x0)).
(** the integrand, with the Fermi function f at the inverse temperature beta: - (f - f0) N - e f' N *)
Definition corr (mu beta : R) (N : R -> R) (e : R) : R := - (N e * (fermi (beta * (e - mu)) - occ mu e)) + e * N e * wb beta (e - mu).
Lemma fmu_derive : forall mu beta (e : R), is_derive (fun e => fermi (beta * (e - mu))) e (- wb beta (e - mu)).
Proof.
  intros mu beta e. unfold wb. replace (- (beta * wt (beta * (e - mu)))) with (scal beta (- wt (beta * (e - mu)))) by (unfold scal; simpl; unfold mult; simpl; ring).
  apply (is_derive_comp fermi (fun e => beta * (e - mu))); [apply fermi_derive|]. auto_derive; auto; ring.
Qed.
Lemma en_seg_int : forall mu beta e0 e1 y0 y1 o, beta <> 0 -> e0 <> e1 ->
  let a := (y1 - y0) / (e1 - e0) in let b := y0 - e0 * a in
  let F := fun e => (a * e / 2 + b) * e * (fermi (beta * (e - mu)) - o) in
  is_RInt (fun e => - (line e0 e1 y0 y1 e * (fermi (beta * (e - mu)) - o)) + e * line e0 e1 y0 y1 e * wb beta (e - mu)) e0 e1
    (- (F e1 - F e0) + a / 2 * int_poly ((e0 - mu) * beta) ((e1 - mu) * beta) (1 / beta ^ 2) (2 * mu / beta) (mu * mu)).
Proof.
  intros mu beta e0 e1 y0 y1 o Hb He a b F.
  assert (HL : forall e, line e0 e1 y0 y1 e = a * e + b) by (intros e; unfold line, b, a; field; lra).
  assert (I1 : is_RInt (fun e => - ((a * e + b) * (fermi (beta * (e - mu)) - o)) + (a * e / 2 + b) * e * wb beta (e - mu)) e0 e1 (- F e1 - - F e0)).
  { apply (is_RInt_derive (V:=R_CompleteNormedModule) (fun e => - F e)).
    - intros e _. unfold F.
      assert (D : is_derive (fun e : R => (a * e / 2 + b) * e) e (a * e + b)) by (auto_derive; auto; field).
      assert (D2 : is_derive (fun e => fermi (beta * (e - mu)) - o) e (- wb beta (e - mu))).
      { replace (- wb beta (e - mu)) with (minus (- wb beta (e - mu)) 0) by (unfold minus, plus, opp; simpl; ring).
        apply (is_derive_minus (V:=R_NormedModule)); [apply fmu_derive|exact (is_derive_const (V:=R_NormedModule) o e)]. }
      pose proof (is_derive_mult _ _ e _ _ D D2 Rmult_comm) as DM.
      apply (is_derive_opp (V:=R_NormedModule)) in DM. 
      match type of DM with is_derive _ _ ?v => match goal with |- is_derive _ _ ?w => replace w with v; [exact DM|] end end.
      unfold opp, plus, mult; simpl; unfold mult; simpl. ring.
    - intros e _. apply (continuous_plus (V:=R_NormedModule)).
      + apply (continuous_opp (V:=R_NormedModule)). apply (continuous_mult (K:=R_AbsRing)); [apply (ex_derive_continuous (V:=R_NormedModule)); auto_derive; auto|].
        apply (continuous_minus (V:=R_NormedModule)); [|apply continuous_const]. apply (ex_derive_continuous (V:=R_NormedModule)). eexists. apply fmu_derive.
      + apply (continuous_mult (K:=R_AbsRing)); [apply (ex_derive_continuous (V:=R_NormedModule)); auto_derive; auto|].
        apply (continuous_comp (fun e => e - mu) (wb beta)); [|apply wb_cont]. apply (ex_derive_continuous (V:=R_NormedModule)); auto_derive; auto. }
  pose proof (int_poly_shift mu beta e0 e1 (1 / beta ^ 2) (2 * mu / beta) (mu * mu) Hb) as I2.
  apply (is_RInt_scal (V:=R_NormedModule) _ _ _ (a / 2)) in I2.
  pose proof (is_RInt_plus (V:=R_NormedModule) _ _ _ _ _ _ I1 I2) as I3.
  replace (- (F e1 - F e0)) with (- F e1 - - F e0) by ring.
  eapply is_RInt_ext; [|exact I3]. intros e _. cbv beta. unfold plus, scal; simpl; unfold mult; simpl. rewrite HL. field. auto.
Qed.
Lemma en_segment_same : forall mu beta e0 e1 y0 y1, beta <> 0 -> e0 < e1 -> (e1 < mu \/ mu <= e0) ->
  is_RInt (corr mu beta (line e0 e1 y0 y1)) e0 e1 (en_segment mu beta e0 e1 y0 y1).
Proof.
  intros mu beta e0 e1 y0 y1 Hb He Hc.
  assert (X : forall e, expit (- (e - mu) * beta) = fermi (beta * (e - mu))) by (intros; rewrite <- expit_fermi; f_equal; ring).
  destruct Hc as [Hc|Hc].
  - pose proof (en_seg_int mu beta e0 e1 y0 y1 1 Hb ltac:(lra)) as I. cbv zeta in I. unfold en_segment. rewrite !X. rewrite !Rltb_t by lra.
    eapply is_RInt_ext; [|exact I]. rewrite Rmin_left, Rmax_right by lra. intros e H. cbv beta. unfold corr, occ. rewrite Rltb_t by lra. reflexivity.
  - pose proof (en_seg_int mu beta e0 e1 y0 y1 0 Hb ltac:(lra)) as I. cbv zeta in I. unfold en_segment. rewrite !X. rewrite !Rltb_f by lra.
    eapply is_RInt_ext; [|exact I]. rewrite Rmin_left, Rmax_right by lra. intros e H. cbv beta. unfold corr, occ. rewrite Rltb_f by lra. reflexivity.
Qed.
Lemma en_segment_mu : forall mu beta e0 y0 y1, beta <> 0 -> e0 < mu ->
  is_RInt (corr mu beta (line e0 mu y0 y1)) e0 mu (en_segment mu beta e0 mu y0 y1 + (mu * y1 - (y1 - y0) / (mu - e0) * mu * mu / 2)).
Proof.
  intros mu beta e0 y0 y1 Hb He.
  assert (X : forall e, expit (- (e - mu) * beta) = fermi (beta * (e - mu))) by (intros; rewrite <- expit_fermi; f_equal; ring).
  pose proof (en_seg_int mu beta e0 mu y0 y1 1 Hb ltac:(lra)) as I. cbv zeta in I. unfold en_segment. rewrite !X. rewrite (Rltb_t e0 mu), (Rltb_f mu mu) by lra.
  match type of I with is_RInt _ _ _ ?v => match goal with |- is_RInt _ _ _ ?w => replace w with v by (field; lra) end end.
  eapply is_RInt_ext; [|exact I]. rewrite Rmin_left, Rmax_right by lra. intros e H. cbv beta. unfold corr, occ. rewrite Rltb_t by lra. reflexivity.
Qed.
Lemma corr_ext : forall mu beta N N' e0 e1 v, e0 <= e1 -> (forall e, e0 <= e <= e1 -> N e = N' e) ->
  is_RInt (corr mu beta N') e0 e1 v -> is_RInt (corr mu beta N) e0 e1 v.
Proof.
  intros mu beta N N' e0 e1 v He H I. eapply is_RInt_ext; [|exact I]. rewrite Rmin_left, Rmax_right by lra. intros e Hx. cbv beta. unfold corr. rewrite H by lra. reflexivity.
Qed.
Lemma upper_part : forall mu beta N u p, beta <> 0 -> piecewise_linear (p :: u) N -> mu <= fst p ->
  is_RInt (corr mu beta N) (fst p) (fst (last (p :: u) (0, 0))) (seg_sum (en_segment mu beta) (p :: u)).
Proof.
  intros mu beta N u. induction u as [|q u IH]; intros p Hb HP Hm.
  - apply is_RInt_zero.
  - destruct p as [x0 y0], q as [x1 y1]. destruct HP as (H1 & H2 & H3). cbn [fst snd] in *.
    change (is_RInt (corr mu beta N) x0 (fst (last ((x1, y1) :: u) (0, 0))) (en_segment mu beta x0 x1 y0 y1 + seg_sum (en_segment mu beta) ((x1, y1) :: u))).
    apply (is_RInt_Chasles (V:=R_NormedModule) _ x0 x1).
    + eapply corr_ext; [lra| |apply en_segment_same; auto]. exact H2.
    + apply (IH (x1, y1)); auto. cbn; lra.
Qed.
Lemma pl_last_lt : forall N l q p, piecewise_linear (p :: l ++ [q]) N -> fst p < fst q.
Proof.
  intros N l q. induction l as [|r l IH]; intros p H; cbn [app] in H.
  - destruct p, q. destruct H as (H & _). exact H.
  - destruct p as [x0 y0], r as [x1 y1]. destruct H as (H1 & _ & H3). specialize (IH _ H3). cbn [fst] in *. lra.
Qed.
Lemma lower_part : forall mu beta N y l p, beta <> 0 -> piecewise_linear (p :: l ++ [(mu, y)]) N ->
  let q := last (p :: l) (0, 0) in
  is_RInt (corr mu beta N) (fst p) mu (seg_sum (en_segment mu beta) (p :: l ++ [(mu, y)]) + (mu * y - (y - snd q) / (mu - fst q) * mu * mu / 2)).
Proof.
  intros mu beta N y l. induction l as [|r l IH]; intros p Hb HP q.
  - destruct p as [x0 y0]. cbn [app] in *. destruct HP as (H1 & H2 & _). unfold q. cbn [last fst snd seg_sum]. rewrite Rplus_0_r.
    eapply corr_ext; [lra|exact H2|]. apply en_segment_mu; auto.
  - destruct p as [x0 y0], r as [x1 y1]. cbn [app] in HP. pose proof HP as (H1 & H2 & H3).
    pose proof (pl_last_lt _ _ _ _ H3) as L. cbn [fst] in L. specialize (IH (x1, y1) Hb H3). cbv zeta in IH.
    change (last ((x1, y1) :: l) (0, 0)) with q in IH.
    change (is_RInt (corr mu beta N) x0 mu (en_segment mu beta x0 x1 y0 y1 + seg_sum (en_segment mu beta) ((x1, y1) :: l ++ [(mu, y)]) + (mu * y - (y - snd q) / (mu - fst q) * mu * mu / 2))).
    rewrite Rplus_assoc. apply (is_RInt_Chasles (V:=R_NormedModule) _ x0 x1); [|exact IH].
    eapply corr_ext; [lra|exact H2|]. apply en_segment_same; auto.
Qed.
Lemma seg_sum_split : forall g l q u, seg_sum g (l ++ q :: u) = seg_sum g (l ++ [q]) + seg_sum g (q :: u).
Proof.
  intros g l q u. induction l as [|p l IH]; [cbn [app seg_sum]; destruct u; ring|].
  destruct l as [|r l]; cbn [app seg_sum] in *; [ring|]. rewrite IH. ring.
Qed.
Lemma pl_split : forall N l q u, piecewise_linear (l ++ q :: u) N -> piecewise_linear (l ++ [q]) N /\ piecewise_linear (q :: u) N.
Proof.
  intros N l q u. induction l as [|p l IH]; intros H; [split; auto; destruct q; exact I|].
  destruct l as [|r l]; cbn [app] in *.
  - destruct p, q. destruct H as (H1 & H2 & H3). split; auto. split; auto. split; auto. exact I.
  - destruct p, r. destruct H as (H1 & H2 & H3). destruct (IH H3). split; auto. split; auto.
Qed.
(** For a piecewise linear number of states N through samples containing mu (as C69 provides), the sum of the segments minus
    [a mu^2 / 2], [a] being the slope below mu, is the integral of the correction minus [mu N(mu)].  Together with the energy
    [mu N(mu) - I] at T = 0 it gives the integral of - (f + e f') N, the energy at temperature 1/(k_B beta).  The code uses the
    density at mu for [a]. *)
Theorem C74_correction : forall mu beta N p l y u, 0 < beta -> piecewise_linear (p :: l ++ (mu, y) :: u) N ->
  let pts := p :: l ++ (mu, y) :: u in let q := last (p :: l) (0, 0) in let a := (y - snd q) / (mu - fst q) in
  let e1 := fst (last ((mu, y) :: u) (0, 0)) in
  is_RInt (corr mu beta N) (fst p) e1 (mu * y + seg_sum (en_segment mu beta) pts - a * mu * mu / 2) /\
  forall I, is_RInt N (fst p) mu I ->
    is_RInt (fun e => N e * (e * wb beta (e - mu) - fermi (beta * (e - mu)))) (fst p) e1
      ((mu * y - I) + seg_sum (en_segment mu beta) pts - a * mu * mu / 2).
Proof.
  intros mu beta N p l y u Hb HP pts q a e1.
  destruct (pl_split N (p :: l) (mu, y) u HP) as [P1 P2].
  pose proof (lower_part mu beta N y l p ltac:(lra) P1) as L. cbv zeta in L. fold q in L. fold a in L.
  pose proof (upper_part mu beta N u (mu, y) ltac:(lra) P2 ltac:(cbn; lra)) as U. cbn [fst] in U. fold e1 in U.
  pose proof (pl_last_lt _ _ _ _ P1) as Lt. cbn [fst] in Lt.
  assert (Le : mu <= e1) by (pose proof (pl_le _ N P2 ltac:(discriminate)) as Q; exact Q).
  pose proof (is_RInt_Chasles (V:=R_NormedModule) _ _ _ _ _ _ L U) as A.
  assert (A' : is_RInt (corr mu beta N) (fst p) e1 (mu * y + seg_sum (en_segment mu beta) pts - a * mu * mu / 2)).
  { match type of A with is_RInt _ _ _ ?v => replace (mu * y + seg_sum (en_segment mu beta) pts - a * mu * mu / 2) with v; auto end.
    unfold pts. change (p :: l ++ (mu, y) :: u) with ((p :: l) ++ (mu, y) :: u). rewrite seg_sum_split. cbn [app]. unfold plus; simpl. lra. }
  split; auto. intros J HJ.
  assert (O : is_RInt (fun e => N e * occ mu e) (fst p) e1 J).
  { replace J with (plus J 0) by (unfold plus; simpl; ring). apply (is_RInt_Chasles (V:=R_NormedModule) _ (fst p) mu).
    - eapply is_RInt_ext; [|exact HJ]. rewrite Rmin_left, Rmax_right by lra. intros e He. cbv beta. unfold occ. rewrite Rltb_t by lra. simpl. ring.
    - eapply is_RInt_ext; [|apply (int_c 0 mu e1 0); ring]. rewrite Rmin_left, Rmax_right by lra. intros e He. cbv beta. unfold occ. rewrite Rltb_f by lra. simpl. ring. }
  pose proof (is_RInt_minus (V:=R_NormedModule) _ _ _ _ _ _ A' O) as D.
  match type of D with is_RInt _ _ _ ?v => match goal with |- is_RInt _ _ _ ?w => replace w with v by (unfold minus, plus, opp; simpl; ring) end end.
  eapply is_RInt_ext; [|exact D]. intros e _. cbv beta. unfold corr, minus, plus, opp; simpl. ring.
Qed.
Print Assumptions C74_correction.
(** example: a uniform density between 0 and 1 sampled at three points, mu = 1/2 *)
Example C74_example : piecewise_linear [(0, 0); (1/2, 1/2); (1, 1)] (fun e => e) /\
  is_RInt (fun e => e * (e * wb 7 (e - 1/2) - fermi (7 * (e - 1/2)))) 0 1
    ((1/2 * (1/2) - 1/8) + seg_sum (en_segment (1/2) 7) [(0, 0); (1/2, 1/2); (1, 1)] - (1/2 - 0) / (1/2 - 0) * (1/2) * (1/2) / 2).
Proof.
  assert (P : piecewise_linear [(0, 0); (1/2, 1/2); (1, 1)] (fun e => e)).
  { cbn. split; [lra|]. split; [intros; field|]. split; [lra|]. split; [intros; field|]. exact I. }
  split; auto.
  destruct (C74_correction (1/2) 7 (fun e => e) (0, 0) [] (1/2) [(1, 1)] ltac:(lra) P) as [_ H]. apply H. cbn [fst].
  apply (is_RInt_ext (cub (0, 0, 1, 0))); [intros x _; unfold cub; simpl; ring|].
  match goal with |- is_RInt _ _ _ ?v => replace v with (cubI (0, 0, 1, 0) (1/2) - cubI (0, 0, 1, 0) 0) by (unfold cubI; simpl; field) end. apply cub_int.
Qed.

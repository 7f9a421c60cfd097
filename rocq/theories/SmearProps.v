(** Properties C46, C47 (cut cubes). *)
From Coq Require Import Reals Lra Lia Psatz List.
From Coquelicot Require Import Coquelicot.
From Verif Require Import NbrModel SmearModel SmearCalc.
Local Open Scope R_scope.

Lemma EPS_pos : 0 < EPSILON.
Proof. unfold EPSILON. apply Rinv_0_lt_compat. lra. Qed.
Lemma EPS_val : EPSILON = / 10000.
Proof. unfold EPSILON. f_equal. ring. Qed.

(** what the theorems need to know about the result of cube_precomp *)
Definition good_cube (c : cube) : Prop :=
  0 < c_x c /\ 0 < c_y c /\ 0 < c_z c /\ 0 < c_n c /\ c_x c + c_y c + c_z c <= sqrt 3.

Lemma sqrt3_bounds : 1.7 < sqrt 3 < 1.8.
Proof.
  split.
  - rewrite <- (sqrt_square 1.7) by lra. apply sqrt_lt_1; lra.
  - rewrite <- (sqrt_square 1.8) by lra. apply sqrt_lt_1; lra.
Qed.
Lemma norm_pos : forall a b c, 0 < sqrt (a ^ 2 + b ^ 2 + c ^ 2) + / 10 ^ 40.
Proof.
  intros. assert (0 <= sqrt (a ^ 2 + b ^ 2 + c ^ 2)) by apply sqrt_pos.
  assert (0 < / 10 ^ 40) by (apply Rinv_0_lt_compat; apply pow_lt; lra). lra.
Qed.
Lemma precomp_good : forall gx gy gz, good_cube (cube_precomp gx gy gz).
Proof.
  intros. unfold good_cube, cube_precomp; cbn [c_x c_y c_z c_n].
  set (a := Rabs gx). set (b := Rabs gy). set (c := Rabs gz).
  set (n := sqrt (a ^ 2 + b ^ 2 + c ^ 2) + / 10 ^ 40).
  assert (Hn : 0 < n) by apply norm_pos.
  assert (Hi : 0 < / n) by (apply Rinv_0_lt_compat; auto).
  pose proof EPS_pos as He.
  assert (M : forall x, 0 < Rmax x EPSILON) by (intros x; pose proof (Rmax_r x EPSILON); lra).
  split; [apply M|split; [apply M|split; [apply M|split; [auto|]]]].
  assert (Ha : 0 <= a / n) by (apply Rmult_le_pos; [apply Rabs_pos|lra]).
  assert (Hb : 0 <= b / n) by (apply Rmult_le_pos; [apply Rabs_pos|lra]).
  assert (Hc : 0 <= c / n) by (apply Rmult_le_pos; [apply Rabs_pos|lra]).
  assert (H1 : (a / n) ^ 2 + (b / n) ^ 2 + (c / n) ^ 2 <= 1).
  { replace ((a / n) ^ 2 + (b / n) ^ 2 + (c / n) ^ 2) with ((a ^ 2 + b ^ 2 + c ^ 2) * (/ n * / n)) by (field; lra).
    apply Rmult_le_reg_r with (n * n); [nra|].
    replace ((a ^ 2 + b ^ 2 + c ^ 2) * (/ n * / n) * (n * n)) with (a ^ 2 + b ^ 2 + c ^ 2) by (field; lra).
    assert (Hq : 0 <= a ^ 2 + b ^ 2 + c ^ 2) by nra.
    pose proof (sqrt_sqrt _ Hq). pose proof (sqrt_pos (a ^ 2 + b ^ 2 + c ^ 2)).
    assert (0 < / 10 ^ 40) by (apply Rinv_0_lt_compat; apply pow_lt; lra).
    unfold n. nra. }
  revert Ha Hb Hc H1. generalize (a / n) (b / n) (c / n). clear. intros x y z Hx Hy Hz H.
  pose proof sqrt3_bounds as S3.
  assert (S33 : sqrt 3 * sqrt 3 = 3) by (apply sqrt_sqrt; lra).
  rewrite EPS_val.
  assert (K : forall s, 0 <= s -> s ^ 2 <= 3 -> s <= sqrt 3).
  { intros s Hs Hq. rewrite <- (sqrt_pow2 s) by auto. apply sqrt_le_1; nra. }
  assert (Q0 : (x + y + z) ^ 2 <= 3).
  { assert (0 <= (x - y) ^ 2 + (y - z) ^ 2 + (x - z) ^ 2) by (pose proof (pow2_ge_0 (x - y)); pose proof (pow2_ge_0 (y - z)); pose proof (pow2_ge_0 (x - z)); lra). nra. }
  assert (Q2 : forall u v, 0 <= u -> 0 <= v -> u ^ 2 + v ^ 2 <= 1 -> u + v <= 1.5).
  { intros u v Hu Hv Huv. pose proof (pow2_ge_0 (u - v)). nra. }
  assert (X : x <= 1) by nra. assert (Y : y <= 1) by nra. assert (Z : z <= 1) by nra.
  assert (XY := Q2 x y Hx Hy ltac:(nra)). assert (YZ := Q2 y z Hy Hz ltac:(nra)). assert (XZ := Q2 x z Hx Hz ltac:(nra)).
  unfold Rmax. repeat destruct Rle_dec; try lra.
  apply K; auto; lra.
Qed.

Section Cube.
Variables a b c : R.
Hypotheses (Ha : 0 < a) (Hb : 0 < b) (Hc : 0 < c).

Lemma two_minus : forall n d, 0 <= d ->
  pos ((a - b - c) / 2 - d) ^ S n + pos ((- a + b - c) / 2 - d) ^ S n + pos ((- a - b + c) / 2 - d) ^ S n
  = pos (- Rmin (Rmin ((- a + b + c) / 2) ((a - b + c) / 2)) ((a + b - c) / 2) - d) ^ S n.
Proof.
  intros n d Hd.
  assert (Z : 0 ^ S n = 0) by (apply pow_i; lia).
  destruct (Rle_dec ((- a + b + c) / 2) ((a - b + c) / 2)) as [H12|H12];
    [rewrite (Rmin_left ((- a + b + c) / 2)) by auto | rewrite (Rmin_right ((- a + b + c) / 2)) by lra];
    unfold Rmin; destruct Rle_dec.
  - replace (- ((- a + b + c) / 2) - d) with ((a - b - c) / 2 - d) by field.
    rewrite (pos_neg ((- a + b - c) / 2 - d)), (pos_neg ((- a - b + c) / 2 - d)) by lra. rewrite Z. ring.
  - replace (- ((a + b - c) / 2) - d) with ((- a - b + c) / 2 - d) by field.
    rewrite (pos_neg ((- a + b - c) / 2 - d)), (pos_neg ((a - b - c) / 2 - d)) by lra. rewrite Z. ring.
  - replace (- ((a - b + c) / 2) - d) with ((- a + b - c) / 2 - d) by field.
    rewrite (pos_neg ((a - b - c) / 2 - d)), (pos_neg ((- a - b + c) / 2 - d)) by lra. rewrite Z. ring.
  - replace (- ((a + b - c) / 2) - d) with ((- a - b + c) / 2 - d) by field.
    rewrite (pos_neg ((- a + b - c) / 2 - d)), (pos_neg ((a - b - c) / 2 - d)) by lra. rewrite Z. ring.
Qed.

Lemma corner_code : forall n d, 0 <= d ->
  corner_sum (S n) (- d) a b c =
  pos ((a + b + c) / 2 - d) ^ S n - pos ((- a + b + c) / 2 - d) ^ S n - pos ((a - b + c) / 2 - d) ^ S n
  + pos (- Rmin (Rmin ((- a + b + c) / 2) ((a - b + c) / 2)) ((a + b - c) / 2) - d) ^ S n - pos ((a + b - c) / 2 - d) ^ S n.
Proof.
  intros n d Hd. rewrite <- two_minus by auto. unfold corner_sum.
  rewrite (pos_neg (- d + (- a - b - c) / 2)) by lra. rewrite (pow_i (S n)) by lia.
  assert (E : forall x, - d + x = x - d) by (intros; ring). rewrite !E. ring.
Qed.
End Cube.

Lemma pos3_split : forall x, pos x ^ 3 = x ^ 3 + pos (- x) ^ 3.
Proof.
  intros x; destruct (Rle_dec 0 x).
  - rewrite pos_pos, pos_neg by lra; ring.
  - rewrite (pos_neg x), (pos_pos (- x)) by lra; ring.
Qed.
Lemma pos2_split : forall x, pos x ^ 2 = x ^ 2 - pos (- x) ^ 2.
Proof.
  intros x; destruct (Rle_dec 0 x).
  - rewrite pos_pos, pos_neg by lra; ring.
  - rewrite (pos_neg x), (pos_pos (- x)) by lra; ring.
Qed.
Lemma corner3_sym : forall s a b c, corner_sum 3 s a b c + corner_sum 3 (- s) a b c = 6 * (a * b * c).
Proof.
  intros. unfold corner_sum.
  rewrite (pos3_split (s + (a + b + c) / 2)), (pos3_split (s + (- a + b + c) / 2)), (pos3_split (s + (a - b + c) / 2)),
   (pos3_split (s + (a + b - c) / 2)), (pos3_split (s + (a - b - c) / 2)), (pos3_split (s + (- a + b - c) / 2)),
   (pos3_split (s + (- a - b + c) / 2)), (pos3_split (s + (- a - b - c) / 2)).
  replace (- (s + (a + b + c) / 2)) with (- s + (- a - b - c) / 2) by field.
  replace (- (s + (- a + b + c) / 2)) with (- s + (a - b - c) / 2) by field.
  replace (- (s + (a - b + c) / 2)) with (- s + (- a + b - c) / 2) by field.
  replace (- (s + (a + b - c) / 2)) with (- s + (- a - b + c) / 2) by field.
  replace (- (s + (a - b - c) / 2)) with (- s + (- a + b + c) / 2) by field.
  replace (- (s + (- a + b - c) / 2)) with (- s + (a - b + c) / 2) by field.
  replace (- (s + (- a - b + c) / 2)) with (- s + (a + b - c) / 2) by field.
  replace (- (s + (- a - b - c) / 2)) with (- s + (a + b + c) / 2) by field.
  field.
Qed.
Lemma corner2_sym : forall s a b c, corner_sum 2 s a b c = corner_sum 2 (- s) a b c.
Proof.
  intros. unfold corner_sum.
  rewrite (pos2_split (s + (a + b + c) / 2)), (pos2_split (s + (- a + b + c) / 2)), (pos2_split (s + (a - b + c) / 2)),
   (pos2_split (s + (a + b - c) / 2)), (pos2_split (s + (a - b - c) / 2)), (pos2_split (s + (- a + b - c) / 2)),
   (pos2_split (s + (- a - b + c) / 2)), (pos2_split (s + (- a - b - c) / 2)).
  replace (- (s + (a + b + c) / 2)) with (- s + (- a - b - c) / 2) by field.
  replace (- (s + (- a + b + c) / 2)) with (- s + (a - b - c) / 2) by field.
  replace (- (s + (a - b + c) / 2)) with (- s + (- a + b - c) / 2) by field.
  replace (- (s + (a + b - c) / 2)) with (- s + (- a - b + c) / 2) by field.
  replace (- (s + (a - b - c) / 2)) with (- s + (- a + b + c) / 2) by field.
  replace (- (s + (- a + b - c) / 2)) with (- s + (a - b + c) / 2) by field.
  replace (- (s + (- a - b + c) / 2)) with (- s + (a + b - c) / 2) by field.
  replace (- (s + (- a - b - c) / 2)) with (- s + (a + b + c) / 2) by field.
  field.
Qed.
(** no corner is inside *)
Lemma corner_out : forall n d a b c, 0 < a -> 0 < b -> 0 < c -> (a + b + c) / 2 <= d -> corner_sum (S n) (- d) a b c = 0.
Proof.
  intros. unfold corner_sum. rewrite !pos_neg by lra. rewrite pow_i by lia. ring.
Qed.

Lemma whole_cube : cube_fraction (fun _ _ _ => true) 1.
Proof.
  assert (H : is_RInt (fun _ : R => 1) (-1/2) (1/2) 1).
  { assert (H := int_step_const (fun _ => 1) (-1/2) (1/2) 1 ltac:(lra) (fun _ _ => eq_refl)).
    replace (1 * (1/2 - -1/2)) with 1 in H by field. exact H. }
  exists (fun _ _ => 1), (fun _ => 1). cbn [ind]. auto.
Qed.
Lemma empty_cube : cube_fraction (fun _ _ _ => false) 0.
Proof.
  assert (H : is_RInt (fun _ : R => 0) (-1/2) (1/2) 0).
  { assert (H := int_step_const (fun _ => 0) (-1/2) (1/2) 0 ltac:(lra) (fun _ _ => eq_refl)). rewrite Rmult_0_l in H. exact H. }
  exists (fun _ _ => 0), (fun _ => 0). cbn [ind]. auto.
Qed.
Lemma cube_fraction_le : forall P Q v w,
  (forall x y z, -1/2 <= x <= 1/2 -> -1/2 <= y <= 1/2 -> -1/2 <= z <= 1/2 -> P x y z = true -> Q x y z = true) ->
  cube_fraction P v -> cube_fraction Q w -> v <= w.
Proof.
  intros P Q v w H HP HQ.
  apply (is_volume_mono P Q (-1/2) (1/2) (fun _ => -1/2) (fun _ => 1/2) (fun _ _ => -1/2) (fun _ _ => 1/2)); auto; intros; lra.
Qed.

(** the eight term formula with the volume of the cut, at the normalised offset s *)
Definition Fv (s a b c : R) : R := corner_sum 3 s a b c / (6 * (a * b * c)).

Lemma Fv_fraction : forall s a b c, a <> 0 -> b <> 0 -> c <> 0 ->
  cube_fraction (fun x y z => Rltb 0 (s + a * x + b * y + c * z)) (Fv s a b c).
Proof. intros; apply cube_fraction_corner; auto. Qed.
Lemma Fv_range : forall s a b c, a <> 0 -> b <> 0 -> c <> 0 -> 0 <= Fv s a b c <= 1.
Proof.
  intros; split.
  - eapply cube_fraction_le; [| apply empty_cube | apply Fv_fraction; eauto]. discriminate.
  - eapply cube_fraction_le; [| apply Fv_fraction; eauto| apply whole_cube]. auto.
Qed.
Lemma Rltb_true : forall x y, Rltb x y = true -> x < y.
Proof. intros x y; unfold Rltb; destruct Rlt_dec; auto; discriminate. Qed.
Lemma Fv_mono : forall s s' a b c, a <> 0 -> b <> 0 -> c <> 0 -> s <= s' -> Fv s a b c <= Fv s' a b c.
Proof.
  intros; eapply cube_fraction_le; [| apply Fv_fraction; eauto | apply Fv_fraction; eauto].
  cbv beta; intros x y z _ _ _ Hx; apply Rltb_true in Hx; apply Rltb_t; lra.
Qed.

(** the code computes the eight term formula *)
Lemma volume_closed : forall t c, good_cube c -> cube_cut_volume t c = Fv (t / c_n c) (c_x c) (c_y c) (c_z c).
Proof.
  intros t [a b c n] (Ha & Hb & Hc & Hn & HS). cbn [c_x c_y c_z c_n] in *.
  unfold cube_cut_volume; cbn [c_x c_y c_z c_n].
  assert (Hd : 0 <= Rabs t / n) by (apply Rmult_le_pos; [apply Rabs_pos|left; apply Rinv_0_lt_compat; auto]).
  set (d := Rabs t / n) in *.
  assert (Habc : 0 < a * b * c) by (repeat apply Rmult_lt_0_compat; auto).
  rewrite <- (corner_code a b c Ha Hb Hc 2 d Hd).
  assert (EV : (if Rltb d (sqrt 3 / 2) then Rmin 1 (corner_sum 3 (- d) a b c / (6 * a * b * c)) else 0) = Fv (- d) a b c).
  { unfold Rltb; destruct Rlt_dec.
    - replace (6 * a * b * c) with (6 * (a * b * c)) by ring.
      rewrite Rmin_right; auto. apply (Fv_range (- d) a b c); lra.
    - unfold Fv. rewrite corner_out by lra. unfold Rdiv; ring. }
  rewrite EV. unfold Rltb; destruct Rlt_dec.
  - f_equal. unfold d. rewrite Rabs_left by auto. field; lra.
  - replace d with (t / n) by (unfold d; rewrite Rabs_right by lra; auto).
    unfold Fv. pose proof (corner3_sym (t / n) a b c).
    replace (corner_sum 3 (t / n) a b c) with (6 * (a * b * c) - corner_sum 3 (- (t / n)) a b c) by lra.
    field; lra.
Qed.
Lemma dvolume_closed : forall t c, good_cube c ->
  cube_cut_dvolume t c = corner_sum 2 (t / c_n c) (c_x c) (c_y c) (c_z c) / (2 * (c_x c * c_y c * c_z c * c_n c)).
Proof.
  intros t [a b c n] (Ha & Hb & Hc & Hn & HS). cbn [c_x c_y c_z c_n] in *.
  unfold cube_cut_dvolume; cbn [c_x c_y c_z c_n].
  assert (Hd : 0 <= Rabs t / n) by (apply Rmult_le_pos; [apply Rabs_pos|left; apply Rinv_0_lt_compat; auto]).
  set (d := Rabs t / n) in *.
  rewrite <- (corner_code a b c Ha Hb Hc 1 d Hd).
  assert (ES : corner_sum 2 (- d) a b c = corner_sum 2 (t / n) a b c).
  { unfold d. destruct (Rle_dec 0 t).
    - rewrite Rabs_right by lra. symmetry; apply corner2_sym.
    - rewrite Rabs_left by lra. f_equal. field; lra. }
  unfold Rltb; destruct Rlt_dec.
  - rewrite ES; auto.
  - rewrite <- ES, corner_out by lra. unfold Rdiv; ring.
Qed.

Lemma Fv_opp1 : forall s a b c, Fv s (- a) b c = Fv s a b c.
Proof.
  intros s a b c. unfold Fv, corner_sum. rewrite !Ropp_involutive.
  unfold Rdiv. rewrite <- !Ropp_mult_distr_l, <- !Ropp_mult_distr_r, Rinv_opp. ring.
Qed.
Lemma Fv_opp2 : forall s a b c, Fv s a (- b) c = Fv s a b c.
Proof.
  intros s a b c. unfold Fv, corner_sum. unfold Rminus. rewrite !Ropp_involutive.
  unfold Rdiv. rewrite <- !Ropp_mult_distr_r, <- !Ropp_mult_distr_l, <- !Ropp_mult_distr_r, Rinv_opp. ring.
Qed.
Lemma Fv_opp3 : forall s a b c, Fv s a b (- c) = Fv s a b c.
Proof.
  intros s a b c. unfold Fv, corner_sum. unfold Rminus. rewrite !Ropp_involutive.
  unfold Rdiv. rewrite <- !Ropp_mult_distr_r, Rinv_opp. ring.
Qed.
Definition is_sgn (s : R) : Prop := s = 1 \/ s = -1.
Lemma frac_general : forall t c s1 s2 s3, good_cube c -> is_sgn s1 -> is_sgn s2 -> is_sgn s3 ->
  cube_fraction (fun x y z => Rltb (s1 * (c_n c * c_x c) * x + s2 * (c_n c * c_y c) * y + s3 * (c_n c * c_z c) * z) t) (cube_cut_volume t c).
Proof.
  intros t c s1 s2 s3 G S1 S2 S3. rewrite volume_closed by auto.
  destruct c as [a b c n]. destruct G as (Ha & Hb & Hc & Hn & _). cbn [c_x c_y c_z c_n] in *.
  assert (Nz : forall s x, is_sgn s -> 0 < x -> - s * x <> 0) by (intros s x [-> | ->] Hx; lra).
  replace (Fv (t / n) a b c) with (Fv (t / n) (- s1 * a) (- s2 * b) (- s3 * c)).
  - destruct (Fv_fraction (t / n) (- s1 * a) (- s2 * b) (- s3 * c)) as (l & ar & L & A & V); auto.
    exists l, ar. split; [|auto]. intros x y Hx' Hy'. eapply is_RInt_ext; [|apply L; auto].
    intros z _. cbv beta. f_equal.
    replace (t / n + - s1 * a * x + - s2 * b * y + - s3 * c * z)
      with ((t - (s1 * (n * a) * x + s2 * (n * b) * y + s3 * (n * c) * z)) * / n) by (field; lra).
    assert (0 < / n) by (apply Rinv_0_lt_compat; auto).
    unfold Rltb; destruct (Rlt_dec 0 _), (Rlt_dec _ t); auto; exfalso; nra.
  - assert (U : forall s x, is_sgn s -> - s * x = x \/ - s * x = - x) by (intros s x [-> | ->]; [right|left]; ring).
    destruct (U s1 a S1) as [-> | ->], (U s2 b S2) as [-> | ->], (U s3 c S3) as [-> | ->]; rewrite ?Fv_opp1, ?Fv_opp2, ?Fv_opp3; auto.
Qed.
Lemma sgn_abs : forall g, exists s, is_sgn s /\ g = s * Rabs g.
Proof.
  intros g; unfold is_sgn, Rabs; destruct Rcase_abs; [exists (-1)|exists 1]; split; auto; ring.
Qed.

(** ** C46 *)
(** The result is the fraction of the cell on which the linear function E0 + gx x + gy y + gz z is below E0 + t,
    if no component of the gradient is smaller than EPSILON times its norm. *)
Theorem C46_exact_fraction : forall t gx gy gz,
  let n := c_n (cube_precomp gx gy gz) in
  EPSILON * n <= Rabs gx -> EPSILON * n <= Rabs gy -> EPSILON * n <= Rabs gz ->
  cube_fraction (fun x y z => Rltb (gx * x + gy * y + gz * z) t) (cube_cut_volume t (cube_precomp gx gy gz)).
Proof.
  intros t gx gy gz n Hx Hy Hz.
  pose proof (precomp_good gx gy gz) as G.
  destruct (sgn_abs gx) as (s1 & S1 & E1), (sgn_abs gy) as (s2 & S2 & E2), (sgn_abs gz) as (s3 & S3 & E3).
  pose proof (frac_general t (cube_precomp gx gy gz) s1 s2 s3 G S1 S2 S3) as F.
  destruct G as (_ & _ & _ & Hn & _). fold n in Hn, F.
  assert (E : forall g, EPSILON * n <= Rabs g -> n * Rmax (Rabs g / n) EPSILON = Rabs g).
  { intros g Hg. rewrite Rmax_left; [field; lra|]. apply Rmult_le_reg_r with n; auto. unfold Rdiv; rewrite Rmult_assoc, Rinv_l by lra. lra. }
  assert (X1 : s1 * (n * c_x (cube_precomp gx gy gz)) = gx) by (rewrite E1 at 2; f_equal; apply E; auto).
  assert (X2 : s2 * (n * c_y (cube_precomp gx gy gz)) = gy) by (rewrite E2 at 2; f_equal; apply E; auto).
  assert (X3 : s3 * (n * c_z (cube_precomp gx gy gz)) = gz) by (rewrite E3 at 2; f_equal; apply E; auto).
  rewrite X1, X2, X3 in F. exact F.
Qed.
Print Assumptions C46_exact_fraction.

(** For every gradient, also a vanishing one: the result lies between the fractions for slightly smaller and slightly
    larger t (by 1.5e-4 of the norm of the gradient). *)
Theorem C46_near_fraction : forall t gx gy gz v,
  let n := c_n (cube_precomp gx gy gz) in
  (cube_fraction (fun x y z => Rltb (gx * x + gy * y + gz * z) (t - 3 / 2 * EPSILON * n)) v -> v <= cube_cut_volume t (cube_precomp gx gy gz)) /\
  (cube_fraction (fun x y z => Rltb (gx * x + gy * y + gz * z) (t + 3 / 2 * EPSILON * n)) v -> cube_cut_volume t (cube_precomp gx gy gz) <= v).
Proof.
  intros t gx gy gz v n.
  pose proof (precomp_good gx gy gz) as G.
  destruct (sgn_abs gx) as (s1 & S1 & E1), (sgn_abs gy) as (s2 & S2 & E2), (sgn_abs gz) as (s3 & S3 & E3).
  pose proof (frac_general t (cube_precomp gx gy gz) s1 s2 s3 G S1 S2 S3) as F.
  destruct G as (_ & _ & _ & Hn & _). fold n in Hn, F.
  pose proof EPS_pos as He.
  assert (E : forall g, Rabs g <= n * Rmax (Rabs g / n) EPSILON <= Rabs g + EPSILON * n).
  { intros g. pose proof (Rabs_pos g). assert (Eq : Rabs g = n * (Rabs g / n)) by (field; lra).
    assert (0 <= Rabs g / n) by (apply Rmult_le_pos; [auto|left; apply Rinv_0_lt_compat; auto]).
    set (q := Rabs g / n) in *. rewrite Eq. unfold Rmax; destruct Rle_dec; split; nra. }
  change (c_x (cube_precomp gx gy gz)) with (Rmax (Rabs gx / n) EPSILON) in F.
  change (c_y (cube_precomp gx gy gz)) with (Rmax (Rabs gy / n) EPSILON) in F.
  change (c_z (cube_precomp gx gy gz)) with (Rmax (Rabs gz / n) EPSILON) in F.
  pose proof (E gx) as Ex. pose proof (E gy) as Ey. pose proof (E gz) as Ez.
  set (a := n * Rmax (Rabs gx / n) EPSILON) in *. set (b := n * Rmax (Rabs gy / n) EPSILON) in *. set (c := n * Rmax (Rabs gz / n) EPSILON) in *.
  assert (D : forall s g h x, is_sgn s -> g = s * Rabs g -> Rabs g <= h <= Rabs g + EPSILON * n -> -1/2 <= x <= 1/2 ->
    g * x - EPSILON * n / 2 <= s * h * x <= g * x + EPSILON * n / 2).
  { intros s g h x Hs Hg Hh Hx'. rewrite Hg. set (r := Rabs g) in *. destruct Hs as [-> | ->]; split; nra. }
  split; intros Hv.
  - eapply cube_fraction_le; [|exact Hv|exact F]. cbv beta. intros x y z Hx Hy Hz Hl.
    apply Rltb_true in Hl. apply Rltb_t.
    pose proof (D s1 gx a x S1 E1 Ex Hx). pose proof (D s2 gy b y S2 E2 Ey Hy). pose proof (D s3 gz c z S3 E3 Ez Hz). lra.
  - eapply cube_fraction_le; [|exact F|exact Hv]. cbv beta. intros x y z Hx Hy Hz Hl.
    apply Rltb_true in Hl. apply Rltb_t.
    pose proof (D s1 gx a x S1 E1 Ex Hx). pose proof (D s2 gy b y S2 E2 Ey Hy). pose proof (D s3 gz c z S3 E3 Ez Hz). lra.
Qed.
Print Assumptions C46_near_fraction.

Theorem C46_range : forall t gx gy gz, 0 <= cube_cut_volume t (cube_precomp gx gy gz) <= 1.
Proof.
  intros. pose proof (precomp_good gx gy gz) as G. rewrite volume_closed by auto.
  destruct G as (? & ? & ? & _). apply Fv_range; lra.
Qed.
Print Assumptions C46_range.
Theorem C46_monotone : forall t t' gx gy gz, t <= t' ->
  cube_cut_volume t (cube_precomp gx gy gz) <= cube_cut_volume t' (cube_precomp gx gy gz).
Proof.
  intros t t' gx gy gz Ht. pose proof (precomp_good gx gy gz) as G. rewrite !volume_closed by auto.
  destruct G as (? & ? & ? & ? & _). apply Fv_mono; try lra.
  apply Rmult_le_compat_r; auto. left; apply Rinv_0_lt_compat; auto.
Qed.
Print Assumptions C46_monotone.
Theorem C46_symmetric : forall t gx gy gz,
  cube_cut_volume t (cube_precomp gx gy gz) + cube_cut_volume (- t) (cube_precomp gx gy gz) = 1.
Proof.
  intros. pose proof (precomp_good gx gy gz) as G. rewrite !volume_closed by auto.
  destruct G as (? & ? & ? & ? & _). unfold Fv.
  replace (- t / c_n (cube_precomp gx gy gz)) with (- (t / c_n (cube_precomp gx gy gz))) by (field; lra).
  set (a := c_x _) in *. set (b := c_y _) in *. set (c := c_z _) in *.
  pose proof (corner3_sym (t / c_n (cube_precomp gx gy gz)) a b c) as E.
  assert (0 < a * b * c) by (repeat apply Rmult_lt_0_compat; auto).
  unfold Rdiv at 1 3. rewrite <- Rmult_plus_distr_r. unfold Rdiv in *. rewrite E. field; lra.
Qed.
Print Assumptions C46_symmetric.

(** full (empty) if the whole cell is below (above) with the margin above *)
Theorem C46_sides_partial : forall t gx gy gz,
  let n := c_n (cube_precomp gx gy gz) in
  ((forall x y z, -1/2 <= x <= 1/2 -> -1/2 <= y <= 1/2 -> -1/2 <= z <= 1/2 -> gx * x + gy * y + gz * z < t - 3 / 2 * EPSILON * n) ->
   cube_cut_volume t (cube_precomp gx gy gz) = 1) /\
  ((forall x y z, -1/2 <= x <= 1/2 -> -1/2 <= y <= 1/2 -> -1/2 <= z <= 1/2 -> t + 3 / 2 * EPSILON * n <= gx * x + gy * y + gz * z) ->
   cube_cut_volume t (cube_precomp gx gy gz) = 0).
Proof.
  intros t gx gy gz n. pose proof (C46_range t gx gy gz) as Hr. split; intros H; apply Rle_antisym; try tauto.
  - apply (proj1 (C46_near_fraction t gx gy gz 1)). fold n.
    destruct whole_cube as (l & a & L & A & V). exists l, a; split; [|auto].
    intros x y Hx Hy. eapply is_RInt_ext; [|apply L; auto]. intros z Hz.
    rewrite Rmin_left, Rmax_right in Hz by lra. cbv beta. f_equal. symmetry; apply Rltb_t; apply H; auto; lra.
  - apply (proj2 (C46_near_fraction t gx gy gz 0)). fold n.
    destruct empty_cube as (l & a & L & A & V). exists l, a; split; [|auto].
    intros x y Hx Hy. eapply is_RInt_ext; [|apply L; auto]. intros z Hz.
    rewrite Rmin_left, Rmax_right in Hz by lra. cbv beta. f_equal. symmetry; apply Rltb_f; apply H; auto; lra.
Qed.
Print Assumptions C46_sides_partial.

(** Not exactly: for a gradient along x the cell below a plane at its upper face is not reported as full. *)
Theorem C46_sides_refuted :
  (forall x y z, -1/2 <= x <= 1/2 -> -1/2 <= y <= 1/2 -> -1/2 <= z <= 1/2 -> 1 * x + 0 * y + 0 * z <= 1/2) /\
  cube_cut_volume (1/2) (cube_precomp 1 0 0) < 1.
Proof.
  split; [intros; lra|].
  rewrite volume_closed by apply precomp_good.
  unfold cube_precomp; cbn [c_x c_y c_z c_n].
  rewrite Rabs_R1, Rabs_R0.
  replace (1 ^ 2 + 0 ^ 2 + 0 ^ 2) with 1 by ring. rewrite sqrt_1.
  set (h := / 10 ^ 40). assert (Hh : 0 < h < 1/10000).
  { unfold h. split; [apply Rinv_0_lt_compat; apply pow_lt; lra|].
    apply Rlt_le_trans with (/ 10 ^ 5); [|lra]. apply Rinv_lt_contravar; [|apply Rlt_pow; [lra|lia]].
    apply Rmult_lt_0_compat; apply pow_lt; lra. }
  set (a := 1 / (1 + h)).
  assert (Ha : 1/2 < a).
  { unfold a. apply Rmult_lt_reg_r with (1 + h); [lra|]. unfold Rdiv at 2. rewrite Rmult_assoc, Rinv_l by lra. lra. }
  replace (0 / (1 + h)) with 0 by (field; lra).
  pose proof EPS_pos as He. pose proof EPS_val as Ev.
  rewrite (Rmax_left a), (Rmax_right 0) by lra.
  replace (1 / 2 / (1 + h)) with (a / 2) by (unfold a; field; lra).
  assert (E : Fv (a / 2) a EPSILON EPSILON = 1 - EPSILON / (6 * a)).
  { pose proof (corner3_sym (a / 2) a EPSILON EPSILON) as E.
    unfold Fv. replace (corner_sum 3 (a / 2) a EPSILON EPSILON) with (6 * (a * EPSILON * EPSILON) - corner_sum 3 (- (a / 2)) a EPSILON EPSILON) by lra.
    replace (corner_sum 3 (- (a / 2)) a EPSILON EPSILON) with (EPSILON ^ 3); [field; split; lra|].
    unfold corner_sum.
    rewrite (pos_pos (- (a / 2) + (a + EPSILON + EPSILON) / 2)) by lra.
    rewrite (pos_neg (- (a / 2) + (- a + EPSILON + EPSILON) / 2)) by lra.
    rewrite (pos_neg (- (a / 2) + (a - EPSILON + EPSILON) / 2)) by lra.
    rewrite (pos_neg (- (a / 2) + (a + EPSILON - EPSILON) / 2)) by lra.
    rewrite (pos_neg (- (a / 2) + (a - EPSILON - EPSILON) / 2)) by lra.
    rewrite (pos_neg (- (a / 2) + (- a + EPSILON - EPSILON) / 2)) by lra.
    rewrite (pos_neg (- (a / 2) + (- a - EPSILON + EPSILON) / 2)) by lra.
    rewrite (pos_neg (- (a / 2) + (- a - EPSILON - EPSILON) / 2)) by lra. field. }
  rewrite E. assert (0 < EPSILON / (6 * a)); [|lra].
  apply Rmult_lt_0_compat; [lra|]. apply Rinv_0_lt_compat; lra.
Qed.
Print Assumptions C46_sides_refuted.

(** a cell with the gradient (1,-1,1), cut through the middle, is half full *)
Example C46_example : cube_cut_volume 0 (cube_precomp 1 (-1) 1) = 1 / 2 /\
  cube_fraction (fun x y z => Rltb (1 * x + -1 * y + 1 * z) 0) (1 / 2).
Proof.
  assert (H : cube_cut_volume 0 (cube_precomp 1 (-1) 1) = 1 / 2).
  { pose proof (C46_symmetric 0 1 (-1) 1) as H. rewrite Ropp_0 in H. lra. }
  split; auto. rewrite <- H.
  assert (Hn : EPSILON * c_n (cube_precomp 1 (-1) 1) <= 1).
  { rewrite EPS_val. unfold cube_precomp; cbn [c_n]. rewrite Rabs_R1, (Rabs_left (-1)) by lra.
    replace (1 ^ 2 + (- -1) ^ 2 + 1 ^ 2) with 3 by ring. pose proof sqrt3_bounds.
    assert (/ 10 ^ 40 <= 1) by (rewrite <- Rinv_1; apply Rinv_le_contravar; [lra|apply pow_R1_Rle; lra]). lra. }
  apply C46_exact_fraction; rewrite ?Rabs_R1, ?(Rabs_left (-1)) by lra; lra.
Qed.

(** ** C47 *)
Lemma pos3_shift : forall k s, is_derive (fun s => pos (s + k) ^ 3) s (3 * pos (s + k) ^ 2).
Proof.
  intros k s. pose proof (pos3_affine k 1 s) as H. cbv beta in H.
  replace (3 * 1 * pos (k + 1 * s) ^ 2) with (3 * pos (s + k) ^ 2) in H by (replace (k + 1 * s) with (s + k) by ring; ring).
  eapply is_derive_ext; [|exact H]. intros t. cbv beta. do 2 f_equal. change (k + 1 * t = t + k). ring.
Qed.
Lemma corner_derive : forall a b c s, is_derive (fun s => corner_sum 3 s a b c) s (3 * corner_sum 2 s a b c).
Proof.
  intros a b c s. unfold corner_sum.
  match goal with |- is_derive _ _ (3 * (?x1 - ?x2 - ?x3 - ?x4 + ?x5 + ?x6 + ?x7 - ?x8)) =>
    replace (3 * (x1 - x2 - x3 - x4 + x5 + x6 + x7 - x8)) with
      (minus (plus (plus (plus (minus (minus (minus (3 * x1) (3 * x2)) (3 * x3)) (3 * x4)) (3 * x5)) (3 * x6)) (3 * x7)) (3 * x8))
      by (unfold minus, plus, opp; cbn -[pow]; ring) end.
  repeat first [apply (is_derive_minus (V:=R_NormedModule)) | apply (is_derive_plus (V:=R_NormedModule)) | apply pos3_shift].
Qed.

Theorem C47_derivative : forall t gx gy gz,
  is_derive (fun t => cube_cut_volume t (cube_precomp gx gy gz)) t (cube_cut_dvolume t (cube_precomp gx gy gz)).
Proof.
  intros t gx gy gz. pose proof (precomp_good gx gy gz) as G. rewrite dvolume_closed by auto.
  apply is_derive_ext with (fun t => Fv (t / c_n (cube_precomp gx gy gz)) (c_x (cube_precomp gx gy gz)) (c_y (cube_precomp gx gy gz)) (c_z (cube_precomp gx gy gz))).
  { intros s. symmetry. apply volume_closed; auto. }
  destruct G as (Ha & Hb & Hc & Hn & _).
  set (a := c_x _) in *. set (b := c_y _) in *. set (c := c_z _) in *. set (n := c_n _) in *.
  unfold Fv.
  apply is_derive_ext with (fun t => / (6 * (a * b * c)) * corner_sum 3 (t / n) a b c).
  { intros s. apply Rmult_comm. }
  replace (corner_sum 2 (t / n) a b c / (2 * (a * b * c * n))) with (/ (6 * (a * b * c)) * (/ n * (3 * corner_sum 2 (t / n) a b c)))
    by (field; repeat split; lra).
  apply is_derive_scal.
  apply (is_derive_comp (fun s => corner_sum 3 s a b c) (fun t => t / n)).
  - apply corner_derive.
  - auto_derive; [auto|]. ring.
Qed.
Print Assumptions C47_derivative.

Theorem C47_nonneg : forall t gx gy gz, 0 <= cube_cut_dvolume t (cube_precomp gx gy gz).
Proof.
  intros t gx gy gz.
  set (f := fun t => cube_cut_volume t (cube_precomp gx gy gz)).
  assert (pr : derivable f).
  { intros x. exists (cube_cut_dvolume x (cube_precomp gx gy gz)). apply is_derive_Reals. apply C47_derivative. }
  assert (I : increasing f) by (intros x y Hxy; apply C46_monotone; auto).
  pose proof (nonneg_derivative_0 f pr I t) as H.
  rewrite (derive_pt_eq_0 f t (cube_cut_dvolume t (cube_precomp gx gy gz)) (pr t)) in H; auto.
  apply is_derive_Reals. apply C47_derivative.
Qed.
Print Assumptions C47_nonneg.

(** the combined function gives the same two results *)
Theorem C47_combined : forall t gx gy gz,
  cube_cut_volume_dvolume t (cube_precomp gx gy gz) =
  (cube_cut_volume t (cube_precomp gx gy gz), cube_cut_dvolume t (cube_precomp gx gy gz)).
Proof.
  intros t gx gy gz. pose proof (precomp_good gx gy gz) as G. pose proof (volume_closed t _ G) as V.
  destruct (cube_precomp gx gy gz) as [a b c n]. destruct G as (Ha & Hb & Hc & Hn & HS).
  unfold cube_cut_volume_dvolume, cube_cut_volume, cube_cut_dvolume in *; cbn [c_x c_y c_z c_n] in *.
  assert (Hd : 0 <= Rabs t / n) by (apply Rmult_le_pos; [apply Rabs_pos|left; apply Rinv_0_lt_compat; auto]).
  set (d := Rabs t / n) in *.
  replace (6 * (a * b * c)) with (6 * a * b * c) by ring. replace (2 * (a * b * c) * n) with (2 * (a * b * c * n)) by ring.
  f_equal.
  rewrite <- (corner_code a b c Ha Hb Hc 2 d Hd).
  assert (Habc : 0 < a * b * c) by (repeat apply Rmult_lt_0_compat; auto).
  rewrite Rmin_right; auto.
  replace (6 * a * b * c) with (6 * (a * b * c)) by ring. apply (Fv_range (- d) a b c); lra.
Qed.
Print Assumptions C47_combined.

(** the plane through the center of a cell with the gradient (1,1,1): the hexagon has positive weight *)
Example C47_example : 0 < cube_cut_dvolume 0 (mkCube (1/2) (1/2) (1/2) 2).
Proof.
  rewrite dvolume_closed.
  - unfold corner_sum; cbn [c_x c_y c_z c_n]. replace (0 / 2) with 0 by field.
    rewrite !Rplus_0_l.
    rewrite (pos_pos ((1 / 2 + 1 / 2 + 1 / 2) / 2)), (pos_pos ((- (1 / 2) + 1 / 2 + 1 / 2) / 2)),
      (pos_pos ((1 / 2 - 1 / 2 + 1 / 2) / 2)), (pos_pos ((1 / 2 + 1 / 2 - 1 / 2) / 2)),
      (pos_neg ((1 / 2 - 1 / 2 - 1 / 2) / 2)), (pos_neg ((- (1 / 2) + 1 / 2 - 1 / 2) / 2)),
      (pos_neg ((- (1 / 2) - 1 / 2 + 1 / 2) / 2)), (pos_neg ((- (1 / 2) - 1 / 2 - 1 / 2) / 2)) by lra.
    lra.
  - unfold good_cube; cbn [c_x c_y c_z c_n]. pose proof sqrt3_bounds. lra.
Qed.

(** Property C48 (cut tetrahedra and spheres). *)
From Coq Require Import Reals Lra Lia Psatz List.
From Coquelicot Require Import Coquelicot.
From Verif Require Import NbrModel SmearModel SmearCalc SmearProps.
Local Open Scope R_scope.

(** ** The exact volume *)
(** signed sum over the corners of a tetrahedron with the corner values f0 ... f3 *)
Definition tsum (f0 f1 f2 f3 : R) : R :=
  pos f0 ^ 3 / ((f0 - f1) * (f0 - f2) * (f0 - f3)) + pos f1 ^ 3 / ((f1 - f0) * (f1 - f2) * (f1 - f3))
  + pos f2 ^ 3 / ((f2 - f0) * (f2 - f1) * (f2 - f3)) + pos f3 ^ 3 / ((f3 - f0) * (f3 - f1) * (f3 - f2)).

Lemma tetra_part_tsum : forall a0 ax ay az, ax <> 0 -> ay <> 0 -> az <> 0 -> ax <> ay -> ax <> az -> ay <> az ->
  tetra_part (fun x y z => Rltb 0 (a0 + ax * x + ay * y + az * z)) (tsum a0 (a0 + ax) (a0 + ay) (a0 + az) / 6).
Proof.
  intros a0 ax ay az Hx Hy Hz Hxy Hxz Hyz.
  assert (Nyz : ay - az <> 0) by lra. assert (Nxy : ax - ay <> 0) by lra. assert (Nxz : ax - az <> 0) by lra.
  exists (fun x y => (pos (a0 + ax * x + ay * y + az * (1 - x - y)) - pos (a0 + ax * x + ay * y + az * 0)) / az).
  exists (fun x => ((pos (a0 + ay + (ax - ay) * x) ^ 2 - pos (a0 + az + (ax - az) * x) ^ 2) / (2 * (ay - az))
                   - (pos (a0 + ay + (ax - ay) * x) ^ 2 - pos (a0 + ax * x) ^ 2) / (2 * ay)) / az).
  split; [|split].
  - intros x y _ Hy'. apply int_ind; auto; lra.
  - intros x _.
    apply is_RInt_ext with (fun y => scal (/ az) (minus (pos (a0 + az + (ax - az) * x + (ay - az) * y)) (pos (a0 + ax * x + ay * y)))).
    + intros y _. unfold scal, minus, plus, opp; cbn -[pow]; unfold mult; cbn -[pow]. unfold Rdiv. rewrite Rmult_comm. f_equal.
      unfold Rminus; f_equal; [|f_equal]; f_equal; ring.
    + match goal with |- is_RInt _ _ _ ?v =>
        replace v with (scal (/ az) (minus
          ((pos (a0 + az + (ax - az) * x + (ay - az) * (1 - x)) ^ 2 - pos (a0 + az + (ax - az) * x + (ay - az) * 0) ^ 2) / (2 * (ay - az)))
          ((pos (a0 + ax * x + ay * (1 - x)) ^ 2 - pos (a0 + ax * x + ay * 0) ^ 2) / (2 * ay)))) end.
      * apply (is_RInt_scal (V:=R_NormedModule)). apply (is_RInt_minus (V:=R_NormedModule)); apply int_pos1; auto.
      * replace (a0 + az + (ax - az) * x + (ay - az) * (1 - x)) with (a0 + ay + (ax - ay) * x) by ring.
        replace (a0 + az + (ax - az) * x + (ay - az) * 0) with (a0 + az + (ax - az) * x) by ring.
        replace (a0 + ax * x + ay * (1 - x)) with (a0 + ay + (ax - ay) * x) by ring.
        replace (a0 + ax * x + ay * 0) with (a0 + ax * x) by ring.
        unfold scal, minus, plus, opp; cbn -[pow]; unfold mult; cbn -[pow]. field; auto.
  - apply is_RInt_ext with (fun x => scal (/ az) (minus
       (scal (/ (2 * (ay - az))) (minus (pos (a0 + ay + (ax - ay) * x) ^ 2) (pos (a0 + az + (ax - az) * x) ^ 2)))
       (scal (/ (2 * ay)) (minus (pos (a0 + ay + (ax - ay) * x) ^ 2) (pos (a0 + ax * x) ^ 2))))).
    + intros x _. unfold scal, minus, plus, opp; cbn -[pow]; unfold mult; cbn -[pow].
      generalize (pos (a0 + ay + (ax - ay) * x)) (pos (a0 + az + (ax - az) * x)) (pos (a0 + ax * x)). intros. field; auto.
    + match goal with |- is_RInt _ _ _ ?v =>
        replace v with (scal (/ az) (minus
       (scal (/ (2 * (ay - az))) (minus ((pos (a0 + ay + (ax - ay) * 1) ^ 3 - pos (a0 + ay + (ax - ay) * 0) ^ 3) / (3 * (ax - ay)))
                                        ((pos (a0 + az + (ax - az) * 1) ^ 3 - pos (a0 + az + (ax - az) * 0) ^ 3) / (3 * (ax - az)))))
       (scal (/ (2 * ay)) (minus ((pos (a0 + ay + (ax - ay) * 1) ^ 3 - pos (a0 + ay + (ax - ay) * 0) ^ 3) / (3 * (ax - ay)))
                                 ((pos (a0 + ax * 1) ^ 3 - pos (a0 + ax * 0) ^ 3) / (3 * ax)))))) end.
      * apply (is_RInt_scal (V:=R_NormedModule)).
        apply (is_RInt_minus (V:=R_NormedModule)); apply (is_RInt_scal (V:=R_NormedModule)); apply (is_RInt_minus (V:=R_NormedModule)); apply int_pos2; auto.
      * replace (a0 + ay + (ax - ay) * 1) with (a0 + ax) by ring. replace (a0 + ay + (ax - ay) * 0) with (a0 + ay) by ring.
        replace (a0 + az + (ax - az) * 1) with (a0 + ax) by ring. replace (a0 + az + (ax - az) * 0) with (a0 + az) by ring.
        replace (a0 + ax * 1) with (a0 + ax) by ring. replace (a0 + ax * 0) with a0 by ring.
        unfold tsum, scal, minus, plus, opp; cbn -[pow]; unfold mult; cbn -[pow].
        generalize (pos (a0 + ax)) (pos (a0 + ay)) (pos (a0 + az)) (pos a0). intros. field. repeat split; lra.
Qed.

Lemma tsum_swap12 : forall f0 f1 f2 f3, f0 <> f1 -> f0 <> f2 -> f0 <> f3 -> f1 <> f2 -> f1 <> f3 -> f2 <> f3 ->
  tsum f0 f1 f2 f3 = tsum f0 f2 f1 f3.
Proof.
  intros. unfold tsum. generalize (pos f0) (pos f1) (pos f2) (pos f3). intros. field. repeat split; lra.
Qed.
Lemma tsum_swap23 : forall f0 f1 f2 f3, f0 <> f1 -> f0 <> f2 -> f0 <> f3 -> f1 <> f2 -> f1 <> f3 -> f2 <> f3 ->
  tsum f0 f1 f2 f3 = tsum f0 f1 f3 f2.
Proof.
  intros. unfold tsum. generalize (pos f0) (pos f1) (pos f2) (pos f3). intros. field. repeat split; lra.
Qed.
Lemma tsum_neg : forall f0 f1 f2 f3, f0 <> f1 -> f0 <> f2 -> f0 <> f3 -> f1 <> f2 -> f1 <> f3 -> f2 <> f3 ->
  tsum f0 f1 f2 f3 + tsum (- f0) (- f1) (- f2) (- f3) = 1.
Proof.
  intros. unfold tsum. rewrite (pos3_split f0), (pos3_split f1), (pos3_split f2), (pos3_split f3).
  generalize (pos (- f0)) (pos (- f1)) (pos (- f2)) (pos (- f3)). intros. field. repeat split; lra.
Qed.
Lemma tsum_scale : forall n f0 f1 f2 f3, 0 < n -> f0 <> f1 -> f0 <> f2 -> f0 <> f3 -> f1 <> f2 -> f1 <> f3 -> f2 <> f3 ->
  tsum (n * f0) (n * f1) (n * f2) (n * f3) = tsum f0 f1 f2 f3.
Proof.
  intros. unfold tsum. rewrite !pos_scale by lra.
  generalize (pos f0) (pos f1) (pos f2) (pos f3). intros. field. repeat split; try lra.
  all: rewrite <- Rmult_minus_distr_l; apply Rmult_integral_contrapositive_currified; lra.
Qed.

(** sort3 sorts *)
Lemma sort3_spec : forall a b c, a <> b -> a <> c -> b <> c ->
  exists x y z, sort3 a b c = (x, y, z) /\ x < y < z /\
   ((x, y, z) = (a, b, c) \/ (x, y, z) = (a, c, b) \/ (x, y, z) = (b, a, c) \/ (x, y, z) = (b, c, a) \/ (x, y, z) = (c, a, b) \/ (x, y, z) = (c, b, a)).
Proof.
  intros a b c Hab Hac Hbc. unfold sort3.
  destruct (Rle_dec a b), (Rle_dec a c), (Rle_dec b c); try (exfalso; lra).
  - exists a, b, c. rewrite (Rmin_left b c), (Rmin_left a b), (Rmax_right b c), (Rmax_right a c) by lra.
    replace (a + b + c - a - c) with b by ring. repeat split; auto; lra.
  - exists a, c, b. rewrite (Rmin_right b c), (Rmin_left a c), (Rmax_left b c), (Rmax_right a b) by lra.
    replace (a + b + c - a - b) with c by ring. repeat split; auto; lra.
  - exists c, a, b. rewrite (Rmin_right b c), (Rmin_right a c), (Rmax_left b c), (Rmax_right a b) by lra.
    replace (a + b + c - c - b) with a by ring. repeat split; auto 6; lra.
  - exists b, a, c. rewrite (Rmin_left b c), (Rmin_right a b), (Rmax_right b c), (Rmax_right a c) by lra.
    replace (a + b + c - b - c) with a by ring. repeat split; auto 6; lra.
  - exists b, c, a. rewrite (Rmin_left b c), (Rmin_right a b), (Rmax_right b c), (Rmax_left a c) by lra.
    replace (a + b + c - b - a) with c by ring. repeat split; auto 7; lra.
  - exists c, b, a. rewrite (Rmin_right b c), (Rmin_right a c), (Rmax_left b c), (Rmax_left a b) by lra.
    replace (a + b + c - c - a) with b by ring. repeat split; auto 8; lra.
Qed.

Lemma tnorm_pos : forall a b c, 0 < sqrt (a ^ 2 + b ^ 2 + c ^ 2) + / 10 ^ 50.
Proof.
  intros. assert (0 <= sqrt (a ^ 2 + b ^ 2 + c ^ 2)) by apply sqrt_pos.
  assert (0 < / 10 ^ 50) by (apply Rinv_0_lt_compat; apply pow_lt; lra). lra.
Qed.

(** the regularised second term *)
Lemma reg_term : forall m a p q d eta, 0 < eta -> eta <= Rabs a -> 0 < d -> 0 <= m -> m <= p -> p <= q -> 0 < p ->
  Rabs (m ^ 3 / (a * p * q) - m ^ 3 / (a * (p + d) * (q + d))) <= 2 * d / eta.
Proof.
  intros m a p q d eta He Ha Hd Hm Hmp Hpq Hp.
  assert (Na : a <> 0) by (intros ->; rewrite Rabs_R0 in Ha; lra).
  replace (m ^ 3 / (a * p * q) - m ^ 3 / (a * (p + d) * (q + d)))
    with (/ a * (m ^ 3 / (p * q) * (d * (p + q + d) / ((p + d) * (q + d))))) by (field; repeat split; lra).
  rewrite Rabs_mult, Rabs_inv.
  assert (P1 : 0 <= m ^ 3 / (p * q) <= p).
  { split.
    - apply Rmult_le_pos; [apply pow_le; auto|left; apply Rinv_0_lt_compat; nra].
    - apply Rmult_le_reg_r with (p * q); [nra|]. unfold Rdiv. rewrite Rmult_assoc, Rinv_l by nra. rewrite Rmult_1_r.
      assert (m ^ 2 <= p ^ 2) by (apply pow_incr; lra).
      replace (m ^ 3) with (m * m ^ 2) by ring. replace (p * (p * q)) with (q * p ^ 2) by ring.
      apply Rmult_le_compat; nra. }
  assert (P2 : 0 <= d * (p + q + d) / ((p + d) * (q + d)) <= 2 * d / p).
  { assert (0 < (p + d) * (q + d)) by nra. split.
    - apply Rmult_le_pos; [nra|left; apply Rinv_0_lt_compat; auto].
    - apply Rmult_le_reg_r with ((p + d) * (q + d) * p); [nra|].
      replace (d * (p + q + d) / ((p + d) * (q + d)) * ((p + d) * (q + d) * p)) with (d * (p + q + d) * p) by (field; split; lra).
      replace (2 * d / p * ((p + d) * (q + d) * p)) with (2 * d * ((p + d) * (q + d))) by (field; lra).
      assert ((p + q + d) * p <= 2 * ((p + d) * (q + d))) by nra. nra. }
  set (A := m ^ 3 / (p * q)) in *. set (B := d * (p + q + d) / ((p + d) * (q + d))) in *.
  assert (AB : 0 <= A * B <= 2 * d).
  { split; [nra|]. apply Rle_trans with (p * (2 * d / p)); [apply Rmult_le_compat; tauto|]. right; field; lra. }
  rewrite (Rabs_right (A * B)) by lra.
  assert (IA : 0 < / Rabs a <= / eta).
  { split; [apply Rinv_0_lt_compat; lra|apply Rinv_le_contravar; auto]. }
  unfold Rdiv. rewrite (Rmult_comm (2 * d)). apply Rmult_le_compat; lra.
Qed.

Definition DELTA : R := / 10 ^ 50.
Lemma delta_pos : 0 < DELTA.
Proof. apply Rinv_0_lt_compat; apply pow_lt; lra. Qed.

(** the branch of the code after sorting *)
Definition tetra_core (a0 x y z : R) : R :=
  let dual := Rltb (y + a0) 0 in
  let '(a0, ax, ay, az) := if dual then (- a0, - z, - y, - x) else (a0, x, y, z) in
  let volume := pos (- a0) ^ 3 / (ax * ay * az) - pos (- ax - a0) ^ 3 / (ax * (ay - ax + DELTA) * (az - ax + DELTA)) in
  (if dual then volume else 1 - volume) / 6.

Lemma tetra_core_exact : forall a0 x y z eta, 0 < eta -> eta <= Rabs x -> eta <= Rabs y -> eta <= Rabs z -> x < y < z ->
  Rabs (tetra_core a0 x y z - tsum a0 (a0 + x) (a0 + y) (a0 + z) / 6) <= DELTA / (3 * eta).
Proof.
  intros a0 x y z eta He Hx Hy Hz Hs.
  assert (Nx : x <> 0) by (intros ->; rewrite Rabs_R0 in Hx; lra).
  assert (Ny : y <> 0) by (intros ->; rewrite Rabs_R0 in Hy; lra).
  assert (Nz : z <> 0) by (intros ->; rewrite Rabs_R0 in Hz; lra).
  pose proof delta_pos as Hd. unfold tetra_core.
  assert (K : forall e, Rabs e <= 2 * DELTA / eta -> Rabs (e / 6) <= DELTA / (3 * eta)).
  { intros e H. unfold Rdiv at 1. rewrite Rabs_mult, (Rabs_right (/ 6)) by lra.
    replace (DELTA / (3 * eta)) with (2 * DELTA / eta * / 6) by (field; lra). apply Rmult_le_compat_r; lra. }
  unfold Rltb; destruct Rlt_dec as [L|L].
  - set (m := pos (- - z - - a0)).
    match goal with |- Rabs (?A / 6 - ?B / 6) <= _ => replace (A / 6 - B / 6) with ((A - B) / 6) by (unfold Rdiv; ring) end.
    apply K.
    replace (tsum a0 (a0 + x) (a0 + y) (a0 + z)) with
      (pos (- - a0) ^ 3 / (- z * - y * - x) - m ^ 3 / (- z * (- y - - z) * (- x - - z))).
    2:{ unfold tsum, m. rewrite (pos_neg (a0 + x)), (pos_neg (a0 + y)) by lra.
        replace (- - z - - a0) with (a0 + z) by ring. rewrite Ropp_involutive.
        generalize (pos a0) (pos (a0 + z)). intros. field. repeat split; lra. }
    match goal with |- Rabs ?e <= _ => replace e with
      (m ^ 3 / (- z * (- y - - z) * (- x - - z)) - m ^ 3 / (- z * (- y - - z + DELTA) * (- x - - z + DELTA))) by ring end.
    apply reg_term; auto; try lra.
    + rewrite Rabs_Ropp; auto.
    + apply pos_nonneg.
    + unfold m. destruct (pos_case (- - z - - a0)) as [[? ->]|[? ->]]; lra.
  - set (m := pos (- x - a0)).
    pose proof (tsum_neg a0 (a0 + x) (a0 + y) (a0 + z)) as T.
    rewrite <- (T ltac:(lra) ltac:(lra) ltac:(lra) ltac:(lra) ltac:(lra) ltac:(lra)). clear T.
    match goal with |- Rabs ((?A + ?C - ?B) / 6 - ?A / 6) <= _ => replace ((A + C - B) / 6 - A / 6) with ((C - B) / 6) by (unfold Rdiv; ring) end.
    apply K.
    replace (tsum (- a0) (- (a0 + x)) (- (a0 + y)) (- (a0 + z))) with
      (pos (- a0) ^ 3 / (x * y * z) - m ^ 3 / (x * (y - x) * (z - x))).
    2:{ unfold tsum, m. rewrite (pos_neg (- (a0 + y))), (pos_neg (- (a0 + z))) by lra.
        replace (- (a0 + x)) with (- x - a0) by ring.
        generalize (pos (- a0)) (pos (- x - a0)). intros. field. repeat split; lra. }
    match goal with |- Rabs ?e <= _ => replace e with
      (- (m ^ 3 / (x * (y - x) * (z - x)) - m ^ 3 / (x * (y - x + DELTA) * (z - x + DELTA)))) by ring end.
    rewrite Rabs_Ropp. apply reg_term; auto; try lra.
    + apply pos_nonneg.
    + unfold m. destruct (pos_case (- x - a0)) as [[? ->]|[? ->]]; lra.
Qed.

Lemma guard_id : forall t r x, t <= Rabs x -> guard t r x = x.
Proof. intros; unfold guard. rewrite Rltb_f; auto. Qed.

(** The result is the volume of the part of the tetrahedron on which the linear function with the corner values
    a0, a0+ax, a0+ay, a0+az is positive, up to 1e-42, if the three slopes differ and none is (relatively) close to zero. *)
Theorem C48_tetra_volume_partial : forall a0 ax ay az,
  let n := sqrt (ax ^ 2 + ay ^ 2 + az ^ 2) + / 10 ^ 50 in
  4 / 10 ^ 9 * n <= Rabs ax -> 4 / 10 ^ 9 * n <= Rabs ay -> 4 / 10 ^ 9 * n <= Rabs az ->
  ax <> ay -> ax <> az -> ay <> az ->
  exists v, tetra_part (fun x y z => Rltb 0 (a0 + ax * x + ay * y + az * z)) v /\
            Rabs (unit_tetra_cut_volume a0 ax ay az - v) <= / 10 ^ 42.
Proof.
  intros a0 ax ay az n Hx Hy Hz Hxy Hxz Hyz.
  assert (Hn : 0 < n) by apply tnorm_pos.
  assert (Hi : 0 < / n) by (apply Rinv_0_lt_compat; auto).
  set (eta := 4 / 10 ^ 9) in *. assert (He : 0 < eta) by (unfold eta; lra).
  assert (N : forall g, eta * n <= Rabs g -> g <> 0 /\ eta <= Rabs (g / n)).
  { intros g Hg. split.
    - intros ->. rewrite Rabs_R0 in Hg. nra.
    - unfold Rdiv. rewrite Rabs_mult, (Rabs_right (/ n)) by lra.
      apply Rmult_le_reg_r with n; auto. rewrite Rmult_assoc, Rinv_l by lra. lra. }
  destruct (N _ Hx) as [Nx Ex], (N _ Hy) as [Ny Ey], (N _ Hz) as [Nz Ez].
  exists (tsum a0 (a0 + ax) (a0 + ay) (a0 + az) / 6). split; [apply tetra_part_tsum; auto|].
  assert (D : forall g h, g <> h -> g / n <> h / n).
  { intros g h H E. apply H. apply Rmult_eq_reg_r with (/ n); auto; lra. }
  assert (Scale : tsum a0 (a0 + ax) (a0 + ay) (a0 + az) = tsum (a0 / n) (a0 / n + ax / n) (a0 / n + ay / n) (a0 / n + az / n)).
  { rewrite <- (tsum_scale (/ n) a0 (a0 + ax) (a0 + ay) (a0 + az)) by lra.
    unfold Rdiv. f_equal; ring. }
  rewrite Scale. clear Scale.
  destruct (sort3_spec (ax / n) (ay / n) (az / n)) as (x & y & z & Es & Hs & P); auto.
  assert (P' : tsum (a0 / n) (a0 / n + ax / n) (a0 / n + ay / n) (a0 / n + az / n) = tsum (a0 / n) (a0 / n + x) (a0 / n + y) (a0 / n + z)
     /\ eta <= Rabs x /\ eta <= Rabs y /\ eta <= Rabs z).
  { assert (Zd : forall g, g <> 0 -> g / n <> 0).
    { intros g H E. apply (D g 0 H). rewrite E. unfold Rdiv; ring. }
    pose proof (D _ _ Hxy). pose proof (D _ _ Hxz). pose proof (D _ _ Hyz).
    pose proof (Zd _ Nx). pose proof (Zd _ Ny). pose proof (Zd _ Nz).
    destruct P as [P|[P|[P|[P|[P|P]]]]]; injection P as -> -> ->; (split; [|tauto]).
    - auto.
    - apply tsum_swap23; lra.
    - apply tsum_swap12; lra.
    - rewrite tsum_swap12, tsum_swap23 by lra; auto.
    - rewrite tsum_swap23, tsum_swap12 by lra; auto.
    - rewrite tsum_swap12, tsum_swap23, tsum_swap12 by lra; auto. }
  destruct P' as (-> & Bx & By & Bz).
  replace (unit_tetra_cut_volume a0 ax ay az) with (tetra_core (a0 / n) x y z).
  - eapply Rle_trans; [apply (tetra_core_exact (a0 / n) x y z eta); auto|].
    unfold DELTA, eta. lra.
  - unfold unit_tetra_cut_volume, tetra_prep, tetra_core. fold n. rewrite Es.
    destruct (Rltb (y + a0 / n) 0).
    + rewrite !guard_id; auto; rewrite Rabs_Ropp; unfold eta in *; lra.
    + rewrite !guard_id; auto; unfold eta in *; lra.
Qed.
Print Assumptions C48_tetra_volume_partial.

(** ** The derivative *)
Lemma pos3_lin : forall u b c y, is_derive (fun y => pos (u + b * y) ^ 3 / c) y (3 * b * pos (u + b * y) ^ 2 / c).
Proof.
  intros u b c y. unfold Rdiv. rewrite Rmult_comm.
  apply is_derive_ext with (fun y => / c * pos (u + b * y) ^ 3).
  - intros t. apply Rmult_comm.
  - apply is_derive_scal. apply pos3_affine.
Qed.

(** The derivative of unit_tetra_cut_volume with respect to the offset a0 is unit_tetra_cut_dvolume, for all slopes
    and all offsets except the one at which the code switches to the dual problem. *)
Theorem C48_tetra_derivative_partial : forall a0 ax ay az,
  let n := sqrt (ax ^ 2 + ay ^ 2 + az ^ 2) + / 10 ^ 50 in
  snd (fst (sort3 (ax / n) (ay / n) (az / n))) + a0 / n <> 0 ->
  is_derive (fun a0 => unit_tetra_cut_volume a0 ax ay az) a0 (unit_tetra_cut_dvolume a0 ax ay az).
Proof.
  intros a0 ax ay az n H.
  assert (Hn : 0 < n) by apply tnorm_pos.
  assert (Hi : 0 < / n) by (apply Rinv_0_lt_compat; auto).
  unfold unit_tetra_cut_volume, unit_tetra_cut_dvolume, tetra_prep. fold n.
  destruct (sort3 (ax / n) (ay / n) (az / n)) as [[x y] z]. cbn [fst snd] in H.
  assert (Loc : locally a0 (fun t => Rltb (y + t / n) 0 = Rltb (y + a0 / n) 0)).
  { exists (mkposreal (Rabs (y + a0 / n) * n) ltac:(apply Rmult_lt_0_compat; auto; apply Rabs_pos_lt; auto)).
    intros t Ht. unfold ball in Ht; simpl in Ht. unfold AbsRing_ball, abs, minus, plus, opp in Ht; simpl in Ht.
    assert (Hd : Rabs (t / n - a0 / n) < Rabs (y + a0 / n)).
    { replace (t / n - a0 / n) with ((t + - a0) * / n) by (field; lra).
      rewrite Rabs_mult, (Rabs_right (/ n)) by lra.
      apply Rmult_lt_reg_r with n; auto. rewrite Rmult_assoc, Rinv_l by lra. lra. }
    unfold Rltb. destruct (Rlt_dec (y + t / n) 0), (Rlt_dec (y + a0 / n) 0); auto; exfalso;
    revert Hd; unfold Rabs; repeat destruct Rcase_abs; lra. }
  destruct (Rltb (y + a0 / n) 0) eqn:E.
  - set (gx := guard _ _ (- z)). set (gy := guard _ _ (- y)). set (gz := guard _ _ (- x)).
    apply is_derive_ext_loc with (fun t => / 6 * (pos (0 + / n * t) ^ 3 / (gx * gy * gz) - pos (- gx + / n * t) ^ 3 / (gx * (gy - gx + / 10 ^ 50) * (gz - gx + / 10 ^ 50)))).
    + eapply filter_imp; [|exact Loc]. intros t ->. fold gx gy gz. rewrite Rmult_comm.
      replace (0 + / n * t) with (- - (t / n)) by (field; lra). replace (- gx + / n * t) with (- gx - - (t / n)) by (field; lra). reflexivity.
    + match goal with |- is_derive _ _ ?v => replace v with
        (/ 6 * (minus (3 * / n * pos (0 + / n * a0) ^ 2 / (gx * gy * gz)) (3 * / n * pos (- gx + / n * a0) ^ 2 / (gx * (gy - gx + / 10 ^ 50) * (gz - gx + / 10 ^ 50))))) end.
      * apply is_derive_scal. apply (is_derive_minus (V:=R_NormedModule)); apply pos3_lin.
      * replace (0 + / n * a0) with (- - (a0 / n)) by (field; lra). replace (- gx + / n * a0) with (- gx - - (a0 / n)) by (field; lra).
        unfold minus, plus, opp, Rdiv; cbn -[pow].
        generalize (/ (gx * gy * gz)) (/ (gx * (gy - gx + / 10 ^ 50) * (gz - gx + / 10 ^ 50))). intros. field. lra.
  - set (gx := guard _ _ x). set (gy := guard _ _ y). set (gz := guard _ _ z).
    apply is_derive_ext_loc with (fun t => / 6 * (1 - (pos (0 + - / n * t) ^ 3 / (gx * gy * gz) - pos (- gx + - / n * t) ^ 3 / (gx * (gy - gx + / 10 ^ 50) * (gz - gx + / 10 ^ 50))))).
    + eapply filter_imp; [|exact Loc]. intros t ->. fold gx gy gz. rewrite Rmult_comm.
      replace (0 + - / n * t) with (- (t / n)) by (field; lra). replace (- gx + - / n * t) with (- gx - (t / n)) by (field; lra). reflexivity.
    + match goal with |- is_derive _ _ ?v => replace v with
        (/ 6 * (minus 0 (minus (3 * - / n * pos (0 + - / n * a0) ^ 2 / (gx * gy * gz)) (3 * - / n * pos (- gx + - / n * a0) ^ 2 / (gx * (gy - gx + / 10 ^ 50) * (gz - gx + / 10 ^ 50)))))) end.
      * apply is_derive_scal. apply (is_derive_minus (V:=R_NormedModule)); [apply (is_derive_const (V:=R_NormedModule) 1)|].
        apply (is_derive_minus (V:=R_NormedModule)); apply pos3_lin.
      * replace (0 + - / n * a0) with (- (a0 / n)) by (field; lra). replace (- gx + - / n * a0) with (- gx - (a0 / n)) by (field; lra).
        unfold minus, plus, opp, Rdiv; cbn -[pow].
        generalize (/ (gx * gy * gz)) (/ (gx * (gy - gx + / 10 ^ 50) * (gz - gx + / 10 ^ 50))). intros. field. lra.
Qed.
Print Assumptions C48_tetra_derivative_partial.

Lemma sqrt_val : forall x y, 0 <= y -> x = y ^ 2 -> sqrt x = y.
Proof. intros x y Hy ->. apply sqrt_pow2; auto. Qed.
Lemma D50 : 0 < / 10 ^ 50 < / 10 ^ 49.
Proof. lra. Qed.

(** Not exactly a fraction: the regularisation 1e-50 in the denominators makes an empty cut slightly negative. *)
Theorem C48_tetra_range_refuted : unit_tetra_cut_volume (-1) (1/2) 1 1 < 0.
Proof.
  unfold unit_tetra_cut_volume, tetra_prep.
  rewrite (sqrt_val ((1 / 2) ^ 2 + 1 ^ 2 + 1 ^ 2) (3 / 2)) by lra.
  set (d := / 10 ^ 50). assert (Hd : 0 < d < 1 / 10) by (unfold d; lra).
  set (n := 3 / 2 + d). assert (Hn : 3 / 2 < n < 2) by (unfold n; lra).
  assert (Hi : / 2 < / n < 2 / 3).
  { split; [apply Rinv_lt_contravar; lra|]. replace (2 / 3) with (/ (3 / 2)) by field. apply Rinv_lt_contravar; lra. }
  set (i := / n) in *.
  replace (1 / 2 / n) with (i / 2) by (unfold i; field; lra). replace (1 / n) with i by (unfold i; field; lra).
  replace (-1 / n) with (- i) by (unfold i; field; lra).
  unfold sort3. rewrite (Rmin_left i i), (Rmin_left (i / 2) i), (Rmax_left i i), (Rmax_right (i / 2) i) by lra.
  replace (i / 2 + i + i - i / 2 - i) with i by field.
  rewrite Rltb_f by lra.
  rewrite !guard_id by (rewrite Rabs_right; lra).
  rewrite (pos_pos (- - i)), (pos_pos (- (i / 2) - - i)) by lra.
  replace (- - i) with i by ring. replace (- (i / 2) - - i) with (i / 2) by field. replace (i - i / 2 + d) with (i / 2 + d) by field.
  replace ((1 - (i ^ 3 / (i / 2 * i * i) - (i / 2) ^ 3 / (i / 2 * (i / 2 + d) * (i / 2 + d)))) / 6)
    with (((i / 2) ^ 2 - (i / 2 + d) ^ 2) * (/ (i / 2 + d) * / (i / 2 + d) * / 6)) by (field; lra).
  assert (0 < / (i / 2 + d)) by (apply Rinv_0_lt_compat; lra).
  assert (0 < / (i / 2 + d) * / (i / 2 + d) * / 6) by (repeat apply Rmult_lt_0_compat; lra).
  assert ((i / 2) ^ 2 - (i / 2 + d) ^ 2 < 0) by nra. nra.
Qed.
Print Assumptions C48_tetra_range_refuted.

Lemma div_le : forall p q c, 0 < q -> p <= c * q -> p / q <= c.
Proof. intros p q c Hq H. apply Rmult_le_reg_r with q; auto. unfold Rdiv. rewrite Rmult_assoc, Rinv_l by lra. lra. Qed.
Lemma div_ge : forall p q c, 0 < q -> c * q <= p -> c <= p / q.
Proof. intros p q c Hq H. apply Rmult_le_reg_r with q; auto. unfold Rdiv. rewrite Rmult_assoc, Rinv_l by lra. lra. Qed.

(** Not monotone (and not continuous): raising the offset by 1e-10 lowers the volume by more than 2e-10 when two slopes
    are close to zero. *)
Definition wit_k : R := (1 - / 10 ^ 50) / (1 + 4 / 10 ^ 18).
Definition wit_y : R := - (4 / 10 ^ 9 * wit_k).
Definition wit_z : R := - ((1 - 4 / 10 ^ 18) * wit_k).
Theorem C48_tetra_monotone_refuted :
  unit_tetra_cut_volume (40 / 10 ^ 10) 0 wit_y wit_z < unit_tetra_cut_volume (39 / 10 ^ 10) 0 wit_y wit_z - 2 / 10 ^ 10.
Proof.
  assert (Nrm : sqrt (0 ^ 2 + wit_y ^ 2 + wit_z ^ 2) + / 10 ^ 50 = 1).
  { rewrite (sqrt_val _ (1 - / 10 ^ 50)); [lra|lra|]. unfold wit_y, wit_z, wit_k. field. }
  unfold unit_tetra_cut_volume, tetra_prep. rewrite Nrm. unfold wit_y, wit_z.
  assert (Hk : 1 - / 10 ^ 17 < wit_k < 1) by (unfold wit_k; lra).
  set (k := wit_k) in *. clearbody k.
  set (w := (1 - 4 / 10 ^ 18) * k).
  assert (Hw : 1 - / 10 ^ 16 < w < 1) by (unfold w; lra).
  clearbody w.
  replace (0 / 1) with 0 by field. replace (- (4 / 10 ^ 9 * k) / 1) with (- (4 / 10 ^ 9 * k)) by field. replace (- w / 1) with (- w) by field.
  unfold sort3.
  rewrite (Rmin_right (- (4 / 10 ^ 9 * k)) (- w)), (Rmin_right 0 (- w)), (Rmax_left (- (4 / 10 ^ 9 * k)) (- w)), (Rmax_left 0 (- (4 / 10 ^ 9 * k))) by lra.
  replace (0 + - (4 / 10 ^ 9 * k) + - w - - w - 0) with (- (4 / 10 ^ 9 * k)) by ring.
  rewrite Rltb_f by lra. rewrite (Rltb_t (- (4 / 10 ^ 9 * k) + 39 / 10 ^ 10 / 1)) by lra.
  replace (40 / 10 ^ 10 / 1) with (4 / 10 ^ 9) by field. replace (39 / 10 ^ 10 / 1) with (39 / 10 ^ 10) by field.
  replace (- 0) with 0 by ring. rewrite !Ropp_involutive.
  assert (G0 : forall t r, 0 < t -> guard t r 0 = r) by (intros t r Ht; unfold guard; rewrite Rabs_R0, Rltb_t; auto).
  rewrite !G0 by lra.
  rewrite (guard_id _ _ (- w)) by (rewrite Rabs_left; lra).
  rewrite (guard_id _ _ (- (4 / 10 ^ 9 * k))) by (rewrite Rabs_left; lra).
  rewrite (guard_id _ _ w) by (rewrite Rabs_right; lra).
  rewrite (guard_id _ _ (4 / 10 ^ 9 * k)) by (rewrite Rabs_right; lra).
  rewrite !Ropp_involutive.
  rewrite (pos_neg (- (4 / 10 ^ 9))), (pos_pos (w - 4 / 10 ^ 9)), (pos_pos (39 / 10 ^ 10)) by lra.
  rewrite (pos_pos (4 / 10 ^ 9 - - (39 / 10 ^ 10))) by lra.
  set (d := / 10 ^ 50). assert (Hd : 0 < d < / 10 ^ 49) by (unfold d; lra). clearbody d.
  (* the value below the switch *)
  assert (L1 : (39 / 10 ^ 10) ^ 3 / (- (4 / 10 ^ 9) * (4 / 10 ^ 9 * k) * w) >= - (371 / 10 ^ 11)).
  { assert (Hkw : 1 - / 10 ^ 15 < k * w) by nra.
    replace ((39 / 10 ^ 10) ^ 3 / (- (4 / 10 ^ 9) * (4 / 10 ^ 9 * k) * w)) with (- ((39 / 10 ^ 10) ^ 3 / (16 / 10 ^ 18) / (k * w))) by (field; lra).
    apply Rle_ge. apply Ropp_le_contravar. apply div_le; lra. }
  assert (L2 : (4 / 10 ^ 9 - - (39 / 10 ^ 10)) ^ 3 / (- (4 / 10 ^ 9) * (4 / 10 ^ 9 * k - - (4 / 10 ^ 9) + d) * (w - - (4 / 10 ^ 9) + d)) <= - (154 / 10 ^ 10)).
  { set (P := 4 / 10 ^ 9 * k - - (4 / 10 ^ 9) + d). set (Q := w - - (4 / 10 ^ 9) + d).
    assert (HP : 0 < P < 8001 / 10 ^ 12) by (unfold P; lra). assert (HQ : 0 < Q < 1 + / 10 ^ 8) by (unfold Q; lra).
    assert (HPQ : 0 < P * Q < 8002 / 10 ^ 12) by nra.
    replace ((4 / 10 ^ 9 - - (39 / 10 ^ 10)) ^ 3 / (- (4 / 10 ^ 9) * P * Q)) with (- ((4 / 10 ^ 9 - - (39 / 10 ^ 10)) ^ 3 / (4 / 10 ^ 9) / (P * Q))) by (field; lra).
    apply Ropp_le_contravar. apply div_ge; lra. }
  (* the value above the switch *)
  assert (U : (w - 4 / 10 ^ 9) ^ 3 / (- w * (- (4 / 10 ^ 9 * k) - - w + d) * (2 / 10 ^ 9 - - w + d)) <= - (1 - 102 / 10 ^ 10)).
  { set (P := - (4 / 10 ^ 9 * k) - - w + d). set (Q := 2 / 10 ^ 9 - - w + d).
    assert (HP : 0 < P < 1 - 4 / 10 ^ 9 + / 10 ^ 15) by (unfold P; lra). assert (HQ : 0 < Q < 1 + 2 / 10 ^ 9 + / 10 ^ 15) by (unfold Q; lra).
    assert (HPQ : 0 < w * P * Q < 1 - 19 / 10 ^ 10).
    { assert (0 < w * P < 1 - 4 / 10 ^ 9 + / 10 ^ 15) by nra. nra. }
    replace ((w - 4 / 10 ^ 9) ^ 3 / (- w * P * Q)) with (- ((w - 4 / 10 ^ 9) ^ 3 / (w * P * Q))) by (field; lra).
    apply Ropp_le_contravar. apply div_ge; [lra|].
    apply Rle_trans with ((1 - / 10 ^ 16 - 4 / 10 ^ 9) ^ 3); [|apply pow_incr; lra].
    apply Rle_trans with ((1 - 102 / 10 ^ 10) * (1 - 19 / 10 ^ 10)); [apply Rmult_le_compat_l; lra|]. lra. }
  lra.
Qed.
Print Assumptions C48_tetra_monotone_refuted.

(** the tetrahedron method on a cell value where everything is fine: the corner values -1, 1, 2, 5 *)
Example C48_tetra_example : exists v, tetra_part (fun x y z => Rltb 0 (-1 + 2 * x + 3 * y + 6 * z)) v /\
  Rabs (unit_tetra_cut_volume (-1) 2 3 6 - v) <= / 10 ^ 42.
Proof.
  assert (N : sqrt (2 ^ 2 + 3 ^ 2 + 6 ^ 2) = 7) by (apply sqrt_val; lra).
  apply C48_tetra_volume_partial; try rewrite N; try lra; rewrite Rabs_right; lra.
Qed.

(** ** Spheres *)
Lemma sphere_r_pos : 0 < sphere_r.
Proof. unfold sphere_r; lra. Qed.
(** the clamped offset in units of the radius *)
Definition sphere_d (a0 n : R) : R := Rmax (Rmin (a0 / (n * sphere_r)) 1) (-1).
Lemma sphere_d_range : forall a0 n, -1 <= sphere_d a0 n <= 1.
Proof.
  intros. unfold sphere_d. split; [apply Rmax_r|]. apply Rmax_lub; [apply Rmin_r|lra].
Qed.

(** The volume is the fraction of a ball below a plane at the (clamped) distance d from its center, by slices: the slice
    of the unit ball at height u has the area pi (1 - u^2), the whole ball 4 pi / 3. *)
Theorem C48_sphere_volume : forall a0 ax ay az,
  let n := sqrt (ax ^ 2 + ay ^ 2 + az ^ 2) + / 10 ^ 50 in
  is_RInt (fun u => PI * (1 - u ^ 2) / (4 / 3 * PI)) (-1) (sphere_d a0 n) (fst (unit_sphere_cut a0 ax ay az)).
Proof.
  intros a0 ax ay az n. unfold unit_sphere_cut. cbn [fst]. fold n. fold (sphere_d a0 n). set (d := sphere_d a0 n).
  pose proof PI_RGT_0 as Hpi.
  replace ((1 + d) * (1 + d) * (2 - d) * (1 / 4)) with (minus (3 / 4 * (d - d ^ 3 / 3)) (3 / 4 * (-1 - (-1) ^ 3 / 3)))
    by (unfold minus, plus, opp; cbn -[pow]; field).
  apply (is_RInt_derive (fun u => 3 / 4 * (u - u ^ 3 / 3))).
  - intros x _. auto_derive; auto. field. lra.
  - intros x _. apply (ex_derive_continuous (V:=R_NormedModule) (fun u => PI * (1 - u ^ 2) / (4 / 3 * PI))). auto_derive; auto.
Qed.
Print Assumptions C48_sphere_volume.

Theorem C48_sphere_range : forall a0 ax ay az, 0 <= fst (unit_sphere_cut a0 ax ay az) <= 1 /\ 0 <= snd (unit_sphere_cut a0 ax ay az).
Proof.
  intros a0 ax ay az. unfold unit_sphere_cut. set (n := sqrt (ax ^ 2 + ay ^ 2 + az ^ 2) + / 10 ^ 50). cbn [fst snd]. fold (sphere_d a0 n).
  pose proof (sphere_d_range a0 n). set (d := sphere_d a0 n) in *.
  assert (Hn : 0 < n) by apply tnorm_pos. pose proof sphere_r_pos.
  assert (0 < / n) by (apply Rinv_0_lt_compat; auto). assert (0 < / sphere_r) by (apply Rinv_0_lt_compat; auto).
  split; [split|].
  - assert (0 <= (1 + d) * (1 + d)) by nra. nra.
  - assert (0 <= (1 - d) * ((1 - d) * (2 + d))) by (apply Rmult_le_pos; nra). nra.
  - unfold Rdiv. repeat apply Rmult_le_pos; lra.
Qed.
Print Assumptions C48_sphere_range.

(** everywhere differentiable with the returned derivative *)
Theorem C48_sphere_derivative : forall a0 ax ay az,
  is_derive (fun a0 => fst (unit_sphere_cut a0 ax ay az)) a0 (snd (unit_sphere_cut a0 ax ay az)).
Proof.
  intros a0 ax ay az. unfold unit_sphere_cut. set (n := sqrt (ax ^ 2 + ay ^ 2 + az ^ 2) + / 10 ^ 50). cbn [fst snd].
  assert (Hn : 0 < n) by apply tnorm_pos. pose proof sphere_r_pos as Hr.
  assert (Hnr : 0 < n * sphere_r) by (apply Rmult_lt_0_compat; auto).
  set (c := / (n * sphere_r)). assert (Hc : 0 < c) by (apply Rinv_0_lt_compat; auto).
  (* truncated powers *)
  assert (V : forall t, (3 / 4 * pos (1 + c * t) ^ 2 - 1 / 4 * pos (1 + c * t) ^ 3 + 3 / 4 * pos (-1 + c * t) ^ 2 + 1 / 4 * pos (-1 + c * t) ^ 3)
     = (1 + sphere_d t n) * (1 + sphere_d t n) * (2 - sphere_d t n) * (1 / 4)).
  { intros t. unfold sphere_d. replace (t / (n * sphere_r)) with (c * t) by (unfold c; field; split; lra). set (x := c * t).
    destruct (Rle_dec x (-1)).
    - rewrite (Rmin_left x), Rmax_right, !pos_neg by lra. ring.
    - destruct (Rle_dec x 1).
      + rewrite (Rmin_left x), Rmax_left, (pos_pos (1 + x)), (pos_neg (-1 + x)) by lra. field.
      + rewrite (Rmin_right x), Rmax_left, !pos_pos by lra. field. }
  eapply is_derive_ext; [intros t; apply V|].
  match goal with |- is_derive _ _ ?v => replace v with
    (plus (plus (minus (3 / 4 * (2 * c * pos (1 + c * a0))) (1 / 4 * (3 * c * pos (1 + c * a0) ^ 2))) (3 / 4 * (2 * c * pos (-1 + c * a0)))) (1 / 4 * (3 * c * pos (-1 + c * a0) ^ 2))) end.
  - apply (is_derive_plus (V:=R_NormedModule)); [apply (is_derive_plus (V:=R_NormedModule)); [apply (is_derive_minus (V:=R_NormedModule))|]|];
    apply is_derive_scal; first [apply pos2_affine | apply pos3_affine].
  - fold (sphere_d a0 n). unfold plus, minus, opp, plus; cbn -[pow].
    replace ((1 + sphere_d a0 n) * (1 - sphere_d a0 n) * (3 / 4 / sphere_r) / n) with ((1 + sphere_d a0 n) * (1 - sphere_d a0 n) * (3 / 4 * c)) by (unfold c; field; lra).
    unfold sphere_d. replace (a0 / (n * sphere_r)) with (c * a0) by (unfold c; field; split; lra). set (x := c * a0).
    destruct (Rle_dec x (-1)).
    + rewrite (Rmin_left x), Rmax_right, !pos_neg by lra. ring.
    + destruct (Rle_dec x 1).
      * rewrite (Rmin_left x), Rmax_left, (pos_pos (1 + x)), (pos_neg (-1 + x)) by lra. field.
      * rewrite (Rmin_right x), Rmax_left, !pos_pos by lra. field.
Qed.
Print Assumptions C48_sphere_derivative.

Theorem C48_sphere_monotone : forall t t' ax ay az, t <= t' -> fst (unit_sphere_cut t ax ay az) <= fst (unit_sphere_cut t' ax ay az).
Proof.
  intros t t' ax ay az H. unfold unit_sphere_cut. set (n := sqrt (ax ^ 2 + ay ^ 2 + az ^ 2) + / 10 ^ 50). cbn [fst].
  fold (sphere_d t n) (sphere_d t' n).
  assert (Hnr : 0 < n * sphere_r) by (apply Rmult_lt_0_compat; [apply tnorm_pos|apply sphere_r_pos]).
  assert (Hd : sphere_d t n <= sphere_d t' n).
  { unfold sphere_d. apply Rle_max_compat_r. apply Rle_min_compat_r. apply Rmult_le_compat_r; auto. left; apply Rinv_0_lt_compat; auto. }
  pose proof (sphere_d_range t n). pose proof (sphere_d_range t' n).
  set (d := sphere_d t n) in *. set (e := sphere_d t' n) in *.
  assert ((1 + e) * (1 + e) * (2 - e) - (1 + d) * (1 + d) * (2 - d) = (e - d) * (3 - e ^ 2 - e * d - d ^ 2)) by ring.
  assert (0 <= 3 - e ^ 2 - e * d - d ^ 2) by nra. nra.
Qed.
Print Assumptions C48_sphere_monotone.

Example C48_sphere_example : unit_sphere_cut 0 1 2 2 = (1 / 2, 3 / 4 / sphere_r / (3 + / 10 ^ 50)).
Proof.
  unfold unit_sphere_cut. rewrite (sqrt_val (1 ^ 2 + 2 ^ 2 + 2 ^ 2) 3) by lra.
  replace (0 / ((3 + / 10 ^ 50) * sphere_r)) with 0 by (unfold Rdiv; ring).
  rewrite Rmin_left, Rmax_left by lra. f_equal; [field|]. unfold Rdiv. ring.
Qed.

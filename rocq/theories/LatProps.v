(** * C53, C54, C80-C81: lattices, densities, masses and file order *)
From Coq Require Import Reals List ZArith Bool String Lra Lia Psatz Permutation.
From Verif Require Import NbrModel SmearCalc SmearProps LatModel.
Import ListNotations.
Local Open Scope R_scope.

(** ** C53: specification *)
Definition dot3 (u v : vec) : R := let '(a, b, c) := u in let '(d, e, f) := v in a * d + b * e + c * f.
(** the lattice has edges of the lengths a, b, c with the angles alpha (between
    the second and third), beta (first and third) and gamma (first and second)
    and is right handed *)
Definition cell (l : lattice) (a b c alpha beta gamma : R) : Prop :=
  let '(u, v, w) := l in
  dot3 u u = a * a /\ dot3 v v = b * b /\ dot3 w w = c * c /\
  dot3 v w = b * c * cos alpha /\ dot3 u w = a * c * cos beta /\ dot3 u v = a * b * cos gamma /\ 0 < det3 l.
(** the points of a lattice *)
Definition point (l : lattice) (x y z : R) : vec :=
  let '((a1, a2, a3), (b1, b2, b3), (c1, c2, c3)) := l in
  (x * a1 + y * b1 + z * c1, x * a2 + y * b2 + z * c2, x * a3 + y * b3 + z * c3).
Definition in_lattice (l : lattice) (p : vec) : Prop := exists i j k : Z, p = point l (IZR i) (IZR j) (IZR k).
(** the points of the conventional cell with centering: half integer
    coordinates (i/2, j/2, k/2) with a condition on i, j, k *)
Definition in_centered (P : Z -> Z -> Z -> Prop) (l : lattice) (p : vec) : Prop :=
  exists i j k : Z, P i j k /\ p = point l (IZR i / 2) (IZR j / 2) (IZR k / 2).
Definition faceP i j k := Z.Even (i + j + k).
Definition bodyP i j k := Z.Even (i + j) /\ Z.Even (j + k).
Definition baseP i j k := Z.Even (i + j) /\ Z.Even k.

(** ** proofs *)
Lemma posb_t : forall x, posb x = true -> 0 < x.
Proof. intros x H. apply Rltb_true. exact H. Qed.
Lemma angleb_t : forall x, angleb x = true -> 0 < x < PI.
Proof. intros x H. unfold angleb in H. apply andb_true_iff in H. destruct H as [a b]. split; [apply (Rltb_true _ _ b)|apply (Rltb_true _ _ a)]. Qed.
Ltac okc H := match type of H with (if ?b then _ else _) = Some _ => destruct b eqn:?; [|discriminate]; injection H as <- end;
  repeat match goal with E : (_ && _)%bool = true |- _ => apply andb_true_iff in E; destruct E end;
  repeat match goal with E : posb _ = true |- _ => apply posb_t in E | E : angleb _ = true |- _ => apply angleb_t in E end.

Lemma sq3 : sqrt 3 * sqrt 3 = 3. Proof. apply sqrt_sqrt. lra. Qed.
Lemma sq3_pos : 0 < sqrt 3. Proof. apply sqrt_lt_R0. lra. Qed.
Lemma c23 : cos (2 * PI / 3) = - (1 / 2).
Proof. replace (2 * PI / 3) with (2 * (PI / 3)) by field. rewrite cos_2a_cos, cos_PI3. field. Qed.

Theorem C53_sc : forall a, 0 < a -> cell (sc a) a a a (PI / 2) (PI / 2) (PI / 2) /\ det3 (sc a) = a ^ 3.
Proof.
  intros a Ha. unfold cell, sc, lscale, vscale, dot3, det3. rewrite cos_PI2.
  assert (0 < a ^ 3) by (apply pow_lt, Ha). repeat split; try lra; try ring.
Qed.
Theorem C53_hexagonal : forall a c, 0 < a -> 0 < c ->
  cell (hexagonal a c) a a c (PI / 2) (PI / 2) (2 * PI / 3) /\ det3 (hexagonal a c) = sqrt 3 / 2 * a ^ 2 * c.
Proof.
  intros a c Ha Hc. pose proof sq3. pose proof sq3_pos.
  assert (E : det3 (hexagonal a c) = sqrt 3 / 2 * a ^ 2 * c) by (unfold hexagonal, lscale, vscale, det3; field; lra).
  split; [|exact E]. unfold cell. unfold hexagonal, lscale, vscale, dot3 in *. rewrite cos_PI2, c23.
  assert (0 < sqrt 3 / 2 * a ^ 2 * c) by (repeat apply Rmult_lt_0_compat; try lra; apply pow_lt, Ha).
  repeat split; try (field; lra).
  - replace (a * - (1 / 2) * (a * - (1 / 2)) + a * (sqrt 3 / 2) * (a * (sqrt 3 / 2)) + a * 0 * (a * 0)) with (a * a * (1 / 4 + sqrt 3 * sqrt 3 / 4)) by field.
    rewrite H. field.
  - rewrite E. exact H1.
Qed.

(** *** triclinic *)
Definition gram (alpha beta gamma : R) : R :=
  1 - cos alpha ^ 2 - cos beta ^ 2 - cos gamma ^ 2 + 2 * cos alpha * cos beta * cos gamma.
Lemma gram_v : forall alpha beta gamma, sin gamma <> 0 ->
  let v := (cos alpha - cos gamma * cos beta) / sin gamma in
  sin gamma ^ 2 * (sin beta * sin beta - v * v) = gram alpha beta gamma.
Proof.
  intros alpha beta gamma Hg v. unfold v, gram.
  pose proof (sin2_cos2 gamma) as sg. pose proof (sin2_cos2 beta) as sb. unfold Rsqr in sg, sb.
  replace (sin gamma ^ 2 * (sin beta * sin beta - (cos alpha - cos gamma * cos beta) / sin gamma * ((cos alpha - cos gamma * cos beta) / sin gamma)))
    with (sin gamma * sin gamma * (sin beta * sin beta) - (cos alpha - cos gamma * cos beta) ^ 2) by (field; exact Hg).
  replace (sin gamma * sin gamma) with (1 - cos gamma * cos gamma) by lra.
  replace (sin beta * sin beta) with (1 - cos beta * cos beta) by lra. ring.
Qed.
Lemma gram_prod : forall alpha beta gamma, let s := (alpha + beta + gamma) / 2 in
  gram alpha beta gamma = 4 * sin s * sin (s - alpha) * sin (s - beta) * sin (s - gamma).
Proof.
  intros alpha beta gamma s.
  assert (P : forall x y, 2 * sin x * sin y = cos (x - y) - cos (x + y)) by (intros; rewrite cos_minus, cos_plus; ring).
  replace (4 * sin s * sin (s - alpha) * sin (s - beta) * sin (s - gamma)) with ((2 * sin s * sin (s - alpha)) * (2 * sin (s - beta) * sin (s - gamma))) by ring.
  rewrite !P. replace (s - (s - alpha)) with alpha by ring. replace (s + (s - alpha)) with (beta + gamma) by (unfold s; field).
  replace (s - beta - (s - gamma)) with (- (beta - gamma)) by ring. replace (s - beta + (s - gamma)) with alpha by (unfold s; field).
  rewrite cos_neg, cos_plus, cos_minus. unfold gram.
  pose proof (sin2_cos2 gamma) as sg. pose proof (sin2_cos2 beta) as sb. unfold Rsqr in sg, sb.
  replace ((cos alpha - (cos beta * cos gamma - sin beta * sin gamma)) * (cos beta * cos gamma + sin beta * sin gamma - cos alpha))
    with ((sin beta * sin beta) * (sin gamma * sin gamma) - (cos alpha - cos beta * cos gamma) ^ 2) by ring.
  replace (sin gamma * sin gamma) with (1 - cos gamma * cos gamma) by lra.
  replace (sin beta * sin beta) with (1 - cos beta * cos beta) by lra. ring.
Qed.
(** for angles in (0, pi) the Gram determinant is positive exactly when the sum
    of the angles is below 2 pi and each is smaller than the sum of the others *)
Lemma sin_neg_le : forall x, - PI <= x <= 0 -> sin x <= 0.
Proof. intros x H. rewrite <- (Ropp_involutive x), sin_neg. assert (0 <= sin (- x)) by (apply sin_ge_0; lra). lra. Qed.
Lemma gram_pos : forall alpha beta gamma, 0 < alpha < PI -> 0 < beta < PI -> 0 < gamma < PI ->
  (0 < gram alpha beta gamma <-> alpha + beta + gamma < PI * 2 /\ alpha < beta + gamma /\ beta < alpha + gamma /\ gamma < alpha + beta).
Proof.
  intros al be ga Ha Hb Hg. rewrite gram_prod. set (s := (al + be + ga) / 2). split.
  - intro H.
    assert (Ps : forall x, 0 < x < PI -> 0 < sin x) by (intros; apply sin_gt_0; lra).
    destruct (Rlt_dec (al + be + ga) (PI * 2)) as [L|L].
    + assert (ss : 0 < sin s) by (apply Ps; unfold s; lra). split; [exact L|].
      (* at most one of the differences is not positive *)
      assert (K : forall x y z, 0 < x < PI -> 0 < y < PI -> 0 < z < PI -> x + y + z < PI * 2 -> y + z <= x ->
         sin ((x + y + z) / 2) * sin ((x + y + z) / 2 - x) * sin ((x + y + z) / 2 - y) * sin ((x + y + z) / 2 - z) <= 0).
      { intros x y z Hx Hy Hz Ls C.
        assert (a0 : 0 < sin ((x + y + z) / 2)) by (apply Ps; lra).
        assert (a1 : sin ((x + y + z) / 2 - x) <= 0) by (apply sin_neg_le; lra).
        assert (a2 : 0 < sin ((x + y + z) / 2 - y)) by (apply Ps; lra).
        assert (a3 : 0 < sin ((x + y + z) / 2 - z)) by (apply Ps; lra).
        assert (0 < sin ((x + y + z) / 2) * (sin ((x + y + z) / 2 - y) * sin ((x + y + z) / 2 - z))) by (repeat apply Rmult_lt_0_compat; auto).
        nra. }
      repeat split; apply Rnot_le_lt; intro C.
      * pose proof (K al be ga Ha Hb Hg L C) as k. unfold s in H. lra.
      * pose proof (K be al ga Hb Ha Hg ltac:(lra) C) as k. replace (be + al + ga) with (al + be + ga) in k by ring. fold s in k.
        nra.
      * pose proof (K ga al be Hg Ha Hb ltac:(lra) C) as k. replace (ga + al + be) with (al + be + ga) in k by ring. fold s in k.
        nra.
    + exfalso. assert (a0 : sin s <= 0) by (apply sin_le_0; unfold s; lra).
      assert (a1 : 0 < sin (s - al)) by (apply Ps; unfold s; lra).
      assert (a2 : 0 < sin (s - be)) by (apply Ps; unfold s; lra).
      assert (a3 : 0 < sin (s - ga)) by (apply Ps; unfold s; lra).
      assert (0 < sin (s - al) * (sin (s - be) * sin (s - ga))) by (repeat apply Rmult_lt_0_compat; auto). nra.
  - intros [L [h1 [h2 h3]]].
    repeat apply Rmult_lt_0_compat; try lra; apply sin_gt_0; unfold s; lra.
Qed.
Theorem C53_triclinic : forall a b c alpha beta gamma l, triclinic a b c alpha beta gamma = Some l ->
  cell l a b c alpha beta gamma /\ det3 l ^ 2 = (a * b * c) ^ 2 * gram alpha beta gamma.
Proof.
  intros a b c al be ga l H. unfold triclinic in H.
  destruct (posb a && posb b && posb c)%bool eqn:E1; cbn [negb] in H; [|discriminate].
  destruct (angleb al && angleb be && angleb ga)%bool eqn:E2; cbn [negb] in H; [|discriminate].
  destruct (Rltb (al + be + ga) (PI * 2)); cbn [negb] in H; [|discriminate].
  set (v := (cos al - cos ga * cos be) / sin ga) in *.
  destruct (Rltb (v * v) (sin be * sin be)) eqn:E4; cbn [negb] in H; [|discriminate]. apply Rltb_true in E4.
  injection H as <-.
  repeat match goal with E : (_ && _)%bool = true |- _ => apply andb_true_iff in E; destruct E end.
  repeat match goal with E : posb _ = true |- _ => apply posb_t in E | E : angleb _ = true |- _ => apply angleb_t in E end.
  assert (gs : 0 < sin ga) by (apply sin_gt_0; lra).
  set (q := sqrt (sin be * sin be - v * v)).
  assert (Q : q * q = sin be * sin be - v * v) by (apply sqrt_sqrt; lra).
  assert (q0 : 0 < q) by (apply sqrt_lt_R0; lra).
  pose proof (sin2_cos2 ga) as sg. pose proof (sin2_cos2 be) as sb. unfold Rsqr in sg, sb.
  assert (V : v * sin ga = cos al - cos ga * cos be) by (unfold v; field; lra).
  assert (D : det3 (a, 0, 0, (cos ga * b, sin ga * b, 0), (cos be * c, v * c, q * c)) = a * b * c * (sin ga * q)) by (unfold det3; ring).
  split.
  - unfold cell. rewrite D. unfold dot3. repeat split.
    + ring.
    + replace (cos ga * b * (cos ga * b) + sin ga * b * (sin ga * b) + 0 * 0) with (b * b * (sin ga * sin ga + cos ga * cos ga)) by ring. rewrite sg. ring.
    + replace (cos be * c * (cos be * c) + v * c * (v * c) + q * c * (q * c)) with (c * c * (cos be * cos be + v * v + q * q)) by ring.
      rewrite Q. replace (cos be * cos be + v * v + (sin be * sin be - v * v)) with (sin be * sin be + cos be * cos be) by ring. rewrite sb. ring.
    + replace (cos ga * b * (cos be * c) + sin ga * b * (v * c) + 0 * (q * c)) with (b * c * (cos ga * cos be + v * sin ga)) by ring. rewrite V. ring.
    + ring.
    + ring.
    + repeat apply Rmult_lt_0_compat; auto.
  - rewrite D. pose proof (gram_v al be ga ltac:(lra)) as g. cbn zeta in g. fold v in g. rewrite <- Q in g. rewrite <- g. ring.
Qed.
(** it succeeds exactly for the angles of a non-degenerate cell *)
Theorem C53_triclinic_domain : forall a b c alpha beta gamma, 0 < a -> 0 < b -> 0 < c ->
  0 < alpha < PI -> 0 < beta < PI -> 0 < gamma < PI ->
  ((exists l, triclinic a b c alpha beta gamma = Some l) <->
   alpha + beta + gamma < PI * 2 /\ alpha < beta + gamma /\ beta < alpha + gamma /\ gamma < alpha + beta).
Proof.
  intros a b c al be ga Ha Hb Hc A B G.
  assert (gs : 0 < sin ga) by (apply sin_gt_0; lra).
  pose proof (gram_v al be ga ltac:(lra)) as g. cbn zeta in g. set (v := (cos al - cos ga * cos be) / sin ga) in *.
  assert (S : 0 < sin ga ^ 2) by (apply pow_lt, gs).
  rewrite <- gram_pos by assumption. rewrite <- g. split.
  - intros [l H]. unfold triclinic in H.
    destruct (negb _); [discriminate|]. destruct (negb _); [discriminate|]. destruct (negb _); [discriminate|].
    fold v in H. destruct (Rltb (v * v) (sin be * sin be)) eqn:E4; cbn [negb] in H; [|discriminate]. apply Rltb_true in E4.
    apply Rmult_lt_0_compat; lra.
  - intro P. assert (L : v * v < sin be * sin be).
    { apply Rnot_le_lt. intro C. assert (sin ga ^ 2 * (sin be * sin be - v * v) <= 0); [|lra]. nra. }
    rewrite g in P. apply gram_pos in P; auto. destruct P as [Ls _].
    eexists. unfold triclinic, posb, angleb. rewrite !(Rltb_t 0) by lra. rewrite !Rltb_t by (fold v; lra). cbn [negb andb]. reflexivity.
Qed.
Theorem C53_monoclinic : forall a b c beta l, monoclinic a b c beta = Some l ->
  cell l a b c (PI / 2) beta (PI / 2) /\ det3 l = a * b * c * sin beta.
Proof.
  intros a b c be l H. unfold monoclinic in H. okc H. assert (0 < sin be) by (apply sin_gt_0; lra).
  pose proof (sin2_cos2 be) as sb. unfold Rsqr in sb.
  assert (D : det3 (a, 0, 0, (0, b, 0), (cos be * c, 0, sin be * c)) = a * b * c * sin be) by (unfold det3; ring).
  split; [|exact D]. unfold cell. rewrite D. unfold dot3. rewrite cos_PI2. repeat split; try ring.
  - replace (cos be * c * (cos be * c) + 0 * 0 + sin be * c * (sin be * c)) with (c * c * (sin be * sin be + cos be * cos be)) by ring. rewrite sb. ring.
  - repeat apply Rmult_lt_0_compat; auto.
Qed.
Theorem C53_orthorhombic : forall a b c l, orthorhombic a b c = Some l ->
  cell l a b c (PI / 2) (PI / 2) (PI / 2) /\ det3 l = a * b * c.
Proof.
  intros a b c l H. unfold orthorhombic in H. okc H.
  assert (D : det3 (a, 0, 0, (0, b, 0), (0, 0, c)) = a * b * c) by (unfold det3; ring).
  split; [|exact D]. unfold cell. rewrite D. unfold dot3. rewrite cos_PI2. repeat split; try ring. repeat apply Rmult_lt_0_compat; auto.
Qed.
Theorem C53_tetragonal : forall a c l, tetragonal a c = Some l ->
  cell l a a c (PI / 2) (PI / 2) (PI / 2) /\ det3 l = a * a * c.
Proof.
  intros a c l H. unfold tetragonal in H. okc H.
  assert (D : det3 (a, 0, 0, (0, a, 0), (0, 0, c)) = a * a * c) by (unfold det3; ring).
  split; [|exact D]. unfold cell. rewrite D. unfold dot3. rewrite cos_PI2. repeat split; try ring. repeat apply Rmult_lt_0_compat; auto.
Qed.
Theorem C53_rhombohedral : forall a alpha l, rhombohedral a alpha = Some l -> cell l a a a alpha alpha alpha.
Proof.
  intros a al l H. unfold rhombohedral in H. okc H.
  match goal with E : Rltb _ _ = true |- _ => apply Rltb_true in E end.
  pose proof PI_RGT_0 as pi0.
  assert (c1 : cos al < 1) by (rewrite <- cos_0; apply cos_decreasing_1; lra).
  assert (c2 : - (1 / 2) < cos al) by (rewrite <- c23; apply cos_decreasing_1; lra).
  set (v := 2 / 3 - 2 / 3 * cos al) in *. assert (v0 : 0 < v < 1) by (unfold v; lra).
  assert (h2 : sqrt (1 - v) * sqrt (1 - v) = 1 - v) by (apply sqrt_sqrt; lra).
  assert (r2 : sqrt v * sqrt v = v) by (apply sqrt_sqrt; lra).
  assert (h0 : 0 < sqrt (1 - v)) by (apply sqrt_lt_R0; lra). assert (r0 : 0 < sqrt v) by (apply sqrt_lt_R0; lra).
  set (h := sqrt (1 - v)) in *. set (r := sqrt v) in *. pose proof sq3 as s3. pose proof sq3_pos as s30. set (t := sqrt 3) in *.
  unfold cell. replace (det3 _) with (3 / 2 * t * (r * r) * h * (a * a * a)) by (unfold det3; field).
  unfold dot3. repeat split.
  - replace (r * a * (r * a) + 0 * 0 + h * a * (h * a)) with (a * a * (r * r + h * h)) by ring. rewrite r2, h2. ring.
  - match goal with |- ?x = _ => replace x with (a * a * ((1 / 4 + t * t / 4) * (r * r) + h * h)) by field end. rewrite r2, h2, s3. field.
  - match goal with |- ?x = _ => replace x with (a * a * ((1 / 4 + t * t / 4) * (r * r) + h * h)) by field end. rewrite r2, h2, s3. field.
  - match goal with |- ?x = _ => replace x with (a * a * ((1 / 4 - t * t / 4) * (r * r) + h * h)) by field end. rewrite r2, h2, s3. unfold v. field.
  - match goal with |- ?x = _ => replace x with (a * a * (- (1 / 2) * (r * r) + h * h)) by field end. rewrite r2, h2. unfold v. field.
  - match goal with |- ?x = _ => replace x with (a * a * (- (1 / 2) * (r * r) + h * h)) by field end. rewrite r2, h2. unfold v. field.
  - repeat apply Rmult_lt_0_compat; lra.
Qed.
(** the rhombohedral cell exists exactly for 0 < alpha < 2 pi / 3 *)
Theorem C53_rhombohedral_domain : forall a alpha, 0 < a -> 0 < alpha < PI ->
  ((exists l, rhombohedral a alpha = Some l) <-> exists l, triclinic a a a alpha alpha alpha = Some l).
Proof.
  intros a al Ha A. rewrite C53_triclinic_domain by assumption. unfold rhombohedral, posb. rewrite !(Rltb_t 0) by lra. cbn [andb]. split.
  - intros [l H]. destruct (Rltb al (2 * PI / 3)) eqn:E; [|discriminate]. apply Rltb_true in E. lra.
  - intros [L _]. rewrite Rltb_t by lra. eexists. reflexivity.
Qed.

(** *** centered lattices *)
Lemma vec_eq : forall a b c a' b' c' : R, a = a' -> b = b' -> c = c' -> (a, b, c) = (a', b', c').
Proof. congruence. Qed.
Ltac izr := repeat first [rewrite plus_IZR | rewrite minus_IZR | rewrite mult_IZR | rewrite opp_IZR].
Theorem C53_fcc : forall a p, in_lattice (fcc a) p <-> in_centered faceP (sc a) p.
Proof.
  intros a p. unfold in_lattice, in_centered, faceP, fcc, sc, lscale, vscale, point. split.
  - intros [i [j [k ->]]]. exists (- i - k)%Z, (j + k)%Z, (i + j)%Z. split; [exists j; lia|]. apply vec_eq; izr; field.
  - intros [i [j [k [[m E] ->]]]]. exists (k - m)%Z, m, (j - m)%Z.
    assert (Ei : i = (2 * m - j - k)%Z) by lia. subst i. apply vec_eq; izr; field.
Qed.
Theorem C53_bcc : forall a p, in_lattice (bcc a) p <-> in_centered bodyP (sc a) p.
Proof.
  intros a p. unfold in_lattice, in_centered, bodyP, bcc, sc, lscale, vscale, point. split.
  - intros [i [j [k ->]]]. exists (i - j - k)%Z, (i + j - k)%Z, (i + j + k)%Z.
    split; [split; [exists (i - k)%Z|exists (i + j)%Z]; lia|]. apply vec_eq; izr; field.
  - intros [i [j [k [[[m E] [n E']] ->]]]]. exists (m - j + n)%Z, (j - m)%Z, (n - j)%Z.
    assert (Ei : i = (2 * m - j)%Z) by lia. assert (Ek : k = (2 * n - j)%Z) by lia. subst i k. apply vec_eq; izr; field.
Qed.
Theorem C53_orthorhombic_base : forall a b c l l0 p, orthorhombic_base_centered a b c = Some l -> orthorhombic a b c = Some l0 ->
  (in_lattice l p <-> in_centered baseP l0 p) /\ det3 l = det3 l0 / 2.
Proof.
  intros a b c l l0 p H H0. unfold orthorhombic_base_centered in H. unfold orthorhombic in H0. okc H. injection H0 as <-.
  split; [|unfold det3; field]. unfold in_lattice, in_centered, baseP, point. split.
  - intros [i [j [k ->]]]. exists (i + j)%Z, (j - i)%Z, (2 * k)%Z. split; [split; [exists j|exists k]; lia|]. apply vec_eq; izr; field.
  - intros [i [j [k [[[m E] [n ->]] ->]]]]. exists (m - j)%Z, m, n. assert (Ei : i = (2 * m - j)%Z) by lia. subst i. apply vec_eq; izr; field.
Qed.
Theorem C53_monoclinic_base : forall a b c beta l l0 p, monoclinic_base_centered a b c beta = Some l -> monoclinic a b c beta = Some l0 ->
  (in_lattice l p <-> in_centered baseP l0 p) /\ det3 l = det3 l0 / 2.
Proof.
  intros a b c be l l0 p H H0. unfold monoclinic_base_centered in H. unfold monoclinic in H0. okc H. injection H0 as <-.
  split; [|unfold det3; field]. unfold in_lattice, in_centered, baseP, point. split.
  - intros [i [j [k ->]]]. exists (i + j)%Z, (j - i)%Z, (2 * k)%Z. split; [split; [exists j|exists k]; lia|]. apply vec_eq; izr; field.
  - intros [i [j [k [[[m E] [n ->]] ->]]]]. exists (m - j)%Z, m, n. assert (Ei : i = (2 * m - j)%Z) by lia. subst i. apply vec_eq; izr; field.
Qed.
Theorem C53_orthorhombic_body : forall a b c l l0 p, orthorhombic_body_centered a b c = Some l -> orthorhombic a b c = Some l0 ->
  (in_lattice l p <-> in_centered bodyP l0 p) /\ det3 l = det3 l0 / 2.
Proof.
  intros a b c l l0 p H H0. unfold orthorhombic_body_centered in H. unfold orthorhombic in H0. okc H. injection H0 as <-.
  split; [|unfold det3; field]. unfold in_lattice, in_centered, bodyP, point. split.
  - intros [i [j [k ->]]]. exists (- i + j + k)%Z, (i - j + k)%Z, (i + j - k)%Z. split; [split; [exists k|exists i]; lia|]. apply vec_eq; izr; field.
  - intros [i [j [k [[[m E] [n E']] ->]]]]. exists n, (m - j + n)%Z, m.
    assert (Ei : i = (2 * m - j)%Z) by lia. assert (Ek : k = (2 * n - j)%Z) by lia. subst i k. apply vec_eq; izr; field.
Qed.
Theorem C53_orthorhombic_face : forall a b c l l0 p, orthorhombic_face_centered a b c = Some l -> orthorhombic a b c = Some l0 ->
  (in_lattice l p <-> in_centered faceP l0 p) /\ det3 l = det3 l0 / 4.
Proof.
  intros a b c l l0 p H H0. unfold orthorhombic_face_centered in H. unfold orthorhombic in H0. okc H. injection H0 as <-.
  split; [|unfold det3; field]. unfold in_lattice, in_centered, faceP, point. split.
  - intros [i [j [k ->]]]. exists (j + k)%Z, (i + k)%Z, (i + j)%Z. split; [exists (i + j + k)%Z; lia|]. apply vec_eq; izr; field.
  - intros [i [j [k [[m E] ->]]]]. exists (m - i)%Z, (m - j)%Z, (m - k)%Z.
    assert (Ei : i = (2 * m - j - k)%Z) by lia. subst i. apply vec_eq; izr; field.
Qed.
Theorem C53_tetragonal_body : forall a c l l0 p, tetragonal_body_centered a c = Some l -> tetragonal a c = Some l0 ->
  (in_lattice l p <-> in_centered bodyP l0 p) /\ det3 l = det3 l0 / 2.
Proof.
  intros a c l l0 p H H0. unfold tetragonal_body_centered in H. unfold tetragonal in H0. okc H. injection H0 as <-.
  split; [|unfold det3; field]. unfold in_lattice, in_centered, bodyP, point. split.
  - intros [i [j [k ->]]]. exists (- i + j + k)%Z, (i - j + k)%Z, (i + j - k)%Z. split; [split; [exists k|exists i]; lia|]. apply vec_eq; izr; field.
  - intros [i [j [k [[[m E] [n E']] ->]]]]. exists n, (m - j + n)%Z, m.
    assert (Ei : i = (2 * m - j)%Z) by lia. assert (Ek : k = (2 * n - j)%Z) by lia. subst i k. apply vec_eq; izr; field.
Qed.
(** the cubic volumes *)
Theorem C53_cubic_volumes : forall a, det3 (fcc a) = a ^ 3 / 4 /\ det3 (bcc a) = a ^ 3 / 2.
Proof. intro a. unfold fcc, bcc, lscale, vscale, det3. split; field. Qed.
(** examples: a hexagonal cell as a triclinic one, a bcc point *)
Example C53_ex1 : exists l, triclinic 1 1 2 (PI / 2) (PI / 2) (2 * PI / 3) = Some l.
Proof. pose proof PI_RGT_0. apply C53_triclinic_domain; lra. Qed.
Example C53_ex2 : in_lattice (bcc 2) (1, 1, 1) /\ ~ in_lattice (bcc 2) (1, 0, 0).
Proof.
  split.
  - exists 1%Z, 0%Z, 0%Z. unfold bcc, lscale, vscale, point. apply vec_eq; field.
  - intro H. apply C53_bcc in H. destruct H as [i [j [k [[[m E] _] e]]]]. unfold sc, lscale, vscale, point in e. injection e as e1 e2 e3.
    assert (Hi : IZR i = IZR 1) by lra. assert (Hj : IZR j = IZR 0) by lra. apply eq_IZR in Hi, Hj. lia.
Qed.
Example C53_ex3 : exists l, rhombohedral 1 (PI / 3) = Some l.
Proof. pose proof PI_RGT_0. apply C53_rhombohedral_domain; try lra. apply C53_triclinic_domain; lra. Qed.
Print Assumptions C53_sc.
Print Assumptions C53_hexagonal.
Print Assumptions C53_triclinic.
Print Assumptions C53_triclinic_domain.
Print Assumptions C53_monoclinic.
Print Assumptions C53_orthorhombic.
Print Assumptions C53_tetragonal.
Print Assumptions C53_rhombohedral.
Print Assumptions C53_rhombohedral_domain.
Print Assumptions C53_fcc.
Print Assumptions C53_bcc.
Print Assumptions C53_orthorhombic_base.
Print Assumptions C53_monoclinic_base.
Print Assumptions C53_orthorhombic_body.
Print Assumptions C53_orthorhombic_face.
Print Assumptions C53_tetragonal_body.
Print Assumptions C53_cubic_volumes.

(** ** C54: scale_to_density *)
Lemma det3_scale : forall s l, det3 (lscale s l) = s ^ 3 * det3 l.
Proof. intros s [[[[a b] c] [[d e] f]] [[g h] i]]. unfold lscale, vscale, det3. ring. Qed.
Lemma unit_pos : forall u, 0 < unit_to_SI u.
Proof. intros [|]; unfold unit_to_SI; [apply Rinv_0_lt_compat|apply Rdiv_lt_0_compat]; try lra; apply pow_lt; lra. Qed.
Lemma root3 : forall q, 0 < q -> Rpower q (1 / 3) ^ 3 = q.
Proof.
  intros q H. rewrite <- Rpower_pow by (apply exp_pos). rewrite Rpower_mult.
  replace (1 / 3 * INR 3) with 1 by (simpl; field). apply Rpower_1, H.
Qed.
(** the length units in m, and the volume of a cell in m^3 through them *)
Definition unit_in_m (u : unit_name) : R := match u with Angstrom => / 10000000000 | Bohr => 52917721054482 / 1000000000000000000000000 end.
Lemma unit_in_m_eq : forall u, unit_to_SI u = unit_in_m u.
Proof. intros [|]; unfold unit_to_SI, unit_in_m; field. Qed.
(** For a right handed cell of atoms held in a float array the density is
    reached by a uniform scaling.  Missing from C54: integer arrays and left
    handed cells, see C54_refuted. *)
Theorem C54_partial : forall c rho, cInt c = false -> 0 < cMass c -> 0 < det3 (cA c) -> 0 < rho ->
  exists c' s, scale_to_density c rho = SOk c' /\ 0 < s /\ cA c' = lscale s (cA c) /\ cUnit c' = cUnit c /\ cMass c' = cMass c /\
    mass_density c' = rho /\ cMass c' = rho * (unit_in_m (cUnit c') ^ 3 * det3 (cA c')).
Proof.
  intros c rho Hi Hm Hd Hr. unfold scale_to_density. rewrite Hi. pose proof (unit_pos (cUnit c)) as u0.
  assert (D : 0 < det3 (lscale (unit_to_SI (cUnit c)) (cA c))) by (rewrite det3_scale; apply Rmult_lt_0_compat; [apply pow_lt, u0|exact Hd]).
  assert (q0 : 0 < mass_density c / rho) by (unfold mass_density; repeat apply Rdiv_lt_0_compat; auto).
  rewrite Rltb_t by exact q0. eexists. exists (Rpower (mass_density c / rho) (1 / 3)). split; [reflexivity|].
  split; [apply exp_pos|]. cbn [cA cUnit cMass]. split; [reflexivity|]. split; [reflexivity|]. split; [reflexivity|].
  rewrite <- unit_in_m_eq.
  match goal with |- ?g = _ /\ _ => assert (M : g = rho) end.
  2: { split; [exact M|]. rewrite <- M at 1. unfold mass_density at 1. cbn [cA cUnit cMass].
       rewrite !det3_scale, root3 by exact q0. assert (md : 0 < mass_density c) by (unfold mass_density; apply Rdiv_lt_0_compat; auto).
       field. repeat split; apply Rgt_not_eq; auto. }
  unfold mass_density at 1. cbn [cA cUnit cMass]. rewrite det3_scale, det3_scale, root3 by exact q0.
  rewrite det3_scale in D. unfold mass_density. rewrite det3_scale. field. repeat split; try lra.
Qed.
Example C54_ex : let c := mkCrystal (fcc 4) Angstrom 1 false in cInt c = false /\ 0 < cMass c /\ 0 < det3 (cA c).
Proof. cbn [cInt cMass cA]. split; [reflexivity|]. split; [lra|]. rewrite (proj1 (C53_cubic_volumes 4)). lra. Qed.
(** An integer matrix such as [2*np.eye(3, dtype=int)] raises, and a left
    handed cell is filled with NaN. *)
Theorem C54_refuted :
  (forall A u m rho, scale_to_density (mkCrystal A u m true) rho = SCast) /\
  (exists A, (let '(x, y, z) := A in dot3 x x = 1 /\ dot3 y y = 1 /\ dot3 z z = 1 /\ dot3 x y = 0 /\ dot3 x z = 0 /\ dot3 y z = 0) /\
     forall u m rho, 0 < m -> 0 < rho -> scale_to_density (mkCrystal A u m false) rho = SNan).
Proof.
  split; [reflexivity|]. exists ((0, 1, 0), (1, 0, 0), (0, 0, 1)). split; [unfold dot3; repeat split; ring|].
  intros u m rho Hm Hr. unfold scale_to_density, mass_density. cbn [cInt cMass cA cUnit]. rewrite det3_scale.
  pose proof (pow_lt _ 3 (unit_pos u)) as u3. set (w := unit_to_SI u ^ 3) in *.
  rewrite Rltb_f; [reflexivity|]. unfold det3.
  replace (m / (w * (0 * (0 * 1 - 0 * 0) - 1 * (1 * 1 - 0 * 0) + 0 * (1 * 0 - 0 * 0))) / rho) with (- (m / w / rho)) by (field; lra).
  assert (0 < m / w / rho) by (repeat apply Rdiv_lt_0_compat; auto). lra.
Qed.
Print Assumptions C54_partial.
Print Assumptions C54_refuted.

(** ** C80: the mass of a cell

    Specification: the standard atomic masses (in u) are those of the neutral
    atoms, so the mass of a cell is the sum of the atomic masses of its atoms. *)
Definition dalton : R := 166053907 / 10 ^ 35.
Definition m_e : R := 91093837 / 10 ^ 38.
Fixpoint atoms_mass (masses : nat -> R) (types : list string) : R :=
  match types with
  | [] => 0
  | t :: r => match index_of t symbols with Some k => dalton * masses k | None => 0 end + atoms_mass masses r
  end.
Fixpoint atomic_numbers (types : list string) : nat :=
  match types with [] => O | t :: r => (match index_of t symbols with Some k => S k | None => O end + atomic_numbers r)%nat end.
(** What is computed: the mass of the atoms plus that of Z - 1 electrons for
    each atom; independent of the order of the atoms; unknown symbols raise.
    Missing from C80: the additional term, see C80_refuted. *)
Theorem C80_partial : forall masses types,
  ((exists m, mass_per_cell masses types = Some m) <-> (forall t, In t types -> In t symbols)) /\
  (forall m, mass_per_cell masses types = Some m ->
     m = atoms_mass masses types + m_e * (INR (atomic_numbers types) - INR (List.length types)) /\ atoms_mass masses types <= m /\
     (forall types', Permutation types types' -> mass_per_cell masses types' = Some m)).
Proof.
  assert (I : forall t l, (exists k, index_of t l = Some k) <-> In t l).
  { intros t l. induction l as [|x r IH]; cbn [index_of In]; [split; [intros [k H]; discriminate|tauto]|].
    destruct (String.eqb_spec x t) as [e|e].
    - split; [intro; left; exact e|intro; exists O; reflexivity].
    - split.
      + intros [k H]. right. apply IH. destruct (index_of t r) as [q|]; [exists q; reflexivity|discriminate].
      + intros [h|h]; [contradiction|]. apply IH in h. destruct h as [k h]. rewrite h. exists (S k). reflexivity. }
  assert (F : forall masses types m, mass_per_cell masses types = Some m ->
     m = atoms_mass masses types + m_e * (INR (atomic_numbers types) - INR (List.length types))).
  { intros masses types. induction types as [|t r IH]; intros m H; cbn [mass_per_cell atoms_mass atomic_numbers List.length] in *.
    - injection H as <-. simpl. ring.
    - unfold element_number in H. destruct (index_of t symbols) as [k|]; [|discriminate].
      destruct (mass_per_cell masses r) as [m'|]; [|discriminate]. injection H as <-. rewrite (IH m' eq_refl).
      rewrite ?S_INR, ?plus_INR, ?S_INR. fold m_e dalton. unfold dalton, m_e. field. }
  assert (E : forall masses types, (exists m, mass_per_cell masses types = Some m) <-> (forall t, In t types -> In t symbols)).
  { intros masses types. induction types as [|t r IH]; cbn [mass_per_cell].
    - split; [intros _ t []|intro; exists 0; reflexivity].
    - unfold element_number. split.
      + intros [m H] u [<-|Hu].
        * apply I. destruct (index_of t symbols) as [k|]; [exists k; reflexivity|discriminate].
        * revert u Hu. apply IH. destruct (index_of t symbols); [|discriminate]. destruct (mass_per_cell masses r) as [m'|]; [exists m'; reflexivity|discriminate].
      + intro H. assert (ht := H t (or_introl eq_refl)). apply I in ht. destruct ht as [k ->].
        assert (hr : exists m, mass_per_cell masses r = Some m) by (apply IH; intros u Hu; apply H; right; exact Hu).
        destruct hr as [m ->]. eexists. reflexivity. }
  assert (N : forall types, (forall t, In t types -> In t symbols) -> INR (List.length types) <= INR (atomic_numbers types)).
  { intros types H. apply le_INR. induction types as [|t r IH]; cbn [atomic_numbers List.length]; [lia|].
    assert (ht := H t (or_introl eq_refl)). apply I in ht. destruct ht as [k ->].
    assert (h : (List.length r <= atomic_numbers r)%nat) by (apply IH; intros u Hu; apply H; right; exact Hu). lia. }
  intros masses types. split; [apply E|]. intros m H. pose proof (F _ _ _ H) as Fm. split; [exact Fm|]. split.
  - assert (h := N types (proj1 (E masses types) (ex_intro _ m H))). rewrite Fm. assert (0 < m_e) by (unfold m_e; lra). nra.
  - intros types' P. assert (h := proj1 (E masses types) (ex_intro _ m H)).
    assert (h' : exists m', mass_per_cell masses types' = Some m') by (apply E; intros t Ht; apply h; apply (Permutation_in _ (Permutation_sym P)); exact Ht).
    destruct h' as [m' e']. rewrite e'. f_equal. rewrite Fm, (F _ _ _ e').
    assert (A1 : atoms_mass masses types' = atoms_mass masses types).
    { clear -P. induction P; cbn [atoms_mass]; try lra. }
    assert (A2 : atomic_numbers types' = atomic_numbers types).
    { clear -P. induction P; cbn [atomic_numbers]; lia. }
    rewrite A1, A2, (Permutation_length P). reflexivity.
Qed.
Example C80_ex : forall t, In t ["Ga"; "As"]%string -> In t symbols.
Proof. intros t [<-|[<-|[]]]; vm_compute; tauto. Qed.
(** Neither the mass of the atoms (two carbon atoms weigh 10 electron masses
    too much), nor nuclei with all their electrons: hydrogen gets none. *)
Theorem C80_refuted : forall masses,
  mass_per_cell masses ["C"; "C"]%string = Some (atoms_mass masses ["C"; "C"]%string + 10 * m_e) /\
  mass_per_cell masses ["H"]%string = Some (dalton * masses O).
Proof.
  intro masses. unfold mass_per_cell, atoms_mass, element_number.
  replace (index_of "C" symbols) with (Some 5%nat) by reflexivity. replace (index_of "H" symbols) with (Some 0%nat) by reflexivity.
  unfold m_e, dalton. replace (INR 5) with 5 by (simpl; ring). replace (INR 0) with 0 by reflexivity. split; f_equal; field.
Qed.
Print Assumptions C80_partial.
Print Assumptions C80_refuted.

(** ** C81: the order of the wave functions

    Specification: for every order in which the directory lists the files, the
    returned list is the data of the k points 1, 2, ..., n in this order. *)
Lemma set_nth_length : forall A (l : list A) n v, List.length (set_nth l n v) = List.length l.
Proof. intros A l. induction l as [|x r IH]; intros [|n] v; cbn [set_nth List.length]; congruence. Qed.
Lemma set_nth_nth : forall A (l : list A) n v j d, (n < List.length l)%nat ->
  nth j (set_nth l n v) d = if Nat.eqb j n then v else nth j l d.
Proof.
  intros A l. induction l as [|x r IH]; intros [|n] v [|j] d H; cbn [set_nth nth List.length Nat.eqb] in *; try lia; try reflexivity.
  apply IH. lia.
Qed.
Lemma fold_set : forall (ps : list (nat * nat)) acc, (forall p, In p ps -> (fst p - 1 < List.length acc)%nat) ->
  NoDup (map (fun p => fst p - 1)%nat ps) ->
  let r := fold_left (fun acc p => set_nth acc (fst p - 1) (snd p)) ps acc in
  List.length r = List.length acc /\ (forall p, In p ps -> nth (fst p - 1) r O = snd p) /\
  (forall j, ~ In j (map (fun p => fst p - 1)%nat ps) -> nth j r O = nth j acc O).
Proof.
  induction ps as [|p ps IH]; intros acc Hb Hn; cbn [fold_left map] in *; [repeat split; intros q []|].
  inversion Hn as [|x l h1 h2]; subst.
  destruct (IH (set_nth acc (fst p - 1) (snd p))) as [L [I1 I2]].
  { intros q Hq. rewrite set_nth_length. apply Hb. right. exact Hq. } { exact h2. }
  rewrite set_nth_length in L. split; [exact L|]. split.
  - intros q [<-|Hq]; [|apply I1, Hq]. rewrite (I2 _ h1), set_nth_nth by (apply Hb; left; reflexivity). rewrite Nat.eqb_refl. reflexivity.
  - intros j Hj. rewrite I2 by (intro; apply Hj; right; assumption). rewrite set_nth_nth by (apply Hb; left; reflexivity).
    destruct (Nat.eqb_spec j (fst p - 1)) as [e|e]; [exfalso; apply Hj; left; symmetry; exact e|reflexivity].
Qed.
Theorem C81_order : forall (A : Type) (d : A) (f : nat -> A) order, Permutation order (seq 1 (List.length order)) ->
  reorder d order (map f order) = map f (seq 1 (List.length order)).
Proof.
  intros A d f order P. set (n := List.length order) in *.
  assert (B : forall x, In x order -> (1 <= x <= n)%nat) by (intros x Hx; apply (Permutation_in _ P) in Hx; apply in_seq in Hx; lia).
  assert (Nd : NoDup order) by (apply (Permutation_NoDup (Permutation_sym P)), seq_NoDup).
  set (ps := combine order (seq 0 n)).
  assert (M : map fst ps = order).
  { unfold ps. assert (G : forall (l : list nat) s, map fst (combine l (seq s (List.length l))) = l).
    { induction l as [|x r IH]; intro s; [reflexivity|]. cbn [List.length seq combine map fst]. rewrite IH. reflexivity. }
    apply G. }
  assert (NP : forall i, (i < n)%nat -> In (nth i order O, i) ps).
  { intros i Hi. unfold ps. replace (nth i order O, i) with (nth i (combine order (seq 0 n)) (O, O)).
    - apply nth_In. rewrite combine_length, seq_length. fold n. lia.
    - rewrite combine_nth by (rewrite seq_length; reflexivity). rewrite seq_nth by exact Hi. reflexivity. }
  destruct (fold_set ps (repeat O n)) as [L [I1 _]].
  { intros p Hp. rewrite repeat_length. assert (h : In (fst p) order) by (rewrite <- M; apply in_map, Hp). apply B in h. lia. }
  { rewrite <- (map_map fst (fun x => x - 1)%nat), M.
    clearbody n. clear -B Nd. induction order as [|x r IH]; [constructor|]. cbn [map]. inversion Nd; subst. constructor.
    - intro H. apply in_map_iff in H. destruct H as [y [e Hy]]. assert (y = x); [|subst; contradiction].
      assert (h1 := B x (or_introl eq_refl)). assert (h2 := B y (or_intror Hy)). lia.
    - apply IH; [intros y Hy; apply B; right; exact Hy|assumption]. }
  rewrite repeat_length in L. unfold reorder.
  assert (IO : inv_order order = fold_left (fun acc p => set_nth acc (fst p - 1) (snd p)) ps (repeat O n)) by reflexivity.
  rewrite IO. clear IO. match goal with |- map _ ?r = _ => set (io := r) in * end.
  apply (nth_ext _ _ d d); [rewrite !map_length, seq_length; exact L|].
  intros j Hj. rewrite map_length, L in Hj.
  rewrite (nth_indep _ d (nth O (map f order) d)) by (rewrite map_length; lia).
  rewrite (nth_indep (map f (seq 1 n)) d (f O)) by (rewrite map_length, seq_length; exact Hj).
  rewrite (map_nth f (seq 1 n)), seq_nth by exact Hj.
  assert (Hin : In (1 + j)%nat order) by (apply (Permutation_in _ (Permutation_sym P)), in_seq; lia).
  destruct (In_nth _ _ O Hin) as [i [Hi ei]]. fold n in Hi.
  assert (e := I1 _ (NP i Hi)). cbn [fst snd] in e. rewrite ei in e. replace (1 + j - 1)%nat with j in e by lia.
  transitivity (nth i (map f order) d).
  - rewrite (map_nth (fun i => nth i (map f order) d) io O j). rewrite e. reflexivity.
  - rewrite (nth_indep _ d (f O)) by (rewrite map_length; exact Hi). rewrite map_nth, ei. reflexivity.
Qed.
Example C81_ex : Permutation [3; 1; 4; 2]%nat (seq 1 4) /\ inv_order [3; 1; 4; 2]%nat = [1; 3; 0; 2]%nat.
Proof.
  split; [|reflexivity]. apply NoDup_Permutation_bis.
  - repeat constructor; cbn; intuition discriminate.
  - cbn. lia.
  - intros x H. cbn in *. tauto.
Qed.
Print Assumptions C81_order.

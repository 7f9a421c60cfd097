(** Brillouin zones for the named points of kpaths.py (C136-C139): specification and the proof method (obtuse superbases). *)
From Coq Require Import List ZArith Reals Lra Lia Psatz String.
From Verif Require Import LatModel KPointsModel.
Import ListNotations.
Local Open Scope R_scope.

(** ** Specification *)
Definition vsub (u v : vec) : vec := let '(a, b, c) := u in let '(x, y, z) := v in (a - x, b - y, c - z).
Definition nsq (v : vec) : R := let '(x, y, z) := v in x * x + y * y + z * z.
Definition vadd (u v : vec) : vec := let '(a, b, c) := u in let '(x, y, z) := v in (a + x, b + y, c + z).
Definition is_int (x : R) : Prop := exists n : Z, x = IZR n.
(** vectors of the reciprocal lattice, without the factor 2 pi: integer products with the vectors of the lattice *)
Definition recip (A : lattice) (g : vec) : Prop := let '(u, v, w) := A in is_int (vdot u g) /\ is_int (vdot v g) /\ is_int (vdot w g).
(** no point of the reciprocal lattice is closer than the origin *)
Definition in_bz (A : lattice) (p : vec) : Prop := forall g, recip A g -> nsq p <= nsq (vsub p g).
(** as close to the origin as to g *)
Definition between (A : lattice) (p g : vec) : Prop := recip A g /\ nsq p = nsq (vsub p g).
Definition cross (u v : vec) : vec := let '(a, b, c) := u in let '(x, y, z) := v in (b * z - c * y, c * x - a * z, a * y - b * x).
(** a corner at an end of the edge on the planes of g and h *)
Definition corner_on (A : lattice) (p g h : vec) : Prop := in_bz A p /\ between A p g /\ between A p h /\ exists i, between A p i /\ det3 (g, h, i) <> 0.
Inductive place := Center | Face | Edge | Middle | Corner.
(** the centre of the zone, the centre of a face, the point of (the line of) an edge nearest to the centre of the zone, the middle of an edge
    (which may have the length 0), a corner *)
Definition at_place (A : lattice) (pl : place) (p : vec) : Prop := in_bz A p /\
  match pl with
  | Center => p = (0, 0, 0)
  | Face => exists g, recip A g /\ g <> (0, 0, 0) /\ p = vscale (1 / 2) g
  | Edge => exists g h, between A p g /\ between A p h /\ cross g h <> (0, 0, 0) /\ vdot p (cross g h) = 0
  | Middle => exists g h c d, corner_on A c g h /\ corner_on A d g h /\ p = vscale (1 / 2) (vadd c d)
  | Corner => exists g h i, between A p g /\ between A p h /\ between A p i /\ det3 (g, h, i) <> 0
  end.
(** the named points are at the given places; the whole table (exactly these keys) *)
Definition points_at (A : lattice) (t : ktable) (spec : list (string * place)) : Prop :=
  forall k pl, In (k, pl) spec -> exists p, kget t k = Some p /\ at_place A pl p.
Definition table_ok (A : lattice) (t : ktable) (spec : list (string * place)) : Prop := map fst t = map fst spec /\ points_at A t spec.

(** ** Voronoi cells from obtuse superbases *)
Lemma selling : forall (p01 p02 p03 p12 p13 p23 q0 q1 q2 q3 : R),
  0 <= p01 -> 0 <= p02 -> 0 <= p03 -> 0 <= p12 -> 0 <= p13 -> 0 <= p23 ->
  let N := fun a b c d => p01 * ((a - b) * (a - b)) + p02 * ((a - c) * (a - c)) + p03 * ((a - d) * (a - d)) +
                          p12 * ((b - c) * (b - c)) + p13 * ((b - d) * (b - d)) + p23 * ((c - d) * (c - d)) in
  let Q := fun a b c d => 2 * (a * q0 + b * q1 + c * q2 + d * q3) in
  (forall a b c d, (a = 0 \/ a = 1) -> (b = 0 \/ b = 1) -> (c = 0 \/ c = 1) -> (d = 0 \/ d = 1) -> Q a b c d <= N a b c d) ->
  forall n a b c d, (0 <= a)%Z -> (0 <= b)%Z -> (0 <= c)%Z -> (0 <= d)%Z -> (a + b + c + d <= Z.of_nat n)%Z ->
    Q (IZR a) (IZR b) (IZR c) (IZR d) <= N (IZR a) (IZR b) (IZR c) (IZR d).
Proof.
  intros p01 p02 p03 p12 p13 p23 q0 q1 q2 q3 H01 H02 H03 H12 H13 H23 N Q H. induction n as [|n IH]; intros a b c d Ha Hb Hc Hd Hs.
  { assert (a = 0 /\ b = 0 /\ c = 0 /\ d = 0)%Z as (-> & -> & -> & ->) by lia. apply H; auto. }
  assert (S1 : forall x, (0 <= x)%Z -> exists e y : Z, (e = 0 \/ e = 1)%Z /\ (0 <= y)%Z /\ x = (y + e)%Z /\ (e = 0 -> y = 0)%Z).
  { intros x Hx. destruct (Z.eq_dec x 0) as [->|Hn]; [exists 0%Z, 0%Z|exists 1%Z, (x - 1)%Z]; lia. }
  destruct (S1 a Ha) as (ea & ya & Ea & Ya & -> & Za). destruct (S1 b Hb) as (eb & yb & Eb & Yb & -> & Zb).
  destruct (S1 c Hc) as (ec & yc & Ec & Yc & -> & Zc). destruct (S1 d Hd) as (ed & yd & Ed & Yd & -> & Zd).
  destruct (Z.eq_dec (ea + eb + ec + ed) 0) as [E0|E0].
  { assert (ea = 0 /\ eb = 0 /\ ec = 0 /\ ed = 0)%Z as (-> & -> & -> & ->) by lia. rewrite Za, Zb, Zc, Zd by reflexivity. apply H; auto. }
  specialize (IH ya yb yc yd Ya Yb Yc Yd ltac:(lia)).
  assert (HE : forall e, (e = 0 \/ e = 1)%Z -> IZR e = 0 \/ IZR e = 1) by (intros e [->| ->]; auto).
  specialize (H (IZR ea) (IZR eb) (IZR ec) (IZR ed) (HE _ Ea) (HE _ Eb) (HE _ Ec) (HE _ Ed)).
  assert (D : forall e y e' y' : Z, (e = 0 \/ e = 1)%Z -> (e' = 0 \/ e' = 1)%Z -> (0 <= y)%Z -> (0 <= y')%Z -> (e = 0 -> y = 0)%Z -> (e' = 0 -> y' = 0)%Z ->
    (IZR y - IZR y') * (IZR y - IZR y') + (IZR e - IZR e') * (IZR e - IZR e') <= (IZR (y + e) - IZR (y' + e')) * (IZR (y + e) - IZR (y' + e'))).
  { intros e y e' y' He He' Hy Hy' Hz Hz'. rewrite <- !minus_IZR, <- !mult_IZR, <- plus_IZR. apply IZR_le. destruct He as [->| ->], He' as [->| ->]; try rewrite (Hz eq_refl); try rewrite (Hz' eq_refl); nia. }
  assert (DD : forall p e y e' y', 0 <= p -> (e = 0 \/ e = 1)%Z -> (e' = 0 \/ e' = 1)%Z -> (0 <= y)%Z -> (0 <= y')%Z -> (e = 0 -> y = 0)%Z -> (e' = 0 -> y' = 0)%Z ->
    p * ((IZR y - IZR y') * (IZR y - IZR y')) + p * ((IZR e - IZR e') * (IZR e - IZR e')) <= p * ((IZR (y + e) - IZR (y' + e')) * (IZR (y + e) - IZR (y' + e')))).
  { intros p e y e' y' Hp H1 H2 H3 H4 H5 H6. rewrite <- Rmult_plus_distr_l. apply Rmult_le_compat_l; [exact Hp|]. apply D; assumption. }
  pose proof (DD p01 ea ya eb yb H01 Ea Eb Ya Yb Za Zb). pose proof (DD p02 ea ya ec yc H02 Ea Ec Ya Yc Za Zc).
  pose proof (DD p03 ea ya ed yd H03 Ea Ed Ya Yd Za Zd). pose proof (DD p12 eb yb ec yc H12 Eb Ec Yb Yc Zb Zc).
  pose proof (DD p13 eb yb ed yd H13 Eb Ed Yb Yd Zb Zd). pose proof (DD p23 ec yc ed yd H23 Ec Ed Yc Yd Zc Zd).
  unfold N, Q in *. set (X1 := IZR (ya + ea)) in *. set (X2 := IZR (yb + eb)) in *. set (X3 := IZR (yc + ec)) in *. set (X4 := IZR (yd + ed)) in *.
  assert (X1 = IZR ya + IZR ea) by apply plus_IZR. assert (X2 = IZR yb + IZR eb) by apply plus_IZR.
  assert (X3 = IZR yc + IZR ec) by apply plus_IZR. assert (X4 = IZR yd + IZR ed) by apply plus_IZR.
  replace (2 * (X1 * q0 + X2 * q1 + X3 * q2 + X4 * q3)) with (2 * (IZR ya * q0 + IZR yb * q1 + IZR yc * q2 + IZR yd * q3) + 2 * (IZR ea * q0 + IZR eb * q1 + IZR ec * q2 + IZR ed * q3))
    by (rewrite H6, H7, H8, H9; ring). lra.
Qed.

Definition comb (x y z : R) (u v w : vec) : vec :=
  let '(u1, u2, u3) := u in let '(v1, v2, v3) := v in let '(w1, w2, w3) := w in
  (x * u1 + y * v1 + z * w1, x * u2 + y * v2 + z * w2, x * u3 + y * v3 + z * w3).
Definition spans (A : lattice) (u v w : vec) : Prop := forall g, recip A g -> exists x y z : Z, g = comb (IZR x) (IZR y) (IZR z) u v w.
(** 2 p.g <= |g|^2 for g and -g *)
Definition slab (p g : vec) : Prop := - nsq g <= 2 * vdot p g <= nsq g.

Lemma bz_superbase : forall A u v w p, spans A u v w ->
  vdot u v <= 0 -> vdot u w <= 0 -> vdot v w <= 0 ->
  vdot u (comb 1 1 1 u v w) >= 0 -> vdot v (comb 1 1 1 u v w) >= 0 -> vdot w (comb 1 1 1 u v w) >= 0 ->
  slab p u -> slab p v -> slab p w -> slab p (comb 1 1 0 u v w) -> slab p (comb 1 0 1 u v w) -> slab p (comb 0 1 1 u v w) -> slab p (comb 1 1 1 u v w) ->
  in_bz A p.
Proof.
  intros A u v w p HS Huv Huw Hvw Hu Hv Hw Su Sv Sw Suv Suw Svw Suvw g Hg.
  destruct (HS g Hg) as (x & y & z & ->). clear HS Hg A.
  set (m := Z.min 0 (Z.min x (Z.min y z))).
  pose proof (selling (vdot u (comb 1 1 1 u v w)) (vdot v (comb 1 1 1 u v w)) (vdot w (comb 1 1 1 u v w)) (- vdot u v) (- vdot u w) (- vdot v w)
    (- vdot p u - vdot p v - vdot p w) (vdot p u) (vdot p v) (vdot p w)) as HN.
  cbv zeta beta in HN.
  assert (E : forall a b c d, vdot u (comb 1 1 1 u v w) * ((a - b) * (a - b)) + vdot v (comb 1 1 1 u v w) * ((a - c) * (a - c)) +
      vdot w (comb 1 1 1 u v w) * ((a - d) * (a - d)) + - vdot u v * ((b - c) * (b - c)) + - vdot u w * ((b - d) * (b - d)) + - vdot v w * ((c - d) * (c - d)) =
      nsq (comb (b - a) (c - a) (d - a) u v w)).
  { intros. destruct u as [[u1 u2] u3], v as [[v1 v2] v3], w as [[w1 w2] w3]. unfold vdot, comb, nsq. ring. }
  assert (EQ : forall a b c d, 2 * (a * (- vdot p u - vdot p v - vdot p w) + b * vdot p u + c * vdot p v + d * vdot p w) = 2 * vdot p (comb (b - a) (c - a) (d - a) u v w)).
  { intros. destruct p as [[p1 p2] p3], u as [[u1 u2] u3], v as [[v1 v2] v3], w as [[w1 w2] w3]. unfold vdot, comb. ring. }
  assert (P1 : forall a, 0 <= - a <-> a <= 0) by (intro; lra).
  specialize (HN ltac:(lra) ltac:(lra) ltac:(lra) ltac:(lra) ltac:(lra) ltac:(lra)).
  assert (H14 : forall a b c d, (a = 0 \/ a = 1) -> (b = 0 \/ b = 1) -> (c = 0 \/ c = 1) -> (d = 0 \/ d = 1) ->
     2 * vdot p (comb (b - a) (c - a) (d - a) u v w) <= nsq (comb (b - a) (c - a) (d - a) u v w)).
  { clear - Su Sv Sw Suv Suw Svw Suvw. unfold slab in *. intros a b c d Ha Hb Hc Hd.
    destruct p as [[p1 p2] p3], u as [[u1 u2] u3], v as [[v1 v2] v3], w as [[w1 w2] w3]. unfold vdot, comb, nsq in *.
    destruct Ha as [->| ->], Hb as [->| ->], Hc as [->| ->], Hd as [->| ->]; lra. }
  specialize (HN ltac:(intros a b c d Ha Hb Hc Hd; rewrite E, EQ; apply H14; assumption)).
  specialize (HN (Z.to_nat (- m + (x - m) + (y - m) + (z - m)))%Z (- m)%Z (x - m)%Z (y - m)%Z (z - m)%Z ltac:(lia) ltac:(lia) ltac:(lia) ltac:(lia) ltac:(lia)).
  rewrite E, EQ in HN. rewrite <- !minus_IZR in HN.
  replace (x - m - - m)%Z with x in HN by lia. replace (y - m - - m)%Z with y in HN by lia. replace (z - m - - m)%Z with z in HN by lia.
  destruct p as [[p1 p2] p3]. destruct (comb (IZR x) (IZR y) (IZR z) u v w) as [[g1 g2] g3]. unfold vdot, nsq, vsub in *. lra.
Qed.

(** the three vectors generate the reciprocal lattice and are, with the negative of their sum, at no acute angle *)
Record superbase (A : lattice) (u v w : vec) (a b c ab ac bc : R) : Prop := MkSb {
  sb_spans : spans A u v w;
  sb_recip : forall x y z : Z, recip A (comb (IZR x) (IZR y) (IZR z) u v w);
  sb_det : det3 (u, v, w) <> 0;
  sb_a : nsq u = a; sb_b : nsq v = b; sb_c : nsq w = c;
  sb_ab : vdot u v = ab; sb_ac : vdot u w = ac; sb_bc : vdot v w = bc;
  sb_neg : ab <= 0 /\ ac <= 0 /\ bc <= 0 /\ 0 <= a + ab + ac /\ 0 <= b + ab + bc /\ 0 <= c + ac + bc }.

Section Super.
Variables (A : lattice) (u v w : vec) (a b c ab ac bc : R).
Hypothesis SB : superbase A u v w a b c ab ac bc.
Variable p : vec.
Variables t1 t2 t3 : R.
Definition qf (x y z : R) : R := x * x * a + y * y * b + z * z * c + 2 * (x * y * ab + x * z * ac + y * z * bc).
Definition lf (x y z : R) : R := 2 * (x * t1 + y * t2 + z * t3).
Definition inside (x y z : R) : Prop := - qf x y z <= lf x y z <= qf x y z.
Definition all_inside : Prop := inside 1 0 0 /\ inside 0 1 0 /\ inside 0 0 1 /\ inside 1 1 0 /\ inside 1 0 1 /\ inside 0 1 1 /\ inside 1 1 1.
Hypothesis T1 : vdot p u = t1.
Hypothesis T2 : vdot p v = t2.
Hypothesis T3 : vdot p w = t3.

Lemma nsq_comb : forall x y z, nsq (comb x y z u v w) = qf x y z.
Proof.
  intros. unfold qf. rewrite <- (sb_a _ _ _ _ _ _ _ _ _ _ SB), <- (sb_b _ _ _ _ _ _ _ _ _ _ SB), <- (sb_c _ _ _ _ _ _ _ _ _ _ SB),
    <- (sb_ab _ _ _ _ _ _ _ _ _ _ SB), <- (sb_ac _ _ _ _ _ _ _ _ _ _ SB), <- (sb_bc _ _ _ _ _ _ _ _ _ _ SB).
  clear. destruct u as [[u1 u2] u3], v as [[v1 v2] v3], w as [[w1 w2] w3]. unfold nsq, comb, vdot. ring.
Qed.
Lemma vdot_comb : forall x y z, 2 * vdot p (comb x y z u v w) = lf x y z.
Proof.
  intros. unfold lf. rewrite <- T1, <- T2, <- T3. clear.
  destruct p as [[p1 p2] p3], u as [[u1 u2] u3], v as [[v1 v2] v3], w as [[w1 w2] w3]. unfold comb, vdot. ring.
Qed.
Lemma slab_comb : forall x y z, inside x y z -> slab p (comb x y z u v w).
Proof. intros x y z H. unfold slab. rewrite nsq_comb, vdot_comb. exact H. Qed.
Lemma vdot_111 : vdot u (comb 1 1 1 u v w) = a + ab + ac /\ vdot v (comb 1 1 1 u v w) = b + ab + bc /\ vdot w (comb 1 1 1 u v w) = c + ac + bc.
Proof.
  rewrite <- (sb_a _ _ _ _ _ _ _ _ _ _ SB), <- (sb_b _ _ _ _ _ _ _ _ _ _ SB), <- (sb_c _ _ _ _ _ _ _ _ _ _ SB),
    <- (sb_ab _ _ _ _ _ _ _ _ _ _ SB), <- (sb_ac _ _ _ _ _ _ _ _ _ _ SB), <- (sb_bc _ _ _ _ _ _ _ _ _ _ SB).
  clear. destruct u as [[u1 u2] u3], v as [[v1 v2] v3], w as [[w1 w2] w3]. unfold nsq, comb, vdot. repeat split; ring.
Qed.
Lemma sb_in : all_inside -> in_bz A p.
Proof.
  intros (H1 & H2 & H3 & H4 & H5 & H6 & H7). destruct vdot_111 as (D1 & D2 & D3). destruct (sb_neg _ _ _ _ _ _ _ _ _ _ SB) as (N1 & N2 & N3 & N4 & N5 & N6).
  assert (Cu : comb 1 0 0 u v w = u) by (clear; destruct u as [[u1 u2] u3], v as [[v1 v2] v3], w as [[w1 w2] w3]; unfold comb; repeat f_equal; ring).
  assert (Cv : comb 0 1 0 u v w = v) by (clear; destruct u as [[u1 u2] u3], v as [[v1 v2] v3], w as [[w1 w2] w3]; unfold comb; repeat f_equal; ring).
  assert (Cw : comb 0 0 1 u v w = w) by (clear; destruct u as [[u1 u2] u3], v as [[v1 v2] v3], w as [[w1 w2] w3]; unfold comb; repeat f_equal; ring).
  apply (bz_superbase A u v w p (sb_spans _ _ _ _ _ _ _ _ _ _ SB)).
  - rewrite (sb_ab _ _ _ _ _ _ _ _ _ _ SB); exact N1.
  - rewrite (sb_ac _ _ _ _ _ _ _ _ _ _ SB); exact N2.
  - rewrite (sb_bc _ _ _ _ _ _ _ _ _ _ SB); exact N3.
  - rewrite D1; lra.
  - rewrite D2; lra.
  - rewrite D3; lra.
  - rewrite <- Cu. apply slab_comb; exact H1.
  - rewrite <- Cv. apply slab_comb; exact H2.
  - rewrite <- Cw. apply slab_comb; exact H3.
  - apply slab_comb; exact H4.
  - apply slab_comb; exact H5.
  - apply slab_comb; exact H6.
  - apply slab_comb; exact H7.
Qed.
Lemma sb_between : forall x y z : Z, lf (IZR x) (IZR y) (IZR z) = qf (IZR x) (IZR y) (IZR z) -> between A p (comb (IZR x) (IZR y) (IZR z) u v w).
Proof.
  intros x y z H. split; [apply (sb_recip _ _ _ _ _ _ _ _ _ _ SB)|]. rewrite <- vdot_comb, <- nsq_comb in H.
  destruct p as [[p1 p2] p3], (comb (IZR x) (IZR y) (IZR z) u v w) as [[g1 g2] g3]. unfold vdot, nsq, vsub in *. lra.
Qed.
Lemma det_comb : forall x y z x' y' z' x'' y'' z'' : R,
  det3 (comb x y z u v w, comb x' y' z' u v w, comb x'' y'' z'' u v w) = det3 ((x, y, z), (x', y', z'), (x'', y'', z'')) * det3 (u, v, w).
Proof. intros. clear. destruct u as [[u1 u2] u3], v as [[v1 v2] v3], w as [[w1 w2] w3]. unfold det3, comb. ring. Qed.
Definition idet (m : (Z * Z * Z) * (Z * Z * Z) * (Z * Z * Z)) : Z :=
  let '((x, y, z), (x', y', z'), (x'', y'', z'')) := m in (x * (y' * z'' - z' * y'') - y * (x' * z'' - z' * x'') + z * (x' * y'' - y' * x''))%Z.
Lemma det_int : forall x y z x' y' z' x'' y'' z'' : Z, idet ((x, y, z), (x', y', z'), (x'', y'', z'')) <> 0%Z ->
  det3 (comb (IZR x) (IZR y) (IZR z) u v w, comb (IZR x') (IZR y') (IZR z') u v w, comb (IZR x'') (IZR y'') (IZR z'') u v w) <> 0.
Proof.
  intros x y z x' y' z' x'' y'' z'' H. rewrite det_comb. apply Rmult_integral_contrapositive. split; [|apply (sb_det _ _ _ _ _ _ _ _ _ _ SB)].
  replace (det3 ((IZR x, IZR y, IZR z), (IZR x', IZR y', IZR z'), (IZR x'', IZR y'', IZR z''))) with (IZR (idet ((x, y, z), (x', y', z'), (x'', y'', z'')))).
  - intro E. apply H. exact (eq_IZR _ 0 E).
  - unfold idet. repeat rewrite ?plus_IZR, ?minus_IZR, ?mult_IZR. unfold det3. ring.
Qed.
Lemma sb_face : forall x y z (m2 m3 : Z * Z * Z), all_inside -> p = vscale (1 / 2) (comb (IZR x) (IZR y) (IZR z) u v w) ->
  idet ((x, y, z), m2, m3) <> 0%Z -> at_place A Face p.
Proof.
  intros x y z [[x' y'] z'] [[x'' y''] z''] HI HP HD. split; [apply sb_in; exact HI|]. exists (comb (IZR x) (IZR y) (IZR z) u v w).
  split; [apply (sb_recip _ _ _ _ _ _ _ _ _ _ SB)|]. split; [|exact HP]. intro E. pose proof (det_int _ _ _ _ _ _ _ _ _ HD) as K. apply K. rewrite E.
  clear. destruct (comb (IZR x') (IZR y') (IZR z') u v w) as [[a1 a2] a3], (comb (IZR x'') (IZR y'') (IZR z'') u v w) as [[b1 b2] b3]. unfold det3. ring.
Qed.
Lemma sb_edge : forall x y z x' y' z' (m3 : Z * Z * Z), all_inside -> lf (IZR x) (IZR y) (IZR z) = qf (IZR x) (IZR y) (IZR z) ->
  lf (IZR x') (IZR y') (IZR z') = qf (IZR x') (IZR y') (IZR z') -> idet ((x, y, z), (x', y', z'), m3) <> 0%Z ->
  vdot p (cross (comb (IZR x) (IZR y) (IZR z) u v w) (comb (IZR x') (IZR y') (IZR z') u v w)) = 0 -> at_place A Edge p.
Proof.
  intros x y z x' y' z' [[x'' y''] z''] HI H1 H2 HD HS. split; [apply sb_in; exact HI|]. exists (comb (IZR x) (IZR y) (IZR z) u v w), (comb (IZR x') (IZR y') (IZR z') u v w).
  split; [apply sb_between; exact H1|]. split; [apply sb_between; exact H2|]. split; [|exact HS]. intro E. pose proof (det_int _ _ _ _ _ _ _ _ _ HD) as K. apply K. revert E. clear.
  destruct (comb (IZR x) (IZR y) (IZR z) u v w) as [[a1 a2] a3], (comb (IZR x') (IZR y') (IZR z') u v w) as [[b1 b2] b3], (comb (IZR x'') (IZR y'') (IZR z'') u v w) as [[c1 c2] c3].
  unfold cross, det3. intro E. injection E as E1 E2 E3.
  match goal with |- ?d = 0 => replace d with (c1 * (a2 * b3 - a3 * b2) + c2 * (a3 * b1 - a1 * b3) + c3 * (a1 * b2 - a2 * b1)) by ring end. rewrite E1, E2, E3. ring.
Qed.
Lemma sb_corner : forall x y z x' y' z' x'' y'' z'', all_inside -> lf (IZR x) (IZR y) (IZR z) = qf (IZR x) (IZR y) (IZR z) ->
  lf (IZR x') (IZR y') (IZR z') = qf (IZR x') (IZR y') (IZR z') -> lf (IZR x'') (IZR y'') (IZR z'') = qf (IZR x'') (IZR y'') (IZR z'') ->
  idet ((x, y, z), (x', y', z'), (x'', y'', z'')) <> 0%Z -> at_place A Corner p.
Proof.
  intros x y z x' y' z' x'' y'' z'' HI H1 H2 H3 HD. split; [apply sb_in; exact HI|].
  exists (comb (IZR x) (IZR y) (IZR z) u v w), (comb (IZR x') (IZR y') (IZR z') u v w), (comb (IZR x'') (IZR y'') (IZR z'') u v w).
  split; [apply sb_between; exact H1|]. split; [apply sb_between; exact H2|]. split; [apply sb_between; exact H3|]. exact (det_int _ _ _ _ _ _ _ _ _ HD).
Qed.
Lemma sb_corner_on : forall x y z x' y' z' x'' y'' z'', all_inside -> lf (IZR x) (IZR y) (IZR z) = qf (IZR x) (IZR y) (IZR z) ->
  lf (IZR x') (IZR y') (IZR z') = qf (IZR x') (IZR y') (IZR z') -> lf (IZR x'') (IZR y'') (IZR z'') = qf (IZR x'') (IZR y'') (IZR z'') ->
  idet ((x, y, z), (x', y', z'), (x'', y'', z'')) <> 0%Z -> corner_on A p (comb (IZR x) (IZR y) (IZR z) u v w) (comb (IZR x') (IZR y') (IZR z') u v w).
Proof.
  intros x y z x' y' z' x'' y'' z'' HI H1 H2 H3 HD. split; [apply sb_in; exact HI|]. split; [apply sb_between; exact H1|]. split; [apply sb_between; exact H2|].
  exists (comb (IZR x'') (IZR y'') (IZR z'') u v w). split; [apply sb_between; exact H3|]. exact (det_int _ _ _ _ _ _ _ _ _ HD).
Qed.
End Super.

Lemma bz_center : forall A p, at_place A Center p <-> p = (0, 0, 0).
Proof.
  intros A p. split; [intros [_ H]; exact H|]. intros ->. split; [|reflexivity]. intros [[x y] z] _. unfold nsq, vsub.
  assert (forall t, 0 <= (0 - t) * (0 - t)) by (intro; apply Rle_0_sqr). pose proof (H x). pose proof (H y). pose proof (H z). lra.
Qed.

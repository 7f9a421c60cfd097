(** The named points of kpaths.py lie in the first Brillouin zone: C136 cubic, C137 tetragonal, C138 trigonal, C139 hexagonal. *)
From Coq Require Import List ZArith Reals Lra Lia Psatz String.
From Verif Require NbrModel.
From Verif Require Import LatModel KPointsModel KPointsBz.
Import ListNotations.
Local Open Scope R_scope.

(** np.linalg.lstsq for linearly independent rows: the solution of smallest norm *)
Definition lstsq_ok (f : list vec -> list R -> vec) : Prop :=
  (forall a b r s, cross a b <> (0, 0, 0) -> vdot a (f [a; b] [r; s]) = r /\ vdot b (f [a; b] [r; s]) = s /\
     forall y, vdot a y = r -> vdot b y = s -> nsq (f [a; b] [r; s]) <= nsq y) /\
  (forall a b c r s t, det3 (a, b, c) <> 0 -> vdot a (f [a; b; c] [r; s; t]) = r /\ vdot b (f [a; b; c] [r; s; t]) = s /\ vdot c (f [a; b; c] [r; s; t]) = t).

Lemma nsq_0 : forall x y z, x * x + y * y + z * z <= 0 -> x = 0 /\ y = 0 /\ z = 0.
Proof. intros x y z H. assert (0 <= x * x) by nra. assert (0 <= y * y) by nra. assert (0 <= z * z) by nra. repeat split; nra. Qed.
Lemma hsp2_is : forall f a b x y p, lstsq_ok f -> cross a b <> (0, 0, 0) -> p = comb x y 0 a b (0, 0, 0) ->
  vdot a p = vdot a a -> vdot b p = vdot b b -> hsp f [a; b] = p.
Proof.
  intros f a b x y p [H _] HC HP Ha Hb. unfold hsp. cbn [map]. destruct (H a b (vdot a a) (vdot b b) HC) as (E1 & E2 & M). specialize (M p Ha Hb).
  destruct (f [a; b] [vdot a a; vdot b b]) as [[z1 z2] z3]. clear H HC. destruct a as [[a1 a2] a3], b as [[b1 b2] b3], p as [[p1 p2] p3].
  unfold vdot, nsq, comb in *. injection HP as P1 P2 P3.
  assert (O : (z1 - p1) * p1 + (z2 - p2) * p2 + (z3 - p3) * p3 = 0).
  { assert (O1 : a1 * (z1 - p1) + a2 * (z2 - p2) + a3 * (z3 - p3) = 0) by lra. assert (O2 : b1 * (z1 - p1) + b2 * (z2 - p2) + b3 * (z3 - p3) = 0) by lra.
    rewrite P1 at 2. rewrite P2 at 2. rewrite P3 at 2.
    replace ((z1 - p1) * (x * a1 + y * b1 + 0 * 0) + (z2 - p2) * (x * a2 + y * b2 + 0 * 0) + (z3 - p3) * (x * a3 + y * b3 + 0 * 0)) with
      (x * (a1 * (z1 - p1) + a2 * (z2 - p2) + a3 * (z3 - p3)) + y * (b1 * (z1 - p1) + b2 * (z2 - p2) + b3 * (z3 - p3))) by ring.
    rewrite O1, O2. ring. }
  destruct (nsq_0 (z1 - p1) (z2 - p2) (z3 - p3)) as (D1 & D2 & D3); [nra|]. repeat f_equal; lra.
Qed.
Lemma hsp3_is : forall f a b c p, lstsq_ok f -> det3 (a, b, c) <> 0 ->
  vdot a p = vdot a a -> vdot b p = vdot b b -> vdot c p = vdot c c -> hsp f [a; b; c] = p.
Proof.
  intros f a b c p [_ H] HC Ha Hb Hc. unfold hsp. cbn [map]. destruct (H a b c (vdot a a) (vdot b b) (vdot c c) HC) as (E1 & E2 & E3).
  destruct (f [a; b; c] [vdot a a; vdot b b; vdot c c]) as [[z1 z2] z3]. clear H. destruct a as [[a1 a2] a3], b as [[b1 b2] b3], c as [[c1 c2] c3], p as [[p1 p2] p3].
  unfold vdot in *. set (d := det3 _) in HC.
  assert (O1 : a1 * (z1 - p1) + a2 * (z2 - p2) + a3 * (z3 - p3) = 0) by lra. assert (O2 : b1 * (z1 - p1) + b2 * (z2 - p2) + b3 * (z3 - p3) = 0) by lra.
  assert (O3 : c1 * (z1 - p1) + c2 * (z2 - p2) + c3 * (z3 - p3) = 0) by lra.
  assert (D1 : d * (z1 - p1) = 0).
  { transitivity ((a1 * (z1 - p1) + a2 * (z2 - p2) + a3 * (z3 - p3)) * (b2 * c3 - b3 * c2) + (b1 * (z1 - p1) + b2 * (z2 - p2) + b3 * (z3 - p3)) * (c2 * a3 - c3 * a2) + (c1 * (z1 - p1) + c2 * (z2 - p2) + c3 * (z3 - p3)) * (a2 * b3 - a3 * b2)); [unfold d, det3; ring|rewrite O1, O2, O3; ring]. }
  assert (D2 : d * (z2 - p2) = 0).
  { transitivity ((a1 * (z1 - p1) + a2 * (z2 - p2) + a3 * (z3 - p3)) * (b3 * c1 - b1 * c3) + (b1 * (z1 - p1) + b2 * (z2 - p2) + b3 * (z3 - p3)) * (c3 * a1 - c1 * a3) + (c1 * (z1 - p1) + c2 * (z2 - p2) + c3 * (z3 - p3)) * (a3 * b1 - a1 * b3)); [unfold d, det3; ring|rewrite O1, O2, O3; ring]. }
  assert (D3 : d * (z3 - p3) = 0).
  { transitivity ((a1 * (z1 - p1) + a2 * (z2 - p2) + a3 * (z3 - p3)) * (b1 * c2 - b2 * c1) + (b1 * (z1 - p1) + b2 * (z2 - p2) + b3 * (z3 - p3)) * (c1 * a2 - c2 * a1) + (c1 * (z1 - p1) + c2 * (z2 - p2) + c3 * (z3 - p3)) * (a1 * b2 - a2 * b1)); [unfold d, det3; ring|rewrite O1, O2, O3; ring]. }
  apply Rmult_integral in D1, D2, D3. destruct D1 as [D1|D1]; [contradiction|]. destruct D2 as [D2|D2]; [contradiction|]. destruct D3 as [D3|D3]; [contradiction|].
  repeat f_equal; lra.
Qed.
(** an example of such a function: the formulas of Cramer *)
Definition cramer (l : list vec) (r : list R) : vec :=
  match l, r with
  | [a; b], [x; y] => let '(aa, bb, ab) := (vdot a a, vdot b b, vdot a b) in
      comb ((x * bb - y * ab) / (aa * bb - ab * ab)) ((y * aa - x * ab) / (aa * bb - ab * ab)) 0 a b (0, 0, 0)
  | [a; b; c], [x; y; z] => comb (x / det3 (a, b, c)) (y / det3 (a, b, c)) (z / det3 (a, b, c)) (cross b c) (cross c a) (cross a b)
  | _, _ => (0, 0, 0)
  end.
Lemma cramer_ok : lstsq_ok cramer.
Proof.
  split.
  - intros a b r s HC. unfold cramer. assert (G : vdot a a * vdot b b - vdot a b * vdot a b <> 0).
    { intro E. apply HC. destruct a as [[a1 a2] a3], b as [[b1 b2] b3]. unfold vdot, cross in *.
      destruct (nsq_0 (a2 * b3 - a3 * b2) (a3 * b1 - a1 * b3) (a1 * b2 - a2 * b1)) as (-> & -> & ->); [|reflexivity].
      apply Req_le. rewrite <- E. ring. }
    set (D := vdot a a * vdot b b - vdot a b * vdot a b) in *. set (x := (r * vdot b b - s * vdot a b) / D). set (y := (s * vdot a a - r * vdot a b) / D).
    assert (XD : x * D = r * vdot b b - s * vdot a b) by (unfold x; field; exact G).
    assert (YD : y * D = s * vdot a a - r * vdot a b) by (unfold y; field; exact G).
    assert (EX : x * vdot a a + y * vdot a b = r).
    { apply (Rmult_eq_reg_r D); [|exact G]. transitivity ((x * D) * vdot a a + (y * D) * vdot a b); [ring|]. rewrite XD, YD. unfold D. ring. }
    assert (EY : x * vdot a b + y * vdot b b = s).
    { apply (Rmult_eq_reg_r D); [|exact G]. transitivity ((x * D) * vdot a b + (y * D) * vdot b b); [ring|]. rewrite XD, YD. unfold D. ring. }
    clear XD YD. clearbody x y. clear G. clearbody D. destruct a as [[a1 a2] a3], b as [[b1 b2] b3]. unfold vdot, comb, nsq in *. split; [rewrite <- EX; ring|]. split; [rewrite <- EY; ring|].
    intros [[y1 y2] y3] H1 H2.
    set (p1 := x * a1 + y * b1 + 0 * 0). set (p2 := x * a2 + y * b2 + 0 * 0). set (p3 := x * a3 + y * b3 + 0 * 0).
    assert (O : (y1 - p1) * p1 + (y2 - p2) * p2 + (y3 - p3) * p3 = 0).
    { transitivity (x * (a1 * y1 + a2 * y2 + a3 * y3 - (x * (a1 * a1 + a2 * a2 + a3 * a3) + y * (a1 * b1 + a2 * b2 + a3 * b3))) +
        y * (b1 * y1 + b2 * y2 + b3 * y3 - (x * (a1 * b1 + a2 * b2 + a3 * b3) + y * (b1 * b1 + b2 * b2 + b3 * b3)))); [unfold p1, p2, p3; ring|]. rewrite H1, H2, EX, EY. ring. }
    clearbody p1 p2 p3. pose proof (Rle_0_sqr (y1 - p1)) as S1. pose proof (Rle_0_sqr (y2 - p2)) as S2. pose proof (Rle_0_sqr (y3 - p3)) as S3. unfold Rsqr in *. clear - O S1 S2 S3. lra.
  - intros a b c r s t HD. unfold cramer. destruct a as [[a1 a2] a3], b as [[b1 b2] b3], c as [[c1 c2] c3]. set (D := det3 _) in *.
    assert (ED : D = a1 * (b2 * c3 - b3 * c2) - a2 * (b1 * c3 - b3 * c1) + a3 * (b1 * c2 - b2 * c1)) by reflexivity.
    clearbody D. unfold cross, comb, vdot. repeat split; apply (Rmult_eq_reg_r D); try exact HD; (match goal with |- ?l * D = ?r * D => transitivity (r * (a1 * (b2 * c3 - b3 * c2) - a2 * (b1 * c3 - b3 * c1) + a3 * (b1 * c2 - b2 * c1))); [field; exact HD|rewrite ED; ring] end).
Qed.

(** *** Tactics *)
Ltac ins := unfold all_inside, inside, qf, lf; repeat split; lra.
Ltac eqn := unfold qf, lf; lra.
Ltac vecs := unfold comb, vdot, nsq, vscale, vsub in *.
Lemma vec_eq : forall a b c x y z : R, a = x -> b = y -> c = z -> (a, b, c) = (x, y, z).
Proof. intros; subst; reflexivity. Qed.
Ltac fc SB m := match m with ((?x, ?y, ?z), ?m2, ?m3) => eapply (sb_face _ _ _ _ _ _ _ _ _ _ SB _ _ _ _ eq_refl eq_refl eq_refl x y z m2 m3);
  [vecs; ins|vecs; apply vec_eq; lra|vm_compute; discriminate] end.
Ltac ed SB m := match m with ((?x, ?y, ?z), (?x', ?y', ?z'), ?m3) => eapply (sb_edge _ _ _ _ _ _ _ _ _ _ SB _ _ _ _ eq_refl eq_refl eq_refl x y z x' y' z' m3);
  [vecs; ins|vecs; eqn|vecs; eqn|vm_compute; discriminate|unfold cross; vecs; first [ring | lra]] end.
Ltac co SB m := match m with ((?x, ?y, ?z), (?x', ?y', ?z'), (?x'', ?y'', ?z'')) => eapply (sb_corner _ _ _ _ _ _ _ _ _ _ SB _ _ _ _ eq_refl eq_refl eq_refl x y z x' y' z' x'' y'' z'');
  [vecs; ins|vecs; eqn|vecs; eqn|vecs; eqn|vm_compute; discriminate] end.
(** middle of the edge from [cc] to [dd]; [m] the two planes of the edge, [i], [j] the third planes of the ends *)
Ltac ce SB m := match m with ((?x, ?y, ?z), (?x', ?y', ?z'), (?x'', ?y'', ?z'')) => eapply (sb_corner_on _ _ _ _ _ _ _ _ _ _ SB _ _ _ _ eq_refl eq_refl eq_refl x y z x' y' z' x'' y'' z'');
  [vecs; ins|vecs; eqn|vecs; eqn|vecs; eqn|vm_compute; discriminate] end.
Ltac mi SB cc dd m m' := split; [eapply (sb_in _ _ _ _ _ _ _ _ _ _ SB _ _ _ _ eq_refl eq_refl eq_refl); vecs; ins|
  eexists _, _, cc, dd; split; [ce SB m|split; [ce SB m'|unfold vadd; vecs; apply vec_eq; lra]]].
Ltac ctr := apply bz_center; apply vec_eq; lra.
Ltac points := intros ? ? HIn; repeat (destruct HIn as [HIn|HIn]; [injection HIn as <- <-; eexists; split; [reflexivity|]|]); [..|destruct HIn].
(** integers *)
Ltac isint z := exists z%Z; repeat rewrite ?plus_IZR, ?minus_IZR, ?mult_IZR, ?opp_IZR; vecs.

(** ** Cubic lattices *)
Lemma sc_sb : superbase (sc 1) (1, 0, 0) (0, 1, 0) (0, 0, 1) 1 1 1 0 0 0.
Proof.
  split; try (unfold det3; vecs; lra).
  - intros [[g1 g2] g3] ([x Hx] & [y Hy] & [z Hz]). exists x, y, z. vecs. repeat f_equal; lra.
  - intros x y z. unfold recip, sc, lscale. split; [isint x; ring|split; [isint y; ring|isint z; ring]].
Qed.
Lemma fcc_sb : superbase (fcc 1) (- 1, - 1, 1) (1, 1, 1) (- 1, 1, - 1) 3 3 3 (- 1) (- 1) (- 1).
Proof.
  split; try (unfold det3; vecs; lra).
  - intros [[g1 g2] g3] ([x Hx] & [y Hy] & [z Hz]). exists x, y, z. vecs. repeat f_equal; lra.
  - intros x y z. unfold recip, fcc, lscale. split; [isint x; field|split; [isint y; field|isint z; field]].
Qed.
Lemma bcc_sb : superbase (bcc 1) (1, 0, 1) (1, 0, - 1) (- 1, 1, 0) 2 2 2 0 (- 1) (- 1).
Proof.
  split; try (unfold det3; vecs; lra).
  - intros [[g1 g2] g3] ([x Hx] & [y Hy] & [z Hz]). exists x, (- z)%Z, (y - z)%Z. rewrite opp_IZR, minus_IZR. vecs. repeat f_equal; lra.
  - intros x y z. unfold recip, bcc, lscale. split; [isint x; field|split; [isint (z - y)%Z; field|isint (- y)%Z; field]].
Qed.
(** C136: the points of the module table, for the lattice constant 1 (units 2 pi/a), in the zones of the lattices they belong to; every key is used *)
Definition sc_places := [("G", Center); ("O", Center); ("X", Face); ("M", Edge); ("R", Corner)]%string.
Definition fcc_places := [("G", Center); ("O", Center); ("X2", Face); ("K", Edge); ("L", Face); ("W", Corner); ("U", Edge)]%string.
Definition bcc_places := [("G", Center); ("O", Center); ("H", Corner); ("H1", Corner); ("N", Face); ("P", Corner)]%string.
Theorem C136_cubic : points_at (sc 1) cubic_points sc_places /\ points_at (fcc 1) cubic_points fcc_places /\ points_at (bcc 1) cubic_points bcc_places /\
  (forall k, In k (map fst cubic_points) -> In k (map fst (sc_places ++ fcc_places ++ bcc_places))).
Proof.
  split; [|split; [|split]].
  - points; [ctr|ctr|fc sc_sb ((0, 1, 0), (1, 0, 0), (0, 0, 1))%Z|ed sc_sb ((1, 0, 0), (0, 1, 0), (0, 0, 1))%Z|co sc_sb ((1, 0, 0), (0, 1, 0), (0, 0, 1))%Z].
  - points; [ctr|ctr|fc fcc_sb ((0, 1, 1), (1, 0, 0), (0, 0, 1))%Z|ed fcc_sb ((0, 1, 0), ((-1), 0, 0), (0, 0, 1))%Z|fc fcc_sb ((0, 1, 0), (1, 0, 0), (0, 0, 1))%Z
      |co fcc_sb ((0, 1, 0), ((-1), 0, 0), (0, 1, 1))%Z|ed fcc_sb ((0, 1, 0), (0, 1, 1), (1, 0, 0))%Z].
  - points; [ctr|ctr|co bcc_sb ((1, 0, 0), (0, 1, 0), (1, 1, 1))%Z|co bcc_sb ((1, 0, 1), (0, 1, 1), (1, 1, 1))%Z|fc bcc_sb ((1, 1, 1), (1, 0, 0), (0, 1, 0))%Z|co bcc_sb ((1, 0, 0), (1, 0, 1), (1, 1, 1))%Z].
  - intros k Hk. repeat (destruct Hk as [<-|Hk]; [cbn; tauto|]). destruct Hk.
Qed.
Print Assumptions C136_cubic.

(** the zone is convex, so the segments between the points of a path stay inside *)
Definition segment (p q : vec) (t : R) : vec := comb (1 - t) t 0 p q (0, 0, 0).
Lemma in_bz_convex : forall A p q t, in_bz A p -> in_bz A q -> 0 <= t <= 1 -> in_bz A (segment p q t).
Proof.
  intros A p q t HP HQ Ht g Hg. specialize (HP g Hg). specialize (HQ g Hg). destruct p as [[p1 p2] p3], q as [[q1 q2] q3], g as [[g1 g2] g3].
  unfold segment. vecs.
  assert (P : 2 * (p1 * g1 + p2 * g2 + p3 * g3) <= g1 * g1 + g2 * g2 + g3 * g3) by lra.
  assert (Q : 2 * (q1 * g1 + q2 * g2 + q3 * g3) <= g1 * g1 + g2 * g2 + g3 * g3) by lra.
  apply (Rmult_le_compat_l (1 - t)) in P; [|lra]. apply (Rmult_le_compat_l t) in Q; [|lra]. lra.
Qed.
Definition path_inside (A : lattice) (names : list string) : Prop := forall k k', In k names -> In k' names ->
  exists p q, kget cubic_points k = Some p /\ kget cubic_points k' = Some q /\ forall t, 0 <= t <= 1 -> in_bz A (segment p q t).
Theorem C136_paths : path_inside (sc 1) SC_PATH /\ path_inside (fcc 1) FCC_PATH /\ path_inside (bcc 1) BCC_PATH /\ path_inside (fcc 1) DIAMOND_PATH.
Proof.
  destruct C136_cubic as (S & F & B & _).
  assert (G : forall A spec names, points_at A cubic_points spec -> (forall k, In k names -> In k (map fst spec)) -> path_inside A names).
  { intros A spec names H I k k' Hk Hk'. apply I in Hk, Hk'. apply in_map_iff in Hk, Hk'. destruct Hk as ([x pl] & <- & Hk), Hk' as ([x' pl'] & <- & Hk').
    destruct (H _ _ Hk) as (p & E & Hp & _), (H _ _ Hk') as (q & E' & Hq & _). exists p, q. split; [exact E|]. split; [exact E'|]. intros t Ht. apply in_bz_convex; assumption. }
  split; [|split; [|split]]; eapply G; try eassumption; intros k Hk; repeat (destruct Hk as [<-|Hk]; [cbn; tauto|]); destruct Hk.
Qed.
Print Assumptions C136_paths.
(** points of one lattice need not be in the zone of another: W of the face centered lattice is outside the simple cubic zone *)
Example C136_ex : in_bz (fcc 1) (1 / 2, 1, 0) /\ ~ in_bz (sc 1) (1 / 2, 1, 0) /\ ~ in_bz (fcc 1) (3 / 4, 1, 0).
Proof.
  destruct C136_cubic as (_ & F & _). split; [|split].
  - destruct (F "W"%string Corner) as (p & E & H & _); [cbn; tauto|]. injection E as <-. exact H.
  - intro H. specialize (H (0, 1, 0)). unfold vsub, nsq in H. assert (K : recip (sc 1) (0, 1, 0)); [|apply H in K; lra].
    unfold recip, sc, lscale, is_int; vecs. split; [exists 0%Z; lra|]. split; [exists 1%Z; lra|exists 0%Z; lra].
  - intro H. specialize (H (1, 1, 1)). unfold vsub, nsq in H. assert (K : recip (fcc 1) (1, 1, 1)); [|apply H in K; lra].
    unfold recip, fcc, lscale, is_int; vecs. split; [exists 0%Z; lra|]. split; [exists 1%Z; lra|exists 0%Z; lra].
Qed.

(** ** Body centered tetragonal lattices *)
Definition bct_lat (c : R) : lattice := ((- (1 / 2) * 1, 1 / 2 * 1, 1 / 2 * c), (1 / 2 * 1, - (1 / 2) * 1, 1 / 2 * c), (1 / 2 * 1, 1 / 2 * 1, - (1 / 2) * c)).
Lemma bct_sb_short : forall c g, c * g = 1 -> 0 < g -> 1 <= g * g -> superbase (bct_lat c) (1, 0, g) (1, 0, - g) (- 1, 1, 0) (1 + g * g) (1 + g * g) 2 (1 - g * g) (- 1) (- 1).
Proof.
  intros c g Hcg Hg H1. assert (Hc : c <> 0) by nra. split; try (unfold det3; vecs; lra).
  - intros [[g1 g2] g3] ([x Hx] & [y Hy] & [z Hz]). exists (x + y + z)%Z, z, (x + z)%Z. rewrite !plus_IZR. vecs. apply vec_eq; try lra.
    apply (Rmult_eq_reg_l c); [|exact Hc]. replace (c * ((IZR x + IZR y + IZR z) * g + IZR z * - g + (IZR x + IZR z) * 0)) with ((IZR x + IZR y) * (c * g)) by ring. rewrite Hcg. lra.
  - intros x y z. unfold recip, bct_lat. split; [isint (z - y)%Z|split; [isint (x - z)%Z|isint y]].
    + replace (IZR x * g + IZR y * - g + IZR z * 0) with ((IZR x - IZR y) * g) by ring. replace (1 / 2 * c * ((IZR x - IZR y) * g)) with (1 / 2 * (IZR x - IZR y) * (c * g)) by ring. rewrite Hcg. lra.
    + replace (IZR x * g + IZR y * - g + IZR z * 0) with ((IZR x - IZR y) * g) by ring. replace (1 / 2 * c * ((IZR x - IZR y) * g)) with (1 / 2 * (IZR x - IZR y) * (c * g)) by ring. rewrite Hcg. lra.
    + replace (IZR x * g + IZR y * - g + IZR z * 0) with ((IZR x - IZR y) * g) by ring. replace (- (1 / 2) * c * ((IZR x - IZR y) * g)) with (- (1 / 2) * (IZR x - IZR y) * (c * g)) by ring. rewrite Hcg. lra.
Qed.
Lemma bct_sb_long : forall c g, c * g = 1 -> 0 < g -> g * g <= 1 -> superbase (bct_lat c) (0, 1, - g) (1, 0, g) (0, - 1, - g) (1 + g * g) (1 + g * g) (1 + g * g) (- (g * g)) (- 1 + g * g) (- (g * g)).
Proof.
  intros c g Hcg Hg H1. assert (Hc : c <> 0) by nra. split; try (unfold det3; vecs; nra).
  - intros [[g1 g2] g3] ([x Hx] & [y Hy] & [z Hz]). exists z, (y + z)%Z, (- x)%Z. rewrite plus_IZR, opp_IZR. vecs. apply vec_eq; try lra.
    apply (Rmult_eq_reg_l c); [|exact Hc]. replace (c * (IZR z * - g + (IZR y + IZR z) * g + - IZR x * - g)) with ((IZR x + IZR y) * (c * g)) by ring. rewrite Hcg. lra.
  - intros x y z. unfold recip, bct_lat. split; [isint (- z)%Z|split; [isint (y - x)%Z|isint x]].
    + replace (IZR x * - g + IZR y * g + IZR z * - g) with ((IZR y - IZR x - IZR z) * g) by ring. replace (1 / 2 * c * ((IZR y - IZR x - IZR z) * g)) with (1 / 2 * (IZR y - IZR x - IZR z) * (c * g)) by ring. rewrite Hcg. lra.
    + replace (IZR x * - g + IZR y * g + IZR z * - g) with ((IZR y - IZR x - IZR z) * g) by ring. replace (1 / 2 * c * ((IZR y - IZR x - IZR z) * g)) with (1 / 2 * (IZR y - IZR x - IZR z) * (c * g)) by ring. rewrite Hcg. lra.
    + replace (IZR x * - g + IZR y * g + IZR z * - g) with ((IZR y - IZR x - IZR z) * g) by ring. replace (- (1 / 2) * c * ((IZR y - IZR x - IZR z) * g)) with (- (1 / 2) * (IZR y - IZR x - IZR z) * (c * g)) by ring. rewrite Hcg. lra.
Qed.

(** C137: tetragonal_bc_points for c <> 1 *)
Definition bct_places (c : R) : list (string * place) :=
  if Rlt_dec c 1 then [("G", Center); ("X", Face); ("M", Edge); ("N", Face); ("Z1", Corner); ("Z", Corner); ("P", Corner)]%string
  else [("G", Center); ("X", Face); ("M", Face); ("M2", Face); ("Z", Face); ("N", Face); ("N0", Face); ("N1", Face); ("Sig", Edge); ("S0", Edge);
        ("S", Edge); ("Sig1", Edge); ("S2", Edge); ("R", Corner); ("Y", Corner); ("P", Corner); ("Y1", Corner); ("GG", Corner); ("G0", Corner)]%string.
Theorem C137_tetragonal : forall f c, lstsq_ok f -> 0 < c -> c <> 1 ->
  exists A, tetragonal_body_centered 1 c = Some A /\ table_ok A (bct_points f c) (bct_places c).
Proof.
  intros f c Hf Hc Hc1. exists (bct_lat c). split.
  { unfold tetragonal_body_centered, posb, NbrModel.Rltb. destruct (Rlt_dec 0 1) as [_|N]; [|lra]. destruct (Rlt_dec 0 c) as [_|N]; [|lra]. reflexivity. }
  set (g := / c). assert (Hcg : c * g = 1) by (unfold g; field; lra). assert (Hg : 0 < g) by (apply Rinv_0_lt_compat; exact Hc).
  unfold bct_points, bct_places. destruct (Rlt_dec c 1) as [L|L].
  - assert (G1 : 1 <= g * g) by (assert (1 <= g); [|nra]; unfold g; rewrite <- Rinv_1; apply Rinv_le_contravar; lra).
    unfold Rdiv. fold g. cbv zeta.
    assert (EZ : hsp f [(1 * / 2, 0, 1 * / 2 * g); (1, 0, 0)] = (1, 0, (g - c) / 2)).
    { apply (hsp2_is f _ _ (1 - c * c) ((1 + c * c) / 2)); [exact Hf|intro E; injection E; lra|vecs; apply vec_eq; try lra|vecs; lra|vecs; lra].
      replace ((1 - c * c) * (1 * / 2 * g) + (1 + c * c) / 2 * 0 + 0 * 0) with ((g - c * (c * g)) / 2) by field. rewrite Hcg. lra. }
    rewrite EZ. pose proof (bct_sb_short c g Hcg Hg G1) as SB. clearbody g. clear EZ. unfold vz. cbn [snd].
    split; [reflexivity|]. points; [ctr|fc SB ((1, 1, 1), (1, 0, 0), (0, 1, 0))%Z|ed SB ((0, 0, -1), (1, 1, 1), (1, 0, 0))%Z|fc SB ((1, 0, 0), (0, 1, 0), (0, 0, 1))%Z
      |co SB ((1, 0, 0), (0, 0, -1), (1, 1, 1))%Z|co SB ((1, 0, 0), (0, -1, 0), (1, 0, 1))%Z|co SB ((1, 0, 0), (1, 0, 1), (1, 1, 1))%Z].
  - assert (G1 : g * g <= 1) by (assert (g <= 1); [|nra]; unfold g; rewrite <- Rinv_1; apply Rinv_le_contravar; lra).
    unfold Rdiv. fold g. cbv zeta.
    assert (GG : 0 < g * g) by nra.
    assert (E1 : hsp f [(1 * / 2, 0, 1 * / 2 * g); (1 * / 2, 0, - (1 * / 2) * g)] = ((1 + g * g) / 2, 0, 0)).
    { apply (hsp2_is f _ _ ((1 + g * g) / 2) ((1 + g * g) / 2)); [exact Hf|intro E; injection E; lra|vecs; apply vec_eq; lra|vecs; lra|vecs; lra]. }
    assert (E2 : hsp f [(0, 0, 1 * g); (1 * / 2, 0, 1 * / 2 * g)] = ((1 - g * g) / 2, 0, g)).
    { apply (hsp2_is f _ _ ((1 + g * g) / 2) (1 - g * g)); [exact Hf|intro E; injection E; lra|vecs; apply vec_eq; lra|vecs; lra|vecs; lra]. }
    assert (E3 : hsp f [(1 * / 2, 0, 1 * / 2 * g); (1 * / 2, 0, - (1 * / 2) * g); (1 * / 2, 1 * / 2, 0)] = ((1 + g * g) / 2, (1 - g * g) / 2, 0)).
    { apply hsp3_is; [exact Hf|unfold det3; lra|vecs; lra|vecs; lra|vecs; lra]. }
    assert (E4 : hsp f [(1 * / 2, 0, 1 * / 2 * g); (0, 1 * / 2, 1 * / 2 * g); (1 * / 2, 1 * / 2, 0)] = (1 / 2, 1 / 2, g / 2)).
    { apply hsp3_is; [exact Hf|unfold det3; lra|vecs; lra|vecs; lra|vecs; lra]. }
    assert (E5 : hsp f [(1 * / 2, 0, 1 * / 2 * g); (0, 1 * / 2, 1 * / 2 * g); (0, 0, 1 * g)] = ((1 - g * g) / 2, (1 - g * g) / 2, g)).
    { apply hsp3_is; [exact Hf|unfold det3; lra|vecs; lra|vecs; lra|vecs; lra]. }
    rewrite E1, E2, E3, E4, E5. pose proof (bct_sb_long c g Hcg Hg G1) as SB. clearbody g. clear E1 E2 E3 E4 E5. unfold mul_z.
    split; [reflexivity|]. points; [ctr|fc SB ((1, 1, 0), (1, 0, 0), (0, 0, 1))%Z|fc SB ((-1, 0, -1), (0, 1, 0), (0, 0, 1))%Z|fc SB ((1, 0, 1), (0, 1, 0), (0, 0, 1))%Z
      |fc SB ((-1, 0, -1), (0, 1, 0), (0, 0, 1))%Z|fc SB ((0, 1, 0), (1, 0, 0), (0, 0, 1))%Z|fc SB ((1, 1, 1), (1, 0, 0), (0, 0, 1))%Z|fc SB ((0, 0, -1), (1, 0, 0), (0, 1, 0))%Z
      |ed SB ((0, 1, 0), (1, 1, 1), (0, 0, 1))%Z|ed SB ((0, 1, 0), (1, 1, 1), (0, 0, 1))%Z|ed SB ((-1, 0, -1), (0, 1, 0), (0, 0, 1))%Z|ed SB ((-1, 0, -1), (0, 1, 0), (0, 0, 1))%Z
      |ed SB ((1, 0, 1), (1, 1, 1), (0, 0, 1))%Z|co SB ((0, 1, 0), (1, 1, 1), (1, 1, 0))%Z|co SB ((0, 1, 0), (1, 1, 1), (1, 1, 0))%Z|co SB ((0, 1, 0), (0, 0, -1), (1, 1, 0))%Z
      |co SB ((0, 1, 0), (0, 0, -1), (-1, 0, -1))%Z|co SB ((0, 1, 0), (0, 0, -1), (-1, 0, -1))%Z|co SB ((1, 1, 1), (1, 0, 0), (1, 0, 1))%Z].
Qed.
Print Assumptions C137_tetragonal.
Example C137_ex : exists A, tetragonal_body_centered 1 2 = Some A /\ kget (bct_points cramer 2) "R" = Some (5 / 8, 3 / 8, 0) /\ at_place A Corner (5 / 8, 3 / 8, 0).
Proof.
  destruct (C137_tetragonal cramer 2 cramer_ok) as (A & EA & _ & H); [lra|lra|]. exists A. split; [exact EA|].
  destruct (H "R"%string Corner) as (p & E & Hp); [unfold bct_places; destruct (Rlt_dec 2 1); [lra|cbn; tauto]|].
  assert (EP : p = (5 / 8, 3 / 8, 0)); [|subst p; split; assumption].
  revert E. unfold bct_points. destruct (Rlt_dec 2 1) as [L|_]; [lra|]. cbv zeta.
  cbn [kget String.eqb Ascii.eqb Bool.eqb]. intro E. injection E as <-. apply (hsp3_is cramer); [exact cramer_ok|unfold det3; lra|vecs; lra..].
Qed.

(** ** Trigonal lattices *)
Definition swap_lat (A : lattice) : lattice := let '(u, v, w) := A in (swap_xy u, swap_xy v, swap_xy w).
Lemma vdot_swap : forall u v, vdot (swap_xy u) (swap_xy v) = vdot u v.
Proof. intros [[a b] c] [[x y] z]. unfold swap_xy, vdot. ring. Qed.
Lemma swap_swap : forall u, swap_xy (swap_xy u) = u.
Proof. intros [[a b] c]. reflexivity. Qed.
Lemma recip_swap : forall A g, recip A g -> recip (swap_lat A) (swap_xy g).
Proof. intros [[u v] w] g H. unfold recip, swap_lat in *. rewrite !vdot_swap. exact H. Qed.
Lemma nsq_swap : forall u, nsq (swap_xy u) = nsq u.
Proof. intros [[a b] c]. unfold swap_xy, nsq. ring. Qed.
Lemma vsub_swap : forall u v, vsub (swap_xy u) (swap_xy v) = swap_xy (vsub u v).
Proof. intros [[a b] c] [[x y] z]. reflexivity. Qed.
Lemma swap_lat_lat : forall A, swap_lat (swap_lat A) = A.
Proof. intros [[[[a b] c] [[d e] f]] [[g h] i]]. reflexivity. Qed.
Lemma between_swap : forall A p g, between A p g -> between (swap_lat A) (swap_xy p) (swap_xy g).
Proof. intros A p g [R E]. split; [apply recip_swap; exact R|]. rewrite vsub_swap, !nsq_swap. exact E. Qed.
Lemma in_bz_swap : forall A p, in_bz A p -> in_bz (swap_lat A) (swap_xy p).
Proof.
  intros A p HB g Hg. apply recip_swap in Hg. rewrite swap_lat_lat in Hg. specialize (HB _ Hg). rewrite <- (swap_swap g), vsub_swap, !nsq_swap. exact HB.
Qed.
Lemma corner_swap : forall A p g h, corner_on A p g h -> corner_on (swap_lat A) (swap_xy p) (swap_xy g) (swap_xy h).
Proof.
  intros A p g h (HI & H1 & H2 & i & H3 & N). split; [apply in_bz_swap; exact HI|]. split; [apply between_swap; exact H1|]. split; [apply between_swap; exact H2|].
  exists (swap_xy i). split; [apply between_swap; exact H3|].
  intro E. apply N. destruct g as [[x y] z], h as [[x' y'] z'], i as [[x'' y''] z'']. unfold swap_xy, det3 in *. lra.
Qed.
Lemma place_swap : forall A pl p, at_place A pl p -> at_place (swap_lat A) pl (swap_xy p).
Proof.
  intros A pl p [HB H].
  pose proof (between_swap A p) as B. split; [apply in_bz_swap; exact HB|].
  destruct pl.
  - subst p. reflexivity.
  - destruct H as (g & R & N & ->). exists (swap_xy g). split; [apply recip_swap; exact R|]. destruct g as [[x y] z]. split; [|reflexivity].
    intro E. apply N. unfold swap_xy in E. injection E as -> -> ->. reflexivity.
  - destruct H as (g & h & H1 & H2 & N & S). exists (swap_xy g), (swap_xy h). split; [apply B; exact H1|]. split; [apply B; exact H2|].
    destruct g as [[x y] z], h as [[x' y'] z'], p as [[p1 p2] p3]. unfold swap_xy, cross, vdot in *. split; [|lra].
    intro E. apply N. injection E as E1 E2 E3. apply vec_eq; lra.
  - destruct H as (g & h & c & d & HC & HD & ->). exists (swap_xy g), (swap_xy h), (swap_xy c), (swap_xy d).
    split; [apply corner_swap; exact HC|]. split; [apply corner_swap; exact HD|]. destruct c as [[x y] z], d as [[x' y'] z']. reflexivity.
  - destruct H as (g & h & i & H1 & H2 & H3 & N). exists (swap_xy g), (swap_xy h), (swap_xy i).
    split; [apply B; exact H1|]. split; [apply B; exact H2|]. split; [apply B; exact H3|].
    intro E. apply N. destruct g as [[x y] z], h as [[x' y'] z'], i as [[x'' y''] z'']. unfold swap_xy, det3 in *. lra.
Qed.
Lemma kget_swap : forall t k, kget (map (fun kv => (fst kv, swap_xy (snd kv))) t) k = option_map swap_xy (kget t k).
Proof. induction t as [|[k' v] t IH]; intro k; cbn [map kget fst snd]; [reflexivity|]. destruct (String.eqb k k'); [reflexivity|apply IH]. Qed.
Lemma table_swap : forall A t spec, table_ok (swap_lat A) t spec -> table_ok A (map (fun kv => (fst kv, swap_xy (snd kv))) t) spec.
Proof.
  intros A t spec [HK HP]. split; [rewrite map_map; exact HK|]. intros k pl Hk. destruct (HP k pl Hk) as (p & E & H). exists (swap_xy p).
  rewrite kget_swap, E. split; [reflexivity|]. rewrite <- (swap_lat_lat A). apply place_swap. exact H.
Qed.

Definition tri_lat (q r h : R) : lattice := ((0, r, h), (q / 2 * r, - (1 / 2) * r, h), (- q / 2 * r, - (1 / 2) * r, h)).
Section Tri.
Variables q s c e f : R.
Hypothesis Hq : q * q = 3.
Hypothesis Hs : s * e * 3 = 1.
Hypothesis Hc : c * f * 3 = 1.
Hypothesis Pq : 0 < q.
Hypothesis Pe : 0 < e.
Hypothesis Pf : 0 < f.
Lemma qe2 : q * e * (q * e) = 3 * (e * e).
Proof. replace (q * e * (q * e)) with (q * q * (e * e)) by ring. rewrite Hq. reflexivity. Qed.
Lemma tri_spans : spans (tri_lat q s c) (0, 2 * e, f) (q * e, - e, f) (- (q * e), - e, f).
Proof.
  intros [[g1 g2] g3] ([x Hx] & [y Hy] & [z Hz]). exists x, y, z. vecs. rewrite <- Hx, <- Hy, <- Hz. clear Hx Hy Hz.
  assert (K : q * q * (s * e) = 1) by (rewrite Hq; lra). apply vec_eq.
  - transitivity (q * q * (s * e) * g1); [rewrite K; ring|field].
  - transitivity (s * e * 3 * g2); [rewrite Hs; ring|field].
  - transitivity (c * f * 3 * g3); [rewrite Hc; ring|field].
Qed.
Lemma tri_recip : forall x y z : Z, recip (tri_lat q s c) (comb (IZR x) (IZR y) (IZR z) (0, 2 * e, f) (q * e, - e, f) (- (q * e), - e, f)).
Proof.
  intros x y z. unfold recip, tri_lat. assert (K : q * q * (s * e) = 1) by (rewrite Hq; lra).
  assert (G : forall a b d : R, vdot (0, s, c) (comb a b d (0, 2 * e, f) (q * e, - e, f) (- (q * e), - e, f)) = a /\
    vdot (q / 2 * s, - (1 / 2) * s, c) (comb a b d (0, 2 * e, f) (q * e, - e, f) (- (q * e), - e, f)) = b /\
    vdot (- q / 2 * s, - (1 / 2) * s, c) (comb a b d (0, 2 * e, f) (q * e, - e, f) (- (q * e), - e, f)) = d).
  { intros a b d. vecs. repeat split.
    - transitivity (s * e * 3 * ((2 * a - b - d) / 3) + c * f * 3 * ((a + b + d) / 3)); [field|rewrite Hs, Hc; lra].
    - transitivity (q * q * (s * e) * ((b - d) / 2) - s * e * 3 * ((2 * a - b - d) / 6) + c * f * 3 * ((a + b + d) / 3)); [field|rewrite K, Hs, Hc; lra].
    - transitivity (- (q * q * (s * e)) * ((b - d) / 2) - s * e * 3 * ((2 * a - b - d) / 6) + c * f * 3 * ((a + b + d) / 3)); [field|rewrite K, Hs, Hc; lra]. }
  destruct (G (IZR x) (IZR y) (IZR z)) as (-> & -> & ->). split; [exists x; reflexivity|]. split; [exists y; reflexivity|exists z; reflexivity].
Qed.
Lemma tri_sb_acute : f * f <= 2 * (e * e) -> superbase (tri_lat q s c) (0, 2 * e, f) (q * e, - e, f) (- (q * e), - e, f)
  (4 * (e * e) + f * f) (4 * (e * e) + f * f) (4 * (e * e) + f * f) (f * f - 2 * (e * e)) (f * f - 2 * (e * e)) (f * f - 2 * (e * e)).
Proof.
  intro HF. pose proof qe2 as K. assert (0 < f * f) by nra. split; try exact tri_spans; try exact tri_recip; try (vecs; lra).
  unfold det3. match goal with |- ?x <> 0 => replace x with (- 6 * (q * (e * e) * f)) by ring end.
  assert (0 < q * (e * e) * f) by (apply Rmult_lt_0_compat; [apply Rmult_lt_0_compat; [exact Pq|nra]|exact Pf]). lra.
Qed.
Lemma tri_sb_obtuse : 2 * (e * e) <= f * f -> superbase (tri_lat q s c) (- (q * e), 3 * e, 0) (q * e, - e, f) (q * e, e, - f)
  (12 * (e * e)) (4 * (e * e) + f * f) (4 * (e * e) + f * f) (- 6 * (e * e)) 0 (2 * (e * e) - f * f).
Proof.
  intro HF. pose proof qe2 as K. assert (0 < f * f) by nra. split; try (vecs; lra).
  - intros g Hg. destruct (tri_spans g Hg) as (x & y & z & ->). exists x, (x + y)%Z, (- z)%Z. rewrite plus_IZR, opp_IZR. vecs. apply vec_eq; ring.
  - intros x y z. pose proof (tri_recip x (y - x)%Z (- z)%Z) as H'. rewrite minus_IZR, opp_IZR in H'.
    replace (comb (IZR x) (IZR y) (IZR z) (- (q * e), 3 * e, 0) (q * e, - e, f) (q * e, e, - f)) with
      (comb (IZR x) (IZR y - IZR x) (- IZR z) (0, 2 * e, f) (q * e, - e, f) (- (q * e), - e, f)); [exact H'|]. vecs. apply vec_eq; ring.
  - unfold det3. match goal with |- ?x <> 0 => replace x with (6 * (q * (e * e) * f)) by ring end.
    assert (0 < q * (e * e) * f) by (apply Rmult_lt_0_compat; [apply Rmult_lt_0_compat; [exact Pq|nra]|exact Pf]). lra.
  - assert (0 < e * e) by nra. lra.
Qed.
End Tri.

(** the tables in the variables e = 1/(3s), f = 1/(3c) *)
Section TriTab.
Variables (ls : list vec -> list R -> vec) (q s c e f : R).
Hypothesis OK : lstsq_ok ls.
Hypothesis Hq : q * q = 3.
Hypothesis Hs : s * e * 3 = 1.
Hypothesis Hc : c * f * 3 = 1.
Hypothesis Pq : 0 < q.
Hypothesis Pe : 0 < e.
Hypothesis Pf : 0 < f.
Definition acute_tab : ktable :=
  let Z := (0, 0, 3 * f / 2) in
  let L := (q * e / 2, - e / 2, f / 2) in
  let L1 := (q * e / 2, e / 2, - f / 2) in
  let F := (q * e / 2, e / 2, f) in
  [("G", (0, 0, 0)); ("Z", Z); ("L", L); ("L1", L1); ("F", F); ("X", (q * (2 * e + f * f * / e / 2) / 3, 0, 0));
   ("P", hsp ls [Z; L]); ("P1", hsp ls [Z; F]); ("P2", hsp ls [F; L1]); ("Q", hsp ls [F; L]);
   ("B", hsp ls [Z; F; L]); ("B1", hsp ls [L1; F; L])]%string.
Definition acute_places := [("G", Center); ("Z", Face); ("L", Face); ("L1", Face); ("F", Face); ("X", Edge); ("P", Edge); ("P1", Edge); ("P2", Edge); ("Q", Edge);
  ("B", Corner); ("B1", Corner)]%string.
Lemma acute_ok : f * f <= 2 * (e * e) -> table_ok (tri_lat q s c) acute_tab acute_places.
Proof.
  intro HF. assert (SB := tri_sb_acute q s c e f Hq Hs Hc Pq Pf HF). pose proof (qe2 q e Hq) as K1.
  set (i := / e). assert (Ki : e * i = 1) by (unfold i; field; lra).
  assert (K2 : e * i * (f * f) = f * f) by (rewrite Ki; ring). assert (K3 : q * q * (e * i * (f * f)) = 3 * (f * f)) by (rewrite Hq, K2; reflexivity).
  assert (P1 : 0 < q * e) by (apply Rmult_lt_0_compat; assumption). assert (P2 : 0 < q * e * f) by (apply Rmult_lt_0_compat; assumption).
  assert (P3 : 0 < e * e) by (apply Rmult_lt_0_compat; assumption). assert (P4 : 0 < f * f) by (apply Rmult_lt_0_compat; assumption).
  assert (P5 : 0 < q * (e * e) * f) by (apply Rmult_lt_0_compat; [apply Rmult_lt_0_compat|]; assumption).
  assert (P6 : 0 < e * f) by (apply Rmult_lt_0_compat; assumption). assert (P7 : 0 < q * (e * e)) by (apply Rmult_lt_0_compat; assumption).
  assert (D1 : forall x, e * (x * i) = x) by (intro x; transitivity (e * i * x); [ring|rewrite Ki; ring]).
  (* [rho] times the unit vector, and the coefficients *)
  set (rho := e - f * f * i / 2). set (rho' := e + f * f * i / 2).
  assert (R1 : e * rho = e * e - f * f / 2) by (unfold rho; transitivity (e * e - e * i * (f * f) / 2); [field|rewrite K2; field]).
  assert (R2 : e * rho' = e * e + f * f / 2) by (unfold rho'; transitivity (e * e + e * i * (f * f) / 2); [field|rewrite K2; field]).
  assert (R3 : q * q * (e * rho) = 3 * (e * e) - 3 * (f * f) / 2) by (rewrite Hq, R1; field).
  assert (R4 : q * q * (e * rho') = 3 * (e * e) + 3 * (f * f) / 2) by (rewrite Hq, R2; field).
  set (k := rho * i). assert (Kk : e * k = rho) by (apply D1). set (k' := rho' * i). assert (Kk' : e * k' = rho') by (apply D1).
  assert (EP : hsp ls [(0, 0, 3 * f / 2); (q * e / 2, - e / 2, f / 2)] = (q * rho / 2, - rho / 2, 3 * f / 2)).
  { apply (hsp2_is ls _ _ (1 - k / 3) k); [exact OK|intro E; injection E; lra|vecs; apply vec_eq|vecs; lra|vecs; lra].
    - rewrite <- Kk. field.
    - rewrite <- Kk. field.
    - field. }
  assert (EP1 : hsp ls [(0, 0, 3 * f / 2); (q * e / 2, e / 2, f)] = (q * rho / 2, rho / 2, 3 * f / 2)).
  { apply (hsp2_is ls _ _ (1 - 2 * k / 3) k); [exact OK|intro E; injection E; lra|vecs; apply vec_eq|vecs; lra|vecs; lra].
    - rewrite <- Kk. field.
    - rewrite <- Kk. field.
    - field. }
  assert (EP2 : hsp ls [(q * e / 2, e / 2, f); (q * e / 2, e / 2, - f / 2)] = (q * rho' / 2, rho' / 2, f / 2)).
  { apply (hsp2_is ls _ _ ((1 + k') / 3) (k' - (1 + k') / 3)); [exact OK|intro E; injection E; lra|vecs; apply vec_eq|vecs; lra|vecs; lra].
    - rewrite <- Kk'. field.
    - rewrite <- Kk'. field.
    - field. }
  set (m := f * f * i). assert (M1 : e * m = f * f) by apply D1. set (n := m * i). assert (N1 : e * n = m) by apply D1.
  assert (M2 : q * q * (e * m) = 3 * (f * f)) by (rewrite Hq, M1; ring).
  assert (NF : e * (n * f) = m * f) by (rewrite <- N1; ring).
  assert (EQ : hsp ls [(q * e / 2, e / 2, f); (q * e / 2, - e / 2, f / 2)] = (q * (2 / 3 * e - m / 12), m / 4, f)).
  { apply (hsp2_is ls _ _ (2 / 3 + n / 6) (2 / 3 - n / 3)); [exact OK|intro E; injection E; lra|vecs; apply vec_eq|vecs; lra|vecs; lra].
    - rewrite <- N1. field.
    - rewrite <- N1. field.
    - field. }
  assert (EB : hsp ls [(0, 0, 3 * f / 2); (q * e / 2, e / 2, f); (q * e / 2, - e / 2, f / 2)] = (q * (2 * e - m) / 3, 0, 3 * f / 2)).
  { apply hsp3_is; [exact OK|unfold det3; lra|vecs; lra|vecs; lra|vecs; lra]. }
  assert (EB1 : hsp ls [(q * e / 2, e / 2, - f / 2); (q * e / 2, e / 2, f); (q * e / 2, - e / 2, f / 2)] = (q * (2 * e + m / 2) / 3, m / 2, f / 2)).
  { apply hsp3_is; [exact OK|unfold det3; lra|vecs; lra|vecs; lra|vecs; lra]. }
  unfold acute_tab. cbv zeta. rewrite EP, EP1, EP2, EQ, EB, EB1. fold i. fold m. clear EP EP1 EP2 EQ EB EB1. clearbody k k' rho rho' n m i.
  split; [reflexivity|]. points; [ctr|fc SB ((1, 1, 1), (1, 0, 0), (0, 1, 0))%Z|fc SB ((0, 1, 0), (1, 0, 0), (0, 0, 1))%Z|fc SB ((0, 0, -1), (1, 0, 0), (0, 1, 0))%Z
    |fc SB ((1, 1, 0), (1, 0, 0), (0, 0, 1))%Z|ed SB ((0, 0, -1), (0, 1, 0), (1, 0, 0))%Z|ed SB ((0, 1, 0), (1, 1, 1), (1, 0, 0))%Z|ed SB ((1, 1, 0), (1, 1, 1), (1, 0, 0))%Z
    |ed SB ((0, 0, -1), (1, 1, 0), (1, 0, 0))%Z|ed SB ((0, 1, 0), (1, 1, 0), (0, 0, 1))%Z|co SB ((0, 1, 0), (1, 1, 0), (1, 1, 1))%Z|co SB ((0, 0, -1), (0, 1, 0), (1, 1, 0))%Z].
Qed.

Definition obtuse_tab : ktable :=
  [("G", (0, 0, 0)); ("X", (q * e, 0, 0)); ("F", (q * e / 2, 3 * e / 2, 0)); ("F1", (- (q * e) / 2, 3 * e / 2, 0));
   ("L", (0, e, f / 2)); ("Z", (q * e, e, f / 2)); ("Q", (0, 0, 2 * (e * e) * / f + f / 2));
   ("Q1", (0, 2 * e, f / 2 - 2 * (e * e) * / f)); ("P1", (0, 2 * e, - (e * e * / f))); ("P", (q * e, e, e * e * / f))]%string.
Definition obtuse_places := [("G", Center); ("X", Face); ("F", Face); ("F1", Face); ("L", Face); ("Z", Corner); ("Q", Corner); ("Q1", Corner); ("P1", Middle); ("P", Middle)]%string.
Lemma obtuse_ok : 2 * (e * e) <= f * f -> table_ok (tri_lat q s c) obtuse_tab obtuse_places.
Proof.
  intro HF. assert (SB := tri_sb_obtuse q s c e f Hq Hs Hc Pq Pe Pf HF). pose proof (qe2 q e Hq) as K1.
  unfold obtuse_tab. set (i := / f). set (m := e * e * i).
  assert (M1 : f * m = e * e) by (unfold m, i; field; lra). assert (P3 : 0 < e * e) by (apply Rmult_lt_0_compat; assumption).
  replace (2 * (e * e) * i) with (2 * m) by (unfold m; ring). clearbody m.
  split; [reflexivity|]. points; [ctr|fc SB ((0, 1, 1), (1, 0, 0), (0, 1, 0))%Z|fc SB ((1, 1, 1), (1, 0, 0), (0, 1, 0))%Z|fc SB ((1, 0, 0), (0, 1, 0), (0, 0, 1))%Z
    |fc SB ((1, 1, 0), (1, 0, 0), (0, 0, 1))%Z|co SB ((1, 1, 1), (1, 1, 0), (0, 1, 0))%Z|co SB ((0, 0, -1), (1, 1, 0), (0, 1, 0))%Z|co SB ((1, 0, 0), (1, 1, 1), (1, 1, 0))%Z
    |mi SB (0, 2 * e, f / 2 - 2 * m) (0, 2 * e, - f / 2) ((1, 0, 0), (1, 1, 1), (1, 1, 0))%Z ((1, 0, 0), (1, 1, 1), (0, 0, 1))%Z
    |mi SB (q * e, e, f / 2) (q * e, e, 2 * m - f / 2) ((1, 1, 1), (0, 1, 1), (0, 1, 0))%Z ((1, 1, 1), (0, 1, 1), (0, 0, 1))%Z].
Qed.
End TriTab.

Lemma kt_eq : forall (k : string) (v v' : vec) (l l' : ktable), v = v' -> l = l' -> (k, v) :: l = (k, v') :: l'.
Proof. intros; subst; reflexivity. Qed.
Lemma cons_eq : forall (v v' : vec) l l', v = v' -> l = l' -> v :: l = v' :: l'.
Proof. intros; subst; reflexivity. Qed.
Ltac tab := repeat (apply kt_eq; [first [apply vec_eq; lra | apply f_equal; repeat (apply cons_eq; [apply vec_eq; lra|]); reflexivity]|]); reflexivity.

(** C138: trigonal_points(alpha) for the lattice rhombohedral(1, alpha) of qespresso_interface (its reciprocal lattice, without 2 pi);
    with mirror_x the x and y axes are exchanged *)
Definition tri_places (alpha : R) : list (string * place) := if Rlt_dec alpha (PI / 2) then acute_places else obtuse_places.
Theorem C138_trigonal : forall ls alpha mirror_x, lstsq_ok ls -> 0 < alpha < 2 * PI / 3 ->
  exists A t, rhombohedral 1 alpha = Some A /\ trigonal_points ls alpha mirror_x = Some t /\
    table_ok (if mirror_x then swap_lat A else A) t (tri_places alpha).
Proof.
  intros ls alpha mx OK HA. pose proof PI_RGT_0 as HPI.
  set (x := cos alpha).
  assert (X1 : - 1 / 2 < x). { unfold x. replace (- 1 / 2) with (cos (2 * (PI / 3))) by (rewrite cos_2PI3; lra). apply cos_decreasing_1; lra. }
  assert (X2 : x < 1). { unfold x. rewrite <- cos_0. apply cos_decreasing_1; lra. }
  set (q := sqrt 3). assert (Pq : 0 < q) by (apply sqrt_lt_R0; lra). assert (Hq : q * q = 3) by (apply sqrt_sqrt; lra).
  assert (Iq : / q = q * / 3) by (apply (Rmult_eq_reg_l q); [rewrite Rinv_r by lra; rewrite <- Rmult_assoc, Hq; lra|lra]).
  set (c := sqrt ((1 + 2 * x) / 3)). assert (Pc : 0 < c) by (apply sqrt_lt_R0; lra). assert (Hcc : c * c = (1 + 2 * x) / 3) by (apply sqrt_sqrt; lra).
  set (s := sqrt (4 / 3) * sin (alpha / 2)).
  assert (Psn : 0 < sin (alpha / 2)) by (apply sin_gt_0; lra).
  assert (Ps : 0 < s) by (apply Rmult_lt_0_compat; [apply sqrt_lt_R0; lra|exact Psn]).
  assert (Hss : s * s = (2 - 2 * x) / 3).
  { unfold s. transitivity (sqrt (4 / 3) * sqrt (4 / 3) * (sin (alpha / 2) * sin (alpha / 2))); [ring|]. rewrite sqrt_sqrt by lra.
    assert (x = 1 - 2 * sin (alpha / 2) * sin (alpha / 2)); [|lra]. unfold x. replace alpha with (2 * (alpha / 2)) at 1 by field. apply cos_2a_sin. }
  set (e := / (3 * s)). set (f := / (3 * c)). assert (Pe : 0 < e) by (apply Rinv_0_lt_compat; lra). assert (Pf : 0 < f) by (apply Rinv_0_lt_compat; lra).
  assert (Hs : s * e * 3 = 1) by (unfold e; field; lra). assert (Hc : c * f * 3 = 1) by (unfold f; field; lra).
  assert (Is : / s = 3 * e) by (unfold e; field; lra). assert (Ic : / c = 3 * f) by (unfold f; field; lra).
  assert (Es : s = / (3 * e)) by (unfold e; field; lra). assert (Ec : c = / (3 * f)) by (unfold f; field; lra).
  assert (E2 : 3 * (e * e) * (2 - 2 * x) = 1). { transitivity (s * e * 3 * (s * e * 3)); [|rewrite Hs; ring]. transitivity (9 * (e * e) * (s * s)); [rewrite Hss; field|ring]. }
  assert (F2 : 3 * (f * f) * (1 + 2 * x) = 1). { transitivity (c * f * 3 * (c * f * 3)); [|rewrite Hc; ring]. transitivity (9 * (f * f) * (c * c)); [rewrite Hcc; field|ring]. }
  exists (swap_lat (tri_lat q s c)).
  assert (ER : rhombohedral 1 alpha = Some (swap_lat (tri_lat q s c))).
  { unfold rhombohedral, posb, NbrModel.Rltb. destruct (Rlt_dec 0 1) as [_|N]; [|lra]. destruct (Rlt_dec 0 alpha) as [_|N]; [|lra]. destruct (Rlt_dec alpha (2 * PI / 3)) as [_|N]; [|lra].
    cbn [andb]. cbv zeta. fold x. fold q.
    replace (sqrt (2 / 3 - 2 / 3 * x)) with s by (symmetry; apply sqrt_lem_1; lra).
    replace (sqrt (1 - (2 / 3 - 2 / 3 * x))) with c by (unfold c; f_equal; lra).
    unfold swap_lat, tri_lat, swap_xy. f_equal. f_equal; [f_equal|]; apply vec_eq; lra. }
  assert (G : exists t, trigonal_points ls alpha true = Some t /\ table_ok (tri_lat q s c) t (tri_places alpha)).
  { unfold trigonal_points, tri_places. fold x. fold c. fold s. fold q. cbv zeta.
    destruct (Rlt_dec alpha (90 / 180 * PI)) as [L|L].
    - destruct (Rlt_dec alpha (PI / 2)) as [_|N]; [|lra]. assert (X0 : 0 < x) by (unfold x; apply cos_gt_0; lra).
      assert (HF : f * f <= 2 * (e * e)). { assert (0 < e * e) by nra. assert (0 < f * f) by nra. nra. }
      exists (acute_tab ls q e f). split; [|exact (acute_ok ls q s c e f OK Hq Hs Hc Pq Pe Pf HF)]. f_equal.
      assert (EX : (1 / 9 / s ^ 2 + 1 / 36 / c ^ 2) / (1 / q / s / 2) = q * (2 * e + f * f * / e / 2) / 3) by (rewrite Es, Ec; field; lra).
      rewrite EX. unfold acute_tab. cbv zeta. clear - Iq Is Ic. generalize (/ e) as i. intro i. unfold Rdiv. rewrite Iq, Is, Ic. tab.
    - destruct (Rlt_dec alpha (PI / 2)) as [N|_]; [lra|]. destruct (Rlt_dec alpha (120 / 180 * PI)) as [_|N]; [|lra].
      assert (X0 : x <= 0). { unfold x. rewrite <- cos_PI2. destruct (Req_dec alpha (PI / 2)) as [->|N]; [lra|]. left. apply cos_decreasing_1; lra. }
      assert (HF : 2 * (e * e) <= f * f). { assert (0 < e * e) by nra. assert (0 < f * f) by nra. nra. }
      exists (obtuse_tab q e f). split; [|exact (obtuse_ok q s c e f Hq Hs Hc Pq Pe Pf HF)]. f_equal.
      assert (EX : ((1 / s / 3) ^ 2 + (1 / c / 6) ^ 2) / (1 / c / 6) = 2 * (e * e) * / f + f / 2) by (rewrite Es, Ec; field; lra).
      rewrite EX. unfold obtuse_tab. clear - Iq Is Ic. generalize (/ f) as i. intro i. unfold Rdiv. rewrite Iq, Is, Ic. tab. }
  destruct G as (t & ET & HT). destruct mx.
  - exists t. split; [exact ER|]. split; [exact ET|]. rewrite swap_lat_lat. exact HT.
  - exists (map (fun kv => (fst kv, swap_xy (snd kv))) t). split; [exact ER|]. split.
    + unfold trigonal_points in *. cbv zeta in *. rewrite ET. reflexivity.
    + apply table_swap. rewrite swap_lat_lat. exact HT.
Qed.
Print Assumptions C138_trigonal.
(** 60 degrees: the face centered cubic lattice standing on its body diagonal; X is the point called K in the cubic table *)
Example C138_ex : exists A t, rhombohedral 1 (PI / 3) = Some A /\ trigonal_points cramer (PI / 3) false = Some t /\
  kget t "X" = Some (0, 3 / 4, 0) /\ at_place A Edge (0, 3 / 4, 0).
Proof.
  pose proof PI_RGT_0 as HPI. destruct (C138_trigonal cramer (PI / 3) false cramer_ok) as (A & t & EA & ET & _ & H); [lra|].
  exists A, t. split; [exact EA|]. split; [exact ET|]. destruct (H "X"%string Edge) as (p & E & Hp); [unfold tri_places; destruct (Rlt_dec (PI / 3) (PI / 2)); [cbn; tauto|lra]|].
  assert (EP : p = (0, 3 / 4, 0)); [|subst p; split; assumption].
  revert ET E. unfold trigonal_points. cbv zeta. destruct (Rlt_dec (PI / 3) (90 / 180 * PI)) as [_|N]; [|lra]. cbn [option_map map fst snd]. intro ET. injection ET as <-.
  cbn [kget String.eqb Ascii.eqb Bool.eqb]. unfold swap_xy. intro E. injection E as <-. apply vec_eq; try reflexivity.
  rewrite cos_PI3. replace (PI / 3 / 2) with (PI / 6) by field. rewrite sin_PI6.
  set (q := sqrt 3). set (k := sqrt (4 / 3)). set (c := sqrt ((1 + 2 * (1 / 2)) / 3)).
  assert (Pq : 0 < q) by (apply sqrt_lt_R0; lra). assert (Hq : q * q = 3) by (apply sqrt_sqrt; lra).
  assert (Hk : k * k = 4 / 3) by (apply sqrt_sqrt; lra). assert (Pk : 0 < k) by (apply sqrt_lt_R0; lra).
  assert (Pc : 0 < c) by (apply sqrt_lt_R0; lra). assert (Hc : c * c = 2 / 3) by (unfold c; rewrite sqrt_sqrt by lra; lra).
  assert (Hqk : q * k = 2) by (apply (Rsqr_inj (q * k) 2); [apply Rmult_le_pos; lra|lra|unfold Rsqr; replace (q * k * (q * k)) with (q * q * (k * k)) by ring; rewrite Hq, Hk; lra]).
  replace (k * (1 / 2) * (k * (1 / 2) * 1)) with (k * k / 4) by field. rewrite Hk.
  replace (c * (c * 1)) with (c * c) by ring. rewrite Hc.
  replace (1 / q / (k * (1 / 2)) / 2) with (/ (q * k)) by (field; lra). rewrite Hqk. field.
Qed.

(** ** Hexagonal lattices *)
Lemma hex_sb : forall q a c r h, q * q = 3 -> 0 < q -> a * r = 1 -> c * h = 1 -> 0 < r -> 0 < h ->
  superbase ((a, 0, 0), (- (1 / 2) * a, q / 2 * a, 0), (0, 0, c)) (r, q * r / 3, 0) (0, - 2 * q * r / 3, 0) (0, 0, h)
    (4 / 3 * (r * r)) (4 / 3 * (r * r)) (h * h) (- (2 / 3) * (r * r)) 0 0.
Proof.
  intros q a c r h Hq Pq Ha Hc Pr Ph. assert (K : q * r * (q * r) = 3 * (r * r)) by (replace (q * r * (q * r)) with (q * q * (r * r)) by ring; rewrite Hq; ring).
  assert (K2 : q * q * (a * r) = 3) by (rewrite Hq, Ha; ring).
  split; try (vecs; lra).
  - intros [[g1 g2] g3] ([x Hx] & [y Hy] & [z Hz]). exists x, (- y)%Z, z. rewrite opp_IZR. vecs. rewrite <- Hx, <- Hy, <- Hz. apply vec_eq.
    + transitivity (a * r * g1); [rewrite Ha; ring|ring].
    + transitivity (q * q * (a * r) * g2 / 3); [rewrite K2; field|field].
    + transitivity (c * h * g3); [rewrite Hc; ring|ring].
  - intros x y z. unfold recip. split; [exists x|split; [exists (- y)%Z|exists z]]; rewrite ?opp_IZR; vecs.
    + transitivity (a * r * IZR x); [ring|rewrite Ha; ring].
    + transitivity (q * q * (a * r) * (IZR x / 6 - IZR y / 3) - a * r * (IZR x / 2)); [field|rewrite K2, Ha; field].
    + transitivity (c * h * IZR z); [ring|rewrite Hc; ring].
  - unfold det3. match goal with |- ?x <> 0 => replace x with (- (2 / 3) * (q * (r * r) * h)) by field end.
    assert (0 < q * (r * r) * h) by (apply Rmult_lt_0_compat; [apply Rmult_lt_0_compat; [exact Pq|nra]|exact Ph]). lra.
  - assert (0 < r * r) by nra. assert (0 < h * h) by nra. lra.
Qed.
Definition hex_places := [("G", Center); ("A", Face); ("K", Edge); ("H", Corner); ("M", Face); ("L", Edge)]%string.
(** C139: the table belongs to the lattice hexagonal(a, c) of qespresso_interface if r = 1/a, h = 1/c *)
Theorem C139_hexagonal : forall a c, 0 < a -> 0 < c -> table_ok (hexagonal a c) (hexagonal_points (1 / a) (1 / c)) hex_places.
Proof.
  intros a c Pa Pc. set (q := sqrt 3). assert (Pq : 0 < q) by (apply sqrt_lt_R0; lra). assert (Hq : q * q = 3) by (apply sqrt_sqrt; lra).
  set (r := 1 / a). set (h := 1 / c). assert (Har : a * r = 1) by (unfold r; field; lra). assert (Hch : c * h = 1) by (unfold h; field; lra).
  assert (Pr : 0 < r) by (unfold r; apply Rdiv_lt_0_compat; lra). assert (Ph : 0 < h) by (unfold h; apply Rdiv_lt_0_compat; lra).
  assert (SB := hex_sb q a c r h Hq Pq Har Hch Pr Ph).
  replace (hexagonal a c) with ((a, 0, 0), (- (1 / 2) * a, q / 2 * a, 0), (0, 0, c)) by (unfold hexagonal, lscale, vscale; fold q; f_equal; [f_equal|]; apply vec_eq; try lra; field; lra).
  unfold hexagonal_points. fold q. replace (1 / 2 / q) with (q / 6) by (apply (Rmult_eq_reg_r q); [|lra]; replace (q / 6 * q) with (q * q / 6) by field; rewrite Hq; field; lra).
  clearbody r h. assert (0 < r * r) by nra. assert (0 < h * h) by nra.
  assert (K : q * r * (q * r) = 3 * (r * r)) by (replace (q * r * (q * r)) with (q * q * (r * r)) by ring; rewrite Hq; ring).
  split; [reflexivity|]. points; [ctr|fc SB ((0, 0, 1), (1, 0, 0), (0, 1, 0))%Z|ed SB ((1, 0, 0), (1, 1, 0), (0, 0, 1))%Z|co SB ((1, 0, 0), (1, 1, 0), (0, 0, 1))%Z
    |fc SB ((1, 0, 0), (0, 1, 0), (0, 0, 1))%Z|ed SB ((1, 0, 0), (0, 0, 1), (0, 1, 0))%Z].
Qed.
Print Assumptions C139_hexagonal.
(** the documented meaning of r: the distance of neighboring points of the reciprocal lattice in the plane of the hexagon *)
Definition in_plane (g : vec) : Prop := let '(_, _, z) := g in z = 0.
Definition neighbor_distance (A : lattice) (r : R) : Prop := 0 < r /\
  (exists g, recip A g /\ in_plane g /\ nsq g = r * r) /\ forall g, recip A g -> in_plane g -> g <> (0, 0, 0) -> r * r <= nsq g.
Definition nxy (p : vec) : R := let '(x, y, _) := p in x * x + y * y.
(** with it the point K lies outside of the zone, whatever the orientation of the lattice: it is too far from the axis *)
Theorem C139_documented_refuted : forall a c r h, 0 < a -> 0 < c -> neighbor_distance (hexagonal a c) r ->
  (forall p, in_bz (hexagonal a c) p -> nxy p <= r * r / 3) /\
  exists K, kget (hexagonal_points r h) "K" = Some K /\ r * r / 3 < nxy K.
Proof.
  intros a c r h Pa Pc (Pr & (g0 & R0 & Z0 & N0) & Hmin). set (q := sqrt 3) in *. assert (Pq : 0 < q) by (apply sqrt_lt_R0; lra). assert (Hq : q * q = 3) by (apply sqrt_sqrt; lra).
  set (e := 1 / a). set (h' := 1 / c). assert (Har : a * e = 1) by (unfold e; field; lra). assert (Hch : c * h' = 1) by (unfold h'; field; lra).
  assert (Pe : 0 < e) by (unfold e; apply Rdiv_lt_0_compat; lra). assert (Ph : 0 < h') by (unfold h'; apply Rdiv_lt_0_compat; lra).
  assert (SB := hex_sb q a c e h' Hq Pq Har Hch Pe Ph).
  assert (EA : hexagonal a c = ((a, 0, 0), (- (1 / 2) * a, q / 2 * a, 0), (0, 0, c))) by (unfold hexagonal, lscale, vscale; fold q; f_equal; [f_equal|]; apply vec_eq; try lra; field; lra).
  rewrite EA in *. clearbody e h'. assert (E2 : 0 < e * e) by nra.
  assert (K : q * e * (q * e) = 3 * (e * e)) by (replace (q * e * (q * e)) with (q * q * (e * e)) by ring; rewrite Hq; ring).
  assert (RU : forall x y : Z, recip ((a, 0, 0), (- (1 / 2) * a, q / 2 * a, 0), (0, 0, c)) (comb (IZR x) (IZR y) 0 (e, q * e / 3, 0) (0, - 2 * q * e / 3, 0) (0, 0, h')))
    by (intros x y; exact (sb_recip _ _ _ _ _ _ _ _ _ _ SB x y 0%Z)).
  assert (ER : r * r = 4 / 3 * (e * e)).
  { apply Rle_antisym.
    - pose proof (Hmin _ (RU 1%Z 0%Z)) as H. vecs. unfold in_plane in H. eapply Rle_trans; [apply H; [lra|intro E; injection E; lra]|lra].
    - rewrite <- N0. destruct (sb_spans _ _ _ _ _ _ _ _ _ _ SB g0 R0) as (x & y & z & ->).
      assert (z = 0%Z). { unfold in_plane in Z0. vecs. apply eq_IZR. nra. } subst z.
      rewrite (nsq_comb _ _ _ _ _ _ _ _ _ _ SB) in N0 |- *. unfold qf in *.
      assert (NZ : (1 <= x * x - x * y + y * y)%Z).
      { assert (D : (x = 0 /\ y = 0 \/ 1 <= x * x - x * y + y * y)%Z); [|destruct D as [[-> ->]|D]; [exfalso; assert (r * r > 0) by nra; lra|exact D]].
        destruct (Z.eq_dec x 0) as [->|Nx]; [destruct (Z.eq_dec y 0) as [->|Ny]; [left; lia|right; nia]|right].
        assert (0 <= (2 * y - x) * (2 * y - x))%Z by apply Z.square_nonneg. assert (1 <= x * x)%Z by nia. nia. }
      apply IZR_le in NZ. rewrite plus_IZR, minus_IZR, !mult_IZR in NZ.
      assert (e * e * 1 <= e * e * (IZR x * IZR x - IZR x * IZR y + IZR y * IZR y)) by (apply Rmult_le_compat_l; lra). lra. }
  split.
  - intros [[x y] z] HB. unfold nxy.
    assert (SL : forall i j : Z, 2 * (x * (IZR i * e) + y * (IZR i * (q * e / 3) - IZR j * (2 * q * e / 3))) <= 4 / 3 * (e * e) * (IZR i * IZR i - IZR i * IZR j + IZR j * IZR j)).
    { intros i j. pose proof (HB _ (RU i j)) as H. vecs.
      assert (KI : q * e * (q * e) * ((IZR i - 2 * IZR j) * (IZR i - 2 * IZR j)) = 3 * (e * e) * ((IZR i - 2 * IZR j) * (IZR i - 2 * IZR j))) by (rewrite K; ring). lra. }
    assert (QE : 0 < q * e) by (apply Rmult_lt_0_compat; assumption).
    set (t := q * y / 3). assert (T2 : y * y = 3 * (t * t)) by (unfold t; replace (q * y / 3 * (q * y / 3)) with (q * q * (y * y) / 9) by field; rewrite Hq; field).
    pose proof (SL 1%Z 0%Z) as S1. pose proof (SL (-1)%Z 0%Z) as S2. pose proof (SL 1%Z 1%Z) as S3. pose proof (SL (-1)%Z (-1)%Z) as S4. pose proof (SL 0%Z 1%Z) as S5. pose proof (SL 0%Z (-1)%Z) as S6.
    assert (Y : q * y = 3 * t) by (unfold t; field).
    assert (U1 : x + t <= 2 / 3 * e) by (apply (Rmult_le_reg_l e); [exact Pe|]; replace (e * (x + t)) with (e * x + e * (q * y) / 3) by (rewrite Y; field); lra).
    assert (U2 : - (x + t) <= 2 / 3 * e) by (apply (Rmult_le_reg_l e); [exact Pe|]; replace (e * - (x + t)) with (- (e * x) - e * (q * y) / 3) by (rewrite Y; field); lra).
    assert (U3 : x - t <= 2 / 3 * e) by (apply (Rmult_le_reg_l e); [exact Pe|]; replace (e * (x - t)) with (e * x - e * (q * y) / 3) by (rewrite Y; field); lra).
    assert (U4 : - (x - t) <= 2 / 3 * e) by (apply (Rmult_le_reg_l e); [exact Pe|]; replace (e * - (x - t)) with (- (e * x) + e * (q * y) / 3) by (rewrite Y; field); lra).
    assert (U5 : t <= e / 3) by (apply (Rmult_le_reg_l e); [exact Pe|]; replace (e * t) with (e * (q * y) / 3) by (rewrite Y; field); lra).
    assert (U6 : - t <= e / 3) by (apply (Rmult_le_reg_l e); [exact Pe|]; replace (e * - t) with (- e * (q * y) / 3) by (rewrite Y; field); lra).
    rewrite T2, ER. clear - U1 U2 U3 U4 U5 U6 Pe.
    assert (V : forall w, 0 <= w -> w <= e / 3 -> x <= 2 / 3 * e - w -> - x <= 2 / 3 * e - w -> x * x + 3 * (w * w) <= 4 / 3 * (e * e) / 3).
    { intros w W0 W1 W2 W3. assert (x * x <= (2 / 3 * e - w) * (2 / 3 * e - w)) by nra. nra. }
    destruct (Rle_dec 0 t) as [T|T].
    + apply V; lra.
    + replace (t * t) with (- t * - t) by ring. apply V; lra.
  - eexists. split; [reflexivity|]. unfold nxy. replace (r / (3 / 2)) with (2 / 3 * r) by field. assert (0 < r * r) by nra. lra.
Qed.
Print Assumptions C139_documented_refuted.
(** the hypothesis can be met: for a = 2/sqrt 3 the distance is 1 *)
Example C139_ex : exists a c, 0 < a /\ 0 < c /\ neighbor_distance (hexagonal a c) 1 /\ at_place (hexagonal a c) Edge (sqrt 3 / 3, 0, 0).
Proof.
  set (q := sqrt 3). assert (Pq : 0 < q) by (apply sqrt_lt_R0; lra). assert (Hq : q * q = 3) by (apply sqrt_sqrt; lra).
  exists (2 * q / 3), 1. assert (Pa : 0 < 2 * q / 3) by lra. split; [exact Pa|]. split; [lra|].
  assert (E1 : 1 / (2 * q / 3) = q / 2) by (apply (Rmult_eq_reg_r (2 * q / 3)); [|lra]; replace (q / 2 * (2 * q / 3)) with (q * q / 3) by field; rewrite Hq; field; lra).
  assert (SB := hex_sb q (2 * q / 3) 1 (q / 2) 1 Hq Pq).
  assert (EA : hexagonal (2 * q / 3) 1 = ((2 * q / 3, 0, 0), (- (1 / 2) * (2 * q / 3), q / 2 * (2 * q / 3), 0), (0, 0, 1)))
    by (unfold hexagonal, lscale, vscale; fold q; f_equal; [f_equal|]; apply vec_eq; try lra; field; lra).
  rewrite <- EA in SB. specialize (SB ltac:(replace (2 * q / 3 * (q / 2)) with (q * q / 3) by field; rewrite Hq; field) ltac:(lra) ltac:(lra) ltac:(lra)).
  assert (QQ : q / 2 * (q / 2) = 3 / 4) by (replace (q / 2 * (q / 2)) with (q * q / 4) by field; rewrite Hq; reflexivity).
  split.
  - split; [lra|]. split.
    + exists (comb (IZR 1) (IZR 0) (IZR 0) (q / 2, q * (q / 2) / 3, 0) (0, - 2 * q * (q / 2) / 3, 0) (0, 0, 1)). split; [apply (sb_recip _ _ _ _ _ _ _ _ _ _ SB)|].
      split; [unfold comb, in_plane; lra|]. rewrite (nsq_comb _ _ _ _ _ _ _ _ _ _ SB). unfold qf. rewrite QQ. lra.
    + intros g Hg Hz Hn. destruct (sb_spans _ _ _ _ _ _ _ _ _ _ SB g Hg) as (x & y & z & ->).
      assert (z = 0%Z). { unfold in_plane in Hz. vecs. apply eq_IZR. lra. } subst z.
      assert (NZ : (1 <= x * x - x * y + y * y)%Z).
      { assert (D : (x = 0 /\ y = 0 \/ 1 <= x * x - x * y + y * y)%Z).
        - destruct (Z.eq_dec x 0) as [->|Nx]; [destruct (Z.eq_dec y 0) as [->|Ny]; [left; lia|right; nia]|right].
          assert (0 <= (2 * y - x) * (2 * y - x))%Z by apply Z.square_nonneg. assert (1 <= x * x)%Z by nia. nia.
        - destruct D as [[-> ->]|D]; [exfalso; apply Hn; vecs; apply vec_eq; ring|exact D]. }
      apply IZR_le in NZ. rewrite plus_IZR, minus_IZR, !mult_IZR in NZ. rewrite (nsq_comb _ _ _ _ _ _ _ _ _ _ SB). unfold qf. rewrite QQ. lra.
  - destruct (C139_hexagonal (2 * q / 3) 1 Pa Rlt_0_1) as [_ H]. destruct (H "K"%string Edge) as (p & E & Hp); [cbn; tauto|].
    injection E as <-. rewrite E1 in Hp. replace (q / 2 / (3 / 2)) with (q / 3) in Hp by field. exact Hp.
Qed.

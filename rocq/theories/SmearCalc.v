(** Calculus of truncated powers, and volumes of half spaces in boxes and simplices as iterated integrals. *)
From Coq Require Import Reals Lra Lia Psatz List.
From Coquelicot Require Import Coquelicot.
From Verif Require Import NbrModel SmearModel.
Local Open Scope R_scope.

Lemma pos_nonneg : forall x, 0 <= pos x.
Proof. intros; unfold pos; apply Rmax_l. Qed.
Lemma pos_pos : forall x, 0 <= x -> pos x = x.
Proof. intros; unfold pos; apply Rmax_right; auto. Qed.
Lemma pos_neg : forall x, x <= 0 -> pos x = 0.
Proof. intros; unfold pos; apply Rmax_left; auto. Qed.
Lemma pos_ge : forall x, x <= pos x.
Proof. intros; unfold pos; apply Rmax_r. Qed.
Lemma pos_mono : forall x y, x <= y -> pos x <= pos y.
Proof. intros; unfold pos; apply Rle_max_compat_l; auto. Qed.
Lemma pos_case : forall x, (0 <= x /\ pos x = x) \/ (x <= 0 /\ pos x = 0).
Proof.
  intros x; destruct (Rle_dec 0 x); [left|right].
  - split; auto using pos_pos.
  - split; [lra|apply pos_neg; lra].
Qed.
Lemma pos_scale : forall c x, 0 <= c -> pos (c * x) = c * pos x.
Proof.
  intros c x Hc; destruct (pos_case x) as [[H ->]|[H ->]].
  - apply pos_pos; nra.
  - rewrite Rmult_0_r; apply pos_neg; nra.
Qed.
Lemma pos_lip : forall x y, Rabs (pos x - pos y) <= Rabs (x - y).
Proof.
  intros; destruct (pos_case x) as [[H ->]|[H ->]], (pos_case y) as [[H' ->]|[H' ->]];
  unfold Rabs; repeat destruct Rcase_abs; lra.
Qed.
Lemma pos_cont : forall x, continuous pos x.
Proof.
  intros x; apply continuity_pt_filterlim; intros eps Heps; exists eps; split; auto.
  intros y [_ Hy]; simpl in *; unfold R_dist in *.
  eapply Rle_lt_trans; [apply pos_lip|auto].
Qed.

Lemma pos2_derive : forall x, is_derive (fun x => pos x ^ 2) x (2 * pos x).
Proof.
  intros x; apply is_derive_Reals; intros eps Heps.
  exists (mkposreal eps Heps); simpl; intros h Hh Hlt.
  replace ((pos (x + h) * (pos (x + h) * 1) - pos x * (pos x * 1)) / h - 2 * pos x)
    with ((pos (x + h) ^ 2 - pos x ^ 2 - 2 * h * pos x) / h) by (field; auto).
  unfold Rdiv; rewrite Rabs_mult, Rabs_inv.
  assert (Ha : 0 < Rabs h) by (apply Rabs_pos_lt; auto).
  apply Rle_lt_trans with (Rabs h); auto.
  apply Rmult_le_reg_r with (Rabs h); auto.
  rewrite Rmult_assoc, Rinv_l by lra.
  assert (Hq : Rabs (pos (x + h) ^ 2 - pos x ^ 2 - 2 * h * pos x) <= h ^ 2).
  { destruct (pos_case (x + h)) as [[H ->]|[H ->]], (pos_case x) as [[H' ->]|[H' ->]];
    apply Rabs_le; split; nra. }
  rewrite Rmult_1_r. replace (Rabs h * Rabs h) with (h ^ 2); auto.
  rewrite <- Rabs_mult, Rabs_right; nra.
Qed.
Lemma pos3_derive : forall x, is_derive (fun x => pos x ^ 3) x (3 * pos x ^ 2).
Proof.
  intros x.
  apply is_derive_ext with (fun x => x * pos x ^ 2).
  - intros t; change (t * pos t ^ 2 = pos t ^ 3 :> R); destruct (pos_case t) as [[H ->]|[H ->]]; ring.
  - replace (3 * pos x ^ 2) with (1 * pos x ^ 2 + x * (2 * pos x)).
    + apply (is_derive_mult (K:=R_AbsRing) (fun x => x) (fun x => pos x ^ 2) x 1 (2 * pos x)).
      * exact (is_derive_id (K:=R_AbsRing) x).
      * apply pos2_derive.
      * intros; apply Rmult_comm.
    + destruct (pos_case x) as [[H ->]|[H ->]]; ring.
Qed.

(** affine changes of variable *)
Lemma pos2_affine : forall u b y, is_derive (fun y => pos (u + b * y) ^ 2) y (2 * b * pos (u + b * y)).
Proof.
  intros u b y.
  replace (2 * b * pos (u + b * y)) with (b * (2 * pos (u + b * y))) by ring.
  apply (is_derive_comp (fun x => pos x ^ 2) (fun y => u + b * y)).
  - apply pos2_derive.
  - auto_derive; auto; ring.
Qed.
Lemma pos3_affine : forall u b y, is_derive (fun y => pos (u + b * y) ^ 3) y (3 * b * pos (u + b * y) ^ 2).
Proof.
  intros u b y.
  replace (3 * b * pos (u + b * y) ^ 2) with (b * (3 * pos (u + b * y) ^ 2)) by ring.
  apply (is_derive_comp (fun x => pos x ^ 3) (fun y => u + b * y)).
  - apply pos3_derive.
  - auto_derive; auto; ring.
Qed.
Lemma pos_affine_cont : forall u b y, continuous (fun y => pos (u + b * y)) y.
Proof.
  intros; apply (continuous_comp (fun y => u + b * y) pos).
  - apply (ex_derive_continuous (fun y => u + b * y)). auto_derive; auto.
  - apply pos_cont.
Qed.
Lemma int_pos1 : forall u b p q, b <> 0 ->
  is_RInt (fun y => pos (u + b * y)) p q ((pos (u + b * q) ^ 2 - pos (u + b * p) ^ 2) / (2 * b)).
Proof.
  intros u b p q Hb.
  replace ((pos (u + b * q) ^ 2 - pos (u + b * p) ^ 2) / (2 * b))
    with (minus (/ (2 * b) * pos (u + b * q) ^ 2) (/ (2 * b) * pos (u + b * p) ^ 2))
    by (unfold minus, plus, opp; simpl; field; auto).
  apply (is_RInt_derive (fun y => / (2 * b) * pos (u + b * y) ^ 2) (fun y => pos (u + b * y))).
  - intros x _. replace (pos (u + b * x)) with (/ (2 * b) * (2 * b * pos (u + b * x))) by (field; auto).
    apply (is_derive_scal (fun y => pos (u + b * y) ^ 2)); apply pos2_affine.
  - intros; apply pos_affine_cont.
Qed.
Lemma int_pos2 : forall u b p q, b <> 0 ->
  is_RInt (fun y => pos (u + b * y) ^ 2) p q ((pos (u + b * q) ^ 3 - pos (u + b * p) ^ 3) / (3 * b)).
Proof.
  intros u b p q Hb.
  replace ((pos (u + b * q) ^ 3 - pos (u + b * p) ^ 3) / (3 * b))
    with (minus (/ (3 * b) * pos (u + b * q) ^ 3) (/ (3 * b) * pos (u + b * p) ^ 3))
    by (unfold minus, plus, opp; simpl; field; auto).
  apply (is_RInt_derive (fun y => / (3 * b) * pos (u + b * y) ^ 3) (fun y => pos (u + b * y) ^ 2)).
  - intros x _. replace (pos (u + b * x) ^ 2) with (/ (3 * b) * (3 * b * pos (u + b * x) ^ 2)) by (field; auto).
    apply (is_derive_scal (fun y => pos (u + b * y) ^ 3)); apply pos3_affine.
  - intros x _. apply (ex_derive_continuous (V:=R_NormedModule) (fun y => pos (u + b * y) ^ 2)). eexists; apply pos2_affine.
Qed.

(** indicator of a condition *)
Definition ind (b : bool) : R := if b then 1 else 0.

Lemma Rltb_t : forall x y, x < y -> Rltb x y = true.
Proof. intros; unfold Rltb; destruct Rlt_dec; auto; contradiction. Qed.
Lemma Rltb_f : forall x y, y <= x -> Rltb x y = false.
Proof. intros; unfold Rltb; destruct Rlt_dec; auto; lra. Qed.

Lemma int_step_const : forall (f : R -> R) p q v, p <= q -> (forall z, p < z < q -> f z = v) -> is_RInt f p q (v * (q - p)).
Proof.
  intros f p q v Hpq H.
  apply is_RInt_ext with (fun _ => v).
  - intros z; rewrite Rmin_left, Rmax_right by auto; intros; symmetry; auto.
  - replace (v * (q - p)) with (scal (q - p) v) by (unfold scal; simpl; unfold mult; simpl; ring).
    exact (is_RInt_const (V:=R_NormedModule) p q v).
Qed.
(** the length of {z in [p,q] : u + c z > 0} *)
Lemma int_ind : forall u c p q, c <> 0 -> p <= q ->
  is_RInt (fun z => ind (Rltb 0 (u + c * z))) p q ((pos (u + c * q) - pos (u + c * p)) / c).
Proof.
  intros u c p q Hc Hpq.
  assert (E : forall z, u + c * z = c * (z - (- u / c))) by (intros; field; auto).
  set (r := - u / c) in *.
  assert (Hm : exists m, p <= m <= q /\ (m = r \/ (m = p /\ r <= p) \/ (m = q /\ q <= r))).
  { destruct (Rle_dec r p); [exists p; lra|]. destruct (Rle_dec q r); [exists q; lra|]. exists r; lra. }
  destruct Hm as (m & Hm & Hr).
  set (v1 := ind (Rltb c 0)). set (v2 := ind (Rltb 0 c)).
  replace ((pos (u + c * q) - pos (u + c * p)) / c) with (plus (v1 * (m - p)) (v2 * (q - m))).
  - apply (is_RInt_Chasles (V:=R_NormedModule)) with m.
    + apply int_step_const; [lra|]. intros z Hz. unfold v1. f_equal. rewrite E.
      assert (z < r) by lra.
      destruct (Rlt_dec c 0).
      * rewrite !Rltb_t; auto; nra.
      * rewrite !Rltb_f; auto; nra.
    + apply int_step_const; [lra|]. intros z Hz. unfold v2. f_equal. rewrite E.
      assert (r < z) by lra.
      destruct (Rlt_dec 0 c).
      * rewrite !Rltb_t; auto; nra.
      * rewrite !Rltb_f; auto; nra.
  - unfold v1, v2, plus; simpl.
    apply Rmult_eq_reg_r with c; auto. unfold Rdiv; rewrite (Rmult_assoc _ (/ c)), Rinv_l, Rmult_1_r by auto.
    rewrite !E.
    destruct (Rlt_dec c 0).
    + rewrite Rltb_t, Rltb_f by lra. simpl.
      replace (c * (q - r)) with (- c * (r - q)) by ring. replace (c * (p - r)) with (- c * (r - p)) by ring.
      rewrite !pos_scale by lra.
      destruct Hr as [-> | [[-> Hr]|[-> Hr]]].
      * rewrite pos_neg, pos_pos by lra; ring.
      * rewrite !pos_neg by lra; ring.
      * rewrite !pos_pos by lra; ring.
    + rewrite Rltb_f, Rltb_t by lra. simpl.
      rewrite !pos_scale by lra.
      destruct Hr as [-> | [[-> Hr]|[-> Hr]]].
      * rewrite pos_pos, pos_neg by lra; ring.
      * rewrite !pos_pos by lra; ring.
      * rewrite !pos_neg by lra; ring.
Qed.

(** ** Volumes

    [is_volume P x0 x1 y0 y1 z0 z1 v]: the set of all (x,y,z) with x0 <= x <= x1, y0 x <= y <= y1 x, z0 x y <= z <= z1 x y
    and P x y z has the volume v, as an iterated integral of the indicator function. *)
Definition is_volume (P : R -> R -> R -> bool) (x0 x1 : R) (y0 y1 : R -> R) (z0 z1 : R -> R -> R) (v : R) : Prop :=
  exists (len : R -> R -> R) (area : R -> R),
    (forall x y, x0 <= x <= x1 -> y0 x <= y <= y1 x -> is_RInt (fun z => ind (P x y z)) (z0 x y) (z1 x y) (len x y)) /\
    (forall x, x0 <= x <= x1 -> is_RInt (len x) (y0 x) (y1 x) (area x)) /\
    is_RInt area x0 x1 v.

(** the part of the unit cube centered at the origin *)
Definition cube_fraction (P : R -> R -> R -> bool) (v : R) : Prop :=
  is_volume P (-1/2) (1/2) (fun _ => -1/2) (fun _ => 1/2) (fun _ _ => -1/2) (fun _ _ => 1/2) v.
(** the part of the tetrahedron with corners (0,0,0), (1,0,0), (0,1,0), (0,0,1) *)
Definition tetra_part (P : R -> R -> R -> bool) (v : R) : Prop :=
  is_volume P 0 1 (fun _ => 0) (fun x => 1 - x) (fun _ _ => 0) (fun x y => 1 - x - y) v.

(** a volume is unique *)
Lemma is_volume_unique : forall P x0 x1 y0 y1 z0 z1 v w,
  x0 <= x1 -> (forall x, x0 <= x <= x1 -> y0 x <= y1 x) ->
  is_volume P x0 x1 y0 y1 z0 z1 v -> is_volume P x0 x1 y0 y1 z0 z1 w -> v = w.
Proof.
  intros P x0 x1 y0 y1 z0 z1 v w Hx Hy (l1 & a1 & L1 & A1 & V1) (l2 & a2 & L2 & A2 & V2).
  assert (EL : forall x y, x0 <= x <= x1 -> y0 x <= y <= y1 x -> l1 x y = l2 x y).
  { intros x y Hx' Hy'. rewrite <- (is_RInt_unique _ _ _ _ (L1 x y Hx' Hy')). apply is_RInt_unique; auto. }
  assert (EA : forall x, x0 <= x <= x1 -> a1 x = a2 x).
  { intros x Hx'. rewrite <- (is_RInt_unique _ _ _ _ (A1 x Hx')). apply is_RInt_unique.
    apply is_RInt_ext with (l2 x); auto.
    intros y. rewrite Rmin_left, Rmax_right by auto. intros; symmetry; apply EL; lra. }
  rewrite <- (is_RInt_unique _ _ _ _ V1). apply is_RInt_unique.
  apply is_RInt_ext with a2; auto.
  intros y. rewrite Rmin_left, Rmax_right by auto. intros; symmetry; apply EA; lra.
Qed.
(** a larger set has a larger volume *)
Lemma is_volume_mono : forall P Q x0 x1 y0 y1 z0 z1 v w,
  x0 <= x1 -> (forall x, x0 <= x <= x1 -> y0 x <= y1 x) ->
  (forall x y, x0 <= x <= x1 -> y0 x <= y <= y1 x -> z0 x y <= z1 x y) ->
  (forall x y z, x0 <= x <= x1 -> y0 x <= y <= y1 x -> z0 x y <= z <= z1 x y -> P x y z = true -> Q x y z = true) ->
  is_volume P x0 x1 y0 y1 z0 z1 v -> is_volume Q x0 x1 y0 y1 z0 z1 w -> v <= w.
Proof.
  intros P Q x0 x1 y0 y1 z0 z1 v w Hx Hy Hz HPQ (l1 & a1 & L1 & A1 & V1) (l2 & a2 & L2 & A2 & V2).
  assert (EL : forall x y, x0 <= x <= x1 -> y0 x <= y <= y1 x -> l1 x y <= l2 x y).
  { intros x y Hx' Hy'. eapply is_RInt_le; [| apply L1; auto | apply L2; auto |]; auto.
    intros z Hz'. unfold ind. destruct (P x y z) eqn:E.
    - rewrite (HPQ x y z) by (auto; lra). lra.
    - destruct (Q x y z); lra. }
  assert (EA : forall x, x0 <= x <= x1 -> a1 x <= a2 x).
  { intros x Hx'. eapply is_RInt_le; [| apply A1; auto | apply A2; auto |]; auto.
    intros y Hy'; apply EL; auto; lra. }
  eapply is_RInt_le; [| apply V1 | apply V2 |]; auto.
  intros x Hx'; apply EA; lra.
Qed.

(** ** The cut cube *)
(** signed sum over the eight corners *)
Definition corner_sum (n : nat) (t a b c : R) : R :=
  pos (t + (a + b + c) / 2) ^ n - pos (t + (- a + b + c) / 2) ^ n - pos (t + (a - b + c) / 2) ^ n - pos (t + (a + b - c) / 2) ^ n
  + pos (t + (a - b - c) / 2) ^ n + pos (t + (- a + b - c) / 2) ^ n + pos (t + (- a - b + c) / 2) ^ n - pos (t + (- a - b - c) / 2) ^ n.

Lemma cube_fraction_corner : forall t a b c, a <> 0 -> b <> 0 -> c <> 0 ->
  cube_fraction (fun x y z => Rltb 0 (t + a * x + b * y + c * z)) (corner_sum 3 t a b c / (6 * (a * b * c))).
Proof.
  intros t a b c Ha Hb Hc.
  exists (fun x y => (pos (t + a * x + b * y + c * (1/2)) - pos (t + a * x + b * y + c * (-1/2))) / c).
  exists (fun x => ((pos (t + c * (1/2) + a * x + b * (1/2)) ^ 2 - pos (t + c * (1/2) + a * x + b * (-1/2)) ^ 2)
                   - (pos (t + c * (-1/2) + a * x + b * (1/2)) ^ 2 - pos (t + c * (-1/2) + a * x + b * (-1/2)) ^ 2)) / (2 * b * c)).
  split; [|split].
  - intros x y _ _. apply int_ind; auto; lra.
  - intros x _.
    apply is_RInt_ext with (fun y => scal (/ c) (minus (pos (t + c * (1/2) + a * x + b * y)) (pos (t + c * (-1/2) + a * x + b * y)))).
    + intros y _. unfold scal, minus, plus, opp; simpl; unfold mult; simpl. unfold Rdiv at 3. rewrite Rmult_comm. f_equal.
      unfold Rminus; f_equal; [|f_equal]; f_equal; ring.
    + match goal with |- is_RInt _ _ _ ?v =>
        replace v with (scal (/ c) (minus ((pos (t + c * (1/2) + a * x + b * (1/2)) ^ 2 - pos (t + c * (1/2) + a * x + b * (-1/2)) ^ 2) / (2 * b))
                   ((pos (t + c * (-1/2) + a * x + b * (1/2)) ^ 2 - pos (t + c * (-1/2) + a * x + b * (-1/2)) ^ 2) / (2 * b)))) end.
      * apply (is_RInt_scal (V:=R_NormedModule)). apply (is_RInt_minus (V:=R_NormedModule)); apply int_pos1; auto.
      * unfold scal, minus, plus, opp; simpl; unfold mult; simpl; field; auto.
  - apply is_RInt_ext with (fun x => scal (/ (2 * b * c)) (minus
       (minus (pos (t + c * (1/2) + b * (1/2) + a * x) ^ 2) (pos (t + c * (1/2) + b * (-1/2) + a * x) ^ 2))
       (minus (pos (t + c * (-1/2) + b * (1/2) + a * x) ^ 2) (pos (t + c * (-1/2) + b * (-1/2) + a * x) ^ 2)))).
    + intros x _. unfold scal, minus, plus, opp; cbn -[pow]; unfold mult; cbn -[pow]. unfold Rdiv at 9. rewrite Rmult_comm. f_equal.
      assert (E : forall c' b', t + c * c' + b * b' + a * x = t + c * c' + a * x + b * b') by (intros; ring).
      rewrite !E. ring.
    + match goal with |- is_RInt _ _ _ ?v =>
        replace v with (scal (/ (2 * b * c)) (minus
         (minus ((pos (t + c * (1/2) + b * (1/2) + a * (1/2)) ^ 3 - pos (t + c * (1/2) + b * (1/2) + a * (-1/2)) ^ 3) / (3 * a))
                ((pos (t + c * (1/2) + b * (-1/2) + a * (1/2)) ^ 3 - pos (t + c * (1/2) + b * (-1/2) + a * (-1/2)) ^ 3) / (3 * a)))
         (minus ((pos (t + c * (-1/2) + b * (1/2) + a * (1/2)) ^ 3 - pos (t + c * (-1/2) + b * (1/2) + a * (-1/2)) ^ 3) / (3 * a))
                ((pos (t + c * (-1/2) + b * (-1/2) + a * (1/2)) ^ 3 - pos (t + c * (-1/2) + b * (-1/2) + a * (-1/2)) ^ 3) / (3 * a))))) end.
      * apply (is_RInt_scal (V:=R_NormedModule)).
        apply (is_RInt_minus (V:=R_NormedModule)); apply (is_RInt_minus (V:=R_NormedModule)); apply int_pos2; auto.
      * unfold corner_sum.
        replace (t + c * (1/2) + b * (1/2) + a * (1/2)) with (t + (a + b + c) / 2) by field.
        replace (t + c * (1/2) + b * (1/2) + a * (-1/2)) with (t + (- a + b + c) / 2) by field.
        replace (t + c * (1/2) + b * (-1/2) + a * (1/2)) with (t + (a - b + c) / 2) by field.
        replace (t + c * (1/2) + b * (-1/2) + a * (-1/2)) with (t + (- a - b + c) / 2) by field.
        replace (t + c * (-1/2) + b * (1/2) + a * (1/2)) with (t + (a + b - c) / 2) by field.
        replace (t + c * (-1/2) + b * (1/2) + a * (-1/2)) with (t + (- a + b - c) / 2) by field.
        replace (t + c * (-1/2) + b * (-1/2) + a * (1/2)) with (t + (a - b - c) / 2) by field.
        replace (t + c * (-1/2) + b * (-1/2) + a * (-1/2)) with (t + (- a - b - c) / 2) by field.
        unfold scal, minus, plus, opp; cbn -[pow]; unfold mult; cbn -[pow]. field; auto.
Qed.

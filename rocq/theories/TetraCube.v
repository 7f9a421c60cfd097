(** Property C48: the six tetrahedra of a cell (TetraSmearing). *)
From Coq Require Import Reals Lra Lia Psatz List.
From Coquelicot Require Import Coquelicot.
From Verif Require Import NbrModel SmearModel SmearCalc SmearProps TetraProps.
Import ListNotations.
Local Open Scope R_scope.

Lemma tetra_part_unique : forall P v w, tetra_part P v -> tetra_part P w -> v = w.
Proof.
  intros P v w. unfold tetra_part. apply is_volume_unique; [lra|]. intros; lra.
Qed.

(** The same as [C48_tetra_volume_partial] for given corner values. *)
Theorem C48_tetra_corners_partial : forall v0 v1 v2 v3,
  let n := sqrt ((v1 - v0) ^ 2 + (v2 - v0) ^ 2 + (v3 - v0) ^ 2) + / 10 ^ 50 in
  4 / 10 ^ 9 * n <= Rabs (v1 - v0) -> 4 / 10 ^ 9 * n <= Rabs (v2 - v0) -> 4 / 10 ^ 9 * n <= Rabs (v3 - v0) ->
  v1 <> v2 -> v1 <> v3 -> v2 <> v3 ->
  exists v, tetra_part (fun x y z => Rltb 0 (v0 * (1 - x - y - z) + v1 * x + v2 * y + v3 * z)) v /\
            Rabs (tetra_cut_volume v0 v1 v2 v3 - v) <= / 10 ^ 42.
Proof.
  intros v0 v1 v2 v3 n H1 H2 H3 D1 D2 D3.
  destruct (C48_tetra_volume_partial v0 (v1 - v0) (v2 - v0) (v3 - v0)) as (v & Hv & Hb); auto; try lra.
  exists v. split; [|exact Hb].
  destruct Hv as (l & a & L & A & V). exists l, a. split; [|split]; auto.
  intros x y Hx Hy. eapply is_RInt_ext; [|apply (L x y Hx Hy)]. intros z _. cbv beta. do 2 f_equal. ring.
Qed.
Print Assumptions C48_tetra_corners_partial.

Lemma tetra_cut_tsum : forall v0 v1 v2 v3,
  let n := sqrt ((v1 - v0) ^ 2 + (v2 - v0) ^ 2 + (v3 - v0) ^ 2) + / 10 ^ 50 in
  4 / 10 ^ 9 * n <= Rabs (v1 - v0) -> 4 / 10 ^ 9 * n <= Rabs (v2 - v0) -> 4 / 10 ^ 9 * n <= Rabs (v3 - v0) ->
  v1 <> v2 -> v1 <> v3 -> v2 <> v3 ->
  Rabs (tetra_cut_volume v0 v1 v2 v3 - tsum v0 v1 v2 v3 / 6) <= / 10 ^ 42.
Proof.
  intros v0 v1 v2 v3 n H1 H2 H3 D1 D2 D3.
  assert (Hn : 0 < n).
  { unfold n. pose proof (sqrt_pos ((v1 - v0) ^ 2 + (v2 - v0) ^ 2 + (v3 - v0) ^ 2)). assert (0 < / 10 ^ 50) by (apply Rinv_0_lt_compat, pow_lt; lra). lra. }
  assert (N : forall g, 4 / 10 ^ 9 * n <= Rabs g -> g <> 0) by (intros g Hg ->; rewrite Rabs_R0 in Hg; lra).
  destruct (C48_tetra_volume_partial v0 (v1 - v0) (v2 - v0) (v3 - v0)) as (v & Hv & Hb); auto; try lra.
  replace (tsum v0 v1 v2 v3 / 6) with v; [exact Hb|].
  apply (tetra_part_unique _ _ _ Hv).
  replace (tsum v0 v1 v2 v3) with (tsum v0 (v0 + (v1 - v0)) (v0 + (v2 - v0)) (v0 + (v3 - v0))) by (f_equal; ring).
  apply tetra_part_tsum; auto; lra.
Qed.

(** the value at corner v of the cell of a linear function with the value c at
    corner 0; bit 0 of v is the first axis (smearing.py l.430-432) *)
Definition bit (v m : nat) : R := if Nat.testbit v m then 1 else 0.
Definition lin_corner (c gx gy gz : R) (v : nat) : R := c + gx * bit v 0 + gy * bit v 1 + gz * bit v 2.

Lemma six_tetra : forall c x y z, x <> 0 -> y <> 0 -> z <> 0 -> x + y <> 0 -> x + z <> 0 -> y + z <> 0 -> x + y + z <> 0 ->
  tsum c (c + (x + y + z)) (c + x) (c + (x + y)) + tsum c (c + (x + y + z)) (c + (x + y)) (c + y)
  + tsum c (c + (x + y + z)) (c + y) (c + (y + z)) + tsum c (c + (x + y + z)) (c + (y + z)) (c + z)
  + tsum c (c + (x + y + z)) (c + z) (c + (x + z)) + tsum c (c + (x + y + z)) (c + (x + z)) (c + x)
  = corner_sum 3 (c + (x + y + z) / 2) x y z / (x * y * z).
Proof.
  intros c x y z Hx Hy Hz Hxy Hxz Hyz H. unfold corner_sum.
  replace (c + (x + y + z) / 2 + (x + y + z) / 2) with (c + (x + y + z)) by field.
  replace (c + (x + y + z) / 2 + (- x + y + z) / 2) with (c + (y + z)) by field.
  replace (c + (x + y + z) / 2 + (x - y + z) / 2) with (c + (x + z)) by field.
  replace (c + (x + y + z) / 2 + (x + y - z) / 2) with (c + (x + y)) by field.
  replace (c + (x + y + z) / 2 + (x - y - z) / 2) with (c + x) by field.
  replace (c + (x + y + z) / 2 + (- x + y - z) / 2) with (c + y) by field.
  replace (c + (x + y + z) / 2 + (- x - y + z) / 2) with (c + z) by field.
  replace (c + (x + y + z) / 2 + (- x - y - z) / 2) with c by field.
  assert (T : forall p q r, p <> 0 -> q <> 0 -> r <> 0 -> p <> q -> p <> r -> q <> r -> forall P0 P1 P2 P3 : R,
     P0 / ((c - (c + p)) * (c - (c + q)) * (c - (c + r))) + P1 / ((c + p - c) * (c + p - (c + q)) * (c + p - (c + r)))
     + P2 / ((c + q - c) * (c + q - (c + p)) * (c + q - (c + r))) + P3 / ((c + r - c) * (c + r - (c + p)) * (c + r - (c + q)))
     = - P0 / (p * q * r) + P1 / (p * (p - q) * (p - r)) + P2 / (q * (q - p) * (q - r)) + P3 / (r * (r - p) * (r - q))).
  { intros p q r ? ? ? ? ? ? P0 P1 P2 P3. field. repeat split; lra. }
  unfold tsum. rewrite !T by lra. clear T.
  generalize (pos c ^ 3) (pos (c + (x + y + z)) ^ 3) (pos (c + x) ^ 3) (pos (c + y) ^ 3) (pos (c + z) ^ 3)
    (pos (c + (x + y)) ^ 3) (pos (c + (x + z)) ^ 3) (pos (c + (y + z)) ^ 3).
  intros p0 p7 px py pz pxy pxz pyz.
  replace (x + y + z - x) with (y + z) by ring. replace (x + y + z - (x + y)) with z by ring.
  replace (x + y + z - y) with (x + z) by ring. replace (x + y + z - (y + z)) with x by ring.
  replace (x + y + z - z) with (x + y) by ring. replace (x + y + z - (x + z)) with y by ring.
  replace (x - (x + y + z)) with (- (y + z)) by ring. replace (x - (x + y)) with (- y) by ring. replace (x - (x + z)) with (- z) by ring.
  replace (y - (x + y + z)) with (- (x + z)) by ring. replace (y - (x + y)) with (- x) by ring. replace (y - (y + z)) with (- z) by ring.
  replace (z - (x + y + z)) with (- (x + y)) by ring. replace (z - (y + z)) with (- y) by ring. replace (z - (x + z)) with (- x) by ring.
  replace (x + y - (x + y + z)) with (- z) by ring. replace (x + y - x) with y by ring. replace (x + y - y) with x by ring.
  replace (y + z - (x + y + z)) with (- x) by ring. replace (y + z - y) with z by ring. replace (y + z - z) with y by ring.
  replace (x + z - (x + y + z)) with (- y) by ring. replace (x + z - z) with x by ring. replace (x + z - x) with z by ring.
  field. repeat split; lra.
Qed.

(** The six tetrahedra fill the cell: for the corner values of a linear
    function none of whose differences along an edge or diagonal from corner 0
    is relatively small, the result is the fraction of the cell where it is positive. *)
Theorem C48_cube_partial : forall c x y z G, / 10 ^ 40 <= G ->
  (forall q, In q [x; y; z; x + y; x + z; y + z; x + y + z] -> / 10 ^ 8 * G <= Rabs q <= G) ->
  exists v, cube_fraction (fun p q r => Rltb 0 (c + x * (p + 1/2) + y * (q + 1/2) + z * (r + 1/2))) v /\
            Rabs (cube_tetra_cut_volume (lin_corner c x y z) - v) <= 6 / 10 ^ 42.
Proof.
  intros c x y z G HG Q.
  assert (HG0 : 0 < G) by (assert (0 < / 10 ^ 40) by (apply Rinv_0_lt_compat, pow_lt; lra); lra).
  assert (N : forall q, In q [x; y; z; x + y; x + z; y + z; x + y + z] -> q <> 0).
  { intros q Hq ->. specialize (Q 0 Hq). rewrite Rabs_R0 in Q. assert (0 < / 10 ^ 8 * G) by (apply Rmult_lt_0_compat; auto; apply Rinv_0_lt_compat, pow_lt; lra). lra. }
  assert (B : forall a b d, In a [x; y; z; x + y; x + z; y + z; x + y + z] -> In b [x; y; z; x + y; x + z; y + z; x + y + z] ->
     In d [x; y; z; x + y; x + z; y + z; x + y + z] -> 4 / 10 ^ 9 * (sqrt (a ^ 2 + b ^ 2 + d ^ 2) + / 10 ^ 50) <= / 10 ^ 8 * G).
  { intros a b d Ha Hb Hd. apply Q in Ha, Hb, Hd.
    assert (S : forall q, / 10 ^ 8 * G <= Rabs q <= G -> q ^ 2 <= G ^ 2).
    { intros q [_ Hq]. rewrite <- (pow2_abs q). apply pow_incr. split; auto. apply Rabs_pos. }
    assert (E : sqrt (a ^ 2 + b ^ 2 + d ^ 2) <= 2 * G).
    { rewrite <- (sqrt_pow2 (2 * G)) by lra. apply sqrt_le_1_alt. pose proof (S _ Ha). pose proof (S _ Hb). pose proof (S _ Hd). nra. }
    assert (I : / 10 ^ 50 = / 10 ^ 10 * / 10 ^ 40) by (rewrite <- Rinv_mult by (apply pow_nonzero; lra); f_equal; ring).
    assert (E2 : / 10 ^ 50 <= / 10 ^ 10 * G) by (rewrite I; apply Rmult_le_compat_l; auto; apply Rlt_le, Rinv_0_lt_compat, pow_lt; lra).
    lra. }
  assert (Nx : x <> 0) by (apply N; simpl; tauto). assert (Ny : y <> 0) by (apply N; simpl; tauto). assert (Nz : z <> 0) by (apply N; simpl; tauto).
  assert (Nxy : x + y <> 0) by (apply N; simpl; tauto). assert (Nxz : x + z <> 0) by (apply N; simpl; tauto).
  assert (Nyz : y + z <> 0) by (apply N; simpl; tauto). assert (Ns : x + y + z <> 0) by (apply N; simpl; tauto).
  assert (T : forall a b d, In a [x; y; z; x + y; x + z; y + z; x + y + z] -> In b [x; y; z; x + y; x + z; y + z; x + y + z] ->
     In d [x; y; z; x + y; x + z; y + z; x + y + z] -> a <> b -> a <> d -> b <> d ->
     Rabs (tetra_cut_volume c (c + a) (c + b) (c + d) - tsum c (c + a) (c + b) (c + d) / 6) <= / 10 ^ 42).
  { intros a b d Ha Hb Hd D1 D2 D3. pose proof (B a b d Ha Hb Hd) as BB.
    replace (a ^ 2 + b ^ 2 + d ^ 2) with ((c + a - c) ^ 2 + (c + b - c) ^ 2 + (c + d - c) ^ 2) in BB by ring.
    apply Q in Ha, Hb, Hd.
    apply tetra_cut_tsum; try lra.
    - replace (Rabs (c + a - c)) with (Rabs a) by (f_equal; ring). lra.
    - replace (Rabs (c + b - c)) with (Rabs b) by (f_equal; ring). lra.
    - replace (Rabs (c + d - c)) with (Rabs d) by (f_equal; ring). lra. }
  exists (corner_sum 3 (c + (x + y + z) / 2) x y z / (6 * (x * y * z))). split.
  - pose proof (cube_fraction_corner (c + (x + y + z) / 2) x y z Nx Ny Nz) as (l & a & L & A & V).
    exists l, a. split; [|split]; auto. intros p q Hp Hq. eapply is_RInt_ext; [|apply (L p q Hp Hq)].
    intros r _. cbv beta. do 2 f_equal. field.
  - replace (corner_sum 3 (c + (x + y + z) / 2) x y z / (6 * (x * y * z))) with (corner_sum 3 (c + (x + y + z) / 2) x y z / (x * y * z) / 6) by (field; auto).
    rewrite <- (six_tetra c x y z) by auto.
    unfold cube_tetra_cut_volume.
    assert (L0 : lin_corner c x y z 0 = c) by (unfold lin_corner, bit; cbn; ring).
    assert (L1 : lin_corner c x y z 1 = c + x) by (unfold lin_corner, bit; cbn; ring).
    assert (L2 : lin_corner c x y z 2 = c + y) by (unfold lin_corner, bit; cbn; ring).
    assert (L3 : lin_corner c x y z 3 = c + (x + y)) by (unfold lin_corner, bit; cbn; ring).
    assert (L4 : lin_corner c x y z 4 = c + z) by (unfold lin_corner, bit; cbn; ring).
    assert (L5 : lin_corner c x y z 5 = c + (x + z)) by (unfold lin_corner, bit; cbn; ring).
    assert (L6 : lin_corner c x y z 6 = c + (y + z)) by (unfold lin_corner, bit; cbn; ring).
    assert (L7 : lin_corner c x y z 7 = c + (x + y + z)) by (unfold lin_corner, bit; cbn; ring).
    rewrite L0, L1, L2, L3, L4, L5, L6, L7.
    pose proof (T (x + y + z) x (x + y) ltac:(simpl; tauto) ltac:(simpl; tauto) ltac:(simpl; tauto) ltac:(lra) ltac:(lra) ltac:(lra)) as T1.
    pose proof (T (x + y + z) (x + y) y ltac:(simpl; tauto) ltac:(simpl; tauto) ltac:(simpl; tauto) ltac:(lra) ltac:(lra) ltac:(lra)) as T2.
    pose proof (T (x + y + z) y (y + z) ltac:(simpl; tauto) ltac:(simpl; tauto) ltac:(simpl; tauto) ltac:(lra) ltac:(lra) ltac:(lra)) as T3.
    pose proof (T (x + y + z) (y + z) z ltac:(simpl; tauto) ltac:(simpl; tauto) ltac:(simpl; tauto) ltac:(lra) ltac:(lra) ltac:(lra)) as T4.
    pose proof (T (x + y + z) z (x + z) ltac:(simpl; tauto) ltac:(simpl; tauto) ltac:(simpl; tauto) ltac:(lra) ltac:(lra) ltac:(lra)) as T5.
    pose proof (T (x + y + z) (x + z) x ltac:(simpl; tauto) ltac:(simpl; tauto) ltac:(simpl; tauto) ltac:(lra) ltac:(lra) ltac:(lra)) as T6.
    clear T B N Q. revert T1 T2 T3 T4 T5 T6.
    generalize (tetra_cut_volume c (c + (x + y + z)) (c + x) (c + (x + y))) (tetra_cut_volume c (c + (x + y + z)) (c + (x + y)) (c + y))
      (tetra_cut_volume c (c + (x + y + z)) (c + y) (c + (y + z))) (tetra_cut_volume c (c + (x + y + z)) (c + (y + z)) (c + z))
      (tetra_cut_volume c (c + (x + y + z)) (c + z) (c + (x + z))) (tetra_cut_volume c (c + (x + y + z)) (c + (x + z)) (c + x)).
    generalize (tsum c (c + (x + y + z)) (c + x) (c + (x + y))) (tsum c (c + (x + y + z)) (c + (x + y)) (c + y))
      (tsum c (c + (x + y + z)) (c + y) (c + (y + z))) (tsum c (c + (x + y + z)) (c + (y + z)) (c + z))
      (tsum c (c + (x + y + z)) (c + z) (c + (x + z))) (tsum c (c + (x + y + z)) (c + (x + z)) (c + x)).
    intros s1 s2 s3 s4 s5 s6 t1 t2 t3 t4 t5 t6 T1 T2 T3 T4 T5 T6.
    replace (6 / 10 ^ 42) with (6 * / 10 ^ 42) by (unfold Rdiv; ring).
    set (eps := / 10 ^ 42) in *. clearbody eps.
    apply Rabs_le. apply Rabs_le_between in T1, T2, T3, T4, T5, T6. lra.
Qed.
Print Assumptions C48_cube_partial.

(** ** A cell of the grid, [TetraSmearing.volume] *)
(** For a band that is linear on the cell (i, j, k) the returned volume is the
    fraction of the cell below the energy. *)
Theorem C48_smearing_partial : forall N g i j k value E0 x y z G,
  (S i < N)%nat -> (S j < N)%nat -> (S k < N)%nat -> / 10 ^ 40 <= G ->
  (forall q, In q [x; y; z; x + y; x + z; y + z; x + y + z] -> / 10 ^ 8 * G <= Rabs q <= G) ->
  (forall a b d, (a <= 1)%nat -> (b <= 1)%nat -> (d <= 1)%nat -> g (i + a)%nat (j + b)%nat (k + d)%nat = E0 + INR a * x + INR b * y + INR d * z) ->
  exists v, cube_fraction (fun p q r => Rltb (E0 + x * (p + 1/2) + y * (q + 1/2) + z * (r + 1/2)) value) v /\
            Rabs (tetras_volume N g value i j k - v) <= 6 / 10 ^ 42.
Proof.
  intros N g i j k value E0 x y z G Hi Hj Hk HG Q Hg.
  destruct (C48_cube_partial (value - E0) (- x) (- y) (- z) G HG) as (v & V & Hv).
  { intros q Hq. rewrite <- (Rabs_Ropp q). apply Q.
    cbn [In] in *. destruct Hq as [<- | [<- | [<- | [<- | [<- | [<- | [<- | []]]]]]]];
      [left | right; left | do 2 right; left | do 3 right; left | do 4 right; left | do 5 right; left | do 6 right; left]; ring. }
  exists v. split.
  - destruct V as (l & a & L & A & V). exists l, a. split; [|split]; auto. intros p q Hp Hq.
    eapply is_RInt_ext; [|apply (L p q Hp Hq)]. intros r _. cbv beta. f_equal.
    unfold Rltb. destruct (Rlt_dec 0 _), (Rlt_dec _ value); auto; exfalso; lra.
  - replace (tetras_volume N g value i j k) with (cube_tetra_cut_volume (lin_corner (value - E0) (- x) (- y) (- z))); auto.
    unfold tetras_volume.
    assert (C : forall v, (v < 8)%nat -> value - corners N g i j k v = lin_corner (value - E0) (- x) (- y) (- z) v).
    { intros u Hu. unfold corners, roll_list. cbn [map app].
      pose proof (Hg 0 0 0 ltac:(lia) ltac:(lia) ltac:(lia))%nat as G0. pose proof (Hg 1 0 0 ltac:(lia) ltac:(lia) ltac:(lia))%nat as G1.
      pose proof (Hg 0 1 0 ltac:(lia) ltac:(lia) ltac:(lia))%nat as G2. pose proof (Hg 1 1 0 ltac:(lia) ltac:(lia) ltac:(lia))%nat as G3.
      pose proof (Hg 0 0 1 ltac:(lia) ltac:(lia) ltac:(lia))%nat as G4. pose proof (Hg 1 0 1 ltac:(lia) ltac:(lia) ltac:(lia))%nat as G5.
      pose proof (Hg 0 1 1 ltac:(lia) ltac:(lia) ltac:(lia))%nat as G6. pose proof (Hg 1 1 1 ltac:(lia) ltac:(lia) ltac:(lia))%nat as G7.
      rewrite !Nat.add_0_r, ?Nat.add_1_r in *.
      assert (u = 0 \/ u = 1 \/ u = 2 \/ u = 3 \/ u = 4 \/ u = 5 \/ u = 6 \/ u = 7)%nat as [-> | [-> | [-> | [-> | [-> | [-> | [-> | ->]]]]]]] by lia;
      cbn [nth]; unfold roll0, roll1, roll2, lin_corner, bit; rewrite ?(Nat.mod_small (S i)), ?(Nat.mod_small (S j)), ?(Nat.mod_small (S k)) by auto;
      rewrite ?G0, ?G1, ?G2, ?G3, ?G4, ?G5, ?G6, ?G7; cbn; ring. }
    unfold cube_tetra_cut_volume. rewrite !C by lia. reflexivity.
Qed.
Print Assumptions C48_smearing_partial.

(** example: the cell of 5 (x + 1/2) + 2 (y + 1/2) - (z + 1/2) *)
Example C48_cube_example : exists v, cube_fraction (fun p q r => Rltb (5 * (p + 1/2) + 2 * (q + 1/2) + (-1) * (r + 1/2)) 3) v /\
  Rabs (tetras_volume 4 (fun i j k => 5 * INR i + 2 * INR j - INR k) 3 0%nat 0%nat 0%nat - v) <= 6 / 10 ^ 42.
Proof.
  destruct (C48_smearing_partial 4 (fun i j k => 5 * INR i + 2 * INR j - INR k) 0%nat 0%nat 0%nat 3 0 5 2 (-1) 10) as (v & V & H); try lia.
  - assert (/ 10 ^ 40 <= / 1) by (apply Rinv_le_contravar; [lra|]; apply pow_R1_Rle; lra). lra.
  - cbn [In]. intros q Hq. destruct Hq as [<- | [<- | [<- | [<- | [<- | [<- | [<- | []]]]]]]];
      match goal with |- context[Rabs ?e] => destruct (Rle_dec 0 e); [rewrite (Rabs_right e) by lra | rewrite (Rabs_left e) by lra] end; lra.
  - intros a b d _ _ _. cbn [Nat.add]. ring.
  - exists v. split; auto. destruct V as (l & a & L & A & V). exists l, a. split; [|split]; auto. intros p q Hp Hq.
    eapply is_RInt_ext; [|apply (L p q Hp Hq)]. intros r _. cbv beta. do 2 f_equal. ring.
Qed.

(** Properties C62 (cells of linear bands), C63 (extrapolation), C64 (range of the extrapolated volume), C65 (Fermi surface
    sample points). *)
From Coq Require Import Reals Lra Lia Psatz List Arith.
From Coquelicot Require Import Coquelicot.
From Verif Require Import NbrModel SmearModel SmearCalc SmearProps.
Import ListNotations.
Local Open Scope R_scope.

(** ** C62 *)
Definition bit (v b : nat) : nat := Nat.modulo (Nat.div v (2 ^ b)) 2.
(** the eight values of a cell are the values at its corners; the neighbor of the last point is the first one *)
Theorem C62_corners : forall N g i j k v, (v < 8)%nat -> (i < N)%nat -> (j < N)%nat -> (k < N)%nat ->
  corners N g i j k v = g (Nat.modulo (i + bit v 0) N) (Nat.modulo (j + bit v 1) N) (Nat.modulo (k + bit v 2) N).
Proof.
  intros N g i j k v Hv Hi Hj Hk.
  assert (E : forall a, (a < N)%nat -> Nat.modulo (a + 0) N = a) by (intros; rewrite Nat.add_0_r; apply Nat.mod_small; auto).
  unfold corners, roll_list.
  Ltac cbit v b := let r := eval vm_compute in (bit v b) in change (bit v b) with r.
  do 8 (destruct v as [|v]; [cbn [app map nth]; unfold roll0, roll1, roll2;
    match goal with |- context [bit ?w 0] => cbit w 0%nat; cbit w 1%nat; cbit w 2%nat end;
    rewrite ?E by auto; rewrite ?Nat.add_1_r; reflexivity|]). lia.
Qed.
Print Assumptions C62_corners.

(** For values that are linear in the grid indices the cell data are the value at the center and the exact slopes, and the
    volume is the exact fraction of the cell below the energy. *)
Definition linear_grid (e0 p q r : R) : grid := fun i j k => e0 + p * INR i + q * INR j + r * INR k.
Lemma linear_cell : forall N e0 p q r i j k, (S i < N)%nat -> (S j < N)%nat -> (S k < N)%nat ->
  let a := corners N (linear_grid e0 p q r) i j k in
  cell_mean a = e0 + p * (INR i + 1/2) + q * (INR j + 1/2) + r * (INR k + 1/2) /\ cell_dx a = p /\ cell_dy a = q /\ cell_dz a = r.
Proof.
  intros N e0 p q r i j k Hi Hj Hk a.
  assert (C : forall v, (v < 8)%nat -> a v = e0 + p * INR (i + bit v 0) + q * INR (j + bit v 1) + r * INR (k + bit v 2)).
  { intros v Hv. unfold a. rewrite C62_corners by lia.
    assert (forall w b, (bit w b < 2)%nat) as B by (intros; unfold bit; apply Nat.mod_upper_bound; lia).
    pose proof (B v 0%nat). pose proof (B v 1%nat). pose proof (B v 2%nat).
    rewrite !Nat.mod_small by lia. reflexivity. }
  unfold cell_mean, cell_dx, cell_dy, cell_dz.
  rewrite !C by lia. clear C a.
  change (bit 0 0) with 0%nat; change (bit 0 1) with 0%nat; change (bit 0 2) with 0%nat.
  change (bit 1 0) with 1%nat; change (bit 1 1) with 0%nat; change (bit 1 2) with 0%nat.
  change (bit 2 0) with 0%nat; change (bit 2 1) with 1%nat; change (bit 2 2) with 0%nat.
  change (bit 3 0) with 1%nat; change (bit 3 1) with 1%nat; change (bit 3 2) with 0%nat.
  change (bit 4 0) with 0%nat; change (bit 4 1) with 0%nat; change (bit 4 2) with 1%nat.
  change (bit 5 0) with 1%nat; change (bit 5 1) with 0%nat; change (bit 5 2) with 1%nat.
  change (bit 6 0) with 0%nat; change (bit 6 1) with 1%nat; change (bit 6 2) with 1%nat.
  change (bit 7 0) with 1%nat; change (bit 7 1) with 1%nat; change (bit 7 2) with 1%nat.
  rewrite !plus_INR. change (INR 0) with 0. change (INR 1) with 1.
  repeat split; field.
Qed.
Theorem C62_linear_band : forall N e0 p q r i j k value, (S i < N)%nat -> (S j < N)%nat -> (S k < N)%nat ->
  let n := sqrt (Rabs p ^ 2 + Rabs q ^ 2 + Rabs r ^ 2) + / 10 ^ 40 in
  EPSILON * n <= Rabs p -> EPSILON * n <= Rabs q -> EPSILON * n <= Rabs r ->
  cube_fraction (fun x y z => Rltb (e0 + p * (INR i + 1/2 + x) + q * (INR j + 1/2 + y) + r * (INR k + 1/2 + z)) value)
    (cubes_volume N (linear_grid e0 p q r) value i j k).
Proof.
  intros N e0 p q r i j k value Hi Hj Hk n Hp Hq Hr.
  destruct (linear_cell N e0 p q r i j k Hi Hj Hk) as (M & X & Y & Z). unfold cubes_volume. rewrite M, X, Y, Z.
  set (m := e0 + p * (INR i + 1/2) + q * (INR j + 1/2) + r * (INR k + 1/2)).
  destruct (C46_exact_fraction (value - m) p q r Hp Hq Hr) as (l & a & L & A & V).
  exists l, a. split; [|auto]. intros x y Hx Hy. eapply is_RInt_ext; [|apply L; auto].
  intros z _. cbv beta. f_equal. unfold Rltb, m. destruct (Rlt_dec _ (value - _)), (Rlt_dec _ value); auto; exfalso; lra.
Qed.
Print Assumptions C62_linear_band.
(** the derivative with respect to the energy is the one of CubesSmearing.dvolume, on every grid *)
Theorem C62_dvolume : forall N g i j k value,
  is_derive (fun value => cubes_volume N g value i j k) value (cubes_dvolume N g value i j k).
Proof.
  intros. unfold cubes_volume, cubes_dvolume.
  set (m := cell_mean _). set (gx := cell_dx _). set (gy := cell_dy _). set (gz := cell_dz _).
  replace (cube_cut_dvolume (value - m) (cube_precomp gx gy gz)) with (scal 1 (cube_cut_dvolume (value - m) (cube_precomp gx gy gz)))
    by (unfold scal; simpl; unfold mult; simpl; ring).
  apply (is_derive_comp (fun t => cube_cut_volume t (cube_precomp gx gy gz)) (fun value => value - m)).
  - apply C47_derivative.
  - auto_derive; auto; ring.
Qed.
Print Assumptions C62_dvolume.
(** non-trivial instance: slopes 1, 2, -2, half of the cell (1,0,2) is below its center value *)
Example C62_example : cubes_volume 5 (linear_grid 0 1 2 (-2)) (-5/2) 1%nat 0%nat 2%nat = 1 / 2.
Proof.
  unfold cubes_volume.
  destruct (linear_cell 5 0 1 2 (-2) 1%nat 0%nat 2%nat ltac:(lia) ltac:(lia) ltac:(lia)) as (M & X & Y & Z). rewrite M, X, Y, Z.
  change (INR 0) with 0. change (INR 1) with 1. change (INR 2) with (1 + 1).
  match goal with |- cube_cut_volume ?t _ = _ => replace t with 0 by field end.
  pose proof (C46_symmetric 0 1 2 (-2)) as H. rewrite Ropp_0 in H. lra.
Qed.

(** ** C63: the extrapolation removes all error terms it is made for *)
Fixpoint psum (n : nat) (f : nat -> R) : R := match n with O => 0 | S m => psum m f + f m end.
Lemma psum_ext : forall n f g, (forall i, (i < n)%nat -> f i = g i) -> psum n f = psum n g.
Proof. induction n; intros f g H; simpl; auto. rewrite (IHn f g), H by auto; auto. Qed.
Lemma psum_shift : forall n f, psum (S n) f = f 0%nat + psum n (fun i => f (S i)).
Proof. induction n; intros f; [simpl; ring|]. cbn [psum] in *. rewrite IHn. ring. Qed.
Lemma psum_lin : forall n f g a b, psum n (fun i => a * f i + b * g i) = a * psum n f + b * psum n g.
Proof. induction n; intros; simpl; [ring|]. rewrite IHn. ring. Qed.

Lemma inner_map : forall den n f s, extra_inner den (map f (seq s (S n))) = map (fun k => f (S k) + (f (S k) - f k) / den) (seq s n).
Proof.
  intros den n. induction n; intros f s; auto.
  cbn [seq map]. cbn [seq map] in IHn. cbn [extra_inner]. f_equal. apply IHn.
Qed.
Lemma loop_exact : forall p, (1 <= p)%nat -> forall n m f L (c : nat -> R), (1 <= m)%nat ->
  (forall k, f k = L + psum n (fun j => c j * ((/ 2 ^ p) ^ (m + j)) ^ k)) ->
  nth 0 (extra_loop n m p (map f (seq 0 (S n)))) 0 = L.
Proof.
  intros p Hp. induction n as [|n IH]; intros m f L c Hm Hf.
  - cbn [extra_loop seq map nth]. rewrite Hf. cbn [psum]. ring.
  - cbn [extra_loop]. rewrite inner_map.
    assert (Q1 : 1 < 2 ^ p).
    { apply Rlt_le_trans with (2 ^ 1); [lra|]. apply Rle_pow; [lra|lia]. }
    assert (Qm : forall e, (1 <= e)%nat -> 1 < (2 ^ p) ^ e).
    { intros e He. apply Rlt_le_trans with ((2 ^ p) ^ 1); [lra|]. apply Rle_pow; [lra|lia]. }
    set (q := / 2 ^ p) in *. assert (Hq : q * 2 ^ p = 1) by (unfold q; field; lra).
    pose proof (Qm m Hm) as Hqm. set (D := (2 ^ p) ^ m) in *.
    assert (HqD : q ^ m * D = 1) by (unfold D; rewrite <- Rpow_mult_distr, Hq; apply pow1).
    apply (IH (S m) _ L (fun j => c (S j) * (q ^ (m + S j) + (q ^ (m + S j) - 1) / (D - 1)))); [lia|].
    intros k. rewrite !Hf, !psum_shift.
    set (A := fun i => c (S i) * (q ^ (m + S i)) ^ S k). set (B := fun i => c (S i) * (q ^ (m + S i)) ^ k).
    replace (psum n (fun j => c (S j) * (q ^ (m + S j) + (q ^ (m + S j) - 1) / (D - 1)) * (q ^ (S m + j)) ^ k))
      with (psum n (fun i => (1 + / (D - 1)) * A i + (- / (D - 1)) * B i)).
    + rewrite psum_lin. rewrite Nat.add_0_r.
      assert (E0 : (q ^ m) ^ S k = q ^ m * (q ^ m) ^ k) by reflexivity. rewrite E0.
      assert (Eq : q ^ m = / D) by (apply Rmult_eq_reg_r with D; [rewrite HqD; field; lra|lra]).
      rewrite Eq. field. lra.
    + apply psum_ext. intros i _. unfold A, B. rewrite <- tech_pow_Rmult.
      replace (S m + i)%nat with (m + S i)%nat by lia. field. lra.
Qed.

(** Approximations T_k = L + sum_j c_j h_k^(p (j+1)) for the step sizes h_k = h / 2^k, as many as there are error terms
    plus one, are extrapolated to exactly L. *)
Theorem C63_extrapolation : forall p n L h (c : nat -> R), (1 <= p)%nat ->
  extrapolate_poly (map (fun k => L + psum n (fun j => c j * (h / 2 ^ k) ^ (p * S j))) (seq 0 (S n))) p = L.
Proof.
  intros p n L h c Hp. unfold extrapolate_poly. rewrite map_length, seq_length.
  replace (S n - 1)%nat with n by lia.
  apply (loop_exact p Hp n 1 _ L (fun j => c j * h ^ (p * S j))); auto.
  intros k. f_equal. apply psum_ext. intros j _. unfold Rdiv. rewrite Rpow_mult_distr, Rmult_assoc. do 2 f_equal.
  change (1 + j)%nat with (S j). rewrite !pow_inv, <- !pow_mult. do 2 f_equal. lia.
Qed.
Print Assumptions C63_extrapolation.
(** the use in smearing.py: two grids, second order *)
Corollary C63_two_grids : forall T0 T1, extrapolate_poly [T0; T1] 2 = T1 + (T1 - T0) / 3.
Proof. intros. unfold extrapolate_poly. cbn [length Nat.sub extra_loop extra_inner nth]. f_equal. field. Qed.
Print Assumptions C63_two_grids.
Example C63_example : extrapolate_poly [7 + 3; 7 + 3 / 4] 2 = 7.
Proof. rewrite C63_two_grids. field. Qed.

(** ** C64: the documented range 0 to 1 does not hold for the extrapolated cubes *)
Definition peak_grid : grid := fun i j k => match i, j, k with O, O, O => 10 | _, _, _ => 0 end.
Lemma sides_full : forall t gx gy gz g, 0 < g <= 10 -> Rabs gx = g -> Rabs gy = g -> Rabs gz = g -> 3 / 2 * g + 1 / 100 < t ->
  cube_cut_volume t (cube_precomp gx gy gz) = 1.
Proof.
  intros t gx gy gz g Hg Ex Ey Ez Ht. apply C46_sides_partial. intros x y z Hx Hy Hz.
  assert (B : forall a u, Rabs a = g -> -1/2 <= u <= 1/2 -> a * u <= g / 2).
  { intros a u Ha Hu. unfold Rabs in Ha. destruct Rcase_abs; nra. }
  pose proof (B gx x Ex Hx). pose proof (B gy y Ey Hy). pose proof (B gz z Ez Hz).
  assert (N : c_n (cube_precomp gx gy gz) <= 20).
  { unfold cube_precomp; cbn [c_n]. rewrite Ex, Ey, Ez.
    assert (sqrt (g ^ 2 + g ^ 2 + g ^ 2) <= 18).
    { rewrite <- (sqrt_pow2 18) by lra. apply sqrt_le_1; nra. }
    lra. }
  rewrite EPS_val. lra.
Qed.
Theorem C64_range_refuted : extra_volume 2 peak_grid 9 0%nat 0%nat 0%nat = 4 / 3.
Proof.
  unfold extra_volume. rewrite C63_two_grids.
  replace (cubes_volume (2 / 2) (coarse peak_grid) 9 0%nat 0%nat 0%nat) with 0.
  - replace (downscale (cubes_volume 2 peak_grid 9) 0%nat 0%nat 0%nat) with 1; [field|].
    unfold downscale. change (2 * 0)%nat with 0%nat.
    assert (F : forall i j k, (i < 2)%nat -> (j < 2)%nat -> (k < 2)%nat -> cubes_volume 2 peak_grid 9 i j k = 1).
    { intros i j k Hi Hj Hk. unfold cubes_volume.
      apply (sides_full _ _ _ _ (5/2)); [lra| | | |].
      all: destruct i as [|[|?]]; [| |lia]; destruct j as [|[|?]]; [| |lia| | |lia]; destruct k as [|[|?]]; try lia;
        unfold cell_mean, cell_dx, cell_dy, cell_dz, corners, roll_list, roll0, roll1, roll2; cbn [app map nth];
        cbn [Nat.modulo Nat.divmod Nat.sub fst snd peak_grid];
        try lra; match goal with |- Rabs ?x = _ => first [replace x with (5/2) by field; rewrite Rabs_right; lra | replace x with (-(5/2)) by field; rewrite Rabs_left; lra] end. }
    rewrite !F by lia. field.
  - unfold cubes_volume. change (Nat.div 2 2) with 1%nat.
    unfold cell_mean, cell_dx, cell_dy, cell_dz, corners, roll_list, roll0, roll1, roll2, coarse. cbn [app map nth].
    cbn [Nat.modulo Nat.divmod Nat.sub Nat.mul Nat.add fst snd peak_grid].
    match goal with |- context [cube_precomp ?x ?y ?z] =>
      replace x with 0 by field; replace y with 0 by field; replace z with 0 by field end.
    replace (9 - (10 + 10 + 10 + 10 + 10 + 10 + 10 + 10) / 8) with (-1) by field.
    symmetry. apply C46_sides_partial. intros x y z _ _ _. unfold cube_precomp; cbn [c_n]. rewrite Rabs_R0, EPS_val.
    replace (0 ^ 2 + 0 ^ 2 + 0 ^ 2) with 0 by ring. rewrite sqrt_0. lra.
Qed.
Print Assumptions C64_range_refuted.
(** what holds: the result differs from the fine fraction by at most a third *)
Theorem C64_range_partial : forall N g value i j k, - (1 / 3) <= extra_volume N g value i j k <= 4 / 3.
Proof.
  intros. unfold extra_volume. rewrite C63_two_grids.
  assert (B : forall M h a b c, 0 <= cubes_volume M h value a b c <= 1) by (intros; unfold cubes_volume; apply C46_range).
  pose proof (B (N / 2)%nat (coarse g) i j k).
  assert (0 <= downscale (cubes_volume N g value) i j k <= 1).
  { unfold downscale. set (i2 := (2 * i)%nat). set (j2 := (2 * j)%nat). set (k2 := (2 * k)%nat).
    pose proof (B N g i2 j2 k2). pose proof (B N g (S i2) j2 k2). pose proof (B N g i2 (S j2) k2). pose proof (B N g i2 j2 (S k2)).
    pose proof (B N g (S i2) (S j2) (S k2)). pose proof (B N g i2 (S j2) (S k2)). pose proof (B N g (S i2) j2 (S k2)). pose proof (B N g (S i2) (S j2) k2). lra. }
  lra.
Qed.
Print Assumptions C64_range_partial.

(** ** C65: the sample point of a cell lies on the plane of the linear approximation *)
Lemma rsign_abs : forall x, x <> 0 -> x * rsign x = Rabs x.
Proof.
  intros x Hx. unfold rsign, Rabs, Rltb. destruct (Rlt_dec x 0), (Rcase_abs x), (Rlt_dec 0 x); try lra.
Qed.
Theorem C65_on_plane : forall t gx gy gz,
  let c := cube_precomp gx gy gz in let n := c_n c in
  EPSILON * n <= Rabs gx -> EPSILON * n <= Rabs gy -> EPSILON * n <= Rabs gz ->
  fst (cube_cut_area_com t c gx gy gz) <> 0 ->
  let '(x, y, z) := snd (cube_cut_area_com t c gx gy gz) in gx * x + gy * y + gz * z = t.
Proof.
  intros t gx gy gz c n Hx Hy Hz Ha.
  pose proof (precomp_good gx gy gz) as G. fold c in G. destruct G as (Px & Py & Pz & Pn & _). fold n in Pn.
  pose proof EPS_pos as He.
  assert (E : forall g, EPSILON * n <= Rabs g -> Rmax (Rabs g / n) EPSILON = Rabs g / n).
  { intros g Hg. apply Rmax_left. apply Rmult_le_reg_r with n; auto. unfold Rdiv; rewrite Rmult_assoc, Rinv_l by lra. lra. }
  assert (Nz : forall g, EPSILON * n <= Rabs g -> g <> 0).
  { intros g Hg ->. rewrite Rabs_R0 in Hg. nra. }
  assert (Gx : gx * rsign gx = n * c_x c) by (rewrite rsign_abs by auto; change (c_x c) with (Rmax (Rabs gx / n) EPSILON); rewrite E by auto; field; lra).
  assert (Gy : gy * rsign gy = n * c_y c) by (rewrite rsign_abs by auto; change (c_y c) with (Rmax (Rabs gy / n) EPSILON); rewrite E by auto; field; lra).
  assert (Gz : gz * rsign gz = n * c_z c) by (rewrite rsign_abs by auto; change (c_z c) with (Rmax (Rabs gz / n) EPSILON); rewrite E by auto; field; lra).
  clearbody c. destruct c as [a b d n']. cbn [c_x c_y c_z c_n] in *. subst n.
  unfold cube_cut_area_com in *. cbn [c_x c_y c_z c_n] in *.
  set (s := t / n') in *.
  destruct (Rltb (Rabs s) (sqrt 3 / 2)) eqn:Es.
  2:{ exfalso. apply Ha. cbn [fst]. destruct (rnz _); auto. unfold Rdiv; ring. }
  set (area := _ - pos ((- a - b - d) / 2 + s) ^ 2) in *.
  assert (Nar : area <> 0).
  { intros H. apply Ha. cbn [fst]. rewrite H. destruct (rnz _); auto. unfold Rdiv; ring. }
  assert (Rn : rnz area = true).
  { unfold rnz, Rltb. destruct (Rlt_dec area 0), (Rlt_dec 0 area); auto. exfalso; lra. }
  rewrite Rn. cbn [snd].
  (* each triangle corner lies on the plane or has weight zero *)
  assert (K : forall v, pos v ^ 2 * v = pos v ^ 2 * pos v).
  { intros v. destruct (pos_case v) as [[_ ->]|[_ ->]]; ring. }
  assert (Et : t = n' * s) by (unfold s; field; lra). rewrite Et.
  match goal with |- gx * (?X * rsign gx / area) + gy * (?Y * rsign gy / area) + gz * (?Z * rsign gz / area) = _ =>
    replace (gx * (X * rsign gx / area) + gy * (Y * rsign gy / area) + gz * (Z * rsign gz / area))
      with ((gx * rsign gx * X + gy * rsign gy * Y + gz * rsign gz * Z) / area) by (unfold Rdiv; ring) end.
  rewrite Gx, Gy, Gz. apply Rmult_eq_reg_r with area; auto. unfold Rdiv at 1. rewrite Rmult_assoc, Rinv_l, Rmult_1_r by auto.
  unfold area.
  pose proof (K ((a + b + d) / 2 + s)) as K0. pose proof (K ((- a + b + d) / 2 + s)) as K1.
  pose proof (K ((a - b + d) / 2 + s)) as K2. pose proof (K ((a + b - d) / 2 + s)) as K3.
  pose proof (K ((a - b - d) / 2 + s)) as K4. pose proof (K ((- a + b - d) / 2 + s)) as K5.
  pose proof (K ((- a - b + d) / 2 + s)) as K6. pose proof (K ((- a - b - d) / 2 + s)) as K7.
  set (v0 := pos ((a + b + d) / 2 + s)) in *. set (v1 := pos ((- a + b + d) / 2 + s)) in *.
  set (v2 := pos ((a - b + d) / 2 + s)) in *. set (v3 := pos ((a + b - d) / 2 + s)) in *.
  set (v4 := pos ((a - b - d) / 2 + s)) in *. set (v5 := pos ((- a + b - d) / 2 + s)) in *.
  set (v6 := pos ((- a - b + d) / 2 + s)) in *. set (v7 := pos ((- a - b - d) / 2 + s)) in *.
  clear - K0 K1 K2 K3 K4 K5 K6 K7 Px Py Pz.
  assert (T : forall v s1 s2 s3, v ^ 2 * (s1 / 2 + 1 / 3 / a * v) * a + v ^ 2 * (s2 / 2 + 1 / 3 / b * v) * b + v ^ 2 * (s3 / 2 + 1 / 3 / d * v) * d
     = v ^ 2 * ((s1 * a + s2 * b + s3 * d) / 2) + v ^ 2 * v) by (intros; field; lra).
  pose proof (T v0 (-1) (-1) (-1)) as T0. pose proof (T v1 1 (-1) (-1)) as T1. pose proof (T v2 (-1) 1 (-1)) as T2. pose proof (T v3 (-1) (-1) 1) as T3.
  pose proof (T v4 (-1) 1 1) as T4. pose proof (T v5 1 (-1) 1) as T5. pose proof (T v6 1 1 (-1)) as T6. pose proof (T v7 1 1 1) as T7.
  rewrite <- K0 in T0. rewrite <- K1 in T1. rewrite <- K2 in T2. rewrite <- K3 in T3. rewrite <- K4 in T4. rewrite <- K5 in T5. rewrite <- K6 in T6. rewrite <- K7 in T7.
  match goal with |- ?l = ?r => replace l with (n' * (
     (v0 ^ 2 * (-1 / 2 + 1 / 3 / a * v0) * a + v0 ^ 2 * (-1 / 2 + 1 / 3 / b * v0) * b + v0 ^ 2 * (-1 / 2 + 1 / 3 / d * v0) * d)
   - (v1 ^ 2 * (1 / 2 + 1 / 3 / a * v1) * a + v1 ^ 2 * (-1 / 2 + 1 / 3 / b * v1) * b + v1 ^ 2 * (-1 / 2 + 1 / 3 / d * v1) * d)
   - (v2 ^ 2 * (-1 / 2 + 1 / 3 / a * v2) * a + v2 ^ 2 * (1 / 2 + 1 / 3 / b * v2) * b + v2 ^ 2 * (-1 / 2 + 1 / 3 / d * v2) * d)
   + (v4 ^ 2 * (-1 / 2 + 1 / 3 / a * v4) * a + v4 ^ 2 * (1 / 2 + 1 / 3 / b * v4) * b + v4 ^ 2 * (1 / 2 + 1 / 3 / d * v4) * d)
   - (v3 ^ 2 * (-1 / 2 + 1 / 3 / a * v3) * a + v3 ^ 2 * (-1 / 2 + 1 / 3 / b * v3) * b + v3 ^ 2 * (1 / 2 + 1 / 3 / d * v3) * d)
   + (v5 ^ 2 * (1 / 2 + 1 / 3 / a * v5) * a + v5 ^ 2 * (-1 / 2 + 1 / 3 / b * v5) * b + v5 ^ 2 * (1 / 2 + 1 / 3 / d * v5) * d)
   + (v6 ^ 2 * (1 / 2 + 1 / 3 / a * v6) * a + v6 ^ 2 * (1 / 2 + 1 / 3 / b * v6) * b + v6 ^ 2 * (-1 / 2 + 1 / 3 / d * v6) * d)
   - (v7 ^ 2 * (1 / 2 + 1 / 3 / a * v7) * a + v7 ^ 2 * (1 / 2 + 1 / 3 / b * v7) * b + v7 ^ 2 * (1 / 2 + 1 / 3 / d * v7) * d))) by (unfold Rdiv; ring) end.
  rewrite T0, T1, T2, T3, T4, T5, T6, T7. field.
Qed.
Print Assumptions C65_on_plane.
(** the returned weight is the derivative of the volume times the norm of the gradient: the area of the cut *)
Theorem C65_area : forall t gx gy gz, let c := cube_precomp gx gy gz in
  fst (cube_cut_area_com t c gx gy gz) = cube_cut_dvolume t c * c_n c.
Proof.
  intros t gx gy gz c. pose proof (precomp_good gx gy gz) as G. fold c in G. rewrite dvolume_closed by auto.
  clearbody c. destruct c as [a b d n]. destruct G as (Pa & Pb & Pd & Pn & PS). cbn [c_x c_y c_z c_n] in *.
  unfold cube_cut_area_com. cbn [c_x c_y c_z c_n fst]. set (s := t / n).
  assert (Habc : 0 < a * b * d) by (repeat apply Rmult_lt_0_compat; auto).
  assert (Rn : rnz (Rabs (a * b * d)) = true).
  { unfold rnz. rewrite (Rabs_right (a * b * d)) by lra. rewrite (Rltb_t 0) by lra. apply Bool.orb_true_r. }
  rewrite Rn.
  replace (if Rltb (Rabs s) (sqrt 3 / 2) then _ else 0) with (corner_sum 2 s a b d).
  - field. repeat split; lra.
  - unfold Rltb. destruct Rlt_dec as [L|L].
    + unfold corner_sum.
      assert (C : forall x, x + s = s + x) by (intros; ring). rewrite !C. ring.
    + destruct (Rle_dec 0 s).
      * rewrite Rabs_right in L by lra. rewrite corner2_sym. apply (corner_out 1); lra.
      * rewrite Rabs_left in L by lra. replace s with (- - s) by ring. apply (corner_out 1); lra.
Qed.
Print Assumptions C65_area.
Example C65_example : fst (cube_cut_area_com 0 (cube_precomp 3 3 3) 3 3 3) <> 0.
Proof.
  rewrite C65_area. rewrite dvolume_closed by apply precomp_good.
  pose proof (precomp_good 3 3 3) as (Pa & Pb & Pd & Pn & _).
  assert (E : c_x (cube_precomp 3 3 3) = c_y (cube_precomp 3 3 3) /\ c_y (cube_precomp 3 3 3) = c_z (cube_precomp 3 3 3)) by (split; reflexivity).
  destruct (cube_precomp 3 3 3) as [a b d n]; cbn [c_x c_y c_z c_n] in *. destruct E as [<- <-].
  replace (0 / n) with 0 by (unfold Rdiv; ring). unfold corner_sum. rewrite !Rplus_0_l.
  rewrite (pos_pos ((a + a + a) / 2)), (pos_pos ((- a + a + a) / 2)), (pos_pos ((a - a + a) / 2)), (pos_pos ((a + a - a) / 2)) by lra.
  rewrite (pos_neg ((a - a - a) / 2)), (pos_neg ((- a + a - a) / 2)), (pos_neg ((- a - a + a) / 2)), (pos_neg ((- a - a - a) / 2)) by lra.
  replace ((((a + a + a) / 2) ^ 2 - ((- a + a + a) / 2) ^ 2 - ((a - a + a) / 2) ^ 2 - ((a + a - a) / 2) ^ 2 + 0 ^ 2 + 0 ^ 2 + 0 ^ 2 - 0 ^ 2) / (2 * (a * a * a * n)) * n)
    with (3 / 4 * / a) by (field; lra).
  assert (0 < / a) by (apply Rinv_0_lt_compat; auto). lra.
Qed.

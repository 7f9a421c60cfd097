(** Property C147, Bloch sums: the s, p and t2g entries of SlaterKosterOriginal (slater_koster.py). *)
From Coq Require Import Reals List Bool String Arith ZArith Lia Lra.
From Verif Require Import CplxR SkoModel SkoProps.
Import List ListNotations.
Local Open Scope R_scope.
Local Open Scope string_scope.

(** *** the entries are Bloch sums over the neighbors: sum over R of w(R) exp(i k R), with the overlap w(R) of an orbital at
    the origin and one at R. The signs of the p and t2g orbitals at R are those of x, y, z and of their products *)
(** absolute values in ascending order *)
Definition sort3 (x y z : Z) : list Z :=
  [Z.min x (Z.min y z); Z.max (Z.min x y) (Z.min (Z.max x y) z); Z.max x (Z.max y z)].
Definition shell (d : list Z) : list (Z * Z * Z) :=
  flat_map (fun x => flat_map (fun y => flat_map (fun z =>
    if list_eq_dec Z.eq_dec (sort3 (Z.abs x) (Z.abs y) (Z.abs z)) d then [(x, y, z)] else []) [-2;-1;0;1;2]%Z) [-2;-1;0;1;2]%Z) [-2;-1;0;1;2]%Z.
Definition coord (i : nat) (r : Z * Z * Z) : Z := match i with 0%nat => fst (fst r) | 1%nat => snd (fst r) | _ => snd r end.
Definition sg (i : nat) (r : Z * Z * Z) : R := IZR (Z.sgn (coord i r)).
Definition along (i : nat) (r : Z * Z * Z) (x y : R) : R := if Z.eqb (coord i r) 0 then y else x.
Definition bloch (k : nat -> R) (w : Z * Z * Z -> R) (l : list (Z * Z * Z)) : cplx :=
  let ph r := IZR (coord 0 r) * k 0%nat + IZR (coord 1 r) * k 1%nat + IZR (coord 2 r) * k 2%nat in
  (fold_right Rplus 0 (map (fun r => w r * cos (ph r)) l), fold_right Rplus 0 (map (fun r => w r * sin (ph r)) l)).
Definition csum (l : list cplx) : cplx := (fold_right Rplus 0 (map fst l), fold_right Rplus 0 (map snd l)).
(** the other two axes *)
Definition oth1 (i : nat) : nat := match i with 0%nat => 1%nat | _ => 0%nat end.
Definition oth2 (i : nat) : nat := match i with 2%nat => 1%nat | _ => 2%nat end.

Lemma cos3 x y z : cos (x + y + z) = cos x * cos y * cos z - sin x * sin y * cos z - sin x * cos y * sin z - cos x * sin y * sin z.
Proof. rewrite !cos_plus, !sin_plus. ring. Qed.
Lemma sin3 x y z : sin (x + y + z) = sin x * cos y * cos z + cos x * sin y * cos z + cos x * cos y * sin z - sin x * sin y * sin z.
Proof. rewrite !sin_plus, !cos_plus. ring. Qed.
Lemma bphase_z (z : Z) x : cos (IZR (- z) * x) = cos (IZR z * x) /\ sin (IZR (- z) * x) = - sin (IZR z * x).
Proof. rewrite opp_IZR, Ropp_mult_distr_l_reverse. split; [apply cos_neg|apply sin_neg]. Qed.

Theorem C147_bloch : forall a k, let S := fun w d => bloch k w (shell d) in
  sko_H a k 0 0 = csum [S (fun _ => a "s_s_000") [0;0;0]%Z; S (fun _ => a "s_s_100") [0;0;1]%Z; S (fun _ => a "s_s_110") [0;1;1]%Z;
                        S (fun _ => a "s_s_111") [1;1;1]%Z; S (fun _ => a "s_s_200") [0;0;2]%Z] /\
  (forall i, (i < 3)%nat ->
     sko_H a k 0 (1 + i) = csum [S (fun r => sg i r * a "s_x_100") [0;0;1]%Z; S (fun r => sg i r * a "s_x_110") [0;1;1]%Z;
                                 S (fun r => sg i r * a "s_x_111") [1;1;1]%Z; S (fun r => sg i r * a "s_x_200") [0;0;2]%Z]) /\
  (forall i, (i < 3)%nat ->
     sko_H a k 0 (4 + i) = csum [S (fun r => sg (oth1 i) r * sg (oth2 i) r * a "s_xy_110") [0;1;1]%Z;
                                 S (fun r => sg (oth1 i) r * sg (oth2 i) r * a "s_xy_111") [1;1;1]%Z]) /\
  (forall i, (i < 3)%nat ->
     sko_H a k (1 + i) (1 + i) =
       csum [S (fun _ => a "x_x_000") [0;0;0]%Z; S (fun r => along i r (a "x_x_100") (a "y_y_100")) [0;0;1]%Z;
             S (fun r => along i r (a "x_x_110") (a "x_x_011")) [0;1;1]%Z; S (fun _ => a "x_x_111") [1;1;1]%Z;
             S (fun r => along i r (a "x_x_200") (a "y_y_200")) [0;0;2]%Z]) /\
  (forall i j, (i < 3)%nat -> (j < 3)%nat -> i <> j ->
     sko_H a k (1 + i) (1 + j) = csum [S (fun r => sg i r * sg j r * a "x_y_110") [0;1;1]%Z; S (fun r => sg i r * sg j r * a "x_y_111") [1;1;1]%Z]) /\
  (forall i, (i < 3)%nat ->
     sko_H a k (4 + i) (4 + i) =
       csum [S (fun _ => a "xy_xy_000") [0;0;0]%Z; S (fun r => along i r (a "xy_xy_001") (a "xy_xy_100")) [0;0;1]%Z;
             S (fun r => along i r (a "xy_xy_011") (a "xy_xy_110")) [0;1;1]%Z; S (fun _ => a "xy_xy_111") [1;1;1]%Z;
             S (fun r => along i r (a "xy_xy_002") (a "xy_xy_200")) [0;0;2]%Z]) /\
  (forall i j, (i < 3)%nat -> (j < 3)%nat -> i <> j ->
     sko_H a k (4 + i) (4 + j) = csum [S (fun r => sg i r * sg j r * a "xy_xz_011") [0;1;1]%Z; S (fun r => sg i r * sg j r * a "xy_xz_111") [1;1;1]%Z]).
Proof.
  intros a k S.
  assert (E : forall w d l, shell d = l -> S w d = bloch k w l) by (intros w d l <-; reflexivity).
  assert (S0 := fun w => E w [0;0;0]%Z _ eq_refl). assert (S1 := fun w => E w [0;0;1]%Z _ eq_refl). assert (S2 := fun w => E w [0;1;1]%Z _ eq_refl).
  assert (S3 := fun w => E w [1;1;1]%Z _ eq_refl). assert (S4 := fun w => E w [0;0;2]%Z _ eq_refl).
  vm_compute shell in S0, S1, S2, S3, S4. clearbody S. clear E.
  assert (M1 : forall x, cos (IZR (-1) * x) = cos x /\ sin (IZR (-1) * x) = - sin x).
  { intros x. destruct (bphase_z 1 x) as [A B]. rewrite Rmult_1_l in *. auto. }
  assert (M2 : forall x, cos (IZR (-2) * x) = cos (2 * x) /\ sin (IZR (-2) * x) = - sin (2 * x)) by (intros x; exact (bphase_z 2 x)).
  split; [|split; [|split; [|split; [|split; [|split]]]]].
  all: try (apply lt3). all: try (intros i j Hi Hj; destruct i as [|[|[|i]]]; [..|lia]; (destruct j as [|[|[|j]]]; [..|lia]); intros Hn; try congruence; clear Hn Hi Hj).
  all: unfold csum; cbn [map]; rewrite ?S0, ?S1, ?S2, ?S3, ?S4; unfold bloch, sg, along, oth1, oth2; cbn [map fst snd fold_right coord Z.sgn Z.eqb].
  all: unfold sko_H, cconj; cbn [Nat.add Nat.ltb Nat.leb nth sko_table fst snd]; apply f_equal2.
  all: rewrite ?cos3, ?sin3, ?Rmult_0_l, ?cos_0, ?sin_0, ?Rmult_1_l.
  all: repeat (rewrite ?(fun x => proj1 (M1 x)), ?(fun x => proj2 (M1 x)), ?(fun x => proj1 (M2 x)), ?(fun x => proj2 (M2 x))).
  all: cbv delta [e_s_s e_s_x e_s_y e_s_z e_s_xy e_s_xz e_s_yz e_x_x e_y_y e_z_z e_x_y e_y_z e_z_x
      e_xy_xy e_yz_yz e_xz_xz e_xy_xz e_xy_yz e_xz_yz c_0 c_1 c_2 s_0 s_1 s_2 c2_0 c2_1 c2_2 s2_0 s2_1 s2_2] beta; try ring.
Qed.
Print Assumptions C147_bloch.

(** the (1,1,0) shell, and the overlap of s and p_x with the twelve neighbors *)
Example C147_bloch_ex : List.length (shell [0;1;1]%Z) = 12%nat /\ List.length (shell [1;1;1]%Z) = 8%nat /\
  List.length (shell [0;0;1]%Z) = 6%nat /\ In (0,-1,1)%Z (shell [0;1;1]%Z) /\ sg 1 (0,-1,1)%Z = -1.
Proof. repeat split; try reflexivity. vm_compute. tauto. Qed.

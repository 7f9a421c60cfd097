(** Property C147: the matrix of SlaterKosterOriginal (slater_koster.py). *)
From Coq Require Import Reals List Bool String Arith Lia Lra.
From Verif Require Import CplxR SkoModel.
Import List ListNotations.
Local Open Scope R_scope.
Local Open Scope string_scope.

(** ** the constructor and the attributes *)
(** no object made by the constructor can be evaluated, and fcc() raises for all arguments *)
Theorem C147_attributes_refuted : forall given,
  (forall attrs, sko_init given = Some attrs -> sko_missing attrs = Some "s_s_100") /\
  sko_fcc given = None.
Proof.
  intros given. split; [|reflexivity]. intros attrs. unfold sko_init. destruct (_ && _); [|discriminate].
  intros E. injection E as <-. reflexivity.
Qed.
(** a valid call of the constructor *)
Example C147_ex_attributes : sko_init sko_required = Some ("self" :: sko_required ++ sko_optional) /\
  filter (fun x => negb (existsb (String.eqb x) (sko_required ++ sko_optional))) sko_reads =
  ["s_s_100"; "s_s_111"; "s_x_100"; "s_x_111"; "s_xy_111"; "s_d2_001"; "x_x_100"; "y_y_100"; "x_x_111"; "x_y_111";
   "x_xy_010"; "x_xy_111"; "x_yz_111"; "z_d2_001"; "x_d1_111"; "xy_xy_100"; "xy_xy_001"; "xy_xy_111"; "xy_xz_111";
   "xy_d2_111"; "d2_d2_1001"; "d1_d1_001"; "d2_d2_111"; "d2_d2_001"].
Proof. split; reflexivity. Qed.

(** ** the matrix, for objects that got all attributes *)
Lemma lt9 (P : nat -> Prop) : P 0%nat -> P 1%nat -> P 2%nat -> P 3%nat -> P 4%nat -> P 5%nat -> P 6%nat -> P 7%nat -> P 8%nat ->
  forall i, (i < 9)%nat -> P i.
Proof. intros; do 9 (destruct i as [|i]; [assumption|]). lia. Qed.

Theorem C147_hermitian : forall a k i j, (i < 9)%nat -> (j < 9)%nat -> sko_H a k j i = cconj (sko_H a k i j).
Proof.
  intros a k i j Hi Hj. revert i Hi. apply lt9; revert j Hj; apply lt9;
    unfold sko_H, cconj; cbn [Nat.ltb Nat.leb nth sko_table fst snd]; try rewrite !Ropp_involutive; try rewrite !Ropp_0; reflexivity.
Qed.

(** H(-k) is the complex conjugate of H(k), except for the terms with x_d1_111 *)
Definition kneg (k : nat -> R) : nat -> R := fun i => - k i.
Lemma trig_neg k : (c_0 (kneg k) = c_0 k /\ c_1 (kneg k) = c_1 k /\ c_2 (kneg k) = c_2 k) /\
  (s_0 (kneg k) = - s_0 k /\ s_1 (kneg k) = - s_1 k /\ s_2 (kneg k) = - s_2 k) /\
  (c2_0 (kneg k) = c2_0 k /\ c2_1 (kneg k) = c2_1 k /\ c2_2 (kneg k) = c2_2 k) /\
  (s2_0 (kneg k) = - s2_0 k /\ s2_1 (kneg k) = - s2_1 k /\ s2_2 (kneg k) = - s2_2 k).
Proof.
  unfold c_0, c_1, c_2, s_0, s_1, s_2, c2_0, c2_1, c2_2, s2_0, s2_1, s2_2, kneg.
  repeat rewrite <- !Ropp_mult_distr_r. repeat split; (apply cos_neg || apply sin_neg || (rewrite Ropp_mult_distr_r_reverse; (apply cos_neg || apply sin_neg))).
Qed.
Theorem C147_time_reversal : forall a k i j, a "x_d1_111" = 0 -> (i < 9)%nat -> (j < 9)%nat ->
  sko_H a (kneg k) i j = cconj (sko_H a k i j).
Proof.
  intros a k i j H0 Hi Hj. destruct (trig_neg k) as ((A0 & A1 & A2) & (B0 & B1 & B2) & (C0 & C1 & C2) & (D0 & D1 & D2)).
  revert i Hi. apply lt9; revert j Hj; apply lt9; unfold sko_H, cconj; cbn [Nat.ltb Nat.leb nth sko_table fst snd];
    apply f_equal2; try ring;
    cbv delta [e_s_s e_s_x e_s_y e_s_z e_s_xy e_s_xz e_s_yz e_s_d1 e_s_d2 e_x_x e_y_y e_z_z e_x_y e_y_z e_z_x e_x_xy e_x_xz
      e_x_yz e_y_xz e_z_xy e_x_d1 e_y_d1 e_x_d2_re e_x_d2_im e_y_d2_re e_y_d2_im e_z_d2 e_z_d1 e_xy_xy e_yz_yz e_xz_xz e_xy_xz
      e_xy_yz e_xz_yz e_xy_d1 e_xy_d2 e_xz_d1 e_yz_d1 e_xz_d2 e_yz_d2 e_d1_d1 e_d2_d2 e_d1_d2] beta;
    rewrite ?H0, ?A0, ?A1, ?A2, ?B0, ?B1, ?B2, ?C0, ?C1, ?C2, ?D0, ?D1, ?D2; ring.
Qed.

(** one nonzero parameter *)
Definition only (name : string) : string -> R := fun x => if String.eqb x name then 1 else 0.
Definition kpt (x y z : R) : nat -> R := fun i => match i with 0%nat => x | 1%nat => y | _ => z end.

Theorem C147_time_reversal_refuted : exists a k i j, (i < 9)%nat /\ (j < 9)%nat /\ sko_H a (kneg k) i j <> cconj (sko_H a k i j).
Proof.
  exists (only "x_d1_111"), (kpt (PI / 2) 0 0), 1%nat, 8%nat. split; [lia|]. split; [lia|].
  unfold sko_H, cconj; cbn [Nat.ltb Nat.leb nth sko_table fst snd]. intros E. apply (f_equal fst) in E. cbn [fst] in E.
  destruct (trig_neg (kpt (PI / 2) 0 0)) as ((A0 & A1 & A2) & (B0 & _) & _).
  unfold e_x_d2_re in E. rewrite A1, A2, B0 in E. unfold s_0, c_1, c_2, kpt in E. rewrite sin_PI2, cos_0 in E.
  change (only "x_d1_111" "x_d1_111") with 1 in E.
  assert (S3 : 0 < sqrt 3) by (apply sqrt_lt_R0; lra).
  assert (0 < 8 / sqrt 3) by (apply Rdiv_lt_0_compat; lra). lra.
Qed.

(** *** the cubic group acts on the s, p and t2g (yz, xz, xy) orbitals: [k' = (e0 k(p 0), e1 k(p 1), e2 k(p 2))] for a
    permutation p of the axes and signs e. The orbital without the axis i is the one at 4 + i *)
Definition perm3 (p : nat -> nat) : Prop :=
  (forall i, (i < 3)%nat -> (p i < 3)%nat) /\ (forall i j, (i < 3)%nat -> (j < 3)%nat -> p i = p j -> i = j).
Definition cubic (p : nat -> nat) (e : nat -> R) (k : nat -> R) : nat -> R := fun i => e i * k (p i).
Definition smul (x : R) (z : cplx) : cplx := (x * fst z, x * snd z).
Definition esign (e : nat -> R) (i : nat) : R := match i with 0%nat => e 1%nat * e 2%nat | 1%nat => e 0%nat * e 2%nat | _ => e 0%nat * e 1%nat end.

Lemma lt3 (P : nat -> Prop) : P 0%nat -> P 1%nat -> P 2%nat -> forall i, (i < 3)%nat -> P i.
Proof. intros; do 3 (destruct i as [|i]; [assumption|]). lia. Qed.
Lemma trig_sign e x : e = 1 \/ e = -1 -> cos (e * x) = cos x /\ sin (e * x) = e * sin x /\ cos (2 * (e * x)) = cos (2 * x) /\
  sin (2 * (e * x)) = e * sin (2 * x).
Proof.
  intros [->| ->].
  - rewrite !Rmult_1_l. repeat split; reflexivity.
  - replace (-1 * x) with (- x) by ring. replace (2 * - x) with (- (2 * x)) by ring. rewrite !cos_neg, !sin_neg.
    repeat split; ring.
Qed.

Theorem C147_cubic : forall a p e k, perm3 p -> (forall i, (i < 3)%nat -> e i = 1 \/ e i = -1) ->
  let k' := cubic p e k in
  sko_H a k' 0 0 = sko_H a k 0 0 /\
  (forall i, (i < 3)%nat -> sko_H a k' 0 (1 + i) = smul (e i) (sko_H a k 0 (1 + p i))) /\
  (forall i j, (i < 3)%nat -> (j < 3)%nat ->
     sko_H a k' (1 + i) (1 + j) = smul (e i * e j) (sko_H a k (1 + p i) (1 + p j))) /\
  (forall i, (i < 3)%nat -> sko_H a k' 0 (4 + i) = smul (esign e i) (sko_H a k 0 (4 + p i))) /\
  (forall i j, (i < 3)%nat -> (j < 3)%nat ->
     sko_H a k' (4 + i) (4 + j) = smul (esign e i * esign e j) (sko_H a k (4 + p i) (4 + p j))).
Proof.
  intros a p e k [P1 P2] He k'.
  pose proof (trig_sign _ (k (p 0%nat)) (He 0%nat ltac:(lia))) as (A0 & A1 & A2 & A3).
  pose proof (trig_sign _ (k (p 1%nat)) (He 1%nat ltac:(lia))) as (B0 & B1 & B2 & B3).
  pose proof (trig_sign _ (k (p 2%nat)) (He 2%nat ltac:(lia))) as (C0 & C1 & C2 & C3).
  pose proof (He 0%nat ltac:(lia)) as E0. pose proof (He 1%nat ltac:(lia)) as E1. pose proof (He 2%nat ltac:(lia)) as E2.
  assert (Q0 : e 0%nat * e 0%nat = 1) by (destruct E0 as [-> | ->]; ring).
  assert (Q1 : e 1%nat * e 1%nat = 1) by (destruct E1 as [-> | ->]; ring).
  assert (Q2 : e 2%nat * e 2%nat = 1) by (destruct E2 as [-> | ->]; ring).
  pose proof (P1 0%nat ltac:(lia)) as L0. pose proof (P1 1%nat ltac:(lia)) as L1. pose proof (P1 2%nat ltac:(lia)) as L2.
  pose proof (P2 0%nat 1%nat ltac:(lia) ltac:(lia)) as N01. pose proof (P2 0%nat 2%nat ltac:(lia) ltac:(lia)) as N02.
  pose proof (P2 1%nat 2%nat ltac:(lia) ltac:(lia)) as N12.
  assert (T : (c_0 k' = cos (k (p 0%nat)) /\ c_1 k' = cos (k (p 1%nat)) /\ c_2 k' = cos (k (p 2%nat))) /\
    (s_0 k' = e 0%nat * sin (k (p 0%nat)) /\ s_1 k' = e 1%nat * sin (k (p 1%nat)) /\ s_2 k' = e 2%nat * sin (k (p 2%nat))) /\
    (c2_0 k' = cos (2 * k (p 0%nat)) /\ c2_1 k' = cos (2 * k (p 1%nat)) /\ c2_2 k' = cos (2 * k (p 2%nat))) /\
    (s2_0 k' = e 0%nat * sin (2 * k (p 0%nat)) /\ s2_1 k' = e 1%nat * sin (2 * k (p 1%nat)) /\ s2_2 k' = e 2%nat * sin (2 * k (p 2%nat)))).
  { unfold c_0, c_1, c_2, s_0, s_1, s_2, c2_0, c2_1, c2_2, s2_0, s2_1, s2_2, k', cubic. repeat split; assumption. }
  destruct T as ((a0 & a1 & a2) & (b0 & b1 & b2) & (c0 & c1 & c2) & (d0 & d1 & d2)).
  clearbody k'. clear A0 A1 A2 A3 B0 B1 B2 B3 C0 C1 C2 C3 E0 E1 E2 He P1 P2.
  split; [|split; [|split; [|split]]].
  all: try (apply lt3). all: try (intros i j Hi Hj; revert i Hi; apply lt3; revert j Hj; apply lt3).
  all: unfold esign; destruct (p 0%nat) as [|[|[|]]]; try lia; destruct (p 1%nat) as [|[|[|]]]; try lia; destruct (p 2%nat) as [|[|[|]]]; try lia; try (exfalso; lia).
  all: unfold sko_H, smul, cconj; cbn [Nat.add Nat.ltb Nat.leb nth sko_table fst snd]; apply f_equal2; try ring.
  all: cbv delta [e_s_s e_s_x e_s_y e_s_z e_s_xy e_s_xz e_s_yz e_x_x e_y_y e_z_z e_x_y e_y_z e_z_x
      e_xy_xy e_yz_yz e_xz_xz e_xy_xz e_xy_yz e_xz_yz] beta;
    rewrite ?a0, ?a1, ?a2, ?b0, ?b1, ?b2, ?c0, ?c1, ?c2, ?d0, ?d1, ?d2;
    cbv delta [c_0 c_1 c_2 s_0 s_1 s_2 c2_0 c2_1 c2_2 s2_0 s2_1 s2_2] beta.
  all: ring [Q0 Q1 Q2].
Qed.

(** the p-d block: under the cyclic rotation of the axes the entry (y, yz) has to become the entry (x, xy), but the code
    uses x_xy in its place (l.412-413), already for the nearest neighbor parameter x_xy_110 of the fcc lattice *)
Definition cyc (i : nat) : nat := match i with 0%nat => 2%nat | 1%nat => 0%nat | _ => 1%nat end.
Lemma cyc_perm : perm3 cyc.
Proof.
  split.
  - apply lt3; simpl; lia.
  - intros i j Hi Hj. destruct i as [|[|[|i]]]; [..|lia]; (destruct j as [|[|[|j]]]; [..|lia]); cbn; lia.
Qed.
Theorem C147_pd_refuted : exists a k, perm3 cyc /\
  sko_H a (cubic cyc (fun _ => 1) k) (1 + 1) (4 + 0) <> smul (1 * (1 * 1)) (sko_H a k (1 + cyc 1) (4 + cyc 0)).
Proof.
  exists (only "x_xy_110"), (kpt 0 (PI / 2) 0). split; [exact cyc_perm|]. intros E. apply (f_equal snd) in E.
  unfold sko_H, smul in E. cbn [cyc Nat.add Nat.ltb Nat.leb nth sko_table fst snd] in E.
  unfold e_x_xy, s_1, c_0, c_2, cubic in E. cbn [cyc kpt] in E. unfold only in E. cbn in E.
  rewrite !Rmult_0_r, sin_PI2, cos_0, sin_0 in E. lra.
Qed.

(** the e_g orbitals d1, d2 belong together in a cubic crystal, so their energies agree at k = 0; the code gives 9/2 and 6
    times d1_d1_110 *)
Theorem C147_eg_refuted : exists a, sko_H a (kpt 0 0 0) 7 7 <> sko_H a (kpt 0 0 0) 8 8.
Proof.
  exists (only "d1_d1_110"). intros E. apply (f_equal fst) in E. unfold sko_H in E. cbn [Nat.ltb Nat.leb nth sko_table fst snd] in E.
  unfold e_d1_d1, e_d2_d2, c_0, c_1, c_2, c2_0, c2_1, c2_2 in E. cbn [kpt] in E. unfold only in E. cbn in E.
  rewrite Rmult_0_r, cos_0 in E. lra.
Qed.
(** d2 = 3z^2 - r^2 is unchanged when x and y are swapped; the entry (d2, d2) is not, for the parameter d2_d2_110 *)
Theorem C147_d2_refuted : exists a k, sko_H a (kpt (k 1%nat) (k 0%nat) (k 2%nat)) 8 8 <> sko_H a k 8 8.
Proof.
  exists (only "d2_d2_110"), (kpt PI 0 0). intros E. apply (f_equal fst) in E. unfold sko_H in E.
  cbn [Nat.ltb Nat.leb nth sko_table fst snd] in E.
  unfold e_d2_d2, c_0, c_1, c_2, c2_0, c2_1, c2_2 in E. cbn [kpt] in E. unfold only in E. cbn in E.
  rewrite cos_PI, cos_0 in E. lra.
Qed.

(** the hypotheses of the theorems, with nonzero entries in all of the blocks *)
Example C147_ex : perm3 cyc /\ (forall i, (i < 3)%nat -> kpt 1 (-1) 1 i = 1 \/ kpt 1 (-1) 1 i = -1) /\
  only "x_y_110" "x_d1_111" = 0 /\
  sko_H (only "x_y_110") (kpt (PI / 2) (PI / 2) 0) 1 2 = (-4, 0) /\
  sko_H (only "s_x_110") (kpt (PI / 2) 0 0) 0 1 = (0, 8) /\ sko_H (only "s_x_110") (kpt (PI / 2) 0 0) 1 0 = (0, -8) /\
  sko_H (only "xy_xz_011") (kpt 0 (PI / 2) (PI / 2)) 5 6 = (-4, 0).
Proof.
  split; [exact cyc_perm|]. split; [apply lt3; simpl; lra|]. split; [reflexivity|].
  unfold sko_H, cconj. cbn [Nat.ltb Nat.leb nth sko_table fst snd].
  unfold e_x_y, e_s_x, e_xy_xz, s_0, s_1, s_2, c_0, c_1, c_2, s2_0. cbn [kpt]. unfold only. cbn.
  rewrite !sin_PI2, !cos_0. repeat split; apply f_equal2; ring.
Qed.
Print Assumptions C147_attributes_refuted.
Print Assumptions C147_hermitian.
Print Assumptions C147_time_reversal.
Print Assumptions C147_time_reversal_refuted.
Print Assumptions C147_cubic.
Print Assumptions C147_pd_refuted.
Print Assumptions C147_eg_refuted.
Print Assumptions C147_d2_refuted.

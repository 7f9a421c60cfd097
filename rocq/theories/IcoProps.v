(** C145: the icosahedral group of symmetry.py l.467-480.

    The 60 rotations have entries of the ring of the golden ratio in the basis of three neighbouring vertices of the icosahedron.
    The group is enumerated there and transported to the real matrices of the model. *)
From Coq Require Import Reals ZArith List Bool Arith Lia Lra Nsatz.
From Verif Require Import SRing LMat CplxR SymModel SymModel3 FinGroup SymGenProofs SymInitProofs RotModel RotProps.
Import List ListNotations.
Local Open Scope R_scope.

(** ** The ring Z[t] with t * t = 1 - t *)
Definition tadd (x y : Z * Z) : Z * Z := (fst x + fst y, snd x + snd y)%Z.
Definition tmul (x y : Z * Z) : Z * Z := (fst x * fst y + snd x * snd y, fst x * snd y + snd x * fst y - snd x * snd y)%Z.
Definition teqb (x y : Z * Z) : bool := Z.eqb (fst x) (fst y) && Z.eqb (snd x) (snd y).
Definition tmat := list (list (Z * Z)).
Definition tent (M : tmat) (i j : nat) : Z * Z := nth j (nth i M []) (0, 0)%Z.
Definition tmm (M N : tmat) : tmat := map (fun i => map (fun j =>
  tadd (tmul (tent M i 0) (tent N 0 j)) (tadd (tmul (tent M i 1) (tent N 1 j)) (tmul (tent M i 2) (tent N 2 j)))) [0; 1; 2]%nat) [0; 1; 2]%nat.
Definition tmv (M : tmat) (v : list (Z * Z)) : list (Z * Z) := map (fun i =>
  tadd (tmul (tent M i 0) (nth 0 v (0, 0)%Z)) (tadd (tmul (tent M i 1) (nth 1 v (0, 0)%Z)) (tmul (tent M i 2) (nth 2 v (0, 0)%Z)))) [0; 1; 2]%nat.
Definition tmeqb : tmat -> tmat -> bool := list_eqb (list_eqb teqb).
Lemma teqb_spec : forall x y, teqb x y = true <-> x = y.
Proof.
  intros [a b] [c d]. unfold teqb. cbn [fst snd]. rewrite andb_true_iff, !Z.eqb_eq. split; [intros [-> ->]; reflexivity|intro E; injection E; auto].
Qed.
Lemma tmeqb_spec : forall x y, tmeqb x y = true <-> x = y.
Proof. apply list_eqb_spec, list_eqb_spec, teqb_spec. Qed.

Definition teye : tmat := [[(1, 0); (0, 0); (0, 0)]; [(0, 0); (1, 0); (0, 0)]; [(0, 0); (0, 0); (1, 0)]]%Z.
(** the turn about the z axis and about its neighbouring vertex *)
Definition ta : tmat := [[(1, 0); (0, 0); (0, 1)]; [(0, 0); (0, 0); (-1, 0)]; [(0, 0); (1, 0); (0, 1)]]%Z.
Definition tb : tmat := [[(0, 1); (0, 0); (1, 0)]; [(0, 1); (1, 0); (0, 0)]; [(-1, 0); (0, 0); (0, 0)]]%Z.
Fixpoint tpow (M : tmat) (i : nat) : tmat := match i with O => teye | S i' => tmm M (tpow M i') end.
Definition tgens : list tmat := map (tpow ta) (seq 0 5) ++ map (tpow tb) (seq 0 5).
(** words of the 60 rotations *)
Definition words : list (list bool) := [[]; [true]; [false]; [true;true]; [false;true]; [true;false]; [false;false]; [true;true;true]; [false;true;true]; [true;false;true]; [false;false;true]; [true;true;false]; [true;false;false]; [false;false;false]; [true;true;true;true]; [false;true;true;true]; [true;false;true;true]; [false;false;true;true]; [true;true;false;true]; [false;false;false;true]; [true;true;true;false]; [true;true;false;false]; [true;false;false;false]; [false;false;false;false]; [false;true;true;true;true]; [true;false;true;true;true]; [false;false;true;true;true]; [false;false;false;true;true]; [true;true;true;false;true]; [true;false;false;false;true]; [false;false;false;false;true]; [true;true;true;true;false]; [false;true;true;true;false]; [true;true;true;false;false]; [true;true;false;false;false]; [true;false;false;false;false]; [true;false;true;true;true;true]; [false;false;true;true;true;true]; [false;false;false;true;true;true]; [true;false;false;false;true;true]; [false;false;false;false;true;true]; [true;true;true;true;false;true]; [true;true;false;false;false;true]; [true;false;false;false;false;true]; [false;true;true;true;true;false]; [false;false;true;true;true;false]; [true;true;true;true;false;false]; [false;true;true;true;false;false]; [true;true;true;false;false;false]; [true;true;false;false;false;false]; [true;false;false;false;true;true;true]; [true;true;false;false;false;true;true]; [true;false;false;false;false;true;true]; [true;true;true;false;false;false;true]; [true;true;false;false;false;false;true]; [false;false;true;true;true;true;false]; [false;false;false;true;true;true;false]; [false;true;true;true;true;false;false]; [false;true;true;true;false;false;false]; [false;true;true;true;false;false;false;true]].
Definition tlist : list tmat := map (fun w => wprod tmm teye (map (fun x : bool => if x then ta else tb) w)) words.
(** the vertices *)
Definition tops : list (list (Z * Z)) := [[(0, 0); (1, 0); (0, 0)]; [(0, 0); (0, 0); (1, 0)]; [(0, 1); (-1, 0); (0, 1)]; [(1, 0); (0, -1); (0, -1)]; [(0, 1); (0, 1); (-1, 0)]]%Z.
Definition tneg (v : list (Z * Z)) : list (Z * Z) := map (fun x => (- fst x, - snd x)%Z) v.
Definition tvert : list (list (Z * Z)) := let u := [(1, 0); (0, 0); (0, 0)]%Z :: tops in u ++ map tneg u.

Definition wf3b (M : tmat) : bool := Nat.eqb (length M) 3 && forallb (fun r : list (Z * Z) => Nat.eqb (length r) 3) M.
Lemma check_nodup : (fix go (l : list tmat) := match l with [] => true | x :: l' => negb (memb tmeqb x l') && go l' end) tlist = true.
Proof. vm_compute. reflexivity. Qed.
Lemma check_wf : forallb wf3b tlist = true.
Proof. vm_compute. reflexivity. Qed.
Lemma check_closed : forallb (fun g => forallb (fun x => memb tmeqb (tmm g x) tlist) tlist) tgens = true.
Proof. vm_compute. reflexivity. Qed.
Lemma check_inv : forallb (fun g => existsb (fun h => tmeqb (tmm g h) teye && tmeqb (tmm h g) teye) tgens) tgens = true.
Proof. vm_compute. reflexivity. Qed.
Lemma check_vert : forallb (fun M => forallb (fun v => memb (list_eqb teqb) (tmv M v) tvert) tvert) tlist = true.
Proof. vm_compute. reflexivity. Qed.
Lemma check_trans : forallb (fun v => existsb (fun M => list_eqb teqb (tmv M [(1, 0); (0, 0); (0, 0)]%Z) v) tlist) tvert = true.
Proof. vm_compute. reflexivity. Qed.

(** ** The angle of 72 degrees *)
Definition c5 : R := rot_c 5 1.
Definition s5 : R := rot_s 5 1.
Lemma c5_pos : 0 < c5.
Proof. assert (P := PI_RGT_0). unfold c5, rot_c. cbn [INR]. apply cos_gt_0; lra. Qed.
Lemma s5_pos : 0 < s5.
Proof. assert (P := PI_RGT_0). unfold s5, rot_s. cbn [INR]. apply sin_gt_0; lra. Qed.
Lemma cs5 : c5 * c5 + s5 * s5 = 1.
Proof. apply rot_sq. Qed.
Lemma rot5_2 : rot_c 5 2 = c5 * c5 - s5 * s5 /\ rot_s 5 2 = 2 * c5 * s5.
Proof. destruct (rot_add 5 1 1) as [A B]; [lia|]. cbn in A, B. fold c5 s5 in A, B. rewrite <- A, <- B. split; ring. Qed.
Lemma rot5_3 : rot_c 5 3 = rot_c 5 2 /\ rot_s 5 3 = - rot_s 5 2.
Proof. apply (rot_neg 5 2); lia. Qed.
Lemma rot5_4 : rot_c 5 4 = c5 /\ rot_s 5 4 = - s5.
Proof. apply (rot_neg 5 1); lia. Qed.
Lemma c5_eq : 4 * c5 * c5 + 2 * c5 - 1 = 0.
Proof.
  assert (Q := cs5). destruct rot5_2 as [A B]. destruct rot5_3 as [C _]. destruct (rot_add 5 1 2) as [D _]; [lia|]. cbn in D. fold c5 s5 in D.
  assert (N : c5 <> 1). { intro E. assert (S := s5_pos). nra. }
  apply (Rmult_eq_reg_l (c5 - 1)); [|lra]. rewrite Rmult_0_r. rewrite C, A, B in D. nsatz.
Qed.
Definition q5 : R := (4 * c5 + 1) / 5.
Lemma q5_sqrt : / sqrt 5 = q5.
Proof.
  assert (E : sqrt 5 = 4 * c5 + 1).
  { apply sqrt_lem_1; [lra|assert (A := c5_pos); lra|]. assert (A := c5_eq). lra. }
  assert (P := c5_pos). unfold q5. apply (Rmult_eq_reg_l (sqrt 5)); [|rewrite E; lra]. rewrite Rinv_r by (rewrite E; lra). rewrite E. assert (A := c5_eq). lra.
Qed.
Lemma q5_eq : 5 * q5 = 4 * c5 + 1.
Proof. unfold q5. field. Qed.
Lemma q5_pos : 0 < q5.
Proof. assert (A := c5_pos). assert (B := q5_eq). lra. Qed.

(** ** The real matrices *)
Definition iot (x : Z * Z) : R := IZR (fst x) + IZR (snd x) * (2 * c5).
Lemma iot_add : forall x y, iot (tadd x y) = iot x + iot y.
Proof. intros [a b] [c d]. unfold iot, tadd. cbn [fst snd]. rewrite !plus_IZR. ring. Qed.
Lemma iot_mul : forall x y, iot (tmul x y) = iot x * iot y.
Proof.
  intros [a b] [c d]. unfold iot, tmul. cbn [fst snd]. rewrite !minus_IZR, !plus_IZR, !mult_IZR.
  assert (A := c5_eq). replace (IZR b * IZR d) with (IZR b * IZR d * (4 * c5 * c5 + 2 * c5)) at 1 by (replace (4 * c5 * c5 + 2 * c5) with 1 by lra; ring).
  ring.
Qed.
Lemma five_descent : forall n (x b : Z), (Z.abs_nat b <= n)%nat -> (x * x = 5 * (b * b))%Z -> b = 0%Z.
Proof.
  induction n as [|n IH]; intros x b Hn E; [lia|].
  destruct (Z.eq_dec b 0) as [->|N]; [reflexivity|].
  assert (D : exists y, x = (5 * y)%Z).
  { exists (x / 5)%Z. assert (M := Z.mod_pos_bound x 5 ltac:(lia)). assert (DM := Z.div_mod x 5 ltac:(lia)).
    set (r := (x mod 5)%Z) in *. set (y := (x / 5)%Z) in *. assert (H : (r * r = 5 * (b * b - 5 * y * y - 2 * y * r))%Z) by nia.
    assert (C : r = 0%Z \/ r = 1%Z \/ r = 2%Z \/ r = 3%Z \/ r = 4%Z) by lia. destruct C as [C|[C|[C|[C|C]]]]; rewrite C in H, DM; lia. }
  destruct D as (y & ->). assert (E2 : (b * b = 5 * (y * y))%Z) by nia.
  assert (Y : y = 0%Z). { apply (IH b y); [|exact E2]. assert (Z.abs y < Z.abs b)%Z by nia. lia. }
  subst y. nia.
Qed.
Lemma iot_inj : forall x y, iot x = iot y -> x = y.
Proof.
  intros [a b] [c d] E. unfold iot in E. cbn [fst snd] in E. assert (A := c5_eq).
  assert (F : b = d).
  { assert (b - d = 0)%Z; [|lia]. apply (five_descent (Z.abs_nat (b - d)) (2 * (a - c) - (b - d))%Z); [lia|]. apply eq_IZR.
    rewrite !mult_IZR, !minus_IZR, !mult_IZR, !minus_IZR.
    assert (G : IZR a - IZR c = (IZR d - IZR b) * (2 * c5)) by lra. rewrite G. 
    transitivity ((IZR b - IZR d) * (IZR b - IZR d) * (16 * c5 * c5 + 8 * c5 + 1)); [ring|]. replace (16 * c5 * c5 + 8 * c5 + 1) with 5 by lra. ring. }
  subst d. f_equal. apply eq_IZR. lra.
Qed.
Definition io (M : tmat) : rmat := [[iot (tent M 0 0); iot (tent M 0 1); iot (tent M 0 2)]; [iot (tent M 1 0); iot (tent M 1 1); iot (tent M 1 2)];
  [iot (tent M 2 0); iot (tent M 2 1); iot (tent M 2 2)]].
Definition Bm : rmat := [[0; 0; 2 * s5 * q5]; [0; 2 * q5; 2 * c5 * q5]; [1; q5; q5]].
Definition Bi : rmat := [[(c5 - 1) / (2 * s5); - (1 / 2); 1]; [- c5 / (2 * s5 * q5); 1 / (2 * q5); 0]; [1 / (2 * s5 * q5); 0; 0]].
Definition fr (M : tmat) : rmat := rmul 3 Bm (rmul 3 (io M) Bi).
Lemma wf_33 : forall a b c d e f g h i : R, wfm (K:=Rs) 3 3 [[a; b; c]; [d; e; f]; [g; h; i]].
Proof. intros. split; [reflexivity|]. intros r [<-|[<-|[<-|[]]]]; reflexivity. Qed.
Lemma mul3 : forall a b c d e f g h i a' b' c' d' e' f' g' h' i' : R,
  rmul 3 [[a; b; c]; [d; e; f]; [g; h; i]] [[a'; b'; c']; [d'; e'; f']; [g'; h'; i']] =
  [[a * a' + b * d' + c * g'; a * b' + b * e' + c * h'; a * c' + b * f' + c * i'];
   [d * a' + e * d' + f * g'; d * b' + e * e' + f * h'; d * c' + e * f' + f * i'];
   [g * a' + h * d' + i * g'; g * b' + h * e' + i * h'; g * c' + h * f' + i * i']].
Proof. intros. rmat_eq. Qed.
Lemma eye33 : reye 3 = [[1; 0; 0]; [0; 1; 0]; [0; 0; 1]].
Proof. reflexivity. Qed.
Lemma BBi : rmul 3 Bm Bi = reye 3.
Proof.
  assert (S := s5_pos). assert (Q := q5_pos). unfold Bm, Bi. rewrite mul3, eye33. list_split; try reflexivity; field; lra.
Qed.
Lemma BiB : rmul 3 Bi Bm = reye 3.
Proof.
  assert (S := s5_pos). assert (Q := q5_pos). unfold Bm, Bi. rewrite mul3, eye33. list_split; try reflexivity; field; lra.
Qed.
Lemma iot_mm : forall M N i j, (i < 3)%nat -> (j < 3)%nat -> iot (tent (tmm M N) i j) =
  iot (tent M i 0) * iot (tent N 0 j) + iot (tent M i 1) * iot (tent N 1 j) + iot (tent M i 2) * iot (tent N 2 j).
Proof.
  intros M N i j Hi Hj. rewrite <- !iot_mul, Rplus_assoc, <- !iot_add. f_equal.
  destruct i as [|[|[|i]]]; [| | |lia]; (destruct j as [|[|[|j]]]; [| | |lia]); reflexivity.
Qed.
Lemma io_mul : forall M N, io (tmm M N) = rmul 3 (io M) (io N).
Proof. intros M N. unfold io. rewrite mul3, !iot_mm by lia. reflexivity. Qed.
Lemma iot_1 : iot (1, 0)%Z = 1. Proof. unfold iot. cbn [fst snd]. ring. Qed.
Lemma iot_0 : iot (0, 0)%Z = 0. Proof. unfold iot. cbn [fst snd]. ring. Qed.
Lemma io_eye : io teye = reye 3.
Proof. unfold io, teye, tent. cbn [nth]. rewrite iot_1, iot_0, eye33. reflexivity. Qed.
Lemma fr_mul : forall M N, fr (tmm M N) = rmul 3 (fr M) (fr N).
Proof.
  intros M N. unfold fr. rewrite io_mul. rewrite !r_assoc. f_equal.
  rewrite <- (r_assoc 3 (rmul 3 Bm (io M)) Bi Bm), BiB, r_1_r; [reflexivity|apply r_mul_wf].
Qed.
Lemma fr_eye : fr teye = reye 3.
Proof. unfold fr. rewrite io_eye, r_1_l by apply wf_33. apply BBi. Qed.
Lemma fr_io : forall M, rmul 3 Bi (rmul 3 (fr M) Bm) = io M.
Proof.
  intro M. unfold fr. rewrite !r_assoc, BiB, r_1_l by apply wf_33. rewrite <- r_assoc, BiB, r_1_r by apply wf_33. reflexivity.
Qed.
Lemma fr_inj : forall M N, wf3b M = true -> wf3b N = true -> fr M = fr N -> M = N.
Proof.
  intros M N HM HN E. assert (F : io M = io N) by (rewrite <- !fr_io, E; reflexivity).
  assert (G : forall M, wf3b M = true -> M = [[tent M 0 0; tent M 0 1; tent M 0 2]; [tent M 1 0; tent M 1 1; tent M 1 2]; [tent M 2 0; tent M 2 1; tent M 2 2]]).
  { clear. intros M H. unfold wf3b in H. apply andb_true_iff in H. destruct H as [H1 H2]. apply Nat.eqb_eq in H1. rewrite forallb_forall in H2.
    destruct M as [|r1 [|r2 [|r3 [|]]]]; try discriminate.
    assert (L1 := H2 r1 ltac:(cbn; auto)). assert (L2 := H2 r2 ltac:(cbn; auto)). assert (L3 := H2 r3 ltac:(cbn; auto)). apply Nat.eqb_eq in L1. apply Nat.eqb_eq in L2. apply Nat.eqb_eq in L3.
    destruct r1 as [|? [|? [|? [|]]]]; try discriminate. destruct r2 as [|? [|? [|? [|]]]]; try discriminate. destruct r3 as [|? [|? [|? [|]]]]; try discriminate. reflexivity. }
  rewrite (G M HM), (G N HN). unfold io in F. injection F as F1 F2 F3 F4 F5 F6 F7 F8 F9.
  rewrite (iot_inj _ _ F1), (iot_inj _ _ F2), (iot_inj _ _ F3), (iot_inj _ _ F4), (iot_inj _ _ F5), (iot_inj _ _ F6), (iot_inj _ _ F7), (iot_inj _ _ F8), (iot_inj _ _ F9). reflexivity.
Qed.

(** ** The generators of the code *)
Lemma rot5_1 : rot3 5 1 = [[c5; s5; 0]; [- s5; c5; 0]; [0; 0; 1]].
Proof. reflexivity. Qed.
Lemma fr_conj : forall M X, wfm (K:=Rs) 3 3 X -> rmul 3 X Bm = rmul 3 Bm (io M) -> fr M = X.
Proof. intros M X HX E. unfold fr. rewrite r_assoc, <- E, <- r_assoc, BBi. apply r_1_r, HX. Qed.
Lemma fr_a : fr ta = rot3 5 1.
Proof.
  apply fr_conj; [apply wf_33|]. rewrite rot5_1. unfold Bm, io, ta, tent, iot. cbn [nth fst snd]. rewrite !mul3.
  assert (A := c5_eq). assert (B := cs5). assert (C := q5_eq). list_split; try reflexivity; nsatz.
Qed.
(** the inverse of m is its transpose *)
Definition ico_mt : rmat := [[0; - / sqrt 5; 2 * / sqrt 5]; [1; 0; 0]; [0; 2 * / sqrt 5; / sqrt 5]].
Lemma q5_sq : 5 * q5 * q5 = 1.
Proof. assert (A := c5_eq). assert (C := q5_eq). nsatz. Qed.
Lemma mt_m : rmul 3 ico_mt ico_m = reye 3.
Proof. unfold ico_mt, ico_m. rewrite q5_sqrt, mul3, eye33. assert (A := q5_sq). list_split; try reflexivity; lra. Qed.
Lemma m_mt : rmul 3 ico_m ico_mt = reye 3.
Proof. unfold ico_mt, ico_m. rewrite q5_sqrt, mul3, eye33. assert (A := q5_sq). list_split; try reflexivity; lra. Qed.
Lemma mi_unique : forall mi, wfm (K:=Rs) 3 3 mi -> rmul 3 ico_m mi = reye 3 -> mi = ico_mt.
Proof. intros mi HW E. rewrite <- (r_1_l 3 mi HW), <- mt_m, <- r_assoc, E. apply r_1_r, wf_33. Qed.
Definition cj (X : rmat) : rmat := rmul 3 (rmul 3 ico_m X) ico_mt.
Lemma cj_mul : forall X Y, cj (rmul 3 X Y) = rmul 3 (cj X) (cj Y).
Proof.
  intros X Y. unfold cj. rewrite !r_assoc. f_equal. f_equal. rewrite <- (r_assoc 3 (rmul 3 ico_m X) ico_mt ico_m), mt_m, r_1_r; [reflexivity|apply r_mul_wf].
Qed.
Lemma cj_eye : cj (reye 3) = reye 3.
Proof. unfold cj. rewrite r_1_r by apply wf_33. apply m_mt. Qed.
Lemma fr_b : fr tb = cj (rot3 5 1).
Proof.
  apply fr_conj; [apply r_mul_wf|]. unfold cj. rewrite rot5_1. unfold ico_m, ico_mt, Bm, io, tb, tent, iot. cbn [nth fst snd]. rewrite q5_sqrt, !mul3.
  assert (A := c5_eq). assert (B := cs5). assert (C := q5_eq). list_split; try reflexivity; nsatz.
Qed.
Lemma fr_pow_a : forall i, (i < 5)%nat -> fr (tpow ta i) = rot3 5 i.
Proof.
  induction i as [|i IH]; intro H; [cbn [tpow]; rewrite fr_eye, rot3_0; reflexivity|].
  cbn [tpow]. rewrite fr_mul, fr_a, IH, rot3_mul by lia. rewrite Nat.mod_small by lia. reflexivity.
Qed.
Lemma fr_pow_b : forall i, (i < 5)%nat -> fr (tpow tb i) = cj (rot3 5 i).
Proof.
  induction i as [|i IH]; intro H; [cbn [tpow]; rewrite fr_eye, rot3_0, cj_eye; reflexivity|].
  cbn [tpow]. rewrite fr_mul, fr_b, IH by lia. rewrite <- cj_mul, rot3_mul by lia. rewrite Nat.mod_small by lia. reflexivity.
Qed.
Definition rgens : list rmat := map (rot3 5) (seq 0 5) ++ map cj (map (rot3 5) (seq 0 5)).
Lemma rgens_eq : rgens = map fr tgens.
Proof.
  unfold rgens, tgens. rewrite map_app, !map_map. f_equal; apply map_ext_in; intros i Hi; apply in_seq in Hi; symmetry; [apply fr_pow_a|apply fr_pow_b]; lia.
Qed.

(** ** The group *)
Lemma det3_mul : forall a b, wfm (K:=Rs) 3 3 a -> wfm (K:=Rs) 3 3 b -> rdet 3 (rmul 3 a b) = rdet 3 a * rdet 3 b.
Proof.
  assert (G : forall a, wfm (K:=Rs) 3 3 a -> exists p q r s t u v w x : R, a = [[p; q; r]; [s; t; u]; [v; w; x]]).
  { intros a [H1 H2]. destruct a as [|r1 [|r2 [|r3 [|]]]]; try discriminate.
    assert (L1 := H2 r1 ltac:(cbn; auto)). assert (L2 := H2 r2 ltac:(cbn; auto)). assert (L3 := H2 r3 ltac:(cbn; auto)).
    destruct r1 as [|? [|? [|? [|]]]]; try discriminate. destruct r2 as [|? [|? [|? [|]]]]; try discriminate. destruct r3 as [|? [|? [|? [|]]]]; try discriminate.
    repeat eexists. }
  intros a b Ha Hb. destruct (G a Ha) as (p & q & r & s & t & u & v & w & x & ->). destruct (G b Hb) as (p' & q' & r' & s' & t' & u' & v' & w' & x' & ->).
  rewrite mul3. cbn. ring.
Qed.
Lemma det_neg : forall a, wfm (K:=Rs) 3 3 a -> rdet 3 (rneg 3 a) = - rdet 3 a.
Proof.
  intros a [H1 H2]. destruct a as [|r1 [|r2 [|r3 [|]]]]; try discriminate.
  assert (L1 := H2 r1 ltac:(cbn; auto)). assert (L2 := H2 r2 ltac:(cbn; auto)). assert (L3 := H2 r3 ltac:(cbn; auto)).
  destruct r1 as [|? [|? [|? [|]]]]; try discriminate. destruct r2 as [|? [|? [|? [|]]]]; try discriminate. destruct r3 as [|? [|? [|? [|]]]]; try discriminate.
  unfold rneg, lneg, mk, ent. cbn. change (@sopp Rs) with Ropp. ring.
Qed.
Lemma fr_wf : forall M, wfm (K:=Rs) 3 3 (fr M).
Proof. intro M. apply r_mul_wf. Qed.
Lemma rgens_wf : forall g, In g rgens -> wfm (K:=Rs) 3 3 g.
Proof. intros g H. rewrite rgens_eq in H. apply in_map_iff in H. destruct H as (M & <- & _). apply fr_wf. Qed.
Lemma rgens_det : forall g, In g rgens -> rdet 3 g = 1.
Proof.
  intros g H. assert (R : forall x, In x (map (rot3 5) (seq 0 5)) -> rdet 3 x = 1 /\ wfm (K:=Rs) 3 3 x).
  { intros x Hx. apply In_rots in Hx. destruct Hx as (i & _ & ->). split; [rewrite rot3_R, det_R3; apply rot_sq|apply wf_R3]. }
  apply in_app_or in H. destruct H as [H|H]; [apply R; exact H|]. apply in_map_iff in H. destruct H as (x & <- & H). destruct (R x H) as [D W].
  unfold cj. rewrite !det3_mul; try apply r_mul_wf; try exact W; try apply wf_33. rewrite D.
  assert (E : rdet 3 ico_m * rdet 3 ico_mt = 1). { rewrite <- det3_mul by apply wf_33. rewrite m_mt, eye33. cbn. ring. } lra.
Qed.
Lemma generated_det : forall x, generated (rmul 3) (reye 3) rgens x -> rdet 3 x = 1.
Proof.
  intros x (w & Hw & ->). induction w as [|a w IH]; [cbn [wprod fold_right]; rewrite eye33; cbn; ring|].
  change (rdet 3 (rmul 3 a (wprod (rmul 3) (reye 3) w)) = 1). rewrite det3_mul.
  - rewrite rgens_det by (apply Hw; left; reflexivity). rewrite IH by (intros; apply Hw; right; assumption). ring.
  - apply rgens_wf, Hw. left. reflexivity.
  - destruct w; [apply r_eye_wf|apply r_mul_wf].
Qed.
Definition ico : list rmat := map fr tlist.
Lemma In_tlist : forall M, memb tmeqb M tlist = true <-> In M tlist.
Proof. intro M. apply memb_In, tmeqb_spec. Qed.
Lemma ico_generated : forall x, In x ico <-> generated (rmul 3) (reye 3) rgens x.
Proof.
  intro x. unfold ico. split.
  - intro H. apply in_map_iff in H. destruct H as (M & <- & H). apply in_map_iff in H. destruct H as (w & <- & _).
    exists (map (fun x : bool => fr (if x then ta else tb)) w). split.
    + intros g Hg. apply in_map_iff in Hg. destruct Hg as (b & <- & _). rewrite rgens_eq. apply in_map.
      destruct b; [change ta with (nth 0 [ta] [])|change tb with (nth 0 [tb] [])]; vm_compute; tauto.
    + induction w as [|b w IH]; [apply fr_eye|]. cbn [map wprod fold_right]. rewrite fr_mul. f_equal. exact IH.
  - intros (w & Hw & ->). induction w as [|g w IH].
    + change (In (reye 3) (map fr tlist)). rewrite <- fr_eye. apply in_map. left. reflexivity.
    + change (In (rmul 3 g (wprod (rmul 3) (reye 3) w)) (map fr tlist)). assert (I : In (wprod (rmul 3) (reye 3) w) (map fr tlist)) by (apply IH; intros; apply Hw; right; assumption).
      apply in_map_iff in I. destruct I as (N & <- & HN). assert (HG : In g rgens) by (apply Hw; left; reflexivity). rewrite rgens_eq in HG. apply in_map_iff in HG.
      destruct HG as (M & <- & HM). rewrite <- fr_mul. apply in_map. apply In_tlist. assert (C := check_closed). rewrite forallb_forall in C. specialize (C M HM). rewrite forallb_forall in C. exact (C N HN).
Qed.
Lemma ico_nodup : NoDup ico.
Proof.
  unfold ico. apply NoDup_map_inj.
  - intros a b Ha Hb. assert (C := check_wf). rewrite forallb_forall in C. apply fr_inj; apply C; assumption.
  - assert (C := check_nodup). revert C. generalize tlist. induction l as [|x l IH]; intro C; [constructor|]. apply andb_true_iff in C. destruct C as [C1 C2]. constructor.
    + intro H. apply (memb_In tmeqb tmeqb_spec) in H. rewrite H in C1. discriminate.
    + apply IH, C2.
Qed.
Lemma ico_group : is_group (rmul 3) (reye 3) ico.
Proof.
  split; [apply ico_generated, generated_one|]. split; [apply ico_nodup|]. split.
  - intros a b Ha Hb. apply ico_generated. apply ico_generated in Ha. apply ico_generated in Hb.
    apply (generated_mul (rmul 3) (reye 3) (fun a => wfm (K:=Rs) 3 3 a) (r_eye_wf 3) (r_mul_wf 3) (r_assoc 3) (r_1_l 3)); [apply rgens_wf|exact Ha|exact Hb].
  - intros a Ha. apply ico_generated in Ha. destruct Ha as (w & Hw & ->).
    cut (exists b, generated (rmul 3) (reye 3) rgens b /\ rmul 3 (wprod (rmul 3) (reye 3) w) b = reye 3 /\ rmul 3 b (wprod (rmul 3) (reye 3) w) = reye 3).
    { intros (b & H & X). exists b. split; [apply ico_generated; exact H|exact X]. }
    induction w as [|g w IH].
    + exists (reye 3). split; [apply generated_one|]. split; apply r_1_l, r_eye_wf.
    + destruct IH as (b & Hb & E1 & E2); [intros; apply Hw; right; assumption|].
      assert (HG : In g rgens) by (apply Hw; left; reflexivity).
      assert (I : exists h, In h rgens /\ rmul 3 g h = reye 3 /\ rmul 3 h g = reye 3).
      { rewrite rgens_eq in HG |- *. apply in_map_iff in HG. destruct HG as (M & <- & HM). assert (C := check_inv). rewrite forallb_forall in C. specialize (C M HM).
        apply existsb_exists in C. destruct C as (N & HN & C). apply andb_true_iff in C. destruct C as [C1 C2]. apply tmeqb_spec in C1. apply tmeqb_spec in C2.
        exists (fr N). split; [apply in_map; exact HN|]. rewrite <- !fr_mul, C1, C2, fr_eye. auto. }
      destruct I as (h & Hh & F1 & F2). exists (rmul 3 b h). split.
      * apply (generated_mul (rmul 3) (reye 3) (fun a => wfm (K:=Rs) 3 3 a) (r_eye_wf 3) (r_mul_wf 3) (r_assoc 3) (r_1_l 3)); [apply rgens_wf|exact Hb|].
        apply (generated_in (rmul 3) (reye 3) (fun a => wfm (K:=Rs) 3 3 a) (r_1_r 3)); [apply rgens_wf|]; exact Hh.
      * change (wprod (rmul 3) (reye 3) (g :: w)) with (rmul 3 g (wprod (rmul 3) (reye 3) w)). set (u := wprod (rmul 3) (reye 3) w) in *. split.
        -- rewrite r_assoc, <- (r_assoc 3 g u b), E1, r_1_r by (apply rgens_wf; exact HG). exact F1.
        -- rewrite r_assoc, <- (r_assoc 3 b h g), F2, <- r_assoc, r_1_l; [exact E2|]. unfold u. destruct w; [apply r_eye_wf|apply r_mul_wf].
Qed.
Lemma init_det1 : forall S inv, hd_error S = Some (reye 3) -> (forall a, In a S -> rdet 3 a = 1 /\ wfm (K:=Rs) 3 3 a) -> r_init 3 S inv = Some (MkRsym 3 S inv).
Proof.
  intros S inv HH HD.
  assert (E1 : rmeqb (reye 3) (reye 3) = true) by (apply rmeqb_spec; reflexivity).
  assert (EI : r_init 3 S inv = if existsb (fun s => negb (rdet_ok 3 s)) S then None
    else if rcloud S (map (rneg 3) S) then Some (MkRsym 3 (filter (fun s => if Rlt_dec 0 (rdet 3 s) then true else false) S) true)
    else if inv && false then Some (MkRsym 3 (S ++ map (rneg 3) S) false) else Some (MkRsym 3 S inv)).
  { destruct S as [|s0 S']; [discriminate|]. injection HH as ->. unfold r_init. rewrite E1. reflexivity. }
  assert (HI : In (reye 3) S) by (destruct S as [|s0 S']; [discriminate|]; injection HH as ->; left; reflexivity).
  rewrite EI.
  assert (E2 : existsb (fun s => negb (rdet_ok 3 s)) S = false).
  { apply not_true_is_false. intro E. apply existsb_exists in E. destruct E as (s & Hs & E). apply negb_true_iff in E. apply not_true_iff_false in E. apply E.
    unfold rdet_ok. apply reqb_spec. rewrite (proj1 (HD s Hs)). apply Rabs_R1. }
  rewrite E2.
  assert (E3 : rcloud S (map (rneg 3) S) = false).
  { apply not_true_is_false. intro E. unfold rcloud in E. rewrite forallb_forall in E. specialize (E (reye 3) HI).
    apply memb_In in E; [|apply rmeqb_spec]. apply in_map_iff in E. destruct E as (a & E & Ha). apply (f_equal (rdet 3)) in E.
    rewrite det_neg, (proj1 (HD a Ha)), (proj1 (HD _ HI)) in E by (apply HD; exact Ha). lra. }
  rewrite E3. rewrite andb_false_r. reflexivity.
Qed.
Lemma icosahedral_eq : forall mi inv, wfm (K:=Rs) 3 3 mi -> rmul 3 ico_m mi = reye 3 -> r_icosahedral mi inv = r_from_generator 3 rgens inv.
Proof.
  intros mi inv HW HM. apply mi_unique in HM; [|exact HW]. subst mi. unfold r_icosahedral. rewrite cyclic_eq by lia. unfold r_transform. cbn [rdim rops rinv].
  change (map (conj_op (K:=Rs) 3 ico_m ico_mt) (map (rot3 5) (seq 0 5))) with (map cj (map (rot3 5) (seq 0 5))).
  rewrite init_det1.
  - unfold r_mul. cbn [rdim rops rinv Nat.eqb]. rewrite orb_diag. reflexivity.
  - cbn [seq map hd_error]. rewrite rot3_0, cj_eye. reflexivity.
  - intros a Ha. assert (In a rgens) by (apply in_or_app; right; exact Ha). split; [apply rgens_det; assumption|apply rgens_wf; assumption].
Qed.
Lemma ico_length : length ico = 60%nat.
Proof. unfold ico. rewrite map_length. reflexivity. Qed.
Lemma icosahedral_ok : forall mi inv, wfm (K:=Rs) 3 3 mi -> rmul 3 ico_m mi = reye 3 -> exists R, r_icosahedral mi inv = Some (MkRsym 3 R inv) /\
  is_group (rmul 3) (reye 3) R /\ (forall x, In x R <-> In x ico) /\ length R = 60%nat.
Proof.
  intros mi inv HW HM. rewrite icosahedral_eq by assumption.
  destruct (r_from_ok 3 rgens ico inv) as (R & E1 & E2 & E3 & E4 & E5).
  { discriminate. }
  { apply rgens_wf. }
  { intros g Hg. apply reqb_spec. rewrite rgens_det by exact Hg. apply Rabs_R1. }
  { apply ico_group. }
  { rewrite ico_length. lia. }
  { apply ico_generated. }
  exists R. rewrite E1, init_det1; [split; [reflexivity|]; split; [exact E3|]; split; [exact E4|rewrite E5; apply ico_length]|exact E2|].
  intros a Ha. apply E4 in Ha. split; [apply generated_det, ico_generated; exact Ha|]. unfold ico in Ha. apply in_map_iff in Ha. destruct Ha as (M & <- & _). apply fr_wf.
Qed.
(** ** The vertices *)
(** the icosahedron with two vertices on the z axis and a vertex of the upper ring above the y axis *)
Definition ring_vertex (i : nat) : list R := [2 * sin (2 * PI * INR i / 5) / sqrt 5; 2 * cos (2 * PI * INR i / 5) / sqrt 5; 1 / sqrt 5].
Definition is_vertex (v : list R) : Prop := v = [0; 0; 1] \/ v = [0; 0; -1] \/ exists i, (i < 5)%nat /\ (v = ring_vertex i \/ v = map Ropp (ring_vertex i)).
Definition bv (x : list (Z * Z)) : list R := lmv (K:=Rs) 3 Bm (map iot x).
Lemma mv3 : forall a b c d e f g h i x y z : R, lmv (K:=Rs) 3 [[a; b; c]; [d; e; f]; [g; h; i]] [x; y; z] = [a * x + b * y + c * z; d * x + e * y + f * z; g * x + h * y + i * z].
Proof.
  intros. unfold lmv, vmk, ent, vent, nsum, ksum. cbn [seq map fold_right nth sadd smul s0 Rs car]. list_split; try reflexivity; match goal with |- ?a = ?b => change (@eq R a b) end; ring.
Qed.
Lemma ring_vertex_rot : forall i, ring_vertex i = [2 * rot_s 5 i * q5; 2 * rot_c 5 i * q5; q5].
Proof.
  intro i. unfold ring_vertex, rot_s, rot_c. assert (E : 2 * PI * INR i / 5 = INR i * 2 * PI / INR 5) by (cbn [INR]; field).
  rewrite E. unfold Rdiv. rewrite q5_sqrt, Rmult_1_l. reflexivity.
Qed.
Lemma bv_top : forall i, (i < 5)%nat -> bv (nth i tops []) = ring_vertex i.
Proof.
  intros i Hi. rewrite ring_vertex_rot. assert (A := c5_eq). assert (B := cs5). assert (C := q5_eq).
  assert (X2 := rot5_2). assert (X3 := rot5_3). assert (X4 := rot5_4). assert (X0 := rot_0 5).
  destruct i as [|[|[|[|[|i]]]]]; [| | | | |lia]; unfold bv, Bm, tops; cbn [nth map]; rewrite mv3; unfold iot; cbn [fst snd];
  fold c5 s5; try (destruct X0 as [-> ->]); try (destruct X4 as [X41 X42]; rewrite ?X41, ?X42); try (destruct X3 as [X31 X32]; rewrite ?X31, ?X32);
  try (destruct X2 as [X21 X22]; rewrite ?X21, ?X22); list_split; try reflexivity; clear - A B C; try ring; replace (s5 * s5) with (1 - c5 * c5) by lra; unfold q5; nra.
Qed.
Lemma bv_neg : forall x, length x = 3%nat -> bv (tneg x) = map Ropp (bv x).
Proof.
  intros x H. destruct x as [|x [|y [|z [|]]]]; try discriminate. unfold bv, tneg, Bm. cbn [map]. rewrite !mv3.
  assert (N : forall x, iot (- fst x, - snd x)%Z = - iot x) by (intros [a b]; unfold iot; cbn [fst snd]; rewrite !opp_IZR; ring).
  rewrite !N. cbn [map]. list_split; try reflexivity; ring.
Qed.
Lemma bv_act : forall M x, length x = 3%nat -> lmv (K:=Rs) 3 (fr M) (bv x) = bv (tmv M x).
Proof.
  intros M x H. destruct x as [|x [|y [|z [|]]]]; try discriminate. unfold bv.
  assert (E : forall v : list R, lmv (K:=Rs) 3 (fr M) (lmv (K:=Rs) 3 Bm v) = lmv (K:=Rs) 3 Bm (lmv (K:=Rs) 3 (io M) v)).
  { intro v. rewrite <- !(@lmv_mul Rs). f_equal. change (rmul 3 (fr M) Bm = rmul 3 Bm (io M)). unfold fr. rewrite <- !r_assoc, BiB, r_1_r by apply wf_33. reflexivity. }
  rewrite E. f_equal. unfold io. cbn [map tmv nth]. rewrite mv3, !iot_add, !iot_mul. unfold io. list_split; try reflexivity; ring.
Qed.
Lemma e_z_bv : bv [(1, 0); (0, 0); (0, 0)]%Z = [0; 0; 1].
Proof. unfold bv, Bm. cbn [map]. rewrite mv3, iot_1, iot_0. list_split; try reflexivity; ring. Qed.
Lemma tvert_vertex : forall v, is_vertex v <-> exists x, In x tvert /\ v = bv x.
Proof.
  assert (Z' : bv (tneg [(1, 0); (0, 0); (0, 0)]%Z) = [0; 0; -1]).
  { rewrite bv_neg, e_z_bv by reflexivity. cbn [map]. list_split; try reflexivity; lra. }
  assert (T : forall i, (i < 5)%nat -> In (nth i tops []) tops) by (intros; apply nth_In; exact H).
  assert (T3 : forall x, In x tops -> length x = 3%nat) by (intros x [<-|[<-|[<-|[<-|[<-|[]]]]]]; reflexivity).
  assert (TV : forall x, In x tvert <-> x = [(1, 0); (0, 0); (0, 0)]%Z \/ In x tops \/ x = tneg [(1, 0); (0, 0); (0, 0)]%Z \/ exists y, In y tops /\ x = tneg y).
  { intro x. unfold tvert. rewrite in_app_iff, in_map_iff. cbn [In]. split.
    - intros [[H|H]|(y & E & [H|H])]; [left; auto|right; left; exact H|right; right; left; rewrite H; auto|right; right; right; eauto].
    - intros [H|[H|[H|(y & H & E)]]]; [left; left; auto|left; right; exact H|right; eexists; split; [symmetry; exact H|left; reflexivity]|right; exists y; split; [auto|right; exact H]]. }
  intro v. split.
  - intros [->|[->|(i & Hi & [-> | ->])]].
    + eexists. split; [apply TV; left; reflexivity|]. symmetry. apply e_z_bv.
    + eexists. split; [apply TV; right; right; left; reflexivity|]. symmetry. exact Z'.
    + exists (nth i tops []). split; [apply TV; right; left; apply T; exact Hi|]. symmetry. apply bv_top. exact Hi.
    + exists (tneg (nth i tops [])). split; [apply TV; right; right; right; eexists; split; [apply T; exact Hi|reflexivity]|]. rewrite bv_neg, bv_top by auto. reflexivity.
  - intros (x & Hx & ->). apply TV in Hx. destruct Hx as [->|[H|[->|(y & H & ->)]]].
    + left. apply e_z_bv.
    + right. right. apply (In_nth _ _ []) in H. destruct H as (i & Hi & <-). exists i. split; [exact Hi|]. left. apply bv_top. exact Hi.
    + right. left. exact Z'.
    + right. right. assert (L := T3 y H). apply (In_nth _ _ []) in H. destruct H as (i & Hi & <-). exists i. split; [exact Hi|]. right. rewrite bv_neg, bv_top by assumption. reflexivity.
Qed.
Lemma tvert_len : forall x, In x tvert -> length x = 3%nat.
Proof. assert (C : forallb (fun x : list (Z * Z) => Nat.eqb (length x) 3) tvert = true) by reflexivity. rewrite forallb_forall in C. intros x H. apply Nat.eqb_eq, C, H. Qed.
Lemma ico_vertices : forall x v, In x ico -> is_vertex v -> is_vertex (lmv (K:=Rs) 3 x v).
Proof.
  intros x v Hx Hv. apply in_map_iff in Hx. destruct Hx as (M & <- & HM). apply tvert_vertex in Hv. destruct Hv as (y & Hy & ->). rewrite bv_act by (apply tvert_len; exact Hy).
  apply tvert_vertex. exists (tmv M y). split; [|reflexivity]. assert (C := check_vert). rewrite forallb_forall in C. specialize (C M HM). rewrite forallb_forall in C. specialize (C y Hy).
  apply memb_In in C; [exact C|]. apply list_eqb_spec, teqb_spec.
Qed.
Lemma ico_transitive : forall v, is_vertex v -> exists x, In x ico /\ lmv (K:=Rs) 3 x [0; 0; 1] = v.
Proof.
  intros v Hv. apply tvert_vertex in Hv. destruct Hv as (y & Hy & ->). assert (C := check_trans). rewrite forallb_forall in C. specialize (C y Hy). apply existsb_exists in C.
  destruct C as (M & HM & C). apply list_eqb_spec in C; [|apply teqb_spec]. exists (fr M). split; [apply in_map; exact HM|]. rewrite <- e_z_bv, bv_act by reflexivity. rewrite C. reflexivity.
Qed.
(** [mi] is the matrix returned by np.linalg.inv(m) *)
Theorem C145_icosahedral : forall mi inv, wfm (K:=Rs) 3 3 mi -> rmul 3 ico_m mi = reye 3 -> exists g, r_icosahedral mi inv = Some g /\
  length (rops g) = 60%nat /\ rinv g = inv /\ r_len g = (if inv then 120 else 60)%nat /\ length (r_all g) = r_len g /\ is_group (rmul 3) (reye 3) (r_all g) /\
  (forall x, In x (rops g) -> rdet 3 x = 1) /\
  (forall x v, In x (rops g) -> is_vertex v -> is_vertex (lmv (K:=Rs) 3 x v)) /\
  (forall v, is_vertex v -> exists x, In x (rops g) /\ lmv (K:=Rs) 3 x [0; 0; 1] = v).
Proof.
  intros mi inv HW HM. destruct (icosahedral_ok mi inv HW HM) as (R & E & HG & HI & HL). exists (MkRsym 3 R inv). split; [exact E|]. unfold r_len, r_all. cbn [rops rinv rdim].
  split; [exact HL|]. split; [reflexivity|]. split; [rewrite HL; destruct inv; reflexivity|]. split; [rewrite app_length; destruct inv; [rewrite map_length|cbn [length]]; lia|].
  assert (HD : forall a, In a R -> rdet 3 a = 1) by (intros a Ha; apply generated_det, ico_generated, HI; exact Ha).
  assert (HWf : forall a, In a R -> wfm (K:=Rs) 3 3 a) by (intros a Ha; apply HI in Ha; apply in_map_iff in Ha; destruct Ha as (M & <- & _); apply fr_wf).
  split; [|split; [exact HD|split]].
  - destruct inv; [|rewrite app_nil_r; exact HG]. apply neg_group; [exact HG|exact HWf|].
    intros a Ha Hb. apply HD in Hb. rewrite det_neg in Hb by (apply HWf; exact Ha). rewrite HD in Hb by exact Ha. lra.
  - intros x v Hx Hv. apply ico_vertices; [apply HI; exact Hx|exact Hv].
  - intros v Hv. destruct (ico_transitive v Hv) as (x & Hx & Ex). exists x. split; [apply HI; exact Hx|exact Ex].
Qed.
Print Assumptions C145_icosahedral.
(** "The top off-axis vertex is aligned towards the x-axis": no vertex lies over the x axis *)
Theorem C145_alignment_refuted : forall mi inv, wfm (K:=Rs) 3 3 mi -> rmul 3 ico_m mi = reye 3 -> exists g, r_icosahedral mi inv = Some g /\
  (exists x, In x (rops g) /\ lmv (K:=Rs) 3 x [0; 0; 1] = [0; 2 / sqrt 5; 1 / sqrt 5]) /\
  forall x u w, In x (rops g) -> lmv (K:=Rs) 3 x [0; 0; 1] = [u; 0; w] -> u = 0.
Proof.
  intros mi inv HW HM. destruct (icosahedral_ok mi inv HW HM) as (R & E & HG & HI & HL). exists (MkRsym 3 R inv). split; [exact E|]. cbn [rops]. split.
  - destruct (ico_transitive (ring_vertex 0)) as (x & Hx & Ex); [right; right; exists 0%nat; split; [lia|left; reflexivity]|]. exists x. split; [apply HI; exact Hx|]. rewrite Ex. unfold ring_vertex.
    cbn [INR]. replace (2 * PI * 0 / 5) with 0 by field. rewrite sin_0, cos_0. unfold Rdiv. list_split; try reflexivity; ring.
  - intros x u w Hx Ex. apply HI in Hx. assert (V : is_vertex [u; 0; w]) by (rewrite <- Ex; apply ico_vertices; [exact Hx|left; reflexivity]).
    destruct V as [V|[V|(i & Hi & V)]]; [injection V; auto|injection V; auto|]. exfalso. rewrite ring_vertex_rot in V.
    assert (Y : rot_c 5 i = 0). { assert (Q := q5_pos). destruct V as [V|V]; injection V as _ V _; nra. }
    assert (P := c5_pos). assert (A := c5_eq). assert (B := cs5). destruct rot5_2 as [X2 _]. destruct rot5_3 as [X3 _]. destruct rot5_4 as [X4 _].
    destruct i as [|[|[|[|[|i]]]]]; [| | | | |lia].
    + rewrite (proj1 (rot_0 5)) in Y. lra.
    + fold c5 in Y. lra.
    + rewrite X2 in Y. nra.
    + rewrite X3, X2 in Y. nra.
    + rewrite X4 in Y. lra.
Qed.
Print Assumptions C145_alignment_refuted.
Example C145_ex : exists g, r_icosahedral ico_mt true = Some g /\ length (r_all g) = 120%nat.
Proof. destruct (C145_icosahedral ico_mt true (wf_33 _ _ _ _ _ _ _ _ _) m_mt) as (g & E & _ & _ & L & L2 & _). exists g. rewrite L2, L. auto. Qed.
Example C145_alignment_ex : exists g x, r_icosahedral ico_mt false = Some g /\ In x (rops g) /\ lmv (K:=Rs) 3 x [0; 0; 1] = [0; 2 / sqrt 5; 1 / sqrt 5].
Proof. destruct (C145_alignment_refuted ico_mt false (wf_33 _ _ _ _ _ _ _ _ _) m_mt) as (g & E & (x & X1 & X2) & _). exists g, x. auto. Qed.

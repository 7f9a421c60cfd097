(** Properties C143 (o2 and cyclic), C144 (dihedral). *)
From Coq Require Import Reals Lra Lia List Bool Arith ZArith Permutation.
From Verif Require Import SRing LMat CplxR SymModel FinGroup SymGenProofs SymModel3 RotModel.
Import ListNotations.
Local Open Scope R_scope.

(** ** Basics *)
Lemma reqb_spec : forall x y, reqb x y = true <-> x = y.
Proof. intros. unfold reqb. destruct Req_EM_T; split; congruence. Qed.
Lemma leqb_spec {A} (e : A -> A -> bool) (H : forall a b, e a b = true <-> a = b) : forall l m, list_eqb e l m = true <-> l = m.
Proof.
  induction l as [|a l IH]; destruct m as [|b m]; cbn; try (split; congruence). rewrite andb_true_iff, H, IH. split; [intros [-> ->]; reflexivity|intro E; injection E; auto].
Qed.
Lemma rmeqb_spec : forall a b, rmeqb a b = true <-> a = b.
Proof. apply leqb_spec, leqb_spec, reqb_spec. Qed.
Ltac list_split := repeat match goal with |- cons _ _ = cons _ _ => apply f_equal2 end.
Ltac rmat_eq := unfold rmul, rneg, reye, lmul, lneg, leye, mk, ltr, ent, nsum, ksum; cbn [seq map fold_right nth Nat.eqb sadd smul sopp s0 s1 Rs car]; list_split;
  try reflexivity; match goal with |- ?a = ?b => change (@eq R a b) end; try ring.
Definition R3 (c s : R) : rmat := [[c; s; 0]; [- s; c; 0]; [0; 0; 1]].
Definition F3 (c s : R) : rmat := [[- c; s; 0]; [s; c; 0]; [0; 0; 1]].
Definition R2 (c s : R) : rmat := [[c; s]; [- s; c]].
Lemma RR : forall c s c' s', rmul 3 (R3 c s) (R3 c' s') = R3 (c * c' - s * s') (c * s' + s * c').
Proof. intros. unfold R3. rmat_eq. Qed.

Lemma RF : forall c s c' s', rmul 3 (R3 c s) (F3 c' s') = F3 (c * c' - s * s') (c * s' + s * c').
Proof. intros. unfold R3, F3. rmat_eq. Qed.
Lemma FR : forall c s c' s', rmul 3 (F3 c s) (R3 c' s') = F3 (c * c' + s * s') (s * c' - c * s').
Proof. intros. unfold R3, F3. rmat_eq. Qed.
Lemma FF : forall c s c' s', rmul 3 (F3 c s) (F3 c' s') = R3 (c * c' + s * s') (s * c' - c * s').
Proof. intros. unfold R3, F3. rmat_eq. Qed.
Lemma RR2 : forall c s c' s', rmul 2 (R2 c s) (R2 c' s') = R2 (c * c' - s * s') (c * s' + s * c').
Proof. intros. unfold R2. rmat_eq. Qed.
Lemma eye3 : reye 3 = R3 1 0.
Proof. unfold R3. rmat_eq. Qed.
Lemma eye2 : reye 2 = R2 1 0.
Proof. unfold R2. rmat_eq. Qed.
Lemma det_R3 : forall c s, rdet 3 (R3 c s) = c * c + s * s.
Proof. intros. unfold R3. cbn. ring. Qed.
Lemma det_F3 : forall c s, rdet 3 (F3 c s) = - (c * c + s * s).
Proof. intros. unfold F3. cbn. ring. Qed.
Lemma det_R2 : forall c s, rdet 2 (R2 c s) = c * c + s * s.
Proof. intros. unfold R2. cbn. ring. Qed.

(** the angles *)
Lemma rot_sq : forall n i, rot_c n i * rot_c n i + rot_s n i * rot_s n i = 1.
Proof. intros. unfold rot_c, rot_s. pose proof (sin2_cos2 (INR i * 2 * PI / INR n)) as H. unfold Rsqr in H. lra. Qed.
Lemma rot_add : forall n i j, (1 <= n)%nat ->
  rot_c n i * rot_c n j - rot_s n i * rot_s n j = rot_c n ((i + j) mod n) /\ rot_c n i * rot_s n j + rot_s n i * rot_c n j = rot_s n ((i + j) mod n).
Proof.
  intros n i j Hn. unfold rot_c, rot_s. assert (N0 : INR n <> 0) by (apply not_0_INR; lia).
  assert (E : INR i * 2 * PI / INR n + INR j * 2 * PI / INR n = INR ((i + j) mod n) * 2 * PI / INR n + 2 * INR ((i + j) / n) * PI).
  { assert (Q : INR (i + j) = INR n * INR ((i + j) / n) + INR ((i + j) mod n)) by (rewrite <- mult_INR, <- plus_INR; f_equal; apply Nat.div_mod; lia).
    rewrite plus_INR in Q. replace (INR i * 2 * PI / INR n + INR j * 2 * PI / INR n) with ((INR i + INR j) * 2 * PI / INR n) by (field; exact N0). rewrite Q. field. exact N0. }
  split.
  - rewrite <- cos_plus, E. apply cos_period.
  - rewrite (Rplus_comm (cos _ * sin _)), <- sin_plus, E. apply sin_period.
Qed.
Lemma rot_0 : forall n, rot_c n 0 = 1 /\ rot_s n 0 = 0.
Proof. intros. unfold rot_c, rot_s. cbn [INR]. replace (0 * 2 * PI / INR n) with 0 by (unfold Rdiv; ring). split; [apply cos_0|apply sin_0]. Qed.
Lemma rot_neg : forall n j, (1 <= n)%nat -> (j < n)%nat -> rot_c n ((n - j) mod n) = rot_c n j /\ rot_s n ((n - j) mod n) = - rot_s n j.
Proof.
  intros n j Hn Hj. destruct (rot_add n j ((n - j) mod n) Hn) as [A B]. rewrite Nat.add_mod_idemp_r in A, B by lia.
  replace (j + (n - j))%nat with n in A, B by lia. rewrite Nat.mod_same in A, B by lia. destruct (rot_0 n) as [C0 S0]. rewrite C0 in A. rewrite S0 in B.
  pose proof (rot_sq n j) as Q. set (c := rot_c n j) in *. set (s := rot_s n j) in *. set (c' := rot_c n ((n - j) mod n)) in *. set (s' := rot_s n ((n - j) mod n)) in *.
  split.
  - replace c' with ((c * c + s * s) * c') by (rewrite Q; ring). replace ((c * c + s * s) * c') with (c * (c * c' - s * s') + s * (c * s' + s * c')) by ring. rewrite A, B. ring.
  - replace s' with ((c * c + s * s) * s') by (rewrite Q; ring). replace ((c * c + s * s) * s') with (c * (c * s' + s * c') - s * (c * c' - s * s')) by ring. rewrite A, B. ring.
Qed.
Lemma rot_sub : forall n i j, (1 <= n)%nat -> (j < n)%nat ->
  rot_c n i * rot_c n j + rot_s n i * rot_s n j = rot_c n ((i + (n - j)) mod n) /\ rot_s n i * rot_c n j - rot_c n i * rot_s n j = rot_s n ((i + (n - j)) mod n).
Proof.
  intros n i j Hn Hj. destruct (rot_add n i ((n - j) mod n) Hn) as [A B]. rewrite Nat.add_mod_idemp_r in A, B by lia. destruct (rot_neg n j Hn Hj) as [C S0]. rewrite C, S0 in A, B.
  split; [rewrite <- A; ring|rewrite <- B; ring].
Qed.
Lemma cos_1_small : forall x, Rabs x < 2 * PI -> cos x = 1 -> x = 0.
Proof.
  intros x Hx Hc. assert (G : forall y, 0 <= y < 2 * PI -> cos y = 1 -> y = 0).
  { intros y Hy Hcy. destruct (Req_dec y 0) as [|N]; [assumption|exfalso]. assert (P : 0 < sin (y / 2)) by (apply sin_gt_0; lra).
    pose proof (cos_2a_sin (y / 2)) as Q. replace (2 * (y / 2)) with y in Q by field. rewrite Hcy in Q. nra. }
  unfold Rabs in Hx. destruct (Rcase_abs x).
  - assert (- x = 0) by (apply G; [lra|rewrite cos_neg; exact Hc]). lra.
  - apply G; [lra|exact Hc].
Qed.
Lemma rot_inj : forall n i j, (i < n)%nat -> (j < n)%nat -> rot_c n i = rot_c n j -> rot_s n i = rot_s n j -> i = j.
Proof.
  intros n i j Hi Hj HC HS. assert (N0 : 0 < INR n) by (apply lt_0_INR; lia). pose proof PI_RGT_0 as PP.
  assert (E : cos (INR i * 2 * PI / INR n - INR j * 2 * PI / INR n) = 1).
  { rewrite cos_minus. unfold rot_c, rot_s in HC, HS. rewrite HC, HS. pose proof (sin2_cos2 (INR j * 2 * PI / INR n)) as Q. unfold Rsqr in Q. lra. }
  apply cos_1_small in E.
  - apply INR_eq. assert (Z : (INR i - INR j) * (2 * PI / INR n) = 0) by (rewrite <- E; field; lra).
    apply Rmult_integral in Z. destruct Z as [Z|Z]; [lra|]. exfalso. assert (0 < 2 * PI / INR n) by (apply Rdiv_lt_0_compat; lra). lra.
  - replace (INR i * 2 * PI / INR n - INR j * 2 * PI / INR n) with ((INR i - INR j) * (2 * PI / INR n)) by (field; lra).
    assert (PQ : 0 < 2 * PI / INR n) by (apply Rdiv_lt_0_compat; lra). rewrite Rabs_mult, (Rabs_right (2 * PI / INR n)) by lra.
    replace (2 * PI) with (INR n * (2 * PI / INR n)) at 2 by (field; lra). apply Rmult_lt_compat_r; [exact PQ|].
    pose proof (pos_INR i). pose proof (pos_INR j). apply lt_INR in Hi. apply lt_INR in Hj. apply Rabs_def1; lra.
Qed.

(** ** C143: cyclic groups *)
Lemma rot3_R : forall n i, rot3 n i = R3 (rot_c n i) (rot_s n i).
Proof. reflexivity. Qed.
Lemma rot3_mul : forall n i j, (1 <= n)%nat -> rmul 3 (rot3 n i) (rot3 n j) = rot3 n ((i + j) mod n).
Proof. intros n i j Hn. rewrite !rot3_R, RR. destruct (rot_add n i j Hn) as [-> ->]. reflexivity. Qed.
Lemma rot2_mul : forall n i j, (1 <= n)%nat -> rmul 2 (rot2 n i) (rot2 n j) = rot2 n ((i + j) mod n).
Proof. intros n i j Hn. change (rmul 2 (R2 (rot_c n i) (rot_s n i)) (R2 (rot_c n j) (rot_s n j)) = R2 (rot_c n ((i + j) mod n)) (rot_s n ((i + j) mod n))).
  rewrite RR2. destruct (rot_add n i j Hn) as [-> ->]. reflexivity. Qed.
Lemma rot3_0 : forall n, rot3 n 0 = reye 3.
Proof. intro n. rewrite rot3_R, eye3. destruct (rot_0 n) as [-> ->]. reflexivity. Qed.
Lemma rot2_0 : forall n, rot2 n 0 = reye 2.
Proof. intro n. rewrite eye2. unfold rot2, R2. destruct (rot_0 n) as [-> ->]. reflexivity. Qed.
Lemma rot3_inj : forall n i j, (i < n)%nat -> (j < n)%nat -> rot3 n i = rot3 n j -> i = j.
Proof. intros n i j Hi Hj E. injection E as HC HS _. apply (rot_inj n); assumption. Qed.
Lemma rot2_inj : forall n i j, (i < n)%nat -> (j < n)%nat -> rot2 n i = rot2 n j -> i = j.
Proof. intros n i j Hi Hj E. injection E as HC HS _. apply (rot_inj n); assumption. Qed.
Lemma In_rots {A} (f : nat -> A) n x : In x (map f (seq 0 n)) <-> exists i, (i < n)%nat /\ x = f i.
Proof.
  rewrite in_map_iff. split.
  - intros (i & <- & H). apply in_seq in H. exists i. split; [lia|reflexivity].
  - intros (i & H & ->). exists i. split; [reflexivity|]. apply in_seq. lia.
Qed.
(** groups of rotations, with the inversion *)
Lemma cyc_group {A} (mul : A -> A -> A) (one : A) (f : nat -> A) n : (1 <= n)%nat -> f 0%nat = one ->
  (forall i j, mul (f i) (f j) = f ((i + j) mod n)%nat) -> (forall i j, (i < n)%nat -> (j < n)%nat -> f i = f j -> i = j) -> is_group mul one (map f (seq 0 n)).
Proof.
  intros Hn H0 HM HI. split; [|split; [|split]].
  - apply In_rots. exists 0%nat. split; [lia|symmetry; exact H0].
  - apply NoDup_map_inj; [|apply seq_NoDup]. intros a b Ha Hb. apply in_seq in Ha. apply in_seq in Hb. apply HI; lia.
  - intros a b Ha Hb. apply In_rots in Ha. apply In_rots in Hb. destruct Ha as (i & Hi & ->), Hb as (j & Hj & ->). rewrite HM. apply In_rots.
    eexists. split; [|reflexivity]. apply Nat.mod_upper_bound. lia.
  - intros a Ha. apply In_rots in Ha. destruct Ha as (i & Hi & ->). exists (f ((n - i) mod n)%nat). split; [|split].
    + apply In_rots. eexists. split; [|reflexivity]. apply Nat.mod_upper_bound. lia.
    + rewrite HM, Nat.add_mod_idemp_r by lia. replace (i + (n - i))%nat with n by lia. rewrite Nat.mod_same by lia. exact H0.
    + rewrite HM, Nat.add_mod_idemp_l by lia. replace (n - i + i)%nat with n by lia. rewrite Nat.mod_same by lia. exact H0.
Qed.
Lemma rneg_wf : forall n a, wfm (K:=Rs) n n (rneg n a).
Proof. intros. apply lneg_wf. Qed.
(** closing a group under the inversion *)
Lemma neg_group : forall S (N : nat), is_group (rmul N) (reye N) S -> (forall a, In a S -> wfm (K:=Rs) N N a) -> (forall a, In a S -> ~ In (rneg N a) S) ->
  is_group (rmul N) (reye N) (S ++ map (rneg N) S).
Proof.
  intros S N (H1 & H2 & H3 & H4) HW HN.
  assert (IN : forall x, In x (S ++ map (rneg N) S) <-> exists a, In a S /\ (x = a \/ x = rneg N a)).
  { intro x. rewrite in_app_iff, in_map_iff. split; [intros [H|(a & <- & H)]; eauto|intros (a & H & [->| ->]); eauto]. }
  assert (ML : forall a b, rmul N (rneg N a) b = rneg N (rmul N a b)) by (intros; exact (@lneg_mul_l Rs N a b)).
  assert (MR : forall a b, rmul N a (rneg N b) = rneg N (rmul N a b)) by (intros; exact (@lneg_mul_r Rs N a b)).
  assert (NN : forall a, wfm (K:=Rs) N N a -> rneg N (rneg N a) = a) by (intros a Ha; exact (@lneg_invol Rs N a Ha)).
  split; [|split; [|split]].
  - apply in_or_app. left. exact H1.
  - assert (ND2 : NoDup (map (rneg N) S)).
    { apply NoDup_map_inj; [|exact H2]. intros a b Ha Hb E. rewrite <- (NN a), <- (NN b) by auto. rewrite E. reflexivity. }
    clear IN. revert ND2. generalize (map (rneg N) S) (fun a H => proj1 (in_map_iff (rneg N) S a) H). intros L HL ND2.
    assert (DJ : forall a, In a S -> ~ In a L).
    { intros a Ha Hl. destruct (HL a Hl) as (b & E & Hb). apply (HN b Hb). rewrite E. exact Ha. }
    clear - H2 ND2 DJ. induction S as [|a S IH]; [exact ND2|]. inversion H2 as [|? ? A B]; subst. cbn. constructor.
    + intro I. apply in_app_or in I. destruct I as [I|I]; [exact (A I)|exact (DJ a (or_introl eq_refl) I)].
    + apply IH; [exact B|intros; apply DJ; right; assumption].
  - intros x y Hx Hy. apply IN in Hx. apply IN in Hy. destruct Hx as (a & Ha & [-> | ->]), Hy as (b & Hb & [-> | ->]); apply IN; exists (rmul N a b); (split; [apply H3; assumption|]).
    + left; reflexivity.
    + right. apply MR.
    + right. apply ML.
    + left. rewrite ML, MR. apply NN, lmul_wf.
  - intros x Hx. apply IN in Hx. destruct Hx as (a & Ha & HX). destruct (H4 a Ha) as (b & Hb & E1 & E2). destruct HX as [-> | ->].
    + exists b. split; [apply IN; eauto|auto].
    + exists (rneg N b). split; [apply IN; eauto|]. rewrite !ML, !MR, E1, E2. rewrite !NN by apply leye_wf. auto.
Qed.
Lemma wf_R3 : forall c s, wfm (K:=Rs) 3 3 (R3 c s).
Proof. intros. split; [reflexivity|]. intros r [<-|[<-|[<-|[]]]]; reflexivity. Qed.
Lemma wf_F3 : forall c s, wfm (K:=Rs) 3 3 (F3 c s).
Proof. intros. split; [reflexivity|]. intros r [<-|[<-|[<-|[]]]]; reflexivity. Qed.
(** the third row tells a matrix from its negative *)
Definition last_one (a : rmat) : Prop := nth 2 (nth 2 a []) 0 = 1.
Lemma last_neg : forall a, last_one a -> ~ last_one (rneg 3 a).
Proof.
  intros a H E. unfold last_one in *. unfold rneg, lneg, mk, ent in E. cbn in E.
  change (@sopp Rs ?x) with (- x) in E. rewrite H in E. lra.
Qed.
Lemma init_last : forall S inv, hd_error S = Some (reye 3) -> (forall a, In a S -> rdet 3 a = 1 \/ rdet 3 a = - 1) -> (forall a, In a S -> last_one a) ->
  r_init 3 S inv = Some (MkRsym 3 S inv).
Proof.
  intros S inv HH HD HL.
  assert (E1 : rmeqb (reye 3) (reye 3) = true) by (apply rmeqb_spec; reflexivity).
  assert (EI : r_init 3 S inv = if existsb (fun s => negb (rdet_ok 3 s)) S then None
    else if rcloud S (map (rneg 3) S) then Some (MkRsym 3 (filter (fun s => if Rlt_dec 0 (rdet 3 s) then true else false) S) true)
    else if inv && false then Some (MkRsym 3 (S ++ map (rneg 3) S) false) else Some (MkRsym 3 S inv)).
  { destruct S as [|s0 S']; [discriminate|]. injection HH as ->. unfold r_init. rewrite E1. reflexivity. }
  assert (HI : In (reye 3) S) by (destruct S as [|s0 S']; [discriminate|]; injection HH as ->; left; reflexivity).
  rewrite EI.
  assert (E2 : existsb (fun s => negb (rdet_ok 3 s)) S = false).
  { apply not_true_is_false. intro E. apply existsb_exists in E. destruct E as (s & Hs & E). apply negb_true_iff in E. apply not_true_iff_false in E. apply E.
    unfold rdet_ok. apply reqb_spec. destruct (HD s Hs) as [-> | ->]; [apply Rabs_R1|]. rewrite Rabs_left; lra. }
  rewrite E2.
  assert (E3 : rcloud S (map (rneg 3) S) = false).
  { apply not_true_is_false. intro E. unfold rcloud in E. rewrite forallb_forall in E. specialize (E (reye 3) HI).
    apply memb_In in E; [|apply rmeqb_spec]. apply in_map_iff in E. destruct E as (a & E & Ha). apply (last_neg a (HL a Ha)). rewrite E. apply HL. exact HI. }
  rewrite E3. rewrite andb_false_r. reflexivity.
Qed.
Lemma cyclic_eq : forall n inv, (1 <= n)%nat -> r_cyclic n inv = Some (MkRsym 3 (map (rot3 n) (seq 0 n)) inv).
Proof.
  intros n inv Hn. unfold r_cyclic. apply init_last.
  - destruct n as [|n]; [lia|]. cbn [seq map hd_error]. rewrite rot3_0. reflexivity.
  - intros a Ha. apply In_rots in Ha. destruct Ha as (i & _ & ->). left. rewrite rot3_R, det_R3. apply rot_sq.
  - intros a Ha. apply In_rots in Ha. destruct Ha as (i & _ & ->). reflexivity.
Qed.
Theorem C143_cyclic : forall n inv, (1 <= n)%nat -> exists g, r_cyclic n inv = Some g /\ r_len g = (n * (if inv then 2 else 1))%nat /\
  length (r_all g) = r_len g /\ is_group (rmul 3) (reye 3) (r_all g) /\ length (rops g) = n /\ rinv g = inv /\
  forall i r p z, (i < n)%nat -> lmv (K:=Rs) 3 (nth i (rops g) []) [r * cos p; r * sin p; z] =
    [r * cos (p - 2 * PI * INR i / INR n); r * sin (p - 2 * PI * INR i / INR n); z].
Proof.
  intros n inv Hn. rewrite cyclic_eq by exact Hn. eexists. split; [reflexivity|]. unfold r_len, r_all. cbn [rops rinv rdim].
  assert (L : length (map (rot3 n) (seq 0 n)) = n) by (rewrite map_length, seq_length; reflexivity).
  split; [rewrite L; reflexivity|]. split; [rewrite app_length; destruct inv; [rewrite !map_length|cbn [length]; rewrite map_length]; rewrite !seq_length; lia|].
  assert (G : is_group (rmul 3) (reye 3) (map (rot3 n) (seq 0 n))).
  { apply cyc_group; [exact Hn|apply rot3_0|intros; apply rot3_mul; exact Hn|intros i j Hi Hj; apply rot3_inj; assumption]. }
  split; [|split; [exact L|split; [reflexivity|]]].
  - destruct inv; [|rewrite app_nil_r; exact G]. apply neg_group; [exact G| |].
    + intros a Ha. apply In_rots in Ha. destruct Ha as (i & _ & ->). apply wf_R3.
    + intros a Ha Hb. apply In_rots in Ha. destruct Ha as (i & _ & ->). apply In_rots in Hb. destruct Hb as (j & _ & E). apply (last_neg (rot3 n i)); [reflexivity|]. rewrite E. reflexivity.
  - intros i r p z Hi. rewrite (nth_indep _ [] (rot3 n 0)) by (rewrite map_length, seq_length; exact Hi). rewrite map_nth, seq_nth by exact Hi. cbn [Nat.add]. 
    assert (N0 : INR n <> 0) by (apply not_0_INR; lia).
    replace (2 * PI * INR i / INR n) with (INR i * 2 * PI / INR n) by (field; exact N0). rewrite cos_minus, sin_minus. fold (rot_c n i). fold (rot_s n i).
    unfold lmv, vmk, ent, vent, nsum, ksum, rot3. cbn [seq map nth sadd smul s0 Rs car]. list_split; try reflexivity; match goal with |- ?a = ?b => change (@eq R a b) end; ring.
Qed.
Print Assumptions C143_cyclic.
(** the tenfold axis with inversion: 20 operations, the third turns (1, 0, 0) by 72 degrees to negative angles *)
Example C143_ex : exists g, r_cyclic 10 true = Some g /\ length (r_all g) = 20%nat /\
  lmv (K:=Rs) 3 (nth 2 (rops g) []) [1 * cos 0; 1 * sin 0; 5] = [1 * cos (0 - 2 * PI * INR 2 / INR 10); 1 * sin (0 - 2 * PI * INR 2 / INR 10); 5].
Proof.
  destruct (C143_cyclic 10 true) as (g & H & L & L2 & _ & _ & _ & A); [lia|]. exists g. split; [exact H|]. split; [rewrite L2, L; reflexivity|]. apply A. lia.
Qed.

Lemma o2_eq : forall n, (1 <= n)%nat -> r_o2 n = Some (MkRsym 2 (map (rot2 n) (seq 0 n)) false).
Proof.
  intros n Hn. unfold r_o2.
  assert (HH : hd_error (map (rot2 n) (seq 0 n)) = Some (reye 2)).
  { destruct n as [|n]; [lia|]. cbn [seq map hd_error]. rewrite rot2_0. reflexivity. }
  assert (HD : forall a, In a (map (rot2 n) (seq 0 n)) -> rdet 2 a = 1).
  { intros a Ha. apply In_rots in Ha. destruct Ha as (i & _ & ->). change (rot2 n i) with (R2 (rot_c n i) (rot_s n i)). rewrite det_R2. apply rot_sq. }
  revert HH HD. generalize (map (rot2 n) (seq 0 n)). intros S HH HD. destruct S as [|s0 S']; [discriminate|]. injection HH as ->. unfold r_init.
  assert (E1 : rmeqb (reye 2) (reye 2) = true) by (apply rmeqb_spec; reflexivity). rewrite E1. cbn [negb].
  assert (E2 : existsb (fun s => negb (rdet_ok 2 s)) (reye 2 :: S') = false).
  { apply not_true_is_false. intro E. apply existsb_exists in E. destruct E as (s & Hs & E). apply negb_true_iff in E. apply not_true_iff_false in E. apply E.
    unfold rdet_ok. apply reqb_spec. rewrite (HD s Hs). apply Rabs_R1. }
  rewrite E2. destruct (rcloud _ _); reflexivity.
Qed.
Theorem C143_o2 : forall n, (1 <= n)%nat -> exists g, r_o2 n = Some g /\ r_len g = n /\ is_group (rmul 2) (reye 2) (r_all g) /\ length (rops g) = n /\ rinv g = false /\
  forall i r p, (i < n)%nat -> lmv (K:=Rs) 2 (nth i (rops g) []) [r * cos p; r * sin p] =
    [r * cos (p - 2 * PI * INR i / INR n); r * sin (p - 2 * PI * INR i / INR n)].
Proof.
  intros n Hn. rewrite o2_eq by exact Hn. eexists. split; [reflexivity|]. unfold r_len, r_all. cbn [rops rinv rdim].
  assert (L : length (map (rot2 n) (seq 0 n)) = n) by (rewrite map_length, seq_length; reflexivity).
  split; [rewrite L; lia|]. rewrite app_nil_r.
  split; [|split; [exact L|split; [reflexivity|]]].
  - apply cyc_group; [exact Hn|apply rot2_0|intros; apply rot2_mul; exact Hn|intros i j Hi Hj; apply rot2_inj; assumption].
  - intros i r p Hi. rewrite (nth_indep _ [] (rot2 n 0)) by (rewrite map_length, seq_length; exact Hi). rewrite map_nth, seq_nth by exact Hi. cbn [Nat.add].
    assert (N0 : INR n <> 0) by (apply not_0_INR; lia).
    replace (2 * PI * INR i / INR n) with (INR i * 2 * PI / INR n) by (field; exact N0). rewrite cos_minus, sin_minus. fold (rot_c n i). fold (rot_s n i).
    unfold lmv, vmk, ent, vent, nsum, ksum, rot2. cbn [seq map nth sadd smul s0 Rs car]. list_split; try reflexivity; match goal with |- ?a = ?b => change (@eq R a b) end; ring.
Qed.
Print Assumptions C143_o2.

(** "(includes inversion)" holds for even counts only *)
Theorem C143_o2_inversion : forall n, (1 <= n)%nat -> exists g, r_o2 n = Some g /\ (In [[-1; 0]; [0; -1]] (r_all g) <-> exists k, n = (2 * k)%nat).
Proof.
  intros n Hn. rewrite o2_eq by exact Hn. eexists. split; [reflexivity|]. unfold r_all. cbn [rops rinv rdim]. rewrite app_nil_r. split.
  - intro H. apply In_rots in H. destruct H as (i & Hi & E). injection E as HC HS _ _.
    destruct (rot_add n i i Hn) as [A B]. destruct (rot_0 n) as [Z1 Z2]. rewrite <- HC, <- HS in A, B.
    assert (M : ((i + i) mod n)%nat = 0%nat).
    { apply (rot_inj n); [apply Nat.mod_upper_bound; lia|lia|rewrite Z1, <- A|rewrite Z2, <- B]; ring. }
    destruct (Nat.eq_dec i 0) as [->|N]; [rewrite Z1 in HC; lra|].
    exists i. apply Nat.mod_divides in M; [|lia]. destruct M as (q & M). destruct q as [|[|q]]; nia.
  - intros (k & ->). apply In_rots. exists k. split; [lia|]. unfold rot2, rot_c, rot_s.
    assert (E : INR k * 2 * PI / INR (2 * k) = PI).
    { rewrite mult_INR. change (INR 2) with 2. field. apply not_0_INR. lia. }
    rewrite E, cos_PI, sin_PI, Ropp_0. reflexivity.
Qed.
Print Assumptions C143_o2_inversion.
Theorem C143_o2_inversion_refuted : exists n g, (1 <= n)%nat /\ r_o2 n = Some g /\ ~ In [[-1; 0]; [0; -1]] (r_all g).
Proof.
  destruct (C143_o2_inversion 3) as (g & H & I); [lia|]. exists 3%nat, g. split; [lia|]. split; [exact H|]. rewrite I. intros (k & E). lia.
Qed.
Print Assumptions C143_o2_inversion_refuted.
Example C143_o2_inversion_ex : exists g, r_o2 8 = Some g /\ r_len g = 8%nat /\ In [[-1; 0]; [0; -1]] (r_all g).
Proof.
  destruct (C143_o2 8) as (g & H & L & _); [lia|]. destruct (C143_o2_inversion 8) as (g' & H' & I); [lia|]. rewrite H in H'. injection H' as <-.
  exists g. split; [exact H|]. split; [exact L|]. apply I. exists 4%nat. reflexivity.
Qed.

(** the crystallographic restriction: the groups that keep a lattice of the plane *)
Definition keeps_lattice (g : rsym) : Prop := exists p q r s : R, p * s - q * r <> 0 /\
  forall x, In x (r_all g) -> exists a b c d : Z, rmul 2 x [[p; q]; [r; s]] = rmul 2 [[p; q]; [r; s]] [[IZR a; IZR b]; [IZR c; IZR d]].
Lemma mul2 : forall a b c d p q r s, rmul 2 [[a; b]; [c; d]] [[p; q]; [r; s]] = [[a * p + b * r; a * q + b * s]; [c * p + d * r; c * q + d * s]].
Proof. intros. rmat_eq. Qed.
Lemma IZR_between : forall (z a : Z), IZR a < IZR z < IZR (a + 1) -> False.
Proof. intros z a [H1 H2]. apply lt_IZR in H1. apply lt_IZR in H2. lia. Qed.
Theorem C143_lattice : forall n, (1 <= n)%nat -> exists g, r_o2 n = Some g /\ (keeps_lattice g <-> n = 1%nat \/ n = 2%nat \/ n = 3%nat \/ n = 4%nat \/ n = 6%nat).
Proof.
  intros n Hn. rewrite o2_eq by exact Hn. eexists. split; [reflexivity|]. unfold keeps_lattice, r_all. cbn [rops rinv rdim]. rewrite app_nil_r.
  assert (P := PI_RGT_0). split.
  - intros (p & q & r & s & D & H).
    destruct (le_lt_dec n 4) as [L|L]; [lia|]. destruct (Nat.eq_dec n 6) as [L6|L6]; [lia|]. exfalso.
    destruct (H (rot2 n 1)) as (a & b & c & d & E). { apply In_rots. exists 1%nat. split; [lia|reflexivity]. }
    unfold rot2 in E. rewrite !mul2 in E. injection E as E1 E2 E3 E4.
    assert (T : 2 * rot_c n 1 = IZR (a + d)).
    { rewrite plus_IZR. apply (Rmult_eq_reg_r (p * s - q * r)); [|exact D]. set (C := rot_c n 1) in *. set (Sn := rot_s n 1) in *.
      transitivity ((C * p + Sn * r) * s - (C * q + Sn * s) * r - (- Sn * p + C * r) * q + (- Sn * q + C * s) * p); [ring|]. rewrite E1, E2, E3, E4. ring. }
    unfold rot_c in T. cbn [INR] in T. rewrite Rmult_1_l in T.
    assert (N5 : 5 <= INR n) by (replace 5 with (INR 5) by (cbn; ring); apply le_INR; lia).
    assert (X0 : 0 < 2 * PI / INR n) by (apply Rdiv_lt_0_compat; lra).
    assert (X1 : 2 * PI / INR n <= 2 * PI / 5). { apply Rmult_le_compat_l; [lra|]. apply Rinv_le_contravar; lra. }
    destruct (Nat.eq_dec n 5) as [->|N].
    + assert (E5 : INR 5 = 5) by (cbn; ring). rewrite E5 in T.
      apply (IZR_between (a + d) 0). cbn [Z.add]. rewrite <- T. split.
      * assert (0 < cos (2 * PI / 5)); [|lra]. apply cos_gt_0; lra.
      * assert (cos (2 * PI / 5) < cos (PI / 3)); [|rewrite cos_PI3 in *; lra]. apply cos_decreasing_1; lra.
    + assert (N7 : 7 <= INR n) by (replace 7 with (INR 7) by (cbn; ring); apply le_INR; lia).
      assert (X2 : 2 * PI / INR n <= 2 * PI / 7). { apply Rmult_le_compat_l; [lra|]. apply Rinv_le_contravar; lra. }
      apply (IZR_between (a + d) 1). cbn [Z.add Pos.add]. change (IZR (1 + 1)) with 2. rewrite <- T. split.
      * assert (cos (PI / 3) < cos (2 * PI / INR n)); [|rewrite cos_PI3 in *; lra]. apply cos_decreasing_1; lra.
      * assert (cos (2 * PI / INR n) < cos 0); [|rewrite cos_0 in *; lra]. apply cos_decreasing_1; lra.
  - intro HN.
    assert (G : (n <= 2)%nat \/ exists t : Z, 2 * rot_c n 1 = IZR t /\ rot_s n 1 <> 0).
    { destruct HN as [->|[->|[->|[->| ->]]]]; [left; lia|left; lia|right|right|right]; unfold rot_c, rot_s; cbn [INR]; rewrite Rmult_1_l.
      - exists (-1)%Z. replace (2 * PI / (1 + 1 + 1)) with (2 * (PI / 3)) by field. rewrite cos_2PI3. split; [lra|]. apply Rgt_not_eq, sin_gt_0; lra.
      - exists 0%Z. replace (2 * PI / (1 + 1 + 1 + 1)) with (PI / 2) by field. rewrite cos_PI2, sin_PI2. split; lra.
      - exists 1%Z. replace (2 * PI / (1 + 1 + 1 + 1 + 1 + 1)) with (PI / 3) by field. rewrite cos_PI3. split; [lra|]. apply Rgt_not_eq, sin_gt_0; lra. }
    destruct G as [G|(t & T & SN)].
    + exists 1, 0, 0, 1. split; [lra|]. intros x Hx. apply In_rots in Hx. destruct Hx as (i & Hi & ->).
      assert (Z : exists z, rot_c n i = IZR z /\ rot_s n i = 0).
      { destruct (Nat.eq_dec i 0) as [->|N]. { exists 1%Z. apply rot_0. } assert (n = 2%nat) by lia. assert (i = 1%nat) by lia. subst. exists (-1)%Z.
        unfold rot_c, rot_s. cbn [INR]. replace (1 * 2 * PI / (1 + 1)) with PI by field. rewrite cos_PI, sin_PI. split; reflexivity. }
      destruct Z as (z & ZC & ZS). exists z, 0%Z, 0%Z, z. unfold rot2. rewrite ZC, ZS, !mul2. list_split; try reflexivity; ring.
    + exists 1, (rot_c n 1), 0, (- rot_s n 1). split; [intro E; apply SN; lra|]. intros x Hx. apply In_rots in Hx. destruct Hx as (i & Hi & ->).
      set (C := rot_c n 1) in *. set (Sn := rot_s n 1) in *.
      assert (Q : C * C + Sn * Sn = 1) by (apply (rot_sq n 1)).
      clear HN. induction i as [|i IH].
      * exists 1%Z, 0%Z, 0%Z, 1%Z. destruct (rot_0 n) as [Z1 Z2]. unfold rot2. rewrite Z1, Z2, !mul2. list_split; try reflexivity; ring.
      * destruct IH as (a & b & c & d & E); [lia|].
        destruct (rot_add n 1 i Hn) as [A B]. rewrite Nat.mod_small in A, B by lia. cbn [Nat.add] in A, B. fold C Sn in A, B.
        (* multiply with the matrix (0 -1; 1 t) of the generator *)
        exists (- c)%Z, (- d)%Z, (a + t * c)%Z, (b + t * d)%Z. unfold rot2 in *. rewrite !mul2 in *. injection E as E1 E2 E3 E4.
        rewrite <- A, <- B. rewrite !plus_IZR, !mult_IZR, !opp_IZR, <- T. set (c2 := rot_c n i) in *. set (s2 := rot_s n i) in *.
        assert (F1 : c2 = IZR a + C * IZR c) by lra. assert (F3 : s2 = Sn * IZR c) by lra.
        assert (F2 : c2 * C - s2 * Sn = IZR b + C * IZR d) by lra.
        assert (F4 : s2 * C + c2 * Sn = Sn * IZR d) by lra.
        list_split; try reflexivity; try nra.
        -- transitivity (C * c2 - Sn * s2); [ring|]. rewrite F1, F3. transitivity (C * (IZR a + C * IZR c) - (1 - C * C) * IZR c); [rewrite <- Q; ring|ring].
        -- transitivity (C * (c2 * C - s2 * Sn) - Sn * (s2 * C + c2 * Sn)); [ring|]. rewrite F2, F4.
           transitivity (C * (IZR b + C * IZR d) - (1 - C * C) * IZR d); [rewrite <- Q; ring|ring].
        -- transitivity (- C * (s2 * C + c2 * Sn) - Sn * (c2 * C - s2 * Sn)); [ring|]. rewrite F2, F4. ring.
Qed.
Print Assumptions C143_lattice.
Example C143_lattice_ex : exists g h, r_o2 6 = Some g /\ keeps_lattice g /\ r_o2 5 = Some h /\ ~ keeps_lattice h.
Proof.
  destruct (C143_lattice 6) as (g & G & HG); [lia|]. destruct (C143_lattice 5) as (h & H & HH); [lia|].
  exists g, h. split; [exact G|]. split; [apply HG; lia|]. split; [exact H|]. rewrite HH. lia.
Qed.

(** ** C144: dihedral groups *)
Definition flip3 (n i : nat) : rmat := F3 (rot_c n i) (rot_s n i).
Definition dih (n : nat) : list rmat := map (rot3 n) (seq 0 n) ++ map (flip3 n) (seq 0 n).
Lemma In_dih : forall n x, In x (dih n) <-> exists i, (i < n)%nat /\ (x = rot3 n i \/ x = flip3 n i).
Proof.
  intros n x. unfold dih. rewrite in_app_iff, !In_rots. split.
  - intros [(i & H & E)|(i & H & E)]; exists i; auto.
  - intros (i & H & [E|E]); [left|right]; exists i; auto.
Qed.
Lemma flip_0 : forall n, flip3 n 0 = [[-1; 0; 0]; [0; 1; 0]; [0; 0; 1]].
Proof. intro n. unfold flip3, F3. destruct (rot_0 n) as [-> ->]. list_split; try reflexivity; ring. Qed.
Lemma RFi : forall n i j, (1 <= n)%nat -> rmul 3 (rot3 n i) (flip3 n j) = flip3 n ((i + j) mod n).
Proof. intros n i j Hn. rewrite rot3_R. unfold flip3. rewrite RF. destruct (rot_add n i j Hn) as [-> ->]. reflexivity. Qed.
Lemma FRi : forall n i j, (j < n)%nat -> rmul 3 (flip3 n i) (rot3 n j) = flip3 n ((i + (n - j)) mod n).
Proof.
  intros n i j Hn. rewrite rot3_R. unfold flip3. rewrite FR. destruct (rot_sub n i j ltac:(lia) Hn) as [A B]. rewrite <- A, <- B. reflexivity.
Qed.
Lemma FFi : forall n i j, (j < n)%nat -> rmul 3 (flip3 n i) (flip3 n j) = rot3 n ((i + (n - j)) mod n).
Proof.
  intros n i j Hn. rewrite rot3_R. unfold flip3. rewrite FF. destruct (rot_sub n i j ltac:(lia) Hn) as [A B]. rewrite <- A, <- B. reflexivity.
Qed.
Lemma dih_group : forall n, (1 <= n)%nat -> is_group (rmul 3) (reye 3) (dih n).
Proof.
  intros n Hn. split; [|split; [|split]].
  - apply In_dih. exists 0%nat. split; [lia|]. left. symmetry. apply rot3_0.
  - unfold dih.
    assert (N1 : NoDup (map (rot3 n) (seq 0 n))).
    { apply NoDup_map_inj; [|apply seq_NoDup]. intros a b Ha Hb. apply in_seq in Ha. apply in_seq in Hb. apply rot3_inj; lia. }
    assert (N2 : NoDup (map (flip3 n) (seq 0 n))).
    { apply NoDup_map_inj; [|apply seq_NoDup]. intros a b Ha Hb E. apply in_seq in Ha. apply in_seq in Hb. injection E as H1 H2 _. apply (rot_inj n); try lia; lra. }
    assert (DJ : forall a, In a (map (rot3 n) (seq 0 n)) -> ~ In a (map (flip3 n) (seq 0 n))).
    { intros a Ha Hb. apply In_rots in Ha. apply In_rots in Hb. destruct Ha as (i & _ & ->), Hb as (j & _ & E). apply (f_equal (rdet 3)) in E.
      rewrite rot3_R, det_R3 in E. unfold flip3 in E. rewrite det_F3 in E. assert (A := rot_sq n i). assert (B := rot_sq n j). lra. }
    revert N1 DJ. generalize (map (rot3 n) (seq 0 n)). intros S N1 DJ. induction S as [|a S IH]; [exact N2|]. inversion N1 as [|? ? A B]; subst. cbn. constructor.
    + intro I. apply in_app_or in I. destruct I as [I|I]; [exact (A I)|exact (DJ a (or_introl eq_refl) I)].
    + apply IH; [exact B|intros; apply DJ; right; assumption].
  - intros x y Hx Hy. apply In_dih in Hx. apply In_dih in Hy. destruct Hx as (i & Hi & [-> | ->]), Hy as (j & Hj & [-> | ->]); apply In_dih.
    + rewrite rot3_mul by lia. eexists. split; [apply Nat.mod_upper_bound; lia|left; reflexivity].
    + rewrite RFi by lia. eexists. split; [apply Nat.mod_upper_bound; lia|right; reflexivity].
    + rewrite FRi by lia. eexists. split; [apply Nat.mod_upper_bound; lia|right; reflexivity].
    + rewrite FFi by lia. eexists. split; [apply Nat.mod_upper_bound; lia|left; reflexivity].
  - intros x Hx. apply In_dih in Hx. destruct Hx as (i & Hi & [-> | ->]).
    + exists (rot3 n ((n - i) mod n)). split; [apply In_dih; eexists; split; [apply Nat.mod_upper_bound; lia|left; reflexivity]|].
      rewrite !rot3_mul by lia. rewrite Nat.add_mod_idemp_r, Nat.add_mod_idemp_l by lia. replace (i + (n - i))%nat with n by lia. replace (n - i + i)%nat with n by lia.
      rewrite Nat.mod_same by lia. rewrite rot3_0. auto.
    + exists (flip3 n i). split; [apply In_dih; exists i; auto|]. rewrite FFi by lia. replace (i + (n - i))%nat with n by lia. rewrite Nat.mod_same by lia. rewrite rot3_0. auto.
Qed.
Lemma mirror_eq : r_mirror_x = Some (MkRsym 3 [reye 3; [[-1; 0; 0]; [0; 1; 0]; [0; 0; 1]]] false).
Proof.
  unfold r_mirror_x. apply init_last; [reflexivity| |].
  - rewrite <- (flip_0 1). intros a [<-|[<-|[]]].
    + left. rewrite eye3, det_R3. ring.
    + right. unfold flip3. rewrite det_F3. assert (A := rot_sq 1 0). lra.
  - intros a [<-|[<-|[]]]; reflexivity.
Qed.
(** the generators of dihedral *)
Definition dgen (n : nat) : list rmat := map (rot3 n) (seq 0 n) ++ [reye 3; [[-1; 0; 0]; [0; 1; 0]; [0; 0; 1]]].
Lemma dihedral_gen : forall n inv, (1 <= n)%nat -> r_dihedral n inv = r_from_generator 3 (dgen n) inv.
Proof. intros n inv Hn. unfold r_dihedral. rewrite cyclic_eq by exact Hn. rewrite mirror_eq. unfold r_mul. cbn [rdim rops rinv Nat.eqb]. rewrite orb_false_r. reflexivity. Qed.
Lemma dgen_in : forall n g, (1 <= n)%nat -> In g (dgen n) -> In g (dih n).
Proof.
  intros n g Hn H. apply in_app_or in H. apply In_dih. destruct H as [H|[<-|[<-|[]]]].
  - apply In_rots in H. destruct H as (i & Hi & ->). exists i. auto.
  - exists 0%nat. split; [lia|]. left. symmetry. apply rot3_0.
  - exists 0%nat. split; [lia|]. right. symmetry. apply flip_0.
Qed.
Lemma r_eye_wf : forall n, wfm (K:=Rs) n n (reye n). Proof. intro n. exact (@leye_wf Rs n). Qed.
Lemma r_mul_wf : forall n a b, wfm (K:=Rs) n n (rmul n a b). Proof. intros. exact (@lmul_wf Rs n a b). Qed.
Lemma r_assoc : forall n a b c, rmul n a (rmul n b c) = rmul n (rmul n a b) c. Proof. intros. exact (@lmul_assoc Rs n a b c). Qed.
Lemma r_1_l : forall n a, wfm (K:=Rs) n n a -> rmul n (reye n) a = a. Proof. intros n a H. exact (@lmul_1_l Rs n a H). Qed.
Lemma r_1_r : forall n a, wfm (K:=Rs) n n a -> rmul n a (reye n) = a. Proof. intros n a H. exact (@lmul_1_r Rs n a H). Qed.
Lemma is_group_ext {T} (mul : T -> T -> T) one S S' : is_group mul one S -> NoDup S' -> (forall x, In x S' <-> In x S) -> is_group mul one S'.
Proof.
  intros (H1 & H2 & H3 & H4) N E. split; [apply E; exact H1|]. split; [exact N|]. split.
  - intros a b Ha Hb. apply E. apply H3; apply E; assumption.
  - intros a Ha. apply E in Ha. destruct (H4 a Ha) as (b & Hb & X). exists b. split; [apply E; exact Hb|exact X].
Qed.
(** the constructor on the members of a known group *)
Lemma r_from_ok : forall N G S inv, G <> [] -> (forall g, In g G -> wfm (K:=Rs) N N g) -> (forall g, In g G -> rdet_ok N g = true) ->
  is_group (rmul N) (reye N) S -> (length S < 200)%nat -> (forall x, In x S <-> generated (rmul N) (reye N) G x) ->
  exists R, r_from_generator N G inv = r_init N R inv /\ hd_error R = Some (reye N) /\ is_group (rmul N) (reye N) R /\ (forall x, In x R <-> In x S) /\ length R = length S.
Proof.
  intros N G S inv HG HW HD HS HL HE.
  destruct (from_generator_exact rmeqb (rmul N) (reye N) (rdet_ok N) (fun a => wfm (K:=Rs) N N a) rmeqb_spec (r_eye_wf N) (r_mul_wf N) (r_assoc N) (r_1_l N) (r_1_r N) G HG HW HD) as [A _].
  destruct (proj1 A) as (R & HR). { exists S. split; [apply HS|]. split; [exact HL|exact HE]. }
  pose proof (from_generator_ok rmeqb (rmul N) (reye N) (rdet_ok N) (fun a => wfm (K:=Rs) N N a) rmeqb_spec (r_eye_wf N) (r_mul_wf N) (r_assoc N) (r_1_l N) (r_1_r N) G R HW HR) as (B1 & _ & B3 & _ & _ & B6).
  exists R. unfold r_from_generator. rewrite HR. split; [reflexivity|]. split; [exact B1|].
  assert (E : forall x, In x R <-> In x S) by (intro x; rewrite B6, HE; reflexivity).
  split; [exact (is_group_ext _ _ S R HS B3 E)|]. split; [exact E|].
  apply Nat.le_antisymm; apply NoDup_incl_length; try apply HS; try exact B3; intros x Hx; apply E; exact Hx.
Qed.
Lemma dgen_wf : forall n g, (1 <= n)%nat -> In g (dgen n) -> wfm (K:=Rs) 3 3 g.
Proof. intros n g Hn H. apply dgen_in in H; [|exact Hn]. apply In_dih in H. destruct H as (i & _ & [-> | ->]); [apply wf_R3|apply wf_F3]. Qed.
Lemma dgen_det : forall n g, (1 <= n)%nat -> In g (dgen n) -> rdet_ok 3 g = true.
Proof.
  intros n g Hn H. apply dgen_in in H; [|exact Hn]. apply In_dih in H. apply reqb_spec. destruct H as (i & _ & [-> | ->]); assert (A := rot_sq n i).
  - rewrite rot3_R, det_R3. rewrite A. apply Rabs_R1.
  - unfold flip3. rewrite det_F3. replace (- _) with (-1) by lra || idtac. rewrite Rabs_left; lra.
Qed.
Lemma dgen_generated : forall n x, (1 <= n)%nat -> In x (dih n) <-> generated (rmul 3) (reye 3) (dgen n) x.
Proof.
  intros n x Hn.
  assert (GI : forall g, In g (dgen n) -> generated (rmul 3) (reye 3) (dgen n) g).
  { intros g Hg. apply (generated_in (rmul 3) (reye 3) (fun a => wfm (K:=Rs) 3 3 a) (r_1_r 3)); [apply (dgen_wf n); assumption|exact Hg]. }
  split.
  - intro H. apply In_dih in H. destruct H as (i & Hi & [-> | ->]).
    + apply GI, in_or_app. left. apply In_rots. eauto.
    + replace (flip3 n i) with (rmul 3 (rot3 n i) (flip3 n 0)).
      * apply (generated_mul (rmul 3) (reye 3) (fun a => wfm (K:=Rs) 3 3 a) (r_eye_wf 3) (r_mul_wf 3) (r_assoc 3) (r_1_l 3)); [intros g Hg; apply (dgen_wf n); assumption| |].
        -- apply GI, in_or_app. left. apply In_rots. eauto.
        -- apply GI, in_or_app. right. right. left. symmetry. apply flip_0.
      * rewrite RFi by exact Hn. rewrite Nat.add_0_r, Nat.mod_small by exact Hi. reflexivity.
  - destruct (dih_group n Hn) as (D1 & _ & D3 & _). apply generated_least; [exact D1|exact D3|intros g Hg; apply dgen_in; assumption].
Qed.
Lemma dih_length : forall n, length (dih n) = (2 * n)%nat.
Proof. intro n. unfold dih. rewrite app_length, !map_length, seq_length. lia. Qed.
Lemma rot_act : forall n i r p z, (1 <= n)%nat -> lmv (K:=Rs) 3 (rot3 n i) [r * cos p; r * sin p; z] =
  [r * cos (p - 2 * PI * INR i / INR n); r * sin (p - 2 * PI * INR i / INR n); z].
Proof.
  intros n i r p z Hn. assert (N0 : INR n <> 0) by (apply not_0_INR; lia).
  replace (2 * PI * INR i / INR n) with (INR i * 2 * PI / INR n) by (field; exact N0). rewrite cos_minus, sin_minus. fold (rot_c n i). fold (rot_s n i).
  unfold lmv, vmk, ent, vent, nsum, ksum, rot3. cbn [seq map nth sadd smul s0 Rs car]. list_split; try reflexivity; match goal with |- ?a = ?b => change (@eq R a b) end; ring.
Qed.
Lemma flip_act : forall n i r p z, (1 <= n)%nat -> lmv (K:=Rs) 3 (flip3 n i) [r * cos p; r * sin p; z] =
  [r * cos (PI - p - 2 * PI * INR i / INR n); r * sin (PI - p - 2 * PI * INR i / INR n); z].
Proof.
  intros n i r p z Hn. assert (N0 : INR n <> 0) by (apply not_0_INR; lia).
  replace (2 * PI * INR i / INR n) with (INR i * 2 * PI / INR n) by (field; exact N0). rewrite !cos_minus, !sin_minus, !cos_minus, cos_PI, sin_PI. fold (rot_c n i). fold (rot_s n i).
  unfold lmv, vmk, ent, vent, nsum, ksum, flip3, F3. cbn [seq map nth sadd smul s0 Rs car]. list_split; try reflexivity; match goal with |- ?a = ?b => change (@eq R a b) end; ring.
Qed.
Theorem C144_dihedral : forall n inv, (1 <= n < 100)%nat -> exists g, r_dihedral n inv = Some g /\ length (rops g) = (2 * n)%nat /\ rinv g = inv /\
  r_len g = (2 * n * (if inv then 2 else 1))%nat /\ length (r_all g) = r_len g /\ is_group (rmul 3) (reye 3) (r_all g) /\
  (forall i, (i < n)%nat -> exists x, In x (rops g) /\ forall r p z, lmv (K:=Rs) 3 x [r * cos p; r * sin p; z] =
    [r * cos (p - 2 * PI * INR i / INR n); r * sin (p - 2 * PI * INR i / INR n); z]) /\
  (forall i, (i < n)%nat -> exists x, In x (rops g) /\ forall r p z, lmv (K:=Rs) 3 x [r * cos p; r * sin p; z] =
    [r * cos (PI - p - 2 * PI * INR i / INR n); r * sin (PI - p - 2 * PI * INR i / INR n); z]).
Proof.
  intros n inv [Hn Hl]. rewrite dihedral_gen by exact Hn.
  destruct (r_from_ok 3 (dgen n) (dih n) inv) as (R & E1 & E2 & E3 & E4 & E5).
  { unfold dgen. destruct (map _ _); discriminate. }
  { intros g Hg. apply (dgen_wf n); assumption. }
  { intros g Hg. apply (dgen_det n); assumption. }
  { apply dih_group. exact Hn. }
  { rewrite dih_length. lia. }
  { intro x. apply dgen_generated. exact Hn. }
  rewrite dih_length in E5. rewrite E1.
  assert (LO : forall a, In a R -> last_one a).
  { intros a Ha. apply E4, In_dih in Ha. destruct Ha as (i & _ & [-> | ->]); reflexivity. }
  rewrite init_last; [|exact E2| |exact LO].
  2: { intros a Ha. apply E4, In_dih in Ha. destruct Ha as (i & _ & [-> | ->]); assert (A := rot_sq n i).
       - left. rewrite rot3_R, det_R3. exact A. - right. unfold flip3. rewrite det_F3. lra. }
  eexists. split; [reflexivity|]. unfold r_len, r_all. cbn [rops rinv rdim]. split; [exact E5|]. split; [reflexivity|]. split; [rewrite E5; reflexivity|].
  split; [rewrite app_length; destruct inv; [rewrite map_length|cbn [length]]; lia|].
  split; [|split].
  - destruct inv; [|rewrite app_nil_r; exact E3]. apply neg_group; [exact E3| |].
    + intros a Ha. apply E4, In_dih in Ha. destruct Ha as (i & _ & [-> | ->]); [apply wf_R3|apply wf_F3].
    + intros a Ha Hb. apply (last_neg a); [apply LO; exact Ha|apply LO; exact Hb].
  - intros i Hi. exists (rot3 n i). split; [apply E4, In_dih; eauto|]. intros. apply rot_act. exact Hn.
  - intros i Hi. exists (flip3 n i). split; [apply E4, In_dih; eauto|]. intros. apply flip_act. exact Hn.
Qed.
Print Assumptions C144_dihedral.
(** the bound 200 of from_generator *)
Theorem C144_limit_refuted : forall n inv, (100 <= n)%nat -> r_dihedral n inv = None.
Proof.
  intros n inv Hn. rewrite dihedral_gen by lia. unfold r_from_generator.
  assert (HG : dgen n <> []) by (unfold dgen; destruct (map _ _); discriminate).
  destruct (from_generator_exact rmeqb (rmul 3) (reye 3) (rdet_ok 3) (fun a => wfm (K:=Rs) 3 3 a) rmeqb_spec (r_eye_wf 3) (r_mul_wf 3) (r_assoc 3) (r_1_l 3) (r_1_r 3) (dgen n) HG) as [_ A].
  { intros g Hg. apply (dgen_wf n); [lia|exact Hg]. }
  { intros g Hg. apply (dgen_det n); [lia|exact Hg]. }
  rewrite (proj1 A); [reflexivity|]. exists (firstn 200 (dih n)). destruct (dih_group n) as (_ & ND & _); [lia|]. split; [|split].
  - rewrite <- (firstn_skipn 200 (dih n)) in ND. apply NoDup_app_iff in ND. apply ND.
  - rewrite firstn_length, dih_length. lia.
  - intros x Hx. apply dgen_generated; [lia|]. rewrite <- (firstn_skipn 200 (dih n)). apply in_or_app. left. exact Hx.
Qed.
Print Assumptions C144_limit_refuted.
Example C144_ex : exists g, r_dihedral 6 true = Some g /\ length (r_all g) = 24%nat /\ is_group (rmul 3) (reye 3) (r_all g).
Proof. destruct (C144_dihedral 6 true) as (g & H & _ & _ & L & L2 & G & _); [lia|]. exists g. rewrite L2, L. auto. Qed.
Example C144_limit_ex : r_dihedral 180 false = None /\ exists g, r_cyclic 180 false = Some g.
Proof. split; [apply C144_limit_refuted; lia|]. rewrite cyclic_eq by lia. eauto. Qed.

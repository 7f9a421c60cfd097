(** Generalised eigenvalues: uniqueness of the energies, and the effect of the model operations on them. *)
From Coq Require Import List Arith ZArith Reals Lra Lia Bool Permutation Setoid Morphisms.
From Coquelicot Require Import Coquelicot.
Import ListNotations.
From Verif Require Import SRing LMat FMat CplxR UrepModel UrepProofs FourierModel FourierProofs BsmProofs.
Local Open Scope R_scope.

(** complex inverse *)
Definition cinv (x : cplx) : cplx := (fst x / (fst x * fst x + snd x * snd x), - snd x / (fst x * fst x + snd x * snd x)).
Lemma cinv_l x : x <> (0,0) -> cmul (cinv x) x = (1,0).
Proof.
  intro H. assert (D : fst x * fst x + snd x * snd x <> 0).
  { intro E. apply H. destruct x as [a b]. simpl in *.
    assert (a * a = 0) by nra. assert (b * b = 0) by nra. f_equal; nra. }
  apply cplx_eq; simpl; field; exact D.
Qed.
Lemma cplx_dec (x y : cplx) : {x = y} + {x <> y}.
Proof.
  destruct x as [a b], y as [c d]. destruct (Req_EM_T a c) as [->|]; [|right; congruence].
  destruct (Req_EM_T b d) as [->|]; [left; reflexivity|right; congruence].
Qed.
Lemma cmul_0 x y : cmul x y = (0,0) -> x = (0,0) \/ y = (0,0).
Proof.
  intro H. destruct (cplx_dec x (0,0)) as [|Hx]; [left; assumption|right].
  transitivity (cmul (cmul (cinv x) x) y); [rewrite (cinv_l x Hx); rg|].
  transitivity (cmul (cinv x) (cmul x y)); [rg|]. rewrite H. rg.
Qed.
Lemma c10 : (1, 0) <> ((0, 0) : cplx). Proof. intro H. injection H. lra. Qed.

(** deleting an index *)
Definition skip (l m : nat) : nat := if Nat.ltb m l then m else S m.
Lemma skip_seq d l : (l <= d)%nat -> Permutation (seq 0 (S d)) (l :: map (skip l) (seq 0 d)).
Proof.
  intro Hl. replace (S d) with (l + S (d - l))%nat by lia. rewrite seq_app. cbn [seq]. rewrite Nat.add_0_l.
  transitivity (l :: seq 0 l ++ seq (S l) (d - l)); [symmetry; apply Permutation_middle|]. apply perm_skip.
  replace d with (l + (d - l))%nat at 2 by lia. rewrite seq_app, map_app, Nat.add_0_l.
  replace (map (skip l) (seq 0 l)) with (seq 0 l).
  - replace (map (skip l) (seq l (d - l))) with (seq (S l) (d - l)); [apply Permutation_refl|].
    rewrite <- seq_shift. apply map_ext_in. intros a Ha. apply in_seq in Ha. unfold skip.
    rewrite (proj2 (Nat.ltb_ge a l)) by lia. reflexivity.
  - rewrite <- (map_id (seq 0 l)) at 1. apply map_ext_in. intros a Ha. apply in_seq in Ha. unfold skip.
    rewrite (proj2 (Nat.ltb_lt a l)) by lia. reflexivity.
Qed.
Notation cnsum := (nsum (K:=Cs)).
Lemma nsum_skip d l f : (l <= d)%nat -> cnsum (S d) f = cadd (f l) (cnsum d (fun m => f (skip l m))).
Proof.
  intro Hl. unfold nsum. rewrite (ksum_perm Cs (seq 0 (S d)) (l :: map (skip l) (seq 0 d)) f (skip_seq d l Hl)).
  cbn [ksum]. rewrite csum_map. reflexivity.
Qed.
Lemma nsum_nonzero d f : cnsum d f <> (0,0) -> exists l, (l < d)%nat /\ f l <> (0,0).
Proof.
  induction d as [|d IH]; intro H; [exfalso; apply H; reflexivity|].
  destruct (cplx_dec (f d) (0,0)) as [E|E]; [|exists d; split; [lia|exact E]].
  rewrite (nsum_S Cs), E in H. destruct IH as (l & Hl & Hf).
  - intro E2. apply H. rewrite E2. csolve.
  - exists l. split; [lia|exact Hf].
Qed.

(** an invertible matrix has a permutation of nonzero entries *)
Lemma transversal d : forall (V W : cmat), feq (K:=Cs) d d (fmul (K:=Cs) d V W) (fid (K:=Cs)) ->
  exists sg, Permutation sg (seq 0 d) /\ forall i, (i < d)%nat -> V i (nth i sg 0%nat) <> (0,0).
Proof.
  induction d as [|d IH]; intros V W HVW.
  - exists []. split; [constructor|]. intros; lia.
  - assert (H00 := HVW 0%nat 0%nat ltac:(lia) ltac:(lia)). unfold fmul, fid in H00. cbn [Nat.eqb] in H00.
    destruct (nsum_nonzero (S d) (fun l => cmul (V 0%nat l) (W l 0%nat))) as (l & Hl & Hne).
    { change (@smul Cs) with cmul in H00. rewrite H00. exact c10. }
    assert (HV : V 0%nat l <> (0,0)) by (intro E; apply Hne; rewrite E; csolve).
    assert (HW : W l 0%nat <> (0,0)) by (intro E; apply Hne; rewrite E; csolve).
    set (t := fun b => cmul (W l b) (cinv (W l 0%nat))).
    set (W2 := fun m b => csub (W m b) (cmul (W m 0%nat) (t b))).
    assert (Wl : forall b, W2 l b = (0,0)).
    { intro b. unfold W2, t. transitivity (csub (W l b) (cmul (W l b) (cmul (cinv (W l 0%nat)) (W l 0%nat)))); [rg|].
      rewrite cinv_l by exact HW. rg. }
    destruct (IH (fun i m => V (S i) (skip l m)) (fun m b => W2 (skip l m) (S b))) as (sg & Hp & Hs).
    { intros a b Ha Hb. unfold fmul. change (@smul Cs) with cmul.
      assert (E : cnsum (S d) (fun m => cmul (V (S a) m) (W2 m (S b))) = fid (K:=Cs) a b).
      { unfold W2. transitivity (cnsum (S d) (fun m => cadd (cmul (V (S a) m) (W m (S b))) (cmul (cmul (V (S a) m) (W m 0%nat)) (copp (t (S b)))))).
        - apply (nsum_ext Cs). intros m _. rg.
        - transitivity (cadd (cnsum (S d) (fun m => cmul (V (S a) m) (W m (S b)))) (cmul (cnsum (S d) (fun m => cmul (V (S a) m) (W m 0%nat))) (copp (t (S b))))).
          + unfold nsum. rewrite csum_add, csum_mul_r. reflexivity.
          + pose proof (HVW (S a) (S b) ltac:(lia) ltac:(lia)) as E1. pose proof (HVW (S a) 0%nat ltac:(lia) ltac:(lia)) as E2.
            unfold fmul in E1, E2. change (@smul Cs) with cmul in E1, E2. rewrite E1, E2. unfold fid. cbn [Nat.eqb].
            change (@s1 Cs) with (1,0). change (@s0 Cs) with (0,0). destruct (Nat.eqb a b); rg. }
      rewrite (nsum_skip d l) in E by lia. rewrite Wl in E. rewrite <- E.
      transitivity (cnsum d (fun m => cmul (V (S a) (skip l m)) (W2 (skip l m) (S b)))); [reflexivity|].
      set (x := cnsum d _). csolve. }
    exists (l :: map (skip l) sg). split.
    + rewrite (skip_seq d l) by lia. apply perm_skip. apply Permutation_map. exact Hp.
    + intros i Hi. destruct i as [|i]; [exact HV|]. cbn [nth].
      rewrite (nth_indep _ 0%nat (skip l 0%nat)) by (rewrite map_length, (Permutation_length Hp), seq_length; lia).
      rewrite map_nth. apply Hs. lia.
Qed.

(** ** generalised eigenvalue problem: H V = S V diag(E) with V invertible, S invertible *)
Definition cdiag (E : list R) : cmat := fun i j => if Nat.eqb i j then cre (nth i E 0) else (0,0).
Definition spectrum (d : nat) (H S : cmat) (E : list R) : Prop :=
  length E = d /\ exists V W T : cmat,
    feq (K:=Cs) d d (fmul (K:=Cs) d V W) (fid (K:=Cs)) /\ feq (K:=Cs) d d (fmul (K:=Cs) d W V) (fid (K:=Cs)) /\
    feq (K:=Cs) d d (fmul (K:=Cs) d T S) (fid (K:=Cs)) /\
    feq (K:=Cs) d d (fmul (K:=Cs) d H V) (fmul (K:=Cs) d (fmul (K:=Cs) d S V) (cdiag E)).

Lemma nsum_cdiag_l d E (X : cmat) i j : (i < d)%nat -> fmul (K:=Cs) d (cdiag E) X i j = cmul (cre (nth i E 0)) (X i j).
Proof.
  intro Hi. unfold fmul. change (@smul Cs) with cmul.
  rewrite (nsum_single Cs d i); [|exact Hi|].
  - unfold cdiag. rewrite Nat.eqb_refl. reflexivity.
  - intros k _ Hk. unfold cdiag. rewrite (proj2 (Nat.eqb_neq i k)) by lia. csolve.
Qed.
Lemma nsum_cdiag_r d E (X : cmat) i j : (j < d)%nat -> fmul (K:=Cs) d X (cdiag E) i j = cmul (X i j) (cre (nth j E 0)).
Proof.
  intro Hj. unfold fmul. change (@smul Cs) with cmul.
  rewrite (nsum_single Cs d j); [|exact Hj|].
  - unfold cdiag. rewrite Nat.eqb_refl. reflexivity.
  - intros k _ Hk. unfold cdiag. rewrite (proj2 (Nat.eqb_neq k j)) by lia. csolve.
Qed.
Lemma nth_map_perm (E E' : list R) (sg : list nat) d : length E = d -> length E' = d -> Permutation sg (seq 0 d) ->
  (forall i, (i < d)%nat -> nth i E 0 = nth (nth i sg 0%nat) E' 0) -> Permutation E E'.
Proof.
  intros HE HE' Hp H.
  assert (LS : length sg = d) by (rewrite (Permutation_length Hp); apply seq_length).
  transitivity (map (fun i => nth i E' 0) sg).
  - replace E with (map (fun i => nth i E' 0) sg) at 1; [apply Permutation_refl|].
    apply (nth_ext _ _ 0 0); [rewrite map_length; congruence|]. intros i Hi. rewrite map_length in Hi.
    rewrite (nth_indep _ 0 (nth 0%nat E' 0)) by (rewrite map_length; exact Hi).
    rewrite (map_nth (fun i => nth i E' 0)). symmetry. apply H. lia.
  - rewrite (Permutation_map _ Hp). subst d. rewrite <- HE'.
    replace (map (fun i => nth i E' 0) (seq 0 (length E'))) with E'; [apply Permutation_refl|].
    clear. symmetry. apply (nth_ext _ _ 0 0); [rewrite map_length, seq_length; reflexivity|]. intros i Hi.
    rewrite map_length, seq_length in Hi.
    rewrite (nth_indep _ 0 ((fun i => nth i E' 0) 0%nat)) by (rewrite map_length, seq_length; exact Hi).
    rewrite (map_nth (fun i => nth i E' 0)), seq_nth by exact Hi. reflexivity.
Qed.
Theorem spectrum_unique d H S E E' : spectrum d H S E -> spectrum d H S E' -> Permutation E E'.
Proof.
  intros (LE & V & W & T & VW & WV & TS & HV) (LE' & V' & W' & T' & VW' & WV' & TS' & HV').
  set (C := fmul (K:=Cs) d W V').
  assert (HC : feq (K:=Cs) d d V' (fmul (K:=Cs) d V C)).
  { unfold C. rewrite (fmul_assoc (K:=Cs)), VW, (fmul_id_l (K:=Cs)). reflexivity. }
  assert (Cinv : feq (K:=Cs) d d (fmul (K:=Cs) d C (fmul (K:=Cs) d W' V)) (fid (K:=Cs))).
  { unfold C. rewrite <- (fmul_assoc (K:=Cs)). rewrite (fmul_assoc (K:=Cs) d d d d V' W' V). rewrite VW', (fmul_id_l (K:=Cs)). exact WV. }
  assert (EC : feq (K:=Cs) d d (fmul (K:=Cs) d (cdiag E) C) (fmul (K:=Cs) d C (cdiag E'))).
  { assert (E1 : feq (K:=Cs) d d (fmul (K:=Cs) d (fmul (K:=Cs) d S V) (fmul (K:=Cs) d (cdiag E) C))
                       (fmul (K:=Cs) d (fmul (K:=Cs) d S V) (fmul (K:=Cs) d C (cdiag E')))).
    { rewrite (fmul_assoc (K:=Cs)), <- HV, <- (fmul_assoc (K:=Cs)), <- HC, HV'.
      rewrite (fmul_assoc (K:=Cs) d d d d (fmul (K:=Cs) d S V) C). apply fmul_proper; [|reflexivity].
      rewrite <- (fmul_assoc (K:=Cs)), <- HC. reflexivity. }
    assert (L : feq (K:=Cs) d d (fmul (K:=Cs) d (fmul (K:=Cs) d W T) (fmul (K:=Cs) d S V)) (fid (K:=Cs))).
    { rewrite <- (fmul_assoc (K:=Cs)). rewrite (fmul_assoc (K:=Cs) d d d d T S V), TS, (fmul_id_l (K:=Cs)). exact WV. }
    transitivity (fmul (K:=Cs) d (fmul (K:=Cs) d (fmul (K:=Cs) d W T) (fmul (K:=Cs) d S V)) (fmul (K:=Cs) d (cdiag E) C)).
    { rewrite L, (fmul_id_l (K:=Cs)). reflexivity. }
    rewrite <- (fmul_assoc (K:=Cs)), E1, (fmul_assoc (K:=Cs)), L, (fmul_id_l (K:=Cs)). reflexivity. }
  destruct (transversal d C _ Cinv) as (sg & Hp & Hs).
  apply (nth_map_perm E E' sg d LE LE' Hp).
  intros i Hi. set (j := nth i sg 0%nat).
  assert (Hj : (j < d)%nat).
  { assert (In j (seq 0 d)). { rewrite <- Hp. apply nth_In. rewrite (Permutation_length Hp), seq_length. exact Hi. }
    apply in_seq in H0. lia. }
  pose proof (EC i j Hi Hj) as Q. rewrite nsum_cdiag_l, nsum_cdiag_r in Q by assumption.
  assert (Z : cmul (C i j) (csub (cre (nth i E 0)) (cre (nth j E' 0))) = (0,0)).
  { transitivity (csub (cmul (cre (nth i E 0)) (C i j)) (cmul (C i j) (cre (nth j E' 0)))); [csolve|]. rewrite Q. csolve. }
  destruct (cmul_0 _ _ Z) as [Z1|Z1]; [exfalso; exact (Hs i Hi Z1)|].
  injection Z1 as Z1 _. lra.
Qed.
Lemma spectrum_proper d H H' S S' E : feq (K:=Cs) d d H H' -> feq (K:=Cs) d d S S' -> spectrum d H S E -> spectrum d H' S' E.
Proof.
  intros EH ES (LE & V & W & T & VW & WV & TS & HV). split; [exact LE|]. exists V, W, T. rewrite <- ES, <- EH. repeat split; assumption.
Qed.

(* ---- operations on the eigenvalue problem ---- *)
Lemma nth_mapR (f : R -> R) (E : list R) i : (i < length E)%nat -> nth i (map f E) 0 = f (nth i E 0).
Proof. intro Hi. rewrite (nth_indep _ 0 (f 0)) by (rewrite map_length; exact Hi). apply map_nth. Qed.
Lemma spectrum_shift d H S E e : spectrum d H S E ->
  spectrum d (fadd (K:=Cs) H (fscale (K:=Cs) (cre e) S)) S (map (fun x => x + e) E).
Proof.
  intros (LE & V & W & T & VW & WV & TS & HV). split; [rewrite map_length; exact LE|]. exists V, W, T. repeat split; try assumption.
  rewrite (fmul_add_l (K:=Cs)), HV, (fmul_scale_l (K:=Cs)). intros i j Hi Hj.
  unfold fadd, fscale. rewrite !nsum_cdiag_r by assumption. rewrite nth_mapR by lia.
  change (@sadd Cs) with cadd. change (@smul Cs) with cmul. csolve.
Qed.
Lemma spectrum_scale d H S E c : spectrum d H S E -> spectrum d (fscale (K:=Cs) (cre c) H) S (map (fun x => c * x) E).
Proof.
  intros (LE & V & W & T & VW & WV & TS & HV). split; [rewrite map_length; exact LE|]. exists V, W, T. repeat split; try assumption.
  rewrite (fmul_scale_l (K:=Cs)), HV. intros i j Hi Hj.
  unfold fscale. rewrite !nsum_cdiag_r by assumption. rewrite nth_mapR by lia.
  change (@smul Cs) with cmul. csolve.
Qed.
Lemma dsum_id d1 d2 : feq (K:=Cs) (d1 + d2) (d1 + d2) (dsum (K:=Cs) d1 (fid (K:=Cs)) (fid (K:=Cs))) (fid (K:=Cs)).
Proof.
  intros i j Hi Hj. unfold dsum, fid. rewrite !Nat.leb_antisym.
  destruct (Nat.ltb_spec i d1), (Nat.ltb_spec j d1); cbn [andb negb].
  - reflexivity.
  - rewrite (proj2 (Nat.eqb_neq i j)) by lia. reflexivity.
  - rewrite (proj2 (Nat.eqb_neq i j)) by lia. reflexivity.
  - destruct (Nat.eqb_spec (i - d1) (j - d1)), (Nat.eqb_spec i j); try reflexivity; lia.
Qed.
Lemma dsum_cdiag d1 d2 E1 E2 : length E1 = d1 -> feq (K:=Cs) (d1 + d2) (d1 + d2) (cdiag (E1 ++ E2)) (dsum (K:=Cs) d1 (cdiag E1) (cdiag E2)).
Proof.
  intros L i j Hi Hj. unfold dsum, cdiag. rewrite !Nat.leb_antisym.
  destruct (Nat.ltb_spec i d1), (Nat.ltb_spec j d1); cbn [andb negb].
  - destruct (Nat.eqb i j); [|reflexivity]. rewrite app_nth1 by lia. reflexivity.
  - rewrite (proj2 (Nat.eqb_neq i j)) by lia. reflexivity.
  - rewrite (proj2 (Nat.eqb_neq i j)) by lia. reflexivity.
  - destruct (Nat.eqb_spec (i - d1) (j - d1)), (Nat.eqb_spec i j); try reflexivity; try lia.
    rewrite app_nth2 by lia. rewrite L. reflexivity.
Qed.
Lemma spectrum_dsum d1 d2 H1 S1 E1 H2 S2 E2 : spectrum d1 H1 S1 E1 -> spectrum d2 H2 S2 E2 ->
  spectrum (d1 + d2) (dsum (K:=Cs) d1 H1 H2) (dsum (K:=Cs) d1 S1 S2) (E1 ++ E2).
Proof.
  intros (L1 & V1 & W1 & T1 & VW1 & WV1 & TS1 & HV1) (L2 & V2 & W2 & T2 & VW2 & WV2 & TS2 & HV2).
  split; [rewrite app_length; congruence|].
  exists (dsum (K:=Cs) d1 V1 V2), (dsum (K:=Cs) d1 W1 W2), (dsum (K:=Cs) d1 T1 T2). repeat split.
  - rewrite (dsum_mul (K:=Cs)). rewrite <- dsum_id. apply dsum_feq; assumption.
  - rewrite (dsum_mul (K:=Cs)). rewrite <- dsum_id. apply dsum_feq; assumption.
  - rewrite (dsum_mul (K:=Cs)). rewrite <- dsum_id. apply dsum_feq; assumption.
  - rewrite (dsum_cdiag d1 d2 E1 E2 L1). rewrite !(dsum_mul (K:=Cs)). apply dsum_feq; assumption.
Qed.
Lemma spectrum_congr d H S E L M : feq (K:=Cs) d d (fmul (K:=Cs) d L M) (fid (K:=Cs)) -> feq (K:=Cs) d d (fmul (K:=Cs) d M L) (fid (K:=Cs)) ->
  spectrum d H S E -> spectrum d (congr d L H) (congr d L S) E.
Proof.
  intros LM ML (LE & V & W & T & VW & WV & TS & HV). split; [exact LE|].
  exists (fmul (K:=Cs) d M V), (fmul (K:=Cs) d W L), (fmul (K:=Cs) d M (fmul (K:=Cs) d T (fadj (K:=Cs) M))).
  assert (C : forall X Y : cmat, feq (K:=Cs) d d (fmul (K:=Cs) d (congr d L X) (fmul (K:=Cs) d M Y)) (fmul (K:=Cs) d (fadj (K:=Cs) L) (fmul (K:=Cs) d X Y))).
  { intros X Y. unfold congr. rewrite <- (fmul_assoc (K:=Cs)). rewrite (fmul_assoc (K:=Cs) d d d d L M Y), LM, (fmul_id_l (K:=Cs)).
    rewrite <- (fmul_assoc (K:=Cs)). reflexivity. }
  repeat split.
  - rewrite <- (fmul_assoc (K:=Cs)). rewrite (fmul_assoc (K:=Cs) d d d d V W L), VW, (fmul_id_l (K:=Cs)). exact ML.
  - rewrite <- (fmul_assoc (K:=Cs)). rewrite (fmul_assoc (K:=Cs) d d d d L M V), LM, (fmul_id_l (K:=Cs)). exact WV.
  - assert (ML' : feq (K:=Cs) d d (fmul (K:=Cs) d (fadj (K:=Cs) M) (fadj (K:=Cs) L)) (fid (K:=Cs))).
    { rewrite <- (fadj_mul (K:=Cs) d d d L M), LM. apply (fadj_id (K:=Cs)). }
    unfold congr. rewrite <- (fmul_assoc (K:=Cs) d d d d M). rewrite <- (fmul_assoc (K:=Cs) d d d d T).
    rewrite (fmul_assoc (K:=Cs) d d d d (fadj (K:=Cs) M) (fmul (K:=Cs) d (fadj (K:=Cs) L) S) L).
    rewrite (fmul_assoc (K:=Cs) d d d d (fadj (K:=Cs) M) (fadj (K:=Cs) L) S), ML', (fmul_id_l (K:=Cs)).
    rewrite (fmul_assoc (K:=Cs) d d d d T S L), TS, (fmul_id_l (K:=Cs)). exact ML.
  - rewrite !C. rewrite HV. rewrite <- (fmul_assoc (K:=Cs) d d d d (fadj (K:=Cs) L)). reflexivity.
Qed.

(** permutations as congruences *)
Lemma perm_nth_lt order d i : Permutation order (seq 0 d) -> (i < d)%nat -> (nth i order 0 < d)%nat.
Proof.
  intros Hp Hi. assert (In (nth i order 0%nat) (seq 0 d)).
  { rewrite <- Hp. apply nth_In. rewrite (Permutation_length Hp), seq_length. exact Hi. }
  apply in_seq in H. lia.
Qed.
Lemma perm_nth_inj order d i j : Permutation order (seq 0 d) -> (i < d)%nat -> (j < d)%nat -> nth i order 0%nat = nth j order 0%nat -> i = j.
Proof.
  intros Hp Hi Hj E. assert (ND : NoDup order) by (rewrite Hp; apply seq_NoDup).
  apply (proj1 (NoDup_nth order 0%nat) ND); [| |exact E]; rewrite (Permutation_length Hp), seq_length; assumption.
Qed.
Lemma nsum_perm order d f : Permutation order (seq 0 d) -> cnsum d (fun l => f (nth l order 0%nat)) = cnsum d f.
Proof.
  intro Hp. unfold nsum. rewrite <- (ksum_perm Cs _ _ f Hp).
  assert (LO : length order = d) by (rewrite (Permutation_length Hp); apply seq_length). clear Hp. subst d.
  induction order as [|o order IH]; [reflexivity|]. cbn [length seq ksum nth]. f_equal. rewrite <- seq_shift, csum_map. exact IH.
Qed.
Lemma spectrum_permute d H S E order : Permutation order (seq 0 d) -> spectrum d H S E ->
  spectrum d (perm_mat order H) (perm_mat order S) E.
Proof.
  intros Hp (LE & V & W & T & VW & WV & TS & HV). split; [exact LE|].
  set (o := fun i => nth i order 0%nat).
  assert (oL : forall i, (i < d)%nat -> (o i < d)%nat) by (intros; apply perm_nth_lt; assumption).
  exists (fun i j => V (o i) j), (fun i j => W i (o j)), (fun i j => T (o i) (o j)). repeat split.
  - intros i j Hi Hj. unfold fmul. transitivity (fid (K:=Cs) (o i) (o j)); [apply (VW (o i) (o j)); auto|].
    unfold fid. destruct (Nat.eqb_spec (o i) (o j)) as [E1|E1], (Nat.eqb_spec i j) as [E2|E2]; try reflexivity.
    + exfalso. apply E2. apply (perm_nth_inj order d); assumption.
    + subst. congruence.
  - intros i j Hi Hj. rewrite <- (WV i j Hi Hj). unfold fmul. apply (nsum_perm order d (fun l => smul (s:=Cs) (W i l) (V l j)) Hp).
  - intros i j Hi Hj. transitivity (fid (K:=Cs) (o i) (o j)).
    + rewrite <- (TS (o i) (o j)) by auto. unfold fmul. apply (nsum_perm order d (fun l => smul (s:=Cs) (T (o i) l) (S l (o j))) Hp).
    + unfold fid. destruct (Nat.eqb_spec (o i) (o j)) as [E1|E1], (Nat.eqb_spec i j) as [E2|E2]; try reflexivity.
      * exfalso. apply E2. apply (perm_nth_inj order d); assumption.
      * subst. congruence.
  - intros i j Hi Hj. transitivity (fmul (K:=Cs) d H V (o i) j).
    + unfold fmul at 1. unfold perm_mat. exact (nsum_perm order d (fun l => smul (s:=Cs) (H (o i) l) (V l j)) Hp).
    + rewrite (HV (o i) j) by auto. rewrite !nsum_cdiag_r by assumption. f_equal. unfold fmul, perm_mat.
      symmetry. exact (nsum_perm order d (fun l => smul (s:=Cs) (S (o i) l) (V l j)) Hp).
Qed.

(* ---- effect of the model operations on the series ---- *)
Lemma herm_add_first c x (P : list cmat) i j : P <> [] -> herm_series c (add_first x P) i j = cadd (herm_series c P i j) (cmul (c 0%nat) (x i j)).
Proof.
  intro HP. rewrite !herm_join, length_add_first. rewrite nth0_add_first by exact HP. unfold fadd. change (@sadd Cs) with cadd.
  rewrite (csum_ext _ (fun l => cadd (cmul (c l) (nth l (add_first x P) fzero i j)) _)
     (fun l => cadd (cmul (c l) (nth l P fzero i j)) (cmul (cconj (c l)) (cconj (nth l P fzero j i))))).
  - rg.
  - intros l Hl. apply in_seq in Hl. rewrite nth_add_first by lia. reflexivity.
Qed.
(** the series of mapped matrices, for a map given by real-linear entry functionals *)
Lemma herm_map c (P : list cmat) f i j (ph : cmat -> cplx) :
  (forall x, f x i j = ph x) -> (forall x, cconj (f x j i) = ph (fadj (K:=Cs) x)) ->
  (forall x y, ph (fadd (K:=Cs) x y) = cadd (ph x) (ph y)) -> (forall z x, ph (fscale (K:=Cs) z x) = cmul z (ph x)) -> P <> [] ->
  (forall x y, (forall a b, x a b = y a b) -> ph x = ph y) ->
  herm_series c (map f P) i j = ph (herm_series c P).
Proof.
  intros H1 H2 Ha Hs Hne Hx. rewrite herm_join, map_length.
  assert (L0 : (0 < length P)%nat) by (destruct P; [congruence|simpl; lia]).
  rewrite (csum_ext _ _ (fun l => ph (fadd (K:=Cs) (fscale (K:=Cs) (c l) (nth l P fzero)) (fscale (K:=Cs) (cconj (c l)) (fadj (K:=Cs) (nth l P fzero)))))).
  2:{ intros l Hl. apply in_seq in Hl. rewrite nth_mapf by lia. rewrite Ha, !Hs, H1, H2. reflexivity. }
  rewrite nth_mapf by exact L0. rewrite H1, <- Hs.
  assert (P0 : forall l (g : nat -> cmat), csum l (fun a => ph (g a)) = ph (fsum (K:=Cs) l g)).
  { induction l as [|a l IH]; intro g.
    - cbn [ksum]. transitivity (cmul (0,0) (ph fzero)); [csolve|]. rewrite <- Hs. apply Hx. intros.
      unfold fscale, fzero, fsum. cbn [ksum]. change (@s0 Cs) with (0,0). change (@smul Cs) with cmul. rg.
    - cbn [ksum]. rewrite IH. rewrite <- Ha. apply Hx. intros. reflexivity. }
  rewrite P0, <- Ha. apply Hx. intros a b. rewrite herm_join. reflexivity.
Qed.
Lemma herm_scale c (P : list cmat) t i j : P <> [] -> herm_series c (map (fscale (K:=Cs) (cre t)) P) i j = cmul (cre t) (herm_series c P i j).
Proof.
  intro HP. apply (herm_map c P _ i j (fun x => cmul (cre t) (x i j))); try exact HP.
  - reflexivity.
  - intro x. unfold fscale, fadj. change (@smul Cs) with cmul. change (@sconj Cs) with cconj. csolve.
  - intros. unfold fadd. change (@sadd Cs) with cadd. rg.
  - intros. unfold fscale. change (@smul Cs) with cmul. rg.
  - intros x y E. rewrite E. reflexivity.
Qed.
Lemma herm_permute c (P : list cmat) order i j : P <> [] -> herm_series c (map (perm_mat order) P) i j = perm_mat order (herm_series c P) i j.
Proof.
  intro HP. apply (herm_map c P _ i j (fun x => perm_mat order x i j)); try exact HP; try reflexivity.
  intros x y E. apply E.
Qed.
Lemma congr_entry d L x i j : congr d L x i j = cnsum d (fun b => cnsum d (fun a => cmul (cmul (cconj (L a i)) (x a b)) (L b j))).
Proof.
  unfold congr, fmul. apply (nsum_ext Cs). intros b _. change (@smul Cs) with cmul. unfold nsum. rewrite <- csum_mul_r.
  apply csum_ext. intros a _. reflexivity.
Qed.
Lemma herm_congr c (P : list cmat) d L i j : P <> [] -> herm_series c (map (congr d L) P) i j = congr d L (herm_series c P) i j.
Proof.
  intro HP. apply (herm_map c P _ i j (fun x => congr d L x i j)); try exact HP.
  - reflexivity.
  - intro x. rewrite !congr_entry. unfold nsum. rewrite csum_conj. rewrite csum_swap. rewrite (csum_ext (seq 0 d) (fun a => cconj _) (fun b => csum (seq 0 d) (fun a => cconj (cmul (cmul (cconj (L a j)) (x a b)) (L b i))))).
    2:{ intros. rewrite csum_conj. reflexivity. }
    apply csum_ext. intros b _. apply csum_ext. intros a _. unfold fadj. change (@sconj Cs) with cconj.
    rewrite !conj_cmul, conj_conj. rg.
  - intros x y. rewrite !congr_entry. unfold nsum. rewrite <- csum_add. apply csum_ext. intros b _. rewrite <- csum_add. apply csum_ext.
    intros a _. unfold fadd. change (@sadd Cs) with cadd. rg.
  - intros z x. rewrite !congr_entry. unfold nsum. rewrite <- csum_mul_l. apply csum_ext. intros b _. rewrite <- csum_mul_l. apply csum_ext.
    intros a _. unfold fscale. change (@smul Cs) with cmul. rg.
  - intros x y E. rewrite !congr_entry. apply (nsum_ext Cs). intros b _. apply (nsum_ext Cs). intros a _. rewrite E. reflexivity.
Qed.
Lemma herm_dsum c d1 (P Q : list cmat) i j : length P = length Q -> P <> [] ->
  herm_series c (map (fun xy => dsum (K:=Cs) d1 (fst xy) (snd xy)) (combine P Q)) i j = dsum (K:=Cs) d1 (herm_series c P) (herm_series c Q) i j.
Proof.
  intros HL HP. set (R := map _ _).
  assert (LR : length R = length P) by (unfold R; rewrite map_length, combine_length; lia).
  assert (NR : forall l, (l < length P)%nat -> nth l R fzero = dsum (K:=Cs) d1 (nth l P fzero) (nth l Q fzero)).
  { intros l Hl. unfold R. rewrite (nth_indep _ fzero ((fun xy => dsum (K:=Cs) d1 (fst xy) (snd xy)) (fzero, fzero))) by (rewrite map_length, combine_length; lia).
    pose proof (map_nth (fun xy : cmat * cmat => dsum (K:=Cs) d1 (fst xy) (snd xy)) (combine P Q) (fzero, fzero) l) as E.
    rewrite combine_nth in E by exact HL. exact E. }
  assert (L0 : (0 < length P)%nat) by (destruct P; [congruence|simpl; lia]).
  rewrite herm_join, LR, NR by exact L0.
  rewrite (csum_ext _ _ (fun l => cadd (cmul (c l) (dsum (K:=Cs) d1 (nth l P fzero) (nth l Q fzero) i j))
     (cmul (cconj (c l)) (cconj (dsum (K:=Cs) d1 (nth l P fzero) (nth l Q fzero) j i))))).
  2:{ intros l Hl. apply in_seq in Hl. rewrite NR by lia. reflexivity. }
  unfold dsum. rewrite !(andb_comm (_ j _)), !(andb_comm (Nat.leb d1 j)).
  destruct (Nat.ltb i d1 && Nat.ltb j d1)%bool; [rewrite herm_join; reflexivity|].
  destruct (Nat.leb d1 i && Nat.leb d1 j)%bool; [rewrite herm_join, HL; reflexivity|].
  rewrite csum_zero; [change (@s0 Cs) with (0,0); rg|]. intros. change (@s0 Cs) with (0,0). csolve.
Qed.

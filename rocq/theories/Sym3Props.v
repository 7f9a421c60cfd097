(** Properties C82-C88: basis changes, dual groups, group check, point groups of space groups and subgroups
    (symmetry.py l.105-132, 209-233, 285-289, 896-954). *)
From Coq Require Import List Arith ZArith Lia Bool Permutation Ring.
Import ListNotations.
From Verif Require Import SRing LMat SymModel FinGroup SymGenProofs DetMC SymInitProofs SymEqProofs SymModel3 SymNamedProofs SymProps.

(* ------------------------------------------------------------------ *)
(** ** The constructor applied to operations that come from a Symmetry object *)
Definition stable (n : nat) (S : list zmat) (inv : bool) : Prop :=
  (neg_closed n S /\ Nat.odd n = false) \/ (~ neg_closed n S /\ (inv = false \/ Nat.odd n = true)).

Lemma init_stable n S inv proj : (forall s, In s S -> wfz n s) -> hd_error S = Some (zeye n) ->
  (forall s, In s S -> unimod n s) -> stable n S inv -> sym_init n S inv proj = Some (MkSym n S inv proj).
Proof.
  intros HW Hh Hu Hs. destruct (sym_init_some n S inv proj Hh Hu) as (g & Hg & _).
  pose proof (sym_init_inv n S inv proj g Hg) as (_ & _ & Hd & Hp & H).
  assert (Hc := neg_closed_spec n S HW).
  assert (E : sops g = S /\ sinv g = inv).
  { destruct H as [(H1 & H2 & _)|[(H1 & H2 & H3 & H4)|[(H1 & H2 & H3 & _)|(H1 & H2 & H3 & H4)]]]; auto.
    - apply Hc in H1. destruct Hs as [[_ Hs]|[Hs _]]; [congruence|contradiction].
    - destruct Hs as [[Hs _]|[_ [Hs|Hs]]]; try congruence. apply Hc in Hs. congruence. }
  rewrite Hg. destruct g; cbn in *. destruct E; subst. reflexivity.
Qed.

(** an object the constructor can return *)
Definition built (g : sym) : Prop := exists S inv,
  (forall s, In s S -> wfz (sdim g) s) /\ sym_init (sdim g) S inv (sproj g) = Some g.

Lemma built_facts g : built g ->
  (forall s, In s (sops g) -> wfz (sdim g) s) /\ hd_error (sops g) = Some (zeye (sdim g)) /\
  (forall s, In s (sops g) -> unimod (sdim g) s) /\ stable (sdim g) (sops g) (sinv g).
Proof.
  intros (S & inv & HW & Hg). set (n := sdim g) in *.
  pose proof (sym_init_inv n S inv (sproj g) g Hg) as (Hh & Hu & _ & _ & H).
  assert (Hc := neg_closed_spec n S HW).
  destruct S as [|s_0 S']; [discriminate|]. cbn in Hh. injection Hh as ->.
  assert (Hnd : forall (f : zmat -> bool) s, In s (filter f (zeye n :: S')) -> In s (zeye n :: S'))
    by (intros f s Hs; apply filter_In in Hs; apply Hs).
  destruct H as [(H1 & H2 & H3 & H4)|[(H1 & H2 & H3 & H4)|[(H1 & H2 & H3 & H4 & H5)|(H1 & H2 & H3 & H4)]]].
  - rewrite H3, H4. split; [intros; apply HW; eapply Hnd; eauto|].
    split; [cbn [filter]; rewrite zdet_eye; reflexivity|]. split; [intros; apply Hu; eapply Hnd; eauto|].
    right. split; [|auto]. intros Hn.
      assert (Hi : In (zneg n (zeye n)) (filter (fun s => Z.ltb 0 (zdet n s)) (zeye n :: S'))).
      { apply Hn. cbn [filter]. rewrite zdet_eye. left; reflexivity. }
      apply filter_In in Hi. destruct Hi as [_ Hi]. apply Z.ltb_lt in Hi.
      rewrite zdet_neg in Hi by apply wfz_eye. rewrite odd_even, H2, zdet_eye in Hi. cbn in Hi. lia.
  - rewrite H3, H4. split; [exact HW|]. split; [reflexivity|]. split; [exact Hu|].
    left. split; [apply Hc, H1|exact H2].
  - rewrite H4, H5.
    assert (HW' : forall s, In s ((zeye n :: S') ++ map (zneg n) (zeye n :: S')) -> wfz n s /\ unimod n s).
    { intros s Hs. apply in_app_or in Hs. destruct Hs as [Hs|Hs]; [split; [apply HW|apply Hu]; exact Hs|].
      apply in_map_iff in Hs. destruct Hs as [t [<- Ht]]. split; [apply wfz_neg|apply unimod_neg; auto]. }
    split; [apply HW'|]. split; [reflexivity|]. split; [apply HW'|]. left. split; [|exact H3].
    intros s Hs. apply in_app_or in Hs. apply in_or_app. destruct Hs as [Hs|Hs].
    + right. apply in_map; exact Hs.
    + left. apply in_map_iff in Hs. destruct Hs as [t [<- Ht]]. rewrite zneg_invol by auto. exact Ht.
  - rewrite H3, H4. split; [exact HW|]. split; [reflexivity|]. split; [exact Hu|].
    right. split; [|exact H2]. intros Hn. apply Hc in Hn. congruence.
Qed.

(** operations mapped one to one by a map that respects 1, -1 and unimodularity *)
Lemma init_map g f proj : built g ->
  (forall s, In s (sym_all g) -> wfz (sdim g) (f s) /\ unimod (sdim g) (f s)) ->
  (forall s, wfz (sdim g) s -> unimod (sdim g) s -> f (zneg (sdim g) s) = zneg (sdim g) (f s)) ->
  (forall s t, wfz (sdim g) s -> wfz (sdim g) t -> unimod (sdim g) s -> unimod (sdim g) t -> f s = f t -> s = t) ->
  f (zeye (sdim g)) = zeye (sdim g) ->
  sym_init (sdim g) (map f (sops g)) (sinv g) proj = Some (MkSym (sdim g) (map f (sops g)) (sinv g) proj).
Proof.
  intros Hb Hf Hneg Hinj H1. destruct (built_facts g Hb) as (HW & Hh & Hu & Hs).
  assert (Hin : forall s, In s (sops g) -> In s (sym_all g)) by (intros s Hs'; apply in_or_app; left; exact Hs').
  apply init_stable.
  - intros s Hx. apply in_map_iff in Hx. destruct Hx as [t [<- Ht]]. apply Hf, Hin, Ht.
  - destruct (sops g); [discriminate|]. cbn in *. injection Hh as ->. rewrite H1. reflexivity.
  - intros s Hx. apply in_map_iff in Hx. destruct Hx as [t [<- Ht]]. apply Hf, Hin, Ht.
  - assert (E : neg_closed (sdim g) (map f (sops g)) <-> neg_closed (sdim g) (sops g)).
    { split; intros Hn s Hs'.
      - specialize (Hn (f s) (in_map f _ _ Hs')). rewrite <- Hneg in Hn by auto.
        apply in_map_iff in Hn. destruct Hn as [t [E Ht]].
        apply Hinj in E; auto; [congruence|apply wfz_neg|apply unimod_neg; auto].
      - apply in_map_iff in Hs'. destruct Hs' as [t [<- Ht]]. rewrite <- Hneg by auto. apply in_map, Hn, Ht. }
    unfold stable. rewrite E. exact Hs.
Qed.

(* ------------------------------------------------------------------ *)
(** ** C82: transform *)
Section Transform.
Variable K : sring.
Add Ring Kr : (s_rt K).
Definition inverse_pair (n : nat) (B Bi : lmat K) : Prop :=
  wfm n n B /\ wfm n n Bi /\ lmul n B Bi = leye (K:=K) n /\ lmul n Bi B = leye (K:=K) n.

Lemma conj_mul n B Bi a b : inverse_pair n B Bi -> wfm n n a ->
  conj_op n B Bi (lmul n a b) = lmul n (conj_op n B Bi a) (conj_op n B Bi b).
Proof.
  intros (_ & _ & _ & Hi) Ha. unfold conj_op.
  rewrite <- !lmul_assoc. f_equal. f_equal.
  rewrite (lmul_assoc K n Bi B). rewrite Hi. rewrite (lmul_1_l K n) by apply lmul_wf. reflexivity.
Qed.
Lemma conj_eye n B Bi : inverse_pair n B Bi -> conj_op n B Bi (leye n) = leye n.
Proof. intros (Hb & _ & Hi & _). unfold conj_op. rewrite lmul_1_r by exact Hb. exact Hi. Qed.
Lemma conj_back n B Bi a : inverse_pair n B Bi -> wfm n n a -> conj_op n Bi B (conj_op n B Bi a) = a.
Proof.
  intros (_ & _ & _ & Hi) Ha. unfold conj_op.
  rewrite !lmul_assoc, Hi, lmul_1_l by exact Ha. rewrite <- lmul_assoc, Hi, lmul_1_r by exact Ha. reflexivity.
Qed.

(** the metric of the basis B, in which crystal operations are orthogonal *)
Definition orth (n : nat) (s : lmat K) : Prop := lmul n (ltr n s) s = leye n.
Definition keeps_metric (n : nat) (B s : lmat K) : Prop :=
  lmul n (ltr n s) (lmul n (lmul n (ltr n B) B) s) = lmul n (ltr n B) B.

Lemma conj_orth n B Bi s : inverse_pair n B Bi -> wfm n n s ->
  (orth n (conj_op n B Bi s) <-> keeps_metric n B s).
Proof.
  intros (Hb & Hbi & H1 & H2) Hs. unfold orth, keeps_metric, conj_op.
  assert (T1 : lmul n (ltr n Bi) (ltr n B) = leye (K:=K) n) by (rewrite <- ltr_mul, H1; apply ltr_eye).
  assert (T2 : lmul n (ltr n B) (ltr n Bi) = leye (K:=K) n) by (rewrite <- ltr_mul, H2; apply ltr_eye).
  rewrite !ltr_mul. split; intros E.
  - transitivity (lmul n (lmul n (ltr n B) (leye n)) B); [|rewrite lmul_1_r by apply ltr_wf; reflexivity].
    rewrite <- E.
    transitivity (lmul n (lmul n (lmul n (ltr n B) (ltr n Bi))
       (lmul n (ltr n s) (lmul n (lmul n (ltr n B) B) s))) (lmul n Bi B)); [|rewrite !lmul_assoc; reflexivity].
    rewrite T2, H2, lmul_1_l, lmul_1_r by apply lmul_wf. reflexivity.
  - transitivity (lmul n (lmul n (ltr n Bi) (lmul n (ltr n s) (lmul n (lmul n (ltr n B) B) s))) Bi);
      [rewrite !lmul_assoc; reflexivity|].
    rewrite E. rewrite lmul_assoc, T1, lmul_1_l by exact Hb. exact H1.
Qed.

Theorem C82_transform_group : forall n B Bi (S : list (lmat K)), inverse_pair n B Bi ->
  (forall s, In s S -> wfm n n s) ->
  let S' := map (conj_op n B Bi) S in
  (is_group (lmul n) (leye n) S -> is_group (lmul n) (leye n) S') /\
  (hd_error S = Some (leye n) -> hd_error S' = Some (leye n)) /\
  (forall s v, In s S -> wfv n v -> lmv n (conj_op n B Bi s) (lmv n B v) = lmv n B (lmv n s v)) /\
  (forall s, In s S -> (orth n (conj_op n B Bi s) <-> keeps_metric n B s)).
Proof.
  intros n B Bi S HI HW S'. split; [|split; [|split]].
  - intros (Ho & Hnd & Hc & Hi). unfold S'. split; [|split; [|split]].
    + apply in_map_iff. exists (leye n). split; [apply conj_eye; exact HI|exact Ho].
    + apply NoDup_map_inj; [|exact Hnd]. intros a b Ha Hb E.
      rewrite <- (conj_back n B Bi a HI (HW a Ha)), <- (conj_back n B Bi b HI (HW b Hb)), E. reflexivity.
    + intros x y Hx Hy. apply in_map_iff in Hx, Hy. destruct Hx as [a [<- Ha]], Hy as [b [<- Hb]].
      rewrite <- conj_mul by auto. apply in_map, Hc; assumption.
    + intros x Hx. apply in_map_iff in Hx. destruct Hx as [a [<- Ha]].
      destruct (Hi a Ha) as (b & Hb & E1 & E2). exists (conj_op n B Bi b). split; [apply in_map, Hb|].
      rewrite <- !conj_mul, E1, E2 by auto. split; apply conj_eye; exact HI.
  - unfold S'. destruct S as [|s_0 S0]; [discriminate|]. cbn. intros E. injection E as ->.
    rewrite conj_eye by exact HI. reflexivity.
  - intros s v Hs Hv. unfold conj_op. rewrite <- !lmv_mul. f_equal.
    destruct HI as (_ & _ & _ & H2). rewrite <- !lmul_assoc, H2, lmul_1_r by auto. reflexivity.
  - intros s Hs. apply conj_orth; auto.
Qed.
End Transform.
Arguments inverse_pair {K}. Arguments orth {K}. Arguments keeps_metric {K}.
Print Assumptions C82_transform_group.

Lemma conj_unimod n B Bi s : inverse_pair (K:=Zs) n B Bi -> wfz n s -> unimod n s -> unimod n (conj_op n B Bi s).
Proof.
  intros (Hb & Hbi & H1 & H2) Hs Hu. unfold unimod, conj_op.
  change (Z.abs (zdet n (zmul n (zmul n B s) Bi)) = 1%Z).
  rewrite !zdet_mul by (try apply wfz_mul; assumption).
  assert (E : (zdet n B * zdet n Bi)%Z = 1%Z) by (rewrite <- zdet_mul by assumption; unfold zmul; rewrite H1; apply zdet_eye).
  unfold unimod in Hu. rewrite !Z.abs_mul, Hu. rewrite <- (Z.abs_mul (zdet n B * 1)) || idtac.
  rewrite Z.mul_1_r, <- Z.abs_mul, E. reflexivity.
Qed.

Lemma conj_neg n B Bi s : conj_op (K:=Zs) n B Bi (zneg n s) = zneg n (conj_op n B Bi s).
Proof. unfold conj_op. fold (zmul n). rewrite zneg_mul_r, zneg_mul_l. reflexivity. Qed.

(** the object: same number of operations, same flags, operations mapped one by one *)
Theorem C82_transform_object : forall g B Bi, built g -> sproj g = false ->
  inverse_pair (K:=Zs) (sdim g) B Bi ->
  exists h, sym_transform g (sdim g) B Bi = SOk h /\ sym_len h = sym_len g /\ sinv h = sinv g /\
    sym_all h = map (conj_op (sdim g) B Bi) (sym_all g).
Proof.
  intros g B Bi Hb Hp HI. destruct (built_facts g Hb) as (HW & Hh & Hu & Hs).
  unfold sym_transform. rewrite Hp, Nat.eqb_refl. cbn [negb].
  assert (E : sym_init (sdim g) (map (conj_op (sdim g) B Bi) (sops g)) (sinv g) false =
    Some (MkSym (sdim g) (map (conj_op (sdim g) B Bi) (sops g)) (sinv g) false)).
  { apply (init_map g (conj_op (sdim g) B Bi) false Hb).

    - intros s Hs'. split; [apply lmul_wf|]. apply in_app_or in Hs'. destruct Hs' as [Hs'|Hs'].
      + apply conj_unimod; auto.
      + destruct (sinv g); [|destruct Hs']. apply in_map_iff in Hs'. destruct Hs' as [t [<- Ht]].
        apply conj_unimod; [exact HI|apply wfz_neg|apply unimod_neg; auto].
    - intros s _ _. apply conj_neg.
    - intros s t Hs' Ht _ _ E. rewrite <- (conj_back Zs _ B Bi s HI Hs'), <- (conj_back Zs _ B Bi t HI Ht), E. reflexivity.
    - apply conj_eye. exact HI. }
  eexists; split; [exact (f_equal (@sres_of sym) E)|].
  unfold sym_len, sym_all. cbn [sops sinv sdim]. rewrite map_length.
    split; [reflexivity|]. split; [reflexivity|]. rewrite map_app. f_equal.
    destruct (sinv g); [|reflexivity]. rewrite !map_map. apply map_ext. intros a. symmetry. apply conj_neg.
Qed.
Print Assumptions C82_transform_object.

(* ------------------------------------------------------------------ *)
(** ** Affine maps as (d+1) x (d+1) matrices: x |-> R x + t (t in units of 1/D) *)
Definition affine := (zmat * zvec)%type.
Definition wfa (d : nat) (a : affine) : Prop := wfz d (fst a) /\ wfv (K:=Zs) d (snd a).
Definition acomp (d : nat) (a b : affine) : affine :=
  (zmul d (fst a) (fst b), vmk (K:=Zs) d (fun i => (vent (K:=Zs) (zmv d (fst a) (snd b)) i + vent (K:=Zs) (snd a) i)%Z)).
Definition aone (d : nat) : affine := (zeye d, vzero (K:=Zs) d).
Definition embed (d : nat) (a : affine) : zmat :=
  mk (K:=Zs) (S d) (S d) (fun i j => if Nat.ltb i d then (if Nat.ltb j d then ent (K:=Zs) (fst a) i j else vent (K:=Zs) (snd a) i)
                                     else if Nat.eqb j d then 1%Z else 0%Z).

Lemma embed_wf d a : wfz (S d) (embed d a). Proof. apply wfm_mk. Qed.
Lemma embed_ent d a i j : i < S d -> j < S d -> ent (K:=Zs) (embed d a) i j =
  if Nat.ltb i d then (if Nat.ltb j d then ent (K:=Zs) (fst a) i j else vent (K:=Zs) (snd a) i)
  else if Nat.eqb j d then 1%Z else 0%Z.
Proof. intros. unfold embed. rewrite ent_mk by assumption. reflexivity. Qed.

Lemma embed_comp d a b : zmul (S d) (embed d a) (embed d b) = embed d (acomp d a b).
Proof.
  apply (mat_ext Zs (S d) (S d)); [apply wfz_mul|apply embed_wf|]. intros i j Hi Hj.
  unfold zmul. rewrite lmul_ent by assumption. rewrite nsum_S, !embed_ent by lia. rewrite Nat.ltb_irrefl.
  destruct (Nat.ltb_spec i d) as [Hid|Hid].
  - unfold acomp; cbn [fst snd]. destruct (Nat.ltb_spec j d) as [Hjd|Hjd].
    + assert (E : (j =? d) = false) by (apply Nat.eqb_neq; lia). rewrite E.
      unfold zmul. rewrite lmul_ent by assumption.
      rewrite (nsum_ext Zs d _ (fun k => ent (K:=Zs) (fst a) i k * ent (K:=Zs) (fst b) k j)%Z).
      { cbn. rewrite Z.mul_0_r, Z.add_0_r. reflexivity. }
      intros k Hk. rewrite !embed_ent by lia. apply Nat.ltb_lt in Hk, Hid, Hjd. rewrite Hk, Hid, Hjd. reflexivity.
    + assert (E : j = d) by lia. subst j. rewrite Nat.eqb_refl. rewrite vent_vmk by assumption.
      unfold zmv. rewrite vent_lmv by assumption.
      rewrite (nsum_ext Zs d _ (fun k => ent (K:=Zs) (fst a) i k * vent (K:=Zs) (snd b) k)%Z).
      { cbn. rewrite Z.mul_1_r. reflexivity. }
      intros k Hk. rewrite !embed_ent by lia. apply Nat.ltb_lt in Hk, Hid. rewrite Hk, Hid, Nat.ltb_irrefl. reflexivity.
  - assert (E : i = d) by lia. subst i. rewrite Nat.eqb_refl.
    rewrite (nsum_zero Zs).
    { cbn. destruct (j =? d); reflexivity. }
    intros k Hk. rewrite embed_ent by lia. rewrite Nat.ltb_irrefl.
    assert (E : (k =? d) = false) by (apply Nat.eqb_neq; lia). rewrite E. reflexivity.
Qed.

Lemma embed_one d : embed d (aone d) = zeye (S d).
Proof.
  apply (mat_ext Zs (S d) (S d)); [apply embed_wf|apply wfz_eye|]. intros i j Hi Hj.
  rewrite embed_ent by assumption. unfold zeye. rewrite leye_ent by assumption. unfold aone; cbn [fst snd].
  destruct (Nat.ltb_spec i d) as [Hid|Hid].
  - destruct (Nat.ltb_spec j d) as [Hjd|Hjd].
    + unfold zeye. rewrite leye_ent by assumption. reflexivity.
    + unfold vzero. rewrite vent_vmk by assumption. destruct (Nat.eqb_spec i j); [lia|reflexivity].
  - assert (E : i = d) by lia. subst i. rewrite Nat.eqb_sym. reflexivity.
Qed.

Lemma embed_inj d a b : wfa d a -> wfa d b -> embed d a = embed d b -> a = b.
Proof.
  intros [Ha1 Ha2] [Hb1 Hb2] E. destruct a as [ra ta], b as [rb tb]; cbn [fst snd] in *.
  assert (H : forall i j, i < S d -> j < S d -> ent (K:=Zs) (embed d (ra, ta)) i j = ent (K:=Zs) (embed d (rb, tb)) i j)
    by (intros; rewrite E; reflexivity).
  f_equal.
  - apply (mat_ext Zs d d); auto. intros i j Hi Hj. specialize (H i j ltac:(lia) ltac:(lia)).
    rewrite !embed_ent in H by lia. apply Nat.ltb_lt in Hi, Hj. rewrite Hi, Hj in H. exact H.
  - apply (vec_ext Zs d); auto. intros i Hi. specialize (H i d ltac:(lia) ltac:(lia)).
    rewrite !embed_ent in H by lia. apply Nat.ltb_lt in Hi. rewrite Hi, Nat.ltb_irrefl in H. exact H.
Qed.

Lemma cut_embed d a : wfz d (fst a) -> cut d (embed d a) = fst a.
Proof.
  intros Ha. apply (mat_ext Zs d d); [apply wfm_mk|exact Ha|]. intros i j Hi Hj. unfold cut.
  rewrite ent_mk by assumption. rewrite embed_ent by lia. apply Nat.ltb_lt in Hi, Hj. rewrite Hi, Hj. reflexivity.
Qed.

(** both determinants are +-1 together *)
Lemma unimod_of_inv n a b : wfz n a -> wfz n b -> zmul n a b = zeye n -> unimod n a.
Proof.
  intros Ha Hb E. assert (H : (zdet n a * zdet n b)%Z = 1%Z) by (rewrite <- zdet_mul, E by assumption; apply zdet_eye).
  unfold unimod. apply Z.eq_mul_1_nonneg with (m := Z.abs (zdet n b)); [apply Z.abs_nonneg|].
  rewrite <- Z.abs_mul, H. reflexivity.
Qed.

Lemma zmv_wf n a v : wfv (K:=Zs) n (zmv n a v). Proof. apply lmv_wf. Qed.

Lemma embed_unimod d a : wfa d a -> unimod d (fst a) -> unimod (S d) (embed d a).
Proof.
  intros [Ha Ht] Hu. destruct (@zdet_inverse d (fst a) Ha Hu) as (r & Hr & H1 & H2).
  apply (unimod_of_inv (S d) _ (embed d (r, zvneg d (zmv d r (snd a))))); [apply embed_wf|apply embed_wf|].
  rewrite embed_comp, <- embed_one. f_equal. unfold acomp, aone; cbn [fst snd]. f_equal; [exact H1|].
  apply (vec_ext Zs d); [apply wfv_vmk|apply wfv_vmk|]. intros i Hi. unfold vzero. rewrite !vent_vmk by assumption.
  unfold zmv at 1. unfold zvneg.
  assert (E : lmv (K:=Zs) d (fst a) (vneg (K:=Zs) d (zmv d r (snd a))) = vneg (K:=Zs) d (snd a)).
  { transitivity (vneg (K:=Zs) d (lmv (K:=Zs) d (fst a) (zmv d r (snd a)))).
    - apply (vec_ext Zs d); [apply lmv_wf|apply vneg_wf|]. intros k Hk. unfold vneg.
      rewrite vent_vmk by assumption. rewrite !vent_lmv by assumption.
      rewrite <- (nsum_opp Zs). apply nsum_ext. intros m Hm. rewrite vent_vmk by assumption. cbn. ring.
    - unfold zmv. rewrite <- lmv_mul. change (lmul (K:=Zs) d (fst a) r) with (zmul d (fst a) r). rewrite H1.
      rewrite (lmv_1 Zs) by exact Ht. reflexivity. }
  rewrite E. unfold vneg. rewrite vent_vmk by assumption. cbn. lia.
Qed.

Lemma embed_unimod_inv d a : wfa d a -> unimod (S d) (embed d a) -> unimod d (fst a).
Proof.
  intros [Ha Ht] Hu. destruct (@zdet_inverse (S d) (embed d a) (embed_wf d a) Hu) as (m & Hm & H1 & H2).
  (* the last row of the inverse is (0 .. 0 1), so its block inverts R *)
  apply (unimod_of_inv d _ (cut d m)); [exact Ha|apply wfm_mk|].
  apply (mat_ext Zs d d); [apply wfz_mul|apply wfz_eye|]. intros i j Hi Hj.
  assert (Hrow : forall k, k < d -> ent (K:=Zs) m d k = 0%Z).
  { intros k Hk. assert (E : ent (K:=Zs) (zmul (S d) (embed d a) m) d k = ent (K:=Zs) (zeye (S d)) d k) by (rewrite H1; reflexivity).
    unfold zmul, zeye in E. rewrite lmul_ent, leye_ent, nsum_S in E by lia.
    rewrite (nsum_zero Zs) in E.
    2:{ intros l Hl. rewrite embed_ent by lia. rewrite Nat.ltb_irrefl.
        destruct (Nat.eqb_spec l d); [lia|reflexivity]. }
    rewrite embed_ent in E by lia. rewrite Nat.ltb_irrefl, Nat.eqb_refl in E.
    destruct (Nat.eqb_spec d k); [lia|]. cbn in E. destruct (ent (K:=Zs) m d k); [reflexivity|discriminate|discriminate]. }
  unfold zmul, zeye. rewrite lmul_ent, leye_ent by assumption.
  assert (E : ent (K:=Zs) (zmul (S d) (embed d a) m) i j = ent (K:=Zs) (zeye (S d)) i j) by (rewrite H1; reflexivity).
  unfold zmul, zeye in E. rewrite lmul_ent, leye_ent, nsum_S in E by lia. rewrite Hrow in E by assumption.
  rewrite <- E. match goal with |- _ = sadd ?y _ => transitivity y; [|symmetry; cbn; rewrite Z.mul_0_r; apply Z.add_0_r] end.
  apply nsum_ext. intros k Hk. rewrite embed_ent by lia.
  unfold cut. rewrite ent_mk by assumption. apply Nat.ltb_lt in Hi, Hk. rewrite Hi, Hk. reflexivity.
Qed.

Lemma embed_not_neg d a b : embed d a <> zneg (S d) (embed d b).
Proof.
  intros E. assert (H : ent (K:=Zs) (embed d a) d d = ent (K:=Zs) (zneg (S d) (embed d b)) d d) by (rewrite E; reflexivity).
  unfold zneg in H. rewrite lneg_ent in H by lia. rewrite !embed_ent in H by lia.
  rewrite Nat.ltb_irrefl, Nat.eqb_refl in H. discriminate.
Qed.

(** the constructor keeps a space group as it is *)
Lemma init_space d (ops : list affine) proj : hd_error ops = Some (aone d) ->
  (forall a, In a ops -> wfa d a /\ unimod d (fst a)) ->
  sym_init (S d) (map (embed d) ops) false proj = Some (MkSym (S d) (map (embed d) ops) false proj).
Proof.
  intros Hh Ha. apply init_stable.
  - intros s Hs. apply in_map_iff in Hs. destruct Hs as [a [<- _]]. apply embed_wf.
  - destruct ops as [|a0 ops]; [discriminate|]. injection Hh as ->. cbn [map hd_error]. rewrite embed_one. reflexivity.
  - intros s Hs. apply in_map_iff in Hs. destruct Hs as [a [<- Hin]]. apply embed_unimod; apply Ha, Hin.
  - right. split; [|auto]. intros Hn. destruct ops as [|a ops]; [discriminate|].
    specialize (Hn (embed d a) (or_introl eq_refl)). apply in_map_iff in Hn. destruct Hn as [b [E _]].
    exact (embed_not_neg d b a E).
Qed.

Lemma proj_block_embed d B : wfz d B -> proj_block (K:=Zs) d B = embed d (B, vzero (K:=Zs) d).
Proof.
  intros HB. apply (mat_ext Zs (S d) (S d)); [apply wfm_mk|apply embed_wf|]. intros i j Hi Hj.
  unfold proj_block. rewrite ent_mk, embed_ent by assumption. cbn [fst snd].
  destruct (Nat.ltb_spec i d) as [Hid|Hid]; cbn [andb].
  - destruct (Nat.ltb_spec j d) as [Hjd|Hjd]; [reflexivity|].
    unfold vzero. rewrite vent_vmk by assumption. destruct (Nat.eqb_spec i d); [lia|reflexivity].
  - assert (E : i = d) by lia. subst i. rewrite Nat.eqb_refl. reflexivity.
Qed.

(** a space group in three dimensions: rotations are conjugated, translations transformed *)
Theorem C82_transform_projective_partial : forall (ops : list affine) B Bi, hd_error ops = Some (aone 3) ->
  (forall a, In a ops -> wfa 3 a /\ unimod 3 (fst a)) -> inverse_pair (K:=Zs) 3 B Bi ->
  exists g, space_group 4 (map (embed 3) ops) 3 = SOk g /\
    sym_transform g 3 B Bi =
    SOk (MkSym 4 (map (fun a => embed 3 (conj_op 3 B Bi (fst a), zmv 3 B (snd a))) ops) false true).
Proof.
  intros ops B Bi Hh Ha HI. unfold space_group. cbn [Nat.eqb Nat.add orb].
  rewrite (init_space 3 ops true Hh Ha). eexists; split; [reflexivity|].
  unfold sym_transform. cbn [sproj sdim sops sinv Nat.sub Nat.eqb negb].
  set (f := fun a : affine => (conj_op 3 B Bi (fst a), zmv 3 B (snd a)) : affine).
  assert (E : map (conj_op (K:=Zs) 4 (proj_block 3 B) (proj_block 3 Bi)) (map (embed 3) ops) = map (embed 3) (map f ops)).
  { rewrite !map_map. apply map_ext_in. intros a Hin. destruct HI as (HB & HBi & _).
    rewrite !proj_block_embed by assumption. unfold conj_op. fold (zmul 4). rewrite !embed_comp. f_equal.
    unfold acomp, f; cbn [fst snd]. f_equal.
    apply (vec_ext Zs 3); [apply wfv_vmk|apply zmv_wf|]. intros i Hi. rewrite !vent_vmk by assumption.
    assert (Hz : forall m, vent (K:=Zs) (zmv 3 m (vzero (K:=Zs) 3)) i = 0%Z).
    { intros m. unfold zmv. rewrite vent_lmv by assumption. apply (nsum_zero Zs). intros k Hk.
      unfold vzero. rewrite vent_vmk by assumption. cbn. ring. }
    rewrite Hz. unfold vzero. rewrite vent_vmk by assumption. cbn. lia. }
  rewrite E. rewrite init_space; [rewrite map_map; reflexivity| |].
  - destruct ops as [|a ops]; [discriminate|]. cbn in Hh. injection Hh as ->. unfold f; cbn [hd_error map aone fst snd].
    f_equal. unfold aone. f_equal; [apply conj_eye; exact HI|].
    apply (vec_ext Zs 3); [apply zmv_wf|apply wfv_vmk|]. intros i Hi. unfold zmv. rewrite vent_lmv by assumption.
    unfold vzero at 2. rewrite vent_vmk by assumption. apply (nsum_zero Zs). intros k Hk. unfold vzero.
    rewrite vent_vmk by assumption. cbn. ring.
  - intros b Hb. apply in_map_iff in Hb. destruct Hb as [a [<- Hin]]. destruct (Ha a Hin) as [[H1 H2] H3].
    split; [split; [apply lmul_wf|apply zmv_wf]|]. apply conj_unimod; assumption.
Qed.
Print Assumptions C82_transform_projective_partial.

(** in two dimensions even the identity matrix is refused *)
Theorem C82_transform_projective_refuted : exists g, space_group 3 [embed 2 (aone 2)] 2 = SOk g /\
  sproj g = true /\ sym_transform g 2 (zeye 2) (zeye 2) = SValue.
Proof. eexists; split; [vm_compute; reflexivity|]. split; reflexivity. Qed.

Local Open Scope Z_scope.
Definition hexB : zmat := [[1;1;0];[0;1;0];[0;0;1]].
Definition hexBi : zmat := [[1;-1;0];[0;1;0];[0;0;1]].
Local Close Scope Z_scope.
Lemma hex_pair : inverse_pair (K:=Zs) 3 hexB hexBi.
Proof. repeat split; try (vm_compute; reflexivity); intros r Hr; repeat (destruct Hr as [<-|Hr]; [reflexivity|]); destruct Hr. Qed.

Example C82_example : exists g h, sym_cubic true = Some g /\ sym_transform g 3 hexB hexBi = SOk h /\
  sym_len h = 48 /\ sym_eq g h = false.
Proof. do 2 eexists. split; [vm_compute; reflexivity|]. split; [vm_compute; reflexivity|]. split; vm_compute; reflexivity. Qed.

(* ------------------------------------------------------------------ *)
(** ** C83: the dual group *)
(** [inv] inverts unimodular matrices, as np.linalg.inv does *)
Definition inverts (n : nat) (inv : zmat -> zmat) : Prop := forall m, wfz n m -> unimod n m ->
  wfz n (inv m) /\ zmul n m (inv m) = zeye n /\ zmul n (inv m) m = zeye n.
Definition zdotp (n : nat) (u v : zvec) : Z := nsum (K:=Zs) n (fun i => (vent (K:=Zs) u i * vent (K:=Zs) v i)%Z).
Definition dual_op (n : nat) (inv : zmat -> zmat) (s : zmat) : zmat := inv (ltr (K:=Zs) n s).

Lemma unimod_tr n a : wfz n a -> unimod n a -> unimod n (ltr (K:=Zs) n a).
Proof. intros Ha Hu. unfold unimod. rewrite zdet_tr by exact Ha. exact Hu. Qed.

Lemma inv_unique n a b c : wfz n b -> wfz n c -> zmul n b a = zeye n -> zmul n a c = zeye n -> b = c.
Proof. intros Hb Hc H1 H2. rewrite <- (zmul_1_r n b Hb), <- H2, zmul_assoc, H1. apply zmul_1_l, Hc. Qed.

Section Dual.
Variable n : nat.
Variable inv : zmat -> zmat.
Hypothesis Hinv : inverts n inv.
Notation D := (dual_op n inv).

Lemma dual_facts s : wfz n s -> unimod n s ->
  wfz n (D s) /\ unimod n (D s) /\ zmul n (ltr (K:=Zs) n s) (D s) = zeye n /\ zmul n (D s) (ltr (K:=Zs) n s) = zeye n.
Proof.
  intros Hs Hu. destruct (Hinv (ltr (K:=Zs) n s) (ltr_wf Zs n s) (unimod_tr n s Hs Hu)) as (H1 & H2 & H3).
  unfold dual_op. split; [exact H1|]. split; [|auto].
  apply (unimod_of_inv n _ (ltr (K:=Zs) n s)); [exact H1|apply ltr_wf|exact H3].
Qed.

Lemma dual_eq s t : wfz n s -> unimod n s -> wfz n t -> zmul n t (ltr (K:=Zs) n s) = zeye n -> D s = t.
Proof.
  intros Hs Hu Ht H. destruct (dual_facts s Hs Hu) as (H1 & _ & H2 & _). symmetry.
  apply (inv_unique n (ltr (K:=Zs) n s)); assumption.
Qed.

Lemma dual_one : D (zeye n) = zeye n.
Proof.
  apply dual_eq; [apply wfz_eye|apply unimod_eye|apply wfz_eye|]. unfold zeye at 2. rewrite ltr_eye.
  apply zmul_1_l, wfz_eye.
Qed.

Lemma dual_mul s t : wfz n s -> wfz n t -> unimod n s -> unimod n t -> D (zmul n s t) = zmul n (D s) (D t).
Proof.
  intros Hs Ht Us Ut. destruct (dual_facts s Hs Us) as (A1 & _ & A2 & A3), (dual_facts t Ht Ut) as (B1 & _ & B2 & B3).
  apply dual_eq; [apply wfz_mul|apply unimod_mul; assumption|apply wfz_mul|].
  unfold zmul at 3. rewrite ltr_mul. fold (zmul n (ltr (K:=Zs) n t) (ltr (K:=Zs) n s)).
  rewrite <- zmul_assoc, (zmul_assoc n (D t)), B3, zmul_1_l by apply ltr_wf. exact A3.
Qed.

Lemma dual_neg s : wfz n s -> unimod n s -> D (zneg n s) = zneg n (D s).
Proof.
  intros Hs Hu. destruct (dual_facts s Hs Hu) as (A1 & _ & A2 & A3).
  apply dual_eq; [apply wfz_neg|apply unimod_neg; assumption|apply wfz_neg|].
  assert (E : ltr (K:=Zs) n (zneg n s) = zneg n (ltr (K:=Zs) n s)).
  { unfold zneg, lneg, ltr. apply mk_ext. intros i j Hi Hj. rewrite !ent_mk by assumption. reflexivity. }
  rewrite E, zneg_mul_l, zneg_mul_r, A3. apply zneg_invol, wfz_eye.
Qed.

Lemma dual_invol s : wfz n s -> unimod n s -> D (D s) = s.
Proof.
  intros Hs Hu. destruct (dual_facts s Hs Hu) as (A1 & A0 & A2 & A3).
  apply dual_eq; [exact A1|exact A0|exact Hs|].
  rewrite <- (ltr_invol Zs n s Hs). unfold zmul.
  transitivity (ltr (K:=Zs) n (zmul n (D s) (ltr (K:=Zs) n s))).
  { unfold zmul. rewrite ltr_mul. rewrite !ltr_invol by (try apply ltr_wf; assumption). reflexivity. }
  rewrite A3. apply ltr_eye.
Qed.

Lemma dual_inj s t : wfz n s -> wfz n t -> unimod n s -> unimod n t -> D s = D t -> s = t.
Proof. intros Hs Ht Us Ut E. rewrite <- (dual_invol s), <- (dual_invol t), E by assumption. reflexivity. Qed.

Lemma dotp_tr a u v : zdotp n (zmv n (ltr (K:=Zs) n a) u) v = zdotp n u (zmv n a v).
Proof.
  unfold zdotp.
  rewrite (nsum_ext Zs n _ (fun i => nsum (K:=Zs) n (fun j => (ent (K:=Zs) a j i * vent (K:=Zs) u j * vent (K:=Zs) v i)%Z))).
  2:{ intros i Hi. unfold zmv. rewrite vent_lmv by assumption. symmetry.
      etransitivity; [apply (nsum_mul_r Zs n (fun j => (ent (K:=Zs) a j i * vent (K:=Zs) u j)%Z) (vent (K:=Zs) v i))|].
      apply (f_equal (fun x => (x * vent (K:=Zs) v i)%Z)). apply (nsum_ext Zs). intros j Hj. rewrite ltr_ent by assumption. reflexivity. }
  rewrite (nsum_swap Zs). apply (nsum_ext Zs). intros j Hj. unfold zmv. rewrite vent_lmv by assumption. symmetry.
  etransitivity; [symmetry; apply (nsum_mul_l Zs n (fun k => (ent (K:=Zs) a j k * vent (K:=Zs) v k)%Z) (vent (K:=Zs) u j))|].
  apply (nsum_ext Zs). intros i Hi. cbn. ring.
Qed.

Lemma dual_pairing s k r : wfz n s -> unimod n s -> wfv (K:=Zs) n r ->
  zdotp n (zmv n (D s) k) (zmv n s r) = zdotp n k r.
Proof.
  intros Hs Hu Hr. destruct (dual_facts s Hs Hu) as (A1 & A0 & A2 & A3).
  rewrite <- dotp_tr. unfold zmv. rewrite <- lmv_mul. fold (zmul n (ltr (K:=Zs) n s) (D s)). rewrite A2.
  unfold zdotp. apply (nsum_ext Zs). intros i Hi. unfold zeye. rewrite vent_lmv by assumption.
  rewrite (nsum_single Zs n i _ Hi).
  - rewrite leye_ent, Nat.eqb_refl by assumption. cbn [smul s1 Zs]. rewrite Z.mul_1_l. reflexivity.
  - intros j Hj Hne. rewrite leye_ent by assumption. destruct (Nat.eqb_spec i j); [congruence|]. cbn. ring.
Qed.
End Dual.

Lemma all_wf g : built g -> forall s, In s (sym_all g) -> wfz (sdim g) s /\ unimod (sdim g) s.
Proof.
  intros Hb s Hs. destruct (built_facts g Hb) as (HW & _ & Hu & _). apply in_app_or in Hs. destruct Hs as [Hs|Hs]; [auto|].
  destruct (sinv g); [|destruct Hs]. apply in_map_iff in Hs. destruct Hs as [t [<- Ht]].
  split; [apply wfz_neg|apply unimod_neg; auto].
Qed.

Theorem C83_dual : forall g inv, built g -> inverts (sdim g) inv ->
  exists h, sym_dual inv g = Some h /\ sdim h = sdim g /\ sinv h = sinv g /\ sproj h = sproj g /\
    sym_all h = map (dual_op (sdim g) inv) (sym_all g) /\
    (forall s k r, In s (sym_all g) -> wfv (K:=Zs) (sdim g) r ->
       zdotp (sdim g) (zmv (sdim g) (dual_op (sdim g) inv s) k) (zmv (sdim g) s r) = zdotp (sdim g) k r) /\
    (is_group (zmul (sdim g)) (zeye (sdim g)) (sym_all g) -> is_group (zmul (sdim g)) (zeye (sdim g)) (sym_all h)) /\
    (built h /\ sym_dual inv h = Some g).
Proof.
  intros g inv Hb Hi. set (n := sdim g). set (D := dual_op n inv).
  assert (HA := all_wf g Hb). fold n in HA.
  assert (E : sym_init n (map D (sops g)) (sinv g) (sproj g) = Some (MkSym n (map D (sops g)) (sinv g) (sproj g))).
  { apply init_map; [exact Hb| | | |].
    - intros s Hs. destruct (HA s Hs). destruct (dual_facts n inv Hi s) as (A & B & _); auto.
    - intros s H1 H2. apply dual_neg; assumption.
    - intros s t H1 H2 H3 H4. apply dual_inj; assumption.
    - apply dual_one; assumption. }
  destruct (built_facts g Hb) as (HW & _ & HU & _). fold n in HW, HU.
  exists (MkSym n (map D (sops g)) (sinv g) (sproj g)). split; [exact E|]. cbn [sdim sinv sproj].
  assert (Eall : sym_all (MkSym n (map D (sops g)) (sinv g) (sproj g)) = map D (sym_all g)).
  { unfold sym_all. cbn [sops sinv sdim]. rewrite map_app. f_equal. destruct (sinv g); [|reflexivity].
    rewrite !map_map. apply map_ext_in. intros s Hs. symmetry. apply dual_neg; auto. }
  split; [reflexivity|]. split; [reflexivity|]. split; [reflexivity|]. split; [exact Eall|].
  split; [|split].
  - intros s k r Hs Hr. destruct (HA s Hs). apply dual_pairing; assumption.
  - rewrite Eall. intros (H1 & H2 & H3 & H4). split; [|split; [|split]].
    + apply in_map_iff. exists (zeye n). split; [apply dual_one; assumption|exact H1].
    + apply NoDup_map_inj; [|exact H2]. intros a b Ha Hb'. destruct (HA a Ha), (HA b Hb'). apply dual_inj; assumption.
    + intros a b Ha Hb'. apply in_map_iff in Ha, Hb'. destruct Ha as [s [<- Hs]], Hb' as [t [<- Ht]].
      destruct (HA s Hs), (HA t Ht). apply in_map_iff. exists (zmul n s t). split; [apply dual_mul; assumption|apply H3; assumption].
    + intros a Ha. apply in_map_iff in Ha. destruct Ha as [s [<- Hs]]. destruct (H4 s Hs) as (t & Ht & E1 & E2).
      destruct (HA s Hs), (HA t Ht). exists (D t). split; [apply in_map; exact Ht|].
      unfold D. rewrite <- !dual_mul by assumption. fold n in E1, E2. rewrite E1, E2. split; apply dual_one; assumption.
  - assert (Hbh : built (MkSym n (map D (sops g)) (sinv g) (sproj g))).
    { exists (map D (sops g)), (sinv g). cbn [sdim sproj]. split; [|exact E].
      intros s Hs. apply in_map_iff in Hs. destruct Hs as [t [<- Ht]]. apply dual_facts; auto. }
    split; [exact Hbh|]. unfold sym_dual. cbn [sdim sops sinv sproj]. fold (dual_op n inv). fold D.
    assert (Em : map D (map D (sops g)) = sops g).
    { rewrite map_map. rewrite <- (map_id (sops g)) at 2. apply map_ext_in. intros s Hs. apply dual_invol; auto. }
    change (map (fun s => inv (ltr (K:=Zs) n s)) (map D (sops g))) with (map D (map D (sops g))). rewrite Em.
    destruct (built_facts g Hb) as (_ & Hh & _ & Hst). rewrite init_stable; [|assumption|assumption|assumption|assumption].
    destruct g; reflexivity.
Qed.
Print Assumptions C83_dual.

(** transposing gives the same operations as dual() when the operations form a group *)
Theorem C83_transpose : forall g inv, built g -> inverts (sdim g) inv ->
  is_group (zmul (sdim g)) (zeye (sdim g)) (sym_all g) ->
  exists h d, sym_transpose g = Some h /\ sym_dual inv g = Some d /\ sinv h = sinv d /\
    (forall x, In x (sym_all h) <-> In x (sym_all d)).
Proof.
  intros g inv Hb Hi (H1 & H2 & H3 & H4). destruct (C83_dual g inv Hb Hi) as (d & Hd & _ & Hsi & _ & Hall & _).
  set (n := sdim g) in *. assert (HA := all_wf g Hb). fold n in HA.
  assert (Hneg : forall s, ltr (K:=Zs) n (zneg n s) = zneg n (ltr (K:=Zs) n s)).
  { intros s. unfold zneg, lneg, ltr. apply mk_ext. intros i j Hi' Hj. rewrite !ent_mk by assumption. reflexivity. }
  assert (E : sym_init n (map (ltr (K:=Zs) n) (sops g)) (sinv g) false = Some (MkSym n (map (ltr (K:=Zs) n) (sops g)) (sinv g) false)).
  { apply init_map; [exact Hb| | | |].
    - intros s Hs. destruct (HA s Hs). split; [apply ltr_wf|apply unimod_tr; assumption].
    - intros s _ _. apply Hneg.
    - intros s t A B _ _ E. rewrite <- (ltr_invol Zs n s A), <- (ltr_invol Zs n t B). f_equal. exact E.
    - apply ltr_eye. }
  eexists; exists d. split; [exact E|]. split; [exact Hd|]. cbn [sinv]. split; [congruence|].
  intros x. rewrite Hall.
  assert (Eall : sym_all (MkSym n (map (ltr (K:=Zs) n) (sops g)) (sinv g) false) = map (ltr (K:=Zs) n) (sym_all g)).
  { unfold sym_all. cbn [sops sinv sdim]. rewrite map_app. f_equal. destruct (sinv g); [|reflexivity].
    rewrite !map_map. apply map_ext. intros s. symmetry. apply Hneg. }
  rewrite Eall, !in_map_iff.
  assert (Key : forall s t, In s (sym_all g) -> In t (sym_all g) -> zmul n s t = zeye n -> dual_op n inv s = ltr (K:=Zs) n t).
  { intros s t Hs Ht Est. destruct (HA s Hs). apply (dual_eq n inv Hi); [assumption|assumption|apply ltr_wf|].
    unfold zmul. rewrite <- ltr_mul. change (lmul (K:=Zs) n s t) with (zmul n s t). rewrite Est. apply ltr_eye. }
  split; intros [s [<- Hs]]; destruct (H4 s Hs) as (t & Ht & E1 & E2); exists t; (split; [|exact Ht]).
  - apply Key; assumption.
  - symmetry. apply Key; assumption.
Qed.
Print Assumptions C83_transpose.

(** but the projective flag is lost: the transpose of a space group claims to be a point group in one
    dimension more *)
Theorem C83_transpose_refuted : exists g h, built g /\ sproj g = true /\ sym_transpose g = Some h /\
  sproj h = false /\ sdim h = 3.
Proof.
  destruct (init_space 2 [aone 2] true eq_refl) as [].
  { intros a [<-|[]]. split; [split; [apply wfz_eye|apply wfv_vmk]|apply unimod_eye]. }
  exists (MkSym 3 (map (embed 2) [aone 2]) false true). eexists. split.
  - exists (map (embed 2) [aone 2]), false. cbn [sdim sproj]. split; [|reflexivity].
    intros s [<-|[]]. apply embed_wf.
  - split; [reflexivity|]. split; [vm_compute; reflexivity|]. split; reflexivity.
Qed.
Print Assumptions C83_transpose_refuted.

(** hexagonal lattice coordinates: the dual operations are not the operations themselves *)
Local Open Scope Z_scope.
Definition hex6 : zmat := [[1;-1];[1;0]].
Definition inv2 (m : zmat) : zmat := let e := ent (K:=Zs) m in let d := zdet 2 m in
  [[d * e 1%nat 1%nat; - d * e 0%nat 1%nat]; [- d * e 1%nat 0%nat; d * e 0%nat 0%nat]].
Local Close Scope Z_scope.
Lemma inv2_inverts : inverts 2 inv2.
Proof.
  intros m Hm Hu. destruct Hm as [Hl Hr]. destruct m as [|r0 [|r1 [|? ?]]]; try discriminate.
  assert (L0 := Hr r0 (or_introl eq_refl)). assert (L1 := Hr r1 (or_intror (or_introl eq_refl))).
  destruct r0 as [|a [|b [|? ?]]]; try discriminate. destruct r1 as [|c [|d [|? ?]]]; try discriminate.
  unfold unimod in Hu. assert (Ed : zdet 2 [[a;b];[c;d]] = (a * d - b * c)%Z) by (cbn [zdet seq map fold_right nth drop_nth firstn skipn Nat.even app]; ring).
  rewrite Ed in Hu.
  assert (Hd : ((a * d - b * c) * (a * d - b * c) = 1)%Z).
  { assert (E : (a * d - b * c = 1 \/ a * d - b * c = -1)%Z) by lia. destruct E as [E|E]; rewrite E; reflexivity. }
  split; [split; [reflexivity|intros r [<-|[<-|[]]]; reflexivity]|].
  unfold inv2. rewrite Ed. cbv zeta. unfold ent. cbn [nth].
  split; unfold zmul, lmul, zeye, leye, mk, ent; cbn; repeat (f_equal; try nia).
Qed.
Example C83_example : exists g h, sym_from_generator 2 [hex6] false = Some g /\ sym_dual inv2 g = Some h /\
  inverts 2 inv2 /\ sym_len g = 6 /\ sym_eq g h = false.
Proof.
  do 2 eexists. split; [vm_compute; reflexivity|]. split; [vm_compute; reflexivity|]. split; [exact inv2_inverts|].
  split; vm_compute; reflexivity.
Qed.

(* ------------------------------------------------------------------ *)
(** ** C84: check() *)
Lemma from_generator_closed n S : (forall s, In s S -> wfz n s) -> (forall s, In s S -> unimod n s) ->
  In (zeye n) S -> NoDup S -> closed (zmul n) S -> length S < 200 ->
  exists R, from_generator zmeqb (zmul n) (zeye n) (det_ok n) S = GenOk R /\ length R = length S /\
    hd_error R = Some (zeye n) /\ (forall x, In x R <-> In x S).
Proof.
  intros HW HU H1 Hnd Hc Hl.
  assert (Hgen : forall x, In x S <-> generated (zmul n) (zeye n) S x).
  { intros x. split.
    - intros Hx. apply (generated_in (zmul n) (zeye n) (wfz n) (zmul_1_r n)); [apply HW; exact Hx|exact Hx].
    - apply generated_least; auto. }
  assert (Hne : S <> []) by (destruct S; [destruct H1|discriminate]).
  destruct (from_generator_exact zmeqb (zmul n) (zeye n) (det_ok n) (wfz n) zmeqb_spec (wfz_eye n)
    (wfz_mul n) (zmul_assoc n) (zmul_1_l n) (zmul_1_r n) S Hne HW) as [A _].
  { intros s Hs. apply det_ok_spec, HU, Hs. }
  destruct (proj1 A) as [R HR].
  { exists S. split; [exact Hnd|]. split; [exact Hl|]. intros x. apply Hgen. }
  exists R. split; [exact HR|]. pose proof (from_generator_ok_z n S R HW HR) as (R1 & _ & R3 & _ & _ & R6).
  assert (Hx : forall x, In x R <-> In x S) by (intros x; rewrite R6, <- Hgen; reflexivity).
  split; [|auto]. apply Nat.le_antisymm; apply NoDup_incl_length; auto; intros x; apply Hx.
Qed.

Lemma check_true_iff g : built g -> NoDup (sops g) ->
  (sym_check g = Some true <-> closed (zmul (sdim g)) (sops g) /\ length (sops g) < 200).
Proof.
  intros Hb Hnd. destruct (built_facts g Hb) as (HW & Hh & HU & Hst). set (n := sdim g) in *.
  unfold sym_check, sym_from_generator. fold n. split.
  - destruct (from_generator zmeqb (zmul n) (zeye n) (det_ok n) (sops g)) as [R| | |] eqn:ER; try discriminate.
    destruct (sym_init n R (sinv g) false) as [h|] eqn:Eh; [|discriminate]. cbn [option_map]. intros E.
    injection E as E. destruct (sym_eq_sound g h Hnd E) as (_ & Ei & Ex).
    apply sym_eq_true in E. destruct E as (_ & _ & El & _).
    pose proof (from_generator_ok_z n (sops g) R HW ER) as (_ & _ & _ & Rc & Rl & _).
    pose proof (from_generator_group n (sops g) R HW ER) as RG.
    assert (RW : forall s, In s R -> wfz n s).
    { intros s Hs. apply (from_generator_ok_z n (sops g) R HW ER) in Hs. eapply generated_wf; exact Hs. }
    apply sym_init_inv in Eh. destruct Eh as (_ & Hu & _ & _ & Hcase).
    destruct Hcase as [(_ & _ & F1 & _)|[(_ & _ & F1 & _)|[(_ & F2 & _ & _ & F3)|(_ & _ & F1 & _)]]].
    + split.
      * intros a b Ha Hb'. apply Ex in Ha, Hb'. apply Ex. rewrite F1 in *. apply filter_In in Ha, Hb'. apply filter_In.
        destruct Ha as [Ha Da], Hb' as [Hb' Db]. split; [apply Rc; assumption|]. apply Z.ltb_lt in Da, Db. apply Z.ltb_lt.
        rewrite zdet_mul by (apply RW; assumption). nia.
      * rewrite El, F1. eapply Nat.le_lt_trans; [|exact Rl]. clear. induction R; simpl; [lia|].
        destruct (Z.ltb _ _); simpl; lia.
    + rewrite El, F1. split; [|exact Rl]. intros a b Ha Hb'. apply Ex in Ha, Hb'. apply Ex. rewrite F1 in *. apply Rc; assumption.
    + congruence.
    + rewrite El, F1. split; [|exact Rl]. intros a b Ha Hb'. apply Ex in Ha, Hb'. apply Ex. rewrite F1 in *. apply Rc; assumption.
  - intros [Hc Hl]. assert (H1 : In (zeye n) (sops g)) by (destruct (sops g); [discriminate|injection Hh as ->; left; reflexivity]).
    destruct (from_generator_closed n (sops g) HW HU H1 Hnd Hc Hl) as (R & -> & Rl & Rh & Rx).
    rewrite init_stable; [| | | |].
    + cbn [option_map]. f_equal. apply sym_eq_true. cbn [sdim sops sinv]. fold n. split; [reflexivity|]. split; [reflexivity|].
      split; [lia|]. intros x. apply Rx.
    + intros s Hs. apply HW, Rx, Hs.
    + exact Rh.
    + intros s Hs. apply HU, Rx, Hs.
    + assert (En : neg_closed n R <-> neg_closed n (sops g)).
      { unfold neg_closed. split; intros Hn s Hs; apply Rx; apply Hn, Rx, Hs. }
      unfold stable. rewrite En. exact Hst.
Qed.

(** full claim: check() is True iff the represented operations are closed. It holds without the inversion
    flag and when all stored operations are rotations. *)
Theorem C84_check_partial : forall g, built g -> NoDup (sops g) -> length (sops g) < 200 ->
  sinv g = false \/ (Nat.odd (sdim g) = true /\ forall s, In s (sops g) -> (0 < zdet (sdim g) s)%Z) ->
  (sym_check g = Some true <->
   forall a b, In a (sym_all g) -> In b (sym_all g) -> In (zmul (sdim g) a b) (sym_all g)).
Proof.
  intros g Hb Hnd Hl Hcase. rewrite (check_true_iff g Hb Hnd).
  destruct (built_facts g Hb) as (HW & Hh & HU & Hst). set (n := sdim g) in *.
  transitivity (closed (zmul n) (sops g)); [tauto|]. unfold sym_all.
  destruct (sinv g) eqn:Ei; [|rewrite app_nil_r; reflexivity].
  destruct Hcase as [Hcase|[Ho Hp]]; [discriminate|]. fold n. split.
  - intros Hc a b Ha Hb'. rewrite in_app_iff, in_map_iff in *.
    destruct Ha as [Ha|[s [<- Ha]]], Hb' as [Hb'|[t [<- Hb']]].
    + left. apply Hc; assumption.
    + right. exists (zmul n a t). split; [symmetry; apply zneg_mul_r|apply Hc; assumption].
    + right. exists (zmul n s b). split; [symmetry; apply zneg_mul_l|apply Hc; assumption].
    + left. rewrite zneg_mul_l, zneg_mul_r, zneg_invol by apply wfz_mul. apply Hc; assumption.
  - intros Hc a b Ha Hb'. assert (H := Hc a b (in_or_app _ _ _ (or_introl Ha)) (in_or_app _ _ _ (or_introl Hb'))).
    apply in_app_or in H. destruct H as [H|H]; [exact H|]. apply in_map_iff in H. destruct H as [t [E Ht]].
    assert (D : (0 < zdet n (zmul n a b))%Z) by (rewrite zdet_mul by (apply HW; assumption); assert (Hq := Hp a Ha); assert (Hr := Hp b Hb'); nia).
    rewrite <- E, zdet_neg, odd_even, Ho in D by (apply HW; assumption). cbn in D. specialize (Hp t Ht). lia.
Qed.
Print Assumptions C84_check_partial.

(** the group D2h written with a mirror in place of a rotation is closed, but check() is False *)
Local Open Scope Z_scope.
Definition d2x : zmat := [[1;0;0];[0;-1;0];[0;0;-1]].
Definition d2y : zmat := [[-1;0;0];[0;1;0];[0;0;-1]].
Definition d2z : zmat := [[-1;0;0];[0;-1;0];[0;0;1]].
Definition mz : zmat := [[1;0;0];[0;1;0];[0;0;-1]].
Local Close Scope Z_scope.
Theorem C84_check_refuted : exists g, sym_init 3 [zeye 3; d2x; d2y; mz] true false = Some g /\
  is_group (zmul 3) (zeye 3) (sym_all g) /\ sym_check g = Some false.
Proof.
  eexists. split; [vm_compute; reflexivity|]. split; [|vm_compute; reflexivity].
  apply (is_group_b_spec 3). vm_compute. reflexivity.
Qed.
Print Assumptions C84_check_refuted.

Example C84_example : exists g h, sym_init 3 [zeye 3; d2x; d2y; d2z] true false = Some g /\ sym_check g = Some true /\
  sym_init 3 [zeye 3; d2x; d2y] true false = Some h /\ sym_check h = Some false.
Proof. do 2 eexists. repeat (split; [vm_compute; reflexivity|]). vm_compute; reflexivity. Qed.

(* ------------------------------------------------------------------ *)
(** ** C85: point groups of space groups *)
(** closed up to lattice translations; translations are stored in units of 1/D *)
Definition space_closed (d : nat) (D : Z) (ops : list affine) : Prop := forall a b, In a ops -> In b ops ->
  exists c, In c ops /\ fst c = zmul d (fst a) (fst b) /\
    forall i, i < d -> exists l, vent (K:=Zs) (snd (acomp d a b)) i = (vent (K:=Zs) (snd c) i + D * l)%Z.
Definition space_ops (d : nat) (ops : list affine) : Prop := hd_error ops = Some (aone d) /\
  forall a, In a ops -> wfa d a /\ unimod d (fst a).

Lemma space_group_embed d ops : space_ops d ops ->
  space_group (S d) (map (embed d) ops) d = SOk (MkSym (S d) (map (embed d) ops) false true).
Proof.
  intros [Hh Ha]. unfold space_group. rewrite Nat.add_1_r, Nat.eqb_refl, orb_true_r.
  rewrite (init_space d ops true Hh Ha). reflexivity.
Qed.

Lemma cut_map d ops : (forall a, In a ops -> wfa d a) -> map (cut d) (map (embed d) ops) = map fst ops.
Proof. intros Ha. rewrite map_map. apply map_ext_in. intros a Hin. apply cut_embed, Ha, Hin. Qed.

Theorem C85_point_group_partial : forall d D ops, space_ops d ops -> space_closed d D ops ->
  exists h, point_group (S d) (map (embed d) ops) d = SOk h /\ sdim h = d /\ sproj h = false /\
    (forall r, In r (sym_all h) <-> exists t, In (r, t) ops) /\
    (forall a b, In a (sym_all h) -> In b (sym_all h) -> In (zmul d a b) (sym_all h)) /\
    (NoDup (map fst ops) -> sym_len h = length ops /\ is_group (zmul d) (zeye d) (sym_all h)).
Proof.
  intros d D ops Hs Hc. unfold point_group. rewrite (space_group_embed d ops Hs). destruct Hs as [Hh Ha].
  unfold ignore_translation. cbn [sproj sdim sops sinv]. replace (S d - 1) with d by lia.
  rewrite cut_map by (intros a Hin; apply Ha, Hin).
  assert (HW : forall s, In s (map fst ops) -> wfz d s).
  { intros s Hs. apply in_map_iff in Hs. destruct Hs as [a [<- Hin]]. apply Ha, Hin. }
  assert (HU : forall s, In s (map fst ops) -> unimod d s).
  { intros s Hs. apply in_map_iff in Hs. destruct Hs as [a [<- Hin]]. apply Ha, Hin. }
  assert (H1 : hd_error (map fst ops) = Some (zeye d)) by (destruct ops; [discriminate|injection Hh as ->; reflexivity]).
  destruct (sym_init_some d (map fst ops) false false H1 HU) as (h & Eh & E1 & E2). rewrite Eh. exists h.
  split; [reflexivity|]. split; [exact E1|]. split; [exact E2|].
  assert (Hall : forall x, In x (sym_all h) <-> In x (map fst ops)).
  { intros x. rewrite (sym_init_ops d _ false false h HW Eh x). split; [intros [H|[H _]]; [exact H|discriminate]|auto]. }
  assert (Hcl : closed (zmul d) (map fst ops)).
  { intros a b Hx Hy. apply in_map_iff in Hx, Hy. destruct Hx as [x [<- Hx]], Hy as [y [<- Hy]].
    destruct (Hc x y Hx Hy) as (c & Hin & Ec & _). rewrite <- Ec. apply in_map, Hin. }
  split; [|split].
  - intros r. rewrite Hall, in_map_iff. split; [intros [[r' t] [E Hin]]; cbn in E; subst; eauto|intros [t Ht]; exists (r, t); auto].
  - intros a b. rewrite !Hall. apply Hcl.
  - intros Hnd.
    assert (HG : is_group (zmul d) (zeye d) (map fst ops)).
    { assert (Hi1 : In (zeye d) (map fst ops)) by (destruct (map fst ops); [discriminate|injection H1 as ->; left; reflexivity]).
      split; [exact Hi1|]. split; [exact Hnd|]. split; [exact Hcl|].
      apply (closed_inverses (zmul d) (zeye d) (wfz d) (zmul_assoc d) (zmul_1_l d) (zmul_1_r d)); auto.
      intros a b c Ha' Hb' Hc' E. exact (unimod_cancel d a b c (HW a Ha') (HW b Hb') (HW c Hc') (HU a Ha') E). }
    assert (Hn : NoDup (sym_all h)).
    { apply (sym_init_nodup d _ false false h HW Hnd (group_neg_alt d _ HG HW)); auto. }
    split.
    + rewrite sym_len_all. transitivity (length (map fst ops)); [|apply map_length]. apply Nat.le_antisymm; apply NoDup_incl_length; auto; intros x; apply Hall.
    + destruct HG as (G1 & _ & _ & G4). split; [apply Hall, G1|]. split; [exact Hn|]. split.
      * intros a b Hx Hy. apply Hall. apply Hcl; apply Hall; assumption.
      * intros a Hx. apply Hall in Hx. destruct (G4 a Hx) as (b & Hb & Eb). exists b. split; [apply Hall, Hb|exact Eb].
Qed.
Print Assumptions C85_point_group_partial.

(** [ignore_translation] on its own: the operations of the result are exactly the linear parts of the
    operations, with or without inversion flag *)
Theorem C85_ignore_translation : forall g h, sproj g = true -> ignore_translation g = SOk h ->
  forall x, In x (sym_all h) <-> exists s, In s (sym_all g) /\ x = cut (sdim g - 1) s.
Proof.
  intros g h Hp Hg x. unfold ignore_translation in Hg. rewrite Hp in Hg. set (d := sdim g - 1) in *.
  destruct (sym_init d (map (cut d) (sops g)) (sinv g) false) as [h'|] eqn:Eh; [|discriminate]. cbn in Hg. injection Hg as ->.
  assert (HW : forall s, In s (map (cut d) (sops g)) -> wfz d s).
  { intros s Hs. apply in_map_iff in Hs. destruct Hs as [y [<- _]]. apply wfm_mk. }
  assert (Hn : forall s, cut d (zneg (sdim g) s) = zneg d (cut d s)).
  { intros s. apply (mk_ext Zs). intros i j Hi Hj. unfold zneg, lneg, cut.
    rewrite !ent_mk by lia. reflexivity. }
  rewrite (sym_init_ops d _ _ false h HW Eh x). unfold sym_all. split.
  - intros [A|(A & s & B & ->)].
    + apply in_map_iff in A. destruct A as [s [<- A]]. exists s. split; [apply in_app_iff; auto|reflexivity].
    + apply in_map_iff in B. destruct B as [t [<- B]]. exists (zneg (sdim g) t). rewrite A. split; [|symmetry; apply Hn].
      apply in_app_iff. right. apply in_map, B.
  - intros (s & A & ->). apply in_app_iff in A. destruct A as [A|A]; [left; apply in_map, A|right].
    destruct (sinv g); [|destruct A]. split; [reflexivity|]. apply in_map_iff in A. destruct A as [t [<- A]].
    exists (cut d t). split; [apply in_map, A|apply Hn].
Qed.
Print Assumptions C85_ignore_translation.
Example C85_example_inversion : exists g h, sym_init 4 (map (embed 3) [aone 3]) false true = Some g /\
  ignore_translation (MkSym 4 (sops g) true true) = SOk h /\ sym_len h = 2 /\ sinv h = true.
Proof. do 2 eexists. repeat (split; [vm_compute; reflexivity|]). vm_compute; reflexivity. Qed.

(** a conventional cell with a centring translation lists every rotation more than once: the point
    group of {1, translation by half a cell} has len 2 *)
Theorem C85_point_group_refuted : exists ops h, space_ops 3 ops /\ space_closed 3 2 ops /\ NoDup ops /\
  point_group 4 (map (embed 3) ops) 3 = SOk h /\ sym_len h = 2 /\ (forall r, In r (sym_all h) <-> r = zeye 3).
Proof.
  exists [aone 3; (zeye 3, [1;1;1]%Z)]. eexists. split; [|split; [|split; [|split; [vm_compute; reflexivity|]]]].
  - split; [reflexivity|]. intros a [<-|[<-|[]]]; (split; [split; [apply wfz_eye|]|apply unimod_eye]); reflexivity.
  - intros a b [<-|[<-|[]]] [<-|[<-|[]]].
    + exists (aone 3). split; [left; reflexivity|]. split; [reflexivity|]. intros i Hi. exists 0%Z. do 3 (destruct i; [reflexivity|]). lia.
    + exists (zeye 3, [1;1;1]%Z). split; [right; left; reflexivity|]. split; [reflexivity|]. intros i Hi. exists 0%Z. do 3 (destruct i; [reflexivity|]). lia.
    + exists (zeye 3, [1;1;1]%Z). split; [right; left; reflexivity|]. split; [reflexivity|]. intros i Hi. exists 0%Z. do 3 (destruct i; [reflexivity|]). lia.
    + exists (aone 3). split; [left; reflexivity|]. split; [reflexivity|]. intros i Hi. exists 1%Z. do 3 (destruct i; [reflexivity|]). lia.
  - repeat constructor; intros H; repeat (destruct H as [H|H]; [discriminate|]); destruct H.
  - split; [reflexivity|]. intros r. unfold sym_all; cbn [sops sinv sdim app]. split.
    + intros [<-|[<-|[]]]; reflexivity.
    + intros ->. left; reflexivity.
Qed.
Print Assumptions C85_point_group_refuted.

(** P2_1: a screw axis *)
Definition p21 : list affine := [aone 3; (d2z, [0;0;1]%Z)].
Lemma p21_ops : space_ops 3 p21 /\ space_closed 3 2 p21.
Proof.
  split.
  - split; [reflexivity|]. intros a [<-|[<-|[]]].
    + split; [split; [apply wfz_eye|apply wfv_vmk]|apply unimod_eye].
    + split; [split; [|reflexivity]|reflexivity]. exact (wfz_b_spec 3 [d2z] eq_refl d2z (or_introl eq_refl)).
  - intros a b [<-|[<-|[]]] [<-|[<-|[]]].
    + exists (aone 3). split; [left; reflexivity|]. split; [reflexivity|]. intros i Hi. exists 0%Z. do 3 (destruct i; [reflexivity|]). lia.
    + exists (d2z, [0;0;1]%Z). split; [right; left; reflexivity|]. split; [reflexivity|]. intros i Hi. exists 0%Z. do 3 (destruct i; [reflexivity|]). lia.
    + exists (d2z, [0;0;1]%Z). split; [right; left; reflexivity|]. split; [reflexivity|]. intros i Hi. exists 0%Z. do 3 (destruct i; [reflexivity|]). lia.
    + exists (aone 3). split; [left; reflexivity|]. split; [reflexivity|]. intros i Hi.
      exists (if Nat.eqb i 2 then 1%Z else 0%Z). do 3 (destruct i; [reflexivity|]). lia.
Qed.
Example C85_example : space_ops 3 p21 /\ space_closed 3 2 p21 /\ NoDup (map fst p21) /\
  exists h, point_group 4 (map (embed 3) p21) 3 = SOk h /\ sops h = [zeye 3; d2z].
Proof.
  split; [apply p21_ops|]. split; [apply p21_ops|]. split.
  - repeat constructor; intros H; repeat (destruct H as [H|H]; [discriminate|]); destruct H.
  - eexists; split; vm_compute; reflexivity.
Qed.

(* ------------------------------------------------------------------ *)
(** ** C87: subgroup *)
Definition kept {V} (veq : V -> V -> bool) (f : zmat -> V) (n : nat) (l : list zmat) : list zmat :=
  filter (fun s => veq (f s) (f (zeye n))) l.

Lemma built_nodup n S inv proj g : sym_init n S inv proj = Some g -> NoDup S -> inv = false -> NoDup (sops g).
Proof.
  intros H Hnd Hi. apply sym_init_inv in H. destruct H as (_ & _ & _ & _ & H).
  destruct H as [(_ & _ & -> & _)|[(_ & _ & -> & _)|[(_ & H & _)|(_ & _ & -> & _)]]]; auto; [apply NoDup_filter, Hnd|congruence].
Qed.

Lemma filter_hd {A} (p : A -> bool) a l : p a = true -> filter p (a :: l) = a :: filter p l.
Proof. intros H. cbn. rewrite H. reflexivity. Qed.

Lemma closed_stored n H h : (forall s, In s H -> wfz n s) -> (forall s, In s H -> unimod n s) ->
  sym_init n H false false = Some h -> (closed (zmul n) (sops h) <-> closed (zmul n) H).
Proof.
  intros HWH HUH Eh. pose proof (sym_init_inv n H false false h Eh) as (_ & _ & _ & _ & Hcase).
  destruct Hcase as [(Hn & Ho & F1 & F2)|[(_ & _ & F1 & _)|[(_ & F2 & _)|(_ & _ & F1 & _)]]];
    [|rewrite F1; reflexivity|discriminate|rewrite F1; reflexivity].
  apply (neg_closed_spec n H HWH) in Hn. rewrite F1. split.
  - intros Hc a b Ha Hb'.
    assert (Hsgn : forall x, In x H -> exists y, In y (filter (fun s => Z.ltb 0 (zdet n s)) H) /\ (x = y \/ x = zneg n y)).
    { intros x Hx. destruct (Z.ltb_spec 0 (zdet n x)) as [D|D].
      - exists x. split; [apply filter_In; split; [exact Hx|apply Z.ltb_lt, D]|auto].
      - exists (zneg n x). split.
        + apply filter_In. split; [apply Hn, Hx|]. apply Z.ltb_lt. rewrite zdet_neg, odd_even, Ho by (apply HWH, Hx). cbn.
          specialize (HUH x Hx). unfold unimod in HUH. lia.
        + right. symmetry. apply zneg_invol, HWH, Hx. }
    destruct (Hsgn a Ha) as (a' & Pa & Ea), (Hsgn b Hb') as (b' & Pb & Eb).
    assert (Hin : In (zmul n a' b') H) by (specialize (Hc a' b' Pa Pb); apply filter_In in Hc; apply Hc).
    destruct Ea as [-> | ->], Eb as [-> | ->].
    + exact Hin.
    + rewrite zneg_mul_r. apply Hn, Hin.
    + rewrite zneg_mul_l. apply Hn, Hin.
    + rewrite zneg_mul_l, zneg_mul_r, zneg_invol by apply wfz_mul. exact Hin.
  - intros Hc a b Ha Hb'. apply filter_In in Ha, Hb'. destruct Ha as [Ha Da], Hb' as [Hb' Db].
    apply filter_In. split; [apply Hc; assumption|]. apply Z.ltb_lt in Da, Db. apply Z.ltb_lt.
    rewrite zdet_mul by (apply HWH; assumption). nia.
Qed.

(** without the inversion flag: the call returns exactly when the operations with the value of the
    identity are closed, and then these are the operations of the result *)
Lemma subgroup_noinv {V} (veq : V -> V -> bool) (f : zmat -> V) g :
  (forall a, veq a a = true) -> built g -> sinv g = false -> NoDup (sops g) -> length (sops g) < 200 ->
  let H := kept veq f (sdim g) (sops g) in
  (closed (zmul (sdim g)) H <-> exists h, sym_subgroup veq f g = SOk h) /\
  (forall h, sym_subgroup veq f g = SOk h -> sdim h = sdim g /\ NoDup (sym_all h) /\ (forall x, In x (sym_all h) <-> In x H)) /\
  (forall h, sym_subgroup veq f g = SOk h -> ~ neg_closed (sdim g) H \/ Nat.odd (sdim g) = false -> h = MkSym (sdim g) H false false).
Proof.
  intros Hve Hb Hi Hnd Hl H. destruct (built_facts g Hb) as (HW & Hh & HU & _). set (n := sdim g) in *.
  assert (EH : hd_error H = Some (zeye n) /\ sym_subgroup veq f g = match sym_init n H false false with
    | None => SValue | Some h => match sym_check h with None => SValue | Some true => SOk h | Some false => SAssert end end).
  { unfold sym_subgroup, H, kept. destruct (sops g) as [|s r]; [discriminate|]. injection Hh as ->.
    rewrite filter_hd by apply Hve. split; [reflexivity|]. rewrite Hi. reflexivity. }
  destruct EH as [Hh' EH].
  assert (HHin : forall s, In s H -> In s (sops g)) by (intros s Hs; apply filter_In in Hs; apply Hs).
  assert (HndH : NoDup H) by (apply NoDup_filter, Hnd).
  assert (HlH : length H < 200).
  { eapply Nat.le_lt_trans; [|exact Hl]. unfold H, kept. clear. induction (sops g); simpl; [lia|]. destruct (veq _ _); simpl; lia. }
  assert (HWH : forall s, In s H -> wfz n s) by auto. assert (HUH : forall s, In s H -> unimod n s) by auto.
  destruct (sym_init_some n H false false Hh' HUH) as (h & Eh & Ed & Ep). rewrite Eh in EH.
  assert (Hbh : built h).
  { exists H, false. rewrite Ed. split; [exact HWH|]. rewrite Ep. exact Eh. }
  assert (Hndh : NoDup (sops h)) by (apply (built_nodup n H false false h Eh HndH eq_refl)).
  assert (Hall : forall x, In x (sym_all h) <-> In x H).
  { intros x. rewrite (sym_init_ops n H false false h HWH Eh x). split; [intros [A|[A _]]; [exact A|discriminate]|auto]. }
  assert (Hc := closed_stored n H h HWH HUH Eh).
  assert (Hlh : length (sops h) < 200).
  { eapply Nat.le_lt_trans; [|exact HlH]. apply NoDup_incl_length; [exact Hndh|]. intros x Hx. apply Hall. apply in_or_app; left; exact Hx. }
  assert (Hck := check_true_iff h Hbh Hndh). rewrite Ed in Hck.
  split; [|split].
  - split.
    + intros Hc'. exists h. rewrite EH. rewrite (proj2 Hck); [reflexivity|]. split; [apply Hc, Hc'|exact Hlh].
    + intros [h' Hs]. rewrite EH in Hs. destruct (sym_check h) as [[|]|]; try discriminate. apply Hc, Hck, eq_refl.
  - intros h' Hs. rewrite EH in Hs. destruct (sym_check h) as [[|]|] eqn:Eck; try discriminate. injection Hs as <-.
    split; [exact Ed|]. split; [|exact Hall].
    assert (HcH : closed (zmul n) H) by (apply Hc, Hck, eq_refl).
    assert (Hi1 : In (zeye n) H) by (destruct H; [discriminate|injection Hh' as ->; left; reflexivity]).
    assert (HG : is_group (zmul n) (zeye n) H).
    { split; [exact Hi1|]. split; [exact HndH|]. split; [exact HcH|].
      apply (closed_inverses (zmul n) (zeye n) (wfz n) (zmul_assoc n) (zmul_1_l n) (zmul_1_r n)); auto.
      intros a b c Ha' Hb' Hc' E. exact (unimod_cancel n a b c (HWH a Ha') (HWH b Hb') (HWH c Hc') (HUH a Ha') E). }
    apply (sym_init_nodup n H false false h HWH HndH (group_neg_alt n H HG HWH)); auto.
  - intros h' Hs Hn. rewrite EH in Hs. destruct (sym_check h) as [[|]|]; try discriminate. injection Hs as <-.
    assert (E : sym_init n H false false = Some (MkSym n H false false)).
    { apply init_stable; auto. unfold stable. destruct (cloud_close H (map (zneg n) H)) eqn:Ec.
      - apply (neg_closed_spec n H HWH) in Ec. left. split; [exact Ec|]. destruct Hn as [Hn|Hn]; [contradiction|exact Hn].
      - right. split; [|auto]. intros Hc'. apply (neg_closed_spec n H HWH) in Hc'. congruence. }
    congruence.
Qed.

Theorem C87_subgroup_partial : forall V (veq : V -> V -> bool) (f : zmat -> V) g,
  (forall a b, veq a b = true <-> a = b) -> built g -> sinv g = false -> NoDup (sops g) -> length (sops g) < 200 ->
  let n := sdim g in
  let H x := In x (sym_all g) /\ f x = f (zeye n) in
  ((forall a b, H a -> H b -> H (zmul n a b)) <-> exists h, sym_subgroup veq f g = SOk h) /\
  (forall h, sym_subgroup veq f g = SOk h -> forall x, In x (sym_all h) <-> H x).
Proof.
  intros V veq f g Hve Hb Hi Hnd Hl n H.
  destruct (subgroup_noinv veq f g (fun a => proj2 (Hve a a) eq_refl) Hb Hi Hnd Hl) as (A & B & _). fold n in A, B.
  assert (HK : forall x, In x (kept veq f n (sops g)) <-> H x).
  { intros x. unfold kept, H, sym_all. rewrite filter_In, Hve, Hi, app_nil_r. reflexivity. }
  split.
  - rewrite <- A. unfold closed. split; intros Hc a b Ha Hb'; apply HK; apply Hc; apply HK; assumption.
  - intros h Hh x. rewrite <- HK. apply B, Hh.
Qed.
Print Assumptions C87_subgroup_partial.

(** with the inversion flag only the values of the stored operations and of -1 are compared: a result
    has the stored operations of value f 1 and, exactly if f (-1) = f 1, their negatives *)
Theorem C87_subgroup_inversion_partial : forall V (veq : V -> V -> bool) (f : zmat -> V) g,
  (forall a b, veq a b = true <-> a = b) -> built g -> sinv g = true ->
  let n := sdim g in
  let H x := In x (sops g) /\ f x = f (zeye n) in
  forall h, sym_subgroup veq f g = SOk h ->
    forall x, In x (sym_all h) <-> H x \/ f (zneg n (zeye n)) = f (zeye n) /\ exists s, H s /\ x = zneg n s.
Proof.
  intros V veq f g Hve Hb Hi n H h Hs x. destruct (built_facts g Hb) as (HW & H1 & HU & _).
  unfold sym_subgroup in Hs. fold n in HW, H1, HU, Hs. destruct (sops g) as [|s_0 r] eqn:Eg; [discriminate|]. injection H1 as ->.
  rewrite Hi in Hs. set (S := zeye n :: filter (fun s => veq (f s) (f (zeye n))) r) in *.
  destruct (sym_init n S (veq (f (zneg n (zeye n))) (f (zeye n))) false) as [h'|] eqn:Eh; [|discriminate].
  destruct (sym_check h') as [[|]|]; try discriminate. injection Hs as ->.
  assert (HS : forall y, In y S <-> H y).
  { intros y. unfold S, H. cbn [In]. rewrite filter_In, Hve. split; [intros [<-|[? ?]]; auto|intros [[<-|?] ?]; auto]. }
  assert (HWS : forall y, In y S -> wfz n y) by (intros y Hy; apply HS in Hy; apply HW, Hy).
  rewrite (sym_init_ops n S _ false h HWS Eh x), HS, Hve. split; (intros [A|[A [s [B C]]]]; [auto|right; split; [exact A|]; exists s]); split; auto; apply HS, B.
Qed.
Print Assumptions C87_subgroup_inversion_partial.
Example C87_example_inversion : exists g h k, sym_init 3 [zeye 3; d2z] true false = Some g /\ built g /\ sinv g = true /\
  sym_subgroup Z.eqb (fun s => ent (K:=Zs) s 0 0) g = SOk h /\ sym_len h = 1 /\
  sym_subgroup Z.eqb (fun s => (ent (K:=Zs) s 0 0 * ent (K:=Zs) s 0 0)%Z) g = SOk k /\ sym_len k = 4.
Proof.
  do 3 eexists. split; [vm_compute; reflexivity|]. split.
  - match goal with |- built ?g => exists (sops g), true end. split; [apply wfz_b_spec; vm_compute; reflexivity|vm_compute; reflexivity].
  - repeat (split; [vm_compute; reflexivity|]). vm_compute; reflexivity.
Qed.

(** with the inversion flag the value of -s is never compared: C2h = {1, C2z} + inversion with the class
    function s[0, 0] returns {1, C2z} and loses -1 * C2z = diag(1, 1, -1) ... *)
Theorem C87_subgroup_refuted :
  (exists g h, sym_init 3 [zeye 3; d2z] true false = Some g /\
    sym_subgroup Z.eqb (fun s => ent (K:=Zs) s 0 0) g = SOk h /\
    (forall a b, In a (sym_all g) -> In b (sym_all g) ->
       ent (K:=Zs) (zmul 3 (zmul 3 a b) a) 0 0 = ent (K:=Zs) b 0 0) /\
    In mz (sym_all g) /\ ent (K:=Zs) mz 0 0 = ent (K:=Zs) (zeye 3) 0 0 /\ ~ In mz (sym_all h)) /\
  (** ... and a class function whose kept operations are no subgroup raises AssertionError: the trace of
      the square in the rotation group of the cube *)
  (exists g, sym_cubic false = Some g /\
    (forall a b c, In a (sym_all g) -> In b (sym_all g) -> In c (sym_all g) -> zmul 3 a c = zeye 3 ->
       let f s := (ent (K:=Zs) (zmul 3 s s) 0 0 + ent (K:=Zs) (zmul 3 s s) 1 1 + ent (K:=Zs) (zmul 3 s s) 2 2)%Z in
       f (zmul 3 (zmul 3 a b) c) = f b) /\
    sym_subgroup Z.eqb (fun s => (ent (K:=Zs) (zmul 3 s s) 0 0 + ent (K:=Zs) (zmul 3 s s) 1 1 + ent (K:=Zs) (zmul 3 s s) 2 2)%Z) g = SAssert).
Proof.
  split.
  - do 2 eexists. split; [vm_compute; reflexivity|]. split; [vm_compute; reflexivity|]. split; [|split; [|split; [reflexivity|]]].
    + intros a b Ha Hb. vm_compute in Ha, Hb.
      repeat (destruct Ha as [<-|Ha]; [repeat (destruct Hb as [<-|Hb]; [vm_compute; reflexivity|]); destruct Hb|]). destruct Ha.
    + vm_compute. tauto.
    + vm_compute. intros H. repeat (destruct H as [H|H]; [discriminate|]). destruct H.
  - eexists. split; [vm_compute; reflexivity|]. split; [|vm_compute; reflexivity].
    intros a b c Ha Hb Hc E. cbv zeta.
    match type of Ha with In _ (sym_all ?g) => set (G := g) in * end.
    assert (Hx : forallb (fun a => forallb (fun b => forallb (fun c => negb (zmeqb (zmul 3 a c) (zeye 3)) ||
      let f s := (ent (K:=Zs) (zmul 3 s s) 0 0 + ent (K:=Zs) (zmul 3 s s) 1 1 + ent (K:=Zs) (zmul 3 s s) 2 2)%Z in
      Z.eqb (f (zmul 3 (zmul 3 a b) c)) (f b)) (sym_all G)) (sym_all G)) (sym_all G) = true) by (vm_compute; reflexivity).
    rewrite forallb_forall in Hx. specialize (Hx a Ha). rewrite forallb_forall in Hx. specialize (Hx b Hb).
    rewrite forallb_forall in Hx. specialize (Hx c Hc). apply zmeqb_spec in E. rewrite E in Hx. apply Z.eqb_eq in Hx. exact Hx.
Qed.
Print Assumptions C87_subgroup_refuted.

(** the kernel of the determinant in C4v *)
Example C87_example : exists g h, sym_square = Some g /\ built g /\ sinv g = false /\ sym_subgroup Z.eqb (zdet 2) g = SOk h /\
  sym_len g = 8 /\ sym_len h = 4.
Proof.
  do 2 eexists. split; [vm_compute; reflexivity|]. split.
  - match goal with |- built ?g => exists (sops g), false end. split; [apply wfz_b_spec; vm_compute; reflexivity|vm_compute; reflexivity].
  - split; [reflexivity|]. split; [vm_compute; reflexivity|]. split; vm_compute; reflexivity.
Qed.

(* ------------------------------------------------------------------ *)
(** ** C86: operations without translation *)
Lemma nsum_sq_zero d (f : nat -> Z) : nsum (K:=Zs) d (fun i => (f i * f i)%Z) = 0%Z <-> forall i, i < d -> f i = 0%Z.
Proof.
  assert (P : forall d, (0 <= nsum (K:=Zs) d (fun i => (f i * f i)%Z))%Z).
  { intros k. induction k as [|k IH]; [apply Z.le_refl|]. rewrite nsum_S. cbn [sadd Zs]. nia. }
  induction d as [|d IH].
  - split; [intros _ i Hi; lia|reflexivity].
  - rewrite nsum_S. cbn [sadd Zs]. specialize (P d). split.
    + intros E i Hi. assert (E1 : nsum (K:=Zs) d (fun i => (f i * f i)%Z) = 0%Z) by nia.
      assert (E2 : f d = 0%Z) by nia. destruct (Nat.eq_dec i d) as [->|Hne]; [exact E2|]. apply IH; [exact E1|lia].
    + intros H. rewrite (proj2 IH) by (intros; apply H; lia). rewrite (H d) by lia. reflexivity.
Qed.

Lemma trans_norm_embed d a : wfa d a -> (trans_norm d (embed d a) = 0%Z <-> snd a = vzero (K:=Zs) d).
Proof.
  intros [Ha Ht]. unfold trans_norm.
  rewrite (nsum_ext Zs d _ (fun i => (vent (K:=Zs) (snd a) i * vent (K:=Zs) (snd a) i)%Z)).
  2:{ intros i Hi. rewrite embed_ent by lia. apply Nat.ltb_lt in Hi. rewrite Hi, Nat.ltb_irrefl. reflexivity. }
  rewrite (nsum_zero Zs d (fun j => (ent (K:=Zs) (embed d a) d j * ent (K:=Zs) (embed d a) d j)%Z)).
  2:{ intros j Hj. rewrite embed_ent by lia. rewrite Nat.ltb_irrefl. destruct (Nat.eqb_spec j d); [lia|reflexivity]. }
  cbn [s0 Zs]. rewrite Z.add_0_r, nsum_sq_zero. split.
  - intros H. apply (vec_ext Zs d); [exact Ht|apply wfv_vmk|]. intros i Hi. unfold vzero. rewrite vent_vmk by assumption.
    apply H, Hi.
  - intros -> i Hi. unfold vzero. rewrite vent_vmk by assumption. reflexivity.
Qed.

Definition no_shift (a : affine) : bool := forallb (Z.eqb 0) (snd a).
Lemma no_shift_spec d a : wfa d a -> (no_shift a = true <-> snd a = vzero (K:=Zs) d).
Proof.
  intros [_ Ht]. unfold no_shift. rewrite forallb_forall. split.
  - intros H. apply (vec_ext Zs d); [exact Ht|apply wfv_vmk|]. intros i Hi. unfold vzero. rewrite vent_vmk by assumption.
    assert (Hn := H (vent (K:=Zs) (snd a) i)). unfold vent in Hn at 1. specialize (Hn (nth_In _ _ (eq_ind_r (fun k => i < k) Hi Ht))).
    apply Z.eqb_eq in Hn. symmetry. exact Hn.
  - intros -> x Hx. unfold vzero, vmk in Hx. apply in_map_iff in Hx. destruct Hx as [? [<- _]]. reflexivity.
Qed.

Lemma filter_map_comm {A B} (f : A -> B) (p : B -> bool) (q : A -> bool) l : (forall a, In a l -> p (f a) = q a) ->
  filter p (map f l) = map f (filter q l).
Proof.
  induction l as [|a l IH]; intros H; [reflexivity|]. cbn. rewrite (H a (or_introl eq_refl)).
  rewrite IH by (intros; apply H; right; assumption). destruct (q a); reflexivity.
Qed.

Theorem C86_strict_point_group_partial : forall d D ops, space_ops d ops -> space_closed d D ops -> NoDup ops ->
  length ops < 200 -> (0 < D)%Z -> (forall a i, In a ops -> i < d -> (0 <= vent (K:=Zs) (snd a) i < D)%Z) ->
  exists h, strict_point_group (S d) (map (embed d) ops) d = SOk h /\ sdim h = d /\ sinv h = false /\
    (forall r, In r (sops h) <-> In (r, vzero (K:=Zs) d) ops) /\
    is_group (zmul d) (zeye d) (sops h).
Proof.
  intros d D ops Hs Hc Hnd Hl HD Hred. unfold strict_point_group. rewrite (space_group_embed d ops Hs). destruct Hs as [Hh Ha].
  unfold remove_translation. cbn [sproj sdim sops sinv]. replace (S d - 1) with d by lia.
  set (g := MkSym (S d) (map (embed d) ops) false true).
  assert (Hb : built g).
  { exists (map (embed d) ops), false. cbn [sdim sproj g]. split; [|apply init_space; assumption].
    intros s Hs. apply in_map_iff in Hs. destruct Hs as [a [<- _]]. apply embed_wf. }
  assert (Hndg : NoDup (sops g)).
  { apply NoDup_map_inj; [|exact Hnd]. intros a b Hx Hy. apply embed_inj; apply Ha; assumption. }
  destruct (subgroup_noinv Z.eqb (trans_norm d) g Z.eqb_refl Hb eq_refl Hndg) as (A & _ & C).
  { cbn [sops g]. rewrite map_length. exact Hl. }
  assert (E1 : trans_norm d (zeye (S d)) = 0%Z).
  { rewrite <- embed_one. apply trans_norm_embed; [split; [apply wfz_eye|apply wfv_vmk]|reflexivity]. }
  assert (EH : kept Z.eqb (trans_norm d) (sdim g) (sops g) = map (embed d) (filter no_shift ops)).
  { unfold kept. cbn [sdim sops g]. apply filter_map_comm. intros a Hin. rewrite E1.
    assert (W := proj1 (Ha a Hin)). apply eq_true_iff_eq. rewrite Z.eqb_eq, (trans_norm_embed d a W), (no_shift_spec d a W). reflexivity. }
  set (F := filter no_shift ops) in *.
  assert (HF : forall r t, In (r, t) F <-> In (r, t) ops /\ t = vzero (K:=Zs) d).
  { intros r t. unfold F. rewrite filter_In. split; intros [H1 H2]; (split; [exact H1|]).
    - apply (no_shift_spec d (r, t)) in H2; [exact H2|apply Ha, H1].
    - apply (no_shift_spec d (r, t)); [apply Ha, H1|exact H2]. }
  assert (Hcl : forall r s, In (r, vzero (K:=Zs) d) ops -> In (s, vzero (K:=Zs) d) ops -> In (zmul d r s, vzero (K:=Zs) d) ops).
  { intros r s Hr Hs. destruct (Hc _ _ Hr Hs) as ([rc tc] & Hin & Ec & Et). cbn [fst snd] in Ec, Et. subst rc.
    replace (vzero (K:=Zs) d) with tc; [exact Hin|].
    apply (vec_ext Zs d); [exact (proj2 (proj1 (Ha _ Hin)))|apply wfv_vmk|]. intros i Hi. destruct (Et i Hi) as [l El].
    unfold acomp in El; cbn [fst snd] in El. rewrite vent_vmk in El by assumption.
    assert (Ez : vent (K:=Zs) (zmv d r (vzero (K:=Zs) d)) i = 0%Z).
    { unfold zmv. rewrite vent_lmv by assumption. apply (nsum_zero Zs). intros k Hk. unfold vzero. rewrite vent_vmk by assumption. cbn. ring. }
    rewrite Ez in El. unfold vzero in *. rewrite vent_vmk in * by assumption. cbn [s0 Zs] in *.
    specialize (Hred _ i Hin Hi). cbn [snd] in Hred. destruct (Z.lt_trichotomy l 0) as [?|[->|?]]; nia. }
  assert (Hclosed : closed (zmul (sdim g)) (kept Z.eqb (trans_norm d) (sdim g) (sops g))).
  { rewrite EH. cbn [sdim g]. intros x y Hx Hy. apply in_map_iff in Hx, Hy.
    destruct Hx as [[r t] [<- Hx]], Hy as [[s u] [<- Hy]]. apply HF in Hx, Hy. destruct Hx as [Hx ->], Hy as [Hy ->].
    rewrite embed_comp. apply in_map_iff. exists (zmul d r s, vzero (K:=Zs) d). split.
    - f_equal. unfold acomp; cbn [fst snd]. f_equal. apply (vec_ext Zs d); [apply wfv_vmk|apply wfv_vmk|]. intros i Hi.
      rewrite vent_vmk by assumption. unfold zmv. rewrite vent_lmv by assumption.
      rewrite (nsum_zero Zs).
      + unfold vzero. rewrite vent_vmk by assumption. reflexivity.
      + intros k Hk. unfold vzero. rewrite vent_vmk by assumption. cbn. ring.
    - apply HF. split; [apply Hcl; assumption|reflexivity]. }
  destruct (proj1 A Hclosed) as [h Eh]. rewrite Eh. specialize (C h Eh). rewrite EH in C. cbn [sdim g] in C.
  rewrite C.
  2:{ left. intros Hn. destruct F as [|[r t] F'] eqn:EF.
      - apply (HF (zeye d) (vzero (K:=Zs) d)). split; [|reflexivity]. destruct ops; [discriminate|]. injection Hh as ->. left; reflexivity.
      - specialize (Hn (embed d (r, t)) (or_introl eq_refl)). apply in_map_iff in Hn. destruct Hn as [b [Eb _]].
        exact (embed_not_neg d b (r, t) Eb). }
  eexists; split; [reflexivity|]. cbn [sdim sinv sops]. split; [reflexivity|]. split; [reflexivity|].
  rewrite cut_map by (intros a Hin; apply filter_In in Hin; apply Ha, Hin).
  assert (Hin : forall r, In r (map fst F) <-> In (r, vzero (K:=Zs) d) ops).
  { intros r. rewrite in_map_iff. split.
    - intros [[r' t] [E Hx]]. cbn in E. subst. apply HF in Hx. destruct Hx as [Hx ->]. exact Hx.
    - intros Hx. exists (r, vzero (K:=Zs) d). split; [reflexivity|]. apply HF. auto. }
  split; [exact Hin|].
  assert (HndF : NoDup (map fst F)).
  { apply NoDup_map_inj; [|apply NoDup_filter, Hnd]. intros [r t] [s u] Hx Hy E. cbn in E. subst.
    apply HF in Hx, Hy. destruct Hx as [_ ->], Hy as [_ ->]. reflexivity. }
  assert (H1 : In (zeye d) (map fst F)) by (apply Hin; destruct ops; [discriminate|injection Hh as ->; left; reflexivity]).
  assert (HWF : forall s, In s (map fst F) -> wfz d s /\ unimod d s).
  { intros s Hx. apply Hin in Hx. destruct (Ha _ Hx) as [[B1 _] B2]. auto. }
  assert (HclF : closed (zmul d) (map fst F)) by (intros a b Hx Hy; apply Hin; apply Hcl; apply Hin; assumption).
  split; [exact H1|]. split; [exact HndF|]. split; [exact HclF|].
  apply (closed_inverses (zmul d) (zeye d) (wfz d) (zmul_assoc d) (zmul_1_l d) (zmul_1_r d)); auto.
  - intros a Hx. apply HWF, Hx.
  - intros a b c Ha' Hb' Hc' E.
    exact (unimod_cancel d a b c (proj1 (HWF a Ha')) (proj1 (HWF b Hb')) (proj1 (HWF c Hc')) (proj2 (HWF a Ha')) E).
Qed.
Print Assumptions C86_strict_point_group_partial.

(** P-1 has no translations, so both point groups are {1, -1}; the strict one is not normalised and
    compares unequal. An input without translations raises AssertionError although "self" is documented. *)
Theorem C86_strict_point_group_refuted :
  (exists g h, point_group 4 (map (embed 3) [aone 3; (zneg 3 (zeye 3), vzero (K:=Zs) 3)]) 3 = SOk g /\
    strict_point_group 4 (map (embed 3) [aone 3; (zneg 3 (zeye 3), vzero (K:=Zs) 3)]) 3 = SOk h /\
    (forall x, In x (sym_all g) <-> In x (sym_all h)) /\ sym_eq g h = false) /\
  strict_point_group 3 [zeye 3] 3 = SAssert.
Proof.
  split; [|reflexivity]. do 2 eexists. split; [vm_compute; reflexivity|]. split; [vm_compute; reflexivity|].
  split; [|vm_compute; reflexivity]. intros x. unfold sym_all; cbn [sops sinv sdim app map]. vm_compute. tauto.
Qed.
Print Assumptions C86_strict_point_group_refuted.

(** P222_1: the rotation about z has a translation, the one about x has none *)
Local Open Scope Z_scope.
Definition p2221 : list affine := [aone 3; (d2z, [0;0;1]); (d2x, [0;0;0]); (d2y, [0;0;1])].
Local Close Scope Z_scope.
Definition space_closed_b (d : nat) (D : Z) (ops : list affine) : bool :=
  forallb (fun a => forallb (fun b => existsb (fun c => zmeqb (fst c) (zmul d (fst a) (fst b)) &&
    forallb (fun i => Z.eqb ((vent (K:=Zs) (snd (acomp d a b)) i - vent (K:=Zs) (snd c) i) mod D) 0) (seq 0 d)) ops) ops) ops.
Lemma space_closed_b_spec d D ops : (0 < D)%Z -> space_closed_b d D ops = true -> space_closed d D ops.
Proof.
  intros HD H a b Ha Hb. unfold space_closed_b in H. rewrite forallb_forall in H. specialize (H a Ha).
  rewrite forallb_forall in H. specialize (H b Hb). apply existsb_exists in H. destruct H as (c & Hc & H).
  apply andb_true_iff in H. destruct H as [H1 H2]. apply zmeqb_spec in H1. exists c. split; [exact Hc|]. split; [exact H1|].
  intros i Hi. rewrite forallb_forall in H2. specialize (H2 i (proj2 (in_seq d 0 i) (conj (Nat.le_0_l i) Hi))). apply Z.eqb_eq in H2.
  apply Z.mod_divide in H2; [|lia]. destruct H2 as [l El]. exists l. rewrite (Z.mul_comm D l), <- El. symmetry. apply Zplus_minus.
Qed.
Definition space_ops_b (d : nat) (ops : list affine) : bool :=
  match ops with a :: _ => zmeqb (fst a) (zeye d) && zveqb (snd a) (vzero (K:=Zs) d) | [] => false end &&
  forallb (wfz_b d) (map fst ops) && forallb (fun a => Nat.eqb (length (snd a)) d && det_ok d (fst a)) ops.
Lemma space_ops_b_spec d ops : space_ops_b d ops = true -> space_ops d ops.
Proof.
  unfold space_ops_b. rewrite !andb_true_iff. intros [[H1 H2] H3]. split.
  - destruct ops as [|[r t] ops]; [discriminate|]. cbn [fst snd] in H1. apply andb_true_iff in H1. destruct H1 as [A B].
    apply zmeqb_spec in A. apply zveqb_spec in B. unfold aone. cbn [hd_error fst snd] in *. rewrite A, B. reflexivity.
  - intros a Hin. rewrite forallb_forall in H3. specialize (H3 a Hin). apply andb_true_iff in H3. destruct H3 as [A B].
    apply Nat.eqb_eq in A. apply det_ok_spec in B. split; [split; [|exact A]|exact B].
    apply (wfz_b_spec d (map fst ops) H2). apply in_map, Hin.
Qed.

Example C86_example : space_ops 3 p2221 /\ space_closed 3 2 p2221 /\
  exists h, strict_point_group 4 (map (embed 3) p2221) 3 = SOk h /\ sops h = [zeye 3; d2x].
Proof.
  split; [apply space_ops_b_spec; reflexivity|]. split; [apply space_closed_b_spec; [reflexivity|vm_compute; reflexivity]|].
  eexists; split; vm_compute; reflexivity.
Qed.

(* ------------------------------------------------------------------ *)
(** ** C88: the inversion flag for operations with translations *)
(** No affine operation is added, in any dimension: in particular x |-> -x is missing when it was not listed. *)
Theorem C88_projective_inversion_refuted : forall d ops, space_ops d ops ->
  exists h, sym_init (S d) (map (embed d) ops) true true = Some h /\ sym_len h = 2 * length ops /\
    (forall a, wfa d a -> In (embed d a) (sym_all h) -> In a ops) /\
    (~ In (zneg d (zeye d), vzero (K:=Zs) d) ops ->
     ~ In (embed d (zneg d (zeye d), vzero (K:=Zs) d)) (sym_all h)).
Proof.
  intros d ops [Hh Ha].
  assert (HW : forall s, In s (map (embed d) ops) -> wfz (S d) s).
  { intros s Hs. apply in_map_iff in Hs. destruct Hs as [a [<- _]]. apply embed_wf. }
  assert (H1 : hd_error (map (embed d) ops) = Some (zeye (S d))).
  { destruct ops as [|a0 ops]; [discriminate|]. injection Hh as ->. cbn [map hd_error]. rewrite embed_one. reflexivity. }
  destruct (sym_init_some (S d) (map (embed d) ops) true true H1) as (h & Eh & Ed & _).
  { intros s Hs. apply in_map_iff in Hs. destruct Hs as [a [<- Hin]]. apply embed_unimod; apply Ha, Hin. }
  exists h. split; [exact Eh|].
  assert (Hall : forall a, wfa d a -> In (embed d a) (sym_all h) -> In a ops).
  { intros a Hw Hin. apply (sym_init_ops (S d) _ true true h HW Eh) in Hin. destruct Hin as [Hin|[_ [s [Hs E]]]].
    - apply in_map_iff in Hin. destruct Hin as [b [E Hb]]. apply embed_inj in E; [congruence|apply Ha, Hb|exact Hw].
    - apply in_map_iff in Hs. destruct Hs as [b [<- Hb]]. destruct (embed_not_neg d a b E). }
  split; [|split; [exact Hall|]].
  - apply sym_init_inv in Eh. destruct Eh as (_ & _ & _ & _ & Hc).
    assert (Hn : cloud_close (map (embed d) ops) (map (zneg (S d)) (map (embed d) ops)) = false).
    { destruct (cloud_close _ _) eqn:E; [|reflexivity]. apply (neg_closed_spec (S d) _ HW) in E.
      destruct ops as [|a ops]; [discriminate|]. specialize (E (embed d a) (or_introl eq_refl)). apply in_map_iff in E.
      destruct E as [b [E _]]. destruct (embed_not_neg d b a E). }
    unfold sym_len. destruct Hc as [(F & _)|[(F & _)|[(_ & _ & _ & -> & ->)|(_ & _ & -> & ->)]]]; try congruence.
    + rewrite app_length, !map_length. lia.
    + rewrite map_length. lia.
  - intros Hni Hin. apply Hni, Hall; [|exact Hin]. split; [apply wfz_neg|apply wfv_vmk].
Qed.
Print Assumptions C88_projective_inversion_refuted.

Example C88_example : space_ops 3 p21 /\ ~ In (zneg 3 (zeye 3), vzero (K:=Zs) 3) p21 /\
  exists h, sym_init 4 (map (embed 3) p21) true true = Some h /\ sym_len h = 4.
Proof.
  split; [apply p21_ops|]. split.
  - intros H. repeat (destruct H as [H|H]; [discriminate|]). destruct H.
  - eexists; split; vm_compute; reflexivity.
Qed.

(* ------------------------------------------------------------------ *)
(** ** C89: copy() returns the same object *)
Theorem C89_copy : forall g, built g -> sym_copy g = Some g.
Proof.
  intros g Hb. destruct (built_facts g Hb) as (HW & Hh & HU & Hs). unfold sym_copy.
  rewrite init_stable by assumption. destruct g; reflexivity.
Qed.
Print Assumptions C89_copy.

(** an object with the inversion flag and one in an even dimension, where -1 was written out *)
Example C89_example : exists g h, sym_cubic true = Some g /\ built g /\ sinv g = true /\
  sym_init 2 [zeye 2; [[0;1];[1;0]]%Z] true false = Some h /\ built h /\ length (sops h) = 4.
Proof.
  do 2 eexists. split; [vm_compute; reflexivity|]. split.
  { match goal with |- built ?g => exists (sops g), true end. split; [apply wfz_b_spec; vm_compute; reflexivity|vm_compute; reflexivity]. }
  split; [reflexivity|]. split; [vm_compute; reflexivity|]. split; [|reflexivity].
  exists [zeye 2; [[0;1];[1;0]]%Z], true. split; [apply wfz_b_spec; vm_compute; reflexivity|vm_compute; reflexivity].
Qed.

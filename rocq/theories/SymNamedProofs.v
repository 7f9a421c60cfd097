(** Named groups (symmetry.py l.291-500) and groups represented by Symmetry objects. *)
From Coq Require Import List Arith ZArith Lia Bool Permutation.
Import ListNotations.
From Verif Require Import SRing LMat SymModel FinGroup SymGenProofs DetMC SymInitProofs SymEqProofs.

(** *** decision procedure for is_group, run on the concrete groups *)
Fixpoint nodup_b (l : list zmat) : bool :=
  match l with [] => true | a :: l' => negb (memb zmeqb a l') && nodup_b l' end.
Definition is_group_b (n : nat) (l : list zmat) : bool :=
  memb zmeqb (zeye n) l && nodup_b l &&
  forallb (fun a => forallb (fun b => memb zmeqb (zmul n a b) l) l) l &&
  forallb (fun a => existsb (fun b => zmeqb (zmul n a b) (zeye n) && zmeqb (zmul n b a) (zeye n)) l) l.

Lemma nodup_b_spec l : nodup_b l = true -> NoDup l.
Proof.
  induction l as [|a l IH]; simpl; intros H; [constructor|].
  apply andb_true_iff in H. destruct H as [H1 H2]. constructor; [|auto].
  apply negb_true_iff in H1. apply (memb_notIn zmeqb zmeqb_spec). exact H1.
Qed.

Lemma is_group_b_spec n l : is_group_b n l = true -> is_group (zmul n) (zeye n) l.
Proof.
  unfold is_group_b. rewrite !andb_true_iff. intros [[[H1 H2] H3] H4].
  rewrite forallb_forall in H3, H4. repeat split.
  - apply zmemb_In; exact H1.
  - apply nodup_b_spec; exact H2.
  - intros a b Ha Hb. specialize (H3 a Ha). rewrite forallb_forall in H3. apply zmemb_In, H3, Hb.
  - intros a Ha. specialize (H4 a Ha). apply existsb_exists in H4. destruct H4 as [b [Hb E]].
    apply andb_true_iff in E. destruct E as [E1 E2]. exists b. repeat split; [exact Hb| |]; apply zmeqb_spec; assumption.
Qed.

(** *** objects built from a group represent a group *)
Lemma sym_init_group n R inv proj g : is_group (zmul n) (zeye n) R -> (forall s, In s R -> wfz n s) ->
  (Nat.odd n = true \/ inv = false \/ ~ In (zneg n (zeye n)) R) ->
  sym_init n R inv proj = Some g -> is_group (zmul n) (zeye n) (sym_all g).
Proof.
  intros HG HW Hside H. pose proof HG as (Ho & Hnd & Hc & Hi).
  pose proof (sym_init_ops n R inv proj g HW H) as Hops.
  assert (Hn1 : forall a b, zmul n (zneg n a) b = zneg n (zmul n a b)) by (intros; apply zneg_mul_l).
  assert (Hn2 : forall a b, zmul n a (zneg n b) = zneg n (zmul n a b)) by (intros; apply zneg_mul_r).
  repeat split.
  - apply Hops. left; exact Ho.
  - apply (sym_init_nodup n R inv proj g HW Hnd); auto.
    + apply group_neg_alt; assumption.
    + destruct Hside as [?|[?|Hn]]; auto. right; right. intros Hneg. apply Hn, Hneg, Ho.
  - intros a b Ha Hb. apply Hops in Ha, Hb. apply Hops.
    destruct Ha as [Ha|[Ei [s [Hs ->]]]], Hb as [Hb|[Ej [t [Ht ->]]]].
    + left; apply Hc; assumption.
    + right. split; [exact Ej|]. exists (zmul n a t). rewrite Hn2. auto.
    + right. split; [exact Ei|]. exists (zmul n s b). rewrite Hn1. auto.
    + left. rewrite Hn1, Hn2, zneg_invol by apply wfz_mul. apply Hc; assumption.
  - intros a Ha. apply Hops in Ha. destruct Ha as [Ha|[Ei [s [Hs ->]]]].
    + destruct (Hi a Ha) as (b & Hb & E1 & E2). exists b. repeat split; auto. apply Hops; auto.
    + destruct (Hi s Hs) as (b & Hb & E1 & E2). exists (zneg n b). repeat split.
      * apply Hops. right. split; [exact Ei|]. exists b; auto.
      * rewrite Hn1, Hn2, E1, zneg_invol by apply wfz_eye. reflexivity.
      * rewrite Hn1, Hn2, E2, zneg_invol by apply wfz_eye. reflexivity.
Qed.

Lemma sym_from_generator_group n G inv g : (forall s, In s G -> wfz n s) ->
  (Nat.odd n = true \/ inv = false \/ ~ generated (zmul n) (zeye n) G (zneg n (zeye n))) ->
  sym_from_generator n G inv = Some g ->
  sdim g = n /\ is_group (zmul n) (zeye n) (sym_all g) /\ (forall s, In s (sym_all g) -> wfz n s).
Proof.
  intros HW Hside H. pose proof (sym_from_generator_ops n G inv g HW H) as (Hd & _ & Hall & _).
  unfold sym_from_generator in H.
  destruct (from_generator zmeqb (zmul n) (zeye n) (det_ok n) G) as [R| | |] eqn:E; try discriminate.
  pose proof (from_generator_ok_z n G R HW E) as (_ & _ & _ & _ & _ & H6).
  pose proof (from_generator_group n G R HW E) as HG.
  assert (HRw : forall a, In a R -> wfz n a) by (intros a Ha; apply (generated_wf n G), H6, Ha).
  split; [exact Hd|]. split.
  - apply (sym_init_group n R inv false g HG HRw); auto.
    destruct Hside as [?|[?|Hn]]; auto. right; right. intros Hx. apply Hn, H6, Hx.
  - intros s Hs. apply Hall in Hs. eapply generated_wf; exact Hs.
Qed.

(** *** mirrors in every dimension *)
Lemma zflip_sq n m : zmul n (zflip n m) (zflip n m) = zeye n.
Proof.
  apply (mat_ext Zs n n); [apply lmul_wf|apply leye_wf|]. intros i j Hi Hj.
  unfold zmul. rewrite lmul_ent by assumption.
  rewrite (nsum_single Zs n i); [|exact Hi|].
  - unfold zflip, zeye. rewrite !ent_mk, leye_ent by assumption. rewrite Nat.eqb_refl.
    destruct (Nat.eqb_spec i j); destruct (Nat.ltb i m); cbn [smul s1 s0 Zs car]; lia.
  - intros k Hk Hne. unfold zflip. rewrite !ent_mk by assumption.
    destruct (Nat.eqb_spec i k); [congruence|]. cbn [smul s0 Zs car]. lia.
Qed.

Lemma zflip_neq n m : (0 < m)%nat -> (0 < n)%nat -> zflip n m <> zeye n.
Proof.
  intros Hm Hn E. assert (H : ent (K:=Zs) (zflip n m) 0 0 = ent (K:=Zs) (zeye n) 0 0) by (rewrite E; reflexivity).
  unfold zflip, zeye in H. rewrite ent_mk, leye_ent in H by assumption. simpl in H.
  destruct (Nat.ltb_spec 0 m); [discriminate|lia].
Qed.

Lemma zflip_not_inv n m : (m < n)%nat -> zflip n m <> zneg n (zeye n).
Proof.
  intros Hm E. assert (H : ent (K:=Zs) (zflip n m) m m = ent (K:=Zs) (zneg n (zeye n)) m m) by (rewrite E; reflexivity).
  unfold zflip, zneg, zeye in H. rewrite ent_mk, lneg_ent, leye_ent in H by assumption. rewrite Nat.eqb_refl in H.
  destruct (Nat.ltb_spec m m); [lia|]. discriminate H.
Qed.

Lemma eye_not_inv n : (0 < n)%nat -> zeye n <> zneg n (zeye n).
Proof.
  intros Hn E. assert (H : ent (K:=Zs) (zeye n) 0 0 = ent (K:=Zs) (zneg n (zeye n)) 0 0) by (rewrite <- E; reflexivity).
  unfold zneg, zeye in H. rewrite lneg_ent, leye_ent in H by assumption. discriminate H.
Qed.

Lemma zflip_wf n m : wfz n (zflip n m).
Proof. apply wfm_mk. Qed.

Lemma inverse_det n a : wfz n a -> zmul n a a = zeye n -> unimod n a.
Proof.
  intros Ha H. unfold unimod. assert (E : (zdet n a * zdet n a = 1)%Z).
  { rewrite <- (@zdet_mul n a a Ha Ha). rewrite H. apply zdet_eye. }
  nia.
Qed.

Lemma mirror_group n m : (0 < m)%nat -> (0 < n)%nat -> is_group (zmul n) (zeye n) [zeye n; zflip n m].
Proof.
  intros Hm Hn. repeat split.
  - left; reflexivity.
  - repeat constructor; simpl; [|tauto]. intros [E|[]]. apply (zflip_neq n m Hm Hn). exact E.
  - intros a b [<-|[<-|[]]] [<-|[<-|[]]]; rewrite ?zmul_1_l, ?zmul_1_r, ?zflip_sq by (try apply wfz_eye; apply zflip_wf); simpl; auto.
  - intros a [<-|[<-|[]]].
    + exists (zeye n). rewrite zmul_1_l by apply wfz_eye. simpl; auto.
    + exists (zflip n m). rewrite zflip_sq. simpl; auto.
Qed.

Lemma mirror_sym n m inv : (0 < m < n)%nat ->
  exists g, sym_init n [zeye n; zflip n m] inv false = Some g /\ sdim g = n /\
    is_group (zmul n) (zeye n) (sym_all g) /\ sym_len g = (if inv then 4 else 2) /\
    (forall s, In s (sym_all g) <-> In s [zeye n; zflip n m] \/ inv = true /\ In s [zneg n (zeye n); zneg n (zflip n m)]).
Proof.
  intros [Hm Hn]. assert (HW : forall s, In s [zeye n; zflip n m] -> wfz n s).
  { intros s [<-|[<-|[]]]; [apply wfz_eye|apply zflip_wf]. }
  destruct (sym_init_some n [zeye n; zflip n m] inv false eq_refl) as (g & Hg & Hd & _).
  { intros s [<-|[<-|[]]]; [apply unimod_eye|]. apply inverse_det; [apply zflip_wf|apply zflip_sq]. }
  pose proof (mirror_group n m Hm ltac:(lia)) as HG.
  assert (Hni : ~ In (zneg n (zeye n)) [zeye n; zflip n m]).
  { intros [E|[E|[]]]; [apply (eye_not_inv n ltac:(lia) E)|apply (zflip_not_inv n m ltac:(lia) E)]. }
  exists g. split; [exact Hg|]. split; [exact Hd|].
  pose proof (sym_init_group n _ inv false g HG HW (or_intror (or_intror Hni)) Hg) as HGg.
  assert (Hall : forall s, In s (sym_all g) <-> In s [zeye n; zflip n m] \/ inv = true /\ In s [zneg n (zeye n); zneg n (zflip n m)]).
  { intros s. rewrite (sym_init_ops n _ inv false g HW Hg). split.
    - intros [H|[Ei [t [Ht ->]]]]; [auto|right]. split; [exact Ei|]. destruct Ht as [<-|[<-|[]]]; simpl; auto.
    - intros [H|[Ei [<-|[<-|[]]]]]; [auto| |]; right; (split; [exact Ei|]); eexists; (split; [|reflexivity]); simpl; auto. }
  split; [exact HGg|]. split; [|exact Hall].
  rewrite sym_len_all. destruct HGg as (_ & Hnd & _ & _).
  assert (Hnd1 : NoDup [zeye n; zflip n m]) by apply HG.
  destruct inv.
  - rewrite (Permutation_length (l' := [zeye n; zflip n m] ++ map (zneg n) [zeye n; zflip n m])); [reflexivity|].
    apply NoDup_Permutation; [exact Hnd| |].
    + apply NoDup_app_iff. repeat split; [exact Hnd1|apply NoDup_neg; assumption|].
      intros x Hx Hy. destruct (group_neg_alt n _ HG HW) as [Hneg|Hneg].
      * apply Hni. apply Hneg. left; reflexivity.
      * apply in_map_iff in Hy. destruct Hy as [y [<- Hy]]. apply (Hneg y Hy Hx).
    + intros s. rewrite Hall, in_app_iff. simpl. intuition.
  - rewrite (Permutation_length (l' := [zeye n; zflip n m])); [reflexivity|].
    apply NoDup_Permutation; [exact Hnd|exact Hnd1|]. intros s. rewrite Hall. intuition discriminate.
Qed.

Lemma none_sym n : exists g, sym_none n = Some g /\ sdim g = n /\ sym_all g = [zeye n] /\ sym_len g = 1.
Proof.
  unfold sym_none. destruct (sym_init_some n [zeye n] false false eq_refl) as (g & Hg & Hd & _).
  { intros s [<-|[]]; apply unimod_eye. }
  exists g. split; [exact Hg|]. split; [exact Hd|].
  assert (HW : forall s, In s [zeye n] -> wfz n s) by (intros s [<-|[]]; apply wfz_eye).
  destruct n as [|n].
  - injection Hg as <-. vm_compute. auto.
  - apply sym_init_inv in Hg. destruct Hg as (_ & _ & _ & _ & Hc).
    assert (Hnc : cloud_close [zeye (S n)] (map (zneg (S n)) [zeye (S n)]) = false).
    { destruct (cloud_close _ _) eqn:E; [|reflexivity]. exfalso.
      rewrite cloud_close_spec in E. specialize (E _ (or_introl eq_refl)). destruct E as [E|[]].
      apply (eye_not_inv (S n) ltac:(lia)). symmetry; exact E. }
    rewrite Hnc in Hc.
    destruct Hc as [(?&_)|[(?&_)|Hc]]; try discriminate.
    destruct Hc as [(?&?&?&?&?)|Hc]; try discriminate.
    unfold sym_all, sym_len. destruct Hc as (? & ? & -> & ->). simpl. auto.
Qed.

Lemma inv_sym n : (0 < n)%nat -> exists g, sym_inv n = Some g /\ sdim g = n /\
  is_group (zmul n) (zeye n) (sym_all g) /\ sym_len g = 2 /\
  (forall s, In s (sym_all g) <-> s = zeye n \/ s = zneg n (zeye n)).
Proof.
  intros Hn. unfold sym_inv. destruct (sym_init_some n [zeye n] true false eq_refl) as (g & Hg & Hd & _).
  { intros s [<-|[]]; apply unimod_eye. }
  exists g. split; [exact Hg|]. split; [exact Hd|].
  assert (HW : forall s, In s [zeye n] -> wfz n s) by (intros s [<-|[]]; apply wfz_eye).
  assert (HG : is_group (zmul n) (zeye n) [zeye n]).
  { repeat split; simpl; auto.
    - repeat constructor; simpl; tauto.
    - intros a b [<-|[]] [<-|[]]. rewrite zmul_1_l by apply wfz_eye. simpl; auto.
    - intros a [<-|[]]. exists (zeye n). rewrite zmul_1_l by apply wfz_eye. auto. }
  assert (Hni : ~ In (zneg n (zeye n)) [zeye n]) by (intros [E|[]]; apply (eye_not_inv n Hn E)).
  pose proof (sym_init_group n _ true false g HG HW (or_intror (or_intror Hni)) Hg) as HGg.
  assert (Hall : forall s, In s (sym_all g) <-> s = zeye n \/ s = zneg n (zeye n)).
  { intros s. rewrite (sym_init_ops n _ true false g HW Hg). simpl. split.
    - intros [[<-|[]]|[_ [t [[<-|[]] ->]]]]; auto.
    - intros [->| ->]; [auto|right]. split; [reflexivity|]. exists (zeye n); auto. }
  split; [exact HGg|]. split; [|exact Hall]. rewrite sym_len_all.
  rewrite (Permutation_length (l' := [zeye n; zneg n (zeye n)])); [reflexivity|].
  apply NoDup_Permutation; [apply HGg| |].
  - repeat constructor; simpl; [|tauto]. intros [E|[]]. apply (eye_not_inv n Hn). symmetry; exact E.
  - intros s. rewrite Hall. simpl. intuition.
Qed.

(** a constructor result represents a group of the given order in dimension [n] *)
Definition builds_group (o : option sym) (n order : nat) : Prop :=
  exists g, o = Some g /\ sdim g = n /\ is_group (zmul n) (zeye n) (sym_all g) /\ sym_len g = order /\
    length (sym_all g) = order.

Definition builds_group_b (o : option sym) (n order : nat) : bool :=
  match o with
  | None => false
  | Some g => Nat.eqb (sdim g) n && is_group_b n (sym_all g) && Nat.eqb (sym_len g) order
  end.

Lemma builds_group_b_spec o n order : builds_group_b o n order = true -> builds_group o n order.
Proof.
  unfold builds_group_b. destruct o as [g|]; [|discriminate]. rewrite !andb_true_iff, !Nat.eqb_eq.
  intros [[H1 H2] H3]. exists g. repeat split; auto; try (apply is_group_b_spec in H2; apply H2).
  rewrite <- sym_len_all. exact H3.
Qed.

Lemma named_groups :
  builds_group (sym_o1 false) 1 1 /\ builds_group (sym_o1 true) 1 2 /\
  builds_group (sym_perm3 false) 3 6 /\ builds_group (sym_perm3 true) 3 12 /\
  builds_group (sym_even_perm3 false) 3 6 /\ builds_group (sym_even_perm3 true) 3 12 /\
  builds_group (sym_mirror3 false) 3 4 /\ builds_group (sym_mirror3 true) 3 8 /\
  builds_group sym_square 2 8 /\
  builds_group (sym_tetrahedral false) 3 12 /\ builds_group (sym_tetrahedral true) 3 24 /\
  builds_group (sym_cubic false) 3 24 /\ builds_group (sym_cubic true) 3 48.
Proof. repeat split; apply builds_group_b_spec; vm_compute; reflexivity. Qed.

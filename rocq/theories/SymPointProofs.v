(** Proofs about realize_symmetric, complete_neighbors and find_classes
    (symmetry.py l.526-613, 701-729, 801-825). *)
From Coq Require Import List Arith ZArith Lia Bool Permutation Sorting.Sorted.
Import ListNotations.
From Verif Require Import SRing LMat SymModel FinGroup SymGenProofs DetMC SymInitProofs SymEqProofs.

(* ------------------------------------------------------------------ *)
(** *** Stable sorting *)
Section Sort.
Context {A : Type} (key : A -> Z).

Lemma ins_by_perm a l : Permutation (ins_by key a l) (a :: l).
Proof.
  induction l as [|b l IH]; simpl; [reflexivity|].
  destruct (Z.leb (key a) (key b)); [reflexivity|]. rewrite IH. apply perm_swap.
Qed.

Lemma sort_by_perm l : Permutation (sort_by key l) l.
Proof.
  unfold sort_by. induction l as [|a l IH]; simpl; [constructor|].
  rewrite ins_by_perm. constructor; exact IH.
Qed.

Variable R : A -> A -> Prop.
Definition lex (a b : A) : Prop := (key a < key b)%Z \/ (key a = key b /\ R a b).

Lemma ins_by_lex a l : Forall (R a) l -> StronglySorted lex l -> StronglySorted lex (ins_by key a l).
Proof.
  intros HR Hs. induction Hs as [|b l Hs IH Hb]; simpl; [repeat constructor|].
  inversion HR as [|x y H1 H2]; subst.
  destruct (Z.leb_spec (key a) (key b)) as [Hle|Hlt].
  - constructor; [constructor; assumption|]. constructor.
    + unfold lex. destruct (Z.eq_dec (key a) (key b)); [right; auto|left; lia].
    + rewrite Forall_forall in *. intros c Hc. specialize (Hb c Hc). specialize (H2 c Hc).
      unfold lex in *. destruct Hb as [Hb|[Hb _]]; [left; lia|].
      destruct (Z.eq_dec (key a) (key c)); [right; auto|left; lia].
  - constructor; [apply IH; assumption|].
    rewrite Forall_forall in *. intros c Hc.
    apply (Permutation_in _ (ins_by_perm a l)) in Hc. destruct Hc as [<-|Hc]; [left; lia|auto].
Qed.

Lemma sort_by_lex l : StronglySorted R l -> StronglySorted lex (sort_by key l).
Proof.
  intros Hs. unfold sort_by. induction Hs as [|a l Hs IH Ha]; simpl; [constructor|].
  apply ins_by_lex; [|exact IH].
  rewrite Forall_forall in *. intros c Hc. apply Ha.
  apply (Permutation_in _ (sort_by_perm l)), Hc.
Qed.

End Sort.

Lemma StronglySorted_impl {A} (R R' : A -> A -> Prop) l : (forall a b, R a b -> R' a b) ->
  StronglySorted R l -> StronglySorted R' l.
Proof.
  intros H Hs. induction Hs as [|a l Hs IH Ha]; constructor; [exact IH|].
  eapply Forall_impl; [|exact Ha]. auto.
Qed.

Lemma StronglySorted_True {A} (l : list A) : StronglySorted (fun _ _ => True) l.
Proof. induction l; constructor; auto. apply Forall_forall; auto. Qed.

Lemma sort_by_sorted {A} (key : A -> Z) l : StronglySorted (fun a b => (key a <= key b)%Z) (sort_by key l).
Proof.
  eapply StronglySorted_impl; [|apply (sort_by_lex key (fun _ _ => True)), StronglySorted_True].
  unfold lex; intros a b [H|[H _]]; lia.
Qed.

(** last coordinate first *)
Fixpoint lexr (m : nat) (a b : zvec) : Prop :=
  match m with
  | O => True
  | S m' => (nth m' a 0 < nth m' b 0)%Z \/ (nth m' a 0%Z = nth m' b 0%Z /\ lexr m' a b)
  end.

Lemma lexr_antisym m a b : lexr m a b -> lexr m b a -> forall i, i < m -> nth i a 0%Z = nth i b 0%Z.
Proof.
  induction m as [|m IH]; simpl; intros H1 H2 i Hi; [lia|].
  destruct H1 as [H1|[E1 H1]], H2 as [H2|[E2 H2]]; try lia.
  destruct (Nat.eq_dec i m) as [->|Hn]; [exact E1|]. apply IH; auto; lia.
Qed.

Lemma realize_sort_perm m l : Permutation (realize_sort m l) l.
Proof.
  unfold realize_sort. generalize (seq 0 m). intros s. revert l.
  induction s as [|i s IH]; intros l; simpl; [reflexivity|]. rewrite IH. apply sort_by_perm.
Qed.

Lemma realize_sort_sorted m l : StronglySorted (fun p q => lexr m (fst p) (fst q)) (realize_sort m l).
Proof.
  unfold realize_sort. induction m as [|m IH].
  - simpl. apply StronglySorted_True.
  - rewrite seq_S, fold_left_app. cbn [fold_left plus].
    exact (sort_by_lex (fun p : zvec * nat => nth m (fst p) 0%Z) _ _ IH).
Qed.

Lemma dedup_adj_in prev l p : In p (dedup_adj prev l) -> In p l.
Proof.
  revert prev; induction l as [|q l IH]; intros prev; simpl; [auto|].
  destruct (zveqb prev (fst q)); simpl; intros H; [right; eauto|]. destruct H as [H|H]; [auto|right; eauto].
Qed.

Lemma dedup_adj_cover prev l x : In x (map fst l) -> x = prev \/ In x (map fst (dedup_adj prev l)).
Proof.
  revert prev; induction l as [|q l IH]; intros prev; simpl; [auto|].
  intros [<-|Hx].
  - destruct (zveqb prev (fst q)) eqn:E; [left; apply zveqb_spec in E; auto|right; simpl; auto].
  - destruct (IH (fst q) Hx) as [->|H].
    + destruct (zveqb prev (fst q)) eqn:E; [left; apply zveqb_spec in E; auto|right; simpl; auto].
    + right. destruct (zveqb prev (fst q)); simpl; auto.
Qed.

Lemma dedup_adj_nodup m prev l : length prev = m -> (forall p, In p l -> length (fst p) = m) ->
  Forall (fun q => lexr m prev (fst q)) l ->
  StronglySorted (fun p q => lexr m (fst p) (fst q)) l ->
  NoDup (map fst (dedup_adj prev l)) /\ ~ In prev (map fst (dedup_adj prev l)).
Proof.
  intros Hp HL HF Hs. revert prev Hp HF. induction Hs as [|q l Hs IH Hq]; intros prev Hp HF; simpl.
  - split; [constructor|auto].
  - inversion HF as [|x y H1 H2]; subst.
    destruct (zveqb prev (fst q)) eqn:E.
    + apply zveqb_spec in E. rewrite <- E. apply IH; auto. intros p Hpp; apply HL; right; exact Hpp.
    + assert (Hne : prev <> fst q) by (intros Hc; apply zveqb_spec in Hc; congruence).
      destruct (IH (fun p Hpp => HL p (or_intror Hpp)) (fst q)) as [N1 N2].
      { apply HL; left; reflexivity. }
      { exact Hq. }
      simpl. split.
      * constructor; assumption.
      * intros [Hc|Hc]; [congruence|]. apply in_map_iff in Hc. destruct Hc as [r [Er Hr]].
        apply dedup_adj_in in Hr. rewrite Forall_forall in Hq. specialize (Hq r Hr). rewrite Er in Hq.
        apply Hne. assert (Hlen : length (fst q) = length prev) by (apply HL; left; reflexivity).
        apply (nth_ext _ _ 0%Z 0%Z); [symmetry; exact Hlen|]. intros i Hi.
        apply (lexr_antisym (length prev)); auto.
Qed.

Lemma dedup_in l p : In p (dedup l) -> In p l.
Proof. destruct l as [|q l]; simpl; [auto|]. intros [H|H]; [auto|right; eapply dedup_adj_in; exact H]. Qed.

Lemma dedup_cover l x : In x (map fst l) -> In x (map fst (dedup l)).
Proof.
  destruct l as [|q l]; simpl; [auto|]. intros [H|H]; [auto|].
  destruct (dedup_adj_cover (fst q) l x H); auto.
Qed.

Lemma dedup_nodup m l : (forall p, In p l -> length (fst p) = m) ->
  StronglySorted (fun p q => lexr m (fst p) (fst q)) l -> NoDup (map fst (dedup l)).
Proof.
  intros HL Hs. destruct Hs as [|q l Hs Hq]; simpl; [constructor|].
  destruct (dedup_adj_nodup m (fst q) l) as [H1 H2]; auto.
  - apply HL; left; reflexivity.
  - intros p Hp; apply HL; right; exact Hp.
  - constructor; assumption.
Qed.

(* ------------------------------------------------------------------ *)
(** *** The collected images *)
Lemma orbit_fold n ops k used : In k used ->
  let step := (fun (used : list zvec) (o : bool * zmat) =>
    let k' := app_signed n o k in if memb zveqb k' used then used else used ++ [k']) in
  forall x, In x (fold_left step ops used) <-> In x used \/ exists o, In o ops /\ x = app_signed n o k.
Proof.
  intros Hk step. revert used Hk. induction ops as [|o ops IH]; intros used Hk x; simpl.
  - split; [auto|]. intros [H|[o [[] _]]]; exact H.
  - unfold step at 2. destruct (memb zveqb (app_signed n o k) used) eqn:E.
    + rewrite IH by exact Hk. apply (memb_In zveqb zveqb_spec) in E.
      split; [intros [H|[o' [H1 H2]]]; eauto|]. intros [H|[o' [[->|H1] H2]]]; eauto. subst; auto.
    + rewrite IH by (apply in_or_app; auto). rewrite in_app_iff. simpl.
      split; [intros [[H|[H|[]]]|[o' [H1 H2]]]; eauto|].
      intros [H|[o' [[->|H1] H2]]]; eauto.
Qed.

Lemma orbit_fold_head n ops k used :
  let step := (fun (used : list zvec) (o : bool * zmat) =>
    let k' := app_signed n o k in if memb zveqb k' used then used else used ++ [k']) in
  exists t, fold_left step ops (k :: used) = k :: t.
Proof.
  intros step. revert used. induction ops as [|o ops IH]; intros used; simpl; [eauto|].
  unfold step at 2. destruct (memb zveqb (app_signed n o k) (k :: used)); [apply IH|].
  apply (IH (used ++ [app_signed n o k])).
Qed.

Lemma orbit_new_spec g k x : x = k \/ In x (orbit_new g k) <->
  x = k \/ exists s, In s (sym_all g) /\ x = zmv (sdim g) s k.
Proof.
  unfold orbit_new.
  destruct (orbit_fold_head (sdim g) (signed_ops g) k []) as [t Ht].
  pose proof (orbit_fold (sdim g) (signed_ops g) k [k] (or_introl eq_refl) x) as H.
  cbv zeta in *. rewrite Ht in *. cbn [tl].
  transitivity (In x [k] \/ exists o, In o (signed_ops g) /\ x = app_signed (sdim g) o k).
  - rewrite <- H. simpl. split; intros [->|?]; auto.
  - simpl. rewrite <- signed_all. split.
    + intros [[->|[]]|[o [H1 H2]]]; [auto|]. right. eexists. split; [apply in_map, H1|].
      rewrite <- app_signed_all. exact H2.
    + intros [->|[s [H1 H2]]]; [auto|]. right. apply in_map_iff in H1. destruct H1 as [o [<- Ho]].
      exists o; split; [exact Ho|]. rewrite app_signed_all. exact H2.
Qed.

Lemma in_combine_seq {A} (l : list A) a i : In (a, i) (combine l (seq 0 (length l))) <-> nth_error l i = Some a.
Proof.
  enough (H : forall st, In (a, i) (combine l (seq st (length l))) <-> st <= i /\ nth_error l (i - st) = Some a).
  { rewrite H, Nat.sub_0_r. intuition lia. }
  induction l as [|b l IH]; intros st; simpl.
  - destruct (i - st); simpl; intuition discriminate.
  - rewrite IH. split.
    + intros [E|[H1 H2]].
      * injection E as -> ->. rewrite Nat.sub_diag; auto.
      * split; [lia|]. replace (i - st) with (S (i - S st)) by lia. exact H2.
    + intros [H1 H2]. destruct (Nat.eq_dec i st) as [->|Hn].
      * left. rewrite Nat.sub_diag in H2. simpl in H2. congruence.
      * right. split; [lia|]. replace (i - st) with (S (i - S st)) in H2 by lia. exact H2.
Qed.

Lemma in_combine_seq' {A} (l : list A) a i : In (i, a) (combine (seq 0 (length l)) l) <-> nth_error l i = Some a.
Proof.
  rewrite <- in_combine_seq. split.
  - intros H. generalize dependent (seq 0 (length l)). induction l as [|b l IH]; intros [|j s] H; simpl in *; auto.
    destruct H as [H|H]; [left; congruence|right; auto].
  - intros H. generalize dependent (seq 0 (length l)). induction l as [|b l IH]; intros [|j s] H; simpl in *; auto.
    destruct H as [H|H]; [left; congruence|right; auto].
Qed.

Lemma znorm2_nonneg v : (0 <= znorm2 v)%Z.
Proof. unfold znorm2. induction v as [|x v IH]; simpl; [lia|]. nia. Qed.

Lemma znorm2_zero v : znorm2 v = 0%Z <-> forall i, i < length v -> nth i v 0%Z = 0%Z.
Proof.
  induction v as [|x v IH]; simpl; [split; [intros _ i Hi; lia|reflexivity]|].
  change (znorm2 (x :: v)) with (x * x + znorm2 v)%Z.
  pose proof (znorm2_nonneg v). split.
  - intros H0 [|i] Hi; [nia|]. apply IH; [nia|apply Nat.succ_lt_mono; exact Hi].
  - intros H0. specialize (H0 0 (Nat.lt_0_succ _)) as Hx. simpl in Hx.
    assert (Hv : znorm2 v = 0%Z); [|rewrite Hv, Hx; reflexivity].
    apply IH. intros i Hi. apply (H0 (S i)). apply -> Nat.succ_lt_mono. exact Hi.
Qed.

Lemma zmv_zero n s k : wfv n k -> znorm2 k = 0%Z -> zmv n s k = k.
Proof.
  intros Hk Hz. apply (vec_ext Zs n); [apply lmv_wf|exact Hk|].
  intros i Hi. unfold zmv. rewrite vent_lmv by exact Hi.
  pose proof (proj1 (znorm2_zero k) Hz) as H0.
  assert (Hv : forall j, j < n -> vent k j = 0%Z).
  { intros j Hj. unfold vent. cbn [s0 Zs car]. apply H0. unfold wfv in Hk. lia. }
  rewrite Hv by exact Hi. apply nsum_zero. intros j Hj. rewrite Hv by exact Hj. cbn [smul s0 Zs car]. lia.
Qed.

Lemma realize_collect_spec g ks x i : (forall k, In k ks -> wfv (sdim g) k) ->
  In (zeye (sdim g)) (sym_all g) ->
  (In (x, i) (realize_collect g ks) -> exists k s, nth_error ks i = Some k /\ In s (sym_all g) /\ x = zmv (sdim g) s k).
Proof.
  intros HW He H. unfold realize_collect in H. apply in_app_or in H. destruct H as [H|H].
  - apply in_combine_seq in H. exists x, (zeye (sdim g)). repeat split; auto.
    symmetry; apply lmv_1. apply HW. eapply nth_error_In; exact H.
  - apply in_flat_map in H. destruct H as [[j k] [H1 H2]]. apply in_combine_seq' in H1.
    destruct (Z.eqb (znorm2 k) 0); [contradiction|].
    apply in_map_iff in H2. destruct H2 as [y [E Hy]]. injection E as -> ->.
    destruct (proj1 (orbit_new_spec g k x) (or_intror Hy)) as [->|[s [Hs Es]]].
    + exists k, (zeye (sdim g)). repeat split; auto. symmetry; apply lmv_1. apply HW. eapply nth_error_In; exact H1.
    + exists k, s. auto.
Qed.

Lemma realize_collect_cover g ks k s : (forall k, In k ks -> wfv (sdim g) k) ->
  In k ks -> In s (sym_all g) -> In (zmv (sdim g) s k) (map fst (realize_collect g ks)).
Proof.
  intros HW Hk Hs. destruct (In_nth_error _ _ Hk) as [i Hi].
  assert (Hself : In k (map fst (realize_collect g ks))).
  { apply in_map_iff. exists (k, i). split; [reflexivity|]. unfold realize_collect. apply in_or_app. left.
    apply in_combine_seq; exact Hi. }
  destruct (Z.eqb (znorm2 k) 0) eqn:E.
  - apply Z.eqb_eq in E. rewrite (zmv_zero _ _ _ (HW k Hk) E). exact Hself.
  - destruct (proj2 (orbit_new_spec g k (zmv (sdim g) s k))) as [H|H].
    + right. exists s; auto.
    + rewrite H; exact Hself.
    + apply in_map_iff. exists (zmv (sdim g) s k, i). split; [reflexivity|].
      unfold realize_collect. apply in_or_app. right. apply in_flat_map. exists (i, k).
      split; [apply in_combine_seq'; exact Hi|]. rewrite E. apply in_map_iff. eauto.
Qed.

Lemma realize_collect_len g ks p : (forall k, In k ks -> wfv (sdim g) k) ->
  In p (realize_collect g ks) -> length (fst p) = sdim g.
Proof.
  intros HW H. unfold realize_collect in H. apply in_app_or in H. destruct H as [H|H].
  - destruct p as [x i]. apply in_combine_seq in H. apply HW. eapply nth_error_In; exact H.
  - apply in_flat_map in H. destruct H as [[j k] [H1 H2]]. apply in_combine_seq' in H1.
    destruct (Z.eqb (znorm2 k) 0); [contradiction|].
    apply in_map_iff in H2. destruct H2 as [y [E Hy]]. subst p. simpl.
    destruct (proj1 (orbit_new_spec g k y) (or_intror Hy)) as [->|[s [Hs ->]]].
    + apply HW. eapply nth_error_In; exact H1.
    + exact (lmv_wf Zs _ _ _).
Qed.

Lemma realize_symmetric_spec g ks l : (forall k, In k ks -> wfv (sdim g) k) ->
  In (zeye (sdim g)) (sym_all g) -> realize_symmetric g ks = Some l ->
  (forall x i, In (x, i) l -> exists k s, nth_error ks i = Some k /\ In s (sym_all g) /\ x = zmv (sdim g) s k) /\
  (forall k s, In k ks -> In s (sym_all g) -> In (zmv (sdim g) s k) (map fst l)) /\
  NoDup (map fst l).
Proof.
  intros HW He H. unfold realize_symmetric in H. destruct ks as [|k0 ks]; [discriminate|].
  injection H as <-. set (ks' := k0 :: ks) in *.
  assert (Hd : length k0 = sdim g) by (apply HW; left; reflexivity).
  match goal with |- context[realize_sort ?a _] => change a with (length k0) end. rewrite Hd.
  split; [|split].
  - intros x i H. apply dedup_in in H.
    apply (Permutation_in _ (realize_sort_perm _ _)) in H.
    apply realize_collect_spec; auto.
  - intros k s Hk Hs. apply dedup_cover.
    eapply Permutation_in; [apply Permutation_map, Permutation_sym, realize_sort_perm|].
    apply realize_collect_cover; auto.
  - apply (dedup_nodup (sdim g)); [|apply realize_sort_sorted].
    intros p Hp. apply (Permutation_in _ (realize_sort_perm _ _)) in Hp. eapply realize_collect_len; eauto.
Qed.

(* ------------------------------------------------------------------ *)
(** *** complete_neighbors *)
Lemma dedup_exact_id l : NoDup (map fst l) -> dedup_exact l = l.
Proof.
  intros Hnd. unfold dedup_exact.
  enough (H : forall acc, NoDup (map fst (acc ++ l)) ->
     fold_left (fun acc p => if memb zveqb (fst p) (map fst acc) then acc else acc ++ [p]) l acc = acc ++ l).
  { apply (H []); exact Hnd. }
  clear Hnd. induction l as [|p l IH]; intros acc H; simpl; [rewrite app_nil_r; reflexivity|].
  assert (Hm : memb zveqb (fst p) (map fst acc) = false).
  { apply (memb_notIn zveqb zveqb_spec). intros Hc.
    rewrite map_app in H. apply NoDup_app_iff in H. destruct H as (_ & _ & H). apply (H _ Hc). left; reflexivity. }
  rewrite Hm, IH; rewrite <- app_assoc; [reflexivity|exact H].
Qed.

Lemma first_pos_neg v : first_pos v = true -> first_pos (map Z.opp v) = true -> forall i, nth i v 0%Z = 0%Z.
Proof.
  induction v as [|x v IH]; simpl; intros H1 H2 [|i]; auto.
  - destruct (Z.eqb_spec x 0); [assumption|]. destruct (Z.eqb_spec (-x) 0); [lia|].
    apply Z.ltb_lt in H1, H2. lia.
  - destruct (Z.eqb_spec x 0) as [->|Hx]; [simpl in H2; auto|]. destruct (Z.eqb_spec (-x) 0); [lia|].
    apply Z.ltb_lt in H1, H2. lia.
Qed.

Lemma first_pos_or v : first_pos v = true \/ first_pos (map Z.opp v) = true.
Proof.
  induction v as [|x v IH]; simpl; [auto|].
  destruct (Z.eqb_spec x 0) as [->|Hx]; [simpl; exact IH|]. destruct (Z.eqb_spec (-x) 0); [lia|].
  rewrite !Z.ltb_lt. lia.
Qed.

Lemma zvneg_map n v : wfv n v -> zvneg n v = map Z.opp v.
Proof.
  intros Hv. apply (vec_ext Zs n); [apply wfv_vmk|unfold wfv; rewrite map_length; exact Hv|].
  intros i Hi. unfold zvneg, vneg. rewrite vent_vmk by exact Hi. unfold vent. cbn [sopp Zs car s0].
  change 0%Z with (Z.opp 0) at 2. rewrite map_nth. reflexivity.
Qed.

Lemma ltr_neg n a : ltr n (zneg n a) = zneg n (ltr n a).
Proof.
  unfold zneg, lneg, ltr. apply mk_ext. intros i j Hi Hj. rewrite !ent_mk by assumption. reflexivity.
Qed.

(** the transposed object represents the transposed operations *)
Lemma sym_transpose_all g gt : (forall s, In s (sops g) -> wfz (sdim g) s) -> sym_transpose g = Some gt ->
  sdim gt = sdim g /\ forall x, In x (sym_all gt) <-> exists s, In s (sym_all g) /\ x = ltr (sdim g) s.
Proof.
  intros HW H. unfold sym_transpose in H. split; [apply sym_init_inv in H; tauto|].
  intros x. rewrite (sym_init_ops _ _ _ _ _ (fun s Hs => ltac:(apply in_map_iff in Hs; destruct Hs as [y [<- Hy]]; apply wfm_mk)) H).
  unfold sym_all. setoid_rewrite in_app_iff. setoid_rewrite in_map_iff. split.
  - intros [[s [<- Hs]]|[Hi [s [[t [<- Ht]] ->]]]]; [exists s; auto|].
    exists (zneg (sdim g) t). rewrite Hi, ltr_neg. split; [|reflexivity]. right. apply in_map; exact Ht.
  - intros [s [[Hs|Hs] ->]]; [left; exists s; auto|]. destruct (sinv g); [|contradiction]. right. split; [reflexivity|].
    apply in_map_iff in Hs. destruct Hs as [t [<- Ht]]. exists (ltr (sdim g) t). rewrite ltr_neg. split; [exists t; auto|reflexivity].
Qed.

Lemma sym_transpose_some g : In (zeye (sdim g)) (sops g) -> hd_error (sops g) = Some (zeye (sdim g)) ->
  (forall s, In s (sops g) -> wfz (sdim g) s /\ unimod (sdim g) s) -> exists gt, sym_transpose g = Some gt.
Proof.
  intros He Hh HW. unfold sym_transpose.
  destruct (sym_init_some (sdim g) (map (ltr (sdim g)) (sops g)) (sinv g) false) as (gt & H & _).
  - destruct (sops g); [discriminate|]. simpl in *. injection Hh as ->. rewrite ltr_eye. reflexivity.
  - intros s Hs. apply in_map_iff in Hs. destruct Hs as [t [<- Ht]]. destruct (HW t Ht) as [H1 H2].
    unfold unimod in *. rewrite zdet_tr; assumption.
  - eauto.
Qed.

Lemma complete_neighbors_spec g ns l : (forall s, In s (sops g) -> wfz (sdim g) s) ->
  (forall r, In r ns -> wfv (sdim g) r) -> In (zeye (sdim g)) (sym_all g) ->
  complete_neighbors g ns = Some l ->
  (forall x, In x (map fst l) <->
     first_pos x = true /\ exists r s, In r ns /\ In s (sym_all g) /\ x = zmv (sdim g) (ltr (sdim g) s) r) /\
  (forall x i, In (x, i) l -> exists r s, nth_error ns i = Some r /\ In s (sym_all g) /\ x = zmv (sdim g) (ltr (sdim g) s) r) /\
  NoDup (map fst l) /\ StronglySorted (fun p q => (znorm2 (fst p) <= znorm2 (fst q))%Z) l.
Proof.
  intros HS HW He H. unfold complete_neighbors in H.
  destruct (sym_transpose g) as [gt|] eqn:Et; [|discriminate].
  destruct (sym_transpose_all g gt HS Et) as [Hd Hall].
  destruct (realize_symmetric gt ns) as [l0|] eqn:Er; [|discriminate]. injection H as <-.
  destruct (realize_symmetric_spec gt ns l0) as (H1 & H2 & H3).
  { rewrite Hd; exact HW. }
  { rewrite Hd. apply Hall. exists (zeye (sdim g)). split; [exact He|]. symmetry; apply ltr_eye. }
  { exact Er. }
  rewrite (dedup_exact_id l0 H3).
  set (fl := filter (fun p => first_pos (fst p)) l0).
  assert (Hfl : forall x i, In (x, i) (sort_by (fun p => znorm2 (fst p)) fl) <-> In (x, i) l0 /\ first_pos x = true).
  { intros x i. unfold fl. split; intros Hx.
    - apply (Permutation_in _ (sort_by_perm _ _)) in Hx. apply filter_In in Hx. exact Hx.
    - eapply Permutation_in; [apply Permutation_sym, sort_by_perm|]. apply filter_In. exact Hx. }
  assert (Hsrc : forall x i, In (x, i) l0 -> exists r s, nth_error ns i = Some r /\ In s (sym_all g) /\ x = zmv (sdim g) (ltr (sdim g) s) r).
  { intros x i Hx. destruct (H1 x i Hx) as (k & t & Hk & Ht & E). apply Hall in Ht. destruct Ht as [s [Hs ->]].
    exists k, s. rewrite Hd in E. auto. }
  split; [|split; [|split]].
  - intros x. split.
    + intros Hx. apply in_map_iff in Hx. destruct Hx as [[y i] [<- Hx]]. apply Hfl in Hx. destruct Hx as [Hx Hp].
      split; [exact Hp|]. destruct (Hsrc _ _ Hx) as (r & s & Hr & Hs & E). exists r, s.
      split; [eapply nth_error_In; exact Hr|auto].
    + intros [Hp (r & s & Hr & Hs & ->)].
      assert (Hin : In (zmv (sdim g) (ltr (sdim g) s) r) (map fst l0)).
      { rewrite <- Hd at 1. apply H2; [exact Hr|]. apply Hall. eauto. }
      apply in_map_iff in Hin. destruct Hin as [[y i] [E Hy]]. simpl in E. subst y.
      apply in_map_iff. exists (zmv (sdim g) (ltr (sdim g) s) r, i). split; [reflexivity|]. apply Hfl. auto.
  - intros x i Hx. apply Hfl in Hx. apply Hsrc. apply Hx.
  - eapply Permutation_NoDup; [apply Permutation_map, Permutation_sym, sort_by_perm|].
    unfold fl. clear -H3. induction l0 as [|p l0 IH]; simpl; [constructor|].
    simpl in H3. inversion H3 as [|a b Hn Hd]; subst.
    destruct (first_pos (fst p)); [|auto]. simpl. constructor; [|auto].
    intros Hc. apply Hn. apply in_map_iff in Hc. destruct Hc as [q [E Hq]]. apply filter_In in Hq.
    apply in_map_iff. exists q; tauto.
  - apply sort_by_sorted.
Qed.

(** with the inversion among the operations (or an input closed under negation) nothing is lost *)
Lemma complete_neighbors_cover g ns l : (forall s, In s (sops g) -> wfz (sdim g) s) ->
  (forall r, In r ns -> wfv (sdim g) r) -> In (zeye (sdim g)) (sym_all g) ->
  ((forall s, In s (sym_all g) -> In (zneg (sdim g) s) (sym_all g)) \/
   (forall r, In r ns -> In (zvneg (sdim g) r) ns)) ->
  complete_neighbors g ns = Some l ->
  forall r s, In r ns -> In s (sym_all g) ->
   let x := zmv (sdim g) (ltr (sdim g) s) r in In x (map fst l) \/ In (zvneg (sdim g) x) (map fst l).
Proof.
  intros HS HW He Hneg H r s Hr Hs x.
  destruct (complete_neighbors_spec g ns l HS HW He H) as (H1 & _).
  assert (Hx : wfv (sdim g) x) by apply lmv_wf.
  destruct (first_pos_or x) as [Hp|Hp].
  - left. apply H1. split; [exact Hp|]. exists r, s; auto.
  - right. apply H1. rewrite <- zvneg_map with (n := sdim g) in Hp by exact Hx. split; [exact Hp|].
    destruct Hneg as [Hneg|Hneg].
    + exists r, (zneg (sdim g) s). repeat split; auto. rewrite ltr_neg. symmetry. apply lmv_neg.
    + exists (zvneg (sdim g) r), s. repeat split; auto.
      unfold x, zvneg, zmv. apply (vec_ext Zs (sdim g)); [apply wfv_vmk|apply lmv_wf|].
      intros i Hi. rewrite vent_lmv by exact Hi. unfold vneg. rewrite vent_vmk by exact Hi.
      rewrite vent_lmv by exact Hi.
      rewrite <- nsum_opp. apply nsum_ext. intros j Hj. rewrite vent_vmk by exact Hj.
      cbn [sopp smul Zs car]. lia.
Qed.

(** never both x and -x, except for x = 0 *)
Lemma complete_neighbors_half g ns l x : (forall s, In s (sops g) -> wfz (sdim g) s) ->
  (forall r, In r ns -> wfv (sdim g) r) -> In (zeye (sdim g)) (sym_all g) ->
  complete_neighbors g ns = Some l ->
  In x (map fst l) -> In (zvneg (sdim g) x) (map fst l) -> x = vzero (sdim g).
Proof.
  intros HS HW He H Hx Hnx.
  destruct (complete_neighbors_spec g ns l HS HW He H) as (H1 & _).
  apply H1 in Hx, Hnx. destruct Hx as [Hp (r & s & Hr & Hs & E)], Hnx as [Hq _].
  assert (Hl : wfv (sdim g) x) by (rewrite E; apply lmv_wf).
  rewrite zvneg_map in Hq by exact Hl.
  apply (vec_ext Zs (sdim g)); [exact Hl|apply wfv_vmk|].
  intros i Hi. unfold vzero. rewrite vent_vmk by exact Hi. unfold vent.
  apply (first_pos_neg x Hp Hq).
Qed.

(** 0 comes first *)
Lemma complete_neighbors_zero_first g ns l : (forall s, In s (sops g) -> wfz (sdim g) s) ->
  (forall r, In r ns -> wfv (sdim g) r) -> In (zeye (sdim g)) (sym_all g) ->
  complete_neighbors g ns = Some l -> In (vzero (sdim g)) ns ->
  exists i l', l = (vzero (sdim g), i) :: l'.
Proof.
  intros HS HW He H Hz.
  destruct (complete_neighbors_spec g ns l HS HW He H) as (H1 & H2 & H3 & H4).
  assert (Hin : In (vzero (sdim g)) (map fst l)).
  { apply H1. split.
    - unfold vzero, vmk. generalize (seq 0 (sdim g)). intros sq.
      induction sq as [|a sq IHs]; [reflexivity|exact IHs].
    - exists (vzero (sdim g)), (zeye (sdim g)). repeat split; auto.
      unfold zeye. rewrite ltr_eye. symmetry. apply lmv_1. apply wfv_vmk. }
  destruct l as [|[y i] l']; [contradiction|]. exists i, l'. f_equal. f_equal.
  destruct Hin as [E|Hin]; [exact E|].
  inversion H4 as [|a b Hs Hf]; subst. rewrite Forall_forall in Hf.
  apply in_map_iff in Hin. destruct Hin as [[z j] [E Hz']]. simpl in E. subst z.
  specialize (Hf _ Hz'). simpl in Hf.
  assert (Hy : wfv (sdim g) y).
  { destruct (H2 y i (or_introl eq_refl)) as (r & s & _ & _ & ->). apply lmv_wf. }
  assert (E0 : znorm2 (vzero (sdim g)) = 0%Z).
  { apply znorm2_zero. intros k Hk. pose proof (wfv_vmk Zs (sdim g) (fun _ => @s0 Zs)) as Hv.
    unfold wfv in Hv. unfold vzero in *. pose proof (vent_vmk Zs (sdim g) (fun _ => @s0 Zs) k) as Hk'.
    unfold vent in Hk'. apply Hk'. lia. }
  rewrite E0 in Hf. pose proof (znorm2_nonneg y).
  assert (Hy0 : znorm2 y = 0%Z) by lia.
  apply (vec_ext Zs (sdim g)); [exact Hy|apply wfv_vmk|].
  intros k Hk. unfold vzero. rewrite vent_vmk by exact Hk. unfold vent.
  apply (proj1 (znorm2_zero y) Hy0). unfold wfv in Hy. lia.
Qed.

(* ------------------------------------------------------------------ *)
(** *** find_classes *)
Definition point_rel (n : nat) (ops : list zmat) (points : list zvec) (i j : nat) : Prop :=
  exists s p q, In s ops /\ nth_error points i = Some p /\ nth_error points j = Some q /\ q = zmv n s p.

Lemma find_idx_nodup points x j : NoDup points ->
  (find_idx (zveqb x) points = Some j <-> nth_error points j = Some x).
Proof.
  intros Hnd. split.
  - intros H. apply find_idx_some in H. destruct H as (a & H1 & H2 & _). apply zveqb_spec in H2. congruence.
  - intros H. destruct (find_idx (zveqb x) points) as [j'|] eqn:E.
    + apply find_idx_some in E. destruct E as (a & H1 & H2 & _). apply zveqb_spec in H2. subst a.
      f_equal. apply (proj1 (NoDup_nth_error points) Hnd); [|congruence].
      apply nth_error_Some. congruence.
    + exfalso. apply nth_error_In in H. apply (proj1 (find_idx_none _ _) E) in H.
      rewrite (proj2 (zveqb_spec x x) eq_refl) in H. discriminate.
Qed.

Lemma class_of_spec n ops points r : NoDup points ->
  NoDup (class_of n ops points r) /\
  forall j, In j (class_of n ops points r) <-> exists s, In s ops /\ nth_error points j = Some (zmv n s r).
Proof.
  intros Hnd. unfold class_of.
  set (step := fun (acc : list nat) (s : zmat) =>
      match find_idx (zveqb (zmv n s r)) points with
      | Some j => if existsb (Nat.eqb j) acc then acc else acc ++ [j]
      | None => acc
      end).
  enough (H : forall acc, NoDup acc -> NoDup (fold_left step ops acc) /\
     forall j, In j (fold_left step ops acc) <-> In j acc \/ exists s, In s ops /\ nth_error points j = Some (zmv n s r)).
  { destruct (H [] (NoDup_nil _)) as [H1 H2]. split; [exact H1|]. intros j. rewrite H2. simpl. tauto. }
  induction ops as [|s ops IH]; intros acc Hacc; simpl.
  - split; [exact Hacc|]. intros j. split; [auto|intros [H|[s [[] _]]]; exact H].
  - assert (Hstep : NoDup (step acc s) /\ forall j, In j (step acc s) <-> In j acc \/ nth_error points j = Some (zmv n s r)).
    { unfold step. destruct (find_idx (zveqb (zmv n s r)) points) as [j0|] eqn:E.
      - pose proof (proj1 (find_idx_nodup points _ j0 Hnd) E) as E'.
        assert (Hu : forall j, nth_error points j = Some (zmv n s r) <-> j = j0).
        { intros j. rewrite <- (find_idx_nodup points _ j Hnd), E. split; congruence. }
        destruct (existsb (Nat.eqb j0) acc) eqn:Ex.
        + apply existsb_exists in Ex. destruct Ex as [y [Hy Ey]]. apply Nat.eqb_eq in Ey. subst y.
          split; [exact Hacc|]. intros j. rewrite Hu. split; [auto|intros [H| ->]; assumption].
        + split.
          * apply NoDup_app_iff. repeat split; [exact Hacc|repeat constructor; auto|].
            intros x Hx [<-|[]]. assert (existsb (Nat.eqb j0) acc = true); [|congruence].
            apply existsb_exists. exists j0; split; [exact Hx|apply Nat.eqb_refl].
          * intros j. rewrite Hu, in_app_iff. simpl. intuition.
      - split; [exact Hacc|]. intros j. split; [auto|]. intros [H|H]; [exact H|].
        apply (find_idx_nodup points _ j Hnd) in H. congruence. }
    destruct Hstep as [S1 S2]. destruct (IH (step acc s) S1) as [H1 H2]. split; [exact H1|].
    intros j. rewrite H2, S2. split.
    + intros [[H|H]|[t [Ht Hj]]]; eauto.
    + intros [H|[t [[->|Ht] Hj]]]; eauto.
Qed.

Section FindClasses.
Variables (n : nat) (ops : list zmat) (points : list zvec).
Hypothesis Hgrp : is_group (zmul n) (zeye n) ops.
Hypothesis Hops : forall s, In s ops -> wfz n s.
Hypothesis Hpts : forall p, In p points -> wfv n p.
Hypothesis Hnd : NoDup points.

Lemma point_rel_refl i : i < length points -> point_rel n ops points i i.
Proof.
  intros Hi. destruct (nth_error points i) as [p|] eqn:E; [|apply nth_error_None in E; lia].
  exists (zeye n), p, p. repeat split; auto; [apply Hgrp|]. symmetry; apply lmv_1, Hpts. eapply nth_error_In; exact E.
Qed.

Lemma point_rel_sym i j : point_rel n ops points i j -> point_rel n ops points j i.
Proof.
  intros (s & p & q & Hs & Hp & Hq & E). destruct Hgrp as (_ & _ & _ & Hi).
  destruct (Hi s Hs) as (t & Ht & _ & Hts). exists t, q, p. repeat split; auto.
  rewrite E. unfold zmv. rewrite <- lmv_mul. unfold zmul in Hts. rewrite Hts. symmetry. apply lmv_1, Hpts.
  eapply nth_error_In; exact Hp.
Qed.

Lemma point_rel_trans i j k : point_rel n ops points i j -> point_rel n ops points j k -> point_rel n ops points i k.
Proof.
  intros (s & p & q & Hs & Hp & Hq & E) (t & q' & r & Ht & Hq' & Hr & E').
  exists (zmul n t s), p, r. destruct Hgrp as (_ & _ & Hc & _). repeat split; auto.
  rewrite E'. assert (q' = q) by congruence. subst. symmetry. apply lmv_mul.
Qed.

Lemma point_rel_dec i j : point_rel n ops points i j \/ ~ point_rel n ops points i j.
Proof.
  destruct (nth_error points i) as [p|] eqn:E.
  - destruct (class_of_spec n ops points p Hnd) as [_ H].
    destruct (in_dec Nat.eq_dec j (class_of n ops points p)) as [Hj|Hj]; rewrite H in Hj.
    + left. destruct Hj as [s [Hs Hq]]. exists s, p, (zmv n s p). auto.
    + right. intros (s & p' & q & Hs & Hp & Hq & Eq). apply Hj. exists s. split; [exact Hs|]. congruence.
  - right. intros (s & p' & q & Hs & Hp & _). congruence.
Qed.

Let step := (fun (st : list (nat * list nat) * list nat) (ir : nat * zvec) =>
      let '(classes, covered) := st in
      let '(i, r) := ir in
      let c := class_of n ops points r in
      ((if existsb (Nat.eqb i) covered then classes else classes ++ [(i, c)]), covered ++ c)).

(** state after the first [m] points *)
Lemma find_classes_inv m cl cov : m <= length points ->
  fold_left step (combine (seq 0 m) (firstn m points)) ([], []) = (cl, cov) ->
  (forall j, In j cov <-> exists i, i < m /\ point_rel n ops points i j) /\
  (forall i c, In (i, c) cl -> i < m /\ NoDup c /\ (forall j, In j c <-> point_rel n ops points i j)) /\
  (forall i, i < m -> exists i' c, In (i', c) cl /\ In i c) /\
  (NoDup (concat (map snd cl))).
Proof.
  revert cl cov. induction m as [|m IH]; intros cl cov Hm H.
  - simpl in H. injection H as <- <-. simpl. split; [|split; [|split]].
    + intros j. split; [tauto|]. intros [i [Hi _]]; lia.
    + tauto.
    + intros i Hi; lia.
    + constructor.
  - destruct (nth_error points m) as [p|] eqn:Ep; [|apply nth_error_None in Ep; lia].
    assert (Hf : firstn (S m) points = firstn m points ++ [p]).
    { clear -Ep. revert points Ep. induction m as [|m IH]; intros [|q l] E; simpl in *; try discriminate.
      - congruence.
      - f_equal. apply IH; exact E. }
    rewrite Hf, seq_S in H.
    assert (Hc : combine (seq 0 m ++ [0 + m]) (firstn m points ++ [p]) = combine (seq 0 m) (firstn m points) ++ [(m, p)]).
    { assert (Hl : length (seq 0 m) = length (firstn m points)) by (rewrite seq_length, firstn_length; lia).
      revert Hl. generalize (seq 0 m) (firstn m points). intros l1 l2. revert l2.
      induction l1 as [|a l1 IH1]; intros [|b l2] Hl; simpl in *; try discriminate; [reflexivity|].
      f_equal. apply IH1. lia. }
    rewrite Hc, fold_left_app in H.
    destruct (fold_left step (combine (seq 0 m) (firstn m points)) ([], [])) as [cl0 cov0] eqn:E0.
    destruct (IH cl0 cov0 ltac:(lia) eq_refl) as (I1 & I2 & I3 & I4).
    simpl in H. destruct (class_of_spec n ops points p Hnd) as [C1 C2].
    assert (C3 : forall j, In j (class_of n ops points p) <-> point_rel n ops points m j).
    { intros j. rewrite C2. split.
      - intros [s [Hs Hj]]. exists s, p, (zmv n s p). auto.
      - intros (s & p' & q & Hs & Hp & Hq & Eq). exists s. split; [exact Hs|]. congruence. }
    set (c := class_of n ops points p) in *.
    assert (Hcov : forall j, In j (cov0 ++ c) <-> exists i, i < S m /\ point_rel n ops points i j).
    { intros j. rewrite in_app_iff, I1, C3. split.
      - intros [[i [Hi Hr]]|Hr]; [exists i; split; [lia|exact Hr]|exists m; split; [lia|exact Hr]].
      - intros [i [Hi Hr]]. destruct (Nat.eq_dec i m) as [->|Hne]; [auto|left; exists i; split; [lia|exact Hr]]. }
    destruct (existsb (Nat.eqb m) cov0) eqn:Ex; injection H as <- <-.
    + apply existsb_exists in Ex. destruct Ex as [y [Hy Ey]]. apply Nat.eqb_eq in Ey. subst y.
      apply I1 in Hy. destruct Hy as [i [Hi Hr]].
      split; [exact Hcov|]. split; [|split; [|exact I4]].
      * intros i' c' Hin. destruct (I2 i' c' Hin) as (A1 & A2 & A3). repeat split; auto; try lia; apply A3.
      * intros k Hk. destruct (Nat.eq_dec k m) as [->|Hne]; [|apply I3; lia].
        destruct (I3 i Hi) as (i' & c' & Hin & Hic). exists i', c'. split; [exact Hin|].
        destruct (I2 i' c' Hin) as (_ & _ & A3). apply A3. apply A3 in Hic. eapply point_rel_trans; eauto.
    + assert (Hnew : forall i, i < m -> ~ point_rel n ops points i m).
      { intros i Hi Hr. assert (existsb (Nat.eqb m) cov0 = true); [|congruence].
        apply existsb_exists. exists m. split; [apply I1; eauto|apply Nat.eqb_refl]. }
      split; [exact Hcov|]. split; [|split].
      * intros i' c' Hin. apply in_app_or in Hin. destruct Hin as [Hin|[Hin|[]]].
        -- destruct (I2 i' c' Hin) as (A1 & A2 & A3). repeat split; auto; try lia; apply A3.
        -- injection Hin as <- <-. repeat split; auto; try lia; apply C3.
      * intros k Hk. destruct (Nat.eq_dec k m) as [->|Hne].
        -- exists m, c. split; [apply in_or_app; right; left; reflexivity|]. apply C3, point_rel_refl; lia.
        -- destruct (I3 k ltac:(lia)) as (i' & c' & H1 & H2). exists i', c'. split; [apply in_or_app; auto|exact H2].
      * rewrite map_app, concat_app. simpl. rewrite app_nil_r. apply NoDup_app_iff. repeat split; auto.
        intros x Hx Hxc. apply in_concat in Hx. destruct Hx as [c' [Hc' Hx]].
        apply in_map_iff in Hc'. destruct Hc' as [[i' c''] [E Hin]]. simpl in E. subst c''.
        destruct (I2 i' c' Hin) as (A1 & A2 & A3). apply A3 in Hx. apply C3 in Hxc.
        apply (Hnew i' A1). eapply point_rel_trans; [exact Hx|]. apply point_rel_sym; exact Hxc.
Qed.

Lemma find_classes_spec g : sdim g = n -> sops g = ops ->
  Permutation (concat (map snd (find_classes g points))) (seq 0 (length points)) /\
  (forall i c, In (i, c) (find_classes g points) -> In i c /\ forall j k, In j c -> (In k c <-> point_rel n ops points j k)).
Proof.
  intros Hd Ho. unfold find_classes. rewrite Hd, Ho. fold step.
  destruct (fold_left step (combine (seq 0 (length points)) points) ([], [])) as [cl cov] eqn:E.
  rewrite <- (firstn_all points) in E at 2.
  destruct (find_classes_inv (length points) cl cov (le_n _) E) as (I1 & I2 & I3 & I4).
  cbn [fst].
  assert (Hlt : forall i j, point_rel n ops points i j -> j < length points).
  { intros i j (s & p & q & _ & _ & Hq & _). apply nth_error_Some. congruence. }
  split.
  - apply NoDup_Permutation; [exact I4|apply seq_NoDup|].
    intros x. rewrite in_concat, in_seq. split.
    + intros [c [Hc Hx]]. apply in_map_iff in Hc. destruct Hc as [[i c'] [<- Hin]].
      destruct (I2 i c' Hin) as (A1 & A2 & A3). apply A3 in Hx. apply Hlt in Hx. lia.
    + intros [_ Hx]. destruct (I3 x ltac:(lia)) as (i & c & Hin & Hic).
      exists c. split; [apply in_map_iff; exists (i, c); auto|exact Hic].
  - intros i c Hin. destruct (I2 i c Hin) as (A1 & A2 & A3). split.
    + apply A3, point_rel_refl; exact A1.
    + intros j k Hj. rewrite A3 in *. split.
      * intros Hk. eapply point_rel_trans; [apply point_rel_sym; exact Hj|exact Hk].
      * intros Hk. eapply point_rel_trans; eauto.
Qed.
End FindClasses.

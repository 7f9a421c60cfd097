(** Property C154: interpolate_unstructured returns the data of the nearest point of the orbits, or NaN. *)
From Coq Require Import List Arith ZArith Bool Reals Lra Lia Permutation Sorted.
Import ListNotations.
From Verif Require Import SRing LMat SymModel SymInitProofs SymPointProofs SymNamedProofs UnstructModel.

(** ** Specification *)
(** squared distance of two points *)
Fixpoint dist2 (a b : zvec) : Z :=
  match a, b with x :: a', y :: b' => ((x - y) * (x - y) + dist2 a' b')%Z | _, _ => 0%Z end.
(** closer than max_error *)
Definition closer (me : R) (a b : zvec) : Prop := (0 < me /\ IZR (dist2 a b) < me * me)%R.
(** KDTree.query with distance_upper_bound: the index of a nearest point that is closer than the bound, or the number of
    points if there is none *)
Definition query_spec (query : list zvec -> zvec -> R -> nat) : Prop := forall pts k me,
  let i := query pts k me in
  (i < length pts /\ closer me (nth i pts []) k /\ forall j, j < length pts -> (dist2 (nth i pts []) k <= dist2 (nth j pts []) k)%Z) \/
  (i = length pts /\ forall p, In p pts -> ~ closer me p k).
(** the images of sample i: the sample itself without symmetry *)
Definition image (s : option sym) (ks : list zvec) (x : zvec) (i : nat) : Prop :=
  match s with
  | None => nth_error ks i = Some x
  | Some g => exists k t, nth_error ks i = Some k /\ In t (sym_all g) /\ x = zmv (sdim g) t k
  end.
(** a well formed call: at least one sample, as many rows as samples, points of one dimension [n], which is the one of the
    operations, and the identity is one of the operations *)
Definition good_call {D} (n : nat) (s : option sym) (ks : list zvec) (data : list D) : Prop :=
  ks <> [] /\ length data = length ks /\ (forall k, In k ks -> length k = n) /\
  match s with None => True | Some g => sdim g = n /\ In (zeye n) (sym_all g) end.

(** ** which of several equal points survives *)
Lemma dedup_adj_cons prev a l p : In p (dedup_adj prev (a :: l)) ->
  (prev = fst a /\ In p (dedup_adj (fst a) l)) \/ (prev <> fst a /\ (a = p \/ In p (dedup_adj (fst a) l))).
Proof.
  cbn [dedup_adj]. destruct (zveqb prev (fst a)) eqn:E; intros H.
  - left. apply zveqb_spec in E. auto.
  - right. split; [intros C; apply zveqb_spec in C; congruence|exact H].
Qed.
Lemma dedup_adj_first m (Rl : zvec * nat -> zvec * nat -> Prop) : (forall p q, Rl p q -> lexr m (fst p) (fst q)) ->
  forall l prev, length (fst prev) = m -> (forall q, In q l -> length (fst q) = m /\ Rl prev q) -> StronglySorted Rl l ->
  forall p, In p (dedup_adj (fst prev) l) -> fst p <> fst prev /\ forall q, In q l -> fst q = fst p -> q = p \/ Rl p q.
Proof.
  intros HL. induction l as [|a l IH]; intros prev Hm Hq Hs p Hp; [contradiction|].
  inversion Hs as [|x y Hs' Ha]; subst x y. rewrite Forall_forall in Ha.
  assert (Ham : length (fst a) = m) by (apply Hq; left; reflexivity).
  assert (Hrec : In p (dedup_adj (fst a) l) -> fst p <> fst a /\ forall q, In q l -> fst q = fst p -> q = p \/ Rl p q).
  { apply (IH a Ham); [|exact Hs']. intros q Hin. split; [apply Hq; right; exact Hin|apply Ha; exact Hin]. }
  apply dedup_adj_cons in Hp. destruct Hp as [[E Hp]|[N Hp]].
  - destruct (Hrec Hp) as (H1 & H2). split; [rewrite E; exact H1|].
    intros q [<-|Hin] Eq; [congruence|auto].
  - destruct Hp as [<-|Hp].
    + split; [congruence|]. intros q [<-|Hin] Eq; [left; reflexivity|right; apply Ha; exact Hin].
    + destruct (Hrec Hp) as (H1 & H2). assert (Hpl : In p l) by (eapply dedup_adj_in; exact Hp). split.
      * intros C. apply N. assert (L1 : lexr m (fst prev) (fst a)) by (apply HL, Hq; left; reflexivity).
        assert (L2 : lexr m (fst a) (fst prev)) by (rewrite <- C; apply HL, Ha; exact Hpl).
        apply (nth_ext _ _ 0%Z 0%Z); [exact (eq_trans Hm (eq_sym Ham))|]. intros i Hi. apply (lexr_antisym m); [exact L1|exact L2|]. rewrite <- Hm. exact Hi.
      * intros q [<-|Hin] Eq; [congruence|auto].
Qed.
Lemma dedup_first m (Rl : zvec * nat -> zvec * nat -> Prop) l : (forall p q, Rl p q -> lexr m (fst p) (fst q)) ->
  (forall q, In q l -> length (fst q) = m) -> StronglySorted Rl l ->
  forall p, In p (dedup l) -> forall q, In q l -> fst q = fst p -> q = p \/ Rl p q.
Proof.
  intros HL Hm Hs p Hp q Hq Eq. destruct l as [|a l]; [contradiction|]. inversion Hs as [|x y Hs' Ha]; subst x y. rewrite Forall_forall in Ha.
  cbn [dedup] in Hp. destruct Hp as [<-|Hp].
  - destruct Hq as [<-|Hq]; [left; reflexivity|right; apply Ha; exact Hq].
  - destruct (dedup_adj_first m Rl HL l a) with (p := p) as (H1 & H2); auto.
    + apply Hm; left; reflexivity.
    + intros r Hr. split; [apply Hm; right; exact Hr|apply Ha; exact Hr].
    + destruct Hq as [<-|Hq]; [congruence|]. apply H2; assumption.
Qed.
(** the sort keeps the order of equal points *)
Definition lexR (m : nat) (R0 : zvec * nat -> zvec * nat -> Prop) (p q : zvec * nat) : Prop :=
  lexr m (fst p) (fst q) /\ ((forall i, i < m -> nth i (fst p) 0%Z = nth i (fst q) 0%Z) -> R0 p q).
Lemma realize_sort_stable m R0 l : StronglySorted R0 l -> StronglySorted (lexR m R0) (realize_sort m l).
Proof.
  intros H. unfold realize_sort. induction m as [|m IH].
  - cbn. eapply StronglySorted_impl; [|exact H]. intros a b Hab. split; [exact I|auto].
  - rewrite seq_S, fold_left_app. cbn [fold_left plus].
    eapply StronglySorted_impl; [|exact (sort_by_lex (fun p : zvec * nat => nth m (fst p) 0%Z) _ _ IH)].
    intros a b [Hl|[Ek [Hl Hr]]]; (split; [cbn; auto|]).
    + intros C. specialize (C m (Nat.lt_succ_diag_r m)). lia.
    + intros C. apply Hr. intros i Hi. apply C. lia.
Qed.
(** [p] is a sample with its own index *)
Definition own (ks : list zvec) (p : zvec * nat) : Prop := nth_error ks (snd p) = Some (fst p).
Lemma orbit_new_ne g k x : In x (orbit_new g k) -> x <> k.
Proof.
  unfold orbit_new. generalize (signed_ops g). intros ops.
  match goal with |- In _ (tl (fold_left ?f _ _)) -> _ => set (st := f) end.
  assert (I : forall ops acc, (exists t, acc = k :: t /\ ~ In k t) -> exists t, fold_left st ops acc = k :: t /\ ~ In k t).
  { clear ops x. induction ops as [|o ops IH]; intros acc Hacc; [exact Hacc|]. cbn [fold_left]. apply IH. destruct Hacc as (t & -> & Hn).
    unfold st. match goal with |- context[if ?c then _ else _] => destruct c eqn:E end; [exists t; auto|].
    eexists. split; [reflexivity|]. intros C. apply in_app_or in C. destruct C as [C|[C|[]]]; [auto|].
    rewrite C in E. unfold memb in E. cbn [existsb] in E. rewrite (proj2 (zveqb_spec k k) eq_refl) in E. discriminate E. }
  destruct (I ops [k] (ex_intro _ [] (conj eq_refl (fun H => H)))) as (t & -> & Hn). cbn [tl]. intros Hx C. subst; auto.
Qed.

Lemma sorted_split {A} (P : A -> Prop) l1 l2 : (forall p, In p l1 -> P p) -> (forall q, In q l2 -> ~ P q) ->
  StronglySorted (fun p q => P p \/ ~ P q) (l1 ++ l2).
Proof.
  intros H1 H2. induction l1 as [|a l1 IH]; cbn [app].
  - induction l2 as [|b l2 IH]; constructor; [apply IH; intros; apply H2; right; assumption|].
    apply Forall_forall. intros q Hq. right. apply H2. right. exact Hq.
  - constructor; [apply IH; intros; apply H1; right; assumption|]. apply Forall_forall. intros q _. left. apply H1. left. reflexivity.
Qed.
Lemma collect_sorted g ks : StronglySorted (fun p q => own ks p \/ ~ own ks q) (realize_collect g ks).
Proof.
  unfold realize_collect. apply sorted_split.
  - intros [x i] H. apply in_combine_seq in H. exact H.
  - intros [x i] H. apply in_flat_map in H. destruct H as [[j k] [H1 H2]]. apply in_combine_seq' in H1.
    destruct (Z.eqb (znorm2 k) 0); [contradiction|]. apply in_map_iff in H2. destruct H2 as (y & E & Hy). injection E as -> ->.
    apply orbit_new_ne in Hy. unfold own. cbn [fst snd]. rewrite H1. intros C. injection C. auto.
Qed.

(** the points of the tree with the index of their sample *)
Definition tree (s : option sym) (ks : list zvec) (l : list (zvec * nat)) : Prop :=
  match s with None => l = combine ks (seq 0 (length ks)) | Some g => realize_symmetric g ks = Some l end.
Lemma tree_spec {D} n s ks (data : list D) l : good_call n s ks data -> tree s ks l ->
  (forall x i, In (x, i) l -> image s ks x i) /\ (forall x i, image s ks x i -> exists i', In (x, i') l) /\
  (forall x, In x (map fst l) -> length x = n) /\
  (forall i k i', nth_error ks i = Some k -> In (k, i') l -> nth_error ks i' = Some k).
Proof.
  intros (H0 & HL & HW & HS) HT. destruct s as [g|]; cbn [tree image] in *.
  - destruct HS as (Hd & He). subst n. destruct (realize_symmetric_spec g ks l HW He HT) as (R1 & R2 & R3).
    assert (RI : forall x i, In (x, i) l -> exists k t, nth_error ks i = Some k /\ In t (sym_all g) /\ x = zmv (sdim g) t k) by (intros x i; exact (R1 x i)).
    split; [exact RI|]. split; [|split].
    + intros x i (k & t & Hk & Ht & ->). specialize (R2 k t (nth_error_In _ _ Hk) Ht). apply in_map_iff in R2.
      destruct R2 as ([y i'] & E & H). cbn in E. subst y. exists i'. exact H.
    + intros x Hx. apply in_map_iff in Hx. destruct Hx as ([y i] & E & H). cbn in E. subst y. destruct (RI x i H) as (k & t & _ & _ & ->).
      exact (lmv_wf Zs _ _ _).
    + intros i k i' Hk H. unfold realize_symmetric in HT. destruct ks as [|k0 ks0]; [contradiction|]. injection HT as <-. set (ks := k0 :: ks0) in *.
      assert (Hd : length k0 = sdim g) by (apply HW; left; reflexivity).
      assert (Hi : In (k, i) (realize_sort (length k0) (realize_collect g ks))).
      { eapply Permutation_in; [apply Permutation_sym, realize_sort_perm|]. unfold realize_collect. apply in_or_app. left. apply in_combine_seq. exact Hk. }
      destruct (dedup_first (sdim g) (lexR (sdim g) (fun p q => own ks p \/ ~ own ks q)) (realize_sort (length k0) (realize_collect g ks))) with (p := (k, i')) (q := (k, i)) as [E|[_ E]].
      * intros p q Hpq. apply Hpq.
      * intros q Hq. apply (realize_collect_len g ks); [exact HW|]. eapply Permutation_in; [apply realize_sort_perm|exact Hq].
      * rewrite Hd. apply realize_sort_stable, collect_sorted.
      * exact H.
      * exact Hi.
      * reflexivity.
      * injection E as ->. exact Hk.
      * destruct (E ltac:(intros; reflexivity)) as [O|O]; [exact O|]. exfalso. apply O. exact Hk.
  - subst l. split; [|split; [|split]].
    + intros x i H. apply in_combine_seq in H. exact H.
    + intros x i H. exists i. apply in_combine_seq. exact H.
    + intros x Hx. apply in_map_iff in Hx. destruct Hx as ([y i] & E & H). cbn in E. subst y. apply in_combine_seq in H. apply HW. eapply nth_error_In; exact H.
    + intros i k i' _ H. apply in_combine_seq in H. exact H.
Qed.

Lemma take_some {D} (data : list D) order : (forall i, In i order -> i < length data) ->
  exists v, take_rows data order = Some v /\ length v = length order /\
    forall j i, nth_error order j = Some i -> nth_error v j = nth_error data i.
Proof.
  induction order as [|i r IH]; intros H; [exists []; split; [reflexivity|split; [reflexivity|intros [|j] i; discriminate]]|].
  destruct IH as (v & E & L & N); [intros; apply H; right; assumption|].
  destruct (nth_error data i) as [x|] eqn:Ex; [|apply nth_error_None in Ex; specialize (H i (or_introl eq_refl)); lia].
  exists (x :: v). cbn [take_rows]. rewrite Ex, E. split; [reflexivity|]. split; [cbn; lia|].
  intros [|j] i' Hj; cbn in *; [injection Hj as <-; symmetry; exact Ex|auto].
Qed.
Lemma map_fst_combine_seq (ks : list zvec) : forall s, map fst (combine ks (seq s (length ks))) = ks.
Proof. induction ks as [|k ks IH]; intros s; cbn; [reflexivity|]. f_equal. apply IH. Qed.

Lemma nth_combine_seq (ks : list zvec) : forall s j x i, nth_error (combine ks (seq s (length ks))) j = Some (x, i) -> i = s + j /\ j < length ks.
Proof.
  induction ks as [|k ks IH]; intros s [|j] x i H; cbn in *; try discriminate; [injection H as _ <-; lia|]. apply IH in H. lia.
Qed.
(** the call succeeds, and the tree holds the points of [l] with the rows of their samples *)
Lemma call_tree {D} query n s ks (data : list D) : good_call n s ks data -> exists l vals, tree s ks l /\ length vals = length l /\
  (forall j x i, nth_error l j = Some (x, i) -> nth_error vals j = nth_error data i /\ i < length data) /\
  forall me, interpolate_unstructured D query s ks data me = Some (interp_rows D query (map fst l) vals me).
Proof.
  intros HG. pose proof HG as (H0 & HL & HW & HS). destruct ks as [|k0 ks0]; [contradiction|]. set (ks := k0 :: ks0) in *.
  destruct s as [g|].
  - destruct HS as (Hd & He). assert (HT : exists l, realize_symmetric g ks = Some l) by (eexists; reflexivity). destruct HT as (l & HT).
    destruct (tree_spec n (Some g) ks data l HG HT) as (T1 & T2 & _ & _).
    assert (B : forall x i, In (x, i) l -> i < length data).
    { intros x i H. destruct (T1 x i H) as (k & t & Hk & _). rewrite HL. apply nth_error_Some. congruence. }
    destruct (take_some data (map snd l)) as (vals & E & L & N).
    { intros i Hi. apply in_map_iff in Hi. destruct Hi as ([x i'] & <- & Hi). eapply B; exact Hi. }
    rewrite map_length in L. exists l, vals. split; [exact HT|]. split; [exact L|]. split.
    + intros j x i Hj. split; [apply N; rewrite nth_error_map, Hj; reflexivity|]. eapply B, nth_error_In; exact Hj.
    + intros me. unfold interpolate_unstructured. change ks with (k0 :: ks0). cbv iota beta.
      replace (Nat.eqb (sdim g) (length k0)) with true by (symmetry; apply Nat.eqb_eq; rewrite Hd; symmetry; apply HW; left; reflexivity).
      unfold realize_rows. change (k0 :: ks0) with ks. rewrite HT, E. cbn [option_map].
      destruct vals as [|v vals]; [|reflexivity]. exfalso. destruct l as [|p l]; [|discriminate L].
      destruct (T2 (zmv (sdim g) (zeye n) k0) 0) as (i' & []). exists k0, (zeye n). repeat split; auto.
  - exists (combine ks (seq 0 (length ks))), data. split; [reflexivity|]. split; [rewrite combine_length, seq_length, HL; lia|]. split.
    + intros j x i Hj. destruct (nth_combine_seq ks 0 j x i Hj) as (-> & J). cbn [plus]. split; [reflexivity|]. rewrite HL. exact J.
    + intros me. unfold interpolate_unstructured. change ks with (k0 :: ks0). cbv iota beta. change (k0 :: ks0) with ks. rewrite map_fst_combine_seq.
      destruct data as [|v data]; [cbn in HL; discriminate|reflexivity].
Qed.

(** ** The answer for one point *)
Definition answer {D} (s : option sym) (ks : list zvec) (data : list D) (me : R) (q : zvec) (r : option D) : Prop :=
  match r with
  | Some v => exists x i, image s ks x i /\ nth_error data i = Some v /\ closer me x q /\
      (forall y j, image s ks y j -> (dist2 x q <= dist2 y q)%Z)
  | None => forall y j, image s ks y j -> ~ closer me y q
  end.
Lemma nth_fst (l : list (zvec * nat)) j : j < length l -> exists x i, nth_error l j = Some (x, i) /\ nth j (map fst l) [] = x.
Proof.
  intros H. destruct (nth_error l j) as [[x i]|] eqn:E; [|apply nth_error_None in E; lia]. exists x, i. split; [reflexivity|].
  apply nth_error_nth. rewrite nth_error_map, E. reflexivity.
Qed.
Lemma answers {D} query n s ks (data : list D) : query_spec query -> good_call n s ks data -> exists l, tree s ks l /\
  forall me, exists f, interpolate_unstructured D query s ks data me = Some f /\ forall qs, qs <> [] ->
  exists rs, f qs = Some rs /\ length rs = length qs /\ forall j q, nth_error qs j = Some q -> exists r, nth_error rs j = Some r /\
    match r with
    | Some v => exists x i, In (x, i) l /\ nth_error data i = Some v /\ closer me x q /\ (forall y i', In (y, i') l -> (dist2 x q <= dist2 y q)%Z)
    | None => forall y i', In (y, i') l -> ~ closer me y q
    end.
Proof.
  intros HQ HG. destruct (call_tree query n s ks data HG) as (l & vals & HT & HV & HN & HC). exists l. split; [exact HT|]. intros me.
  exists (interp_rows D query (map fst l) vals me). split; [apply HC|]. intros qs Hqs.
  assert (LQ : forall q, query (map fst l) q me <= length l).
  { intros q. pose proof (HQ (map fst l) q me) as H. cbv zeta in H. rewrite map_length in H. destruct H as [(H & _)|(H & _)]; lia. }
  destruct (take_some (with_nan D vals) (map (fun k => query (map fst l) k me) qs)) as (rs & E & L & N).
  { intros i Hi. apply in_map_iff in Hi. destruct Hi as (q & <- & _). unfold with_nan. rewrite app_length, map_length. specialize (LQ q). cbn [length]. lia. }
  exists rs. split; [destruct qs; [contradiction|exact E]|]. rewrite map_length in L. split; [exact L|]. intros j q Hj.
  specialize (N j (query (map fst l) q me)). rewrite nth_error_map, Hj in N. specialize (N eq_refl).
  pose proof (HQ (map fst l) q me) as H. cbv zeta in H. rewrite map_length in H. set (i := query (map fst l) q me) in *. destruct H as [(Hi & Hc & Hm)|(Hi & Hm)].
  - destruct (nth_fst l i Hi) as (x & o & Hx & Ex). rewrite Ex in Hc, Hm. destruct (HN i x o Hx) as (Hv & Ho).
    unfold with_nan in N. rewrite nth_error_app1, nth_error_map, Hv in N by (rewrite map_length; lia).
    destruct (nth_error data o) as [v|] eqn:Ev; [|apply nth_error_None in Ev; lia]. exists (Some v). split; [exact N|].
    exists x, o. split; [eapply nth_error_In; exact Hx|]. split; [exact Ev|]. split; [exact Hc|].
    intros y i' Hy. destruct (In_nth_error _ _ Hy) as (j' & Hj'). assert (B : j' < length l) by (apply nth_error_Some; congruence).
    specialize (Hm j' B). destruct (nth_fst l j' B) as (y' & o' & Hy' & Ey'). rewrite Ey' in Hm. rewrite Hj' in Hy'. injection Hy' as -> ->. exact Hm.
  - unfold with_nan in N. rewrite nth_error_app2, map_length, HV, Hi, Nat.sub_diag in N by (rewrite map_length; lia). exists None. split; [exact N|].
    intros y i' Hy. apply Hm. apply in_map_iff. exists (y, i'). auto.
Qed.

(** every answer is the row of a nearest image of a sample, or NaN if no image is closer than max_error *)
Theorem C154_nearest : forall D query n s ks (data : list D) me, query_spec query -> good_call n s ks data ->
  exists f, interpolate_unstructured D query s ks data me = Some f /\ forall qs, qs <> [] ->
  exists rs, f qs = Some rs /\ length rs = length qs /\
    forall j q, nth_error qs j = Some q -> exists r, nth_error rs j = Some r /\ answer s ks data me q r.
Proof.
  intros D query n s ks data me HQ HG. destruct (answers query n s ks data HQ HG) as (l & HT & HA).
  destruct (tree_spec n s ks data l HG HT) as (T1 & T2 & _ & _). destruct (HA me) as (f & Ef & F). exists f. split; [exact Ef|].
  intros qs Hqs. destruct (F qs Hqs) as (rs & E & L & A). exists rs. split; [exact E|]. split; [exact L|]. intros j q Hj.
  destruct (A j q Hj) as (r & Hr & B). exists r. split; [exact Hr|]. destruct r as [v|]; cbn [answer].
  - destruct B as (x & i & Hx & Hv & Hc & Hm). exists x, i. split; [apply T1; exact Hx|]. split; [exact Hv|]. split; [exact Hc|].
    intros y i' Hy. destruct (T2 y i' Hy) as (i'' & Hin). eapply Hm; exact Hin.
  - intros y i' Hy. destruct (T2 y i' Hy) as (i'' & Hin). eapply B; exact Hin.
Qed.
Print Assumptions C154_nearest.

Lemma dist2_nonneg a : forall b, (0 <= dist2 a b)%Z.
Proof. induction a as [|x a IH]; intros [|y b]; cbn [dist2]; try lia. apply Z.add_nonneg_nonneg; [apply Z.square_nonneg|apply IH]. Qed.
Lemma dist2_refl a : dist2 a a = 0%Z.
Proof. induction a as [|x a IH]; cbn [dist2]; [reflexivity|]. rewrite IH. rewrite Z.sub_diag. reflexivity. Qed.
Lemma sq_zero (x y d : Z) : (0 <= d)%Z -> ((x - y) * (x - y) + d <= 0)%Z -> x = y /\ (d <= 0)%Z.
Proof.
  intros H1 H2. pose proof (Z.square_nonneg (x - y)) as H3. assert (E : ((x - y) * (x - y) = 0)%Z) by lia.
  apply Z.mul_eq_0 in E. split; [destruct E; lia|lia].
Qed.
Lemma dist2_zero a : forall b, length a = length b -> (dist2 a b <= 0)%Z -> a = b.
Proof.
  induction a as [|x a IH]; intros [|y b] L H; try discriminate; [reflexivity|]. cbn [dist2] in H. destruct (sq_zero _ _ _ (dist2_nonneg a b) H) as (-> & H').
  f_equal. apply IH; [injection L; auto|exact H'].
Qed.
Lemma closer_refl me a : (0 < me)%R -> closer me a a.
Proof. intros H. split; [exact H|]. rewrite dist2_refl. nra. Qed.
(** at a point of the tree: an entry with exactly this point *)
Lemma exact_point {D} query n s ks (data : list D) me : query_spec query -> good_call n s ks data -> (0 < me)%R ->
  exists l f, tree s ks l /\ interpolate_unstructured D query s ks data me = Some f /\ forall qs j x i, nth_error qs j = Some x -> image s ks x i ->
  exists rs i' v, f qs = Some rs /\ nth_error rs j = Some (Some v) /\ In (x, i') l /\ nth_error data i' = Some v.
Proof.
  intros HQ HG Hm. destruct (answers query n s ks data HQ HG) as (l & HT & HA).
  destruct (tree_spec n s ks data l HG HT) as (T1 & T2 & T3 & _). destruct (HA me) as (f & Ef & F). exists l, f. split; [exact HT|]. split; [exact Ef|].
  intros qs j x i Hj Hx. assert (Hqs : qs <> []) by (intros ->; destruct j; discriminate). destruct (F qs Hqs) as (rs & E & L & A).
  destruct (A j x Hj) as (r & Hr & B). destruct (T2 x i Hx) as (i0 & H0). destruct r as [v|].
  - destruct B as (y & i' & Hy & Hv & _ & Hmin). specialize (Hmin x i0 H0). rewrite dist2_refl in Hmin.
    assert (y = x). { apply dist2_zero; [|exact Hmin]. transitivity n; [apply T3; exact (in_map fst _ _ Hy)|symmetry; apply T3; exact (in_map fst _ _ H0)]. }
    subst y. exists rs, i', v. auto.
  - exfalso. apply (B x i0 H0). apply closer_refl. exact Hm.
Qed.
(** at a sample the row of this sample, whatever the symmetry does to the other samples *)
Theorem C154_sample : forall D query n s ks (data : list D) me, query_spec query -> good_call n s ks data -> (0 < me)%R -> NoDup ks ->
  exists f, interpolate_unstructured D query s ks data me = Some f /\ forall qs j i k, nth_error qs j = Some k -> nth_error ks i = Some k ->
  exists rs v, f qs = Some rs /\ nth_error rs j = Some (Some v) /\ nth_error data i = Some v.
Proof.
  intros D query n s ks data me HQ HG Hm HN. destruct (exact_point query n s ks data me HQ HG Hm) as (l & f & HT & Ef & F). exists f. split; [exact Ef|].
  intros qs j i k Hj Hk. destruct (tree_spec n s ks data l HG HT) as (_ & _ & _ & T4).
  assert (Hx : image s ks k i).
  { destruct s as [g|]; cbn [image]; [|exact Hk]. destruct HG as (_ & _ & HW & <- & He). exists k, (zeye (sdim g)). repeat split; auto.
    symmetry. apply lmv_1. apply HW. eapply nth_error_In; exact Hk. }
  destruct (F qs j k i Hj Hx) as (rs & i' & v & E & Hr & Hin & Hv). exists rs, v. split; [exact E|]. split; [exact Hr|].
  specialize (T4 i k i' Hk Hin). replace i with i'; [exact Hv|].
  apply (proj1 (NoDup_nth_error ks) HN); [apply nth_error_Some; congruence|]. rewrite T4. exact (eq_sym Hk).
Qed.
Print Assumptions C154_sample.
(** without equivalent samples: at every image of a sample the row of the sample *)
Theorem C154_image : forall D query n g ks (data : list D) me, query_spec query -> good_call n (Some g) ks data -> (0 < me)%R ->
  (forall x i j, image (Some g) ks x i -> image (Some g) ks x j -> i = j) ->
  exists f, interpolate_unstructured D query (Some g) ks data me = Some f /\
  forall qs j i k t, nth_error ks i = Some k -> In t (sym_all g) -> nth_error qs j = Some (zmv (sdim g) t k) ->
  exists rs v, f qs = Some rs /\ nth_error rs j = Some (Some v) /\ nth_error data i = Some v.
Proof.
  intros D query n g ks data me HQ HG Hm HU. destruct (exact_point query n (Some g) ks data me HQ HG Hm) as (l & f & HT & Ef & F). exists f. split; [exact Ef|].
  intros qs j i k t Hk Ht Hj. destruct (tree_spec n (Some g) ks data l HG HT) as (T1 & _ & _ & _).
  assert (Hx : image (Some g) ks (zmv (sdim g) t k) i) by (exists k, t; auto).
  destruct (F qs j _ i Hj Hx) as (rs & i' & v & E & Hr & Hin & Hv). exists rs, v. split; [exact E|]. split; [exact Hr|].
  rewrite (HU _ i i' Hx (T1 _ _ Hin)). exact Hv.
Qed.
Print Assumptions C154_image.

(** with fewer rows than samples a point far from all samples is an IndexError, not a row of NaN *)
Theorem C154_short : forall D query ks (data : list D) me qs q, query_spec query -> data <> [] -> length data < length ks ->
  In q qs -> (forall p, In p ks -> ~ closer me p q) ->
  exists f, interpolate_unstructured D query None ks data me = Some f /\ f qs = None.
Proof.
  intros D query ks data me qs q HQ HD HL Hq HF. unfold interpolate_unstructured. destruct ks as [|k0 ks]; [cbn in HL; lia|].
  destruct data as [|d0 data]; [contradiction|]. eexists. split; [reflexivity|]. unfold interp_rows. destruct qs as [|q0 qs]; [contradiction|].
  set (rows := with_nan D (d0 :: data)). assert (HR : length rows <= length (k0 :: ks)).
  { unfold rows, with_nan. rewrite app_length, map_length. cbn [length] in *. lia. }
  clearbody rows. revert Hq. generalize (q0 :: qs). clear q0 qs. intros qs. induction qs as [|q0 qs IH]; intros Hq; [contradiction|]. cbn [map take_rows].
  destruct Hq as [->|Hq].
  - destruct (HQ (k0 :: ks) q me) as [(H1 & H2 & _)|(H1 & _)].
    + exfalso. apply (HF _ (nth_In _ [] H1) H2).
    + rewrite H1, (proj2 (nth_error_None rows _) HR). reflexivity.
  - rewrite (IH Hq). destruct (nth_error rows _); reflexivity.
Qed.
Print Assumptions C154_short.

(** ** Example: a linear search satisfies the specification *)
Fixpoint best (pts : list zvec) (k : zvec) (me : R) (j : nat) (acc : option (nat * Z)) : option (nat * Z) :=
  match pts with
  | [] => acc
  | p :: r => best r k me (S j) (match acc with
      | Some (i, d) => if (dist2 p k <? d)%Z then Some (j, dist2 p k) else acc
      | None => if Rlt_dec 0 me then if Rlt_dec (IZR (dist2 p k)) (me * me) then Some (j, dist2 p k) else None else None
      end)
  end.
Definition search (pts : list zvec) (k : zvec) (me : R) : nat :=
  match best pts k me 0 None with Some (i, _) => i | None => length pts end.
(** what [best] knows after the points [done] *)
Definition best_inv (k : zvec) (me : R) (pts : list zvec) (acc : option (nat * Z)) : Prop :=
  match acc with
  | Some (i, d) => i < length pts /\ d = dist2 (nth i pts []) k /\ closer me (nth i pts []) k /\
      forall j, j < length pts -> (d <= dist2 (nth j pts []) k)%Z
  | None => forall p, In p pts -> ~ closer me p k
  end.
Lemma closer_le me k p q : closer me p k -> (dist2 q k <= dist2 p k)%Z -> closer me q k.
Proof. intros (H1 & H2) H. split; [exact H1|]. apply IZR_le in H. lra. Qed.
Lemma best_spec k me : forall r done acc, best_inv k me done acc -> best_inv k me (done ++ r) (best r k me (length done) acc).
Proof.
  induction r as [|p r IH]; intros done acc H; cbn [best]; [rewrite app_nil_r; exact H|].
  replace (done ++ p :: r) with ((done ++ [p]) ++ r) by (rewrite <- app_assoc; reflexivity).
  replace (S (length done)) with (length (done ++ [p])) by (rewrite app_length; cbn; lia). apply IH. clear IH.
  assert (NL : forall j, j < length (done ++ [p]) -> (j < length done /\ nth j (done ++ [p]) [] = nth j done []) \/ (j = length done /\ nth j (done ++ [p]) [] = p)).
  { intros j Hj. rewrite app_length in Hj. cbn [length] in Hj. destruct (Nat.lt_ge_cases j (length done)) as [L|L].
    - left. split; [exact L|]. apply app_nth1. exact L.
    - right. assert (j = length done) by lia. subst. split; [reflexivity|]. rewrite app_nth2, Nat.sub_diag by lia. reflexivity. }
  assert (LE : nth (length done) (done ++ [p]) [] = p) by (rewrite app_nth2, Nat.sub_diag by lia; reflexivity).
  destruct acc as [[i d]|]; cbn [best_inv] in H.
  - destruct H as (Hi & Hd & Hc & Hm). destruct (Z.ltb_spec (dist2 p k) d) as [L|L]; cbn [best_inv].
    + rewrite LE. split; [rewrite app_length; cbn; lia|]. split; [reflexivity|]. split.
      * apply (closer_le me k (nth i done [])); [exact Hc|]. rewrite <- Hd. lia.
      * intros j Hj. destruct (NL j Hj) as [(J & ->)|(J & ->)]; [specialize (Hm j J); lia|lia].
    + rewrite (app_nth1 done [p] [] Hi). split; [rewrite app_length; cbn; lia|]. split; [exact Hd|]. split; [exact Hc|].
      intros j Hj. destruct (NL j Hj) as [(J & ->)|(J & ->)]; [exact (Hm j J)|exact L].
  - destruct (Rlt_dec 0 me) as [h|h]; [destruct (Rlt_dec (IZR (dist2 p k)) (me * me)) as [h'|h']|]; cbn [best_inv].
    + rewrite LE. split; [rewrite app_length; cbn; lia|]. split; [reflexivity|]. split; [split; assumption|].
      intros j Hj. destruct (NL j Hj) as [(J & ->)|(J & ->)]; [|lia].
      destruct (Z.le_gt_cases (dist2 p k) (dist2 (nth j done []) k)) as [G|G]; [exact G|]. exfalso.
      apply (H (nth j done [])); [apply nth_In; exact J|]. apply (closer_le me k p); [split; assumption|lia].
    + intros q Hq. apply in_app_or in Hq. destruct Hq as [Hq|[<-|[]]]; [auto|]. intros (_ & C). lra.
    + intros q Hq (C & _). lra.
Qed.
Lemma search_spec : query_spec search.
Proof.
  intros pts k me. cbv zeta. unfold search. pose proof (best_spec k me pts [] None (fun p (H : In p []) => match H with end)) as H.
  cbn [app length] in H. destruct (best pts k me 0 None) as [[i d]|]; cbn [best_inv] in H.
  - left. destruct H as (Hi & Hd & Hc & Hm). split; [exact Hi|]. split; [exact Hc|]. intros j Hj. rewrite <- Hd. apply Hm. exact Hj.
  - right. split; [reflexivity|exact H].
Qed.
(** with max_error = 1/2 only the distance 0 is close enough *)
Fixpoint bestZ (pts : list zvec) (k : zvec) (j : nat) (acc : option (nat * Z)) : option (nat * Z) :=
  match pts with
  | [] => acc
  | p :: r => bestZ r k (S j) (match acc with
      | Some (i, d) => if (dist2 p k <? d)%Z then Some (j, dist2 p k) else acc
      | None => if (dist2 p k <=? 0)%Z then Some (j, dist2 p k) else None
      end)
  end.
Lemma best_half k : forall pts j acc, best pts k (1/2) j acc = bestZ pts k j acc.
Proof.
  induction pts as [|p pts IH]; intros j acc; cbn [best bestZ]; [reflexivity|]. rewrite IH. f_equal. destruct acc as [[i d]|]; [reflexivity|].
  destruct (Rlt_dec 0 (1/2)) as [_|n]; [|exfalso; lra]. destruct (Z.leb_spec (dist2 p k) 0) as [L|L], (Rlt_dec (IZR (dist2 p k)) (1/2 * (1/2))) as [h|h]; try reflexivity; exfalso.
  - apply IZR_le in L. lra.
  - assert (1 <= dist2 p k)%Z as G by lia. apply IZR_le in G. lra.
Qed.
Lemma search_half pts k : search pts k (1/2) = match bestZ pts k 0 None with Some (i, _) => i | None => length pts end.
Proof. unfold search. rewrite best_half. reflexivity. Qed.
(** the square group with two samples that are not equivalent; the answers at a sample, at an image and far away *)
Example C154_ex : match sym_square with
  | Some g => good_call 2 (Some g) [[0;0];[2;1]]%Z [10;20] /\ query_spec search /\ NoDup [[0;0];[2;1]]%Z /\
      (forall x i j, image (Some g) [[0;0];[2;1]]%Z x i -> image (Some g) [[0;0];[2;1]]%Z x j -> i = j) /\
      match interpolate_unstructured nat search (Some g) [[0;0];[2;1]]%Z [10;20] (1/2) with
      | Some f => f [[2;1];[-1;2];[0;0];[4;1]]%Z = Some [Some 20; Some 20; Some 10; None]
      | None => False
      end
  | None => False end.
Proof.
  destruct named_groups as (_ & _ & _ & _ & _ & _ & _ & _ & (g & E & Ed & _) & _). rewrite E.
  vm_compute in E. injection E as <-. clear Ed.
  split; [|split; [exact search_spec|split; [|split]]].
  - split; [discriminate|]. split; [reflexivity|]. split; [intros k [<-|[<-|[]]]; reflexivity|]. split; [reflexivity|]. vm_compute. auto 20.
  - constructor; [intros [C|[]]; discriminate|]. constructor; [intros []|constructor].
  - assert (N0 : forall t, zmv 2 t [0;0]%Z = [0;0]%Z) by (intros t; apply (zmv_zero 2 t); reflexivity).
    intros x i j (k & t & Hk & Ht & Hx) (k' & t' & Hk' & Ht' & Hx').
    destruct i as [|[|i]], j as [|[|j]]; cbn in Hk, Hk'; try reflexivity; try (destruct i; discriminate); try (destruct j; discriminate); exfalso;
      injection Hk as <-; injection Hk' as <-; rewrite Hx in Hx'; clear Hx x.
    + clear Ht. cbn [sdim] in Hx'. rewrite N0 in Hx'. revert Hx'. vm_compute in Ht'. repeat (destruct Ht' as [<-|Ht']; [discriminate|]). destruct Ht'.
    + clear Ht'. cbn [sdim] in Hx'. rewrite N0 in Hx'. revert Hx'. vm_compute in Ht. repeat (destruct Ht as [<-|Ht]; [discriminate|]). destruct Ht.
  - unfold interpolate_unstructured. match goal with |- context[realize_rows ?g ?ks ?d] => let r := eval vm_compute in (realize_rows g ks d) in change (realize_rows g ks d) with r end.
    cbn [sdim length Nat.eqb]. unfold interp_rows. cbn [map]. rewrite !search_half. vm_compute. reflexivity.
Qed.

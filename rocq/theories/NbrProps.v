(** Property C33: neighbor list edits (tight_binding_asym.py). *)
From Coq Require Import List Arith ZArith Reals Lra Lia Bool Permutation Sorted.
Import ListNotations.
From Verif Require Import SRing LMat FMat CplxR FourierModel FourierProofs BsmProofs FourierProps NbrModel.
Local Open Scope R_scope.

(** ** specification *)
Definition pairs (h : hfs) : list (rvec * cmat) := combine (hnb h) (hH h).
(** [order] sorts the list [w] *)
Definition argsort_of (w : list R) (order : list nat) : Prop :=
  Permutation order (seq 0 (length w)) /\ forall i j, (i <= j < length w)%nat -> nth (nth i order 0%nat) w 0 <= nth (nth j order 0%nat) w 0.

(** ** lemmas *)
Lemma Rltb_spec x y : reflect (x < y) (Rltb x y).
Proof. unfold Rltb. destruct (Rlt_dec x y); constructor; assumption. Qed.
Lemma Rleb_spec x y : reflect (x <= y) (Rleb x y).
Proof. unfold Rleb. destruct (Rle_dec x y); constructor; assumption. Qed.
Lemma len_eps_range : 0 < len_eps < 1. Proof. unfold len_eps. lra. Qed.
Lemma dup_eps_range : 0 < dup_eps < 1. Proof. unfold dup_eps. lra. Qed.
Lemma select_pairs {A B} (mask : list bool) (l : list A) (m : list B) : length l = length m -> length mask = length l ->
  combine (select mask l) (select mask m) = map snd (filter fst (combine mask (combine l m))).
Proof.
  revert l m. induction mask as [|b mask IH]; intros [|x l] [|y m]; intros H1 H2; try discriminate; [reflexivity|].
  unfold select in *. cbn [combine filter fst]. injection H1 as H1. injection H2 as H2. destruct b; cbn [map snd combine]; rewrite IH by assumption; reflexivity.
Qed.
Lemma filter_map_pred {A} (p : A -> bool) (l : list A) : map snd (filter fst (combine (map p l) l)) = filter p l.
Proof. induction l as [|x l IH]; [reflexivity|]. cbn [map combine filter fst]. destruct (p x); cbn [map snd]; rewrite IH; reflexivity. Qed.
Lemma map_fst_combine {A B C} (p : A -> C) (l : list A) (m : list B) : length l = length m -> map p l = map (fun xy => p (fst xy)) (combine l m).
Proof. revert m. induction l as [|x l IH]; intros [|y m] H; try discriminate; [reflexivity|]. simpl. f_equal. apply IH. injection H; auto. Qed.
Lemma map_snd_combine {A B C} (p : B -> C) (l : list A) (m : list B) : length l = length m -> map p m = map (fun xy => p (snd xy)) (combine l m).
Proof. revert m. induction l as [|x l IH]; intros [|y m] H; try discriminate; [reflexivity|]. simpl. f_equal. apply IH. injection H; auto. Qed.
Lemma select_len {A B} mask (l : list A) (m : list B) : length l = length m -> length (select mask l) = length (select mask m).
Proof.
  unfold select. rewrite !map_length. revert l m. induction mask as [|b mask IH]; intros [|x l] [|y m] H; try discriminate; try reflexivity.
  cbn [combine filter fst]. injection H as H. destruct b; cbn [length]; rewrite (IH l m) by exact H; reflexivity.
Qed.
Lemma select_le {A} mask (l : list A) : (length (select mask l) <= length l)%nat.
Proof.
  unfold select. rewrite map_length. revert l. induction mask as [|b mask IH]; intros [|x l]; try (simpl; lia).
  cbn [combine filter fst]. specialize (IH l). destruct b; cbn [length]; lia.
Qed.
Lemma vnorm0 n r : (forall a, (a < n)%nat -> r a = 0) -> vnorm n r = 0.
Proof.
  intro H. unfold vnorm. replace (dot n r r) with 0; [apply sqrt_0|]. symmetry. apply (nsum_zero Rs). intros a Ha. rewrite H by exact Ha.
  change (@s0 Rs) with 0. rg.
Qed.

(** ** C33 *)
(** exactly the pairs within the radius are kept, in order, the zero neighbor first; the number of removed ones is returned *)
Theorem C33_limit_neighbors : forall n L h h' c, wf_series n h -> limit_neighbors n L h = Some (h', c) ->
  pairs h' = filter (fun p => Rleb (vnorm n (fst p)) (L + len_eps)) (pairs h) /\ wf_series n h' /\
  nb (hnb h') 0 = nb (hnb h) 0 /\ nth 0 (hH h') fzero = nth 0 (hH h) fzero /\ (c + length (hnb h') = length (hnb h))%nat.
Proof.
  intros n L h h' c (HL & Hne & H0) E. unfold limit_neighbors in E. destruct (Rltb_spec L 0) as [|HL0]; [discriminate E|].
  injection E as <- <-. set (p := fun r => Rleb (vnorm n r) (L + len_eps)).
  destruct (hnb h) as [|r0 nbs] eqn:En; [destruct (hH h); [congruence|discriminate HL]|].
  destruct (hH h) as [|h0 Hs] eqn:EH; [congruence|].
  assert (P0 : p r0 = true).
  { unfold p. destruct (Rleb_spec (vnorm n r0) (L + len_eps)) as [|Q]; [reflexivity|]. exfalso. apply Q.
    rewrite vnorm0 by exact H0. pose proof len_eps_range. lra. }
  assert (SL := select_len (map p (r0 :: nbs)) (r0 :: nbs) (h0 :: Hs) HL).
  split; [|split; [split; [|split]|split; [|split]]]; cbn [hnb hH].
  - unfold pairs. cbn [hnb hH]. rewrite select_pairs; [|exact HL|apply map_length]. rewrite (map_fst_combine p _ _ HL).
    rewrite En, EH. apply (filter_map_pred (fun xy => p (fst xy))).
  - exact SL.
  - unfold select. cbn [map combine filter fst]. rewrite P0. discriminate.
  - unfold select. cbn [map combine filter fst]. rewrite P0. exact H0.
  - unfold select. cbn [map combine filter fst]. rewrite P0. reflexivity.
  - unfold select. cbn [map combine filter fst]. rewrite P0. reflexivity.
  - assert (Q : (length (select (map p (r0 :: nbs)) (r0 :: nbs)) <= length (r0 :: nbs))%nat).
    { apply select_le. }
    fold p. lia.
Qed.

Theorem C33_limit_neighbors_defined : forall n L h, limit_neighbors n L h <> None <-> 0 <= L.
Proof. intros n L h. unfold limit_neighbors. destruct (Rltb_spec L 0); split; intro Q; try congruence; lra. Qed.

(** the zero neighbor and every matrix of at least the given norm stay *)
Theorem C33_cleanup : forall n d m h h' c, wf_series n h -> cleanup_neighbors d m h = (h', c) ->
  pairs h' = match pairs h with [] => [] | p0 :: ps => p0 :: filter (fun p => Rleb m (mnorm d (snd p))) ps end /\ wf_series n h' /\
  (c + length (hnb h') = length (hnb h))%nat.
Proof.
  intros n d m h h' c (HL & Hne & H0) E. unfold cleanup_neighbors in E. injection E as <- <-.
  set (p := fun x => Rleb m (mnorm d x)).
  destruct (hnb h) as [|r0 nbs] eqn:En; [destruct (hH h); [congruence|discriminate HL]|].
  destruct (hH h) as [|h0 Hs] eqn:EH; [congruence|]. cbn [map]. injection HL as HL.
  assert (SL := select_len (true :: map p Hs) (r0 :: nbs) (h0 :: Hs) (f_equal S HL)).
  split; [|split; [split; [|split]|]]; cbn [hnb hH].
  - unfold pairs. cbn [hnb hH]. rewrite En, EH. rewrite select_pairs; [|cbn [length]; congruence|cbn [length]; rewrite map_length; congruence].
    cbn [combine filter fst map snd]. f_equal. rewrite (map_snd_combine p _ _ HL). apply (filter_map_pred (fun xy => p (snd xy))).
  - exact SL.
  - discriminate.
  - exact H0.
  - assert (Q := select_le (true :: map p Hs) (r0 :: nbs)). lia.
Qed.

Lemma nth_firstn_lt {A} (l : list A) c i d0 : (i < c)%nat -> nth i (firstn c l) d0 = nth i l d0.
Proof. revert l i. induction c as [|c IH]; intros l i H; [lia|]. destruct l; [reflexivity|]. destruct i; [reflexivity|]. simpl. apply IH. lia. Qed.
Lemma nth_skipn_add {A} (l : list A) c i d0 : nth i (skipn c l) d0 = nth (c + i) l d0.
Proof. revert l. induction c as [|c IH]; intros l; [reflexivity|]. destruct l; [destruct i; reflexivity|]. simpl. apply IH. Qed.
Lemma combine_app {A B} (l l' : list A) (m m' : list B) : length l = length m -> combine (l ++ l') (m ++ m') = combine l m ++ combine l' m'.
Proof. revert m. induction l as [|x l IH]; intros [|y m] H; try discriminate; [reflexivity|]. simpl. rewrite IH by (injection H; auto). reflexivity. Qed.
(** the [c] shortest neighbors are kept with their matrices, the zero neighbor first *)
Lemma take_pairs {A B} (a0 : A) (b0 : B) idx (l : list A) (m : list B) : length l = length m ->
  combine (take_idx a0 idx l) (take_idx b0 idx m) = map (fun i => nth i (combine l m) (a0, b0)) idx.
Proof. intro H. unfold take_idx. induction idx as [|i idx IH]; [reflexivity|]. cbn [map combine]. rewrite IH, combine_nth by exact H. reflexivity. Qed.
Lemma map_nth_seq {A} (d0 : A) l : map (fun i => nth i l d0) (seq 0 (length l)) = l.
Proof.
  induction l as [|x l IH]; [reflexivity|]. cbn [length seq map nth]. f_equal. rewrite <- seq_shift, map_map. exact IH.
Qed.
Lemma dot_nonneg n r : 0 <= dot n r r.
Proof.
  unfold dot. induction n as [|n IH]; [unfold nsum; simpl; lra|]. rewrite (nsum_S Rs). change (@sadd Rs) with Rplus. nra.
Qed.
Lemma vnorm_pos n r : (exists a, (a < n)%nat /\ r a <> 0) -> 0 < vnorm n r.
Proof.
  intros (a & Ha & Hr). apply sqrt_lt_R0. revert Ha. unfold dot. induction n as [|n IH]; intro Ha; [lia|].
  rewrite (nsum_S Rs). change (@sadd Rs) with Rplus. pose proof (dot_nonneg n r) as P. unfold dot in P.
  destruct (Nat.eq_dec a n) as [->|].
  - assert (0 < r n * r n) by nra. lra.
  - assert (0 < nsum (K:=Rs) n (fun a0 => r a0 * r a0)) by (apply IH; lia). nra.
Qed.
Theorem C33_limit_count : forall n c h h' r order, wf_series n h -> (1 <= c)%nat ->
  (forall l, (0 < l < length (hnb h))%nat -> exists a, (a < n)%nat /\ nb (hnb h) l a <> 0) ->
  argsort_of (map (vnorm n) (hnb h)) order -> limit_neighbor_count order c h = (h', r) ->
  (exists dropped, Permutation (pairs h' ++ dropped) (pairs h) /\
     forall p q, In p (pairs h') -> In q dropped -> vnorm n (fst p) <= vnorm n (fst q)) /\
  nb (hnb h') 0 = nb (hnb h) 0 /\ nth 0 (hH h') fzero = nth 0 (hH h) fzero /\ wf_series n h' /\
  length (hnb h') = Nat.min c (length (hnb h)) /\ (r + length (hnb h') = length (hnb h))%nat.
Proof.
  intros n c h h' r order (HL & Hne & H0) Hc Hnz (Hp & Hs) E. unfold limit_neighbor_count in E. injection E as <- <-.
  set (N := length (hnb h)) in *. rewrite map_length in Hp, Hs. fold N in Hp, Hs.
  assert (LO : length order = N) by (rewrite (Permutation_length Hp); apply seq_length).
  assert (NP : (0 < N)%nat) by (rewrite HL; destruct (hH h); [congruence|simpl; lia]).
  assert (LF : length (firstn c order) = Nat.min c N) by (rewrite firstn_length, LO; reflexivity).
  assert (NV : forall i, (i < N)%nat -> nth i (map (vnorm n) (hnb h)) 0 = vnorm n (nb (hnb h) i)).
  { intros i Hi. rewrite (nth_indep _ 0 (vnorm n (fun _ => 0))) by (rewrite map_length; exact Hi). apply (map_nth (vnorm n)). }
  assert (OL : forall i, (i < N)%nat -> (nth i order 0 < N)%nat).
  { intros i Hi. assert (Q : In (nth i order 0%nat) (seq 0 N)) by (rewrite <- Hp; apply nth_In; lia). apply in_seq in Q. lia. }
  (* the first index is 0 *)
  assert (O0 : nth 0 order 0%nat = 0%nat).
  { destruct (In_nth order 0%nat 0%nat) as (j & Hj & Ej); [rewrite Hp; apply in_seq; lia|].
    pose proof (Hs 0%nat j ltac:(lia)) as Q. rewrite Ej in Q. rewrite !NV in Q by (try apply OL; lia).
    rewrite (vnorm0 n (nb (hnb h) 0)) in Q by exact H0.
    destruct (Nat.eq_dec (nth 0 order 0%nat) 0) as [|Z]; [assumption|exfalso].
    pose proof (OL 0%nat NP) as OL0. pose proof (vnorm_pos n _ (Hnz (nth 0 order 0%nat) ltac:(lia))) as V. lra. }
  assert (HD : exists rest, firstn c order = 0%nat :: rest).
  { destruct c; [lia|]. destruct order as [|o order']; [simpl in LO; lia|]. simpl in O0. subst o. eexists. reflexivity. }
  destruct HD as (rest & HD).
  split; [|split; [|split; [|split; [split; [|split]|split]]]]; cbn [hnb hH].
  - exists (map (fun i => nth i (pairs h) ((fun _ => 0), fzero)) (skipn c order)).
    assert (EP : pairs (MkHfs (take_idx (fun _ => 0) (firstn c order) (hnb h)) (take_idx fzero (firstn c order) (hH h))) =
      map (fun i => nth i (pairs h) ((fun _ => 0), fzero)) (firstn c order)) by (apply take_pairs; exact HL).
    rewrite EP. split.
    + rewrite <- map_app, firstn_skipn.
      assert (LP : length (pairs h) = N) by (unfold pairs; rewrite combine_length; lia). rewrite <- LP in Hp.
      apply (Permutation_map (fun i => nth i (pairs h) ((fun _ => 0), fzero))) in Hp. rewrite map_nth_seq in Hp. exact Hp.
    + intros p q Hp' Hq. apply in_map_iff in Hp'. destruct Hp' as (i & <- & Hi). apply in_map_iff in Hq. destruct Hq as (j & <- & Hj).
      apply (In_nth _ _ 0%nat) in Hi. destruct Hi as (i' & Hi' & <-). apply (In_nth _ _ 0%nat) in Hj. destruct Hj as (j' & Hj' & <-).
      rewrite skipn_length, LO in Hj'. rewrite LF in Hi'. rewrite nth_firstn_lt by lia. rewrite nth_skipn_add.
      unfold pairs. rewrite !combine_nth by exact HL. cbn [fst].
      pose proof (Hs i' (c + j')%nat ltac:(lia)) as Q. rewrite !NV in Q by (apply OL; lia). exact Q.
  - rewrite HD. reflexivity.
  - rewrite HD. reflexivity.
  - unfold take_idx. rewrite !map_length. reflexivity.
  - rewrite HD. discriminate.
  - rewrite HD. exact H0.
  - unfold take_idx. rewrite map_length. exact LF.
  - unfold take_idx. rewrite !map_length, !LF. change (length (hnb h)) with N. lia.
Qed.

(** add_neighbors adds zero matrices; f is unchanged; it fails exactly when a vector is already listed *)
Theorem C33_add : forall n new h h', wf_series n h -> add_neighbors n new h = AddOk h' ->
  pairs h' = pairs h ++ map (fun r => (r, fzero)) new /\ wf_series n h' /\ forall k i j, fs_f n h' k i j = fs_f n h k i j.
Proof.
  intros n new h h' (HL & Hne & H0) E. unfold add_neighbors in E.
  destruct (existsb (is_listed n (hnb h)) new); [destruct (Nat.eqb (length new) 1); discriminate E|]. injection E as <-.
  assert (L0 : (0 < length (hH h))%nat) by (destruct (hH h); [congruence|simpl; lia]).
  split; [|split; [split; [|split]|]]; cbn [hnb hH].
  - unfold pairs. cbn [hnb hH]. rewrite combine_app by exact HL. f_equal. clear. induction new as [|r new IH]; [reflexivity|]. simpl. rewrite IH. reflexivity.
  - rewrite !app_length, map_length. congruence.
  - destruct (hH h); [congruence|discriminate].
  - intros a Ha. unfold nb. rewrite app_nth1 by lia. apply H0. exact Ha.
  - intros k i j. unfold fs_f. cbn [hnb hH]. rewrite !herm_join.
    rewrite app_length, map_length. replace (length (hH h) + length new - 1)%nat with ((length (hH h) - 1) + length new)%nat by lia.
    rewrite seq_app, csum_app. rewrite (csum_zero (seq (1 + (length (hH h) - 1)) (length new))).
    2:{ intros l Hl. apply in_seq in Hl. rewrite app_nth2 by lia.
        assert (Z : forall m, nth m (map (fun _ : rvec => (fzero : cmat)) new) fzero = fzero).
        { clear. induction new as [|r new IH]; intros [|m]; try reflexivity. apply IH. }
        rewrite Z. unfold fzero. change (@s0 Cs) with (0,0). csolve. }
    rewrite app_nth1 by exact L0.
    replace (fs_coef n (hnb h ++ new) k 0) with (fs_coef n (hnb h) k 0) by (unfold fs_coef, nb; rewrite app_nth1 by lia; reflexivity).
    rewrite (csum_ext (seq 1 (length (hH h) - 1)) _ (fun l => cadd (cmul (fs_coef n (hnb h) k l) (nth l (hH h) fzero i j))
       (cmul (cconj (fs_coef n (hnb h) k l)) (cconj (nth l (hH h) fzero j i))))).
    + set (X := csum _ _). csolve.
    + intros l Hl. apply in_seq in Hl. rewrite app_nth1 by lia. unfold fs_coef, nb. rewrite app_nth1 by lia. reflexivity.
Qed.
Theorem C33_add_ok_iff : forall n new h, (exists h', add_neighbors n new h = AddOk h') <->
  forall r x, In r new -> In x (hnb h) -> dup_eps <= vnorm n (vsub x r).
Proof.
  intros n new h. unfold add_neighbors. split.
  - intros (h' & E) r x Hr Hx. destruct (existsb (is_listed n (hnb h)) new) eqn:Q; [destruct (Nat.eqb (length new) 1); discriminate E|].
    destruct (Rltb_spec (vnorm n (vsub x r)) dup_eps) as [L|L]; [|lra]. exfalso.
    assert (T : existsb (is_listed n (hnb h)) new = true).
    { apply existsb_exists. exists r. split; [exact Hr|]. apply existsb_exists. exists x. split; [exact Hx|].
      destruct (Rltb_spec (vnorm n (vsub x r)) dup_eps); [reflexivity|contradiction]. }
    congruence.
  - intro A. destruct (existsb (is_listed n (hnb h)) new) eqn:Q; [|eexists; reflexivity]. exfalso.
    apply existsb_exists in Q. destruct Q as (r & Hr & Q). apply existsb_exists in Q. destruct Q as (x & Hx & Q).
    pose proof (A r x Hr Hx) as B. destruct (Rltb_spec (vnorm n (vsub x r)) dup_eps); [lra|discriminate Q].
Qed.

(** FALSE parts of C33: "including R=0" fails for limit_neighbor_count(0) *)
Theorem C33_limit_count_zero_refuted : exists n h order h' r, wf_series n h /\ argsort_of (map (vnorm n) (hnb h)) order /\
  limit_neighbor_count order 0 h = (h', r) /\ hnb h' = [] /\ ~ wf_series n h'.
Proof.
  exists 1%nat, chain_1, [0; 1]%nat. eexists. eexists. split; [|split; [|split; [reflexivity|split; [reflexivity|]]]].
  - repeat split. discriminate.
  - split; [apply Permutation_refl|]. intros i j [Hij Hj]. cbn [map hnb chain_1 length] in Hj.
    assert (V0 : vnorm 1 (rv1 0) = 0) by (apply vnorm0; reflexivity).
    assert (V1 : 0 < vnorm 1 (rv1 1)) by (apply vnorm_pos; exists 0%nat; split; [lia|unfold rv1; lra]).
    destruct i as [|[|i]], j as [|[|j]]; try lia; cbn [nth map hnb chain_1]; rewrite ?V0; try (change (nth 0 [rv1 0; rv1 1] (rv1 0)) with (rv1 0)); lra.
  - intros (_ & Q & _). apply Q. reflexivity.
Qed.
(** "never lists the same neighbor twice" fails: duplicates inside the added list are not noticed *)
Theorem C33_add_duplicate_refuted : exists n new h h', wf_series n h /\ NoDup (hnb h) /\ add_neighbors n new h = AddOk h' /\
  nb (hnb h') 1 = nb (hnb h') 2 /\ (2 < length (hnb h'))%nat.
Proof.
  assert (Q : exists h', add_neighbors 1 [rv1 1; rv1 1] (MkHfs [rv1 0] [cm (0,0)]) = AddOk h').
  { apply C33_add_ok_iff. intros r x Hr Hx. assert (r = rv1 1) by (destruct Hr as [|[|[]]]; congruence).
    assert (x = rv1 0) by (destruct Hx as [|[]]; congruence). subst. unfold vnorm, vsub, rv1. rewrite dot1.
    replace ((0 - 1) * (0 - 1)) with 1 by ring. rewrite sqrt_1. pose proof dup_eps_range. lra. }
  destruct Q as (h' & E). exists 1%nat, [rv1 1; rv1 1], (MkHfs [rv1 0] [cm (0,0)]), h'. split; [repeat split; discriminate|].
  split; [repeat constructor; intros []|]. split; [exact E|]. unfold add_neighbors in E.
  destruct (existsb _ _); [discriminate E|]. injection E as <-. split; [reflexivity|]. simpl. lia.
Qed.
(** neighbors 0, 1, 2 with radius 1 *)
Definition chain3 : hfs := MkHfs [rv1 0; rv1 1; rv1 2] [cm (1,0); cm (2,0); cm (3,0)].
Example C33_example : exists h', limit_neighbors 1 1 chain3 = Some (h', 1%nat) /\ hnb h' = [rv1 0; rv1 1] /\ hH h' = [cm (1,0); cm (2,0)] /\
  wf_series 1 chain3.
Proof.
  assert (V : forall x, 0 <= x -> vnorm 1 (rv1 x) = x).
  { intros x Hx. unfold vnorm. rewrite dot1. unfold rv1. apply sqrt_square. exact Hx. }
  unfold limit_neighbors, chain3. cbn [hnb hH map]. rewrite !V by lra.
  destruct (Rltb_spec 1 0); [lra|].
  pose proof len_eps_range.
  destruct (Rleb_spec 0 (1 + len_eps)); [|lra]. destruct (Rleb_spec 1 (1 + len_eps)); [|lra]. destruct (Rleb_spec 2 (1 + len_eps)); [lra|].
  eexists. split; [reflexivity|]. split; [reflexivity|]. split; [reflexivity|]. repeat split. discriminate.
Qed.
Print Assumptions C33_limit_neighbors. Print Assumptions C33_limit_count. Print Assumptions C33_add. Print Assumptions C33_add_duplicate_refuted.

(** Proofs about __eq__, __contains__, neighbor lookup, equivalence classes and the counting
    functions r_class_size / k_weight (symmetry.py l.12-62, 134-156, 760-799, 856-969). *)
From Coq Require Import List Arith ZArith Lia Bool Permutation.
Import ListNotations.
From Verif Require Import SRing LMat SymModel FinGroup SymGenProofs DetMC SymInitProofs.

(* ------------------------------------------------------------------ *)
(** *** Equality *)
Lemma sym_eq_true g h : sym_eq g h = true <->
  sdim g = sdim h /\ sinv g = sinv h /\ length (sops g) = length (sops h) /\
  (forall x, In x (sops g) -> In x (sops h)).
Proof.
  unfold sym_eq, sym_len.
  destruct (Nat.eqb_spec (sdim g) (sdim h)) as [->|Hd]; cbn [negb]; [|split; [discriminate|tauto]].
  destruct (sinv g), (sinv h); cbn [Bool.eqb negb]; try (split; [discriminate|intuition discriminate]).
  - destruct (Nat.eqb_spec (length (sops g) * 2) (length (sops h) * 2)); cbn [negb].
    + rewrite cloud_close_spec. intuition lia.
    + split; [discriminate|intuition lia].
  - destruct (Nat.eqb_spec (length (sops g) * 1) (length (sops h) * 1)); cbn [negb].
    + rewrite cloud_close_spec. intuition lia.
    + split; [discriminate|intuition lia].
Qed.

Lemma sym_eq_sound g h : NoDup (sops g) -> sym_eq g h = true ->
  sdim g = sdim h /\ sinv g = sinv h /\ (forall x, In x (sops g) <-> In x (sops h)).
Proof.
  intros Hg H. apply sym_eq_true in H. destruct H as (H1 & H2 & H3 & H4).
  repeat split; auto. intros Hx.
  apply (@NoDup_length_incl _ (sops g) (sops h) Hg); [lia|exact H4|exact Hx].
Qed.

Lemma sym_eq_sound_all g h : NoDup (sops g) -> sym_eq g h = true ->
  sdim g = sdim h /\ (forall x, In x (sym_all g) <-> In x (sym_all h)).
Proof.
  intros Hg H. destruct (sym_eq_sound g h Hg H) as (H1 & H2 & H3). split; [exact H1|].
  intros x. unfold sym_all. rewrite !in_app_iff, H2, H1.
  assert (Hm : forall f : zmat -> zmat, In x (map f (sops g)) <-> In x (map f (sops h))).
  { intros f. rewrite !in_map_iff. split; intros [y [E Hy]]; exists y; split; auto; apply H3; auto. }
  destruct (sinv h); [rewrite H3, Hm; reflexivity|rewrite H3; reflexivity].
Qed.

Lemma sym_eq_perm g h : NoDup (sops g) -> NoDup (sops h) ->
  (sym_eq g h = true <-> sdim g = sdim h /\ sinv g = sinv h /\ Permutation (sops g) (sops h)).
Proof.
  intros Hg Hh. split.
  - intros H. destruct (sym_eq_sound g h Hg H) as (H1 & H2 & H3). repeat split; auto.
    apply NoDup_Permutation; auto.
  - intros (H1 & H2 & H3). apply sym_eq_true. repeat split; auto.
    + apply Permutation_length; exact H3.
    + intros x; apply Permutation_in; exact H3.
Qed.

(** canonical objects: what the constructor builds in odd dimensions from a group with inversion,
    and from rotation groups: all operations proper *)
Definition proper (g : sym) : Prop := forall s, In s (sops g) -> (0 < zdet (sdim g) s)%Z.

Lemma proper_ops g s : proper g -> Nat.odd (sdim g) = true -> (forall s, In s (sops g) -> wfz (sdim g) s) ->
  (In s (sops g) <-> In s (sym_all g) /\ (0 < zdet (sdim g) s)%Z).
Proof.
  intros Hp Ho HW. unfold sym_all. rewrite in_app_iff. split.
  - intros H; split; [left; exact H|apply Hp, H].
  - intros [[H|H] Hd]; [exact H|]. destruct (sinv g); [|contradiction].
    apply in_map_iff in H. destruct H as [t [<- Ht]].
    rewrite zdet_neg in Hd by (apply HW, Ht). rewrite odd_even, Ho in Hd. cbn [negb] in Hd.
    specialize (Hp t Ht). lia.
Qed.

Lemma proper_inv g : proper g -> Nat.odd (sdim g) = true -> (forall s, In s (sops g) -> wfz (sdim g) s) ->
  In (zeye (sdim g)) (sops g) ->
  (sinv g = true <-> In (zneg (sdim g) (zeye (sdim g))) (sym_all g)).
Proof.
  intros Hp Ho HW He. unfold sym_all. rewrite in_app_iff. split.
  - intros ->. right. apply in_map; exact He.
  - intros [H|H].
    + specialize (Hp _ H). rewrite zdet_neg in Hp by apply wfz_eye.
      rewrite odd_even, Ho, zdet_eye in Hp. cbn [negb] in Hp. lia.
    + destruct (sinv g); [reflexivity|contradiction].
Qed.

(** for canonical objects equality is set equality of the represented operations *)
Lemma sym_eq_proper g h : sdim g = sdim h -> Nat.odd (sdim g) = true ->
  proper g -> proper h -> NoDup (sops g) -> NoDup (sops h) ->
  (forall s, In s (sops g) -> wfz (sdim g) s) -> (forall s, In s (sops h) -> wfz (sdim h) s) ->
  In (zeye (sdim g)) (sops g) -> In (zeye (sdim h)) (sops h) ->
  (sym_eq g h = true <-> forall x, In x (sym_all g) <-> In x (sym_all h)).
Proof.
  intros Hd Ho Hpg Hph Hng Hnh Hwg Hwh Heg Heh. split.
  - intros H. apply sym_eq_sound_all in H; [apply H|exact Hng].
  - intros H. apply sym_eq_perm; auto. split; [exact Hd|]. split.
    + assert (Hi : sinv g = true <-> sinv h = true).
      { rewrite (proper_inv g Hpg Ho Hwg Heg).
        rewrite (proper_inv h Hph) by (auto; rewrite <- Hd; exact Ho).
        rewrite <- Hd. apply H. }
      destruct (sinv g), (sinv h); intuition congruence.
    + apply NoDup_Permutation; auto. intros s.
      rewrite (proper_ops g s Hpg Ho Hwg).
      rewrite (proper_ops h s Hph) by (auto; rewrite <- Hd; exact Ho).
      rewrite <- Hd, H. reflexivity.
Qed.

(* ------------------------------------------------------------------ *)
(** *** Lagrange *)
Section Lagrange.
Context {T : Type} (eqb : T -> T -> bool) (mul : T -> T -> T) (one : T) (P : T -> Prop).
Hypothesis eqb_spec : forall a b, eqb a b = true <-> a = b.
Hypothesis assoc : forall a b c, mul a (mul b c) = mul (mul a b) c.
Hypothesis one_l : forall a, P a -> mul one a = a.
Hypothesis one_r : forall a, P a -> mul a one = a.

(** first element x of the list with g in x H *)
Definition coset_rep (G H : list T) (g : T) : T :=
  match find (fun x => memb eqb g (map (mul x) H)) G with Some x => x | None => g end.

Lemma lagrange G H : is_group mul one G -> is_group mul one H -> (forall a, In a G -> P a) ->
  (forall h, In h H -> In h G) -> exists m, length G = m * length H.
Proof.
  intros HG HH HP Hsub.
  pose proof HG as (Go & Gnd & Gc & Gi). pose proof HH as (Ho & Hnd & Hc & Hi).
  set (ys := nodupb eqb (map (coset_rep G H) G)).
  exists (length ys).
  rewrite (filter_length_sum eqb eqb_spec G (coset_rep G H) ys);
    [| apply nodupb_nodup; exact eqb_spec | intros s Hs; apply nodupb_in; [exact eqb_spec|apply in_map; exact Hs]].
  (* membership in a coset *)
  assert (Hmem : forall x g, memb eqb g (map (mul x) H) = true <-> exists h, In h H /\ g = mul x h).
  { intros x g. rewrite (memb_In eqb eqb_spec), in_map_iff. split; intros [h Hh]; exists h; intuition. }
  assert (Hrep : forall g, In g G -> In (coset_rep G H g) G /\ exists h, In h H /\ g = mul (coset_rep G H g) h).
  { intros g Hg. unfold coset_rep.
    destruct (find (fun x => memb eqb g (map (mul x) H)) G) as [x|] eqn:E.
    - apply find_some in E. destruct E as [Hx E]. apply Hmem in E. auto.
    - exfalso. apply (find_none _ _ E) in Hg as Hn.
      assert (memb eqb g (map (mul g) H) = true); [|congruence].
      apply Hmem. exists one. split; [exact Ho|]. symmetry; apply one_r; auto. }
  assert (Hsame : forall g g', In g G -> In g' G -> (exists h, In h H /\ g' = mul g h) ->
                  coset_rep G H g = coset_rep G H g').
  { intros g g' Hg Hg' [h [Hh ->]]. unfold coset_rep.
    assert (Hp : forall x, In x G -> memb eqb g (map (mul x) H) = memb eqb (mul g h) (map (mul x) H)).
    { intros x Hx.
      assert (memb eqb g (map (mul x) H) = true <-> memb eqb (mul g h) (map (mul x) H) = true).
      { rewrite !Hmem. split.
        - intros [k [Hk ->]]. exists (mul k h). split; [apply Hc; auto|]. rewrite assoc; reflexivity.
        - intros [k [Hk E]]. destruct (Hi h Hh) as (h' & Hh' & Hhh & _).
          exists (mul k h'). split; [apply Hc; auto|].
          rewrite <- (one_r g) by auto. rewrite <- Hhh, assoc, E, <- assoc. reflexivity. }
      destruct (memb eqb g _), (memb eqb (mul g h) _); intuition congruence. }
    assert (Hf : find (fun x => memb eqb g (map (mul x) H)) G = find (fun x => memb eqb (mul g h) (map (mul x) H)) G).
    { clear -Hp. induction G as [|x G IH]; simpl; [reflexivity|].
      rewrite (Hp x) by (left; reflexivity).
      destruct (memb eqb (mul g h) (map (mul x) H)); [reflexivity|].
      apply IH. intros y Hy; apply Hp; right; exact Hy. }
    rewrite Hf. destruct (find (fun x => memb eqb (mul g h) (map (mul x) H)) G) eqn:E; [reflexivity|].
    exfalso. apply (find_none _ _ E) in Hg as Hn.
    assert (memb eqb (mul g h) (map (mul g) H) = true); [|congruence].
    apply Hmem. exists h; auto. }
  assert (Hcount : forall y, In y ys -> length (filter (fun s => eqb (coset_rep G H s) y) G) = length H).
  { intros y Hy. apply (proj1 (nodupb_in eqb eqb_spec _ _)) in Hy. apply in_map_iff in Hy.
    destruct Hy as [g [E Hg]].
    rewrite <- (map_length (mul g) H). apply Permutation_length. apply NoDup_Permutation.
    - apply NoDup_filter; exact Gnd.
    - apply NoDup_map_inj; [|exact Hnd]. intros a b Ha Hb.
      apply (group_cancel mul one P assoc one_l G HG HP g); auto.
    - intros s. rewrite filter_In, in_map_iff, eqb_spec. split.
      + intros [Hs Es]. destruct (Hrep s Hs) as (_ & h & Hh & E1).
        destruct (Hrep g Hg) as (Hr & k & Hk & E2).
        rewrite Es, <- E in E1.
        destruct (Hi k Hk) as (k' & Hk' & Hkk & Hk'k).
        exists (mul k' h). split; [|apply Hc; auto].
        rewrite E1 at 1. rewrite E2 at 1. rewrite <- assoc. f_equal.
        rewrite assoc, Hkk. apply one_l. auto.
      + intros [h [<- Hh]]. split; [apply Gc; auto|]. rewrite <- E. symmetry.
        apply Hsame; auto. exists h; auto. }
  clearbody ys. induction ys as [|y ys IH]; [reflexivity|].
  simpl. rewrite Hcount by (left; reflexivity). rewrite IH; [reflexivity|].
  intros z Hz; apply Hcount; right; exact Hz.
Qed.
End Lagrange.

(** __contains__ *)
Lemma sym_contains_sound g h : sdim g = sdim h -> sym_contains g h = true ->
  forall x, In x (sym_all h) -> In x (sym_all g).
Proof.
  intros Hd H x. unfold sym_contains in H.
  destruct (Nat.ltb _ _); [discriminate|]. destruct (negb _); [discriminate|].
  destruct (sinv h && negb (sinv g)) eqn:E; [discriminate|].
  rewrite forallb_forall in H.
  assert (Hs : forall y, In y (sops h) -> In y (sops g)) by (intros y Hy; apply zmemb_In, H, Hy).
  unfold sym_all. rewrite !in_app_iff. intros [Hx|Hx]; [left; auto|].
  destruct (sinv h); [|contradiction]. destruct (sinv g); [|discriminate].
  right. apply in_map_iff in Hx. destruct Hx as [y [<- Hy]]. rewrite Hd. apply in_map; auto.
Qed.

Lemma sym_contains_complete g h : sdim g = sdim h -> Nat.odd (sdim g) = true ->
  proper g -> proper h ->
  (forall s, In s (sops g) -> wfz (sdim g) s) -> (forall s, In s (sops h) -> wfz (sdim h) s) ->
  is_group (zmul (sdim g)) (zeye (sdim g)) (sym_all g) ->
  is_group (zmul (sdim h)) (zeye (sdim h)) (sym_all h) ->
  In (zeye (sdim g)) (sops g) -> In (zeye (sdim h)) (sops h) ->
  (sym_contains g h = true <-> forall x, In x (sym_all h) -> In x (sym_all g)).
Proof.
  intros Hd Ho Hpg Hph Hwg Hwh HG HH Heg Heh. split; [apply sym_contains_sound; exact Hd|].
  intros Hsub.
  assert (HW : forall a, In a (sym_all g) -> wfz (sdim g) a).
  { unfold sym_all. intros a Ha. apply in_app_or in Ha. destruct Ha as [Ha|Ha]; [auto|].
    destruct (sinv g); [|contradiction]. apply in_map_iff in Ha. destruct Ha as [b [<- _]]. apply wfz_neg. }
  rewrite <- Hd in HH.
  destruct (lagrange zmeqb (zmul (sdim g)) (zeye (sdim g)) (wfz (sdim g)) zmeqb_spec
     (zmul_assoc _) (zmul_1_l _) (zmul_1_r _) (sym_all g) (sym_all h) HG HH HW Hsub) as [m Hm].
  rewrite <- !sym_len_all in Hm.
  assert (Hpos : 0 < sym_len h).
  { rewrite sym_len_all. destruct HH as (H1 & _). destruct (sym_all h); [contradiction|simpl; lia]. }
  assert (Hposg : 0 < sym_len g).
  { rewrite sym_len_all. destruct HG as (H1 & _). destruct (sym_all g); [contradiction|simpl; lia]. }
  unfold sym_contains.
  destruct (Nat.ltb_spec (sym_len g) (sym_len h)).
  { exfalso. destruct m; simpl in Hm; lia. }
  rewrite Hm, Nat.mod_mul by lia. cbn [Nat.eqb negb].
  destruct (sinv h && negb (sinv g)) eqn:E.
  - exfalso. apply andb_true_iff in E. destruct E as [E1 E2].
    assert (sinv g = true); [|destruct (sinv g); discriminate].
    apply (proper_inv g Hpg Ho Hwg Heg). apply Hsub. rewrite Hd.
    apply (proper_inv h Hph); auto. rewrite <- Hd; exact Ho.
  - apply forallb_forall. intros s Hs. apply zmemb_In.
    apply (proper_ops g s Hpg Ho Hwg). split.
    + apply Hsub. unfold sym_all. apply in_or_app; left; exact Hs.
    + rewrite Hd. apply Hph, Hs.
Qed.

(* ------------------------------------------------------------------ *)
(** *** Neighbor lookup *)
Lemma find_idx_some {T} (p : T -> bool) l j : find_idx p l = Some j ->
  exists a, nth_error l j = Some a /\ p a = true /\
  (forall i b, i < j -> nth_error l i = Some b -> p b = false).
Proof.
  revert j; induction l as [|a l IH]; simpl; intros j H; [discriminate|].
  destruct (p a) eqn:E.
  - injection H as <-. exists a; repeat split; auto. intros i b Hi; lia.
  - destruct (find_idx p l) as [j'|] eqn:E2; [|discriminate]. injection H as <-.
    destruct (IH j' eq_refl) as (b & H1 & H2 & H3). exists b; repeat split; auto.
    intros [|i] c Hi Hn; simpl in Hn; [congruence|]. apply (H3 i c); [lia|exact Hn].
Qed.

Lemma find_idx_none {T} (p : T -> bool) l : find_idx p l = None <-> forall a, In a l -> p a = false.
Proof.
  induction l as [|a l IH]; simpl; [split; auto; contradiction|].
  destruct (p a) eqn:E.
  - split; [discriminate|]. intros H. rewrite H in E by auto. discriminate.
  - destruct (find_idx p l); simpl.
    + split; [discriminate|]. intros H. assert (Some n = None) by (apply IH; auto). discriminate.
    + split; auto. intros _ b [<-|Hb]; [exact E|apply IH; auto].
Qed.

Lemma try_neighbor_spec {T} (eqb : T -> T -> bool) (neg : T -> T) (ns : list T) r :
  (forall a b, eqb a b = true <-> a = b) ->
  match try_neighbor eqb neg ns r with
  | Some (j, false) => nth_error ns j = Some r
  | Some (j, true) => nth_error ns j = Some (neg r) /\ ~ In r ns
  | None => ~ In r ns /\ ~ In (neg r) ns
  end.
Proof.
  intros Hs. unfold try_neighbor.
  assert (Hno : forall x, find_idx (eqb x) ns = None -> ~ In x ns).
  { intros x Hx Hin. apply (proj1 (find_idx_none _ _) Hx) in Hin.
    rewrite (proj2 (Hs x x) eq_refl) in Hin. discriminate. }
  destruct (find_idx (eqb r) ns) as [j|] eqn:E1.
  - apply find_idx_some in E1. destruct E1 as (a & H1 & H2 & _). apply Hs in H2. subst; exact H1.
  - destruct (find_idx (eqb (neg r)) ns) as [j|] eqn:E2.
    + apply find_idx_some in E2. destruct E2 as (a & H1 & H2 & _). apply Hs in H2. subst; auto.
    + auto.
Qed.

(* ------------------------------------------------------------------ *)
(** *** Equivalence classes *)
Section Classes.
Context {T : Type} (rel : T -> T -> bool).

Lemma filter_partition (p : T -> bool) l : Permutation l (filter p l ++ filter (fun x => negb (p x)) l).
Proof.
  induction l as [|a l IH]; simpl; [constructor|].
  destruct (p a); simpl; [constructor; exact IH|].
  rewrite IH at 1. apply Permutation_middle.
Qed.

Lemma classes_loop_perm f : forall l, length l <= f -> Permutation (concat (classes_loop rel f l)) l.
Proof.
  induction f as [|f IH]; intros l Hl; simpl.
  - destruct l; [constructor|simpl in Hl; lia].
  - destruct l as [|s rest]; [constructor|]. simpl in *. constructor.
    rewrite IH.
    + symmetry; apply filter_partition.
    + transitivity (length rest); [|lia].
      rewrite (Permutation_length (filter_partition (rel s) rest)), app_length. lia.
Qed.

Lemma classes_loop_nonempty f : forall l c, In c (classes_loop rel f l) -> c <> [].
Proof.
  induction f as [|f IH]; intros l c; simpl; [contradiction|].
  destruct l as [|s rest]; simpl; [contradiction|]. intros [<-|H]; [discriminate|eauto].
Qed.

(** two elements listed in classes i and j are related iff i = j *)
Lemma classes_loop_rel f : forall l,
  (forall a, In a l -> rel a a = true) ->
  (forall a b, In a l -> In b l -> rel a b = true -> rel b a = true) ->
  (forall a b c, In a l -> In b l -> In c l -> rel a b = true -> rel b c = true -> rel a c = true) ->
  length l <= f ->
  forall i j ci cj a b, nth_error (classes_loop rel f l) i = Some ci ->
    nth_error (classes_loop rel f l) j = Some cj -> In a ci -> In b cj ->
    (rel a b = true <-> i = j).
Proof.
  induction f as [|f IH]; intros l Hr Hsy Ht Hl i j ci cj a b Hi Hj Ha Hb; simpl in *.
  - destruct i; discriminate.
  - destruct l as [|s rest]; [destruct i; discriminate|]. simpl in *.
    set (rest' := filter (fun x => negb (rel s x)) rest) in *.
    assert (Hsub : forall x, In x rest' -> In x rest /\ rel s x = false).
    { intros x Hx. apply filter_In in Hx. destruct Hx as [Hx E]. apply negb_true_iff in E. auto. }
    assert (Hin : forall k c x, nth_error (classes_loop rel f rest') k = Some c -> In x c -> In x rest').
    { intros k c x Hk Hx. eapply Permutation_in; [apply (classes_loop_perm f rest')|].
      - transitivity (length rest); [|lia].
        rewrite (Permutation_length (filter_partition (rel s) rest)), app_length. fold rest'. lia.
      - apply in_concat. exists c; split; [eapply nth_error_In; exact Hk|exact Hx]. }
    assert (Hfst : forall x, In x (s :: filter (rel s) rest) -> (s = x \/ In x rest) /\ rel s x = true).
    { intros x [<-|Hx]; [split; [auto|apply Hr; auto]|]. apply filter_In in Hx. intuition. }
    destruct i as [|i], j as [|j]; simpl in Hi, Hj.
    + injection Hi as <-. injection Hj as <-. split; [reflexivity|intros _].
      apply Hfst in Ha, Hb. destruct Ha as [Ha1 Ha2], Hb as [Hb1 Hb2].
      apply (Ht a s b); auto.
    + injection Hi as <-. apply Hfst in Ha. destruct Ha as [Ha1 Ha2].
      apply (Hin j cj b Hj) in Hb. apply Hsub in Hb. destruct Hb as [Hb1 Hb2].
      split; [|discriminate]. intros E. exfalso.
      assert (rel s b = true) by (apply (Ht s a b); auto). congruence.
    + injection Hj as <-. apply Hfst in Hb. destruct Hb as [Hb1 Hb2].
      apply (Hin i ci a Hi) in Ha. apply Hsub in Ha. destruct Ha as [Ha1 Ha2].
      split; [|discriminate]. intros E. exfalso.
      assert (rel s a = true) by (apply (Ht s b a); auto). congruence.
    + rewrite (IH rest') with (i := i) (j := j) (ci := ci) (cj := cj); auto.
      * split; congruence.
      * intros x Hx. apply Hr. right; apply Hsub, Hx.
      * intros x y Hx Hy. apply Hsy; right; apply Hsub; assumption.
      * intros x y z Hx Hy Hz. apply Ht; right; apply Hsub; assumption.
      * transitivity (length rest); [|lia].
        rewrite (Permutation_length (filter_partition (rel s) rest)), app_length. fold rest'. lia.
Qed.

Lemma equivalence_classes_perm l : Permutation (concat (equivalence_classes rel l)) l.
Proof.
  unfold equivalence_classes. rewrite classes_loop_perm by (rewrite rev_length; lia).
  symmetry; apply Permutation_rev.
Qed.

Lemma equivalence_classes_rel l :
  (forall a, In a l -> rel a a = true) ->
  (forall a b, In a l -> In b l -> rel a b = true -> rel b a = true) ->
  (forall a b c, In a l -> In b l -> In c l -> rel a b = true -> rel b c = true -> rel a c = true) ->
  forall i j ci cj a b, nth_error (equivalence_classes rel l) i = Some ci ->
    nth_error (equivalence_classes rel l) j = Some cj -> In a ci -> In b cj ->
    (rel a b = true <-> i = j).
Proof.
  intros Hr Hs Ht. unfold equivalence_classes. apply classes_loop_rel.
  - intros a Ha; apply Hr, in_rev, Ha.
  - intros a b Ha Hb; apply Hs; apply in_rev; assumption.
  - intros a b c Ha Hb Hc; apply Ht; apply in_rev; assumption.
  - rewrite rev_length; lia.
Qed.
End Classes.

(** conjugation by a group is an equivalence relation *)
Lemma conjugated_spec n ops a b : conjugated n ops a b = true <->
  exists s, In s ops /\ zmul n s a = zmul n b s.
Proof.
  unfold conjugated. rewrite existsb_exists. split; intros [s [Hs E]]; exists s; split; auto; apply zmeqb_spec; auto.
Qed.

Lemma conjugated_equiv n ops : is_group (zmul n) (zeye n) ops ->
  (forall a, wfz n a -> conjugated n ops a a = true) /\
  (forall a b, wfz n a -> wfz n b -> conjugated n ops a b = true -> conjugated n ops b a = true) /\
  (forall a b c, conjugated n ops a b = true -> conjugated n ops b c = true -> conjugated n ops a c = true).
Proof.
  intros (Ho & Hnd & Hc & Hi). split; [|split].
  - intros a Ha. apply conjugated_spec. exists (zeye n). split; [exact Ho|].
    rewrite zmul_1_l, zmul_1_r by assumption. reflexivity.
  - intros a b Ha Hb H. apply conjugated_spec in H. destruct H as (s & Hs & E).
    destruct (Hi s Hs) as (t & Ht & Hst & Hts). apply conjugated_spec. exists t. split; [exact Ht|].
    rewrite <- (zmul_1_r n (zmul n t b)) by apply wfz_mul. rewrite <- Hst.
    rewrite <- (zmul_assoc n t b (zmul n s t)), (zmul_assoc n b s t), <- E.
    rewrite !zmul_assoc, Hts, zmul_1_l by assumption. reflexivity.
  - intros a b c H1 H2. apply conjugated_spec in H1, H2.
    destruct H1 as (s & Hs & E1), H2 as (t & Ht & E2). apply conjugated_spec.
    exists (zmul n t s). split; [apply Hc; assumption|].
    rewrite <- zmul_assoc, E1, zmul_assoc, E2, zmul_assoc. reflexivity.
Qed.

(* ------------------------------------------------------------------ *)
(** *** Counting operations that fix a point *)
Lemma app_signed_all n o v : app_signed n o v = zmv n (if fst o then zneg n (snd o) else snd o) v.
Proof. unfold app_signed. destruct (fst o); [symmetry; apply lmv_neg|reflexivity]. Qed.

Lemma signed_all g : map (fun o : bool * zmat => if fst o then zneg (sdim g) (snd o) else snd o) (signed_ops g) = sym_all g.
Proof.
  unfold signed_ops, sym_all. rewrite map_app, map_map. simpl. rewrite map_id.
  destruct (sinv g); [rewrite map_map; reflexivity|reflexivity].
Qed.

Lemma filter_map_length {A B} (f : A -> B) (p : B -> bool) l :
  length (filter (fun a => p (f a)) l) = length (filter p (map f l)).
Proof. induction l as [|a l IH]; simpl; [reflexivity|]. destruct (p (f a)); simpl; auto. Qed.

Lemma fix_count_all g k : fix_count g k = length (filter (fun s => zveqb (zmv (sdim g) s k) k) (sym_all g)).
Proof.
  unfold fix_count. rewrite <- signed_all, <- filter_map_length. f_equal.
  apply filter_ext. intros o. rewrite app_signed_all. reflexivity.
Qed.

Lemma sym_all_wf g : (forall s, In s (sops g) -> wfz (sdim g) s) -> forall s, In s (sym_all g) -> wfz (sdim g) s.
Proof.
  intros HW a Ha. unfold sym_all in Ha. apply in_app_or in Ha. destruct Ha as [Ha|Ha]; [auto|].
  destruct (sinv g); [|contradiction]. apply in_map_iff in Ha. destruct Ha as [b [<- _]]. apply wfz_neg.
Qed.

(** the distinct images of a point *)
Definition is_orbit {X T} (act : T -> X -> X) (S : list T) (x : X) (L : list X) : Prop :=
  NoDup L /\ forall y, In y L <-> exists s, In s S /\ y = act s x.

Lemma is_orbit_length {X T} (eqb : X -> X -> bool) (act : T -> X -> X) S x L :
  (forall a b, eqb a b = true <-> a = b) -> is_orbit act S x L ->
  length L = length (nodupb eqb (map (fun s => act s x) S)).
Proof.
  intros Hs [Hnd HL]. apply Permutation_length. apply NoDup_Permutation; [exact Hnd|apply nodupb_nodup; exact Hs|].
  intros y. rewrite (nodupb_in eqb Hs), HL, in_map_iff. split; intros [s H]; exists s; intuition.
Qed.

Lemma r_class_size_orbit g k L : (forall s, In s (sops g) -> wfz (sdim g) s) ->
  is_group (zmul (sdim g)) (zeye (sdim g)) (sym_all g) -> wfv (sdim g) k ->
  is_orbit (zmv (sdim g)) (sym_all g) k L ->
  sym_len g = length L * fix_count g k.
Proof.
  intros HW HG Hk HL. rewrite sym_len_all, fix_count_all.
  rewrite (is_orbit_length zveqb (zmv (sdim g)) (sym_all g) k L zveqb_spec HL).
  apply (orbit_stabiliser (zmul (sdim g)) (zeye (sdim g)) (wfz (sdim g)) (zmul_assoc _) (zmul_1_l _)
           zveqb (zmv (sdim g)) zveqb_spec (sym_all g) HG (sym_all_wf g HW) (fun v => wfv (sdim g) v)); auto.
  - intros; apply lmv_wf.
  - intros; apply lmv_mul.
  - intros; apply lmv_1; assumption.
Qed.

(** *** modulo the lattice *)
Definition vmod (D : Z) (v : zvec) : zvec := map (fun x => (x mod D)%Z) v.

Lemma vmod_length D v : length (vmod D v) = length v.
Proof. apply map_length. Qed.

Lemma vent_vmod D v i : i < length v -> vent (vmod D v) i = (vent v i mod D)%Z.
Proof.
  intros H. unfold vent, vmod.
  rewrite nth_indep with (d' := (0 mod D)%Z) by (rewrite map_length; exact H).
  apply (map_nth (fun x => (x mod D)%Z)).
Qed.

Lemma nsum_mod n D (f g : nat -> Z) : (0 < D)%Z -> (forall i, i < n -> (f i mod D = g i mod D)%Z) ->
  ((nsum (K:=Zs) n f) mod D = (nsum (K:=Zs) n g) mod D)%Z.
Proof.
  intros HD. induction n as [|n IH]; intros H; [reflexivity|].
  rewrite !nsum_S. cbn [sadd Zs car].
  rewrite Z.add_mod, IH, H, <- Z.add_mod by (try lia; intros; apply H; lia). reflexivity.
Qed.

Lemma zmv_vmod n D s v : (0 < D)%Z -> wfv n v -> vmod D (zmv n s (vmod D v)) = vmod D (zmv n s v).
Proof.
  intros HD Hv. apply (vec_ext Zs n).
  - unfold wfv. rewrite vmod_length. apply lmv_wf.
  - unfold wfv. rewrite vmod_length. apply lmv_wf.
  - intros i Hi. rewrite !vent_vmod by (unfold zmv; rewrite lmv_wf; exact Hi).
    unfold zmv. rewrite !vent_lmv by exact Hi.
    apply nsum_mod; [exact HD|]. intros j Hj. rewrite vent_vmod by (rewrite Hv; exact Hj).
    cbn [smul Zs car]. rewrite Z.mul_mod_idemp_r by lia. reflexivity.
Qed.

Lemma vmod_idem D v : (0 < D)%Z -> vmod D (vmod D v) = vmod D v.
Proof.
  intros HD. unfold vmod. rewrite map_map. apply map_ext. intros; apply Z.mod_mod; lia.
Qed.

Lemma fix_mod_spec D a b : (0 < D)%Z -> length a = length b -> (fix_mod D a b = true <-> vmod D a = vmod D b).
Proof.
  intros HD. revert b; induction a as [|x a IH]; intros [|y b] HL; simpl in *; try discriminate; [tauto|].
  unfold fix_mod in *. cbn [combine forallb]. rewrite andb_true_iff, IH by lia. cbn [fst snd].
  rewrite Z.eqb_eq. split.
  - intros [H1 H2]. f_equal; [|exact H2].
    replace x with (y + (x - y))%Z by lia. rewrite Z.add_mod, H1, Z.add_0_r, Z.mod_mod by lia. reflexivity.
  - intros H. injection H as H1 H2. split; [|exact H2].
    rewrite Zminus_mod, H1, Z.sub_diag. reflexivity.
Qed.

(** action on k-points modulo the reciprocal lattice, denominators cleared with D *)
Definition act_mod (n : nat) (D : Z) (s : zmat) (v : zvec) : zvec := vmod D (zmv n s v).

Lemma k_fix_count_all g D k : (0 < D)%Z -> wfv (sdim g) k ->
  k_fix_count g D k =
  length (filter (fun s => zveqb (act_mod (sdim g) D s (vmod D k)) (vmod D k)) (sym_all g)).
Proof.
  intros HD Hk. unfold k_fix_count. rewrite <- signed_all, <- filter_map_length. f_equal.
  apply filter_ext. intros o. rewrite app_signed_all. apply eq_true_iff_eq.
  set (s := if fst o then _ else _).
  rewrite fix_mod_spec, zveqb_spec by (try exact HD; unfold zmv; rewrite lmv_wf; symmetry; exact Hk).
  unfold act_mod. rewrite zmv_vmod by assumption. reflexivity.
Qed.

Lemma k_weight_orbit g D k L : (0 < D)%Z -> (forall s, In s (sops g) -> wfz (sdim g) s) ->
  is_group (zmul (sdim g)) (zeye (sdim g)) (sym_all g) -> wfv (sdim g) k ->
  is_orbit (act_mod (sdim g) D) (sym_all g) (vmod D k) L ->
  sym_len g = length L * k_fix_count g D k.
Proof.
  intros HD HW HG Hk HL. rewrite sym_len_all, k_fix_count_all by assumption.
  rewrite (is_orbit_length zveqb (act_mod (sdim g) D) (sym_all g) (vmod D k) L zveqb_spec HL).
  apply (orbit_stabiliser (zmul (sdim g)) (zeye (sdim g)) (wfz (sdim g)) (zmul_assoc _) (zmul_1_l _)
           zveqb (act_mod (sdim g) D) zveqb_spec (sym_all g) HG (sym_all_wf g HW)
           (fun v => wfv (sdim g) v /\ vmod D v = v)).
  - split; [unfold wfv; rewrite vmod_length; exact Hk|apply vmod_idem; exact HD].
  - intros s y Hs [Hy1 Hy2]. unfold act_mod. split.
    + unfold wfv. rewrite vmod_length. apply lmv_wf.
    + apply vmod_idem; exact HD.
  - intros a b y Ha Hb [Hy1 Hy2]. unfold act_mod. rewrite zmv_vmod by (try exact HD; apply lmv_wf).
    unfold zmv, zmul. rewrite lmv_mul. reflexivity.
  - intros y [Hy1 Hy2]. unfold act_mod, zmv, zeye. rewrite lmv_1 by exact Hy1. exact Hy2.
Qed.

Lemma k_fix_count_pos g D k : (0 < D)%Z -> wfv (sdim g) k ->
  In (zeye (sdim g)) (sym_all g) -> 0 < k_fix_count g D k.
Proof.
  intros HD Hk Ho. rewrite k_fix_count_all by assumption.
  assert (Hin : In (zeye (sdim g)) (filter (fun s => zveqb (act_mod (sdim g) D s (vmod D k)) (vmod D k)) (sym_all g))).
  { apply filter_In; split; [exact Ho|]. apply zveqb_spec. unfold act_mod, zmv, zeye.
    rewrite lmv_1 by (unfold wfv; rewrite vmod_length; exact Hk). apply vmod_idem; exact HD. }
  destruct (filter _ _); [contradiction|simpl; lia].
Qed.

Lemma fix_count_pos g k : wfv (sdim g) k -> In (zeye (sdim g)) (sym_all g) -> 0 < fix_count g k.
Proof.
  intros Hk Ho. rewrite fix_count_all.
  assert (Hin : In (zeye (sdim g)) (filter (fun s => zveqb (zmv (sdim g) s k) k) (sym_all g))).
  { apply filter_In; split; [exact Ho|]. apply zveqb_spec. apply lmv_1; exact Hk. }
  destruct (filter _ _); [contradiction|simpl; lia].
Qed.

(** the weight does not change under lattice translations of k *)
Lemma k_fix_count_periodic g D k k' : (0 < D)%Z -> wfv (sdim g) k -> wfv (sdim g) k' ->
  vmod D k = vmod D k' -> k_fix_count g D k = k_fix_count g D k'.
Proof. intros HD H1 H2 E. rewrite !k_fix_count_all by assumption. rewrite E. reflexivity. Qed.

(** at k = 0 every operation fixes the point *)
Lemma k_fix_count_zero g D : (0 < D)%Z -> k_fix_count g D (vzero (sdim g)) = sym_len g.
Proof.
  intros HD. assert (Hz : wfv (sdim g) (vzero (K:=Zs) (sdim g))) by apply wfv_vmk.
  rewrite k_fix_count_all, sym_len_all by assumption.
  assert (E : forall s, zmv (sdim g) s (vzero (sdim g)) = vzero (sdim g)).
  { intros s. apply (vec_ext Zs (sdim g)); [apply lmv_wf|exact Hz|].
    intros i Hi. unfold zmv. rewrite vent_lmv by exact Hi. unfold vzero. rewrite vent_vmk by exact Hi.
    apply nsum_zero. intros j Hj. rewrite vent_vmk by exact Hj. cbn [smul s0 Zs car]. lia. }
  induction (sym_all g) as [|s l IH]; simpl; [reflexivity|].
  assert (Hs : zveqb (act_mod (sdim g) D s (vmod D (vzero (sdim g)))) (vmod D (vzero (sdim g))) = true).
  { apply zveqb_spec. unfold act_mod. rewrite zmv_vmod by assumption. rewrite E. reflexivity. }
  rewrite Hs; cbn [length]; f_equal; apply IH.
Qed.

(** constant on orbits *)
Lemma k_fix_count_orbit g D k t : (0 < D)%Z -> (forall s, In s (sops g) -> wfz (sdim g) s) ->
  is_group (zmul (sdim g)) (zeye (sdim g)) (sym_all g) -> wfv (sdim g) k -> In t (sym_all g) ->
  k_fix_count g D (zmv (sdim g) t k) = k_fix_count g D k.
Proof.
  intros HD HW HG Hk Ht. pose proof HG as (Ho & Hnd & Hc & Hi).
  set (n := sdim g) in *.
  assert (Hmk : forall v, wfv n v -> is_orbit (act_mod n D) (sym_all g) (vmod D v)
     (nodupb zveqb (map (fun s => act_mod n D s (vmod D v)) (sym_all g)))).
  { intros v Hv. split; [apply nodupb_nodup; exact zveqb_spec|].
    intros y. rewrite (nodupb_in zveqb zveqb_spec), in_map_iff. split; intros [s H]; exists s; intuition. }
  assert (Htk : wfv n (zmv n t k)) by apply lmv_wf.
  pose proof (k_weight_orbit g D k _ HD HW HG Hk (Hmk k Hk)) as E1.
  pose proof (k_weight_orbit g D (zmv n t k) _ HD HW HG Htk (Hmk _ Htk)) as E2.
  assert (EL : length (nodupb zveqb (map (fun s => act_mod n D s (vmod D k)) (sym_all g))) =
               length (nodupb zveqb (map (fun s => act_mod n D s (vmod D (zmv n t k))) (sym_all g)))).
  { apply Permutation_length, NoDup_Permutation; try (apply nodupb_nodup; exact zveqb_spec).
    intros y. rewrite !(nodupb_in zveqb zveqb_spec), !in_map_iff.
    assert (Eact : forall s, act_mod n D s (vmod D (zmv n t k)) = act_mod n D (zmul n s t) (vmod D k)).
    { intros s. unfold act_mod. rewrite !zmv_vmod by assumption. unfold zmv, zmul. rewrite lmv_mul. reflexivity. }
    split.
    - intros [s [<- Hs]]. destruct (Hi t Ht) as (t' & Ht' & Htt & Ht't).
      exists (zmul n s t'). split; [|apply Hc; assumption].
      rewrite Eact, <- zmul_assoc, Ht't, zmul_1_r; [reflexivity|]. apply (sym_all_wf g HW), Hs.
    - intros [s [<- Hs]]. exists (zmul n s t). split; [symmetry; apply Eact|apply Hc; assumption]. }
  rewrite EL in E1. rewrite E1 in E2.
  set (m := length (nodupb zveqb (map (fun s => act_mod n D s (vmod D (zmv n t k))) (sym_all g)))) in *.
  assert (0 < m).
  { destruct (Nat.eq_dec m 0) as [Hm|Hm]; [|lia]. rewrite Hm in E1. simpl in E1.
    rewrite sym_len_all in E1. destruct (sym_all g); [contradiction|discriminate]. }
  assert (E3 : m * k_fix_count g D k = m * k_fix_count g D (zmv n t k)) by congruence.
  apply Nat.mul_cancel_l in E3; [symmetry; exact E3|lia].
Qed.

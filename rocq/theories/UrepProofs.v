(** Proofs about the model of unitary_representations.py *)
From Coq Require Import List Arith ZArith Lia Bool Permutation Setoid Morphisms.
Import ListNotations.
From Verif Require Import SRing LMat FMat FinGroup SymModel SymGenProofs SymInitProofs UrepModel.

(* ---- lists ---- *)
Lemma nth_error_combine {A B} (l : list A) (m : list B) k a b :
  nth_error (combine l m) k = Some (a, b) <-> nth_error l k = Some a /\ nth_error m k = Some b.
Proof.
  revert m k. induction l as [|x l IH]; intros m k.
  - destruct k; simpl; split; [intro H; discriminate H|intros [H _]; discriminate H|intro H; discriminate H|intros [H _]; discriminate H].
  - destruct m as [|y m]; destruct k as [|k]; simpl.
    + split; [intro H; discriminate H|intros [_ H]; discriminate H].
    + split; [intro H; discriminate H|intros [_ H]; discriminate H].
    + split; [intro H; injection H as -> ->; auto|intros [H1 H2]; injection H1 as ->; injection H2 as ->; reflexivity].
    + apply IH.
Qed.
Lemma In_combine {A B} (l : list A) (m : list B) a b :
  In (a, b) (combine l m) <-> exists k, nth_error l k = Some a /\ nth_error m k = Some b.
Proof.
  split.
  - intro H. apply In_nth_error in H. destruct H as [k H]. exists k. apply nth_error_combine; exact H.
  - intros [k H]. apply (nth_error_In _ k). apply nth_error_combine; exact H.
Qed.
Lemma find_idx_some {A} (f : A -> bool) l j : find_idx f l = Some j ->
  exists a, nth_error l j = Some a /\ f a = true /\ forall i b, i < j -> nth_error l i = Some b -> f b = false.
Proof.
  revert j. induction l as [|x l IH]; intros j H; simpl in H; [discriminate H|].
  destruct (f x) eqn:E.
  - injection H as <-. exists x. repeat split; auto. intros i b Hi. lia.
  - destruct (find_idx f l) as [i|] eqn:F; [|discriminate H]. injection H as <-.
    destruct (IH i eq_refl) as [a [H1 [H2 H3]]]. exists a. repeat split; auto.
    intros [|k] b Hk Hb; simpl in Hb; [injection Hb as <-; exact E|]. apply (H3 k b); [lia|exact Hb].
Qed.
Lemma find_idx_none {A} (f : A -> bool) l : find_idx f l = None -> forall a, In a l -> f a = false.
Proof.
  induction l as [|x l IH]; intros H a Ha; simpl in *; [contradiction|].
  destruct (f x) eqn:E; [discriminate H|].
  destruct (find_idx f l) eqn:F; [discriminate H|]. destruct Ha as [<-|Ha]; auto.
Qed.
Lemma nodup_nat_spec l : nodup_nat l = true <-> NoDup l.
Proof.
  induction l as [|a l IH]; simpl; [split; [constructor|reflexivity]|].
  rewrite andb_true_iff, negb_true_iff, IH. split.
  - intros [H1 H2]. constructor; [|exact H2]. intro Ha.
    assert (existsb (Nat.eqb a) l = true) as E by (apply existsb_exists; exists a; rewrite Nat.eqb_refl; auto).
    rewrite E in H1. discriminate H1.
  - intro H. inversion_clear H as [|? ? Ha Hl]. split; [|exact Hl].
    destruct (existsb (Nat.eqb a) l) eqn:E; [|reflexivity]. exfalso. apply Ha.
    apply existsb_exists in E. destruct E as [b [Hb Eb]]. apply Nat.eqb_eq in Eb. subst b. exact Hb.
Qed.

Lemma match_order_spec target own order : match_order target own = Some order ->
  length order = length target /\
  (forall k s, nth_error target k = Some s ->
     exists j, nth_error order k = Some j /\ nth_error own j = Some s /\
               forall i, i < j -> nth_error own i <> Some s).
Proof.
  revert order. induction target as [|s t IH]; intros order H; simpl in H.
  - injection H as <-. split; [reflexivity|]. intros [|k] s E; discriminate E.
  - destruct (find_idx (zmeqb s) own) as [j|] eqn:F; [|discriminate H].
    destruct (match_order t own) as [o|]; [|discriminate H]. injection H as <-.
    destruct (IH o eq_refl) as [Hl Ho]. split; [simpl; congruence|].
    intros [|k] s' E; simpl in E.
    + injection E as <-. exists j. apply find_idx_some in F. destruct F as [a [H1 [H2 H3]]].
      apply zmeqb_spec in H2. subst a. repeat split; auto.
      intros i Hi E. specialize (H3 i s Hi E). rewrite (proj2 (zmeqb_spec s s) eq_refl) in H3. discriminate H3.
    + apply Ho. exact E.
Qed.
Lemma match_order_complete target own : (forall s, In s target -> In s own) -> exists o, match_order target own = Some o.
Proof.
  induction target as [|s t IH]; intro H; simpl; [eauto|].
  destruct (find_idx (zmeqb s) own) as [j|] eqn:F.
  - destruct IH as [o ->]; [intros; apply H; right; assumption|]. eauto.
  - exfalso. pose proof (find_idx_none _ _ F s (H s (or_introl eq_refl))) as E.
    rewrite (proj2 (zmeqb_spec s s) eq_refl) in E. discriminate E.
Qed.
Lemma nth_error_len_eq {A B} (l : list A) (m : list B) k a : length l = length m -> nth_error l k = Some a ->
  exists b, nth_error m k = Some b.
Proof.
  intros E H. destruct (nth_error m k) eqn:F; [eauto|]. exfalso.
  apply nth_error_None in F. assert (k < length l) by (apply nth_error_Some; congruence). lia.
Qed.

(** a duplicate-free list of as many indices as the list is long hits every index *)
Lemma order_surj n (o : list nat) : NoDup o -> length o = n -> (forall j, In j o -> j < n) -> forall j, j < n -> In j o.
Proof.
  intros Hn Hl Hb j Hj.
  assert (incl (seq 0 n) o) as Hi.
  { apply NoDup_length_incl; [exact Hn| rewrite seq_length; lia |].
    intros x Hx. apply in_seq. specialize (Hb x Hx). lia. }
  apply Hi. apply in_seq. lia.
Qed.
Lemma nth_error_nth_eq {A} (l : list A) k a d0 : nth_error l k = Some a -> nth k l d0 = a.
Proof. revert k. induction l; intros [|k] H; simpl in *; try discriminate H; [congruence|auto]. Qed.

Section M.
Context {K : sring}.
Open Scope sring_scope.
Add Ring Kr : (s_rt K).
Variable ueqb : nat -> fmat K -> fmat K -> bool.
Hypothesis ueqb_spec : forall d a b, ueqb d a b = true <-> feq d d a b.

(* ---- check ---- *)
Lemma check_pair_spec n d prs s u : check_pair ueqb n d prs s u = true <->
  (exists w, In (s, w) prs) /\ forall w, In (s, w) prs -> feq d d w u.
Proof.
  unfold check_pair. rewrite andb_true_iff, forallb_forall.
  assert (Hin : forall p, In p (filter (fun p => zmeqb (fst p) s) prs) <-> In p prs /\ fst p = s).
  { intro p. rewrite filter_In. pose proof (zmeqb_spec (fst p) s). tauto. }
  split.
  - intros [H1 H2]. split.
    + destruct (filter _ prs) as [|p l] eqn:F; [discriminate H2|].
      destruct (proj1 (Hin p) (or_introl eq_refl)) as [Hp <-]. exists (snd p). rewrite <- surjective_pairing. exact Hp.
    + intros w Hw. apply ueqb_spec. apply (H1 (s, w)). apply Hin. auto.
  - intros [[w Hw] H]. split.
    + intros p Hp. apply Hin in Hp. destruct Hp as [Hp <-]. apply ueqb_spec. apply H.
      rewrite <- surjective_pairing. exact Hp.
    + destruct (filter _ prs) eqn:F; [|reflexivity].
      assert (In (s, w) (@nil (zmat * fmat K))) as C by (apply Hin; auto). destruct C.
Qed.

Definition pairs (r : urep K) := combine (sops (usym r)) (uU r).
Lemma urep_check_spec (r : urep K) : urep_check ueqb r = true <->
  (forall s1 u1 s2 u2, In (s1, u1) (pairs r) -> In (s2, u2) (pairs r) ->
     (exists w, In (zmul (sdim (usym r)) s1 s2, w) (pairs r)) /\
     forall w, In (zmul (sdim (usym r)) s1 s2, w) (pairs r) -> feq (udim r) (udim r) w (fmul (udim r) u1 u2)) /\
  (sinv (usym r) = true -> forall u, In u (uU r) ->
     feq (udim r) (udim r) (fmul (udim r) (inv_mat (usplit r)) u) (fmul (udim r) u (inv_mat (usplit r)))).
Proof.
  unfold urep_check. cbv zeta. fold (pairs r). rewrite andb_true_iff, forallb_forall, orb_true_iff, forallb_forall, negb_true_iff.
  split; intros [H1 H2]; split.
  - intros s1 u1 s2 u2 I1 I2. specialize (H1 _ I1). rewrite forallb_forall in H1. specialize (H1 _ I2).
    apply check_pair_spec in H1. exact H1.
  - intros Hi u Hu. apply ueqb_spec. destruct H2 as [H2|H2]; [congruence|auto].
  - intros [s1 u1] I1. apply forallb_forall. intros [s2 u2] I2. apply check_pair_spec. apply H1; assumption.
  - destruct (sinv (usym r)); [right|left; reflexivity]. intros u Hu. apply ueqb_spec. auto.
Qed.

(* ---- match_sym ---- *)
Lemma urep_match_inv (r : urep K) g r' : urep_match r g = Some r' ->
  length (sops g) = length (sops (usym r)) /\ sdim g = sdim (usym r) /\ sinv g = sinv (usym r) /\
  exists order, match_order (sops g) (sops (usym r)) = Some order /\ NoDup order /\
                r' = MkUrep g (udim r) (map (fun j => nth j (uU r) fzero) order) (usplit r).
Proof.
  unfold urep_match. intro H.
  destruct (Nat.eqb (length (sops g)) _) eqn:E1; cbn [negb] in H; [|discriminate H]. apply Nat.eqb_eq in E1.
  destruct (Nat.eqb (sdim g) _) eqn:E2; cbn [negb] in H; [|discriminate H]. apply Nat.eqb_eq in E2.
  destruct (Bool.eqb (sinv g) _) eqn:E3; cbn [negb] in H; [|discriminate H]. apply eqb_prop in E3.
  destruct (match_order _ _) as [o|] eqn:E4; [|discriminate H].
  destruct (nodup_nat o) eqn:E5; [|discriminate H]. injection H as <-.
  repeat split; auto. exists o. repeat split; auto. apply nodup_nat_spec; exact E5.
Qed.

Lemma urep_match_perm (r : urep K) g r' : urep_match r g = Some r' ->
  NoDup (sops g) /\ NoDup (sops (usym r)) /\ Permutation (sops g) (sops (usym r)).
Proof.
  intro H. apply urep_match_inv in H. destruct H as [Hl [_ [_ [o [Ho [Hn _]]]]]].
  apply match_order_spec in Ho. destruct Ho as [Hlo Ho].
  assert (Hb : forall j, In j o -> j < length (sops (usym r))).
  { intros j Hj. apply In_nth_error in Hj. destruct Hj as [k Hk].
    destruct (nth_error_len_eq o (sops g) k j Hlo Hk) as [s Hs].
    destruct (Ho k s Hs) as [j' [E1 [E2 _]]]. assert (j' = j) by congruence. subst j'.
    apply nth_error_Some. congruence. }
  assert (Hsur := order_surj _ o Hn (eq_trans Hlo Hl) Hb).
  assert (N1 : NoDup (sops g)).
  { apply NoDup_nth_error. intros i j Hi Hij.
    destruct (nth_error (sops g) i) as [s|] eqn:Ei; [|apply nth_error_None in Ei; lia].
    symmetry in Hij. destruct (Ho i s Ei) as [a [A1 [A2 A3]]]. destruct (Ho j s Hij) as [b [B1 [B2 B3]]].
    assert (a = b). { destruct (lt_eq_lt_dec a b) as [[L|L]|L]; auto; exfalso; [apply (B3 a L A2)|apply (A3 b L B2)]. }
    subst b. apply (proj1 (NoDup_nth_error o) Hn); [lia|congruence]. }
  assert (N2 : NoDup (sops (usym r))).
  { apply NoDup_nth_error. intros i j Hi Hij.
    destruct (nth_error (sops (usym r)) i) as [s|] eqn:Ei; [|apply nth_error_None in Ei; lia].
    symmetry in Hij.
    assert (Hfirst : forall x, nth_error (sops (usym r)) x = Some s -> forall y, y < x -> nth_error (sops (usym r)) y <> Some s).
    { intros x Hx y Hy. assert (x < length (sops (usym r))) as Lx by (apply nth_error_Some; congruence).
      pose proof (Hsur x Lx) as Hx'. apply In_nth_error in Hx'. destruct Hx' as [k Hk].
      destruct (nth_error_len_eq o (sops g) k x Hlo Hk) as [s' Hs'].
      destruct (Ho k s' Hs') as [j' [E1 [E2 E3]]]. assert (j' = x) by congruence. subst j'.
      assert (s' = s) by congruence. subst s'. auto. }
    destruct (lt_eq_lt_dec i j) as [[L|L]|L]; auto; exfalso; [apply (Hfirst j Hij i L Ei)|apply (Hfirst i Ei j L Hij)]. }
  repeat split; auto. apply NoDup_Permutation; auto.
  intro s. assert (incl (sops g) (sops (usym r))) as I.
  { intros x Hx. apply In_nth_error in Hx. destruct Hx as [k Hk]. destruct (Ho k x Hk) as [j [_ [E _]]].
    eapply nth_error_In; exact E. }
  split; [apply I|]. apply NoDup_length_incl; [exact N1|lia|exact I].
Qed.

Lemma urep_match_U (r : urep K) g r' k s : length (uU r) = length (sops (usym r)) -> urep_match r g = Some r' ->
  nth_error (sops g) k = Some s ->
  exists j u, nth_error (sops (usym r)) j = Some s /\ nth_error (uU r) j = Some u /\ nth_error (uU r') k = Some u.
Proof.
  intros Hu H Hs. apply urep_match_inv in H. destruct H as [Hl [_ [_ [o [Ho [Hn ->]]]]]].
  apply match_order_spec in Ho. destruct Ho as [Hlo Ho]. destruct (Ho k s Hs) as [j [E1 [E2 _]]].
  destruct (nth_error_len_eq _ (uU r) j s (eq_sym Hu) E2) as [u Eu]. exists j, u. repeat split; auto.
  cbn [uU]. rewrite nth_error_map, E1. cbn. f_equal. apply nth_error_nth_eq; exact Eu.
Qed.
Lemma urep_match_length (r : urep K) g r' : urep_match r g = Some r' -> length (uU r') = length (sops g).
Proof.
  intro H. apply urep_match_inv in H. destruct H as [Hl [_ [_ [o [Ho [Hn ->]]]]]].
  apply match_order_spec in Ho. cbn. rewrite map_length. tauto.
Qed.
Lemma urep_match_pairs (r : urep K) g r' s u : length (uU r) = length (sops (usym r)) -> urep_match r g = Some r' ->
  (In (s, u) (pairs r') <-> In (s, u) (pairs r)).
Proof.
  intros Hu H. pose proof (urep_match_perm _ _ _ H) as [N1 [N2 P]].
  pose proof (urep_match_U r g r') as HU.
  assert (Hg : usym r' = g) by (apply urep_match_inv in H; destruct H as [_ [_ [_ [o [_ [_ ->]]]]]]; reflexivity).
  unfold pairs. rewrite Hg, !In_combine. split.
  - intros [k [E1 E2]]. destruct (HU k s Hu H E1) as [j [w [F1 [F2 F3]]]]. exists j. split; [exact F1|congruence].
  - intros [j [E1 E2]]. assert (In s (sops g)) as Hs.
    { apply Permutation_in with (sops (usym r)); [symmetry; exact P|]. eapply nth_error_In; exact E1. }
    apply In_nth_error in Hs. destruct Hs as [k Hk]. destruct (HU k s Hu H Hk) as [j' [w [F1 [F2 F3]]]].
    assert (j' = j). { apply (proj1 (NoDup_nth_error _) N2); [apply nth_error_Some; congruence|congruence]. }
    subst j'. exists k. split; [exact Hk|congruence].
Qed.
Lemma urep_match_some (r : urep K) g : NoDup (sops (usym r)) -> Permutation (sops g) (sops (usym r)) ->
  sdim g = sdim (usym r) -> sinv g = sinv (usym r) -> exists r', urep_match r g = Some r'.
Proof.
  intros N P E1 E2. unfold urep_match. rewrite (Permutation_length P), Nat.eqb_refl, E1, Nat.eqb_refl, E2, eqb_reflx.
  cbn [negb].
  destruct (match_order_complete (sops g) (sops (usym r))) as [o Ho].
  { intros s Hs. apply (Permutation_in _ P Hs). }
  rewrite Ho. replace (nodup_nat o) with true; [eauto|]. symmetry. apply nodup_nat_spec.
  apply match_order_spec in Ho. destruct Ho as [Hlo Ho].
  assert (Ng : NoDup (sops g)) by (apply Permutation_NoDup with (sops (usym r)); [symmetry; exact P|exact N]).
  apply NoDup_nth_error. intros i j Hi Hij.
  destruct (nth_error o i) as [a|] eqn:Ea; [|apply nth_error_None in Ea; lia]. symmetry in Hij.
  destruct (nth_error_len_eq o (sops g) i a Hlo Ea) as [s Hs].
  destruct (nth_error_len_eq o (sops g) j a Hlo Hij) as [t Ht].
  destruct (Ho i s Hs) as [a1 [A1 [A2 _]]]. destruct (Ho j t Ht) as [a2 [B1 [B2 _]]].
  assert (a1 = a) by congruence. assert (a2 = a) by congruence. subst a1 a2.
  apply (proj1 (NoDup_nth_error _) Ng); [apply nth_error_Some; congruence|congruence].
Qed.

(* ---- direct sums ---- *)
Lemma dsum_mul d1 d2 (a b a' b' : fmat K) :
  feq (d1 + d2) (d1 + d2) (fmul (d1 + d2) (dsum d1 a b) (dsum d1 a' b')) (dsum d1 (fmul d1 a a') (fmul d2 b b')).
Proof.
  intros i j Hi Hj. unfold fmul at 1. rewrite nsum_plus.
  assert (L1 : forall l, (l < d1)%nat -> dsum d1 a b i l * dsum d1 a' b' l j =
    if Nat.ltb i d1 && Nat.ltb j d1 then a i l * a' l j else 0).
  { intros l Hl. unfold dsum. rewrite (proj2 (Nat.ltb_lt l d1) Hl), (proj2 (Nat.leb_gt d1 l) Hl), !andb_true_r, !andb_false_r, andb_true_l, andb_false_l.
    destruct (Nat.ltb i d1), (Nat.ltb j d1); cbn; ring. }
  assert (L2 : forall l, (l < d2)%nat -> dsum d1 a b i (d1 + l)%nat * dsum d1 a' b' (d1 + l)%nat j =
    if Nat.leb d1 i && Nat.leb d1 j then b (i - d1)%nat l * b' l (j - d1)%nat else 0).
  { intros l Hl. unfold dsum. rewrite (proj2 (Nat.ltb_ge (d1 + l)%nat d1)), (proj2 (Nat.leb_le d1 (d1 + l)%nat)), !andb_true_r, !andb_false_r, andb_true_l, andb_false_l by lia.
    replace (d1 + l - d1)%nat with l by lia. destruct (Nat.leb d1 i), (Nat.leb d1 j); cbn; ring. }
  rewrite (nsum_ext K d1 _ _ L1), (nsum_ext K d2 _ _ L2). unfold dsum, fmul.
  rewrite !Nat.leb_antisym. destruct (Nat.ltb i d1) eqn:Ei, (Nat.ltb j d1) eqn:Ej; cbn.
  - rewrite (nsum_zero K d2); [ring|auto].
  - rewrite (nsum_zero K d1), (nsum_zero K d2); auto; ring.
  - rewrite (nsum_zero K d1), (nsum_zero K d2); auto; ring.
  - rewrite (nsum_zero K d1); [ring|auto].
Qed.
Lemma dsum_feq d1 d2 (a b a' b' : fmat K) : feq d1 d1 a a' -> feq d2 d2 b b' -> feq (d1 + d2) (d1 + d2) (dsum d1 a b) (dsum d1 a' b').
Proof.
  intros Ha Hb i j Hi Hj. unfold dsum. rewrite !Nat.leb_antisym.
  destruct (Nat.ltb i d1) eqn:Ei, (Nat.ltb j d1) eqn:Ej; cbn; auto.
  - apply Ha; apply Nat.ltb_lt; assumption.
  - apply Nat.ltb_ge in Ei, Ej. apply Hb; lia.
Qed.
Lemma inv_mat_dsum d1 d2 s1 s2 : (s1 = d1 \/ (s2 = 0%nat /\ s1 <= d1)%nat) ->
  feq (d1 + d2) (d1 + d2) (inv_mat (K:=K) (s1 + s2)) (dsum d1 (inv_mat s1) (inv_mat s2)).
Proof.
  intros H i j Hi Hj. unfold inv_mat, dsum. rewrite !Nat.leb_antisym.
  destruct (Nat.ltb_spec i d1), (Nat.ltb_spec j d1); cbn [andb negb];
    repeat match goal with
           | |- context [Nat.eqb ?a ?b] => destruct (Nat.eqb_spec a b); try lia
           | |- context [Nat.ltb ?a ?b] => destruct (Nat.ltb_spec a b); try lia end; reflexivity.
Qed.

Variable cast : K -> K.
Definition castable d (u : fmat K) := forall i j, i < d -> j < d -> cast (u i j) = u i j.
Lemma fcast_dsum d1 d2 (a b : fmat K) : cast 0 = 0 -> castable d1 a -> castable d2 b ->
  feq (d1 + d2) (d1 + d2) (fcast cast (dsum d1 a b)) (dsum d1 a b).
Proof.
  intros H0 Ha Hb i j Hi Hj. unfold fcast, dsum. rewrite !Nat.leb_antisym.
  destruct (Nat.ltb_spec i d1), (Nat.ltb_spec j d1); cbn; auto. apply Hb; lia.
Qed.

(** the order used by __add__ : b first iff [sw] *)
Definition add_order (a b : urep K) : option bool :=
  if Nat.eqb (usplit a) 0 then Some true
  else if Nat.eqb (usplit a) (udim a) then Some false
  else if Nat.eqb (usplit b) 0 then Some false
  else if Nat.eqb (usplit b) (udim b) then Some true else None.

Lemma urep_add_inv (a b0 c : urep K) : urep_add cast a b0 = Some c ->
  exists b sw, urep_match b0 (usym a) = Some b /\ add_order a b = Some sw /\
   c = MkUrep (usym a) (udim a + udim b)
         (map (fun uu => fcast cast (if sw : bool then dsum (udim b) (snd uu) (fst uu) else dsum (udim a) (fst uu) (snd uu)))
              (combine (uU a) (uU b))) (usplit a + usplit b).
Proof.
  unfold urep_add. destruct (urep_match b0 (usym a)) as [b|] eqn:E; [|intro H; discriminate H].
  fold (add_order a b). cbv zeta. destruct (add_order a b) as [sw|] eqn:F; intro H; [|discriminate H].
  injection H as <-. exists b, sw. auto.
Qed.
Lemma add_order_split (a b : urep K) sw : usplit a <= udim a -> usplit b <= udim b -> add_order a b = Some sw ->
  if sw then usplit b = udim b \/ (usplit a = 0 /\ usplit b <= udim b)%nat
  else usplit a = udim a \/ (usplit b = 0 /\ usplit a <= udim a)%nat.
Proof.
  intros Ha Hb. unfold add_order.
  repeat match goal with |- context [Nat.eqb ?x ?y] => destruct (Nat.eqb_spec x y) end; intro H; try discriminate H;
   injection H as <-; lia.
Qed.

(** first/second summand in the order used *)
Definition fst_sum {A} (sw : bool) (a b : A) := if sw then b else a.
Definition snd_sum {A} (sw : bool) (a b : A) := if sw then a else b.
Lemma add_pairs (a b : urep K) sw (c := MkUrep (usym a) (udim a + udim b)
         (map (fun uu => fcast cast (if sw : bool then dsum (udim b) (snd uu) (fst uu) else dsum (udim a) (fst uu) (snd uu)))
              (combine (uU a) (uU b))) (usplit a + usplit b)) :
  usym b = usym a -> length (uU a) = length (sops (usym a)) -> length (uU b) = length (sops (usym a)) ->
  cast 0 = 0 -> (forall u, In u (uU a) -> castable (udim a) u) -> (forall u, In u (uU b) -> castable (udim b) u) ->
  (forall k s w, nth_error (sops (usym a)) k = Some s -> nth_error (uU c) k = Some w -> exists ua ub,
     nth_error (uU a) k = Some ua /\ nth_error (uU b) k = Some ub /\
     feq (udim a + udim b) (udim a + udim b) w (dsum (fst_sum sw (udim a) (udim b)) (fst_sum sw ua ub) (snd_sum sw ua ub))) /\
  length (uU c) = length (sops (usym a)).
Proof.
  intros E La Lb H0 Ca Cb. split.
  - intros k s w Hs Hw. destruct (nth_error_len_eq _ (uU a) k s (eq_sym La) Hs) as [ua Ea].
    destruct (nth_error_len_eq _ (uU b) k s (eq_sym Lb) Hs) as [ub Eb].
    exists ua, ub. repeat split; auto. unfold c in Hw. cbn [uU] in Hw. rewrite nth_error_map in Hw.
    rewrite (proj2 (nth_error_combine _ _ k ua ub)) in Hw by auto. injection Hw as <-.
    apply nth_error_In in Ea, Eb. destruct sw; cbn [fst snd fst_sum snd_sum].
    + rewrite (Nat.add_comm (udim a)). apply fcast_dsum; auto.
    + apply fcast_dsum; auto.
  - unfold c. cbn [uU]. rewrite map_length, combine_length. lia.
Qed.

Lemma dsum_comm_inv d1 d2 (v1 v2 u1 u2 : fmat K) :
  feq d1 d1 (fmul d1 v1 u1) (fmul d1 u1 v1) -> feq d2 d2 (fmul d2 v2 u2) (fmul d2 u2 v2) ->
  feq (d1 + d2) (d1 + d2) (fmul (d1 + d2) (dsum d1 v1 v2) (dsum d1 u1 u2)) (fmul (d1 + d2) (dsum d1 u1 u2) (dsum d1 v1 v2)).
Proof. intros H1 H2. rewrite !dsum_mul. apply dsum_feq; assumption. Qed.

Lemma urep_add_check (a b0 c : urep K) : usplit a <= udim a -> usplit b0 <= udim b0 ->
  length (uU a) = length (sops (usym a)) -> length (uU b0) = length (sops (usym b0)) ->
  cast 0 = 0 -> (forall u, In u (uU a) -> castable (udim a) u) -> (forall u, In u (uU b0) -> castable (udim b0) u) ->
  urep_check ueqb a = true -> urep_check ueqb b0 = true -> urep_add cast a b0 = Some c -> urep_check ueqb c = true.
Proof.
  intros Sa Sb La Lb H0 Ca Cb Ka Kb H. apply urep_add_inv in H. destruct H as [b [sw [Hm [Ho Hc]]]].
  assert (Hlb := urep_match_length _ _ _ Hm).
  assert (Hpb : forall s u, In (s, u) (pairs b) <-> In (s, u) (pairs b0)) by (intros; apply (urep_match_pairs _ _ _ _ _ Lb Hm)).
  pose proof (urep_match_perm _ _ _ Hm) as [Na [_ _]].
  pose proof (urep_match_inv _ _ _ Hm) as [Hl [Hd [Hi [o [Hor [_ Hb]]]]]].
  assert (Eb : usym b = usym a) by (rewrite Hb; reflexivity).
  assert (Db : udim b = udim b0) by (rewrite Hb; reflexivity).
  assert (Pb : usplit b = usplit b0) by (rewrite Hb; reflexivity).
  assert (InU : forall u, In u (uU b) -> In u (uU b0)).
  { intros u Hu. apply In_nth_error in Hu. destruct Hu as [k Hk].
    destruct (nth_error_len_eq _ (sops (usym a)) k u Hlb Hk) as [s Hs].
    assert (In (s, u) (pairs b)) as X by (unfold pairs; rewrite Eb; apply In_combine; eauto).
    apply Hpb in X. unfold pairs in X. apply in_combine_r in X. exact X. }
  assert (Cb' : forall u, In u (uU b) -> castable (udim b) u) by (intros u Hu; rewrite Db; auto).
  destruct (add_pairs a b sw Eb La Hlb H0 Ca Cb') as [Hp Hlc]. rewrite <- Hc in Hp, Hlc.
  apply urep_check_spec in Ka. apply urep_check_spec in Kb.
  destruct Ka as [Ka1 Ka2]. destruct Kb as [Kb1 Kb2].
  assert (Ec : usym c = usym a) by (rewrite Hc; reflexivity).
  assert (Dc : udim c = (udim a + udim b)%nat) by (rewrite Hc; reflexivity).
  assert (Pc : usplit c = (usplit a + usplit b)%nat) by (rewrite Hc; reflexivity).
  assert (Dsw : (udim a + udim b = fst_sum sw (udim a) (udim b) + snd_sum sw (udim a) (udim b))%nat) by (destruct sw; cbn; lia).
  assert (Hpc : forall s w, In (s, w) (pairs c) -> exists ua ub, In (s, ua) (pairs a) /\ In (s, ub) (pairs b0) /\
     feq (udim a + udim b) (udim a + udim b) w (dsum (fst_sum sw (udim a) (udim b)) (fst_sum sw ua ub) (snd_sum sw ua ub))).
  { intros s w Hw. unfold pairs in Hw. rewrite Ec in Hw. apply In_combine in Hw. destruct Hw as [k [E1 E2]].
    destruct (Hp k s w E1 E2) as [ua [ub [A [B F]]]]. exists ua, ub. repeat split; auto.
    - apply In_combine. eauto.
    - apply Hpb. unfold pairs. rewrite Eb. apply In_combine. eauto. }
  apply urep_check_spec. rewrite Ec, Dc, Pc. split.
  - intros s1 w1 s2 w2 I1 I2.
    destruct (Hpc _ _ I1) as [a1 [b1 [A1 [B1 F1]]]]. destruct (Hpc _ _ I2) as [a2 [b2 [A2 [B2 F2]]]].
    destruct (Ka1 _ _ _ _ A1 A2) as [[wa Wa] Ua]. destruct (Kb1 _ _ _ _ B1 B2) as [_ Ub]. rewrite <- Hd in Ub.
    split.
    + unfold pairs in Wa. apply In_combine in Wa. destruct Wa as [k [E1 E2]].
      destruct (nth_error_len_eq _ (uU c) k _ (eq_sym Hlc) E1) as [w Ew]. exists w. unfold pairs. rewrite Ec. apply In_combine. eauto.
    + intros w Hw. destruct (Hpc _ _ Hw) as [a3 [b3 [A3 [B3 F3]]]]. rewrite F3, F1, F2.
      specialize (Ua _ A3). specialize (Ub _ B3). rewrite <- Db in Ub.
      rewrite Dsw. rewrite dsum_mul. destruct sw; cbn in *; apply dsum_feq; assumption.
  - intros Hinv w Hw. apply In_nth_error in Hw. destruct Hw as [k Hk].
    destruct (nth_error_len_eq _ (sops (usym a)) k w Hlc Hk) as [s Hs].
    assert (In (s, w) (pairs c)) as X by (unfold pairs; rewrite Ec; apply In_combine; eauto).
    destruct (Hpc _ _ X) as [ua [ub [A [B F]]]].
    assert (Ia := Ka2 Hinv ua). assert (Ib := Kb2 (eq_trans (eq_sym Hi) Hinv) ub).
    unfold pairs in A, B. apply in_combine_r in A, B. specialize (Ia A). specialize (Ib B). rewrite <- Db, <- Pb in Ib.
    assert (Hs2 := add_order_split a b sw Sa ltac:(lia) Ho).
    assert (V : feq (K:=K) (udim a + udim b) (udim a + udim b) (inv_mat (usplit a + usplit b))
        (dsum (K:=K) (fst_sum sw (udim a) (udim b)) (fst_sum sw (inv_mat (usplit a)) (inv_mat (usplit b))) (snd_sum sw (inv_mat (usplit a)) (inv_mat (usplit b))))).
    { rewrite Dsw. destruct sw; cbn [fst_sum snd_sum].
      - rewrite (Nat.add_comm (usplit a)). apply inv_mat_dsum. exact Hs2.
      - apply inv_mat_dsum. exact Hs2. }
    rewrite V, F. rewrite Dsw. destruct sw; cbn [fst_sum snd_sum] in *; apply dsum_comm_inv; assumption.
Qed.

(* ---- multiples ---- *)
Lemma nsum_prod d m (f : nat -> K) : nsum (d * m) f = nsum d (fun q => nsum m (fun t => f (q * m + t)%nat)).
Proof.
  induction d as [|d IH]; [reflexivity|].
  rewrite nsum_S, <- IH. replace (S d * m)%nat with (d * m + m)%nat by lia. apply nsum_plus.
Qed.
Lemma kron_mul d m (a b : fmat K) : m <> 0%nat -> feq (d * m) (d * m) (fmul (d * m) (kron_eye m a) (kron_eye m b)) (kron_eye m (fmul d a b)).
Proof.
  intros Hm i j Hi Hj. unfold fmul at 1. rewrite nsum_prod.
  assert (L : forall q, (q < d)%nat -> nsum m (fun t => kron_eye m a i (q * m + t)%nat * kron_eye m b (q * m + t)%nat j) =
     if Nat.eqb (i mod m) (j mod m) then a (i / m)%nat q * b q (j / m)%nat else 0).
  { intros q Hq. rewrite (nsum_single K m (i mod m)).
    - unfold kron_eye. rewrite Nat.add_comm, Nat.mod_add, Nat.div_add by exact Hm.
      rewrite Nat.mod_mod, Nat.eqb_refl by exact Hm. rewrite (Nat.div_small (i mod m) m) by (apply Nat.mod_upper_bound; exact Hm).
      rewrite Nat.add_0_l. destruct (Nat.eqb _ _); ring.
    - apply Nat.mod_upper_bound; exact Hm.
    - intros t Ht Hne. unfold kron_eye at 1. rewrite Nat.add_comm, Nat.mod_add, (Nat.mod_small t m) by lia.
      rewrite (proj2 (Nat.eqb_neq (i mod m) t)) by congruence. ring. }
  rewrite (nsum_ext K d _ _ L). unfold kron_eye, fmul. destruct (Nat.eqb _ _); [reflexivity|].
  apply nsum_zero. reflexivity.
Qed.
Lemma kron_feq d m (a b : fmat K) : m <> 0%nat -> feq d d a b -> feq (d * m) (d * m) (kron_eye m a) (kron_eye m b).
Proof.
  intros Hm H i j Hi Hj. unfold kron_eye. destruct (Nat.eqb _ _); [|reflexivity].
  apply H; apply Nat.div_lt_upper_bound; lia.
Qed.
Lemma kron_inv d m sp : m <> 0%nat -> feq (d * m) (d * m) (inv_mat (K:=K) (sp * m)) (kron_eye m (inv_mat sp)).
Proof.
  intros Hm i j Hi Hj. unfold inv_mat, kron_eye.
  assert (Di := Nat.div_mod i m Hm). assert (Dj := Nat.div_mod j m Hm).
  assert (Mi := Nat.mod_upper_bound i m Hm).
  destruct (Nat.eqb_spec i j) as [->|Hne].
  - rewrite !Nat.eqb_refl. destruct (Nat.ltb_spec j (sp * m)), (Nat.ltb_spec (j / m) sp); auto; exfalso.
    + assert (j / m < sp)%nat by (apply Nat.div_lt_upper_bound; lia). lia.
    + nia.
  - destruct (Nat.eqb_spec (i mod m) (j mod m)) as [Em|]; [|reflexivity].
    destruct (Nat.eqb_spec (i / m) (j / m)) as [Eq|]; [|reflexivity]. exfalso. apply Hne. congruence.
Qed.
Lemma In_combine_map {A B C} (f : B -> C) (l : list A) m a c :
  In (a, c) (combine l (map f m)) <-> exists b, In (a, b) (combine l m) /\ c = f b.
Proof.
  split.
  - intro H. apply In_combine in H. destruct H as [k [H1 H2]]. rewrite nth_error_map in H2.
    destruct (nth_error m k) as [b|] eqn:E; [|discriminate H2]. injection H2 as <-. exists b. split; auto. apply In_combine. eauto.
  - intros [b [H ->]]. apply In_combine in H. destruct H as [k [H1 H2]]. apply In_combine. exists k. split; auto.
    rewrite nth_error_map, H2. reflexivity.
Qed.
Lemma urep_mul_check (a : urep K) m : m <> 0%nat -> urep_check ueqb a = true -> urep_check ueqb (urep_mul a m) = true.
Proof.
  intros Hm H. apply urep_check_spec in H. destruct H as [H1 H2]. apply urep_check_spec.
  unfold pairs, urep_mul. cbn [usym udim uU usplit]. split.
  - intros s1 u1 s2 u2 I1 I2. apply In_combine_map in I1. destruct I1 as [v1 [I1 ->]].
    apply In_combine_map in I2. destruct I2 as [v2 [I2 ->]]. destruct (H1 _ _ _ _ I1 I2) as [[w W] U]. split.
    + exists (kron_eye m w). apply In_combine_map. eauto.
    + intros w' W'. apply In_combine_map in W'. destruct W' as [w3 [W3 ->]]. rewrite kron_mul by exact Hm.
      apply kron_feq; [exact Hm|]. apply U; exact W3.
  - intros Hi u Hu. apply in_map_iff in Hu. destruct Hu as [v [<- Hv]].
    rewrite (kron_inv (udim a) m (usplit a) Hm), !kron_mul by exact Hm. apply kron_feq; auto.
Qed.
End M.

(** Property C90: division of symmetry groups (symmetry.py l.976-1042). *)
From Coq Require Import List Arith ZArith Lia Bool Permutation.
Import ListNotations.
From Verif Require Import SRing LMat SymModel FinGroup SymGenProofs DetMC SymInitProofs SymEqProofs SymModel3 SymNamedProofs SymProps Sym3Props.

Lemma nodup_prod {A B} (l : list A) (k : list B) : NoDup l -> NoDup k -> NoDup (list_prod l k).
Proof.
  intros Hl Hk. induction l as [|a l IH]; [constructor|]. inversion Hl as [|? ? H1 H2]; subst. cbn [list_prod].
  apply NoDup_app_iff. split; [|split].
  - apply NoDup_map_inj; [|exact Hk]. intros x y _ _ E. congruence.
  - apply IH, H2.
  - intros [x y] Hx Hy. apply in_map_iff in Hx. destruct Hx as [z [E _]]. injection E as <- <-.
    apply in_prod_iff in Hy. tauto.
Qed.

Section Div.
Variable n : nat.
Variable inv : zmat -> zmat.
Hypothesis Hinv : inverts n inv.
Variables G H : list zmat.
Notation m := (zmul n).
Notation e := (zeye n).
Hypothesis HG : is_group m e G.
Hypothesis HH : is_group m e H.
Hypothesis Hsub : forall x, In x H -> In x G.
Hypothesis HW : forall x, In x G -> wfz n x /\ unimod n x.

Lemma g_one : In e G. Proof. apply HG. Qed.
Lemma h_one : In e H. Proof. apply HH. Qed.
Lemma g_mul a b : In a G -> In b G -> In (m a b) G. Proof. destruct HG as (_ & _ & A & _). apply A. Qed.
Lemma h_mul a b : In a H -> In b H -> In (m a b) H. Proof. destruct HH as (_ & _ & A & _). apply A. Qed.
Lemma gw a : In a G -> wfz n a. Proof. intros Ha. apply HW, Ha. Qed.
Lemma g_inv a : In a G -> In (inv a) G /\ m a (inv a) = e /\ m (inv a) a = e.
Proof.
  intros Ha. destruct (HW a Ha) as [W U]. destruct (Hinv a W U) as (I1 & I2 & I3).
  destruct HG as (_ & _ & _ & I). destruct (I a Ha) as (b & Hb & E1 & E2).
  assert (E : inv a = b) by (apply (inv_unique n a); [exact I1|apply gw, Hb|exact I3|exact E1]).
  split; [rewrite E; exact Hb|]. auto.
Qed.
Lemma h_inv a : In a H -> In (inv a) H.
Proof.
  intros Ha. destruct HH as (_ & _ & _ & I). destruct (I a Ha) as (b & Hb & E1 & E2).
  destruct (g_inv a (Hsub a Ha)) as (I1 & I2 & I3).
  assert (E : inv a = b) by (apply (inv_unique n a); [apply gw, I1|apply gw, Hsub, Hb|exact I3|exact E1]).
  rewrite E. exact Hb.
Qed.
Lemma inv_mul a b : In a G -> In b G -> inv (m a b) = m (inv b) (inv a).
Proof.
  intros Ha Hb. destruct (g_inv a Ha) as (A1 & A2 & A3), (g_inv b Hb) as (B1 & B2 & B3).
  destruct (g_inv (m a b) (g_mul a b Ha Hb)) as (C1 & C2 & C3).
  apply (inv_unique n (m a b)); [apply gw, C1|apply wfz_mul|exact C3|].
  rewrite <- zmul_assoc, (zmul_assoc n b), B2, zmul_1_l by (apply gw, A1). exact A2.
Qed.
Lemma inv_inv a : In a G -> inv (inv a) = a.
Proof.
  intros Ha. destruct (g_inv a Ha) as (A1 & A2 & A3), (g_inv _ (proj1 (g_inv a Ha))) as (B1 & B2 & B3).
  apply (inv_unique n (inv a)); [apply gw, B1|apply gw, Ha|exact B3|exact A3].
Qed.
(** cancellation (s a)^-1 (s b) = a^-1 b *)
Lemma inv_shift s a b : In s G -> In a G -> In b G -> m (inv (m s a)) (m s b) = m (inv a) b.
Proof.
  intros Hs Ha Hb. rewrite inv_mul by assumption. destruct (g_inv s Hs) as (_ & _ & E).
  rewrite <- zmul_assoc, (zmul_assoc n (inv s)), E, zmul_1_l by (apply gw, Hb). reflexivity.
Qed.

Notation rel := (div_left n inv H).
Lemma rel_spec a b : rel a b = true <-> In (m (inv a) b) H.
Proof. unfold div_left. apply zmemb_In. Qed.

Definition members (cs : list (list zmat)) : Prop := forall c a, In c cs -> In a c -> In a G.
Definition sep (cs : list (list zmat)) : Prop := forall i j ci cj a b,
  nth_error cs i = Some ci -> nth_error cs j = Some cj -> In a ci -> In b cj -> In (m (inv a) b) H -> i = j.

Lemma nth_map_inv {A B} (f : A -> B) l i y : nth_error (map f l) i = Some y -> exists x, nth_error l i = Some x /\ y = f x.
Proof.
  revert i; induction l as [|a l IH]; intros [|i] E; try discriminate.
  - injection E as <-. exists a. auto.
  - apply (IH i E).
Qed.

Lemma reduce_sub f k base a : In a (div_reduce n f k base) -> In a base.
Proof.
  revert k; induction f as [|f IH]; intros k Hin; [destruct Hin|]. cbn [div_reduce] in Hin.
  destruct (filter _ base) as [|b l] eqn:E; [exact (IH _ Hin)|]. rewrite <- E in Hin. apply filter_In in Hin. apply Hin.
Qed.
Lemma shift_in s c x : In x (div_shift n s c) <-> exists a, In a c /\ x = m s a.
Proof.
  unfold div_shift. destruct (fold_add_new zmeqb zmeqb_spec (map (m s) c) []) as (ext & E & H1 & H2 & _).
  rewrite E. cbn [app] in *. split.
  - intros Hx. apply H1, in_map_iff in Hx. destruct Hx as [a [<- Ha]]. eauto.
  - intros (a & Ha & ->). apply H2, in_map, Ha.
Qed.
Lemma shift_nodup s c : NoDup (div_shift n s c) /\ length (div_shift n s c) <= length c.
Proof.
  unfold div_shift. destruct (fold_add_new zmeqb zmeqb_spec (map (m s) c) []) as (ext & E & H1 & _ & H3).
  rewrite E. cbn [app] in *. assert (N : NoDup ext) by (apply H3; constructor).
  split; [exact N|]. rewrite <- (map_length (m s) c). apply NoDup_incl_length; [exact N|]. intros x Hx. apply H1, Hx.
Qed.

Lemma reduce_len f k base : length (div_reduce n f k base) <= length base.
Proof.
  revert k; induction f as [|f IH]; intros k; [apply Nat.le_0_l|]. cbn [div_reduce].
  destruct (filter (fun a => zmeqb (zpow n a k) e) base) as [|b l] eqn:E; [apply IH|]. rewrite <- E.
  clear. induction base; simpl; [lia|]. destruct (zmeqb _ _); simpl; lia.
Qed.

Lemma pow_1 a : wfz n a -> zpow n a 1 = a.
Proof. intros Ha. cbn [zpow]. apply zmul_1_l, Ha. Qed.

Lemma reduce_one f base : In e base -> NoDup base -> (forall a, In a base -> In a G) ->
  length (div_reduce n (S f) 1 base) = 1.
Proof.
  intros H1 Hnd Hb. cbn [div_reduce].
  set (l := filter (fun a => zmeqb (zpow n a 1) e) base).
  assert (Hl : forall a, In a l <-> a = e).
  { intros a. unfold l. rewrite filter_In. split.
    - intros [Ha E]. apply zmeqb_spec in E. rewrite pow_1 in E by (apply gw, Hb, Ha). exact E.
    - intros ->. split; [exact H1|]. apply zmeqb_spec. apply pow_1, wfz_eye. }
  assert (N : NoDup l) by (apply NoDup_filter, Hnd).
  destruct l as [|x [|y l']].
  - destruct (proj2 (Hl e) eq_refl).
  - reflexivity.
  - assert (Ex : x = e) by (apply Hl; left; reflexivity). assert (Ey : y = e) by (apply Hl; right; left; reflexivity).
    inversion N as [|? ? N1 _]. destruct N1. left. congruence.
Qed.

(** powers inside the group, finite order *)
Lemma pow_in a k : In a G -> In (zpow n a k) G.
Proof. intros Ha. induction k; [apply g_one|]. cbn [zpow]. apply g_mul; assumption. Qed.
Lemma pow_add a j k : In a G -> zpow n a (j + k) = m (zpow n a j) (zpow n a k).
Proof.
  intros Ha. induction k.
  - rewrite Nat.add_0_r. cbn [zpow]. symmetry. apply zmul_1_r, gw, pow_in, Ha.
  - rewrite Nat.add_succ_r. cbn [zpow]. rewrite IHk, zmul_assoc. reflexivity.
Qed.
Lemma g_cancel a x y : In a G -> In x G -> In y G -> m a x = m a y -> x = y.
Proof.
  intros Ha Hx Hy E. destruct (g_inv a Ha) as (A1 & A2 & A3).
  rewrite <- (zmul_1_l n x), <- (zmul_1_l n y) by (apply gw; assumption). rewrite <- A3, <- !zmul_assoc, E. reflexivity.
Qed.
Lemma finite_order a : In a G -> exists k, 1 <= k <= length G /\ zpow n a k = e.
Proof.
  intros Ha. set (L := map (zpow n a) (seq 1 (length G))).
  destruct (memb zmeqb e L) eqn:E.
  - apply zmemb_In in E. apply in_map_iff in E. destruct E as (k & Ek & Hk). apply in_seq in Hk. exists k. split; [lia|exact Ek].
  - assert (Hne : ~ In e L) by (intros Hin; apply zmemb_In in Hin; congruence).
    assert (Hlt : forall i j, i < j -> 1 <= i -> j <= length G -> zpow n a i <> zpow n a j).
    { intros i j Hij Hi Hj Eij. apply Hne. apply in_map_iff. exists (j - i). split; [|apply in_seq; lia].
      apply (g_cancel (zpow n a i)); [apply pow_in, Ha|apply pow_in, Ha|apply g_one|].
      rewrite <- pow_add by exact Ha. replace (i + (j - i)) with j by lia. rewrite zmul_1_r by (apply gw, pow_in, Ha).
      symmetry. exact Eij. }
    assert (N : NoDup L).
    { apply NoDup_map_inj; [|apply seq_NoDup]. intros i j Hi Hj Eij. apply in_seq in Hi, Hj.
      destruct (Nat.lt_trichotomy i j) as [C|[C|C]]; [|exact C|].
      - destruct (Hlt i j C); [lia|lia|exact Eij].
      - destruct (Hlt j i C); [lia|lia|symmetry; exact Eij]. }
    destruct Hne. apply (@NoDup_length_incl _ L G N); [|intros x Hx; apply in_map_iff in Hx; destruct Hx as [k [<- _]]; apply pow_in, Ha|apply g_one].
    unfold L. rewrite map_length, seq_length. apply Nat.le_refl.
Qed.
Lemma reduce_ne f k base a j : In a base -> zpow n a j = e -> k <= j < k + f -> div_reduce n f k base <> [].
Proof.
  revert k; induction f as [|f IH]; intros k Ha Ej Hj; [lia|]. cbn [div_reduce].
  destruct (filter (fun a => zmeqb (zpow n a k) e) base) as [|b l] eqn:E; [|discriminate].
  apply IH; [exact Ha|exact Ej|]. destruct (Nat.eq_dec j k) as [->|Hne]; [|lia].
  assert (Hin : In a (filter (fun a => zmeqb (zpow n a k) e) base)) by (apply filter_In; split; [exact Ha|apply zmeqb_spec, Ej]).
  rewrite E in Hin. destruct Hin.
Qed.

Notation R := (div_reduce n (S (length G)) 1).
Definition total (cs : list (list zmat)) : nat := length (concat cs).
Lemma total_cons c cs : total (c :: cs) = length c + total cs.
Proof. apply app_length. Qed.
Lemma total_le f cs : (forall c, In c cs -> length (f c) <= length c) -> total (map f cs) <= total cs.
Proof.
  induction cs as [|c cs IH]; intros Hf; [apply Nat.le_refl|]. cbn [map]. rewrite !total_cons.
  assert (H1 := Hf c (or_introl eq_refl)). assert (H2 := IH (fun c' Hc => Hf c' (or_intror Hc))). lia.
Qed.
Lemma total_lt f cs c : (forall c, In c cs -> length (f c) <= length c) -> In c cs -> length (f c) < length c ->
  total (map f cs) < total cs.
Proof.
  induction cs as [|d cs IH]; intros Hf Hin Hlt; [destruct Hin|]. cbn [map]. rewrite !total_cons.
  assert (H1 := Hf d (or_introl eq_refl)). destruct Hin as [->|Hin].
  - assert (H2 := total_le f cs (fun c' Hc => Hf c' (or_intror Hc))). lia.
  - assert (H2 := IH (fun c' Hc => Hf c' (or_intror Hc)) Hin Hlt). lia.
Qed.

Definition good (cs : list (list zmat)) : Prop := members cs /\ sep cs /\ forall c, In c cs -> c <> [].

Lemma good_reduce cs : good cs -> good (map R cs).
Proof.
  intros (M & S & N). split; [|split].
  - intros c a Hc Ha. apply in_map_iff in Hc. destruct Hc as [d [<- Hd]]. apply (M d a Hd). eapply reduce_sub; exact Ha.
  - intros i j ci cj a b Hi Hj Ha Hb Hab. apply nth_map_inv in Hi, Hj. destruct Hi as (di & Hi & ->), Hj as (dj & Hj & ->).
    apply (S i j di dj a b Hi Hj); [eapply reduce_sub; exact Ha|eapply reduce_sub; exact Hb|exact Hab].
  - intros c Hc. apply in_map_iff in Hc. destruct Hc as [d [<- Hd]]. specialize (N d Hd). destruct d as [|a d]; [congruence|].
    destruct (finite_order a (M _ a Hd (or_introl eq_refl))) as (k & Hk & Ek).
    apply (reduce_ne _ _ _ a k); [left; reflexivity|exact Ek|lia].
Qed.
Lemma good_shift cs s : In s G -> good cs -> good (map (div_shift n s) cs).
Proof.
  intros Hs (M & S & N). split; [|split].
  - intros c a Hc Ha. apply in_map_iff in Hc. destruct Hc as [d [<- Hd]]. apply shift_in in Ha. destruct Ha as (x & Hx & ->).
    apply g_mul; [exact Hs|exact (M d x Hd Hx)].
  - intros i j ci cj a b Hi Hj Ha Hb Hab. apply nth_map_inv in Hi, Hj. destruct Hi as (di & Hi & ->), Hj as (dj & Hj & ->).
    apply shift_in in Ha, Hb. destruct Ha as (x & Hx & ->), Hb as (y & Hy & ->).
    rewrite inv_shift in Hab; [|exact Hs|exact (M di x (nth_error_In _ _ Hi) Hx)|exact (M dj y (nth_error_In _ _ Hj) Hy)].
    exact (S i j di dj x y Hi Hj Hx Hy Hab).
  - intros c Hc. apply in_map_iff in Hc. destruct Hc as [d [<- Hd]]. specialize (N d Hd). destruct d as [|a d]; [congruence|].
    intros E. assert (Hin : In (m s a) (div_shift n s (a :: d))) by (apply shift_in; exists a; split; [left|]; reflexivity).
    rewrite E in Hin. destruct Hin.
Qed.

Lemma loop_good f : forall cs cs', good cs -> div_loop n inv f (length G) cs = Some cs' ->
  good cs' /\ length cs' = length cs /\ forall c, In c cs' -> length c <= 1.
Proof.
  induction f as [|f IH]; intros cs cs' Hg E; [discriminate|]. cbn [div_loop] in E.
  set (rs := map R cs) in *. assert (Gr := good_reduce cs Hg). fold rs in Gr.
  assert (Hlen : length rs = length cs) by apply map_length.
  destruct (filter (fun c => Nat.ltb 1 (length c)) rs) as [|big bs] eqn:Eb.
  - injection E as <-. split; [exact Gr|]. split; [exact Hlen|]. intros c Hc.
    destruct (Nat.ltb_spec 1 (length c)) as [C|C]; [|exact C]. exfalso.
    assert (Hin : In c (filter (fun c => Nat.ltb 1 (length c)) rs)) by (apply filter_In; split; [exact Hc|apply Nat.ltb_lt, C]).
    rewrite Eb in Hin. destruct Hin.
  - assert (Hb : In big rs /\ 1 < length big).
    { assert (Hin : In big (big :: bs)) by (left; reflexivity). rewrite <- Eb in Hin. apply filter_In in Hin.
      destruct Hin as [A B]. apply Nat.ltb_lt in B. auto. }
    destruct Hb as [Hb Hbl]. destruct big as [|s big]; [cbn in Hbl; lia|].
    assert (Hs : In (inv s) G) by (apply g_inv; apply (proj1 Gr (s :: big)); [exact Hb|left; reflexivity]).
    destruct (IH _ _ (good_shift rs (inv s) Hs Gr) E) as (A & B & C). split; [exact A|]. split; [|exact C].
    rewrite B, map_length. exact Hlen.
Qed.

Lemma loop_some f : forall cs, good cs -> total (map R cs) < f -> exists cs', div_loop n inv f (length G) cs = Some cs'.
Proof.
  induction f as [|f IH]; intros cs Hg Hf; [lia|]. cbn [div_loop].
  set (rs := map R cs) in *. assert (Gr := good_reduce cs Hg). fold rs in Gr.
  destruct (filter (fun c => Nat.ltb 1 (length c)) rs) as [|big bs] eqn:Eb; [eauto|].
  assert (Hb : In big rs /\ 1 < length big).
  { assert (Hin : In big (big :: bs)) by (left; reflexivity). rewrite <- Eb in Hin. apply filter_In in Hin.
    destruct Hin as [A B]. apply Nat.ltb_lt in B. auto. }
  destruct Hb as [Hb Hbl]. destruct big as [|s big]; [cbn in Hbl; lia|].
  assert (Hs : In s G) by (apply (proj1 Gr (s :: big)); [exact Hb|left; reflexivity]).
  destruct (g_inv s Hs) as (Hsi & _ & E1).
  apply IH; [apply good_shift; assumption|]. rewrite map_map.
  eapply Nat.lt_le_trans; [|apply Nat.lt_succ_r; exact Hf].
  apply (total_lt (fun c => R (div_shift n (inv s) c)) rs (s :: big)).
  - intros c _. eapply Nat.le_trans; [apply reduce_len|apply shift_nodup].
  - exact Hb.
  - rewrite reduce_one; [exact Hbl| | |].
    + apply shift_in. exists s. split; [left; reflexivity|]. symmetry. exact E1.
    + apply shift_nodup.
    + intros a Ha. apply shift_in in Ha. destruct Ha as (x & Hx & ->). apply g_mul; [exact Hsi|].
      apply (proj1 Gr (s :: big)); assumption.
Qed.

(** *** the initial classes are the left cosets *)
Lemma rel_refl a : In a G -> rel a a = true.
Proof. intros Ha. apply rel_spec. destruct (g_inv a Ha) as (_ & _ & ->). apply h_one. Qed.
Lemma rel_sym a b : In a G -> In b G -> rel a b = true -> rel b a = true.
Proof.
  intros Ha Hb E. apply rel_spec in E. apply rel_spec. apply h_inv in E.
  rewrite inv_mul in E by (try apply g_inv; assumption). rewrite inv_inv in E by exact Ha. exact E.
Qed.
Lemma rel_trans a b c : In a G -> In b G -> In c G -> rel a b = true -> rel b c = true -> rel a c = true.
Proof.
  intros Ha Hb Hc E1 E2. apply rel_spec in E1, E2. apply rel_spec. assert (E := h_mul _ _ E1 E2).
  destruct (g_inv b Hb) as (_ & E3 & _).
  rewrite zmul_assoc, <- (zmul_assoc n (inv a)), E3, zmul_1_r in E by (apply gw, g_inv, Ha). exact E.
Qed.
Notation classes := (equivalence_classes rel G).
Lemma classes_good : good classes.
Proof.
  assert (P := equivalence_classes_perm rel G).
  assert (M : members classes).
  { intros c a Hc Ha. apply (Permutation_in _ P). apply in_concat. eauto. }
  split; [exact M|]. split.
  - intros i j ci cj a b Hi Hj Ha Hb Hab.
    apply (equivalence_classes_rel rel G rel_refl rel_sym rel_trans i j ci cj a b Hi Hj Ha Hb). apply rel_spec, Hab.
  - intros c Hc. exact (classes_loop_nonempty rel _ _ c Hc).
Qed.
Lemma class_size c : In c classes -> length c = length H.
Proof.
  intros Hc. destruct classes_good as (M & S & N). specialize (N c Hc). destruct c as [|a c]; [congruence|].
  assert (Ha : In a G) by (apply (M (a :: c)); [exact Hc|left; reflexivity]).
  apply In_nth_error in Hc. destruct Hc as [i Hi].
  assert (P := equivalence_classes_perm rel G).
  assert (Hnd : NoDup (a :: c)).
  { assert (Nc : NoDup (concat classes)) by (eapply Permutation_NoDup; [symmetry; exact P|apply HG]).
    clear -Hi Nc. revert i Hi Nc. generalize classes. intros l. induction l as [|d l IH]; intros [|i] Hi Nc; try discriminate.
    - injection Hi as ->. cbn [concat] in Nc. apply NoDup_app_iff in Nc. apply Nc.
    - cbn [concat] in Nc. apply NoDup_app_iff in Nc. apply (IH i Hi). apply Nc. }
  assert (E : forall x, In x (a :: c) <-> In x (map (m a) H)).
  { intros x. rewrite in_map_iff. split.
    - intros Hx. exists (m (inv a) x).
      assert (Hxg : In x G) by (apply (M (a :: c)); [eapply nth_error_In; exact Hi|exact Hx]).
      split; [rewrite zmul_assoc; destruct (g_inv a Ha) as (_ & -> & _); apply zmul_1_l, gw, Hxg|].
      apply rel_spec. apply (equivalence_classes_rel rel G rel_refl rel_sym rel_trans i i _ _ a x Hi Hi); [left; reflexivity|exact Hx|reflexivity].
    - intros [h [<- Hh]]. assert (Hg : In (m a h) G) by (apply g_mul; [exact Ha|apply Hsub, Hh]).
      assert (Hcc : In (m a h) (concat classes)) by (apply (Permutation_in _ (Permutation_sym P)), Hg).
      apply in_concat in Hcc. destruct Hcc as (d & Hd & Hin). apply In_nth_error in Hd. destruct Hd as [j Hj].
      assert (Eij : i = j).
      { apply (equivalence_classes_rel rel G rel_refl rel_sym rel_trans i j _ _ a (m a h) Hi Hj); [left; reflexivity|exact Hin|].
        apply rel_spec. rewrite zmul_assoc. destruct (g_inv a Ha) as (_ & _ & ->).
        rewrite zmul_1_l by (apply gw, Hsub, Hh). exact Hh. }
      subst j. assert (Ed : d = a :: c) by congruence. rewrite <- Ed. exact Hin. }
  assert (Hnm : NoDup (map (m a) H)).
  { apply NoDup_map_inj; [|apply HH]. intros x y Hx Hy Exy. apply (g_cancel a); auto. }
  transitivity (length (map (m a) H)); [|apply map_length].
  apply Nat.le_antisymm; apply NoDup_incl_length; auto; intros x; apply E.
Qed.
Lemma classes_count : length classes * length H = length G.
Proof.
  assert (P := equivalence_classes_perm rel G). rewrite <- (Permutation_length P).
  assert (Hs := class_size). revert Hs. generalize classes. intros l Hs. induction l as [|c l IH]; [reflexivity|].
  cbn [length concat]. rewrite app_length, (Hs c (or_introl eq_refl)), <- IH; [lia|].
  intros d Hd. apply Hs. right; exact Hd.
Qed.

(** *** the representatives *)
Lemma firsts_some cs : (forall c, In c cs -> c <> []) -> exists l, firsts cs = Some l.
Proof.
  induction cs as [|c cs IH]; intros Hc; [eexists; reflexivity|]. destruct c as [|a c]; [destruct (Hc [] (or_introl eq_refl) eq_refl)|].
  destruct IH as [l E]; [intros d Hd; apply Hc; right; exact Hd|]. cbn [firsts]. rewrite E. eexists; reflexivity.
Qed.
Lemma firsts_nth cs l : firsts cs = Some l -> length l = length cs /\
  forall i a, nth_error l i = Some a -> exists c, nth_error cs i = Some c /\ In a c.
Proof.
  revert l; induction cs as [|c cs IH]; intros l E.
  - injection E as <-. split; [reflexivity|]. intros [|i] a Hi; discriminate.
  - cbn [firsts] in E. destruct c as [|a c]; [discriminate|]. destruct (firsts cs) as [l'|]; [|discriminate].
    injection E as <-. destruct (IH l' eq_refl) as [A B]. split; [cbn; f_equal; exact A|].
    intros [|i] b Hi; [injection Hi as <-; exists (a :: c); split; [reflexivity|left; reflexivity]|exact (B i b Hi)].
Qed.

(** a subgroup T with x^-1 t x outside H for t <> 1 and |T| |H| = |G| is a complement of H *)
Lemma complement T x : is_group m e T -> (forall t, In t T -> In t G) -> In x G ->
  (forall t, In t T -> In (m (inv x) (m t x)) H -> t = e) -> length T * length H = length G ->
  (forall t, In t T -> In t H -> t = e) /\ (forall g, In g G -> exists t h, In t T /\ In h H /\ g = m t h).
Proof.
  intros HT HTG Hx Hsep Hlen. destruct (g_inv x Hx) as (Ix & X1 & X2).
  assert (HTi : forall t, In t T -> In (inv t) T).
  { intros t Ht. destruct HT as (_ & _ & _ & I). destruct (I t Ht) as (b & Hb & E1 & E2).
    destruct (g_inv t (HTG t Ht)) as (I1 & I2 & I3).
    assert (E : inv t = b) by (apply (inv_unique n t); [apply gw, I1|apply gw, HTG, Hb|exact I3|exact E1]). rewrite E. exact Hb. }
  assert (HTm : forall a b, In a T -> In b T -> In (m a b) T) by (destruct HT as (_ & _ & A & _); exact A).
  (* general counting: if K is a set of |H| elements of G and (t, k) -> k t is injective then it is onto *)
  assert (Count : forall K : list zmat, NoDup K -> length K = length H -> (forall k, In k K -> In k G) ->
     (forall t t' k k', In t T -> In t' T -> In k K -> In k' K -> m k t = m k' t' -> t = t' /\ k = k') ->
     forall g, In g G -> exists k t, In k K /\ In t T /\ g = m k t).
  { intros K NK LK GK Inj g Hg.
    set (L := map (fun p => m (fst p) (snd p)) (list_prod K T)).
    assert (NL : NoDup L).
    { apply NoDup_map_inj.
      - intros [k t] [k' t'] H1 H2 E. apply in_prod_iff in H1, H2. destruct (Inj t t' k k') as [-> ->]; tauto || auto.
      - apply nodup_prod; [exact NK|apply HT]. }
    assert (IL : incl L G).
    { intros y Hy. apply in_map_iff in Hy. destruct Hy as [[k t] [<- Hp]]. apply in_prod_iff in Hp. apply g_mul; [apply GK|apply HTG]; apply Hp. }
    assert (Hin : In g L).
    { apply (@NoDup_length_incl _ L G NL); [|exact IL|exact Hg]. unfold L. rewrite map_length, prod_length. rewrite LK. lia. }
    apply in_map_iff in Hin. destruct Hin as [[k t] [<- Hp]]. apply in_prod_iff in Hp. exists k, t. cbn. tauto. }
  (* the conjugate x H x^-1 *)
  set (K := map (fun h => m (m x h) (inv x)) H).
  assert (KG : forall k, In k K -> In k G).
  { intros k Hk. apply in_map_iff in Hk. destruct Hk as [h [<- Hh]]. repeat apply g_mul; auto. }
  assert (Kx : forall k, In k G -> (In k K <-> In (m (inv x) (m k x)) H)).
  { intros k Hk. unfold K. rewrite in_map_iff. split.
    - intros [h [<- Hh]]. assert (E : m (inv x) (m (m (m x h) (inv x)) x) = h).
      { rewrite <- (zmul_assoc n (m x h)), X2, (zmul_1_r n (m x h)) by apply wfz_mul. rewrite zmul_assoc, X2. apply zmul_1_l, gw, Hsub, Hh. }
      rewrite E. exact Hh.
    - intros Hin. exists (m (inv x) (m k x)). split; [|exact Hin].
      rewrite !zmul_assoc, X1. rewrite (zmul_1_l n k) by (apply gw, Hk). rewrite <- zmul_assoc, X1. apply zmul_1_r, gw, Hk. }
  assert (NK : NoDup K).
  { apply NoDup_map_inj; [|apply HH]. intros a b Ha Hb E.
    assert (Ea : forall h, In h H -> m (m (inv x) (m (m x h) (inv x))) x = h).
    { intros h Hh. rewrite <- !zmul_assoc, X2, !zmul_assoc, X2. rewrite (zmul_1_l n h) by (apply gw, Hsub, Hh). apply zmul_1_r, gw, Hsub, Hh. }
    rewrite <- (Ea a Ha), <- (Ea b Hb), E. reflexivity. }
  assert (Kmul : forall a b, In a K -> In b K -> In (m a b) K).
  { intros a b Ha Hb. apply Kx; [apply g_mul; auto|]. apply Kx in Ha; [|auto]. apply Kx in Hb; [|auto].
    assert (E := h_mul _ _ Ha Hb).
    replace (m (inv x) (m (m a b) x)) with (m (m (inv x) (m a x)) (m (inv x) (m b x))); [exact E|].
    rewrite <- !zmul_assoc. do 2 f_equal. rewrite (zmul_assoc n x (inv x)), X1. apply zmul_1_l, wfz_mul. }
  assert (Kinv : forall a, In a K -> In (inv a) K).
  { intros a Ha. assert (HaG := KG a Ha). apply Kx; [apply g_inv, HaG|]. apply Kx in Ha; [|exact HaG]. apply h_inv in Ha.
    rewrite !inv_mul in Ha by (try apply g_inv; try apply g_mul; assumption). rewrite inv_inv in Ha by exact Hx.
    rewrite zmul_assoc. exact Ha. }
  assert (TK : forall t, In t T -> In t K -> t = e).
  { intros t Ht Hk. apply Hsep; [exact Ht|]. apply Kx; auto. }
  assert (Inj : forall J, (forall a, In a J -> In a G) -> (forall a, In a J -> In (inv a) J) -> (forall a b, In a J -> In b J -> In (m a b) J) ->
     (forall t, In t T -> In t J -> t = e) ->
     forall t t' k k', In t T -> In t' T -> In k J -> In k' J -> m k t = m k' t' -> t = t' /\ k = k').
  { intros J JG JI JM JT t t' k k' Ht Ht' Hk Hk' E.
    assert (E2 : m (inv k') k = m t' (inv t)).
    { destruct (g_inv k' (JG k' Hk')) as (A1 & A2 & A3), (g_inv t (HTG t Ht)) as (B1 & B2 & B3).
      transitivity (m (m (inv k') (m k t)) (inv t)).
      - rewrite <- !zmul_assoc, B2. rewrite (zmul_1_r n k) by (apply gw, JG, Hk). reflexivity.
      - rewrite E, (zmul_assoc n (inv k')), A3. rewrite (zmul_1_l n t') by (apply gw, HTG, Ht'). reflexivity. }
    assert (E3 : m t' (inv t) = e).
    { apply JT; [apply HTm; [exact Ht'|apply HTi, Ht]|]. rewrite <- E2. apply JM; [apply JI, Hk'|exact Hk]. }
    assert (Ett : t = t').
    { destruct (g_inv t (HTG t Ht)) as (B1 & B2 & B3).
      transitivity (m (m t' (inv t)) t); [rewrite E3; symmetry; apply zmul_1_l, gw, HTG, Ht|].
      rewrite <- zmul_assoc, B3. apply zmul_1_r, gw, HTG, Ht'. }
    split; [exact Ett|]. subst t'. destruct (g_inv k' (JG k' Hk')) as (A1 & A2 & A3).
    rewrite E3 in E2. apply (g_cancel (inv k')); [exact A1|apply JG, Hk|apply JG, Hk'|]. rewrite E2. symmetry. exact A3. }
  assert (TH : forall t, In t T -> In t H -> t = e).
  { intros s HsT HsH.
    destruct (Count K NK (map_length _ H) KG (Inj K KG Kinv Kmul TK) x Hx) as (k & t & Hk & Ht & Ex).
    (* t s t^-1 is in K and T *)
    assert (HsK : In (m (m x s) (inv x)) K) by (apply in_map_iff; eauto).
    assert (E : m (m t s) (inv t) = m (inv k) (m (m (m x s) (inv x)) k)).
    { rewrite Ex at 1 2. rewrite inv_mul by auto. destruct (g_inv k (KG k Hk)) as (A1 & A2 & A3).
      rewrite !zmul_assoc, A3. rewrite (zmul_1_l n t) by (apply gw, HTG, Ht).
      rewrite <- !zmul_assoc, A3. rewrite (zmul_1_r n (inv t)) by (apply gw, HTG, HTi, Ht). reflexivity. }
    assert (E1 : m (m t s) (inv t) = e).
    { apply TK; [apply HTm; [apply HTm; auto|apply HTi, Ht]|]. rewrite E. auto. }
    destruct (g_inv t (HTG t Ht)) as (B1 & B2 & B3).
    apply (g_cancel t); [auto|auto|apply g_one|].
    transitivity (m (m (m t s) (inv t)) t).
    - rewrite <- zmul_assoc, B3. symmetry. apply zmul_1_r, wfz_mul.
    - rewrite E1. rewrite zmul_1_l, zmul_1_r by (apply gw, HTG, Ht). reflexivity. }
  split; [exact TH|].
  intros g Hg. destruct (g_inv g Hg) as (Ig & _ & _).
  destruct (Count H (proj1 (proj2 HH)) eq_refl Hsub (Inj H Hsub h_inv h_mul TH) (inv g) Ig) as (k & t & Hk & Ht & E).
  exists (inv t), (inv k). split; [apply HTi, Ht|]. split; [apply h_inv, Hk|].
  rewrite <- inv_mul by auto. rewrite <- E. symmetry. apply inv_inv, Hg.
Qed.
End Div.

Lemma div_result g rhs inv : built g -> built rhs -> sdim rhs = sdim g -> sinv g = false -> sinv rhs = false ->
  inverts (sdim g) inv -> is_group (zmul (sdim g)) (zeye (sdim g)) (sops g) -> is_group (zmul (sdim g)) (zeye (sdim g)) (sops rhs) ->
  (forall x, In x (sops rhs) -> In x (sops g)) ->
  exists x r cs, firsts cs = Some (x :: r) /\ good (sdim g) inv (sops g) (sops rhs) cs /\
    length (x :: r) * length (sops rhs) = length (sops g) /\
    sym_div inv g rhs =
      match sym_init (sdim g) (map (fun c => zmul (sdim g) c (inv x)) (x :: r)) false false with
      | None => DValue
      | Some h => match sym_check h with None => DValue | Some true => DOk h | Some false => DValue end
      end.
Proof.
  intros Hb Hb' Hd Hi Hi' Hinv HG HH Hsub. destruct (built_facts g Hb) as (HW & _ & HU & _). set (n := sdim g) in *.
  assert (HWU : forall x, In x (sops g) -> wfz n x /\ unimod n x) by auto.
  pose proof (classes_good n inv Hinv (sops g) (sops rhs) HG HH Hsub HWU) as Hgood.
  pose proof (classes_count n inv Hinv (sops g) (sops rhs) HG HH Hsub HWU) as Hcount.
  assert (Hne : length (sops rhs) <> 0) by (destruct HH as (H1 & _); destruct (sops rhs); [destruct H1|discriminate]).
  destruct (loop_some n inv Hinv (sops g) (sops rhs) HG HWU (S (length (concat (equivalence_classes (div_left n inv (sops rhs)) (sops g))))) _ Hgood) as [cs Ecs].
  { apply Nat.lt_succ_r. apply total_le. intros c _. apply reduce_len. }
  destruct (loop_good n inv Hinv (sops g) (sops rhs) HG HWU _ _ _ Hgood Ecs) as (Gcs & Lcs & _).
  destruct (firsts_some cs (proj2 (proj2 Gcs))) as [l El]. destruct (firsts_nth cs l El) as [Ll _].
  assert (Hl : l <> []).
  { intros ->. cbn in Ll. rewrite <- Ll in Lcs. rewrite <- Lcs in Hcount. cbn in Hcount.
    destruct HG as (H1 & _). destruct (sops g); [destruct H1|discriminate]. }
  destruct l as [|x r]; [congruence|]. exists x, r, cs. split; [exact El|]. split; [exact Gcs|].
  split; [rewrite Ll, Lcs; exact Hcount|].
  unfold sym_div. fold n. rewrite Hd, Nat.eqb_refl, Hi, Hi'. cbn [negb orb andb].
  assert (Ea : sym_all g = sops g) by (unfold sym_all; rewrite Hi; apply app_nil_r).
  unfold sym_len. rewrite Ea, Hi, Hi', !Nat.mul_1_r. rewrite <- Hcount at 1. rewrite Nat.mod_mul by exact Hne. cbn [Nat.eqb negb].
  rewrite <- Hcount at 1. rewrite Nat.div_mul by exact Hne. rewrite Nat.eqb_refl. cbn [negb].
  rewrite Ecs, El. reflexivity.
Qed.

(** g / rhs for a group g and a subgroup rhs without inversion flag. The full claim "the factor group, or
    ValueError if rhs is not normal" is refuted below. What holds: the call ends with a result or with
    ValueError. A result is a subgroup of g with one element in every coset of rhs. If rhs is normal, its
    multiplication is that of the cosets. *)
Theorem C90_div_partial : forall g rhs inv, built g -> built rhs -> sdim rhs = sdim g ->
  sinv g = false -> sinv rhs = false -> inverts (sdim g) inv ->
  let n := sdim g in
  is_group (zmul n) (zeye n) (sops g) -> is_group (zmul n) (zeye n) (sops rhs) ->
  (forall x, In x (sops rhs) -> In x (sops g)) ->
  (sym_div inv g rhs = DValue \/ exists h, sym_div inv g rhs = DOk h) /\
  forall h, sym_div inv g rhs = DOk h ->
    sdim h = n /\ is_group (zmul n) (zeye n) (sym_all h) /\
    sym_len h * length (sops rhs) = length (sops g) /\
    (forall t, In t (sym_all h) -> In t (sops g)) /\
    (forall t, In t (sym_all h) -> In t (sops rhs) -> t = zeye n) /\
    (forall x, In x (sops g) -> exists t y, In t (sym_all h) /\ In y (sops rhs) /\ x = zmul n t y) /\
    ((forall a y, In a (sops g) -> In y (sops rhs) -> In (zmul n (inv a) (zmul n y a)) (sops rhs)) ->
     forall t1 y1 t2 y2, In t1 (sym_all h) -> In y1 (sops rhs) -> In t2 (sym_all h) -> In y2 (sops rhs) ->
       exists y, In y (sops rhs) /\ zmul n (zmul n t1 y1) (zmul n t2 y2) = zmul n (zmul n t1 t2) y).
Proof.
  intros g rhs inv Hb Hb' Hd Hi Hi' Hinv n HG HH Hsub.
  destruct (div_result g rhs inv Hb Hb' Hd Hi Hi' Hinv HG HH Hsub) as (x & r & cs & El & Gcs & Hlen & E).
  destruct (built_facts g Hb) as (HW & _ & HU & _). fold n in HW, HU, Hinv, Gcs, E.
  assert (HWU : forall y, In y (sops g) -> wfz n y /\ unimod n y) by auto.
  rewrite E. set (T := map (fun c => zmul n c (inv x)) (x :: r)).
  split.
  { destruct (sym_init n T false false) as [h|]; [|auto]. destruct (sym_check h) as [[|]|]; eauto. }
  intros h. destruct (sym_init n T false false) as [h'|] eqn:Eh; [|discriminate].
  destruct (sym_check h') as [[|]|] eqn:Eck; try discriminate. intros E'; injection E' as ->.
  pose proof (g_inv n inv Hinv (sops g) HG HWU) as GI. pose proof (g_mul n (sops g) HG) as GM.
  destruct Gcs as (M & S & N). destruct (firsts_nth cs (x :: r) El) as [Ll Hnth].
  assert (Hrep : forall a, In a (x :: r) -> In a (sops g)).
  { intros a Ha. apply In_nth_error in Ha. destruct Ha as [i Hi0]. destruct (Hnth i a Hi0) as (c & Hc & Hin).
    exact (M c a (nth_error_In _ _ Hc) Hin). }
  assert (Hx : In x (sops g)) by (apply Hrep; left; reflexivity). destruct (GI x Hx) as (Ix & X1 & X2).
  assert (Hsepr : forall i j a b, nth_error (x :: r) i = Some a -> nth_error (x :: r) j = Some b ->
    In (zmul n (inv a) b) (sops rhs) -> i = j).
  { intros i j a b Hi0 Hj0 Hab. destruct (Hnth i a Hi0) as (c & Hc & Ha), (Hnth j b Hj0) as (d & Hd0 & Hb0).
    exact (S i j c d a b Hc Hd0 Ha Hb0 Hab). }
  assert (Nr : NoDup (x :: r)).
  { apply NoDup_nth_error. intros i j Hil Eij. destruct (nth_error (x :: r) i) as [a|] eqn:Ei.
    - apply (Hsepr i j a a); [exact Ei|symmetry; exact Eij|]. destruct (GI a) as (_ & _ & ->); [apply Hrep; eapply nth_error_In; exact Ei|apply HH].
    - apply nth_error_None in Ei. lia. }
  assert (HTG : forall t, In t T -> In t (sops g)).
  { intros t Ht. apply in_map_iff in Ht. destruct Ht as [a [<- Ha]]. apply GM; [apply Hrep, Ha|exact Ix]. }
  assert (NT : NoDup T).
  { apply NoDup_map_inj; [|exact Nr]. intros a b Ha Hb0 Eab.
    assert (Q : forall c, In c (x :: r) -> zmul n (zmul n c (inv x)) x = c).
    { intros c Hc. rewrite <- zmul_assoc, X2. apply zmul_1_r, HW, Hrep, Hc. }
    rewrite <- (Q a Ha), <- (Q b Hb0), Eab. reflexivity. }
  assert (HWT : forall t, In t T -> wfz n t) by auto. assert (HUT : forall t, In t T -> unimod n t) by auto.
  assert (Hd' : sdim h = n) by (apply sym_init_inv in Eh; apply Eh).
  assert (Hbh : built h).
  { exists T, false. rewrite Hd'. split; [exact HWT|]. pose proof (sym_init_inv _ _ _ _ _ Eh) as (_ & _ & _ & Ep & _). rewrite Ep. exact Eh. }
  assert (Nh : NoDup (sops h)) by exact (built_nodup n T false false h Eh NT eq_refl).
  assert (HcT : closed (zmul n) T).
  { apply (closed_stored n T h HWT HUT Eh). apply (check_true_iff h Hbh Nh) in Eck. rewrite Hd' in Eck. apply Eck. }
  assert (H1T : In (zeye n) T) by (left; exact X1).
  assert (GT : is_group (zmul n) (zeye n) T).
  { split; [exact H1T|]. split; [exact NT|]. split; [exact HcT|].
    apply (closed_inverses (zmul n) (zeye n) (wfz n) (zmul_assoc n) (zmul_1_l n) (zmul_1_r n)); auto.
    intros a b c Ha Hb0 Hc0 Eab. exact (unimod_cancel n a b c (HWT a Ha) (HWT b Hb0) (HWT c Hc0) (HUT a Ha) Eab). }
  assert (Hall : forall y, In y (sym_all h) <-> In y T).
  { intros y. rewrite (sym_init_ops n T false false h HWT Eh y). split; [intros [A|[A _]]; [exact A|discriminate]|auto]. }
  assert (Nall : NoDup (sym_all h)) by (apply (sym_init_nodup n T false false h HWT NT (group_neg_alt n T GT HWT)); auto).
  assert (LT : length T = length (x :: r)) by apply map_length.
  destruct (complement n inv Hinv (sops g) (sops rhs) HG HH Hsub HWU T x GT HTG Hx) as [C1 C2].
  { intros t Ht Hin. apply in_map_iff in Ht. destruct Ht as [a [<- Ha]].
    rewrite <- (zmul_assoc n a), X2, zmul_1_r in Hin by (apply HW, Hrep, Ha).
    apply In_nth_error in Ha. destruct Ha as [i Hi0]. assert (E0 : 0 = i) by exact (Hsepr 0 i x a eq_refl Hi0 Hin).
    subst i. cbn in Hi0. injection Hi0 as <-. exact X1. }
  { rewrite LT. exact Hlen. }
  split; [exact Hd'|]. split.
  { destruct GT as (_ & _ & _ & I). split; [apply Hall, H1T|]. split; [exact Nall|]. split.
    - intros a b Ha Hb0. apply Hall. apply HcT; apply Hall; assumption.
    - intros a Ha. apply Hall in Ha. destruct (I a Ha) as (b & Hb0 & Eb). exists b. split; [apply Hall, Hb0|exact Eb]. }
  split.
  { replace (sym_len h) with (length T); [rewrite LT; exact Hlen|]. rewrite sym_len_all.
    apply Nat.le_antisymm; apply NoDup_incl_length; auto; intros y; apply Hall. }
  split; [intros t Ht; apply HTG, Hall, Ht|]. split; [intros t Ht; apply C1, Hall, Ht|].
  split.
  { intros y Hy. destruct (C2 y Hy) as (t & k & Ht & Hk & Ek). exists t, k. split; [apply Hall, Ht|]. auto. }
  intros Hnorm t1 y1 t2 y2 Ht1 Hy1 Ht2 Hy2. apply Hall, HTG in Ht1, Ht2.
  exists (zmul n (zmul n (inv t2) (zmul n y1 t2)) y2). split.
  - destruct HH as (_ & _ & HM & _). apply HM; [apply Hnorm; assumption|exact Hy2].
  - destruct (GI t2 Ht2) as (_ & Q & _).
    rewrite <- (zmul_assoc n t1 t2), (zmul_assoc n t2), (zmul_assoc n t2), Q.
    rewrite (zmul_1_l n (zmul n y1 t2)) by apply wfz_mul. rewrite !zmul_assoc. reflexivity.
Qed.
Print Assumptions C90_div_partial.

(** explicit inverse of a unimodular 3x3 matrix *)
Local Open Scope Z_scope.
Definition inv3 (m : zmat) : zmat :=
  let e := ent (K:=Zs) m in let D := zdet 3 m in
  let co i j k l := D * (e i j * e k l - e i l * e k j) in
  [[co 1 1 2 2; - co 0 1 2 2; co 0 1 1 2];
   [- co 1 0 2 2; co 0 0 2 2; - co 0 0 1 2];
   [co 1 0 2 1; - co 0 0 2 1; co 0 0 1 1]]%nat%Z.
Local Close Scope Z_scope.
Lemma inv3_inverts : inverts 3 inv3.
Proof.
  intros M HM Hu. destruct HM as [Hl Hr]. destruct M as [|r0 [|r1 [|r2 [|? ?]]]]; try discriminate.
  assert (L0 := Hr r0 (or_introl eq_refl)). assert (L1 := Hr r1 (or_intror (or_introl eq_refl))).
  assert (L2 := Hr r2 (or_intror (or_intror (or_introl eq_refl)))). clear Hr Hl.
  destruct r0 as [|a [|b [|c [|? ?]]]]; try discriminate. destruct r1 as [|d [|e [|f [|? ?]]]]; try discriminate.
  destruct r2 as [|g [|h [|i [|? ?]]]]; try discriminate. clear L0 L1 L2. cbn [car Zs] in *.
  assert (Ed : zdet 3 [[a;b;c];[d;e;f];[g;h;i]] = (a * (e * i - f * h) - b * (d * i - f * g) + c * (d * h - e * g))%Z)
    by (cbn [zdet seq map fold_right nth drop_nth firstn skipn Nat.even app]; ring).
  unfold unimod in Hu. unfold inv3. cbv zeta. remember (zdet 3 [[a;b;c];[d;e;f];[g;h;i]]) as D eqn:HD. clear HD.
  assert (HD2 : (D * D = 1)%Z) by (destruct (Z.abs_spec D) as [[_ E]|[_ E]]; rewrite E in Hu; nia).
  unfold ent. cbn [nth].
  split; [split; [reflexivity|intros r [<-|[<-|[<-|[]]]]; reflexivity]|].
  split; unfold zmul, lmul, zeye, leye, mk, ent; cbn;
    repeat (apply f_equal2; [|]); try reflexivity;
    try (rewrite <- HD2; rewrite Ed at 2 || idtac; ring); try ring;
    try (transitivity (D * D)%Z; [rewrite Ed at 4; ring|exact HD2]).
Qed.

Definition normal_in (n : nat) (inv : zmat -> zmat) (g rhs : sym) : Prop :=
  forall a y, In a (sops g) -> In y (sops rhs) -> In (zmul n (inv a) (zmul n y a)) (sops rhs).
Definition sub_b (l k : list zmat) : bool := forallb (fun x => memb zmeqb x k) l.
Lemma sub_b_spec l k : sub_b l k = true <-> forall x, In x l -> In x k.
Proof. unfold sub_b. rewrite forallb_forall. split; intros A x Hx; apply zmemb_In; auto. Qed.
Definition normal_b (n : nat) (inv : zmat -> zmat) (g rhs : sym) : bool :=
  forallb (fun a => forallb (fun y => memb zmeqb (zmul n (inv a) (zmul n y a)) (sops rhs)) (sops rhs)) (sops g).
Lemma normal_b_spec n inv g rhs : normal_b n inv g rhs = true <-> normal_in n inv g rhs.
Proof.
  unfold normal_b, normal_in. rewrite forallb_forall. split.
  - intros A a y Ha Hy. specialize (A a Ha). rewrite forallb_forall in A. apply zmemb_In, A, Hy.
  - intros A a Ha. apply forallb_forall. intros y Hy. apply zmemb_In. auto.
Qed.
Local Open Scope Z_scope.
Definition c4 : zmat := [[0;-1];[1;0]].
Definition r111 : zmat := [[0;1;0];[0;0;1];[1;0;0]].
Local Close Scope Z_scope.

(** C4 / C2 raises ValueError ("no normal subgroup") although C2 is normal; T / C3 returns the group
    {1, C2x, C2y, C2z} although C3 is not normal in T; two groups with inversion raise AssertionError;
    T / D2 raises ValueError although D2 is normal and {1, C3, C3^2} represents the factor group. *)
Theorem C90_div_refuted :
  (exists g rhs, sym_from_generator 2 [c4] false = Some g /\ sym_from_generator 2 [zneg 2 (zeye 2)] false = Some rhs /\
    inverts 2 inv2 /\ is_group (zmul 2) (zeye 2) (sym_all g) /\ is_group (zmul 2) (zeye 2) (sym_all rhs) /\
    (forall x, In x (sym_all rhs) -> In x (sym_all g)) /\ normal_in 2 inv2 g rhs /\ sym_div inv2 g rhs = DValue) /\
  (exists g rhs h, sym_tetrahedral false = Some g /\ sym_from_generator 3 [r111] false = Some rhs /\
    inverts 3 inv3 /\ is_group (zmul 3) (zeye 3) (sym_all rhs) /\ (forall x, In x (sym_all rhs) -> In x (sym_all g)) /\
    ~ normal_in 3 inv3 g rhs /\ sym_div inv3 g rhs = DOk h /\ sym_len h = 4) /\
  (exists g rhs, sym_cubic true = Some g /\ sym_init 3 [zeye 3] true false = Some rhs /\
    (forall x, In x (sym_all rhs) -> In x (sym_all g)) /\ normal_in 3 inv3 g rhs /\ sym_div inv3 g rhs = DAssert) /\
  (exists g rhs, sym_tetrahedral false = Some g /\ sym_init 3 [zeye 3; d2x; d2y; d2z] false false = Some rhs /\
    (forall x, In x (sym_all rhs) -> In x (sym_all g)) /\ normal_in 3 inv3 g rhs /\ In r111 (sym_all g) /\
    zpow 3 r111 3 = zeye 3 /\ ~ In r111 (sym_all rhs) /\ sym_div inv3 g rhs = DValue).
Proof.
  split; [|split; [|split]].
  - do 2 eexists. split; [vm_compute; reflexivity|]. split; [vm_compute; reflexivity|]. split; [exact inv2_inverts|].
    split; [apply is_group_b_spec; vm_compute; reflexivity|]. split; [apply is_group_b_spec; vm_compute; reflexivity|].
    split; [apply sub_b_spec; vm_compute; reflexivity|]. split; [apply normal_b_spec; vm_compute; reflexivity|vm_compute; reflexivity].
  - do 3 eexists. split; [vm_compute; reflexivity|]. split; [vm_compute; reflexivity|]. split; [exact inv3_inverts|].
    split; [apply is_group_b_spec; vm_compute; reflexivity|]. split; [apply sub_b_spec; vm_compute; reflexivity|].
    split; [|split; [vm_compute; reflexivity|vm_compute; reflexivity]].
    intros Hn. apply normal_b_spec in Hn. vm_compute in Hn. discriminate.
  - do 2 eexists. split; [vm_compute; reflexivity|]. split; [vm_compute; reflexivity|].
    split; [apply sub_b_spec; vm_compute; reflexivity|]. split; [apply normal_b_spec; vm_compute; reflexivity|vm_compute; reflexivity].
  - do 2 eexists. split; [vm_compute; reflexivity|]. split; [vm_compute; reflexivity|].
    split; [apply sub_b_spec; vm_compute; reflexivity|]. split; [apply normal_b_spec; vm_compute; reflexivity|].
    split; [apply zmemb_In; vm_compute; reflexivity|]. split; [vm_compute; reflexivity|].
    split; [intros Hin; apply zmemb_In in Hin; vm_compute in Hin; discriminate|vm_compute; reflexivity].
Qed.
Print Assumptions C90_div_refuted.

(** the permutations / the cyclic ones *)
Example C90_example : exists g rhs h, sym_perm3 false = Some g /\ sym_from_generator 3 [r111] false = Some rhs /\
  built g /\ built rhs /\ is_group (zmul 3) (zeye 3) (sops g) /\ is_group (zmul 3) (zeye 3) (sops rhs) /\
  sym_div inv3 g rhs = DOk h /\ sym_len h = 2.
Proof.
  do 3 eexists. split; [vm_compute; reflexivity|]. split; [vm_compute; reflexivity|].
  split; [match goal with |- built ?g => exists (sops g), false end; split; [apply wfz_b_spec; vm_compute; reflexivity|vm_compute; reflexivity]|].
  split; [match goal with |- built ?g => exists (sops g), false end; split; [apply wfz_b_spec; vm_compute; reflexivity|vm_compute; reflexivity]|].
  split; [apply is_group_b_spec; vm_compute; reflexivity|]. split; [apply is_group_b_spec; vm_compute; reflexivity|].
  split; [vm_compute; reflexivity|vm_compute; reflexivity].
Qed.

(** with inversion in g only: D2h / C2v is {1, mz} without inversion, and so is C2h / C2 *)
Example C90_example_inversion : exists g m h g' r k, sym_init 3 [zeye 3; d2z; d2x; d2y] true false = Some g /\
  sym_init 3 [zeye 3; d2z; zneg 3 d2x; zneg 3 d2y] false false = Some m /\
  sym_div inv3 g m = DOk h /\ sym_all h = [zeye 3; zneg 3 d2z] /\
  sym_init 3 [zeye 3; d2z] true false = Some g' /\ sym_init 3 [zeye 3; d2z] false false = Some r /\
  sym_div inv3 g' r = DOk k /\ sym_all k = [zeye 3; zneg 3 d2z].
Proof. do 6 eexists. repeat (split; [vm_compute; reflexivity|]). vm_compute; reflexivity. Qed.

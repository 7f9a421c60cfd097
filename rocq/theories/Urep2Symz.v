(** C92: the precompiled symmetrizer and symmetrize give the same hoppings *)
From Coq Require Import List Arith ZArith Lia Bool Permutation Setoid Morphisms QArith Qcanon.
Local Close Scope Q_scope.
Local Close Scope Qc_scope.
Import ListNotations.
From Verif Require Import SRing LMat FMat FinGroup SymModel DetMC SymInitProofs SymEqProofs SymPointProofs HamModel HamProofs HamProps CplxR UrepModel UrepProofs UrepProps UrepModel2 Urep2Proofs Urep2Props.

(** ** lists *)
Lemma filter_one {A} (P : A -> bool) l x : NoDup l -> In x l -> P x = true -> (forall y, In y l -> P y = true -> y = x) -> length (filter P l) = 1.
Proof.
  induction l as [|a l IH]; [intros _ []|]. intros Hnd [-> |Hx] HP Hu; cbn [filter]; inversion Hnd as [|? ? Hn Hnd']; subst.
  - rewrite HP. cbn [length]. f_equal.
    assert (E : filter P l = []); [|rewrite E; reflexivity]. apply incl_l_nil. intros y Hy. apply filter_In in Hy. destruct Hy as [Hy Py].
    rewrite <- (Hu y (or_intror Hy) Py) in Hn. contradiction.
  - destruct (P a) eqn:E; [|apply IH; auto; intros y Hy; apply Hu; right; exact Hy].
    exfalso. rewrite (Hu a (or_introl eq_refl) E) in Hn. contradiction.
Qed.
Lemma list_sum_cons a l : list_sum (a :: l) = a + list_sum l. Proof. reflexivity. Qed.
Lemma filter_concat_map {A B} (P : B -> bool) (f : A -> list B) l : length (filter P (concat (map f l))) = list_sum (map (fun a => length (filter P (f a))) l).
Proof. induction l as [|a l IH]; [reflexivity|]. cbn [map concat]. rewrite filter_app, app_length, list_sum_cons, IH. reflexivity. Qed.
Lemma len_filter_map {A B} (P : B -> bool) (f : A -> B) l : length (filter P (map f l)) = list_sum (map (fun a => if P (f a) then 1 else 0) l).
Proof. induction l as [|a l IH]; [reflexivity|]. cbn [map filter]. rewrite list_sum_cons, <- IH. destruct (P (f a)); reflexivity. Qed.
Lemma list_sum_add {A} (f g : A -> nat) l : list_sum (map (fun a => f a + g a) l) = list_sum (map f l) + list_sum (map g l).
Proof. induction l as [|a l IH]; [reflexivity|]. cbn [map]. rewrite !list_sum_cons, IH. lia. Qed.
Lemma list_sum_swap {A B} (f : A -> B -> nat) l l' :
  list_sum (map (fun a => list_sum (map (f a) l')) l) = list_sum (map (fun b => list_sum (map (fun a => f a b) l)) l').
Proof.
  induction l as [|a l IH].
  - induction l' as [|b l' IH']; [reflexivity|]. cbn [map] in *. rewrite list_sum_cons, <- IH'. reflexivity.
  - cbn [map]. rewrite list_sum_cons, IH, <- list_sum_add. f_equal.
Qed.
Lemma list_sum_one {A} (f : A -> nat) l : (forall a, In a l -> f a = 1) -> list_sum (map f l) = length l.
Proof. induction l as [|a l IH]; intros H; [reflexivity|]. cbn [map length]. rewrite list_sum_cons, (H a (or_introl eq_refl)). cbn [Nat.add]. f_equal. apply IH. intros b Hb. apply H. right; exact Hb. Qed.
Lemma filter_concat_row {A B} (P : B -> bool) (key : B -> nat) (f : nat * A -> list B) l a i :
  (forall p b, In p l -> In b (f p) -> key b = fst p) -> NoDup (map fst l) -> In (i, a) l ->
  filter (fun b => Nat.eqb (key b) i && P b) (concat (map f l)) = filter P (f (i, a)).
Proof.
  induction l as [|p l IH]; [intros _ _ []|]. intros Hk Hnd Hin. cbn [map concat]. rewrite filter_app. inversion Hnd as [|? ? Hn Hnd']; subst.
  assert (Hf : forall (Q : bool) l', (forall b, In b l' -> Nat.eqb (key b) i = Q) ->
     filter (fun b => Nat.eqb (key b) i && P b) l' = if Q then filter P l' else []).
  { intros Q l'. induction l' as [|b l' IH']; intros Hb; [destruct Q; reflexivity|]. cbn [filter]. rewrite (Hb b (or_introl eq_refl)).
    rewrite IH' by (intros b' H'; apply Hb; right; exact H'). destruct Q; reflexivity. }
  destruct Hin as [-> |Hin].
  - rewrite (Hf true), (Hf false), app_nil_r; [reflexivity| |].
    + intros b Hb. apply in_concat in Hb. destruct Hb as (l' & Hl' & Hb). apply in_map_iff in Hl'. destruct Hl' as (q & <- & Hq).
      rewrite (Hk q b (or_intror Hq) Hb). apply Nat.eqb_neq. intros E. apply Hn. cbn [fst]. rewrite <- E. apply in_map. exact Hq.
    + intros b Hb. rewrite (Hk _ b (or_introl eq_refl) Hb). apply Nat.eqb_refl.
  - rewrite (Hf false) by (intros b Hb; rewrite (Hk p b (or_introl eq_refl) Hb); apply Nat.eqb_neq; intros E; apply Hn; rewrite E;
      change i with (fst (i, a)); apply in_map; exact Hin).
    apply IH; [intros q b Hq; apply Hk; right; exact Hq|exact Hnd'|exact Hin].
Qed.

(** ** the dictionaries *)
Lemma dset_in j v l e : In e (dset j v l) -> e = (j, v) \/ In e l.
Proof.
  induction l as [|[j' v'] l IH]; cbn [dset]; [intros [H|[]]; auto|]. destruct (Nat.eqb j' j) eqn:E.
  - intros [H|H]; [auto|right; right; exact H].
  - intros [H|H]; [right; left; exact H|]. destruct (IH H); [auto|right; right; assumption].
Qed.
Lemma dset_key j v l : In j (map fst (dset j v l)).
Proof. induction l as [|[j' v'] l IH]; cbn [dset map fst]; [left; reflexivity|]. destruct (Nat.eqb j' j); [left; reflexivity|right; exact IH]. Qed.
Lemma dset_keep j v l i : In i (map fst l) -> In i (map fst (dset j v l)).
Proof.
  induction l as [|[j' v'] l IH]; [intros []|]. cbn [dset map fst]. destruct (Nat.eqb j' j) eqn:E.
  - apply Nat.eqb_eq in E. subst. auto.
  - intros [H|H]; [left; exact H|right; apply IH; exact H].
Qed.
Lemma dmem_in {A} j (l : list (nat * A)) : dmem j l = true <-> In j (map fst l).
Proof.
  unfold dmem. rewrite existsb_exists. split.
  - intros (p & Hp & E). apply Nat.eqb_eq in E. subst. apply in_map. exact Hp.
  - intros H. apply in_map_iff in H. destruct H as (p & <- & Hp). exists p. split; [exact Hp|apply Nat.eqb_refl].
Qed.
Lemma rc_fold_in row : forall acc j m b, In (j, (m, b)) (fold_left rc_step row acc) -> In (j, (m, b)) acc \/
  exists t, In t row /\ t_j t = j /\ t_i t <> j /\ t_m t = m /\ t_k t = (if b : bool then TMir else TNor).
Proof.
  induction row as [|t row IH]; intros acc j m b H; [left; exact H|]. cbn [fold_left] in H.
  destruct (IH _ _ _ _ H) as [H'|(t' & H1 & H2)]; [|right; exists t'; split; [right; exact H1|exact H2]].
  unfold rc_step in H'. destruct (t_k t) eqn:Ek; [left; exact H'| |].
  - destruct (negb (Nat.eqb (t_j t) (t_i t))) eqn:E1; cbn [andb] in H'; [|left; exact H'].
    destruct (negb (dmem (t_j t) acc)); [|left; exact H']. apply dset_in in H'. destruct H' as [H'|H']; [|left; exact H'].
    injection H' as -> -> ->. right. exists t. apply negb_true_iff, Nat.eqb_neq in E1. split; [left; reflexivity|]. repeat split; auto.
  - destruct (negb (Nat.eqb (t_j t) (t_i t))) eqn:E1; [|left; exact H'].
    apply dset_in in H'. destruct H' as [H'|H']; [|left; exact H'].
    injection H' as -> -> ->. right. exists t. apply negb_true_iff, Nat.eqb_neq in E1. split; [left; reflexivity|]. repeat split; auto.
Qed.
Lemma rc_step_keep t acc i : In i (map fst acc) -> In i (map fst (rc_step acc t)).
Proof.
  intros H. unfold rc_step. destruct (t_k t); [exact H| |]; destruct (negb _); cbn [andb]; try exact H; try (apply dset_keep; exact H).
  destruct (negb (dmem (t_j t) acc)); [apply dset_keep|]; exact H.
Qed.
Lemma rc_fold_keep row : forall acc i, In i (map fst acc) -> In i (map fst (fold_left rc_step row acc)).
Proof. induction row as [|t row IH]; intros acc i H; [exact H|]. cbn [fold_left]. apply IH, rc_step_keep, H. Qed.
Lemma rc_fold_key row : forall acc t, In t row -> t_k t <> TZero -> t_j t <> t_i t -> In (t_j t) (map fst (fold_left rc_step row acc)).
Proof.
  induction row as [|t0 row IH]; intros acc t Ht Hz Hne; [destruct Ht|]. destruct Ht as [-> |Ht]; cbn [fold_left]; [|apply IH; assumption].
  apply rc_fold_keep. unfold rc_step. apply Nat.eqb_neq in Hne. rewrite Hne. cbn [negb andb].
  destruct (t_k t); [contradiction| |apply dset_key].
  destruct (dmem (t_j t) acc) eqn:E; cbn [negb]; [apply dmem_in; exact E|apply dset_key].
Qed.
Lemma rep_class_in row j m b : In (j, (m, b)) (rep_class row) ->
  exists t, In t row /\ t_j t = j /\ t_i t <> j /\ t_m t = m /\ t_k t = (if b : bool then TMir else TNor).
Proof. intros H. destruct (rc_fold_in _ _ _ _ _ H) as [[]|H']; exact H'. Qed.
Lemma rep_class_key row j : In j (map fst (rep_class row)) <-> exists t, In t row /\ t_j t = j /\ t_i t <> j /\ t_k t <> TZero.
Proof.
  split.
  - intros H. apply in_map_iff in H. destruct H as ([j' [m b]] & <- & H). apply rep_class_in in H. destruct H as (t & H1 & H2 & H3 & _ & H4).
    exists t. split; [exact H1|]. split; [exact H2|]. split; [exact H3|]. rewrite H4. destruct b; discriminate.
  - intros (t & H1 & <- & H3 & H4). apply rc_fold_key; [exact H1|exact H4|auto].
Qed.
Lemma classes_in rs : forall a cov i rc, In (i, rc) (classes_of (combine (seq a (length rs)) rs) cov) <->
  exists p row, i = a + p /\ nth_error rs p = Some row /\ rc = rep_class row /\ ~ In i cov /\
    forall q row', q < p -> nth_error rs q = Some row' -> ~ In i (map fst (rep_class row')).
Proof.
  induction rs as [|row rs IH]; intros a cov i rc.
  - cbn. split; [intros []|]. intros (p & row & _ & H & _). destruct p; discriminate H.
  - cbn [length seq combine classes_of].
    assert (E : In (i, rc) (classes_of (combine (seq (S a) (length rs)) rs) (cov ++ map fst (rep_class row))) <->
      exists p row0, i = a + S p /\ nth_error (row :: rs) (S p) = Some row0 /\ rc = rep_class row0 /\ ~ In i cov /\
        forall q row', q < S p -> nth_error (row :: rs) q = Some row' -> ~ In i (map fst (rep_class row'))).
    { rewrite IH. split.
      - intros (p & row0 & -> & H2 & H3 & H4 & H5). exists p, row0. split; [lia|]. split; [exact H2|]. split; [exact H3|].
        rewrite in_app_iff in H4. replace (a + S p) with (S a + p) by lia. split; [tauto|].
        intros [|q] row' Hq Hr; cbn in Hr; [injection Hr as <-; tauto|apply (H5 q row'); [lia|exact Hr]].
      - intros (p & row0 & -> & H2 & H3 & H4 & H5). exists p, row0. split; [lia|]. split; [exact H2|]. split; [exact H3|].
        split; [rewrite in_app_iff; intros [H|H]; [tauto|apply (H5 0 row); [lia|reflexivity|exact H]]|].
        intros q row' Hq Hr. apply (H5 (S q) row'); [lia|exact Hr]. }
    destruct (existsb (Nat.eqb a) cov) eqn:Ec.
    + rewrite E. split.
      * intros (p & row0 & H). exists (S p), row0. exact H.
      * intros ([|p] & row0 & H1 & H2 & H3 & H4 & H5); [|exists p, row0; auto 6].
        exfalso. apply H4. apply existsb_exists in Ec. destruct Ec as (x & Hx & Ex). apply Nat.eqb_eq in Ex. replace i with x by lia. exact Hx.
    + cbn [In]. rewrite E. split.
      * intros [H|(p & row0 & H)]; [|exists (S p), row0; exact H]. injection H as <- <-. exists 0, row.
        split; [lia|]. split; [reflexivity|]. split; [reflexivity|]. split; [|intros q row' Hq; lia].
        intros Hin. assert (existsb (Nat.eqb a) cov = true); [|congruence]. apply existsb_exists. exists a. split; [exact Hin|apply Nat.eqb_refl].
      * intros ([|p] & row0 & H1 & H2 & H3 & H4 & H5); [left|right; exists p, row0; auto 6].
        cbn in H2. injection H2 as <-. rewrite H3. f_equal. lia.
Qed.

Section Z.
Context {K : sring}.
Local Open Scope sring_scope.
Add Ring Kring_uz : (s_rt K).
Variable r : urep K.
Variable ns : list zvec.
Notation n := (sdim (usym r)).
Notation d := (udim r).
Notation ops := (sops (usym r)).
Notation sp := (usplit r).
Notation look := (try_neighbor zveqb (zvneg n) ns).
Hypothesis HR : unit_rep r.
Hypothesis HN : half_list n ns.
Hypothesis Hinv : sinv (usym r) = true.
Hypothesis HC : forall s x, In s ops -> In x ns -> listed n ns (zmv n s x).

(** *** signs *)
Definition pm (b : bool) (y : zvec) : zvec := if b then zvneg n y else y.
Lemma pm_mv s b y : zmv n s (pm b y) = pm b (zmv n s y).
Proof. destruct b; [apply zmv_neg|reflexivity]. Qed.
Lemma pm_pm b c y : wfv n y -> pm b (pm c y) = pm (xorb b c) y.
Proof. intros Hy. destruct b, c; cbn; rewrite ?zvneg_invol by exact Hy; reflexivity. Qed.
Lemma pm_wf b y : wfv n y -> wfv n (pm b y). Proof. destruct b; [intros _; apply zvneg_wf|auto]. Qed.
Lemma pm_same b y y' : In y ns -> In y' ns -> y = pm b y' -> y = y'.
Proof.
  destruct b; [|auto]. cbn. intros Hy Hy' E. destruct HN as (_ & _ & H). rewrite E in Hy |- *. symmetry. apply H; assumption.
Qed.
Lemma pm_move b y z : wfv n z -> y = pm b z -> wfv n y -> z = pm b y.
Proof. intros Hz -> _. rewrite pm_pm by exact Hz. destruct b; reflexivity. Qed.
Lemma ns_In_wf y : In y ns -> wfv n y. Proof. apply HN. Qed.
Lemma zero_pm b y : wfv n y -> zero_b (pm b y) = zero_b y.
Proof.
  intros Hy. destruct b; [|reflexivity]. cbn. apply eq_true_iff_eq. rewrite (zero_b_neg n _ (zvneg_wf n y)), (zero_b_neg n y Hy), zvneg_invol by exact Hy.
  split; congruence.
Qed.
Lemma zmv_eye x : wfv n x -> zmv n (zeye n) x = x. Proof. intros H. apply (lmv_1 Zs). exact H. Qed.
Lemma zmv_inv s : In s ops -> exists t, In t ops /\ forall x, wfv n x -> zmv n t (zmv n s x) = x.
Proof.
  intros Hs. destruct (r_group r HR) as (_ & _ & _ & Hi). destruct (Hi s Hs) as (t & Ht & _ & E). exists t. split; [exact Ht|].
  intros x Hx. rewrite <- zmv_act, E. apply zmv_eye; exact Hx.
Qed.
Lemma zero_mv s x : In s ops -> wfv n x -> zero_b (zmv n s x) = zero_b x.
Proof.
  intros Hs Hx. apply eq_true_iff_eq. rewrite (zero_b_neg n _ (zmv_wf n s x)), (zero_b_neg n x Hx), <- zmv_neg. split; [|congruence].
  intros E. destruct (zmv_inv s Hs) as (t & _ & Ht). pose proof (Ht x Hx) as A. rewrite E, (Ht _ (zvneg_wf n x)) in A. symmetry; exact A.
Qed.

(** *** the tasks *)
Definition ms : list (nat * zmat) := combine (seq 0 (length ops)) ops.
Definition ixs : list (nat * zvec) := combine (seq 0 (length ns)) ns.
Definition tk (i : nat) (x : zvec) (p : nat * zmat) : task :=
  let x' := zmv n (snd p) x in
  match look x' with
  | Some (j, m) => MkTask i j (fst p) (if zero_b x' then TZero else if m : bool then TMir else TNor)
  | None => MkTask i 0 (fst p) TNor
  end.
Definition trow (p : nat * zvec) : list task := map (tk (fst p) (snd p)) ms.
Lemma ms_in m s : In (m, s) ms <-> nth_error ops m = Some s. Proof. apply in_combine_seq'. Qed.
Lemma ixs_in i x : In (i, x) ixs <-> nth_error ns i = Some x. Proof. apply in_combine_seq'. Qed.
Lemma ms_op p : In p ms -> In (snd p) ops.
Proof. destruct p as [m s]. intros H. apply ms_in in H. eapply nth_error_In; exact H. Qed.
Lemma ms_op' s : In s ops -> exists m, In (m, s) ms.
Proof. intros H. apply In_nth_error in H. destruct H as [m H]. exists m. apply ms_in. exact H. Qed.
Lemma row_ok i x l : In x ns -> (forall p, In p l -> In (snd p) ops) -> row_tasks true n ns i x l = TOk (map (tk i x) l).
Proof.
  intros Hx. induction l as [|[m s] l IH]; intros Hl; [reflexivity|]. cbn [row_tasks map]. unfold tk at 1. cbn [fst snd].
  assert (D := HC s x (Hl (m, s) (or_introl eq_refl)) Hx). apply (ldom_spec r) in D. unfold ldom in D.
  destruct (look (zmv n s x)) as [[j mir]|]; [|discriminate D].
  rewrite !andb_true_r, IH by (intros p Hp; apply Hl; right; exact Hp). destruct (zero_b (zmv n s x)); [reflexivity|]. destruct mir; reflexivity.
Qed.
Lemma all_ok l : (forall p, In p l -> In (snd p) ns) -> all_tasks r ns l = TOk (map trow l).
Proof.
  induction l as [|[i x] l IH]; intros Hl; [reflexivity|]. cbn [all_tasks map]. rewrite Hinv.
  change (combine (seq 0 (length ops)) ops) with ms. rewrite (row_ok i x ms (Hl (i, x) (or_introl eq_refl)) ms_op).
  rewrite IH by (intros p Hp; apply Hl; right; exact Hp). reflexivity.
Qed.
(** j is where s takes x, up to the sign *)
Definition img (x : zvec) (s : zmat) (j : nat) : Prop := exists y b, nth_error ns j = Some y /\ zmv n s x = pm b y.
Lemma img_unique x s j j' : img x s j -> img x s j' -> j = j'.
Proof.
  intros (y & b & Hy & E) (y' & b' & Hy' & E'). rewrite E in E'.
  assert (Wy := ns_wf r ns HN _ _ Hy). assert (Wy' := ns_wf r ns HN _ _ Hy').
  assert (y = pm (xorb b b') y').
  { transitivity (pm b (pm b y)); [rewrite pm_pm by exact Wy; destruct b; reflexivity|]. rewrite E', pm_pm by exact Wy'. reflexivity. }
  apply pm_same in H; [|eapply nth_error_In; exact Hy|eapply nth_error_In; exact Hy']. subst y'.
  eapply nth_err_unique; eassumption.
Qed.
Lemma tk_spec i x m s : In x ns -> In s ops -> exists j y b k, tk i x (m, s) = MkTask i j m k /\ nth_error ns j = Some y /\ zmv n s x = pm b y /\
  k = (if zero_b x then TZero else if b then TMir else TNor) /\ (b = true -> ~ In (zmv n s x) ns).
Proof.
  intros Hx Hs. unfold tk. cbn [fst snd]. pose proof (try_neighbor_spec zveqb (zvneg n) ns (zmv n s x) zveqb_spec) as S.
  assert (D := HC s x Hs Hx). rewrite (zero_mv s x Hs (ns_In_wf x Hx)).
  destruct (look (zmv n s x)) as [[j [|]]|]; [| |destruct S; destruct D; contradiction].
  - destruct S as [S1 S2]. exists j, (zvneg n (zmv n s x)), true. eexists. split; [reflexivity|]. split; [exact S1|].
    split; [cbn; rewrite zvneg_invol by apply zmv_wf; reflexivity|]. split; [reflexivity|]. auto.
  - exists j, (zmv n s x), false. eexists. split; [reflexivity|]. split; [exact S|]. split; [reflexivity|]. split; [reflexivity|]. discriminate.
Qed.
Lemma tk_img i x m s j : In x ns -> In s ops -> t_j (tk i x (m, s)) = j <-> img x s j.
Proof.
  intros Hx Hs. destruct (tk_spec i x m s Hx Hs) as (j' & y & b & k & -> & Hy & E & _). cbn [t_j].
  assert (I : img x s j') by (exists y, b; auto). split; [intros <-; exact I|]. intros I'. eapply img_unique; eassumption.
Qed.
Lemma img_back i x s j y : nth_error ns i = Some x -> nth_error ns j = Some y -> In s ops -> img x s j -> exists t, In t ops /\ img y t i.
Proof.
  intros Hx Hy Hs (y' & b & Hy' & E). assert (y' = y) by congruence. subst y'.
  destruct (zmv_inv s Hs) as (t & Ht & Et). exists t. split; [exact Ht|]. exists x, b. split; [exact Hx|].
  assert (Wx := ns_wf r ns HN _ _ Hx). assert (Wy := ns_wf r ns HN _ _ Hy).
  apply (pm_move b (zmv n s x) y Wy) in E; [|apply zmv_wf]. rewrite E, pm_mv, (Et x Wx). reflexivity.
Qed.
(** the counts are right *)
Lemma count_ok j : (j < length ns)%nat ->
  length (filter (fun t => Nat.eqb (t_j t) j) (concat (map trow ixs))) = length ops.
Proof.
  intros Hj. rewrite filter_concat_map.
  transitivity (list_sum (map (fun p => list_sum (map (fun q => if Nat.eqb (t_j (tk (fst p) (snd p) q)) j then 1 else 0)%nat ms)) ixs)).
  { f_equal. apply map_ext. intros p. unfold trow. apply len_filter_map. }
  rewrite list_sum_swap. rewrite list_sum_one; [unfold ms; rewrite combine_length, seq_length; apply Nat.min_id|].
  intros [m s] Hm. pose proof (ms_op _ Hm) as Hs. cbn [snd] in Hs.
  destruct (nth_error ns j) as [y|] eqn:Hy; [|apply nth_error_None in Hy; lia].
  rewrite <- (len_filter_map (fun t => Nat.eqb (t_j t) j) (fun p => tk (fst p) (snd p) (m, s))).
  assert (Wy := ns_wf r ns HN _ _ Hy).
  (* the preimage *)
  assert (P : exists i x, nth_error ns i = Some x /\ img x s j).
  { destruct (r_group r HR) as (_ & _ & _ & Hi). destruct (Hi s Hs) as (t & Ht & E & _).
    destruct (HC t y Ht (nth_error_In _ _ Hy)) as [H|H]; apply In_nth_error in H; destruct H as [i H]; exists i; eexists; (split; [exact H|]).
    - exists y, false. split; [exact Hy|]. rewrite <- zmv_act, E. apply zmv_eye. exact Wy.
    - exists y, true. split; [exact Hy|]. rewrite zmv_neg, <- zmv_act, E, zmv_eye by exact Wy. reflexivity. }
  destruct P as (i & x & Hx & I).
  transitivity (length (filter (fun p => Nat.eqb (t_j (tk (fst p) (snd p) (m, s))) j) ixs)).
  { generalize ixs. intros l. induction l as [|p l IH]; [reflexivity|]. cbn [map filter]. destruct (Nat.eqb _ j); cbn [length]; rewrite IH; reflexivity. }
  apply (filter_one _ _ (i, x)).
  - apply (NoDup_map_inv fst). unfold ixs. rewrite map_fst_combine_seq. apply seq_NoDup.
  - apply ixs_in. exact Hx.
  - cbn [fst snd]. apply Nat.eqb_eq, tk_img; [eapply nth_error_In; exact Hx|exact Hs|exact I].
  - intros [i' x'] Hp E. apply ixs_in in Hp. cbn [fst snd] in E. apply Nat.eqb_eq in E. apply tk_img in E; [|eapply nth_error_In; exact Hp|exact Hs].
    destruct I as (y1 & b & Hy1 & E1). destruct E as (y2 & b2 & Hy2 & E2). rewrite Hy in Hy1, Hy2. injection Hy1 as <-. injection Hy2 as <-.
    destruct (zmv_inv s Hs) as (t & Ht & Et). assert (Wx := ns_wf r ns HN _ _ Hx). assert (Wx' := ns_wf r ns HN _ _ Hp).
    assert (X : x' = pm (xorb b2 b) x).
    { pose proof (Et x Wx) as A. rewrite E1, pm_mv in A. pose proof (Et x' Wx') as A'. rewrite E2, pm_mv in A'.
      rewrite <- A, <- A', !pm_pm by apply zmv_wf. destruct b, b2; reflexivity. }
    apply pm_same in X; [|eapply nth_error_In; exact Hp|eapply nth_error_In; exact Hx]. subst x'. f_equal. eapply nth_err_unique; eassumption.
Qed.
(** *** the zero neighbor *)
Lemma zero_uniq x y : wfv n x -> wfv n y -> zero_b x = true -> zero_b y = true -> x = y.
Proof.
  intros Hx Hy Zx Zy. apply (vec_ext Zs n); [exact Hx|exact Hy|]. intros i Hi.
  assert (G : forall v, wfv n v -> zero_b v = true -> vent (K:=Zs) v i = 0%Z).
  { intros v Hv Zv. unfold zero_b in Zv. rewrite forallb_forall in Zv. symmetry. apply Z.eqb_eq, Zv, nth_In.
    unfold wfv in Hv. change (i < length v)%nat. rewrite Hv. exact Hi. }
  rewrite (G x Hx Zx), (G y Hy Zy). reflexivity.
Qed.
Notation ts := (concat (map trow ixs)).
Lemma ts_in t : In t ts <-> exists i x m s, nth_error ns i = Some x /\ nth_error ops m = Some s /\ t = tk i x (m, s).
Proof.
  rewrite in_concat. split.
  - intros (l & Hl & Ht). apply in_map_iff in Hl. destruct Hl as ([i x] & <- & Hi). apply ixs_in in Hi. unfold trow in Ht. cbn [fst snd] in Ht.
    apply in_map_iff in Ht. destruct Ht as ([m s] & <- & Hm). apply ms_in in Hm. exists i, x, m, s. auto.
  - intros (i & x & m & s & Hi & Hm & ->). exists (trow (i, x)). split; [apply in_map, ixs_in; exact Hi|].
    unfold trow. cbn [fst snd]. apply in_map, ms_in. exact Hm.
Qed.
Lemma zero_tasks i0 x0 t : nth_error ns i0 = Some x0 -> zero_b x0 = true -> In t ts -> t_k t = TZero -> t_i t = i0 /\ t_j t = i0.
Proof.
  intros H0 Z0 Ht Hk. apply ts_in in Ht. destruct Ht as (i & x & m & s & Hi & Hm & ->).
  pose proof (nth_error_In _ _ Hi) as Hx. pose proof (nth_error_In _ _ Hm) as Hs.
  destruct (tk_spec i x m s Hx Hs) as (j & y & b & k & E & Hy & Ey & Ek & _). rewrite E in *. cbn [t_k t_i t_j] in *.
  assert (Z : zero_b x = true) by (destruct (zero_b x); [reflexivity|]; rewrite Ek in Hk; destruct b; discriminate Hk).
  assert (Wx := ns_wf r ns HN _ _ Hi). assert (W0 := ns_wf r ns HN _ _ H0). assert (Wy := ns_wf r ns HN _ _ Hy).
  rewrite (zero_uniq x x0 Wx W0 Z Z0) in *.
  assert (Zy : zero_b y = true) by (rewrite <- (zero_pm b y Wy), <- Ey, zero_mv; assumption).
  rewrite (zero_uniq y x0 Wy W0 Zy Z0) in *. split; eapply nth_err_unique; eassumption.
Qed.

(** *** representatives *)
Notation cls := (classes_of (combine (seq 0 (length ns)) (map trow ixs)) []).
Lemma ixs_nth i x : nth_error ixs i = Some x <-> exists y, nth_error ns i = Some y /\ x = (i, y).
Proof.
  assert (L : length ixs = length ns) by (unfold ixs; rewrite combine_length, seq_length; apply Nat.min_id).
  destruct (nth_error ns i) as [y|] eqn:Hy.
  - assert (E : nth_error ixs i = Some (i, y)).
    { rewrite (nth_error_nth' ixs (0%nat, [])) by (rewrite L; apply nth_error_Some; congruence). f_equal. unfold ixs.
      rewrite combine_nth by apply seq_length. rewrite seq_nth by (apply nth_error_Some; congruence). f_equal. apply nth_error_nth. exact Hy. }
    rewrite E. split; [intros [= <-]; eauto|]. intros (z & [= <-] & ->). reflexivity.
  - split; [|intros (z & E & _); discriminate E]. intros E. exfalso. apply nth_error_None in Hy. rewrite <- L in Hy. apply nth_error_None in Hy. congruence.
Qed.
Lemma cls_in i rc : In (i, rc) cls <-> exists x, nth_error ns i = Some x /\ rc = rep_class (trow (i, x)) /\
  forall q y, (q < i)%nat -> nth_error ns q = Some y -> ~ In i (map fst (rep_class (trow (q, y)))).
Proof.
  assert (L : length (map trow ixs) = length ns) by (rewrite map_length; unfold ixs; rewrite combine_length, seq_length; apply Nat.min_id).
  rewrite <- L at 1. rewrite classes_in. split.
  - intros (p & row & -> & Hr & -> & _ & Hq). cbn [Nat.add]. rewrite nth_error_map in Hr. destruct (nth_error ixs p) as [q|] eqn:Hp; [|discriminate Hr].
    apply ixs_nth in Hp. destruct Hp as (x & Hx & ->). injection Hr as <-. exists x. split; [exact Hx|]. split; [reflexivity|].
    intros q y Hlt Hy. apply (Hq q); [exact Hlt|]. rewrite nth_error_map. rewrite (proj2 (ixs_nth q (q, y))); [reflexivity|eauto].
  - intros (x & Hx & -> & Hq). exists i, (trow (i, x)). split; [reflexivity|]. split; [rewrite nth_error_map, (proj2 (ixs_nth i (i, x))); eauto|].
    split; [reflexivity|]. split; [intros []|]. intros q row' Hlt Hr. rewrite nth_error_map in Hr. destruct (nth_error ixs q) as [p|] eqn:Hp; [|discriminate Hr].
    apply ixs_nth in Hp. destruct Hp as (y & Hy & ->). injection Hr as <-. apply Hq; assumption.
Qed.
Lemma key_iff i x j : nth_error ns i = Some x -> In j (map fst (rep_class (trow (i, x)))) <-> i <> j /\ zero_b x = false /\ exists s, In s ops /\ img x s j.
Proof.
  intros Hi. pose proof (nth_error_In _ _ Hi) as Hx. rewrite rep_class_key. split.
  - intros (t & Ht & Hj & Hne & Hk). unfold trow in Ht. cbn [fst snd] in Ht. apply in_map_iff in Ht. destruct Ht as ([m s] & <- & Hm).
    pose proof (ms_op _ Hm) as Hs. cbn [snd] in Hs. apply tk_img in Hj; [|exact Hx|exact Hs].
    destruct (tk_spec i x m s Hx Hs) as (j' & y & b & k & E & _ & _ & Ek & _). rewrite E in *. cbn [t_i t_k] in *.
    split; [exact Hne|]. split; [|eauto]. destruct (zero_b x); [contradiction|reflexivity].
  - intros (Hne & Z & s & Hs & I). destruct (ms_op' s Hs) as [m Hm]. exists (tk i x (m, s)).
    split; [unfold trow; cbn [fst snd]; apply in_map; exact Hm|]. split; [apply tk_img; assumption|].
    destruct (tk_spec i x m s Hx Hs) as (j' & y & b & k & E & _ & _ & Ek & _). rewrite E. cbn [t_i t_k]. split; [exact Hne|].
    rewrite Ek, Z. destruct b; discriminate.
Qed.
Lemma copies_in b (c : list (nat * list (nat * (nat * bool)))) i j m : In (i, j, m) (copies b c) <-> exists rc, In (i, rc) c /\ In (j, (m, b)) rc.
Proof.
  unfold copies. rewrite in_flat_map. split.
  - intros ([i' rc] & Hc & He). apply in_map_iff in He. destruct He as ([j' [m' b']] & E & He). cbn [fst snd] in E. injection E as <- <- <-.
    apply filter_In in He. cbn [fst snd] in He. destruct He as [He Eb]. apply eqb_prop in Eb. subst b'. eauto.
  - intros (rc & Hc & He). exists (i, rc). split; [exact Hc|]. apply in_map_iff. exists (j, (m, b)). split; [reflexivity|].
    apply filter_In. split; [exact He|]. cbn. apply eqb_reflx.
Qed.
Lemma copies_sound b i j m : In (i, j, m) (copies b cls) -> exists x y s,
  nth_error ns i = Some x /\ nth_error ns j = Some y /\ nth_error ops m = Some s /\ zmv n s x = pm b y /\ In i (map fst cls).
Proof.
  intros H. apply copies_in in H. destruct H as (rc & Hc & He). pose proof (in_map fst _ _ Hc) as Hrep. cbn [fst] in Hrep.
  apply cls_in in Hc. destruct Hc as (x & Hx & -> & _).
  apply rep_class_in in He. destruct He as (t & Ht & Hj & Hne & Hm & Hk). unfold trow in Ht. cbn [fst snd] in Ht.
  apply in_map_iff in Ht. destruct Ht as ([m' s] & <- & Hms). pose proof (ms_op _ Hms) as Hs. cbn [snd] in Hs. apply ms_in in Hms.
  destruct (tk_spec i x m' s (nth_error_In _ _ Hx) Hs) as (j' & y & b' & k & E & Hy & Ey & Ek & _). rewrite E in *. cbn [t_j t_m t_k] in *. subst j' m'.
  exists x, y, s. split; [exact Hx|]. split; [exact Hy|]. split; [exact Hms|]. split; [|exact Hrep]. rewrite Ey. f_equal.
  rewrite Ek in Hk. destruct (zero_b x), b, b'; try discriminate Hk; reflexivity.
Qed.
Lemma orb_sym i x j y : nth_error ns i = Some x -> nth_error ns j = Some y -> In j (map fst (rep_class (trow (i, x)))) -> In i (map fst (rep_class (trow (j, y)))).
Proof.
  intros Hx Hy H. apply (key_iff i x j Hx) in H. destruct H as (Hne & Z & s & Hs & I). apply (key_iff j y i Hy). split; [auto|]. split.
  - destruct I as (y' & b & Hy' & E). assert (y' = y) by congruence. subst y'.
    rewrite <- (zero_pm b y (ns_wf r ns HN _ _ Hy)), <- E, zero_mv; [exact Z|exact Hs|apply (ns_wf r ns HN _ _ Hx)].
  - eapply img_back; eassumption.
Qed.
Lemma orb_trans i x j y k : nth_error ns i = Some x -> nth_error ns j = Some y -> i <> k ->
  In j (map fst (rep_class (trow (i, x)))) -> In k (map fst (rep_class (trow (j, y)))) -> In k (map fst (rep_class (trow (i, x)))).
Proof.
  intros Hx Hy Hne H1 H2. apply (key_iff i x j Hx) in H1. apply (key_iff j y k Hy) in H2. apply (key_iff i x k Hx).
  destruct H1 as (_ & Z & s & Hs & (y' & b & Hy' & E)). assert (y' = y) by congruence. subst y'. destruct H2 as (_ & _ & t & Ht & (z & c & Hz & E2)).
  split; [exact Hne|]. split; [exact Z|]. exists (zmul n t s). split; [apply (r_group r HR); assumption|].
  exists z, (xorb b c). split; [exact Hz|]. rewrite zmv_act, E, pm_mv, E2, pm_pm by apply (ns_wf r ns HN _ _ Hz). reflexivity.
Qed.
Lemma rep_not_target i i' m b : In i (map fst cls) -> In (i', i, m) (copies b cls) -> False.
Proof.
  intros H1 H2. apply in_map_iff in H1. destruct H1 as ([i0 rc] & <- & H1). cbn [fst] in *. apply cls_in in H1. destruct H1 as (x & Hx & _ & H1).
  apply copies_in in H2. destruct H2 as (rc' & Hc & He). apply cls_in in Hc. destruct Hc as (x' & Hx' & -> & H2).
  apply (in_map fst) in He. cbn [fst] in He. destruct (Nat.lt_trichotomy i' i0) as [L|[E|L]].
  - apply (H1 i' x' L Hx' He).
  - subst i'. apply (key_iff i0 x' i0 Hx') in He. destruct He as [He _]. contradiction.
  - apply (H2 i0 x L Hx). eapply orb_sym; [exact Hx'|exact Hx|exact He].
Qed.
Lemma cover j : (j < length ns)%nat -> ~ In j (map fst cls) -> exists i m b, In (i, j, m) (copies b cls).
Proof.
  intros Hj Hn. destruct (nth_error ns j) as [y|] eqn:Hy; [|apply nth_error_None in Hy; lia].
  (* some earlier index covers j *)
  assert (E : exists q x, (q < j)%nat /\ nth_error ns q = Some x /\ In j (map fst (rep_class (trow (q, x))))).
  { destruct (existsb (fun p => Nat.ltb (fst p) j && existsb (Nat.eqb j) (map fst (rep_class (trow p)))) ixs) eqn:Ex.
    - apply existsb_exists in Ex. destruct Ex as ([q x] & Hq & E). apply ixs_in in Hq. rewrite andb_true_iff in E. cbn [fst] in E. destruct E as [E1 E2].
      apply Nat.ltb_lt in E1. apply existsb_exists in E2. destruct E2 as (j' & Hj' & E2). apply Nat.eqb_eq in E2. subst j'. eauto.
    - exfalso. apply Hn. apply in_map_iff. exists (j, rep_class (trow (j, y))). split; [reflexivity|]. apply cls_in. exists y. split; [exact Hy|]. split; [reflexivity|].
      intros q z Hq Hz Hin. assert (Q : existsb (fun p => Nat.ltb (fst p) j && existsb (Nat.eqb j) (map fst (rep_class (trow p)))) ixs = true); [|congruence].
      apply existsb_exists. exists (q, z). split; [apply ixs_in; exact Hz|]. cbn [fst]. rewrite (proj2 (Nat.ltb_lt _ _) Hq). cbn [andb].
      apply existsb_exists. exists j. split; [exact Hin|apply Nat.eqb_refl]. }
  destruct E as (q & x & Hq & Hx & Hin).
  assert (G : forall k q x, (q <= k)%nat -> (q < j)%nat -> nth_error ns q = Some x -> In j (map fst (rep_class (trow (q, x)))) ->
     exists i m b, In (i, j, m) (copies b cls)).
  { clear q x Hq Hx Hin. induction k as [k IH] using lt_wf_ind. intros q x Hqk Hq Hx Hin.
    destruct (in_dec Nat.eq_dec q (map fst cls)) as [Hr|Hr].
    - apply in_map_iff in Hr. destruct Hr as ([q' rc] & E & Hr). cbn [fst] in E. subst q'.
      assert (Hr' := Hr). apply cls_in in Hr'. destruct Hr' as (x' & Hx' & -> & _). assert (x' = x) by congruence. subst x'.
      apply in_map_iff in Hin. destruct Hin as ([j' [m b]] & E & He). cbn [fst] in E. subst j'.
      exists q, m, b. apply copies_in. eauto.
    - destruct (existsb (fun p => Nat.ltb (fst p) q && existsb (Nat.eqb q) (map fst (rep_class (trow p)))) ixs) eqn:Ex.
      + apply existsb_exists in Ex. destruct Ex as ([q2 x2] & Hq2 & E). apply ixs_in in Hq2. rewrite andb_true_iff in E. cbn [fst] in E. destruct E as [E1 E2].
        apply Nat.ltb_lt in E1. apply existsb_exists in E2. destruct E2 as (j' & Hj' & E2). apply Nat.eqb_eq in E2. subst j'.
        apply (IH q2 ltac:(lia) q2 x2); [lia|lia|exact Hq2|]. eapply orb_trans; [exact Hq2|exact Hx|lia|exact Hj'|exact Hin].
      + exfalso. apply Hr. apply in_map_iff. exists (q, rep_class (trow (q, x))). split; [reflexivity|]. apply cls_in. exists x. split; [exact Hx|]. split; [reflexivity|].
        intros q2 z Hq2 Hz Hin2. assert (Q : existsb (fun p => Nat.ltb (fst p) q && existsb (Nat.eqb q) (map fst (rep_class (trow p)))) ixs = true); [|congruence].
        apply existsb_exists. exists (q2, z). split; [apply ixs_in; exact Hz|]. cbn [fst]. rewrite (proj2 (Nat.ltb_lt _ _) Hq2). cbn [andb].
        apply existsb_exists. exists q. split; [exact Hin2|apply Nat.eqb_refl]. }
  exact (G q q x (le_n q) Hq Hx Hin).
Qed.

(** *** the sums *)
Variable H : list (fmat K).
Definition cterm (t : task) : fmat K := uconjl d (opU r (t_m t)) (nth (t_j t) H fzero).
Lemma add_val l : forall R x a b, add_tasks r H l R x a b = R x a b + fsum (filter (fun t => Nat.eqb (t_i t) x) l) cterm a b.
Proof.
  induction l as [|t l IH]; intros R x a b; [unfold fsum; cbn; ring|]. unfold add_tasks in *. cbn [fold_left filter].
  rewrite IH. rewrite (Nat.eqb_sym x (t_i t)). destruct (Nat.eqb (t_i t) x); [|reflexivity].
  unfold fadd, fsum. cbn [ksum]. unfold cterm at 2. ring.
Qed.
Lemma copy_val l (R : nat -> fmat K) : forall R' x,
  let v := fold_left (fun R' e => fun x => if Nat.eqb x (snd (fst e)) then uconjr d (opU r (snd e)) (R (fst (fst e))) else R' x) l R' x in
  (exists i m, In (i, x, m) l /\ v = uconjr d (opU r m) (R i)) \/ ((forall i m, ~ In (i, x, m) l) /\ v = R' x).
Proof.
  induction l as [|[[i j] m] l IH]; intros R' x v; [right; split; [intros i m []|reflexivity]|]. unfold v. cbn [fold_left].
  destruct (IH (fun x => if Nat.eqb x (snd (fst (i, j, m))) then uconjr d (opU r (snd (i, j, m))) (R (fst (fst (i, j, m)))) else R' x) x) as [(i' & m' & Hin & E)|[Hno E]].
  - left. exists i', m'. split; [right; exact Hin|exact E].
  - cbn [fst snd] in *. destruct (Nat.eqb x j) eqn:Ex.
    + apply Nat.eqb_eq in Ex. subst x. left. exists i, m. split; [left; reflexivity|exact E].
    + right. split; [|exact E]. intros i' m' [Ee|Hin]; [|exact (Hno i' m' Hin)]. injection Ee as _ -> _. rewrite Nat.eqb_refl in Ex. discriminate Ex.
Qed.
Lemma opU_aU m s : nth_error ops m = Some s -> opU r m = aU r s.
Proof.
  intros Hm. apply assigns_aU; [exact HR|]. exists m. split; [exact Hm|]. unfold opU. apply nth_error_nth'. rewrite (r_len r HR). apply nth_error_Some. congruence.
Qed.
Lemma filter_and {A} (P Q : A -> bool) l : filter P (filter Q l) = filter (fun x => P x && Q x) l.
Proof. induction l as [|a l IH]; [reflexivity|]. cbn [filter]. destruct (Q a) eqn:E; cbn [filter]; rewrite ?E, ?IH, ?andb_true_r, ?andb_false_r; reflexivity. Qed.
Lemma sel_row k i x : nth_error ns i = Some x -> In i (map fst cls) ->
  filter (fun t => Nat.eqb (t_i t) i) (filter (fun t => dmem (t_i t) cls && is_kind k t) ts) = filter (is_kind k) (trow (i, x)).
Proof.
  intros Hx Hr. rewrite filter_and. rewrite <- (filter_concat_row (is_kind k) t_i trow ixs x i).
  - apply filter_ext. intros t. destruct (Nat.eqb (t_i t) i) eqn:E; [|reflexivity]. cbn [andb]. apply Nat.eqb_eq in E. rewrite E.
    rewrite (proj2 (dmem_in _ _) Hr). reflexivity.
  - intros [i' x'] t _ Ht. unfold trow in Ht. cbn [fst snd] in Ht. apply in_map_iff in Ht. destruct Ht as (q & <- & _). unfold tk. cbn [fst].
    destruct (look _) as [[? ?]|]; reflexivity.
  - unfold ixs. rewrite map_fst_combine_seq. apply seq_NoDup.
  - apply ixs_in. exact Hx.
Qed.
Variable half : K.
Hypothesis Hhalf : half + half = 1.
Lemma cut_half (p : fmat K) a b : cut_par sp p a b = half * (p a b + flip_par sp p a b).
Proof.
  unfold cut_par, flip_par. destruct (Bool.eqb _ _); [|ring]. transitivity ((half + half) * p a b); [rewrite Hhalf; ring|ring].
Qed.
Notation B := (gavg zmat zvec ops (zmv n) (ldom r ns) d d (aU r) (aU r) 1 (hx r ns H)).
Lemma B_sum x a b : In x ns -> B x a b = ksum ms (fun p => uconjl d (aU r (snd p)) (hx r ns H (zmv n (snd p) x)) a b).
Proof.
  intros Hx. unfold gavg. rewrite (proj2 (forallb_forall _ _)).
  - unfold fscale, fsum. transitivity (ksum (map snd ms) (fun s => uconjl d (aU r s) (hx r ns H (zmv n s x)) a b)).
    + unfold ms. rewrite map_snd_combine_seq. unfold conjl, uconjl. ring.
    + rewrite ksum_map. reflexivity.
  - intros s Hs. apply ldom_spec. apply HC; assumption.
Qed.
Lemma B_copy b i x j y m s : nth_error ns i = Some x -> nth_error ns j = Some y -> nth_error ops m = Some s -> zmv n s x = pm b y ->
  feq d d (B y) (if b then flip_par sp (uconjr d (opU r m) (B x)) else uconjr d (opU r m) (B x)).
Proof.
  intros Hx Hy Hm E. pose proof (nth_error_In _ _ Hm) as Hs. rewrite (opU_aU m s Hm).
  pose proof (avg_inv r ns HR 1 (hx r ns H) s x Hs) as A. rewrite E in A. destruct b; cbn [pm] in A; [|exact A].
  assert (Wy := ns_wf r ns HN _ _ Hy). pose proof (avg_neg r ns HR HN 1 H y Hinv Wy) as N. rewrite N in A.
  intros a b Ha Hb. rewrite <- (flip_invol r (B y) a b). apply (flip_feq r _ _ A a b Ha Hb).
Qed.
Lemma split_kinds l a b : (forall t, In t l -> t_k t <> TZero) ->
  flip_par sp (fsum (filter (is_kind TMir) l) cterm) a b + fsum (filter (is_kind TNor) l) cterm a b =
  ksum l (fun t => match t_k t with TMir => flip_par sp (cterm t) a b | _ => cterm t a b end).
Proof.
  induction l as [|t l IH]; intros Hl.
  - rewrite flip_ent. unfold fsum. cbn. ring.
  - cbn [ksum]. rewrite <- IH by (intros t' Ht'; apply Hl; right; exact Ht'). cbn [filter].
    pose proof (Hl t (or_introl eq_refl)) as Hz.
    assert (M : is_kind TMir t = match t_k t with TMir => true | _ => false end) by (unfold is_kind; destruct (t_k t); reflexivity).
    assert (N : is_kind TNor t = match t_k t with TNor => true | _ => false end) by (unfold is_kind; destruct (t_k t); reflexivity).
    rewrite M, N. destruct (t_k t); [contradiction| |].
    + rewrite !flip_ent. unfold fsum. cbn [ksum]. ring.
    + rewrite !flip_ent. unfold fsum. cbn [ksum]. ring.
Qed.
Lemma uU_map : uU r = map (aU r) ops.
Proof.
  apply nth_ext with (d := fzero) (d' := fzero); [rewrite map_length; apply (r_len r HR)|]. intros m Hm. rewrite (r_len r HR) in Hm.
  destruct (nth_error ops m) as [s|] eqn:Es; [|apply nth_error_None in Es; lia].
  rewrite (nth_error_nth _ _ _ (map_nth_error (aU r) _ _ Es)). apply (opU_aU m s Es).
Qed.
(** the value at a representative *)
Variables (i0 : nat) (x0 : zvec).
Hypothesis Hi0 : nth_error ns i0 = Some x0.
Hypothesis Hz0 : zero_b x0 = true.
Definition R0 : nat -> fmat K := fun x => if Nat.eqb x i0 then cut_par sp (fsum (uU r) (fun u => uconjl d u (nth i0 H fzero))) else fzero.
Notation sel k := (filter (fun t => dmem (t_i t) cls && is_kind k t) ts).
Definition R3 : nat -> fmat K := add_tasks r H (sel TNor) (fun x => flip_par sp (add_tasks r H (sel TMir) R0 x)).
Lemma R3_rep i x : nth_error ns i = Some x -> In i (map fst cls) -> feq d d (R3 i) (B x).
Proof.
  intros Hx Hr a b Ha Hb. pose proof (nth_error_In _ _ Hx) as Hin. pose proof (ns_wf r ns HN _ _ Hx) as Wx. unfold R3. rewrite add_val, (sel_row TNor i x Hx Hr).
  rewrite flip_ent, add_val, (sel_row TMir i x Hx Hr). unfold R0. rewrite (B_sum x a b Hin). destruct (zero_b x) eqn:Z.
  - assert (x = x0) by (apply zero_uniq; try assumption; apply (ns_wf r ns HN _ _ Hi0)). subst x.
    assert (i = i0) by (eapply nth_err_unique; eassumption). subst i. rewrite Nat.eqb_refl.
    assert (F : forall k, k <> TZero -> filter (is_kind k) (trow (i0, x0)) = []).
    { intros k Hk. apply incl_l_nil. intros t Ht. apply filter_In in Ht. destruct Ht as [Ht E]. exfalso. unfold trow in Ht. cbn [fst snd] in Ht.
      apply in_map_iff in Ht. destruct Ht as ([m s] & <- & Hm). pose proof (ms_op _ Hm) as Hs. cbn [snd] in Hs.
      destruct (tk_spec i0 x0 m s Hin Hs) as (j & y & c & k' & Et & _ & _ & Ek & _). rewrite Et, Ek, Z in E. unfold is_kind in E. cbn [t_k] in E.
      destruct k; [contradiction|discriminate E|discriminate E]. }
    rewrite !F by discriminate. unfold fsum at 2 3. cbn [ksum].
    transitivity (flip_par sp (cut_par sp (fsum (uU r) (fun u => uconjl d u (nth i0 H fzero)))) a b); [rewrite flip_ent; ring|].
    rewrite cut_flip, cut_half, flip_sum. unfold fsum. rewrite uU_map, !ksum_map.
    transitivity (ksum (map snd ms) (fun s => uconjl d (aU r s) (hx r ns H (zmv n s x0)) a b)); [|rewrite ksum_map; reflexivity].
    unfold ms. rewrite map_snd_combine_seq. rewrite <- ksum_add, <- ksum_mul_l. apply ksum_ext. intros s Hs.
    assert (Es : zmv n s x0 = x0) by (apply zero_uniq; [apply zmv_wf|exact Wx|rewrite zero_mv by assumption; exact Z|exact Z]).
    rewrite Es, (hx_zero r ns HN H i0 x0 Hinv Hx Z). pose proof (aU_par r HR s Hinv Hs) as Hc.
    unfold uconjl. rewrite (comm_conj r (fadj (aU r s)) (aU r s) _ (comm_adj r _ Hc) Hc a b Ha Hb).
    transitivity (fmul d (fmul d (fadj (aU r s)) (fscale half (fadd (nth i0 H fzero) (flip_par sp (nth i0 H fzero))))) (aU r s) a b).
    + assert (E : feq d d (fmul d (fmul d (fadj (aU r s)) (fscale half (fadd (nth i0 H fzero) (flip_par sp (nth i0 H fzero))))) (aU r s))
        (fscale half (fadd (fmul d (fmul d (fadj (aU r s)) (nth i0 H fzero)) (aU r s)) (fmul d (fmul d (fadj (aU r s)) (flip_par sp (nth i0 H fzero))) (aU r s))))).
      { rewrite fmul_scale_r, fmul_scale_l, fmul_add_r, fmul_add_l. reflexivity. }
      rewrite (E a b Ha Hb). reflexivity.
    + refine (fmul_proper d d d _ _ _ _ _ _ a b Ha Hb); [|reflexivity]. refine (fmul_proper d d d _ _ _ _ _ _); [reflexivity|].
      intros a' b' _ _. rewrite cut_half. reflexivity.
  - assert (E0 : Nat.eqb i i0 = false).
    { apply Nat.eqb_neq. intros ->. assert (x = x0) by congruence. subst x. congruence. }
    rewrite E0. unfold fzero at 1.
    transitivity (flip_par sp (fsum (filter (is_kind TMir) (trow (i, x))) cterm) a b + fsum (filter (is_kind TNor) (trow (i, x))) cterm a b); [rewrite flip_ent; ring|].
    rewrite split_kinds.
    + unfold trow. cbn [fst snd]. rewrite ksum_map. apply ksum_ext. intros [m s] Hm. pose proof (ms_op _ Hm) as Hs. cbn [snd] in *. apply ms_in in Hm.
      destruct (tk_spec i x m s Hin Hs) as (j & y & c & k & -> & Hy & Ey & Ek & _). cbn [t_k]. rewrite Ek, Z. unfold cterm. cbn [t_m t_j].
      rewrite (opU_aU m s Hm), Ey. pose proof (ns_wf r ns HN _ _ Hy) as Wy.
      assert (Zy : zero_b y = false) by (rewrite <- (zero_pm c y Wy), <- Ey, zero_mv; assumption). destruct c; cbn [pm].
      * rewrite (hx_mir r ns HN H j y Wy Hinv Hy Zy). pose proof (aU_par r HR s Hinv Hs) as Hc.
        unfold uconjl. exact (comm_conj r (fadj (aU r s)) (aU r s) _ (comm_adj r _ Hc) Hc a b Ha Hb).
      * rewrite (hx_pos r ns HN H j y Hy (or_intror Zy)). reflexivity.
    + intros t Ht. unfold trow in Ht. cbn [fst snd] in Ht. apply in_map_iff in Ht. destruct Ht as ([m s] & <- & Hm). pose proof (ms_op _ Hm) as Hs. cbn [snd] in Hs.
      destruct (tk_spec i x m s Hin Hs) as (j & y & c & k & -> & _ & _ & Ek & _). cbn [t_k]. rewrite Ek, Z. destruct c; discriminate.
Qed.
Definition R5 : nat -> fmat K := fun x => if existsb (fun e => Nat.eqb (snd (fst e)) x) (copies true cls) then flip_par sp (copy_tasks r (copies true cls) R3 x) else copy_tasks r (copies true cls) R3 x.
Definition R6 : nat -> fmat K := copy_tasks r (copies false cls) R5.
Lemma uconjr_feq (u p q : fmat K) : feq d d p q -> feq d d (uconjr d u p) (uconjr d u q).
Proof. intros E. unfold uconjr. rewrite E. reflexivity. Qed.
Lemma R5_val j y : nth_error ns j = Some y -> (In j (map fst cls) \/ exists i m, In (i, j, m) (copies true cls)) -> feq d d (R5 j) (B y).
Proof.
  intros Hy Hj. unfold R5.
  destruct (copy_val (copies true cls) R3 R3 j) as [(i & m & Hin & E)|[Hno E]]; fold (copy_tasks r (copies true cls) R3) in E; rewrite E.
  - assert (X : existsb (fun e => Nat.eqb (snd (fst e)) j) (copies true cls) = true).
    { apply existsb_exists. exists (i, j, m). split; [exact Hin|]. cbn. apply Nat.eqb_refl. }
    rewrite X. destruct (copies_sound true i j m Hin) as (x & y' & s & Hx & Hy' & Hm & Es & Hrep). assert (y' = y) by congruence. subst y'.
    rewrite (B_copy true i x j y m s Hx Hy Hm Es). apply (flip_feq r), uconjr_feq, R3_rep; assumption.
  - assert (X : existsb (fun e => Nat.eqb (snd (fst e)) j) (copies true cls) = false).
    { destruct (existsb _ _) eqn:X; [|reflexivity]. apply existsb_exists in X. destruct X as ([[i j'] m] & Hin & Ej). cbn in Ej. apply Nat.eqb_eq in Ej. subst j'.
      exfalso. exact (Hno i m Hin). }
    rewrite X. apply R3_rep; [exact Hy|]. destruct Hj as [Hj|(i & m & Hin)]; [exact Hj|]. exfalso. exact (Hno i m Hin).
Qed.
Lemma R6_val j y : nth_error ns j = Some y -> feq d d (R6 j) (B y).
Proof.
  intros Hy. unfold R6. destruct (copy_val (copies false cls) R5 R5 j) as [(i & m & Hin & E)|[Hno E]]; fold (copy_tasks r (copies false cls) R5) in E; rewrite E.
  - destruct (copies_sound false i j m Hin) as (x & y' & s & Hx & Hy' & Hm & Es & Hrep). assert (y' = y) by congruence. subst y'.
    rewrite (B_copy false i x j y m s Hx Hy Hm Es). apply uconjr_feq, R5_val; [exact Hx|left; exact Hrep].
  - apply R5_val; [exact Hy|]. destruct (in_dec Nat.eq_dec j (map fst cls)) as [Hr|Hr]; [left; exact Hr|].
    destruct (cover j ltac:(apply nth_error_Some; congruence) Hr) as (i & m & [|] & Hin); [right; eauto|]. exfalso. exact (Hno i m Hin).
Qed.
Lemma prepared : (exists s x, In s ops /\ In x ns /\ ~ In (zmv n s x) ns) ->
  usz_prepare r ns = TOk (MkUsz i0 (sel TMir) (sel TNor) cls).
Proof.
  intros (s & x & Hs & Hx & Hno). unfold usz_prepare. change (combine (seq 0 (length ns)) ns) with ixs.
  rewrite all_ok by (intros [i y] Hp; apply ixs_in in Hp; eapply nth_error_In; exact Hp).
  rewrite (proj2 (forallb_forall _ _)) by (intros j Hj; apply in_seq in Hj; apply Nat.eqb_eq, count_ok; lia). cbn [negb].
  pose proof (nth_error_In _ _ Hi0) as Hin0.
  (* the zero tasks *)
  assert (HE : In (zeye n) ops) by apply (r_group r HR).
  assert (ZT : exists t, In t (filter (is_kind TZero) ts)).
  { destruct (ms_op' _ HE) as [m Hm]. exists (tk i0 x0 (m, zeye n)). apply filter_In. split.
    - apply ts_in. exists i0, x0, m, (zeye n). apply ms_in in Hm. auto.
    - destruct (tk_spec i0 x0 m _ Hin0 HE) as (j & y & c & k & -> & _ & _ & Ek & _). rewrite Ek, Hz0. reflexivity. }
  assert (ZA : forall t, In t (filter (is_kind TZero) ts) -> t_i t = i0 /\ t_j t = i0).
  { intros t Ht. apply filter_In in Ht. destruct Ht as [Ht Ek]. apply (zero_tasks i0 x0); [exact Hi0|exact Hz0|exact Ht|].
    unfold is_kind in Ek. destruct (t_k t); [reflexivity|discriminate Ek|discriminate Ek]. }
  destruct (filter (is_kind TZero) ts) as [|t0 ts0] eqn:EZ; [destruct ZT as [t []]|]. clear ZT.
  rewrite (proj2 (forallb_forall _ _)).
  2:{ intros t Ht. destruct (ZA t Ht) as [-> ->]. rewrite (proj1 (ZA t0 (or_introl eq_refl))), Nat.eqb_refl. reflexivity. }
  assert (Zx : zero_b x = false).
  { destruct (zero_b x) eqn:Z; [|reflexivity]. exfalso. apply Hno. pose proof (ns_In_wf x Hx) as Wx.
    rewrite (zero_uniq (zmv n s x) x (zmv_wf n s x) Wx); [exact Hx|rewrite zero_mv; assumption|exact Z]. }
  apply In_nth_error in Hx. destruct Hx as [i Hi]. pose proof (nth_error_In _ _ Hi) as Hx.
  assert (XM : existsb (is_kind TMir) ts = true).
  { apply existsb_exists. destruct (ms_op' s Hs) as [m Hm]. exists (tk i x (m, s)). split; [apply ts_in; exists i, x, m, s; apply ms_in in Hm; auto|].
    destruct (tk_spec i x m s Hx Hs) as (j & y & c & k & -> & Hy & Ey & Ek & _). rewrite Ek, Zx. destruct c; [reflexivity|].
    exfalso. apply Hno. rewrite Ey. eapply nth_error_In; exact Hy. }
  assert (XN : existsb (is_kind TNor) ts = true).
  { apply existsb_exists. destruct (ms_op' _ HE) as [m Hm]. exists (tk i x (m, zeye n)). split; [apply ts_in; exists i, x, m, (zeye n); apply ms_in in Hm; auto|].
    destruct (tk_spec i x m _ Hx HE) as (j & y & c & k & -> & Hy & Ey & Ek & Hc). rewrite Ek, Zx. destruct c; [|reflexivity].
    exfalso. apply Hc; [reflexivity|]. rewrite zmv_eye by (apply ns_In_wf; exact Hx). exact Hx. }
  rewrite XM, XN. cbn [negb andb]. rewrite (proj1 (ZA t0 (or_introl eq_refl))). reflexivity.
Qed.
End Z.

(** ** C92 *)
Section C92.
Context {K : sring}.
Local Open Scope sring_scope.
Add Ring Kring_c92 : (s_rt K).
Theorem C92_symmetrizer_equal_partial : forall (dv half : K) (r : urep K) (H : list (fmat K)) (ns : list zvec),
  let n := sdim (usym r) in
  unit_rep r -> sinv (usym r) = true -> half_list n ns ->
  (forall s x, In s (sops (usym r)) -> In x ns -> listed n ns (zmv n s x)) -> (1 < length (uU r))%nat -> half + half = 1 ->
  In (repeat 0%Z n) ns -> (exists s x, In s (sops (usym r)) /\ In x ns /\ ~ In (zmv n s x) ns) -> length H = length ns ->
  exists f R R', urep_symmetrizer dv r ns = TOk f /\ f H = Some R /\ urep_symmetrize dv r H ns = Some R' /\
    length R = length ns /\ length R' = length ns /\ forall i, (i < length ns)%nat -> feq (udim r) (udim r) (nth i R fzero) (nth i R' fzero).
Proof.
  intros dv half r H ns n HR Hi HN HC H1 Hh H0 HM HL.
  destruct (sym_closed r ns HR dv H H1 HC) as (R' & ER & HL' & HA).
  apply In_nth_error in H0. destruct H0 as [i0 H0].
  assert (Z0 : zero_b (repeat 0%Z n) = true).
  { unfold zero_b. apply forallb_forall. intros z Hz. apply repeat_spec in Hz. subst z. reflexivity. }
  unfold urep_symmetrizer. rewrite (proj2 (Nat.leb_gt _ _)) by exact H1. rewrite (r_len r HR), Nat.eqb_refl. cbn [negb].
  rewrite (prepared r ns HR HN Hi HC i0 _ H0 Z0 HM).
  match goal with |- context [usz_apply dv r ?z] => exists (fun H => if Nat.eqb (length ns) (length H) then Some (usz_apply dv r z (length ns) H) else None), (usz_apply dv r z (length ns) H), R' end.
  split; [reflexivity|]. split; [rewrite HL, Nat.eqb_refl; reflexivity|].
  split; [exact ER|]. split; [unfold usz_apply; rewrite map_length, seq_length; reflexivity|]. split; [exact HL'|].
  intros i Hlt. destruct (nth_error ns i) as [x|] eqn:Hx; [|apply nth_error_None in Hx; lia].
  rewrite (HA i x Hx). unfold usz_apply. cbn [z_r0 z_inv z_nor z_cls].
  set (R6' := copy_tasks r _ _).
  assert (E : forall j, R6' j = R6 r ns H i0 j) by reflexivity.
  assert (EN : nth i (map (fun x => fscale dv (R6' x)) (seq 0 (length ns))) fzero = fscale dv (R6' i)).
  { erewrite nth_error_nth; [reflexivity|]. rewrite nth_error_map. rewrite (nth_error_nth' _ 0%nat) by (rewrite seq_length; exact Hlt).
    rewrite seq_nth by exact Hlt. reflexivity. }
  rewrite EN, E. rewrite (R6_val r ns HR HN Hi HC H half Hh i0 _ H0 Z0 i x Hx).
  unfold gavg. rewrite (proj2 (forallb_forall _ _)) by (intros s Hs; apply ldom_spec, HC; [exact Hs|eapply nth_error_In; exact Hx]).
  intros a b _ _. unfold fscale. ring.
Qed.
(** the function is built only with the inversion flag, a zero neighbor and some neighbor that is found mirrored *)
Lemma row_kinds (inv : bool) n ns i x l : forall row, row_tasks inv n ns i x l = TOk row -> forall t, In t row ->
  (t_k t = TZero -> inv = true /\ exists p, In p l /\ zero_b (zmv n (snd p) x) = true) /\
  (t_k t = TMir -> inv = true /\ exists p, In p l /\ ~ In (zmv n (snd p) x) ns).
Proof.
  induction l as [|[m s] l IH]; intros row E t Ht; cbn [row_tasks] in E; [injection E as <-; destruct Ht|].
  pose proof (try_neighbor_spec zveqb (zvneg n) ns (zmv n s x) zveqb_spec) as S.
  destruct (try_neighbor zveqb (zvneg n) ns (zmv n s x)) as [[j mir]|]; [|discriminate E].
  assert (G : forall row', row_tasks inv n ns i x l = TOk row' -> In t row' ->
     (t_k t = TZero -> inv = true /\ exists p, In p ((m, s) :: l) /\ zero_b (zmv n (snd p) x) = true) /\
     (t_k t = TMir -> inv = true /\ exists p, In p ((m, s) :: l) /\ ~ In (zmv n (snd p) x) ns)).
  { intros row' E' Ht'. destruct (IH row' E' t Ht') as [A B]. split; intros Hk; [destruct (A Hk) as [A1 (p & A2 & A3)]|destruct (B Hk) as [A1 (p & A2 & A3)]];
      (split; [exact A1|exists p; split; [right; exact A2|exact A3]]). }
  destruct (zero_b (zmv n s x) && inv) eqn:E1.
  - destruct (row_tasks inv n ns i x l) as [row'| | |] eqn:E2; try discriminate E. injection E as <-. destruct Ht as [<-|Ht]; [|apply (G row' eq_refl Ht)].
    cbn [t_k]. rewrite andb_true_iff in E1. split; [|discriminate]. intros _. split; [apply E1|]. exists (m, s). split; [left; reflexivity|apply E1].
  - destruct (mir && inv) eqn:E2.
    + destruct (row_tasks inv n ns i x l) as [row'| | |] eqn:E3; try discriminate E. injection E as <-. destruct Ht as [<-|Ht]; [|apply (G row' eq_refl Ht)].
      cbn [t_k]. rewrite andb_true_iff in E2. destruct E2 as [-> ->]. split; [discriminate|]. intros _. split; [reflexivity|]. exists (m, s). split; [left; reflexivity|apply S].
    + destruct mir; [discriminate E|]. destruct (row_tasks inv n ns i x l) as [row'| | |] eqn:E3; try discriminate E. injection E as <-.
      destruct Ht as [<-|Ht]; [|apply (G row' eq_refl Ht)]. cbn [t_k]. split; discriminate.
Qed.
Lemma all_kinds (r : urep K) ns l : forall rows, all_tasks r ns l = TOk rows -> forall t, In t (concat rows) ->
  (t_k t = TZero -> sinv (usym r) = true /\ exists s p, In s (sops (usym r)) /\ In p l /\ zero_b (zmv (sdim (usym r)) s (snd p)) = true) /\
  (t_k t = TMir -> sinv (usym r) = true /\ exists s p, In s (sops (usym r)) /\ In p l /\ ~ In (zmv (sdim (usym r)) s (snd p)) ns).
Proof.
  induction l as [|[i x] l IH]; intros rows E t Ht; cbn [all_tasks] in E; [injection E as <-; destruct Ht|].
  destruct (row_tasks _ _ ns i x _) as [row| | |] eqn:Er; try discriminate E.
  destruct (all_tasks r ns l) as [rows'| | |]; try discriminate E. injection E as <-. cbn [concat] in Ht. apply in_app_iff in Ht. destruct Ht as [Ht|Ht].
  - destruct (row_kinds _ _ _ _ _ _ _ Er t Ht) as [A B].
    split; intros Hk; [destruct (A Hk) as [A1 ([m s] & A2 & A3)]|destruct (B Hk) as [A1 ([m s] & A2 & A3)]];
      (split; [exact A1|]; exists s, (i, x); apply in_combine_r in A2; split; [exact A2|split; [left; reflexivity|exact A3]]).
  - destruct (IH rows' eq_refl t Ht) as [A B].
    split; intros Hk; [destruct (A Hk) as [A1 (s & p & A2 & A3 & A4)]|destruct (B Hk) as [A1 (s & p & A2 & A3 & A4)]];
      (split; [exact A1|]; exists s, p; split; [exact A2|split; [right; exact A3|exact A4]]).
Qed.
Theorem C92_symmetrizer_needs : forall (dv : K) (r : urep K) (ns : list zvec) f,
  let n := sdim (usym r) in
  unit_rep r -> half_list n ns -> (1 < length (uU r))%nat -> urep_symmetrizer dv r ns = TOk f ->
  sinv (usym r) = true /\ In (repeat 0%Z n) ns /\ exists s x, In s (sops (usym r)) /\ In x ns /\ ~ In (zmv n s x) ns.
Proof.
  intros dv r ns f n HR HN H1 E. unfold urep_symmetrizer in E. rewrite (proj2 (Nat.leb_gt _ _)) in E by exact H1.
  destruct (negb _); [discriminate E|]. unfold usz_prepare in E.
  destruct (all_tasks r ns _) as [rows| | |] eqn:EA; try discriminate E. destruct (negb _); [discriminate E|].
  destruct (filter (is_kind TZero) (concat rows)) as [|t0 ts0] eqn:EZ; [discriminate E|].
  destruct (forallb _ (t0 :: ts0)); [|discriminate E]. destruct (existsb (is_kind TMir) (concat rows)) eqn:EM; [|discriminate E]. clear E.
  assert (T0 : In t0 (filter (is_kind TZero) (concat rows))) by (rewrite EZ; left; reflexivity). apply filter_In in T0. destruct T0 as [T0 K0].
  destruct (all_kinds r ns _ rows EA t0 T0) as [A _]. destruct A as [Hi (s & [i x] & Hs & Hp & Hz)].
  { unfold is_kind in K0. destruct (t_k t0); [reflexivity|discriminate K0|discriminate K0]. }
  apply existsb_exists in EM. destruct EM as (t1 & T1 & K1). destruct (all_kinds r ns _ rows EA t1 T1) as [_ B]. destruct B as [_ (s1 & [i1 x1] & Hs1 & Hp1 & Hm)].
  { unfold is_kind in K1. destruct (t_k t1); [discriminate K1|reflexivity|discriminate K1]. }
  apply in_combine_r in Hp, Hp1. cbn [snd] in *. split; [exact Hi|]. split; [|exists s1, x1; auto].
  assert (Wx : wfv n x) by (apply HN; exact Hp).
  replace (repeat 0%Z n) with x; [exact Hp|]. apply (zero_uniq r).
  - exact Wx.
  - unfold wfv. apply repeat_length.
  - rewrite <- (zero_mv r HR s x Hs Wx). exact Hz.
  - unfold zero_b. apply forallb_forall. intros z Hzz. apply repeat_spec in Hzz. subst z. reflexivity.
Qed.
End C92.
Print Assumptions C92_symmetrizer_equal_partial.
Print Assumptions C92_symmetrizer_needs.
(** the full claim, for every neighbor list that symmetrize accepts *)
Definition C92_full : Prop := forall (dv : Qs) (r : urep Qs) (H : list (fmat Qs)) (ns : list zvec) R',
  unit_rep r -> half_list (sdim (usym r)) ns -> (1 < length (uU r))%nat -> length H = length ns -> urep_symmetrize dv r H ns = Some R' ->
  exists f R, urep_symmetrizer dv r ns = TOk f /\ f H = Some R /\
    forall i, (i < length ns)%nat -> feq (udim r) (udim r) (nth i R fzero) (nth i R' fzero).
(** a quarter turn about z acting on p_x, p_y *)
Definition c4z : zmat := [[0;-1;0];[1;0;0];[0;0;1]]%Z.
Definition r_c4 : urep Qs := MkUrep (MkSym 3 [zeye 3; c4z; zmul 3 c4z c4z; zmul 3 c4z (zmul 3 c4z c4z)] true false) 2
  [qmat [[1;0];[0;1]]; qmat [[0;-1];[1;0]]; qmat [[-1;0];[0;-1]]; qmat [[0;1];[-1;0]]]%Z 0.
Definition ns_c4 : list zvec := [[0;0;0]; [1;0;0]; [0;1;0]; [1;0;1]; [0;1;1]; [-1;0;1]; [0;-1;1]]%Z.
Definition H_c4 : list (fmat Qs) := [qmat [[4;8];[0;4]]; qmat [[8;4];[0;0]]; qmat [[0;0];[0;4]]; qmat [[4;0];[0;0]]; qmat [[0;4];[0;0]]; qmat [[0;0];[4;0]]; qmat [[0;0];[0;8]]]%Z.
Definition qfour : Qs := Q2Qc (1 # 4).
Definition symz_of (r : urep Qs) (H : list (fmat Qs)) (ns : list zvec) : option (list (fmat Qs)) :=
  match urep_symmetrizer qfour r ns with TOk f => f H | _ => None end.
(** one neighbor along the axis is never found mirrored *)
Theorem C92_no_mirror_refuted : ~ C92_full.
Proof.
  intros C. assert (HU : unit_rep r_c4) by (apply unit_rep_b_spec; vm_compute; reflexivity).
  assert (HN : half_list 3 [[0;0;0];[0;0;1]]%Z).
  { apply (nbr_list_b_spec 3); vm_compute; reflexivity. }
  assert (S : exists R, urep_symmetrize qfour r_c4 [qmat [[1;0];[0;1]]; qmat [[1;0];[0;1]]]%Z [[0;0;0];[0;0;1]]%Z = Some R).
  { destruct (sym_closed r_c4 [[0;0;0];[0;0;1]]%Z HU qfour [qmat [[1;0];[0;1]]; qmat [[1;0];[0;1]]]%Z) as (R & E & _); [cbn; lia| |exists R; exact E].
    refine (closed_b_spec 3 (sops (usym r_c4)) [[0;0;0];[0;0;1]]%Z _). vm_compute. reflexivity. }
  destruct S as (R' & ER). destruct (C qfour r_c4 [qmat [[1;0];[0;1]]; qmat [[1;0];[0;1]]]%Z [[0;0;0];[0;0;1]]%Z R' HU HN ltac:(cbn; lia) eq_refl ER) as (f & R & E & _).
  destruct (C92_symmetrizer_needs qfour r_c4 [[0;0;0];[0;0;1]]%Z f HU HN ltac:(cbn; lia) E) as (_ & _ & s & x & Hs & Hx & Hno).
  apply Hno. clear - Hs Hx. assert (G : forallb (fun s => forallb (fun x => memb zveqb (zmv 3 s x) [[0;0;0];[0;0;1]]%Z) [[0;0;0];[0;0;1]]%Z) (sops (usym r_c4)) = true) by (vm_compute; reflexivity).
  rewrite forallb_forall in G. specialize (G s Hs). rewrite forallb_forall in G. specialize (G x Hx). apply existsb_exists in G. destruct G as (y & Hy & E).
  apply zveqb_spec in E. change (In (zmv 3 s x) [[0;0;0];[0;0;1]]%Z). rewrite E. exact Hy.
Qed.
Print Assumptions C92_no_mirror_refuted.
Example C92_example : unit_rep r_c4 /\ sinv (usym r_c4) = true /\ half_list 3 ns_c4 /\
  (forall s x, In s (sops (usym r_c4)) -> In x ns_c4 -> listed 3 ns_c4 (zmv 3 s x)) /\ (1 < length (uU r_c4))%nat /\
  In (repeat 0%Z 3) ns_c4 /\ (exists s x, In s (sops (usym r_c4)) /\ In x ns_c4 /\ ~ In (zmv 3 s x) ns_c4) /\
  opt_feqs 2 (symz_of r_c4 H_c4 ns_c4) [qmat [[4;4];[-4;4]]; qmat [[6;2];[0;0]]; qmat [[0;0];[-2;6]]; qmat [[3;0];[0;0]]; qmat [[0;0];[0;3]]; qmat [[3;0];[0;0]]; qmat [[0;0];[0;3]]]%Z = true /\
  urep_symmetrizer qfour r_c4 [[1;0;0];[0;1;0]]%Z = TIndex.
Proof.
  split; [apply unit_rep_b_spec; vm_compute; reflexivity|]. split; [reflexivity|]. split.
  { apply (nbr_list_b_spec 3); vm_compute; reflexivity. }
  split; [apply closed_b_spec; vm_compute; reflexivity|]. split; [cbn; lia|]. split; [left; reflexivity|].
  split; [exists c4z, [0;1;0]%Z; split; [right; left; reflexivity|]; split; [right; right; left; reflexivity|]; vm_compute; intuition discriminate|].
  split; vm_compute; reflexivity.
Qed.

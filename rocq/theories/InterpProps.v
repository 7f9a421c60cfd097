(** Properties C148, C149: data on symmetric points and their interpolation (symmetry.py, kpaths.py). *)
From Coq Require Import List Arith ZArith Lia Bool Permutation Sorting.Sorted Reals Lra.
Import ListNotations.
From Verif Require Import SRing LMat FinGroup SymModel SymGenProofs DetMC SymInitProofs SymEqProofs SymPointProofs SymNamedProofs InterpModel.
Local Close Scope R_scope.
Local Open Scope nat_scope.

(* ------------------------------------------------------------------ *)
(** ** wrapping *)
Lemma wrap1_cell M z : (0 < M)%Z -> (- M <= 2 * wrap1 M z < M)%Z.
Proof.
  intros H. unfold wrap1. pose proof (Z.mod_pos_bound z M H). destruct (Z.leb_spec M (2 * (z mod M))); lia.
Qed.
Lemma wrap1_div M z : (0 < M)%Z -> exists t, (wrap1 M z = z + M * t)%Z.
Proof.
  intros H. unfold wrap1. pose proof (Z.div_mod z M ltac:(lia)).
  destruct (Z.leb_spec M (2 * (z mod M))); [exists (- (z / M) - 1)%Z|exists (- (z / M))%Z]; lia.
Qed.
Lemma cell_unique M x y t : (0 < M)%Z -> (- M <= 2 * x < M)%Z -> (- M <= 2 * y < M)%Z -> (x = y + M * t)%Z -> x = y.
Proof. intros. assert (t = 0)%Z by nia. subst t. lia. Qed.
Lemma wrap1_eq M z y t : (0 < M)%Z -> (- M <= 2 * y < M)%Z -> (z = y + M * t)%Z -> wrap1 M z = y.
Proof.
  intros HM Hy E. destruct (wrap1_div M z HM) as [u Eu].
  apply (cell_unique M _ _ (u + t) HM (wrap1_cell M z HM) Hy). lia.
Qed.

(* ------------------------------------------------------------------ *)
(** ** np.unique and the runs *)
Lemma ins_nat_in a l i : In i (ins_nat a l) <-> i = a \/ In i l.
Proof.
  induction l as [|b r IH]; cbn [ins_nat In]; [intuition|].
  destruct (Nat.eqb_spec a b); [subst; cbn [In]; intuition|]. destruct (Nat.ltb a b); cbn [In]; rewrite ?IH; intuition.
Qed.
Lemma unique_in l i : In i (np_unique l) <-> In i l.
Proof. unfold np_unique. induction l as [|a l IH]; cbn [fold_right In]; [tauto|]. rewrite ins_nat_in, IH. intuition. Qed.
Lemma ins_nat_sorted a l : StronglySorted lt l -> StronglySorted lt (ins_nat a l).
Proof.
  intros H. induction H as [|b r Hs IH Hb]; cbn [ins_nat]; [repeat constructor|].
  destruct (Nat.eqb_spec a b); [subst; constructor; assumption|]. destruct (Nat.ltb_spec a b).
  - constructor; [constructor; assumption|]. constructor; [assumption|]. rewrite Forall_forall in *. intros c Hc. specialize (Hb c Hc). lia.
  - constructor; [exact IH|]. rewrite Forall_forall in *. intros c Hc. apply ins_nat_in in Hc. destruct Hc as [->|Hc]; [lia|auto].
Qed.
Lemma sorted_nodup l : StronglySorted lt l -> NoDup l.
Proof.
  intros H. induction H as [|a l Hs IH Ha]; constructor; [|exact IH]. rewrite Forall_forall in Ha. intros Hc.
  specialize (Ha a Hc). lia.
Qed.
Lemma unique_nodup l : NoDup (np_unique l).
Proof.
  apply sorted_nodup. unfold np_unique. induction l as [|a l IH]; cbn [fold_right]; [constructor|]. apply ins_nat_sorted, IH.
Qed.
Lemma close_in run i : In i (close_run run) <-> In i run.
Proof. unfold close_run. destruct run as [|a [|b r]]; [apply unique_in|reflexivity|apply unique_in]. Qed.
Lemma close_nodup run : NoDup (close_run run).
Proof. unfold close_run. destruct run as [|a [|b r]]; [apply unique_nodup|repeat constructor; simpl; tauto|apply unique_nodup]. Qed.

Lemma group_runs_spec m first prev run l : first = prev -> length prev = m ->
  (forall p, In p l -> length (fst p) = m) ->
  Forall (fun q => lexr m prev (fst q)) l -> StronglySorted (fun p q => lexr m (fst p) (fst q)) l ->
  let r := group_runs first prev run l in
  (forall x is, In (x, is) r -> NoDup is /\ forall i, In i is <-> (x = first /\ In i run) \/ In (x, i) l) /\
  (In first (map fst r) /\ forall x i, In (x, i) l -> In x (map fst r)) /\
  (forall x, In x (map fst r) -> x = first \/ In x (map fst l)) /\
  NoDup (map fst r).
Proof.
  intros E Hp HL HF Hs. revert first prev run E Hp HF.
  induction Hs as [|[k o] l Hs IH Hq]; intros first prev run E Hp HF; subst first; cbn [group_runs].
  - split; [|split; [|split]].
    + intros x is [E|[]]. injection E as <- <-. split; [apply close_nodup|]. intros i. rewrite close_in. simpl. intuition.
    + split; [left; reflexivity|]. intros x i [].
    + intros x [<-|[]]. left. reflexivity.
    + repeat constructor; simpl; tauto.
  - inversion HF as [|x y H1 H2]; subst x y. cbn [fst] in H1.
    assert (HL' : forall p, In p l -> length (fst p) = m) by (intros; apply HL; right; assumption).
    assert (Hk : length k = m) by (apply (HL (k, o)); left; reflexivity).
    destruct (zveqb prev k) eqn:Ez.
    + apply zveqb_spec in Ez. subst k.
      destruct (IH HL' prev prev (run ++ [o]) eq_refl Hp Hq) as (A & (B1 & B2) & C & D).
      split; [|split; [|split]].
      * intros x is HI. destruct (A x is HI) as [N J]. split; [exact N|]. intros i. rewrite J, in_app_iff. cbn [In].
        split; [intros [[-> [F|[<-|[]]]]|F]; auto|]. intros [[-> F]|[F|F]]; auto. injection F as <- <-. auto.
      * split; [exact B1|]. intros x i [F|F]; [injection F as <- <-; exact B1|exact (B2 x i F)].
      * intros x Hx. destruct (C x Hx); [left|right; right]; assumption.
      * exact D.
    + assert (Hne : prev <> k) by (intros F; apply zveqb_spec in F; congruence).
      destruct (IH HL' k k [o] eq_refl Hk Hq) as (A & (B1 & B2) & C & D).
      assert (Nf : ~ In (prev) (k :: map fst l)).
      { intros [F|F]; [congruence|]. apply in_map_iff in F. destruct F as (q & Eq & Hq').
        rewrite Forall_forall in Hq, H2. pose proof (Hq q Hq') as G. cbn [fst] in G. rewrite Eq in G.
        apply Hne. apply (nth_ext _ _ 0%Z 0%Z); [exact (eq_trans Hp (eq_sym Hk))|]. intros i Hi. apply (lexr_antisym m); auto. rewrite <- Hp. exact Hi. }
      split; [|split; [|split]].
      * intros x is [F|F].
        { injection F as <- <-. split; [apply close_nodup|]. intros i. rewrite close_in. cbn [In].
          split; [auto|]. intros [[_ G]|[G|G]]; auto; exfalso; apply Nf.
          - injection G as -> _. left. reflexivity.
          - right. apply in_map_iff. exists (prev, i). auto. }
        { destruct (A x is F) as [N J]. split; [exact N|]. intros i. rewrite J. cbn [In].
          assert (Hx : x <> prev).
          { intros ->. apply Nf. destruct (C prev) as [G|G]; [apply in_map_iff; exists (prev, is); auto|left; auto|right; exact G]. }
          split; [intros [[-> [<-|[]]]|G]; auto|]. intros [[-> G]|[G|G]]; [congruence|injection G as -> ->; left; auto|right; exact G]. }
      * cbn [map fst In]. split; [left; reflexivity|]. intros x i [F|F]; [injection F as <- <-; right; exact B1|right; exact (B2 x i F)].
      * cbn [map fst In]. intros x [<-|F]; [left; reflexivity|]. right. destruct (C x F) as [->|G]; auto.
      * cbn [map fst]. constructor; [|exact D]. intros F. apply Nf. destruct (C prev F) as [G|G]; [left; auto|right; exact G].
Qed.

(* ------------------------------------------------------------------ *)
(** ** C148 — specification: equality of points, modulo the lattice M Z^d when the points are put in the unit cell *)
Definition same_pt (M : Z) (uc : bool) (x y : zvec) : Prop :=
  length x = length y /\ forall i, exists t, (nth i x 0 = nth i y 0 + (if uc then M * t else 0))%Z.
(** the samples that reach [x] *)
Definition sources (g : sym) (M : Z) (uc : bool) (ks : list zvec) (x : zvec) (i : nat) : Prop :=
  exists k s, nth_error ks i = Some k /\ In s (sym_all g) /\ same_pt M uc x (zmv (sdim g) s k).
Definition in_cell (M : Z) (x : zvec) : Prop := forall z, In z x -> (- M <= 2 * z < M)%Z.

Lemma collect_cover g ks k s i : (forall k, In k ks -> wfv (sdim g) k) ->
  nth_error ks i = Some k -> In s (sym_all g) -> In (zmv (sdim g) s k, i) (realize_collect g ks).
Proof.
  intros HW Hi Hs. assert (Hk := nth_error_In _ _ Hi).
  assert (Hself : In (k, i) (realize_collect g ks)).
  { unfold realize_collect. apply in_or_app. left. apply in_combine_seq; exact Hi. }
  destruct (Z.eqb (znorm2 k) 0) eqn:E.
  - apply Z.eqb_eq in E. rewrite (zmv_zero _ _ _ (HW k Hk) E). exact Hself.
  - destruct (proj2 (orbit_new_spec g k (zmv (sdim g) s k))) as [H|H].
    + right. exists s; auto.
    + rewrite H; exact Hself.
    + unfold realize_collect. apply in_or_app. right. apply in_flat_map. exists (i, k).
      split; [apply in_combine_seq'; exact Hi|]. rewrite E. apply in_map_iff. eauto.
Qed.

Definition cellify (M : Z) (uc : bool) (x : zvec) : zvec := if uc then wrapk M x else x.
Lemma nth_wrapk M x i : (0 < M)%Z -> nth i (wrapk M x) 0%Z = wrap1 M (nth i x 0%Z).
Proof.
  intros HM. unfold wrapk. assert (E : wrap1 M 0 = 0%Z).
  { unfold wrap1. rewrite Z.mod_0_l by lia. destruct (Z.leb_spec M (2 * 0)); lia. }
  rewrite <- E at 1. apply (map_nth (wrap1 M)).
Qed.
Lemma cellify_same M uc x : (0 < M)%Z -> same_pt M uc (cellify M uc x) x.
Proof.
  intros HM. unfold cellify. destruct uc; [|split; [reflexivity|intros i; exists 0%Z; lia]].
  split; [apply map_length|]. intros i. rewrite (nth_wrapk M x i HM). apply wrap1_div, HM.
Qed.
Lemma same_sym M uc x y : same_pt M uc x y -> same_pt M uc y x.
Proof. intros [L H]. split; [auto|]. intros i. destruct (H i) as [t E]. exists (- t)%Z. destruct uc; lia. Qed.
Lemma same_trans M uc x y z : same_pt M uc x y -> same_pt M uc y z -> same_pt M uc x z.
Proof.
  intros [L H] [L' H']. split; [congruence|]. intros i. destruct (H i) as [t E], (H' i) as [u E']. exists (t + u)%Z.
  destruct uc; lia.
Qed.
Lemma same_refl M uc x : same_pt M uc x x.
Proof. split; [reflexivity|]. intros i. exists 0%Z. destruct uc; lia. Qed.
Lemma in_cell_nth M x i : (0 < M)%Z -> in_cell M x -> (- M <= 2 * nth i x 0 < M)%Z.
Proof.
  intros HM H. destruct (Nat.lt_ge_cases i (length x)) as [L|L]; [apply H, nth_In, L|]. rewrite nth_overflow by exact L. lia.
Qed.
Lemma same_cell M (uc : bool) x y : (0 < M)%Z -> (uc = true -> in_cell M x) -> (uc = true -> in_cell M y) -> same_pt M uc x y -> x = y.
Proof.
  intros HM Hx Hy [L H]. apply (nth_ext _ _ 0%Z 0%Z); [exact L|]. intros i _. destruct (H i) as [t E].
  destruct uc; [|rewrite Z.add_0_r in E; exact E]. exact (cell_unique M _ _ t HM (in_cell_nth M x i HM (Hx eq_refl)) (in_cell_nth M y i HM (Hy eq_refl)) E).
Qed.
Lemma cellify_cell M uc x : (0 < M)%Z -> uc = true -> in_cell M (cellify M uc x).
Proof. intros HM ->. intros z Hz. cbn [cellify] in Hz. unfold wrapk in Hz. apply in_map_iff in Hz. destruct Hz as (w & <- & _). apply wrap1_cell, HM. Qed.

(** the rows of realize_groups *)
Lemma groups_spec g M uc ks l : (0 < M)%Z -> (forall k, In k ks -> length k = sdim g) -> In (zeye (sdim g)) (sym_all g) ->
  realize_groups g M uc ks = Some l ->
  NoDup (map fst l) /\ (forall x, In x (map fst l) -> length x = sdim g /\ (uc = true -> in_cell M x)) /\
  (forall k s, In k ks -> In s (sym_all g) -> exists x, In x (map fst l) /\ same_pt M uc x (zmv (sdim g) s k)) /\
  (forall x is, In (x, is) l -> NoDup is /\ forall i, In i is <-> sources g M uc ks x i).
Proof.
  intros HM HW He H.
  assert (HW' : forall k, In k ks -> wfv (sdim g) k) by exact HW.
  unfold realize_groups in H. destruct ks as [|k0 ks']; [discriminate|]. remember (k0 :: ks') as ks eqn:Eks.
  assert (Hd : length k0 = sdim g) by (apply HW; rewrite Eks; left; reflexivity).
  set (c := map (fun p => (if uc then wrapk M (fst p) else fst p, snd p)) (realize_collect g ks)) in *.
  assert (Hc : forall x i, In (x, i) c <-> exists k s, nth_error ks i = Some k /\ In s (sym_all g) /\ x = cellify M uc (zmv (sdim g) s k)).
  { intros x i. unfold c. rewrite in_map_iff. split.
    - intros ([y j] & E & Hy). injection E as <- <-. destruct (realize_collect_spec g ks y j HW' He Hy) as (k & s & A & B & C).
      exists k, s. subst y. auto.
    - intros (k & s & A & B & ->). exists (zmv (sdim g) s k, i). split; [reflexivity|]. apply collect_cover; auto. }
  match type of H with context[realize_sort ?a c] => change a with (length k0) in H end. rewrite Hd in H.
  assert (P := realize_sort_perm (sdim g) c). assert (Sd := realize_sort_sorted (sdim g) c).
  destruct (realize_sort (sdim g) c) as [|[k1 o1] r] eqn:Er; [discriminate|]. injection H as <-.
  assert (HL : forall p, In p ((k1, o1) :: r) -> length (fst p) = sdim g).
  { intros [x i] Hp. apply (Permutation_in _ P) in Hp. apply Hc in Hp. destruct Hp as (k & s & _ & _ & ->). cbn [fst].
    unfold cellify. destruct uc; [unfold wrapk; rewrite map_length|]; apply (lmv_wf Zs). }
  inversion Sd as [|x y Sd1 Sd2]; subst x y.
  destruct (group_runs_spec (sdim g) k1 k1 [o1] r eq_refl (HL (k1, o1) (or_introl eq_refl)) (fun p Hp => HL p (or_intror Hp)) Sd2 Sd1)
    as (A & (B1 & B2) & C & D).
  set (l := group_runs k1 k1 [o1] r) in *.
  assert (Hin : forall x, In x (map fst l) <-> exists i, In (x, i) c).
  { intros x. split.
    - intros Hx. destruct (C x Hx) as [->|Hr].
      + exists o1. apply (Permutation_in _ P). left. reflexivity.
      + apply in_map_iff in Hr. destruct Hr as ([y i] & E & Hr). cbn [fst] in E. subst y. exists i. apply (Permutation_in _ P). right. exact Hr.
    - intros (i & Hi). apply (Permutation_in _ (Permutation_sym P)) in Hi. destruct Hi as [E|Hi]; [injection E as <- <-; exact B1|exact (B2 x i Hi)]. }
  split; [exact D|]. split; [|split].
  - intros x Hx. apply Hin in Hx. destruct Hx as (i & Hi). split.
    + apply (HL (x, i)). apply (Permutation_in _ (Permutation_sym P)), Hi.
    + intros Hu. apply Hc in Hi. destruct Hi as (k & s & _ & _ & ->). apply cellify_cell; auto.
  - intros k s Hk Hs. exists (cellify M uc (zmv (sdim g) s k)). split; [|apply cellify_same, HM].
    apply Hin. destruct (In_nth_error _ _ Hk) as [i Hi]. exists i. apply Hc. exists k, s. auto.
  - intros x is Hx. destruct (A x is Hx) as [N J]. split; [exact N|]. intros i. rewrite J.
    transitivity (In (x, i) c).
    + split.
      * intros [[-> [<-|[]]]|Hr]; apply (Permutation_in _ P); [left|right]; auto.
      * intros Hi. apply (Permutation_in _ (Permutation_sym P)) in Hi. destruct Hi as [E|Hi]; [injection E as <- <-; left; split; [|left]; reflexivity|right; exact Hi].
    + rewrite Hc. unfold sources.
      assert (Hxc : uc = true -> in_cell M x).
      { intros Hu. assert (Hx' : In x (map fst l)) by (apply in_map_iff; exists (x, is); auto).
        apply Hin in Hx'. destruct Hx' as (j & Hj). apply Hc in Hj. destruct Hj as (k & s & _ & _ & ->). apply cellify_cell; auto. }
      split; intros (k & s & E1 & E2 & E3); exists k, s; (split; [exact E1|split; [exact E2|]]).
      * subst x. apply cellify_same, HM.
      * apply (same_cell M uc); auto.
        { intros Hu. apply cellify_cell; auto. }
        { apply (same_trans _ _ _ _ _ E3), same_sym, cellify_same, HM. }
Qed.

(** realize_symmetric_data(k_smpl, data, unit_cell, average_bad_duplicates=True): the points are different, in the unit cell
    if asked for, contain every image of every sample, and the value at a point is the mean of the data over exactly the
    samples that have this point as an image, each counted once *)
Theorem C148_mean : forall g M uc ks data l, (0 < M)%Z -> (forall k, In k ks -> length k = sdim g) ->
  In (zeye (sdim g)) (sym_all g) -> realize_data g M uc ks data = Some l ->
  NoDup (map fst l) /\
  (forall x v, In (x, v) l -> length x = sdim g /\ (uc = true -> in_cell M x)) /\
  (forall k s, In k ks -> In s (sym_all g) -> exists x v, In (x, v) l /\ same_pt M uc x (zmv (sdim g) s k)) /\
  (forall x v, In (x, v) l -> exists S : list nat, S <> [] /\ NoDup S /\ (forall i, In i S <-> sources g M uc ks x i) /\
     (v * INR (length S) = fold_right Rplus 0 (map (fun i => nth i data 0) S))%R).
Proof.
  intros g M uc ks data l HM HW He H. unfold realize_data in H.
  destruct (realize_groups g M uc ks) as [l0|] eqn:E; [|discriminate]. injection H as <-.
  destruct (groups_spec g M uc ks l0 HM HW He E) as (A & B & C & D).
  assert (F : map fst (map (fun p => (fst p, mean_at data (snd p))) l0) = map fst l0) by (rewrite map_map; reflexivity).
  split; [|split; [|split]].
  - rewrite F. exact A.
  - intros x v Hx. apply B. rewrite <- F. apply in_map_iff. exists (x, v). auto.
  - intros k s Hk Hs. destruct (C k s Hk Hs) as (x & Hx & Hs'). apply in_map_iff in Hx. destruct Hx as ([y is] & Ey & Hx).
    cbn [fst] in Ey. subst y. exists x, (mean_at data is). split; [|exact Hs']. apply in_map_iff. exists (x, is). auto.
  - intros x v Hx. apply in_map_iff in Hx. destruct Hx as ([y is] & Ey & Hx). cbn [fst snd] in Ey. injection Ey as -> <-.
    destruct (D x is Hx) as [N J]. exists is. 
    assert (Hne : is <> []).
    { assert (Hx' : In x (map fst l0)) by (apply in_map_iff; exists (x, is); auto). intros ->.
      clear -E Hx HM HW He D. 
      unfold realize_groups in E. destruct ks as [|k0 ks']; [discriminate|].
      set (c := realize_sort _ _) in E. destruct c as [|[k1 o1] r]; [discriminate|]. injection E as <-.
      assert (G : forall l first prev run, run <> [] -> ~ In (x, []) (group_runs first prev run l)).
      { clear. induction l as [|[k o] l IH]; intros first prev run Hr; cbn [group_runs].
        - intros [F|[]]. injection F as _ F. assert (Hc := fun i => proj2 (close_in run i)). rewrite F in Hc.
          destruct run as [|i run]; [congruence|]. exact (Hc i (or_introl eq_refl)).
        - destruct (zveqb prev k).
          + apply IH. destruct run; discriminate.
          + intros [F|F].
            * injection F as _ F. assert (Hc := fun i => proj2 (close_in run i)). rewrite F in Hc.
              destruct run as [|i run]; [congruence|]. exact (Hc i (or_introl eq_refl)).
            * revert F. apply IH. discriminate. }
      refine (G _ _ _ _ _ Hx). discriminate. }
    split; [exact Hne|]. split; [exact N|]. split; [exact J|]. unfold mean_at. field.
    apply not_0_INR. destruct is; [congruence|]. cbn [length]. lia.
Qed.
Print Assumptions C148_mean.

Lemma nsum_mod M (uc : bool) n (f h : nat -> car Zs) : (forall i, (i < n)%nat -> exists t, (f i = h i + (if uc then M * t else 0))%Z) ->
  exists t, (nsum n f = nsum n h + (if uc then M * t else 0))%Z.
Proof.
  induction n as [|n IH]; intros H; [exists 0%Z; cbn; destruct uc; lia|].
  destruct IH as [t E]; [intros i Hi; apply H; lia|]. destruct (H n ltac:(lia)) as [u Eu]. exists (t + u)%Z.
  assert (G : forall q : nat -> car Zs, nsum (S n) q = (nsum n q + q n)%Z) by (intros q; exact (nsum_S Zs n q)). rewrite !G.
  transitivity ((nsum n h + (if uc then M * t else 0)) + (h n + (if uc then M * u else 0)))%Z; [rewrite <- E, <- Eu; reflexivity|]. match goal with |- @eq _ ?a ?b => change (@eq Z a b) end. generalize (nsum n h : Z) (h n : Z). intros p q. destruct uc; ring.
Qed.
Lemma same_zmv M uc n s x y : same_pt M uc x y -> same_pt M uc (zmv n s x) (zmv n s y).
Proof.
  intros [L H]. split; [transitivity n; [|symmetry]; apply (lmv_wf Zs)|]. intros i.
  destruct (Nat.lt_ge_cases i n) as [Hi|Hi].
  - assert (A := vent_lmv Zs n s x i Hi). assert (B := vent_lmv Zs n s y i Hi).
    assert (N : exists t, (nsum n (fun k => smul (ent s i k) (vent x k)) =
                           nsum n (fun k => smul (ent s i k) (vent y k)) + (if uc then M * t else 0))%Z).
    { apply (nsum_mod M uc n). intros k Hk. destruct (H k) as [t E]. exists ((ent s i k : Z) * t)%Z.
      change ((ent s i k : Z) * nth k x 0 = (ent s i k : Z) * nth k y 0 + (if uc then M * ((ent s i k : Z) * t) else 0))%Z.
      rewrite E. generalize (ent s i k : Z) (nth k y 0%Z : Z). intros p q. destruct uc; ring. }
    destruct N as [t N]. exists t. rewrite <- A, <- B in N. exact N.
  - exists 0%Z. rewrite !nth_overflow; [destruct uc; lia| |]; (replace (length _) with n by (symmetry; apply (lmv_wf Zs)); exact Hi).
Qed.

Lemma sources_image g M uc ks x y t i : is_group (zmul (sdim g)) (zeye (sdim g)) (sym_all g) -> In t (sym_all g) ->
  same_pt M uc y (zmv (sdim g) t x) -> sources g M uc ks x i -> sources g M uc ks y i.
Proof.
  intros (G1 & G2 & G3 & G4) Ht Hy (k & s & A & B & C). exists k, (zmul (sdim g) t s). split; [exact A|]. split; [apply G3; auto|].
  apply (same_trans _ _ _ _ _ Hy).
  replace (zmv (sdim g) (zmul (sdim g) t s) k) with (zmv (sdim g) t (zmv (sdim g) s k)) by (symmetry; apply (lmv_mul Zs)).
  apply same_zmv, C.
Qed.
Lemma nodup_sum (data : list R) S S' : NoDup S -> NoDup S' -> (forall i, In i S <-> In i S') ->
  length S = length S' /\ fold_right Rplus 0%R (map (fun i => nth i data 0%R) S) = fold_right Rplus 0%R (map (fun i => nth i data 0%R) S').
Proof.
  intros A B C. assert (P := NoDup_Permutation A B C). split; [apply Permutation_length, P|].
  clear -P. induction P; cbn [map fold_right]; [reflexivity|rewrite IHP; reflexivity|ring|congruence].
Qed.

(** if the operations form a group, then points which are images of each other get the same value; a value which all
    equivalent samples have in common is the value at their images *)
Theorem C148_symmetric : forall g M uc ks data l, (0 < M)%Z -> (forall k, In k ks -> length k = sdim g) ->
  is_group (zmul (sdim g)) (zeye (sdim g)) (sym_all g) -> realize_data g M uc ks data = Some l ->
  (forall x v y w t, In (x, v) l -> In (y, w) l -> In t (sym_all g) -> same_pt M uc y (zmv (sdim g) t x) -> v = w) /\
  (forall x v d, In (x, v) l -> (forall i, sources g M uc ks x i -> nth i data 0%R = d) -> v = d).
Proof.
  intros g M uc ks data l HM HW HG H.
  destruct (C148_mean g M uc ks data l HM HW (proj1 HG) H) as (A & B & C & D). split.
  - intros x v y w t Hx Hy Ht Hs. destruct (D x v Hx) as (S & S0 & S1 & S2 & S3). destruct (D y w Hy) as (T & T0 & T1 & T2 & T3).
    destruct (nodup_sum data S T S1 T1) as [E1 E2].
    { intros i. rewrite S2, T2. split; [apply (sources_image g M uc ks x y t i HG Ht Hs)|].
      destruct HG as (G1 & G2 & G3 & G4). destruct (G4 t Ht) as (u & Hu & Eu1 & Eu2).
      apply (sources_image g M uc ks y x u i); [split; auto|exact Hu|].
      apply same_sym. apply (same_trans _ _ _ (zmv (sdim g) u (zmv (sdim g) t x))); [apply same_zmv, Hs|].
      replace (zmv (sdim g) u (zmv (sdim g) t x)) with (zmv (sdim g) (zmul (sdim g) u t) x) by (apply (lmv_mul Zs)).
      rewrite Eu2. assert (Ex : zmv (sdim g) (zeye (sdim g)) x = x) by (apply (lmv_1 Zs); exact (proj1 (B x v Hx))).
      rewrite Ex. apply same_refl. }
    rewrite E1, E2, <- T3 in S3. apply Rmult_eq_reg_r in S3; [exact S3|]. apply not_0_INR. destruct T; [congruence|]. cbn [length]. lia.
  - intros x v d Hx Hd. destruct (D x v Hx) as (S & S0 & S1 & S2 & S3).
    assert (E : fold_right Rplus 0%R (map (fun i => nth i data 0%R) S) = (d * INR (length S))%R).
    { assert (F : forall i, In i S -> nth i data 0%R = d) by (intros i Hi; apply Hd, S2, Hi). clear -F.
      induction S as [|i S IH]; cbn [map fold_right length]; [simpl; ring|]. rewrite IH by (intros j Hj; apply F; right; exact Hj).
      rewrite (F i (or_introl eq_refl)), S_INR. ring. }
    rewrite E in S3. apply Rmult_eq_reg_r in S3; [exact S3|]. apply not_0_INR. destruct S; [congruence|]. cbn [length]. lia.
Qed.
Print Assumptions C148_symmetric.

(** the square, in units of 1/4: samples (0,0), (1/4,0), (0,3/4) and (1/2,1/2); the second and the third are equivalent, so
    their data is averaged *)
Example C148_example : match sym_square with
  | Some g => is_group (zmul (sdim g)) (zeye (sdim g)) (sym_all g) /\
     exists l, realize_data g 4 true [[0;0];[1;0];[0;3];[2;2]]%Z [1;2;4;8]%R = Some l /\ length l = 6 /\
       In ([0;-1]%Z, 3%R) l /\ In ([-1;0]%Z, 3%R) l /\ In ([-2;-2]%Z, 8%R) l
  | None => False
  end.
Proof.
  destruct named_groups as (_ & _ & _ & _ & _ & _ & _ & _ & (g & E & Ed & HG & _) & _). rewrite E. split; [rewrite Ed; exact HG|].
  clear HG Ed.
  unfold realize_data.
  destruct (realize_groups g 4 true [[0;0];[1;0];[0;3];[2;2]]%Z) as [l0|] eqn:F; vm_compute in E; injection E as <-; vm_compute in F; [|discriminate].
  injection F as <-. cbn [option_map map fst snd]. eexists. split; [reflexivity|]. split; [reflexivity|].
  cbn [In]. unfold mean_at. cbn [map fold_right length nth INR].
  split; [|split]; repeat (first [left; apply (f_equal2 pair); [reflexivity|lra] | right]).
Qed.

(* ------------------------------------------------------------------ *)
(** ** C149 — specification: product grids and what the interpolator of scipy promises *)
Definition ascending (xs : list Z) : Prop := StronglySorted Z.lt xs.
Definition descending (xs : list Z) : Prop := ascending (rev xs).
(** all points of a product grid, last coordinate fastest *)
Fixpoint prodl (axes : list (list Z)) : list (list Z) :=
  match axes with [] => [[]] | a :: r => flat_map (fun x : Z => map (@cons Z x) (prodl r)) a end.
(** the node with a multi-index *)
Fixpoint node (axes : list (list Z)) (idx : list nat) : list Z :=
  match axes, idx with a :: r, i :: is => nth i a 0%Z :: node r is | _, _ => [] end.
Definition idx_ok (axes : list (list Z)) (idx : list nat) : Prop := Forall2 (fun a i => (i < length a)%nat) axes idx.
Definition inside (axes : list (list Z)) (k : zvec) : Prop :=
  Forall2 (fun a z => exists lo hi, In lo a /\ In hi a /\ (lo <= z <= hi)%Z) axes k.
(** RegularGridInterpolator with bounds_error=True: an error unless every axis ascends or descends strictly and the point is
    inside; exact at the nodes *)
Definition interp_spec (I : list (list Z) -> (list nat -> R) -> zvec -> option R) : Prop :=
  (forall axes v k, Forall ascending axes -> inside axes k -> I axes v k <> None) /\
  (forall axes v idx, Forall ascending axes -> idx_ok axes idx -> I axes v (node axes idx) = Some (v idx)) /\
  (forall axes v k, ~ Forall (fun a => ascending a \/ descending a) axes -> I axes v k = None) /\
  (forall axes v k, ~ inside axes k -> I axes v k = None).

(* ------------------------------------------------------------------ *)
(** *** the sorting of the samples *)
Fixpoint lexfr (s m : nat) (a b : zvec) : Prop :=
  match m with
  | O => True
  | S m' => (nth s a 0 < nth s b 0)%Z \/ (nth s a 0%Z = nth s b 0%Z /\ lexfr (S s) m' a b)
  end.
Lemma lexfr_antisym m : forall s a b, lexfr s m a b -> lexfr s m b a -> forall i, s <= i < s + m -> nth i a 0%Z = nth i b 0%Z.
Proof.
  induction m as [|m IH]; intros s a b H1 H2 i Hi; [lia|]. cbn [lexfr] in *.
  destruct H1 as [H1|[E1 H1]], H2 as [H2|[E2 H2]]; try lia.
  destruct (Nat.eq_dec i s) as [->|Hn]; [exact E1|]. apply (IH (S s)); auto; lia.
Qed.
Lemma lexfr_cons m : forall s x y a b, lexfr (S s) m (x :: a) (y :: b) <-> lexfr s m a b.
Proof. induction m as [|m IH]; intros; cbn [lexfr nth]; [tauto|]. rewrite IH. reflexivity. Qed.
Lemma grid_sort_perm {D} dim (l : list (zvec * D)) : Permutation (grid_sort dim l) l.
Proof.
  unfold grid_sort. generalize (rev (seq 0 dim)). intros s. revert l.
  induction s as [|i s IH]; intros l; cbn [fold_left]; [reflexivity|]. rewrite IH. apply sort_by_perm.
Qed.
Lemma grid_sort_sorted {D} dim (l : list (zvec * D)) : StronglySorted (fun p q => lexfr 0 dim (fst p) (fst q)) (grid_sort dim l).
Proof.
  unfold grid_sort.
  cut (forall s, StronglySorted (fun p q => lexfr s dim (fst p) (fst q))
                   (fold_left (fun l i => sort_by (fun p : zvec * D => nth i (fst p) 0%Z) l) (rev (seq s dim)) l)); [intros G; apply G|].
  revert l. induction dim as [|m IH]; intros l s.
  - apply StronglySorted_True.
  - cbn [seq rev]. rewrite fold_left_app. cbn [fold_left].
    exact (sort_by_lex (fun p : zvec * D => nth s (fst p) 0%Z) _ _ (IH l (S s))).
Qed.
Lemma sorted_unique {A} (Rl : A -> A -> Prop) (l1 l2 : list A) : StronglySorted Rl l1 -> StronglySorted Rl l2 -> Permutation l1 l2 ->
  (forall a b, In a l1 -> In b l1 -> Rl a b -> Rl b a -> a = b) -> l1 = l2.
Proof.
  intros H1. revert l2. induction H1 as [|a l1 Hs IH Ha]; intros l2 H2 P Ant.
  - apply Permutation_nil in P. subst. reflexivity.
  - destruct l2 as [|b l2]; [apply Permutation_sym, Permutation_nil in P; discriminate|].
    inversion H2 as [|x y H3 H4]; subst x y.
    assert (E : a = b).
    { assert (Ia : In a (b :: l2)) by (apply (Permutation_in _ P); left; reflexivity).
      assert (Ib : In b (a :: l1)) by (apply (Permutation_in _ (Permutation_sym P)); left; reflexivity).
      destruct Ia as [->|Ia]; [reflexivity|]. destruct Ib as [<-|Ib]; [reflexivity|].
      rewrite Forall_forall in Ha, H4. apply Ant; [left; reflexivity|right; exact Ib|apply Ha, Ib|apply H4, Ia]. }
    subst b. f_equal. apply IH; [exact H3|exact (Permutation_cons_inv P)|].
    intros x y Hx Hy. apply Ant; right; assumption.
Qed.
Lemma sorted_app {A} (Rl : A -> A -> Prop) (l1 l2 : list A) : StronglySorted Rl l1 -> StronglySorted Rl l2 ->
  (forall a b, In a l1 -> In b l2 -> Rl a b) -> StronglySorted Rl (l1 ++ l2).
Proof.
  intros H1 H2 H. induction H1 as [|a l1 Hs IH Ha]; [exact H2|]. cbn [app]. constructor.
  - apply IH. intros; apply H; auto. right; assumption.
  - apply Forall_app. split; [exact Ha|]. rewrite Forall_forall. intros b Hb. apply H; [left; reflexivity|exact Hb].
Qed.
Lemma sorted_map {A B} (f : A -> B) (Rl : A -> A -> Prop) (Rl' : B -> B -> Prop) l : (forall a b, Rl a b -> Rl' (f a) (f b)) ->
  StronglySorted Rl l -> StronglySorted Rl' (map f l).
Proof.
  intros H Hs. induction Hs as [|a l Hs IH Ha]; cbn [map]; constructor; [exact IH|].
  rewrite Forall_forall in *. intros b Hb. apply in_map_iff in Hb. destruct Hb as (c & <- & Hc). auto.
Qed.
Lemma prodl_len axes p : In p (prodl axes) -> length p = length axes.
Proof.
  revert p. induction axes as [|a r IH]; intros p; cbn [prodl]; [intros [<-|[]]; reflexivity|].
  rewrite in_flat_map. intros (x & Hx & Hp). apply in_map_iff in Hp. destruct Hp as (q & <- & Hq). cbn [length].
  exact (f_equal S (IH q Hq)).
Qed.
Lemma prodl_sorted axes : Forall ascending axes -> StronglySorted (lexfr 0 (length axes)) (prodl axes).
Proof.
  induction 1 as [|a r Ha Hr IH]; cbn [prodl length]; [repeat constructor|].
  induction Ha as [|x a Hs IHa Hx]; cbn [flat_map]; [constructor|]. apply sorted_app; [|exact IHa|].
  - apply (sorted_map (cons x) (lexfr 0 (length r))); [|exact IH]. intros p q Hpq. cbn [lexfr nth]. right.
    split; [reflexivity|]. apply lexfr_cons, Hpq.
  - intros p q Hp Hq. apply in_map_iff in Hp. destruct Hp as (p' & <- & _). apply in_flat_map in Hq.
    destruct Hq as (y & Hy & Hq). apply in_map_iff in Hq. destruct Hq as (q' & <- & _). cbn [lexfr nth]. left.
    rewrite Forall_forall in Hx. apply Hx, Hy.
Qed.
Lemma grid_sort_points {D} (l : list (zvec * D)) axes : Forall ascending axes -> Permutation (map fst l) (prodl axes) ->
  map fst (grid_sort (length axes) l) = prodl axes.
Proof.
  intros Ha P. apply (sorted_unique (lexfr 0 (length axes))).
  - apply (sorted_map fst (fun p q => lexfr 0 (length axes) (fst p) (fst q))); [auto|]. apply grid_sort_sorted.
  - apply prodl_sorted, Ha.
  - rewrite <- P. apply Permutation_map, grid_sort_perm.
  - assert (HL : forall a, In a (map fst (grid_sort (length axes) l)) -> length a = length axes).
    { intros a Hi. apply prodl_len. apply (Permutation_in _ P). apply (Permutation_in _ (Permutation_map fst (grid_sort_perm (length axes) l))), Hi. }
    intros a b Ha' Hb' H1 H2. apply (nth_ext _ _ 0%Z 0%Z); [exact (eq_trans (HL a Ha') (eq_sym (HL b Hb')))|].
    intros i Hi. apply (lexfr_antisym (length axes) 0); auto. split; [lia|]. rewrite <- (HL a Ha'). exact Hi.
Qed.

(** *** the reshaping *)
Lemma F2_length {A B} (Rl : A -> B -> Prop) l l' : Forall2 Rl l l' -> length l = length l'.
Proof. induction 1; cbn [length]; congruence. Qed.
Definition gprod (grid : list nat) : nat := fold_right Nat.mul 1 grid.
Lemma flat_acc grid : forall idx acc, length idx = length grid -> flat_index grid idx acc = acc * gprod grid + flat_index grid idx 0.
Proof.
  induction grid as [|g grid IH]; intros [|i idx] acc L; try discriminate; cbn [flat_index gprod fold_right]; [lia|].
  injection L as L. rewrite (IH idx (acc * g + i) L), (IH idx (0 * g + i) L). fold (gprod grid). nia.
Qed.
Lemma nth_blocks {A} (f : Z -> list A) n d : forall a i r, (forall x, length (f x) = n) -> i < length a -> r < n ->
  nth (i * n + r) (flat_map f a) d = nth r (f (nth i a 0%Z)) d.
Proof.
  induction a as [|x a IH]; intros i r Hf Hi Hr; cbn [length] in Hi; [lia|]. cbn [flat_map].
  destruct i as [|i].
  - rewrite app_nth1 by (rewrite Hf; lia). reflexivity.
  - rewrite app_nth2 by (rewrite Hf; lia). rewrite Hf. replace (S i * n + r - n) with (i * n + r) by lia. cbn [nth]. apply IH; auto. lia.
Qed.
Lemma prodl_length axes : length (prodl axes) = gprod (map (@length Z) axes).
Proof.
  induction axes as [|a r IH]; [reflexivity|]. cbn [prodl map gprod fold_right]. fold (gprod (map (@length Z) r)).
  induction a as [|x a IHa]; [reflexivity|]. cbn [flat_map length]. rewrite app_length, map_length, IHa, IH. lia.
Qed.
Lemma flat_lt axes idx : idx_ok axes idx -> flat_index (map (@length Z) axes) idx 0 < gprod (map (@length Z) axes).
Proof.
  intros H. assert (L : length idx = length (map (@length Z) axes)) by (rewrite map_length; symmetry; exact (F2_length _ _ _ H)).
  induction H as [|a i axes idx Hi H IH]; [cbn; lia|]. cbn [map flat_index gprod fold_right]. injection L as L.
  rewrite flat_acc by exact L. fold (gprod (map (@length Z) axes)). specialize (IH L). nia.
Qed.
Lemma prodl_nth axes idx : idx_ok axes idx -> nth (flat_index (map (@length Z) axes) idx 0) (prodl axes) [] = node axes idx.
Proof.
  intros H. induction H as [|a i axes idx Hi H IH]; [reflexivity|]. cbn [map flat_index prodl node].
  assert (L : length idx = length (map (@length Z) axes)) by (rewrite map_length; symmetry; exact (F2_length _ _ _ H)).
  rewrite flat_acc by exact L. rewrite Nat.mul_0_l, Nat.add_0_l. 
  rewrite (nth_blocks (fun x => map (cons x) (prodl axes)) (gprod (map (@length Z) axes))).
  - rewrite (nth_indep _ [] (cons (nth i a 0%Z) [])) by (rewrite map_length, prodl_length; apply flat_lt, H).
    rewrite (map_nth (cons (nth i a 0%Z))). rewrite IH. reflexivity.
  - intros x. rewrite map_length, prodl_length. reflexivity.
  - exact Hi.
  - apply flat_lt, H.
Qed.
Lemma node_len axes idx : idx_ok axes idx -> length (node axes idx) = length axes.
Proof. intros H. induction H; [reflexivity|]. cbn [node length]. f_equal. assumption. Qed.
Lemma node_nth axes idx i : idx_ok axes idx -> i < length axes -> nth i (node axes idx) 0%Z = nth (nth i idx 0) (nth i axes []) 0%Z.
Proof.
  intros H. revert i. induction H as [|a j axes idx Hj H IH]; intros i Hi; [cbn in Hi; lia|]. destruct i as [|i]; [reflexivity|].
  cbn [node nth]. apply IH. cbn [length] in Hi. lia.
Qed.
Lemma prodl_node axes p : In p (prodl axes) -> exists idx, idx_ok axes idx /\ p = node axes idx.
Proof.
  revert p. induction axes as [|a r IH]; intros p; cbn [prodl]; [intros [<-|[]]; exists []; split; [constructor|reflexivity]|].
  rewrite in_flat_map. intros (x & Hx & Hp). apply in_map_iff in Hp. destruct Hp as (q & <- & Hq).
  destruct (IH q Hq) as (idx & H & ->). destruct (In_nth _ _ 0%Z Hx) as (i & Hi & E). exists (i :: idx).
  split; [constructor; assumption|]. cbn [node]. rewrite E. reflexivity.
Qed.
Lemma idx_ok_nth axes idx : length idx = length axes -> (forall i, i < length axes -> nth i idx 0 < length (nth i axes [])) -> idx_ok axes idx.
Proof.
  revert idx. induction axes as [|a r IH]; intros [|j idx] L H; try discriminate; [constructor|]. constructor.
  - exact (H 0 ltac:(cbn [length]; lia)).
  - apply IH; [cbn [length] in L; lia|]. intros i Hi. exact (H (S i) ltac:(cbn [length]; lia)).
Qed.
Lemma axis_of_eq axes base i : idx_ok axes base -> i < length axes ->
  axis_of (map (@length Z) axes) (prodl axes) base i = nth i axes [].
Proof.
  intros Hb Hi. assert (Lb : length base = length axes) by (symmetry; exact (F2_length _ _ _ Hb)). unfold axis_of.
  assert (Eg : nth i (map (@length Z) axes) 0 = length (nth i axes [])) by exact (map_nth (@length Z) axes [] i).
  rewrite Eg. apply (nth_ext _ _ 0%Z 0%Z); [rewrite map_length, seq_length; reflexivity|].
  rewrite map_length, seq_length. intros j Hj. rewrite (nth_map_seq _ _ _ _ Hj).
  assert (OK : idx_ok axes (axis_index base i j)).
  { apply idx_ok_nth; [unfold axis_index; rewrite map_length, seq_length; exact Lb|]. intros b Hb'. unfold axis_index.
    rewrite (nth_map_seq _ (length base)) by (rewrite Lb; exact Hb'). destruct (Nat.eqb_spec b i) as [->|]; [exact Hj|].
    revert b Hb' n. clear -Hb. induction Hb as [|a c axes base Hc Hb IH]; intros b Hb' n; [cbn in Hb'; lia|].
    destruct b as [|b]; [exact Hc|]. cbn [nth length] in *. 
    assert (G : forall b, b < length axes -> nth b base 0 < length (nth b axes [])).
    { clear -Hb. induction Hb as [|a c axes base Hc Hb IH]; intros b Hb'; [cbn in Hb'; lia|]. destruct b as [|b]; [exact Hc|].
      cbn [nth length] in *. apply IH. lia. }
    apply G. lia. }
  rewrite prodl_nth by exact OK. rewrite node_nth by assumption. unfold axis_index.
  rewrite (nth_map_seq _ (length base)) by (rewrite Lb; exact Hi). rewrite Nat.eqb_refl. reflexivity.
Qed.
Lemma axes_eq axes base : idx_ok axes base ->
  map (axis_of (map (@length Z) axes) (prodl axes) base) (seq 0 (length (map (@length Z) axes))) = axes.
Proof.
  intros Hb. rewrite map_length. apply (nth_ext _ _ [] []); [rewrite map_length, seq_length; reflexivity|].
  rewrite map_length, seq_length. intros i Hi. rewrite (nth_map_seq _ _ _ _ Hi). apply axis_of_eq; assumption.
Qed.
Lemma base_ok (per : bool) axes : Forall (fun a : list Z => a <> []) axes ->
  idx_ok axes (if per then map pred (map (@length Z) axes) else map (fun _ => 0) (map (@length Z) axes)).
Proof.
  induction 1 as [|a axes Ha H IH]; [destruct per; constructor|]. assert (La : 0 < length a) by (destruct a; [congruence|cbn; lia]).
  destruct per; cbn [map]; (constructor; [|exact IH]); lia.
Qed.

(** *** the values *)
Lemma prodl_nodup axes : Forall ascending axes -> NoDup (prodl axes).
Proof.
  induction 1 as [|a r Ha Hr IH]; cbn [prodl]; [repeat constructor; simpl; tauto|].
  induction Ha as [|x a Hs IHa Hx]; cbn [flat_map]; [constructor|]. apply NoDup_app_iff. split; [|split; [exact IHa|]].
  - apply NoDup_map_inj; [|exact IH]. intros p q _ _ E. injection E as E. exact E.
  - intros p Hp Hq. apply in_map_iff in Hp. destruct Hp as (p' & <- & _). apply in_flat_map in Hq. destruct Hq as (y & Hy & Hq).
    apply in_map_iff in Hq. destruct Hq as (q' & E & _). injection E as -> _. rewrite Forall_forall in Hx. specialize (Hx x Hy). lia.
Qed.
Lemma fst_unique {A B} (l : list (A * B)) x v w : NoDup (map fst l) -> In (x, v) l -> In (x, w) l -> v = w.
Proof.
  induction l as [|[y u] l IH]; intros N Hv Hw; [contradiction|]. cbn [map fst] in N. inversion N as [|a b Na Nb]; subst a b.
  destruct Hv as [Ev|Hv], Hw as [Ew|Hw].
  - congruence.
  - injection Ev as -> ->. exfalso. apply Na. apply in_map_iff. exists (x, w). auto.
  - injection Ew as -> ->. exfalso. apply Na. apply in_map_iff. exists (x, v). auto.
  - apply IH; auto.
Qed.
Lemma values_node (kd : list (zvec * R)) axes idx d : Forall ascending axes -> Permutation (map fst kd) (prodl axes) ->
  idx_ok axes idx -> In (node axes idx, d) kd ->
  values_of (map (@length Z) axes) (map snd (grid_sort (length axes) kd)) idx = d.
Proof.
  intros Ha P OK Hd. assert (E := grid_sort_points kd axes Ha P). set (kd' := grid_sort (length axes) kd) in *.
  set (q := flat_index (map (@length Z) axes) idx 0) in *.
  assert (Hq : q < length kd').
  { assert (El : length kd' = gprod (map (@length Z) axes)).
    { rewrite <- prodl_length. transitivity (length (map fst kd')); [symmetry; apply map_length|exact (f_equal (@length _) E)]. }
    rewrite El. apply flat_lt, OK. }
  unfold values_of. fold q.
  assert (H1 : nth q (map fst kd') [] = node axes idx) by (rewrite E; apply prodl_nth, OK).
  assert (H2 : In (nth q kd' ([], 0%R)) kd) by (apply (Permutation_in _ (grid_sort_perm (length axes) kd)), nth_In, Hq).
  assert (F1 : nth q (map fst kd') [] = fst (nth q kd' ([], 0%R))) by exact (map_nth fst kd' ([], 0%R) q).
  assert (F2 : nth q (map snd kd') 0%R = snd (nth q kd' ([], 0%R))) by exact (map_nth snd kd' ([], 0%R) q).
  rewrite F2. rewrite H1 in F1. destruct (nth q kd' ([], 0%R)) as [y w]. cbn [fst snd] in *. subst y.
  apply (fst_unique kd (node axes idx)); auto. apply (Permutation_NoDup (Permutation_sym P)), prodl_nodup, Ha.
Qed.

(** *** the periodic extension *)
Lemma asc_nth xs i j : ascending xs -> i < j -> j < length xs -> (nth i xs 0 < nth j xs 0)%Z.
Proof.
  intros H. revert i j. induction H as [|x xs Hs IH Hx]; intros i j Hi Hj; [cbn in Hj; lia|].
  destruct j as [|j]; [lia|]. cbn [length] in Hj. destruct i as [|i]; cbn [nth].
  - rewrite Forall_forall in Hx. apply Hx, nth_In. lia.
  - apply IH; lia.
Qed.
Lemma ext_ascending M xs : (0 < M)%Z -> 2 <= length xs -> ascending xs -> (forall z, In z xs -> (- M <= 2 * z < M)%Z) -> ascending (ext_axis M xs).
Proof.
  intros HM Hn Ha Hc. unfold ext_axis. rewrite (Nat.mod_small 1) by lia.
  assert (B : forall i, i < length xs -> (- M <= 2 * nth i xs 0 < M)%Z) by (intros i Hi; apply Hc, nth_In, Hi).
  assert (B0 := B 0 ltac:(lia)). assert (B1 := B 1 ltac:(lia)). assert (Bn := B (length xs - 1) ltac:(lia)).
  assert (A1 := asc_nth xs 0 1 Ha ltac:(lia) ltac:(lia)).
  cbn [app]. constructor.
  - apply sorted_app; [exact Ha| |].
    + constructor; [repeat constructor|]. constructor; [lia|constructor].
    + intros a b Hx Hb. specialize (Hc a Hx). destruct Hb as [<-|[<-|[]]]; lia.
  - apply Forall_app. split.
    + rewrite Forall_forall. intros z Hz. specialize (Hc z Hz). lia.
    + constructor; [lia|]. constructor; [lia|constructor].
Qed.
Lemma ext_inside M xs z : (0 < M)%Z -> 2 <= length xs -> (forall z, In z xs -> (- M <= 2 * z < M)%Z) -> (- M <= 2 * z < M)%Z ->
  exists lo hi, In lo (ext_axis M xs) /\ In hi (ext_axis M xs) /\ (lo <= z <= hi)%Z.
Proof.
  intros HM Hn Hc Hz. unfold ext_axis. exists (nth (length xs - 1) xs 0 - M)%Z, (nth 0 xs 0 + M)%Z.
  assert (Bn := Hc _ (nth_In xs 0%Z (n := length xs - 1) ltac:(lia))). assert (B0 := Hc _ (nth_In xs 0%Z (n := 0) ltac:(lia))).
  split; [left; reflexivity|]. split; [|lia]. cbn [app]. right. apply in_or_app. right. left. reflexivity.
Qed.
Lemma ext_nth M xs i : i < length xs -> nth (S i) (ext_axis M xs) 0%Z = nth i xs 0%Z.
Proof. intros H. unfold ext_axis. cbn [app nth]. apply app_nth1, H. Qed.
Lemma ext_idx n j : j < n -> ext_index n (S j) = j.
Proof. intros H. unfold ext_index. replace (S j + n - 1) with (j + 1 * n) by lia. rewrite Nat.mod_add by lia. apply Nat.mod_small, H. Qed.
Lemma ext_length M xs : length (ext_axis M xs) = length xs + 3.
Proof. unfold ext_axis. cbn [app length]. rewrite app_length. cbn [length]. lia. Qed.
Lemma wrap_arg_cell M z : (0 < M)%Z -> (- M <= 2 * wrap_arg M z < M)%Z /\ exists t, (wrap_arg M z = z + M * t)%Z.
Proof.
  intros HM. unfold wrap_arg. set (a := (2 * z + M)%Z).
  assert (D := Z.div_mod a (2 * M) ltac:(lia)). assert (B := Z.mod_pos_bound a (2 * M) ltac:(lia)).
  set (q := (a / (2 * M))%Z) in *. 
  assert (E : ((a mod (2 * M) - M) = (z - M * q) * 2)%Z) by (unfold a in *; lia).
  rewrite E, Z.div_mul by lia. split; [unfold a in *; lia|]. exists (- q)%Z. lia.
Qed.
Lemma wrap_arg_eq M z y t : (0 < M)%Z -> (- M <= 2 * y < M)%Z -> (z = y + M * t)%Z -> wrap_arg M z = y.
Proof.
  intros HM Hy E. destruct (wrap_arg_cell M z HM) as [A [u B]]. apply (cell_unique M _ _ (u + t) HM A Hy). lia.
Qed.

(** the grid of the samples: at most three axes, at least two points on each, strictly ascending and in [-1/2, 1/2[ *)
Definition cell_grid (M : Z) (axes : list (list Z)) : Prop :=
  1 <= length axes <= 3 /\ Forall ascending axes /\ Forall (fun a => 2 <= length a /\ forall z, In z a -> (- M <= 2 * z < M)%Z) axes.
Definition good_grid (axes : list (list Z)) : Prop :=
  1 <= length axes <= 3 /\ Forall ascending axes /\ Forall (fun a : list Z => a <> []) axes.

Section InterpTheorems.
Variable I : list (list Z) -> (list nat -> R) -> zvec -> option R.
Hypothesis HI : interp_spec I.

(** what the part after the symmetrisation returns *)
Lemma interp_periodic M axes (kd : list (zvec * R)) f : (0 < M)%Z -> cell_grid M axes -> Permutation (map fst kd) (prodl axes) ->
  (forall k, f k = I (map (ext_axis M) (map (axis_of (map (@length Z) axes) (map fst (grid_sort (length axes) kd)) (map pred (map (@length Z) axes))) (seq 0 (length (map (@length Z) axes)))))
     (ext_values (map (@length Z) axes) (values_of (map (@length Z) axes) (map snd (grid_sort (length axes) kd)))) (map (wrap_arg M) k)) ->
  (forall x d k, In (x, d) kd -> same_pt M true k x -> f k = Some d) /\
  (forall k, length k = length axes -> f k <> None) /\
  (forall k k', same_pt M true k k' -> f k = f k').
Proof.
  intros HM (_ & Ha & Hc) P Hf.
  assert (Hne : Forall (fun a : list Z => a <> []) axes).
  { revert Hc. apply Forall_impl. intros a [L _] ->. cbn in L. lia. }
  assert (Ea : map (axis_of (map (@length Z) axes) (map fst (grid_sort (length axes) kd)) (map pred (map (@length Z) axes))) (seq 0 (length (map (@length Z) axes))) = axes).
  { assert (G := axes_eq axes _ (base_ok true axes Hne)). rewrite <- G at 5. apply map_ext. intros i.
    exact (f_equal (fun p => axis_of (map (@length Z) axes) p (map pred (map (@length Z) axes)) i) (grid_sort_points kd axes Ha P)). }
  assert (Hf' : forall k, f k = I (map (ext_axis M) axes)
     (ext_values (map (@length Z) axes) (values_of (map (@length Z) axes) (map snd (grid_sort (length axes) kd)))) (map (wrap_arg M) k)).
  { intros k. rewrite Hf. exact (f_equal (fun a => I (map (ext_axis M) a) _ _) Ea). }
  clear Hf Ea. destruct HI as (I1 & I2 & _ & _).
  assert (Ext : Forall ascending (map (ext_axis M) axes)).
  { rewrite Forall_forall in *. intros a Hx. apply in_map_iff in Hx. destruct Hx as (b & <- & Hb). destruct (Hc b Hb).
    apply ext_ascending; auto. }
  assert (Hin : forall k k', same_pt M true k k' -> map (wrap_arg M) k = map (wrap_arg M) k').
  { intros k k' [L H]. apply (nth_ext _ _ 0%Z 0%Z); [rewrite !map_length; exact L|]. intros i _.
    assert (W0 : wrap_arg M 0 = 0%Z) by (apply (wrap_arg_eq M 0 0 0 HM); lia).
    assert (W : forall q : zvec, nth i (map (wrap_arg M) q) 0%Z = wrap_arg M (nth i q 0%Z)) by (intros q; rewrite <- W0 at 1; apply (map_nth (wrap_arg M))).
    rewrite !W. destruct (H i) as [t E]. destruct (wrap_arg_cell M (nth i k' 0%Z) HM) as [A [u B]].
    apply (wrap_arg_eq M _ _ (t - u) HM A). rewrite E, B. generalize (nth i k' 0%Z : Z). intros z. match goal with |- @eq _ ?a ?b => change (@eq Z a b) end. ring. }
  split; [|split].
  - intros x d k Hx Hk. rewrite Hf', (Hin k x Hk).
    assert (Hp : In x (prodl axes)) by (apply (Permutation_in _ P); apply in_map_iff; exists (x, d); auto).
    destruct (prodl_node axes x Hp) as (idx & OK & Ex).
    assert (Cx : forall z, In z x -> (- M <= 2 * z < M)%Z).
    { rewrite Ex. clear -OK Hc. induction OK as [|a i axes idx Hi OK IH]; intros z; cbn [node In]; [tauto|].
      inversion Hc as [|q w Hq Hw]; subst q w. intros [<-|Hz]; [apply (proj2 Hq), nth_In, Hi|apply IH; auto]. }
    assert (Ew : map (wrap_arg M) x = x).
    { rewrite <- (map_id x) at 2. apply map_ext_in. intros z Hz. apply (wrap_arg_eq M z z 0 HM (Cx z Hz)). rewrite Z.mul_0_r. symmetry. apply Z.add_0_r. }
    rewrite Ew. rewrite Ex at 1.
    assert (En : node axes idx = node (map (ext_axis M) axes) (map S idx)).
    { clear -OK. induction OK as [|a i axes idx Hi OK IH]; [reflexivity|]. cbn [map node]. rewrite (ext_nth M a i Hi), IH. reflexivity. }
    rewrite En, (I2 _ _ (map S idx) Ext).
    2:{ clear -OK. induction OK as [|a i axes idx Hi OK IH]; constructor; [rewrite ext_length; lia|exact IH]. }
    f_equal. unfold ext_values.
    assert (Ei : map (fun gj => ext_index (fst gj) (snd gj)) (combine (map (@length Z) axes) (map S idx)) = idx).
    { clear -OK. induction OK as [|a i axes idx Hi OK IH]; [reflexivity|]. cbn [map combine fst snd]. rewrite IH, ext_idx by exact Hi. reflexivity. }
    rewrite Ei. apply values_node; auto. rewrite <- Ex. exact Hx.
  - intros k Hk. rewrite Hf'. apply I1; [exact Ext|]. clear -Hk Hc HM. revert k Hk.
    induction Hc as [|a axes [Ha1 Ha2] Hc IH]; intros [|z k] Hk; try discriminate; [constructor|]. cbn [map]. constructor.
    + apply ext_inside; auto. apply wrap_arg_cell, HM.
    + apply IH. cbn [length] in Hk. injection Hk as Hk. exact Hk.
  - intros k k' H. rewrite !Hf', (Hin k k' H). reflexivity.
Qed.
Lemma interp_plain axes (kd : list (zvec * R)) f : good_grid axes -> Permutation (map fst kd) (prodl axes) ->
  (forall k, f k = I (map (axis_of (map (@length Z) axes) (map fst (grid_sort (length axes) kd)) (map (fun _ => 0) (map (@length Z) axes))) (seq 0 (length (map (@length Z) axes))))
     (values_of (map (@length Z) axes) (map snd (grid_sort (length axes) kd))) k) ->
  (forall x d, In (x, d) kd -> f x = Some d) /\ (forall k, inside axes k -> f k <> None) /\ (forall k, ~ inside axes k -> f k = None).
Proof.
  intros (_ & Ha & Hne) P Hf.
  assert (Ea : map (axis_of (map (@length Z) axes) (map fst (grid_sort (length axes) kd)) (map (fun _ => 0) (map (@length Z) axes))) (seq 0 (length (map (@length Z) axes))) = axes).
  { assert (G := axes_eq axes _ (base_ok false axes Hne)). rewrite <- G at 5. apply map_ext. intros i.
    exact (f_equal (fun p => axis_of (map (@length Z) axes) p (map (fun _ => 0) (map (@length Z) axes)) i) (grid_sort_points kd axes Ha P)). }
  assert (Hf' : forall k, f k = I axes (values_of (map (@length Z) axes) (map snd (grid_sort (length axes) kd))) k).
  { intros k. rewrite Hf. exact (f_equal (fun a => I a _ _) Ea). }
  clear Hf Ea. destruct HI as (I1 & I2 & _ & I4). split; [|split].
  - intros x d Hx. rewrite Hf'.
    assert (Hp : In x (prodl axes)) by (apply (Permutation_in _ P); apply in_map_iff; exists (x, d); auto).
    destruct (prodl_node axes x Hp) as (idx & OK & ->). rewrite I2 by assumption. f_equal. apply values_node; auto.
  - intros k. rewrite Hf'. apply I1, Ha.
  - intros k. rewrite Hf'. apply I4.
Qed.
End InterpTheorems.

Lemma perm_ks {D} (ks : list zvec) (data : list D) axes : length ks = length data -> Permutation ks (prodl axes) ->
  Permutation (map fst (combine ks data)) (prodl axes).
Proof.
  intros L P. replace (map fst (combine ks data)) with ks; [exact P|]. clear P. revert data L.
  induction ks as [|k ks IH]; intros [|d data] L; try discriminate; [reflexivity|]. cbn [combine map fst]. f_equal. apply IH.
  injection L as L. exact L.
Qed.
Lemma prodl_ne axes : Forall (fun a : list Z => a <> []) axes -> prodl axes <> [].
Proof.
  intros H E. apply (f_equal (@length (list Z))) in E. rewrite prodl_length in E. cbn [length] in E.
  induction H as [|a axes Ha H IH]; cbn [map gprod fold_right] in E; [lia|]. fold (gprod (map (@length Z) axes)) in E.
  destruct a; [congruence|]. cbn [length] in E. apply IH. lia.
Qed.
Lemma cell_good M axes : cell_grid M axes -> good_grid axes.
Proof. intros (A & B & C). split; [exact A|]. split; [exact B|]. revert C. apply Forall_impl. intros a [L _] ->. cbn in L. lia. Qed.

(** the call succeeds, with the function of the two lemmas above *)
Lemma interp_call I s M per axes ks data kd : good_grid axes -> length ks = length data -> ks <> [] ->
  (forall k, In k ks -> length k = length axes) ->
  (match s with Some g => sdim g = length axes /\ realize_data g M per ks data = Some kd | None => kd = combine ks data end) ->
  Permutation (map fst kd) (prodl axes) ->
  interpolate I s M per (map (@length Z) axes) ks data =
    Some (let kd' := grid_sort (length axes) kd in
          let base := if per then map pred (map (@length Z) axes) else map (fun _ => 0) (map (@length Z) axes) in
          let ax := map (axis_of (map (@length Z) axes) (map fst kd') base) (seq 0 (length (map (@length Z) axes))) in
          let vals := values_of (map (@length Z) axes) (map snd kd') in
          if per then fun k => I (map (ext_axis M) ax) (ext_values (map (@length Z) axes) vals) (map (wrap_arg M) k) else fun k => I ax vals k).
Proof.
  intros (Hd & Ha & Hne) L Hks Hl Hs P. unfold interpolate. destruct ks as [|k0 ks']; [congruence|].
  assert (L0 : length k0 = length axes) by (apply Hl; left; reflexivity). 
  match goal with |- context[Nat.eqb ?a (length data)] => replace (Nat.eqb a (length data)) with true by (symmetry; apply Nat.eqb_eq; exact L) end. cbn [negb].
  match goal with |- match ?t with Some _ => _ | None => _ end = _ => assert (Et : t = Some kd) end.
  { destruct s as [g|]; [|subst kd; reflexivity]. destruct Hs as [E1 E2].
    match goal with |- context[Nat.eqb ?a ?b] => replace (Nat.eqb a b) with true by (symmetry; apply Nat.eqb_eq; exact (eq_trans E1 (eq_sym L0))) end. exact E2. }
  rewrite Et. 
  assert (Eg : fold_right Nat.mul 1 (map (@length Z) axes) = length kd).
  { change (gprod (map (@length Z) axes) = length kd). rewrite <- prodl_length. transitivity (length (map fst kd)); [symmetry; apply Permutation_length, P|apply map_length]. }
  match goal with |- context[Nat.eqb ?a (length kd)] => replace (Nat.eqb a (length kd)) with true by (symmetry; apply Nat.eqb_eq; exact Eg) end. cbn [negb].
  match goal with |- context[grid_sort ?a kd] => replace a with (length axes) by (symmetry; exact L0) end.
  assert (Ed : Nat.eqb (length (map (@length Z) axes)) 0 || Nat.ltb 3 (length (map (@length Z) axes)) = false).
  { rewrite map_length. apply orb_false_iff. split; [apply Nat.eqb_neq|apply Nat.ltb_ge]; lia. }
  rewrite Ed. destruct per; reflexivity.
Qed.

Lemma combine_in {A B} (l : list A) : forall (l' : list B) x i d, length l = length l' -> nth_error l i = Some x -> In (x, nth i l' d) (combine l l').
Proof.
  induction l as [|a l IH]; intros [|b l'] x i d L E; try discriminate; [destruct i; discriminate|].
  destruct i as [|i]; cbn [nth_error] in E; [injection E as ->; left; reflexivity|]. cbn [nth combine]. right. apply IH; auto.
Qed.

(** samples of a product grid in [-1/2, 1/2[, in any order, without symmetry: the returned function has the data at every
    sample and at all its periodic images, is defined for every k and periodic *)
Theorem C149_periodic : forall I, interp_spec I -> forall M axes ks data, (0 < M)%Z -> cell_grid M axes ->
  Permutation ks (prodl axes) -> length ks = length data ->
  exists f, interpolate I None M true (map (@length Z) axes) ks data = Some f /\
    (forall i x k, nth_error ks i = Some x -> same_pt M true k x -> f k = Some (nth i data 0%R)) /\
    (forall k, length k = length axes -> f k <> None) /\
    (forall k k', same_pt M true k k' -> f k = f k').
Proof.
  intros I HI M axes ks data HM HG P L. assert (HG' := cell_good M axes HG).
  assert (Hne : ks <> []).
  { intros ->. apply Permutation_nil in P. exact (prodl_ne axes (proj2 (proj2 HG')) P). }
  assert (Hl : forall k, In k ks -> length k = length axes) by (intros k Hk; apply prodl_len, (Permutation_in _ P), Hk).
  assert (P' := perm_ks ks data axes L P).
  rewrite (interp_call I None M true axes ks data (combine ks data) HG' L Hne Hl eq_refl P'). cbv zeta.
  eexists. split; [reflexivity|].
  destruct (interp_periodic I HI M axes (combine ks data) _ HM HG P' (fun k => eq_refl)) as (A & B & C).
  split; [|split; [exact B|exact C]]. intros i x k Hi Hk. apply (A x); [|exact Hk]. apply combine_in; assumption.
Qed.
Print Assumptions C149_periodic.

(** without periodicity: the data at the samples, an error exactly outside of the box of the samples *)
Theorem C149_plain : forall I, interp_spec I -> forall M axes ks data, good_grid axes ->
  Permutation ks (prodl axes) -> length ks = length data ->
  exists f, interpolate I None M false (map (@length Z) axes) ks data = Some f /\
    (forall i x, nth_error ks i = Some x -> f x = Some (nth i data 0%R)) /\
    (forall k, inside axes k -> f k <> None) /\ (forall k, ~ inside axes k -> f k = None).
Proof.
  intros I HI M axes ks data HG P L.
  assert (Hne : ks <> []).
  { intros ->. apply Permutation_nil in P. exact (prodl_ne axes (proj2 (proj2 HG)) P). }
  assert (Hl : forall k, In k ks -> length k = length axes) by (intros k Hk; apply prodl_len, (Permutation_in _ P), Hk).
  assert (P' := perm_ks ks data axes L P).
  rewrite (interp_call I None M false axes ks data (combine ks data) HG L Hne Hl eq_refl P'). cbv zeta.
  eexists. split; [reflexivity|].
  destruct (interp_plain I HI axes (combine ks data) _ HG P' (fun k => eq_refl)) as (A & B & C).
  split; [|split; [exact B|exact C]]. intros i x Hi. apply (A x). apply combine_in; assumption.
Qed.
Print Assumptions C149_plain.

(** with a symmetry group whose images of the samples fill a product grid of the cell: at every image of a sample (and its
    periodic images) the value is the mean of the data of the samples equivalent to it; equivalent nodes have equal values *)
Theorem C149_symmetric : forall I, interp_spec I -> forall g M axes ks data, (0 < M)%Z -> cell_grid M axes ->
  is_group (zmul (sdim g)) (zeye (sdim g)) (sym_all g) -> sdim g = length axes -> ks <> [] ->
  (forall k, In k ks -> length k = length axes) -> length ks = length data ->
  (forall x, length x = length axes -> in_cell M x -> (In x (prodl axes) <-> exists i, sources g M true ks x i)) ->
  exists f, interpolate I (Some g) M true (map (@length Z) axes) ks data = Some f /\
    (forall x i, sources g M true ks x i -> exists S v, S <> [] /\ NoDup S /\ (forall j, In j S <-> sources g M true ks x j) /\
       f x = Some v /\ (v * INR (length S) = fold_right Rplus 0 (map (fun j => nth j data 0) S))%R) /\
    (forall x i t, sources g M true ks x i -> In t (sym_all g) -> f (zmv (sdim g) t x) = f x) /\
    (forall k, length k = length axes -> f k <> None) /\
    (forall k k', same_pt M true k k' -> f k = f k').
Proof.
  intros I HI g M axes ks data HM HG Gr Hd Hne Hl L Hfill. assert (HG' := cell_good M axes HG).
  assert (Hl' : forall k, In k ks -> length k = sdim g) by (intros k Hk; rewrite Hd; auto).
  assert (Hex : exists l, realize_data g M true ks data = Some l).
  { unfold realize_data, realize_groups. destruct ks as [|k0 ks']; [congruence|].
    match goal with |- context[realize_sort ?a ?b] => assert (Pp := realize_sort_perm a b); destruct (realize_sort a b) as [|[k o] r] end.
    - exfalso. apply Permutation_nil in Pp. apply (f_equal (@length _)) in Pp. rewrite map_length in Pp. unfold realize_collect in Pp.
      rewrite app_length in Pp. cbn in Pp. lia.
    - eexists. reflexivity. }
  destruct Hex as [l Hr].
  destruct (C148_mean g M true ks data l HM Hl' (proj1 Gr) Hr) as (A & B & C & D).
  assert (P : Permutation (map fst l) (prodl axes)).
  { apply NoDup_Permutation; [exact A|apply prodl_nodup, HG|]. intros x. split.
    - intros Hx. apply in_map_iff in Hx. destruct Hx as ([y v] & E & Hx). cbn [fst] in E. subst y.
      destruct (B x v Hx) as [B1 B2]. apply Hfill; [exact (eq_trans B1 Hd)|apply B2; reflexivity|].
      destruct (D x v Hx) as (S & S0 & S1 & S2 & S3). destruct S as [|i S]; [congruence|]. exists i. apply S2. left. reflexivity.
    - intros Hx. assert (Cx : in_cell M x).
      { destruct (prodl_node axes x Hx) as (idx & OK & ->). clear -OK HG. destruct HG as (_ & _ & Hc).
        induction OK as [|a i axes idx Hi OK IH]; intros z; cbn [node In]; [tauto|].
        inversion Hc as [|q w Hq Hw]; subst q w. intros [<-|Hz]; [apply (proj2 Hq), nth_In, Hi|apply IH; auto]. }
      destruct (proj1 (Hfill x (prodl_len axes x Hx) Cx) Hx) as (i & k & s & E1 & E2 & E3).
      destruct (C k s (nth_error_In _ _ E1) E2) as (y & v & Hy & Ey).
      assert (E : x = y).
      { apply (same_cell M true x y HM); [auto|intros _; apply (proj2 (B y v Hy)); reflexivity|].
        apply (same_trans _ _ _ _ _ E3), same_sym, Ey. }
      subst y. apply in_map_iff. exists (x, v). auto. }
  rewrite (interp_call I (Some g) M true axes ks data l HG' L Hne Hl (conj Hd Hr) P). cbv zeta.
  eexists. split; [reflexivity|].
  destruct (interp_periodic I HI M axes l _ HM HG P (fun k => eq_refl)) as (F1 & F2 & F3).
  assert (Q : forall x i, sources g M true ks x i -> exists y v, In (y, v) l /\ same_pt M true x y).
  { intros x i (k & s & E1 & E2 & E3). destruct (C k s (nth_error_In _ _ E1) E2) as (y & v & Hy & Ey). exists y, v.
    split; [exact Hy|]. apply (same_trans _ _ _ _ _ E3), same_sym, Ey. }
  split; [|split; [|split; [exact F2|exact F3]]].
  - intros x i Hx. destruct (Q x i Hx) as (y & v & Hy & Exy). destruct (D y v Hy) as (S & S0 & S1 & S2 & S3).
    exists S, v. split; [exact S0|]. split; [exact S1|]. split; [|split; [exact (F1 y v x Hy Exy)|exact S3]].
    intros j. rewrite S2. unfold sources. split; intros (k & s & E1 & E2 & E3); exists k, s; (split; [exact E1|]; split; [exact E2|]).
    + apply (same_trans _ _ _ _ _ Exy E3).
    + apply (same_trans _ _ _ _ _ (same_sym _ _ _ _ Exy) E3).
  - intros x i t Hx Ht. destruct (Q x i Hx) as (y & v & Hy & Exy).
    assert (Hx' : sources g M true ks (zmv (sdim g) t x) i) by (apply (sources_image g M true ks x _ t i Gr Ht); [apply same_refl|exact Hx]).
    destruct (Q _ i Hx') as (z & w & Hz & Exz).
    rewrite (F1 y v x Hy Exy), (F1 z w (zmv (sdim g) t x) Hz Exz). f_equal. symmetry.
    apply (proj1 (C148_symmetric g M true ks data l HM Hl' Gr Hr) y v z w t Hy Hz Ht).
    apply (same_trans _ _ _ _ _ (same_sym _ _ _ _ Exz)), same_zmv, Exy.
Qed.
Print Assumptions C149_symmetric.

(** The docstring promises that the data is wrapped into the unit cell and that the function works for any k. Without a
    symmetry the samples are not wrapped: samples 0, 1/4, 1/2, 3/4 give an error at k = -0.4, k = 0.6, ... *)
Theorem C149_unwrapped_refuted : forall I, interp_spec I -> forall a b c d : R, exists f,
  interpolate I None 20 true [4] [[0];[5];[10];[15]]%Z [a;b;c;d] = Some f /\ f [-8]%Z = None /\ f [12]%Z = None /\
  f [5]%Z = Some b.
Proof.
  intros I (I1 & I2 & I3 & I4) a b c d. unfold interpolate.
  cbn [length negb Nat.eqb combine fold_right Nat.mul Nat.add orb Nat.ltb Nat.leb]. eexists. split; [reflexivity|].
  assert (K : grid_sort 1 [([0%Z], a); ([5%Z], b); ([10%Z], c); ([15%Z], d)] = [([0%Z], a); ([5%Z], b); ([10%Z], c); ([15%Z], d)]) by reflexivity.
  assert (Out : ~ inside [[-5;0;5;10;15;20;25]%Z] [-8]%Z).
  { intros H. inversion H as [|x y l l' Hx Hl E1 E2]. destruct Hx as (lo & hi & Hlo & Hhi & Hb). cbn [In] in Hlo. lia. }
  split; [|split].
  - apply I4. exact Out.
  - apply I4. exact Out.
  - assert (As : Forall ascending [[-5;0;5;10;15;20;25]%Z]).
    { constructor; [|constructor]. unfold ascending. repeat (constructor; [|repeat (constructor; [lia|]); constructor]). constructor. }
    match goal with |- I ?ax ?v ?k = _ => exact (I2 ax v [2] As ltac:(repeat constructor)) end.
Qed.
Print Assumptions C149_unwrapped_refuted.

(** An axis with a single point cannot be periodic: the extended axis contains x + 1 twice, so every call is an error *)
Theorem C149_single_refuted : forall I, interp_spec I -> forall M axes ks data, (0 < M)%Z -> good_grid axes ->
  Exists (fun a => length a = 1) axes -> Permutation ks (prodl axes) -> length ks = length data ->
  exists f, interpolate I None M true (map (@length Z) axes) ks data = Some f /\ forall k, f k = None.
Proof.
  intros I HI M axes ks data HM HG He P L.
  assert (Hne : ks <> []).
  { intros ->. apply Permutation_nil in P. exact (prodl_ne axes (proj2 (proj2 HG)) P). }
  assert (Hl : forall k, In k ks -> length k = length axes) by (intros k Hk; apply prodl_len, (Permutation_in _ P), Hk).
  assert (P' := perm_ks ks data axes L P).
  rewrite (interp_call I None M true axes ks data (combine ks data) HG L Hne Hl eq_refl P'). cbv zeta.
  eexists. split; [reflexivity|]. intros k. destruct HI as (_ & _ & I3 & _). apply I3.
  assert (Ea : map (axis_of (map (@length Z) axes) (map fst (grid_sort (length axes) (combine ks data))) (map pred (map (@length Z) axes))) (seq 0 (length (map (@length Z) axes))) = axes).
  { assert (G := axes_eq axes _ (base_ok true axes (proj2 (proj2 HG)))). rewrite <- G at 5. apply map_ext. intros i.
    exact (f_equal (fun p => axis_of (map (@length Z) axes) p (map pred (map (@length Z) axes)) i) (grid_sort_points (combine ks data) axes (proj1 (proj2 HG)) P')). }
  intros F. apply Exists_exists in He. destruct He as (a & Ha & La). destruct a as [|x [|y a]]; try discriminate.
  rewrite Forall_forall in F. assert (Hx := F (ext_axis M [x]) ltac:(apply in_map; exact (eq_ind_r (fun l => In [x] l) Ha Ea))).
  unfold ext_axis in Hx. cbn [length app Nat.sub nth] in Hx.
  destruct Hx as [Hx|Hx].
  - assert (G := asc_nth _ 2 3 Hx ltac:(lia) ltac:(cbn; lia)). cbn in G. lia.
  - assert (G := asc_nth _ 0 1 Hx ltac:(lia) ltac:(cbn; lia)). cbn in G. lia.
Qed.
Print Assumptions C149_single_refuted.

(** *** an interpolator with these properties: the value of the node below *)
Fixpoint ascb (l : list Z) : bool := match l with [] => true | x :: r => forallb (Z.ltb x) r && ascb r end.
Fixpoint insideb (axes : list (list Z)) (k : list Z) : bool :=
  match axes, k with
  | [], [] => true
  | a :: r, z :: k' => existsb (fun lo => Z.leb lo z) a && existsb (fun hi => Z.leb z hi) a && insideb r k'
  | _, _ => false
  end.
Fixpoint below (axes : list (list Z)) (k : list Z) : list nat :=
  match axes, k with a :: r, z :: k' => pred (length (filter (fun x => Z.leb x z) a)) :: below r k' | _, _ => [] end.
Definition floor_interp (axes : list (list Z)) (v : list nat -> R) (k : zvec) : option R :=
  if forallb ascb axes && insideb axes k then Some (v (below axes k)) else None.

Lemma ascb_spec l : ascb l = true <-> ascending l.
Proof.
  induction l as [|x r IH]; cbn [ascb]; [split; [constructor|reflexivity]|]. rewrite andb_true_iff, IH, forallb_forall. split.
  - intros [A B]. constructor; [exact B|]. rewrite Forall_forall. intros y Hy. apply Z.ltb_lt, A, Hy.
  - intros H. inversion H as [|? ? A B]; subst. split; [|exact A]. rewrite Forall_forall in B. intros y Hy. apply Z.ltb_lt, B, Hy.
Qed.
Lemma insideb_spec axes k : insideb axes k = true <-> inside axes k.
Proof.
  revert k. induction axes as [|a r IH]; intros [|z k]; cbn [insideb].
  - split; [constructor|reflexivity].
  - split; [discriminate|]. intros H. inversion H.
  - split; [discriminate|]. intros H. inversion H.
  - rewrite !andb_true_iff, !existsb_exists, IH. split.
    + intros [[(lo & A & B) (hi & C & D)] E]. constructor; [|exact E]. exists lo, hi. rewrite Z.leb_le in B, D. auto.
    + intros H. inversion H as [|? ? ? ? (lo & hi & A & B & C) E]; subst. split; [|exact E]. split; [exists lo|exists hi]; (split; [assumption|apply Z.leb_le; lia]).
Qed.
Lemma below_node axes idx : Forall ascending axes -> idx_ok axes idx -> below axes (node axes idx) = idx.
Proof.
  intros Ha OK. induction OK as [|a i axes idx Hi OK IH]; [reflexivity|]. inversion Ha as [|? ? A B]; subst. cbn [node below].
  rewrite IH by exact B. f_equal. clear -Hi A. revert i Hi. induction A as [|x a Hs IH Hx]; intros i Hi; [cbn in Hi; lia|].
  destruct i as [|i]; cbn [nth filter].
  - rewrite Z.leb_refl. cbn [length pred]. rewrite Forall_forall in Hx.
    assert (E : filter (fun y => Z.leb y x) a = []).
    { clear -Hx. induction a as [|y a IH]; [reflexivity|]. cbn [filter]. destruct (Z.leb_spec y x); [specialize (Hx y (or_introl eq_refl)); lia|].
      apply IH. intros z Hz. apply Hx. right. exact Hz. }
    rewrite E. reflexivity.
  - cbn [length] in Hi. assert (Hi' : i < length a) by lia. rewrite Forall_forall in Hx. assert (Hn := Hx _ (nth_In a 0%Z Hi')).
    destruct (Z.leb_spec x (nth i a 0%Z)); [|lia]. cbn [length pred]. specialize (IH i Hi').
    assert (In (nth i a 0%Z) (filter (fun y => Z.leb y (nth i a 0%Z)) a)) by (apply filter_In; split; [apply nth_In, Hi'|apply Z.leb_refl]).
    destruct (filter (fun y => Z.leb y (nth i a 0%Z)) a); [contradiction|]. cbn [length pred] in *. lia.
Qed.
Lemma floor_spec : interp_spec floor_interp.
Proof.
  assert (FA : forall axes, forallb ascb axes = true <-> Forall ascending axes).
  { intros axes. rewrite forallb_forall, Forall_forall. split; intros H a Ha; apply ascb_spec, H, Ha. }
  unfold floor_interp. split; [|split; [|split]].
  - intros axes v k Ha Hk. rewrite (proj2 (FA axes) Ha), (proj2 (insideb_spec axes k) Hk). discriminate.
  - intros axes v idx Ha OK. rewrite (proj2 (FA axes) Ha), below_node by assumption.
    replace (insideb axes (node axes idx)) with true; [reflexivity|]. symmetry. apply insideb_spec. clear -OK.
    induction OK as [|a i axes idx Hi OK IH]; constructor; [|exact IH]. exists (nth i a 0%Z), (nth i a 0%Z).
    assert (In (nth i a 0%Z) a) by (apply nth_In, Hi). split; [assumption|]. split; [assumption|lia].
  - intros axes v k H. destruct (forallb ascb axes) eqn:E; [|reflexivity]. exfalso. apply H. apply FA in E. revert E. apply Forall_impl. auto.
  - intros axes v k H. destruct (insideb axes k) eqn:E; [|rewrite andb_false_r; reflexivity]. exfalso. apply H, insideb_spec, E.
Qed.

(** a 3 x 2 grid in units of 1/6, samples in a mixed order *)
Example C149_ex : cell_grid 6 [[-3;-1;1];[-2;2]]%Z /\
  Permutation [[1;2];[-3;-2];[-1;2];[1;-2];[-3;2];[-1;-2]]%Z (prodl [[-3;-1;1];[-2;2]]%Z) /\
  (exists f, interpolate floor_interp None 6 true [3;2] [[1;2];[-3;-2];[-1;2];[1;-2];[-3;2];[-1;-2]]%Z [10;20;30;40;50;60]%R = Some f /\
     f [7;-4]%Z = Some 10%R /\ f [2;0]%Z = Some 40%R /\ f [3;3]%Z = Some 50%R).
Proof.
  split; [|split].
  - split; [cbn; lia|]. split.
    + constructor; [|constructor; [|constructor]]; unfold ascending; repeat (constructor; [|repeat (constructor; [lia|]); constructor]); constructor.
    + repeat (constructor; [split; [cbn; lia|intros z Hz; cbn [In] in Hz; lia]|]). constructor.
  - cbn. apply NoDup_Permutation; [repeat (constructor; [intros F; cbn [In] in F; intuition discriminate|]); constructor
      |repeat (constructor; [intros F; cbn [In] in F; intuition discriminate|]); constructor|]. intros x. cbn [In]. tauto.
  - eexists. split; [reflexivity|]. split; [reflexivity|]. split; reflexivity.
Qed.

(** the line with its inversion, in units of 1/4: the single sample 1/4 fills the grid -1/4, 1/4 *)
Example C149_sym_ex : exists g, sym_o1 true = Some g /\ is_group (zmul (sdim g)) (zeye (sdim g)) (sym_all g) /\ sdim g = 1 /\
  cell_grid 4 [[-1;1]%Z] /\
  (forall x, length x = 1 -> in_cell 4 x -> (In x (prodl [[-1;1]%Z]) <-> exists i, sources g 4 true [[1%Z]] x i)) /\
  (exists f, interpolate floor_interp (Some g) 4 true [2] [[1%Z]] [7%R] = Some f /\ f [-1]%Z = Some (mean_at [7%R] [0])).
Proof.
  destruct named_groups as (_ & (g & E & Ed & HG & _) & _). exists g. split; [exact E|]. split; [rewrite Ed; exact HG|]. split; [exact Ed|].
  clear HG Ed. vm_compute in E. injection E as <-. split; [|split].
  - split; [cbn; lia|]. split; (constructor; [|constructor]).
    + unfold ascending; repeat (constructor; [|repeat (constructor; [lia|]); constructor]); constructor.
    + split; [cbn; lia|intros z Hz; cbn [In] in Hz; lia].
  - intros x Lx Cx. cbn [prodl flat_map map app In]. split.
    + intros [<-|[<-|[]]]; exists 0, [1%Z].
      * exists [[-1]]%Z. split; [reflexivity|]. split; [vm_compute; tauto|]. apply same_refl.
      * exists [[1]]%Z. split; [reflexivity|]. split; [vm_compute; tauto|]. apply same_refl.
    + intros (i & k & s & E1 & E2 & E3). destruct i as [|[|i]]; try discriminate. injection E1 as <-.
      assert (H : s = [[1]]%Z \/ s = [[-1]]%Z).
      { vm_compute in E2. destruct E2 as [<-|[<-|[]]]; auto. }
      assert (Cy : in_cell 4 (zmv 1 s [1%Z])) by (destruct H as [-> | ->]; intros z Hz; vm_compute in Hz; destruct Hz as [<-|[]]; lia).
      assert (Ex : x = zmv 1 s [1%Z]) by (apply (same_cell 4 true); auto; lia).
      destruct H as [-> | ->]; vm_compute in Ex; rewrite Ex; auto.
  - eexists. split; [vm_compute; reflexivity|]. reflexivity.
Qed.

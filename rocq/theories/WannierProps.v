(** Property C36: Wannier90 import (wannier90_tb_format.py). *)
From Coq Require Import List Arith ZArith Reals Lra Lia Bool Permutation.
Import ListNotations.
From Verif Require Import SRing LMat FMat CplxR SymModel SymInitProofs SymEqProofs FinGroup HamModel HamProofs FourierModel NbrModel NbrProps
  SupercellModel FormatModel FormatProps.
Local Open Scope nat_scope.

Section Spec.
Variables V W : Type.
Variable n : nat.
(** ** specification *)
(** the positions of a tb file in order *)
Definition positions (ls : list (tbline V W)) : list zvec := flat_map (fun l => match l with LPos r => [r] | _ => [] end) ls.
(** the position of the block a line belongs to *)
Fixpoint block_of (cur : option zvec) (ls : list (tbline V W)) : option zvec :=
  match ls with [] => cur | LPos r :: ls' => block_of (Some r) ls' | _ :: ls' => block_of cur ls' end.
(** the values a tb file gives, with the position of their block, in order *)
Fixpoint h_entries (cur : option zvec) (ls : list (tbline V W)) : list (zvec * (Z * Z * V)) :=
  match ls with
  | [] => []
  | LPos r :: ls' => h_entries (Some r) ls'
  | LEnt i j v :: ls' => match cur with Some r => [(r, (i, j, v))] | None => [] end ++ h_entries cur ls'
  | _ :: ls' => h_entries cur ls'
  end.
Fixpoint r_entries (cur : option zvec) (ls : list (tbline V W)) : list (zvec * (Z * Z * W)) :=
  match ls with
  | [] => []
  | LPos r :: ls' => r_entries (Some r) ls'
  | LREnt i j w :: ls' => match cur with Some r => [(r, (i, j, w))] | None => [] end ++ r_entries cur ls'
  | _ :: ls' => r_entries cur ls'
  end.
(** r comes first among r, -r *)
Definition first_signed (r : zvec) (l : list zvec) : Prop := exists pre post, l = pre ++ r :: post /\ ~ In r pre /\ ~ In (zvneg n r) pre.
(** the entry is the last value given, or the default *)
Definition is_given {A} (es : list (zvec * (Z * Z * A))) (d0 : A) (r : zvec) (i j : Z) (v : A) : Prop :=
  (exists pre post, es = pre ++ (r, (i, j, v)) :: post /\ forall v', ~ In (r, (i, j, v')) post) \/
  ((forall v', ~ In (r, (i, j, v')) es) /\ v = d0).
(** every matrix line addresses an entry, no line is malformed, all positions have n components *)
Definition valid_line (bands : nat) (l : tbline V W) : Prop :=
  match l with
  | LPos r => wfv (K:=Zs) n r
  | LEnt i j _ => (1 <= i <= Z.of_nat bands)%Z /\ (1 <= j <= Z.of_nat bands)%Z
  | LREnt i j _ => (1 <= i <= Z.of_nat bands)%Z /\ (1 <= j <= Z.of_nat bands)%Z
  | LBlank => True
  | LBad => False
  end.
End Spec.
Arguments positions {V W}. Arguments block_of {V W}. Arguments h_entries {V W}. Arguments r_entries {V W}. Arguments valid_line {V W}.

(** ** lemmas *)
Section Proofs.
Variables V W : Type.
Variables (v0 : V) (w0 : W).
Variables (n bands : nat).
Notation tb := (tbline V W).
Implicit Types (ls : list tb).

(** last value, as a function *)
Fixpoint lastv {A} (d0 : A) (es : list (zvec * (Z * Z * A))) (r : zvec) (i j : Z) : A :=
  match es with
  | [] => d0
  | (r', (i', j', v)) :: es' => lastv (if zveqb r r' && Z.eqb i i' && Z.eqb j j' then v else d0) es' r i j
  end.
Lemma lastv_app {A} (d0 : A) e1 e2 r i j : lastv d0 (e1 ++ e2) r i j = lastv (lastv d0 e1 r i j) e2 r i j.
Proof. revert d0; induction e1 as [|[r' [[i' j'] v]] e1 IH]; intros d0; [reflexivity|]. cbn [app lastv]. apply IH. Qed.
Lemma lastv_none {A} (d0 : A) es r i j : (forall v, ~ In (r, (i, j, v)) es) -> lastv d0 es r i j = d0.
Proof.
  revert d0; induction es as [|[r' [[i' j'] v]] es IH]; intros d0 H; [reflexivity|]. cbn [lastv].
  destruct (zveqb r r' && Z.eqb i i' && Z.eqb j j') eqn:E.
  - exfalso. apply andb_true_iff in E. destruct E as [E E3]. apply andb_true_iff in E. destruct E as [E1 E2].
    apply zveqb_spec in E1. apply Z.eqb_eq in E2. apply Z.eqb_eq in E3. subst. apply (H v). left; reflexivity.
  - apply IH. intros v' Hv'. apply (H v'). right; exact Hv'.
Qed.
Lemma lastv_given {A} (d0 : A) es r i j : is_given es d0 r i j (lastv d0 es r i j).
Proof.
  unfold is_given. revert d0; induction es as [|[r' [[i' j'] v]] es IH] using rev_ind; intros d0; [right; split; [intros v' []|reflexivity]|].
  rewrite lastv_app. cbn [lastv]. destruct (zveqb r r' && Z.eqb i i' && Z.eqb j j') eqn:E.
  - apply andb_true_iff in E. destruct E as [E E3]. apply andb_true_iff in E. destruct E as [E1 E2].
    apply zveqb_spec in E1. apply Z.eqb_eq in E2. apply Z.eqb_eq in E3. subst. left. exists es, []. split; [reflexivity|intros v' []].
  - assert (Hx : forall v', (r, (i, j, v')) <> (r', (i', j', v))).
    { intros v' Ev. injection Ev as -> -> -> ->. rewrite !Z.eqb_refl in E. assert (Er : zveqb r' r' = true) by (apply zveqb_spec; reflexivity).
      rewrite Er in E. discriminate E. }
    destruct (IH d0) as [(pre & post & Ees & Hp)|[H1 H2]].
    + left. exists pre, (post ++ [(r', (i', j', v))]). split; [rewrite Ees at 1; rewrite <- app_assoc; reflexivity|].
      intros v' Hv'. apply in_app_iff in Hv'. destruct Hv' as [Hv'|[Hv'|[]]]; [exact (Hp v' Hv')|]. apply (Hx v'). symmetry; exact Hv'.
    + right. split; [|exact H2]. intros v' Hv'. apply in_app_iff in Hv'. destruct Hv' as [Hv'|[Hv'|[]]]; [exact (H1 v' Hv')|].
      apply (Hx v'). symmetry; exact Hv'.
Qed.

Lemma first_signed_in r l : first_signed n r l -> In r l.
Proof. intros (pre & post & -> & _). apply in_app_iff. right; left; reflexivity. Qed.
Lemma first_signed_cover r l : (forall x : zvec, In x l -> wfv (K:=Zs) n x) -> In r l -> first_signed n r l \/ first_signed n (zvneg n r) l.
Proof.
  revert r; induction l as [|x l IH] using rev_ind; intros r Hw Hin; [destruct Hin|].
  assert (Hw' : forall x, In x l -> wfv (K:=Zs) n x) by (intros; apply Hw; apply in_app_iff; left; assumption).
  assert (Hext : forall r, first_signed n r l -> first_signed n r (l ++ [x])).
  { intros r0 (pre & post & -> & H). exists pre, (post ++ [x]). split; [rewrite <- app_assoc; reflexivity|exact H]. }
  assert (Hrw : wfv (K:=Zs) n r) by (apply Hw; exact Hin).
  destruct (in_dec (list_eq_dec Z.eq_dec) r l) as [Hl|Hl].
  { destruct (IH r Hw' Hl) as [H|H]; [left|right]; apply Hext; exact H. }
  apply in_app_iff in Hin. destruct Hin as [Hin|[<-|[]]]; [contradiction|].
  destruct (in_dec (list_eq_dec Z.eq_dec) (zvneg n x) l) as [Hn|Hn].
  - destruct (IH _ Hw' Hn) as [H|H]; [right; apply Hext; exact H|]. rewrite zvneg_invol in H by exact Hrw. exfalso. apply Hl. apply first_signed_in; exact H.
  - left. exists l, []. auto.
Qed.
(** what the first signs are after one more position *)
Lemma first_signed_snoc r x l : first_signed n r (l ++ [x]) <-> first_signed n r l \/ (r = x /\ ~ In r l /\ ~ In (zvneg n r) l).
Proof.
  split.
  - intros (pre & post & E & H1 & H2). destruct post as [|p post] using rev_ind.
    + apply app_inj_tail in E. destruct E as [-> ->]. right. auto.
    + clear IHpost. rewrite app_comm_cons, app_assoc in E. apply app_inj_tail in E. destruct E as [-> ->]. left. exists pre, post. auto.
  - intros [(pre & post & -> & H)|(-> & H)]; [exists pre, (post ++ [x]); split; [rewrite <- app_assoc; reflexivity|exact H]|].
    exists l, []. split; [reflexivity|exact H].
Qed.

Lemma positions_app l1 l2 : positions (l1 ++ l2) = positions (V:=V) (W:=W) l1 ++ positions l2.
Proof. apply flat_map_app. Qed.
Lemma block_app c l1 l2 : block_of (V:=V) (W:=W) c (l1 ++ l2) = block_of (block_of c l1) l2.
Proof. revert c; induction l1 as [|[] l1 IH]; intros c; cbn [app block_of]; auto. Qed.
Lemma h_entries_app c l1 l2 : h_entries (V:=V) (W:=W) c (l1 ++ l2) = h_entries c l1 ++ h_entries (block_of c l1) l2.
Proof. revert c; induction l1 as [|[] l1 IH]; intros c; cbn [app h_entries block_of]; auto. rewrite IH, app_assoc. reflexivity. Qed.
Lemma r_entries_app c l1 l2 : r_entries (V:=V) (W:=W) c (l1 ++ l2) = r_entries c l1 ++ r_entries (block_of c l1) l2.
Proof. revert c; induction l1 as [|[] l1 IH]; intros c; cbn [app r_entries block_of]; auto. rewrite IH, app_assoc. reflexivity. Qed.
Lemma block_in ls r : block_of None ls = Some r -> In r (positions ls).
Proof.
  induction ls as [|l ls IH] using rev_ind; [discriminate|]. rewrite block_app, positions_app, in_app_iff.
  destruct l; cbn [block_of]; intros E; auto. injection E as ->. right; left; reflexivity.
Qed.
Lemma h_entries_pos ls r e : In (r, e) (h_entries None ls) -> In r (positions ls).
Proof.
  induction ls as [|l ls IH] using rev_ind; [intros []|]. rewrite h_entries_app, positions_app, !in_app_iff. intros [H|H]; [auto|].
  destruct l; cbn [h_entries] in H; try destruct H. destruct (block_of None ls) as [r0|] eqn:E; [|destruct H].
  destruct H as [H|[]]. injection H as -> _. left. apply block_in; exact E.
Qed.
Lemma r_entries_pos ls r e : In (r, e) (r_entries None ls) -> In r (positions ls).
Proof.
  induction ls as [|l ls IH] using rev_ind; [intros []|]. rewrite r_entries_app, positions_app, !in_app_iff. intros [H|H]; [auto|].
  destruct l; cbn [r_entries] in H; try destruct H. destruct (block_of None ls) as [r0|] eqn:E; [|destruct H].
  destruct H as [H|[]]. injection H as -> _. left. apply block_in; exact E.
Qed.

Lemma upd_length {A} k (f : A -> A) l : length (upd k f l) = length l.
Proof. revert k; induction l as [|a l IH]; intros [|k]; cbn; auto. Qed.
Lemma nth_upd {A} k (f : A -> A) l i d0 : k < length l -> nth i (upd k f l) d0 = if Nat.eqb i k then f (nth i l d0) else nth i l d0.
Proof.
  revert k i; induction l as [|a l IH]; intros [|k] [|i] H; cbn [length] in H; try lia; try reflexivity.
  cbn [upd nth]. rewrite IH by lia. reflexivity.
Qed.
Lemma pyidx_in i : (1 <= i <= Z.of_nat bands)%Z -> pyidx bands (i - 1) = Some (Z.to_nat (i - 1)).
Proof.
  intros H. unfold pyidx. assert (E : ((0 <=? i - 1) && (i - 1 <? Z.of_nat bands))%Z = true) by (apply andb_true_iff; rewrite Z.leb_le, Z.ltb_lt; lia).
  rewrite E. reflexivity.
Qed.
Lemma find_idx_nth r l : match find_idx (zveqb r) l with
  | Some k => nth_error l k = Some r | None => ~ In r l end.
Proof.
  induction l as [|a l IH]; cbn [find_idx]; [intros []|]. destruct (zveqb r a) eqn:E.
  - apply zveqb_spec in E. subst. reflexivity.
  - destruct (find_idx (zveqb r) l); cbn [option_map]; [exact IH|]. intros [->|H]; [|exact (IH H)].
    assert (zveqb r r = true) by (apply zveqb_spec; reflexivity). congruence.
Qed.

Record winv ls (s : wst V W) : Prop := {
  wi_nd : NoDup (wnb V W s);
  wi_in : forall r, In r (wnb V W s) <-> first_signed n r (positions ls);
  wi_lp : length (wP V W s) = length (wnb V W s);
  wi_lr : length (wR V W s) = length (wnb V W s);
  wi_cur : match wcur V W s with
           | Some k => exists r, block_of None ls = Some r /\ nth_error (wnb V W s) k = Some r
           | None => forall r, block_of None ls = Some r -> ~ In r (wnb V W s)
           end;
  wi_p : forall k r i j, nth_error (wnb V W s) k = Some r -> (1 <= i <= Z.of_nat bands)%Z -> (1 <= j <= Z.of_nat bands)%Z ->
    nth k (wP V W s) (fun _ _ => v0) (Z.to_nat (i - 1)) (Z.to_nat (j - 1)) = lastv v0 (h_entries None ls) r i j;
  wi_r : forall k r i j, nth_error (wnb V W s) k = Some r -> (1 <= i <= Z.of_nat bands)%Z -> (1 <= j <= Z.of_nat bands)%Z ->
    nth k (wR V W s) (fun _ _ => w0) (Z.to_nat (i - 1)) (Z.to_nat (j - 1)) = lastv w0 (r_entries None ls) r i j }.

Lemma w_lines_snoc s ls l : w_lines V W v0 w0 n bands s (ls ++ [l]) =
  match w_lines V W v0 w0 n bands s ls with WOk s' => w_line V W v0 w0 n bands s' l | e => e end.
Proof.
  revert s; induction ls as [|x ls IH]; intros s; cbn [app w_lines].
  - destruct (w_line V W v0 w0 n bands s l); reflexivity.
  - destruct (w_line V W v0 w0 n bands s x); auto.
Qed.

Lemma eqb_off i i' : (1 <= i)%Z -> (1 <= i')%Z -> Nat.eqb (Z.to_nat (i - 1)) (Z.to_nat (i' - 1)) = Z.eqb i i'.
Proof. intros H H'. apply eq_true_iff_eq. rewrite Nat.eqb_eq, Z.eqb_eq. lia. Qed.
Lemma wset_lastv {A} (m : wmat A) (d0 : A) es r i j i' j' v : (1 <= i)%Z -> (1 <= i')%Z -> (1 <= j)%Z -> (1 <= j')%Z ->
  m (Z.to_nat (i - 1)) (Z.to_nat (j - 1)) = lastv d0 es r i j ->
  wset m (Z.to_nat (i' - 1)) (Z.to_nat (j' - 1)) v (Z.to_nat (i - 1)) (Z.to_nat (j - 1)) = lastv d0 (es ++ [(r, (i', j', v))]) r i j.
Proof.
  intros. rewrite lastv_app. cbn [lastv]. unfold wset. rewrite !eqb_off by assumption.
  assert (E : zveqb r r = true) by (apply zveqb_spec; reflexivity). rewrite E. cbn [andb]. destruct (_ && _); [reflexivity|assumption].
Qed.
Lemma lastv_other {A} (d0 : A) es r r' e i j : r <> r' -> lastv d0 (es ++ [(r', e)]) r i j = lastv d0 es r i j.
Proof.
  intros Hne. rewrite lastv_app. destruct e as [[i' j'] v]. cbn [lastv].
  destruct (zveqb r r') eqn:E; [apply zveqb_spec in E; contradiction|reflexivity].
Qed.

Lemma w_step ls s l : (forall x, In x (ls ++ [l]) -> valid_line n bands x) -> winv ls s ->
  exists s', w_line V W v0 w0 n bands s l = WOk s' /\ winv (ls ++ [l]) s'.
Proof.
  intros Hv I. assert (Hl : valid_line n bands l) by (apply Hv; apply in_app_iff; right; left; reflexivity).
  assert (Hw : forall x, In x (positions ls) -> wfv (K:=Zs) n x).
  { intros x Hx. unfold positions in Hx. apply in_flat_map in Hx. destruct Hx as (y & Hy & Hx).
    assert (Hvy : valid_line n bands y) by (apply Hv; apply in_app_iff; left; exact Hy). destruct y; cbn in Hx; try contradiction.
    destruct Hx as [<-|[]]. exact Hvy. }
  destruct I as [Ind Iin Ilp Ilr Icur Ip Ir].
  assert (Hk : forall k r, nth_error (wnb V W s) k = Some r -> k < length (wnb V W s)) by (intros k r Hk; apply nth_error_Some; congruence).
  assert (Huniq : forall k k' r, nth_error (wnb V W s) k = Some r -> nth_error (wnb V W s) k' = Some r -> k = k').
  { intros k k' r H1 H2. rewrite NoDup_nth_error in Ind. apply Ind; [eapply Hk; exact H1|congruence]. }
  destruct l as [r|i j v|i j w| |]; cbn [valid_line] in Hl; cbn [w_line].
  - (* a position *)
    eexists. split; [reflexivity|]. unfold w_pos. pose proof (find_idx_nth r (wnb V W s)) as Hf.
    destruct (find_idx (zveqb r) (wnb V W s)) as [k|].
    + assert (Hr : In r (positions ls)) by (apply first_signed_in; apply Iin; eapply nth_error_In; exact Hf).
      constructor; cbn [wnb wP wR wcur]; rewrite ?positions_app, ?block_app, ?h_entries_app, ?r_entries_app; cbn [positions flat_map block_of h_entries r_entries app];
        rewrite ?app_nil_r; try assumption.
      * intros r'. rewrite Iin, first_signed_snoc. split; [auto|]. intros [H|(-> & H & _)]; [exact H|contradiction].
      * exists r. auto.
    + destruct (negb (zveqb r (zvneg n r)) && memb zveqb (zvneg n r) (wnb V W s)) eqn:E.
      * apply andb_true_iff in E. destruct E as [_ E]. unfold memb in E. apply existsb_exists in E. destruct E as (x & Hx & E).
        apply zveqb_spec in E. subst x.
        assert (Hr : In (zvneg n r) (positions ls)) by (apply first_signed_in; apply Iin; exact Hx).
        constructor; cbn [wnb wP wR wcur]; rewrite ?positions_app, ?block_app, ?h_entries_app, ?r_entries_app; cbn [positions flat_map block_of h_entries r_entries app];
          rewrite ?app_nil_r; try assumption.
        -- intros r'. rewrite Iin, first_signed_snoc. split; [auto|]. intros [H|(-> & _ & H)]; [exact H|contradiction].
        -- intros r' Er. injection Er as <-. exact Hf.
      * assert (Hneg : In (zvneg n r) (wnb V W s) -> r = zvneg n r).
        { intros Hin. destruct (zveqb r (zvneg n r)) eqn:Ez; [apply zveqb_spec; exact Ez|]. cbn [negb andb] in E.
          exfalso. assert (Em : memb zveqb (zvneg n r) (wnb V W s) = true); [|congruence]. unfold memb. apply existsb_exists. exists (zvneg n r).
          split; [exact Hin|apply zveqb_spec; reflexivity]. }
        assert (H1 : ~ first_signed n r (positions ls)) by (intros H; apply Hf; apply Iin; exact H).
        assert (H2 : ~ first_signed n (zvneg n r) (positions ls)).
        { intros H. apply Iin in H. pose proof (Hneg H) as E0. rewrite <- E0 in H. exact (Hf H). }
        assert (Hrp : ~ In r (positions ls)) by (intros H; destruct (first_signed_cover r _ Hw H); [apply H1|apply H2]; assumption).
        assert (Hnp : ~ In (zvneg n r) (positions ls)).
        { intros H. destruct (first_signed_cover (zvneg n r) _ Hw H) as [H'|H']; [apply H2; exact H'|]. rewrite zvneg_invol in H' by exact Hl. exact (H1 H'). }
        constructor; cbn [wnb wP wR wcur]; rewrite ?positions_app, ?block_app, ?h_entries_app, ?r_entries_app; cbn [positions flat_map block_of h_entries r_entries app];
          rewrite ?app_nil_r.
        -- apply NoDup_app_iff. repeat split; [exact Ind|repeat constructor; intros []|]. intros x Hx [<-|[]]. exact (Hf Hx).
        -- intros r'. rewrite in_app_iff, Iin, first_signed_snoc. split.
           ++ intros [H|[<-|[]]]; auto.
           ++ intros [H|(-> & _)]; [auto|right; left; reflexivity].
        -- rewrite !app_length, Ilp. reflexivity.
        -- rewrite !app_length, Ilr. reflexivity.
        -- exists r. split; [reflexivity|]. rewrite nth_error_app2 by lia. rewrite Nat.sub_diag. reflexivity.
        -- intros k r' i j Hkk Hi Hj. destruct (Nat.lt_ge_cases k (length (wnb V W s))) as [Hlt|Hge].
           ++ rewrite nth_error_app1 in Hkk by exact Hlt. rewrite app_nth1 by lia. apply Ip; assumption.
           ++ rewrite nth_error_app2 in Hkk by exact Hge. rewrite app_nth2 by lia. rewrite Ilp.
              destruct (k - length (wnb V W s)) as [|[|?]]; cbn in Hkk; try discriminate Hkk. injection Hkk as <-. cbn [nth]. symmetry.
              apply lastv_none. intros v Hv'. apply Hrp. eapply h_entries_pos; exact Hv'.
        -- intros k r' i j Hkk Hi Hj. destruct (Nat.lt_ge_cases k (length (wnb V W s))) as [Hlt|Hge].
           ++ rewrite nth_error_app1 in Hkk by exact Hlt. rewrite app_nth1 by lia. apply Ir; assumption.
           ++ rewrite nth_error_app2 in Hkk by exact Hge. rewrite app_nth2 by lia. rewrite Ilr.
              destruct (k - length (wnb V W s)) as [|[|?]]; cbn in Hkk; try discriminate Hkk. injection Hkk as <-. cbn [nth]. symmetry.
              apply lastv_none. intros v Hv'. apply Hrp. eapply r_entries_pos; exact Hv'.
  - (* a matrix entry *)
    destruct Hl as [Hi Hj]. destruct (wcur V W s) as [k|] eqn:Ec.
    + rewrite !pyidx_in by assumption. eexists. split; [reflexivity|]. destruct Icur as (r0 & Hb & Hk0).
      constructor; cbn [wnb wP wR wcur]; rewrite ?positions_app, ?block_app, ?h_entries_app, ?r_entries_app; cbn [positions flat_map block_of h_entries r_entries app];
        rewrite ?app_nil_r, ?Ec; try assumption.
      * rewrite upd_length. exact Ilp.
      * exists r0; auto.
      * rewrite Hb. intros k' r' i' j' Hk' Hi' Hj'. pose proof (Hk _ _ Hk0) as Hlt. rewrite nth_upd by lia.
        destruct (Nat.eqb_spec k' k) as [->|Hne].
        -- assert (r' = r0) by congruence. subst r'. apply wset_lastv; try lia. apply Ip; assumption.
        -- rewrite lastv_other; [apply Ip; assumption|]. intros ->. apply Hne. eapply Huniq; eassumption.
    + eexists. split; [reflexivity|]. constructor; rewrite ?positions_app, ?block_app, ?h_entries_app, ?r_entries_app;
        cbn [positions flat_map block_of h_entries r_entries app]; rewrite ?app_nil_r, ?Ec; try assumption.
      destruct (block_of None ls) as [r0|]; [|rewrite app_nil_r; exact Ip]. intros k' r' i' j' Hk' Hi' Hj'.
      rewrite lastv_other; [apply Ip; assumption|]. intros ->. apply (Icur r0 eq_refl). eapply nth_error_In; exact Hk'.
  - (* an r entry *)
    destruct Hl as [Hi Hj]. destruct (wcur V W s) as [k|] eqn:Ec.
    + rewrite !pyidx_in by assumption. eexists. split; [reflexivity|]. destruct Icur as (r0 & Hb & Hk0).
      constructor; cbn [wnb wP wR wcur]; rewrite ?positions_app, ?block_app, ?h_entries_app, ?r_entries_app; cbn [positions flat_map block_of h_entries r_entries app];
        rewrite ?app_nil_r, ?Ec; try assumption.
      * rewrite upd_length. exact Ilr.
      * exists r0; auto.
      * rewrite Hb. intros k' r' i' j' Hk' Hi' Hj'. pose proof (Hk _ _ Hk0) as Hlt. rewrite nth_upd by lia.
        destruct (Nat.eqb_spec k' k) as [->|Hne].
        -- assert (r' = r0) by congruence. subst r'. apply wset_lastv; try lia. apply Ir; assumption.
        -- rewrite lastv_other; [apply Ir; assumption|]. intros ->. apply Hne. eapply Huniq; eassumption.
    + eexists. split; [reflexivity|]. constructor; rewrite ?positions_app, ?block_app, ?h_entries_app, ?r_entries_app;
        cbn [positions flat_map block_of h_entries r_entries app]; rewrite ?app_nil_r, ?Ec; try assumption.
      destruct (block_of None ls) as [r0|]; [|rewrite app_nil_r; exact Ir]. intros k' r' i' j' Hk' Hi' Hj'.
      rewrite lastv_other; [apply Ir; assumption|]. intros ->. apply (Icur r0 eq_refl). eapply nth_error_In; exact Hk'.
  - eexists. split; [reflexivity|]. constructor; rewrite ?positions_app, ?block_app, ?h_entries_app, ?r_entries_app;
      cbn [positions flat_map block_of h_entries r_entries app]; rewrite ?app_nil_r; assumption.
  - destruct Hl.
Qed.

Lemma w_run ls : (forall x, In x ls -> valid_line n bands x) -> exists s, w_lines V W v0 w0 n bands (w_init V W) ls = WOk s /\ winv ls s.
Proof.
  induction ls as [|l ls IH] using rev_ind; intros Hv.
  - exists (w_init V W). split; [reflexivity|]. constructor; cbn; try reflexivity; [constructor| | | |].
    + intros r. split; [intros []|]. intros (pre & post & E & _). destruct pre; discriminate E.
    + discriminate.
    + intros [|k]; discriminate.
    + intros [|k]; discriminate.
  - destruct IH as (s & Es & I); [intros; apply Hv; apply in_app_iff; left; assumption|].
    rewrite w_lines_snoc, Es. apply w_step; assumption.
Qed.

(** ** hr files *)
Definition expand (l : hrline V) : list tb := match l with HEnt r i j v => [LPos r; LEnt i j v] | HBlank => [LBlank] | HBad => [LBad] end.
Definition same_lists (a b : wst V W) : Prop := wnb V W a = wnb V W b /\ wP V W a = wP V W b /\ wR V W a = wR V W b.
Lemma h_sim (ls : list (hrline V)) s t : same_lists s t -> match h_lines V W v0 w0 n bands s ls, w_lines V W v0 w0 n bands t (flat_map expand ls) with
  | WOk s', WOk t' => same_lists s' t' | WValueError, WValueError => True | WIndexError, WIndexError => True | _, _ => False end.
Proof.
  revert s t; induction ls as [|l ls IH]; intros s t H; [exact H|]. destruct l as [r i j v| |]; cbn [h_lines flat_map expand app w_lines h_line w_line].
  - destruct H as (H1 & H2 & H3). destruct s as [sn sp sr sc], t as [tn tp tr tc]. cbn [wnb wP wR wcur] in *. subst tn tp tr.
    unfold w_pos. cbn [wnb wP wR wcur]. destruct (find_idx (zveqb r) sn) as [k|]; cbn [wcur wnb wP wR].
    + destruct (pyidx bands (i - 1)); [|exact I]. destruct (pyidx bands (j - 1)); [|exact I]. apply IH. repeat split.
    + destruct (negb (zveqb r (zvneg n r)) && memb zveqb (zvneg n r) sn); cbn [wcur wnb wP wR].
      * apply IH. repeat split.
      * destruct (pyidx bands (i - 1)); [|exact I]. destruct (pyidx bands (j - 1)); [|exact I]. apply IH. repeat split.
  - apply IH. exact H.
  - exact I.
Qed.
End Proofs.

Lemma nth_error_lt {A} (l : list A) k x : nth_error l k = Some x -> k < length l.
Proof. intros H. apply nth_error_Some. congruence. Qed.

(** ** C36 *)
(** what [load_tb] returns: [raw] are the stored neighbors before sorting *)
Theorem C36_load_tb V W (v0 : V) (w0 : W) n bands (ls : list (tbline V W)) : (forall x, In x ls -> valid_line n bands x) ->
  exists raw : list zvec, NoDup raw /\ (forall r, In r raw <-> first_signed n r (positions ls)) /\
  (forall r, In r (positions ls) -> In r raw \/ In (zvneg n r) raw) /\ (forall r, In r raw -> In (zvneg n r) raw -> r = zvneg n r) /\
  forall order, argsort_of (map (fun r => vnorm n (zr r)) raw) order ->
  exists nbs P R, tb_body V W v0 w0 n bands order ls = Some (nbs, P, R) /\ Permutation nbs raw /\ sorted_by (fun r => vnorm n (zr r)) [] nbs /\
    length P = length nbs /\ length R = length nbs /\
    forall k r i j, nth_error nbs k = Some r -> (1 <= i <= Z.of_nat bands)%Z -> (1 <= j <= Z.of_nat bands)%Z ->
      is_given (h_entries None ls) v0 r i j (nth k P (fun _ _ => v0) (Z.to_nat (i - 1)) (Z.to_nat (j - 1))) /\
      is_given (r_entries None ls) w0 r i j (nth k R (fun _ _ => w0) (Z.to_nat (i - 1)) (Z.to_nat (j - 1))).
Proof.
  intros Hv. destruct (w_run V W v0 w0 n bands ls Hv) as (s & Es & [Ind Iin Ilp Ilr _ Ip Ir]).
  assert (Hw : forall x : zvec, In x (positions ls) -> wfv (K:=Zs) n x).
  { intros x Hx. unfold positions in Hx. apply in_flat_map in Hx. destruct Hx as (y & Hy & Hx).
    pose proof (Hv y Hy) as Hvy. destruct y; cbn in Hx; try contradiction. destruct Hx as [<-|[]]. exact Hvy. }
  exists (wnb V W s). split; [exact Ind|]. split; [exact Iin|]. split; [|split].
  - intros r Hr. rewrite !Iin. apply first_signed_cover; assumption.
  - intros r H1 H2. apply Iin in H1. apply Iin in H2. pose proof (Hw r (first_signed_in n r _ H1)) as Wr.
    destruct H1 as (p1 & q1 & E1 & A1 & B1). destruct H2 as (p2 & q2 & E2 & A2 & B2). rewrite zvneg_invol in B2 by exact Wr.
    rewrite E1 in E2. clear - A1 B1 A2 B2 E2. revert p2 E2 A2 B2. induction p1 as [|x p1 IH]; intros [|y p2] E A2 B2; cbn [app] in E.
    + injection E as E _. exact E.
    + injection E as E _. exfalso. apply B2. left; symmetry; exact E.
    + injection E as E _. exfalso. apply B1. left; exact E.
    + injection E as _ E. apply (IH (fun H => A1 (or_intror H)) (fun H => B1 (or_intror H)) p2 E (fun H => A2 (or_intror H)) (fun H => B2 (or_intror H))).
  - intros order Ho. unfold tb_body. rewrite Es. do 3 eexists. split; [reflexivity|].
    assert (Hp : Permutation order (seq 0 (length (wnb V W s)))) by (destruct Ho as [H _]; rewrite map_length in H; exact H).
    assert (Hlen : length order = length (wnb V W s)) by (rewrite (Permutation_length Hp); apply seq_length).
    split; [apply take_perm; exact Hp|]. split; [apply take_sorted; exact Ho|].
    rewrite !take_length. split; [reflexivity|]. split; [reflexivity|].
    intros k r i j Hk Hi Hj. assert (Hlt : k < length order).
    { pose proof (nth_error_lt _ _ _ Hk) as Hx. rewrite take_length in Hx. exact Hx. }
    rewrite !nth_take by exact Hlt.
    assert (Hkk : nth_error (wnb V W s) (nth k order 0) = Some r).
    { assert (Hin : nth k order 0 < length (wnb V W s)).
      { assert (Hx : In (nth k order 0) (seq 0 (length (wnb V W s)))) by (apply (Permutation_in _ Hp); apply nth_In; exact Hlt). apply in_seq in Hx. lia. }
      transitivity (Some (nth (nth k order 0) (wnb V W s) [])); [exact (nth_error_nth' _ [] Hin)|]. f_equal.
      transitivity (nth k (take_idx [] order (wnb V W s)) []); [symmetry; exact (nth_take [] order (wnb V W s) k Hlt)|]. exact (nth_error_nth _ _ [] Hk). }
    rewrite (Ip _ _ i j Hkk Hi Hj), (Ir _ _ i j Hkk Hi Hj). split; apply lastv_given.
Qed.
Print Assumptions C36_load_tb.

(** the same for [load_hr]: every line of the file carries its position *)
Definition hr_entries {V} (ls : list (hrline V)) : list (zvec * (Z * Z * V)) :=
  flat_map (fun l => match l with HEnt r i j v => [(r, (i, j, v))] | _ => [] end) ls.
Definition hr_valid {V} (n bands : nat) (l : hrline V) : Prop :=
  match l with HEnt r i j _ => wfv (K:=Zs) n r /\ (1 <= i <= Z.of_nat bands)%Z /\ (1 <= j <= Z.of_nat bands)%Z | HBlank => True | HBad => False end.
Lemma expand_entries V W c (ls : list (hrline V)) : h_entries c (flat_map (expand V W) ls) = hr_entries ls.
Proof.
  revert c; induction ls as [|l ls IH]; intros c; [reflexivity|]. unfold hr_entries in *. destruct l; cbn [flat_map expand app h_entries]; rewrite IH; reflexivity.
Qed.
Lemma expand_positions V W (ls : list (hrline V)) : positions (flat_map (expand V W) ls) = map fst (hr_entries ls).
Proof.
  induction ls as [|l ls IH]; [reflexivity|]. unfold positions, hr_entries in *. destruct l; cbn [flat_map expand app map fst]; rewrite IH; reflexivity.
Qed.
Theorem C36_load_hr V (v0 : V) n bands (ls : list (hrline V)) : (forall x, In x ls -> hr_valid n bands x) ->
  exists raw : list zvec, NoDup raw /\ (forall r, In r raw <-> first_signed n r (map fst (hr_entries ls))) /\
  (forall r, In r (map fst (hr_entries ls)) -> In r raw \/ In (zvneg n r) raw) /\ (forall r, In r raw -> In (zvneg n r) raw -> r = zvneg n r) /\
  forall order, argsort_of (map (fun r => vnorm n (zr r)) raw) order ->
  exists nbs P, hr_body V unit v0 tt n bands order ls = Some (nbs, P) /\ Permutation nbs raw /\ sorted_by (fun r => vnorm n (zr r)) [] nbs /\
    length P = length nbs /\
    forall k r i j, nth_error nbs k = Some r -> (1 <= i <= Z.of_nat bands)%Z -> (1 <= j <= Z.of_nat bands)%Z ->
      is_given (hr_entries ls) v0 r i j (nth k P (fun _ _ => v0) (Z.to_nat (i - 1)) (Z.to_nat (j - 1))).
Proof.
  intros Hv. assert (Hv' : forall x, In x (flat_map (expand V unit) ls) -> valid_line n bands x).
  { intros x Hx. apply in_flat_map in Hx. destruct Hx as (l & Hl & Hx). pose proof (Hv l Hl) as H. destruct l; cbn in Hx, H.
    - destruct H as (H1 & H2 & H3). destruct Hx as [<-|[<-|[]]]; cbn; auto.
    - destruct Hx as [<-|[]]. exact I.
    - destruct H. }
  destruct (C36_load_tb V unit v0 tt n bands _ Hv') as (raw & H1 & H2 & H3 & H4 & H5). rewrite expand_positions in H2, H3.
  exists raw. repeat (split; [assumption|]). intros order Ho. destruct (H5 order Ho) as (nbs & P & R & E & Hp & Hs & HlP & _ & HE).
  exists nbs, P. split; [|repeat (split; [assumption|])].
  - unfold hr_body. unfold tb_body in E. pose proof (h_sim V unit v0 tt n bands ls (w_init V unit) (w_init V unit) (conj eq_refl (conj eq_refl eq_refl))) as Hsim.
    destruct (h_lines V unit v0 tt n bands (w_init V unit) ls) as [s'| |]; destruct (w_lines V unit v0 tt n bands (w_init V unit) _) as [t'| |];
      try contradiction; try discriminate E. destruct Hsim as (S1 & S2 & _). injection E as <- <- _. rewrite S1, S2. reflexivity.
  - intros k r i j Hk Hi Hj. rewrite <- (expand_entries V unit None). apply (HE k r i j Hk Hi Hj).
Qed.
Print Assumptions C36_load_hr.

(** a malformed line makes both readers raise a ValueError *)
Theorem C36_bad_line V (v0 : V) n bands order (ls : list (hrline V)) : In HBad ls -> hr_body V unit v0 tt n bands order ls = None.
Proof.
  intros H. unfold hr_body. generalize (w_init V unit). induction ls as [|l ls IH]; [destruct H|]. intros s. cbn [h_lines].
  destruct H as [->|H]; [reflexivity|]. destruct (h_line V unit v0 tt n bands s l); [apply IH; exact H|reflexivity|reflexivity].
Qed.
Print Assumptions C36_bad_line.
(** the degeneracy list is read up to the line holding its last number and no further, whatever the line breaks; a line with
    too many numbers raises an AssertionError *)
Theorem C36_degeneracy count pre last rest : length (concat pre) < count ->
  (length (concat pre ++ last) = count -> hr_degeneracy count [] (pre ++ last :: rest) = DOk (concat pre ++ last) rest) /\
  (count < length (concat pre ++ last) -> hr_degeneracy count [] (pre ++ last :: rest) = DAssertionError).
Proof.
  assert (G : forall acc, length (acc ++ concat pre) < count ->
    hr_degeneracy count acc (pre ++ last :: rest) = hr_degeneracy count (acc ++ concat pre) (last :: rest)).
  { induction pre as [|l pre IH]; intros acc H; [cbn [concat app]; rewrite app_nil_r; reflexivity|].
    cbn [concat app] in *. cbn [hr_degeneracy]. rewrite app_assoc in H.
    destruct (Nat.leb_spec count (length (acc ++ l))) as [C|C]; [rewrite app_length in H; lia|].
    rewrite IH by exact H. rewrite <- app_assoc. reflexivity. }
  intros H. rewrite (G []) by exact H. cbn [hr_degeneracy app]. split; intros C.
  - rewrite C, Nat.leb_refl, Nat.eqb_refl. reflexivity.
  - destruct (Nat.leb_spec count (length (concat pre ++ last))); [|lia].
    destruct (Nat.eqb_spec count (length (concat pre ++ last))); [lia|reflexivity].
Qed.
Print Assumptions C36_degeneracy.
Example C36_degeneracy_example : hr_degeneracy 5 [] ([[1;1;2];[2]] ++ [4] :: [[0;0;0;1;1]])%Z = DOk [1;1;2;2;4]%Z [[0;0;0;1;1]]%Z.
Proof. apply C36_degeneracy; cbn; lia. Qed.
(** a file that ends inside its degeneracy list is never rejected: the loop does not stop *)
Theorem C36_truncated_hangs_refuted : (forall count lines, length (concat lines) < count -> hr_degeneracy count [] lines = DHangs) /\
  exists count (lines : list (list Z)), length (concat lines) < count /\ 0 < length lines.
Proof.
  split.
  - intros count lines. assert (G : forall acc, length (acc ++ concat lines) < count -> hr_degeneracy count acc lines = DHangs).
    { induction lines as [|l lines IH]; intros acc H; cbn [concat] in H; cbn [hr_degeneracy].
      - rewrite app_nil_r in H. destruct (Nat.leb_spec count (length acc)); [lia|reflexivity].
      - rewrite app_assoc in H. destruct (Nat.leb_spec count (length (acc ++ l))) as [C|C]; [rewrite app_length in H; lia|]. apply IH, H. }
    intros H. apply G, H.
  - exists 4, [[1; 1]; [2]]%Z. split; cbn; lia.
Qed.
Print Assumptions C36_truncated_hangs_refuted.
(** an index 0 is not rejected either but written to the last row, for every number of bands *)
Theorem C36_index_zero_refuted : forall bands r v, 0 < bands -> exists P,
  hr_body Z unit 0%Z tt 1 bands [0] [HEnt [r] 0 1 v] = Some ([[r]], P) /\ nth 0 P (fun _ _ => 0%Z) (bands - 1) 0 = v.
Proof.
  intros bands r v Hb. unfold hr_body. cbn [h_lines h_line w_init wnb find_idx].
  assert (E0 : pyidx bands (0 - 1) = Some (bands - 1)).
  { unfold pyidx. destruct (Z.leb_spec 0 (0 - 1)); [lia|]. cbn [andb].
    destruct (Z.leb_spec (- Z.of_nat bands) (0 - 1)); [|lia]. cbn. f_equal. lia. }
  assert (E1 : pyidx bands (1 - 1) = Some 0).
  { unfold pyidx. destruct (Z.leb_spec 0 (1 - 1)); [|lia]. destruct (Z.ltb_spec (1 - 1) (Z.of_nat bands)); [|lia]. reflexivity. }
  cbn [memb existsb]. rewrite andb_false_r. rewrite E0, E1. eexists. split; [reflexivity|].
  cbn. unfold wset. rewrite Nat.eqb_refl. reflexivity.
Qed.
Print Assumptions C36_index_zero_refuted.
Example C36_index_zero_example : exists P, hr_body Z unit 0%Z tt 1 3 [0] [HEnt [2%Z] 0 1 7%Z] = Some ([[2%Z]], P) /\
  nth 0 P (fun _ _ => 0%Z) 2 0 = 7%Z.
Proof. apply C36_index_zero_refuted. lia. Qed.
(** a file with the blocks 1, -1, 0 and a repeated entry *)
Example C36_example : hr_body Z unit 0%Z tt 1 2 [1; 0]
    [HEnt [1] 1 1 5; HEnt [1] 2 1 6; HBlank; HEnt [-1] 1 1 9; HEnt [0] 2 2 3; HEnt [1] 1 1 8]%Z = Some ([[0]; [1]]%Z,
    [wset (fun _ _ => 0%Z) 1 1 3%Z; wset (wset (wset (fun _ _ => 0%Z) 0 0 5%Z) 1 0 6%Z) 0 0 8%Z]) /\
  (forall x, In x [HEnt [1] 1 1 5; HEnt [1] 2 1 6; HBlank; HEnt [-1] 1 1 9; HEnt [0] 2 2 3; HEnt [1] 1 1 8]%Z -> hr_valid 1 2 x).
Proof.
  split; [reflexivity|]. intros x H. repeat (destruct H as [<-|H]; [cbn; try exact I; repeat split; lia|]). destruct H.
Qed.

(** Proofs about reduce_symmetric_data and check_neighbors (symmetry.py l.641-699, 731-758). *)
From Coq Require Import List Arith ZArith Lia Bool Permutation Sorting.Sorted.
Import ListNotations.
From Verif Require Import SRing LMat SymModel SymModel2 FinGroup SymGenProofs DetMC SymInitProofs
  SymEqProofs SymPointProofs.

Lemma zvsub_zero a b : length a = length b -> znorm2 (zvsub a b) = 0%Z -> a = b.
Proof.
  revert b; induction a as [|x a IH]; intros [|y b] HL H; simpl in HL; try discriminate; [reflexivity|].
  change (znorm2 (zvsub (x :: a) (y :: b))) with ((x - y) * (x - y) + znorm2 (zvsub a b))%Z in H.
  pose proof (znorm2_nonneg (zvsub a b)).
  assert (x = y) by nia. subst y. f_equal. apply IH; [injection HL; auto|]. nia.
Qed.

Lemma zvsub_self a : znorm2 (zvsub a a) = 0%Z.
Proof.
  induction a as [|x a IH]; [reflexivity|].
  change (znorm2 (zvsub (x :: a) (x :: a))) with ((x - x) * (x - x) + znorm2 (zvsub a a))%Z.
  rewrite IH. nia.
Qed.

(** exactness of the distance test on integer points that are not too far away *)
Lemma nearby_spec k x y : length x = length y -> (0 < znorm2 k <= 10 ^ 12)%Z ->
  (nearby k x y = true <-> x = y).
Proof.
  intros HL Hk. unfold nearby. rewrite Z.ltb_lt. split.
  - intros H. apply zvsub_zero; [exact HL|]. pose proof (znorm2_nonneg (zvsub x y)). nia.
  - intros ->. rewrite zvsub_self. nia.
Qed.

Lemma farther_norm k x : (0 < znorm2 k)%Z -> farther k x = true -> (znorm2 k < znorm2 x)%Z.
Proof. intros Hk H. unfold farther in H. apply Z.ltb_lt in H. nia. Qed.

(** key without rounding loss *)
Lemma rkey_one v : rkey 1 v = (100 * znorm2 v)%Z.
Proof.
  unfold rkey, round_half_even. rewrite Z.mul_1_l, Z.div_1_r, Z.mod_1_r. reflexivity.
Qed.

(** orthogonal operations keep the length *)
Lemma znorm2_nsum n v : wfv n v -> znorm2 v = nsum (K:=Zs) n (fun i => vent (K:=Zs) v i * vent (K:=Zs) v i)%Z.
Proof.
  intros Hv. unfold wfv in Hv. subst n. induction v as [|x v IH] using rev_ind; [reflexivity|].
  unfold znorm2. rewrite map_app, fold_right_app. simpl.
  rewrite app_length. simpl. rewrite Nat.add_1_r, nsum_S.
  transitivity (znorm2 v + x * x)%Z.
  - unfold znorm2. generalize (x * x)%Z. intros y. rewrite Z.add_0_r. clear.
    induction v as [|a v IH]; simpl; [lia|]. rewrite IH. lia.
  - rewrite IH. cbn [sadd Zs car].
    assert (E : vent (K:=Zs) (v ++ [x]) (length v) = x).
    { unfold vent. rewrite app_nth2 by lia. rewrite Nat.sub_diag. reflexivity. }
    f_equal; [|change (x * x = vent (K:=Zs) (v ++ [x]) (length v) * vent (K:=Zs) (v ++ [x]) (length v))%Z; rewrite E; reflexivity].
    apply nsum_ext. intros i Hi. unfold vent. rewrite app_nth1 by exact Hi. reflexivity.
Qed.

Lemma orth_norm_gen (K : sring) n (s : lmat K) (v : lvec K) : wfv n v -> lmul n (ltr n s) s = leye n ->
  nsum n (fun i => smul (vent (lmv n s v) i) (vent (lmv n s v) i)) = nsum n (fun i => smul (vent v i) (vent v i)).
Proof.
  intros Hv Ho. pose proof (s_rt K) as [_ _ _ _ Rmul_comm Rmul_assoc _ _ _].
  transitivity (nsum n (fun i => smul (vent v i) (vent (lmv n (lmul n (ltr n s) s) v) i))).
  - rewrite lmv_mul.
    transitivity (nsum n (fun i => nsum n (fun k => smul (smul (ent s k i) (vent v i)) (vent (lmv n s v) k)))).
    + rewrite nsum_swap. apply nsum_ext. intros k Hk.
      rewrite (vent_lmv K n s v k Hk) at 1. rewrite nsum_mul_r. reflexivity.
    + apply nsum_ext. intros i Hi. rewrite (vent_lmv K n (ltr n s) (lmv n s v) i Hi).
      rewrite <- nsum_mul_l. apply nsum_ext. intros k Hk. rewrite ltr_ent by assumption.
      rewrite (Rmul_comm (ent s k i)), Rmul_assoc. reflexivity.
  - rewrite Ho. rewrite lmv_1 by exact Hv. reflexivity.
Qed.

Lemma orth_norm n s v : wfv n v -> zmul n (ltr n s) s = zeye n -> znorm2 (zmv n s v) = znorm2 v.
Proof.
  intros Hv Ho. rewrite !(znorm2_nsum n) by (try apply lmv_wf; exact Hv).
  exact (orth_norm_gen Zs n s v Hv Ho).
Qed.

(** a right inverse of a square integer matrix with determinant +-1 is a left inverse *)
Lemma orth_left n s : wfz n s -> unimod n s -> zmul n s (ltr n s) = zeye n -> zmul n (ltr n s) s = zeye n.
Proof.
  intros Hs Hu H. destruct (@zdet_inverse n s Hs Hu) as (h & Hh & Hsh & Hhs).
  assert (E : ltr n s = h).
  { transitivity (zmul n (zmul n h s) (ltr n s)).
    - rewrite Hhs. symmetry. apply zmul_1_l. apply ltr_wf.
    - rewrite <- zmul_assoc, H. apply zmul_1_r. exact Hh. }
  rewrite E. exact Hhs.
Qed.

Section Reduce.
Context {D : Type} (differ : D -> D -> bool) (checked : bool).
Notation pt := (zvec * D)%type.

(** [sub l l']: l' is obtained from l by deleting entries *)
Inductive sub {A} : list A -> list A -> Prop :=
| sub_nil : sub [] []
| sub_keep a l l' : sub l l' -> sub (a :: l) (a :: l')
| sub_drop a l l' : sub l l' -> sub (a :: l) l'.

Lemma sub_refl {A} (l : list A) : sub l l.
Proof. induction l; constructor; assumption. Qed.

Lemma sub_trans {A} (l1 l2 l3 : list A) : sub l1 l2 -> sub l2 l3 -> sub l1 l3.
Proof.
  intros H; revert l3; induction H as [|a l l' H IH|a l l' H IH]; intros l3 H3; auto.
  - inversion H3; subst; constructor; auto.
  - constructor; auto.
Qed.

Lemma sub_in {A} (l l' : list A) x : sub l l' -> In x l' -> In x l.
Proof. induction 1; simpl; intuition. Qed.

Lemma sub_len {A} (l l' : list A) : sub l l' -> length l' <= length l.
Proof. induction 1; simpl; lia. Qed.

Lemma sub_sorted {A} (R : A -> A -> Prop) (l l' : list A) : sub l l' -> StronglySorted R l -> StronglySorted R l'.
Proof.
  induction 1 as [|a l l' H IH|a l l' H IH]; intros Hs; auto.
  - inversion Hs as [|x y H1 H2]; subst. constructor; [auto|].
    rewrite Forall_forall in *. intros x Hx. apply H2. eapply sub_in; eauto.
  - inversion Hs; subst; auto.
Qed.

Lemma sub_map {A B} (f : A -> B) l l' : sub l l' -> sub (map f l) (map f l').
Proof. induction 1; simpl; constructor; assumption. Qed.

(** *** what one scan does, without any assumption *)
Lemma del_scan_sub k v k_ l l' : del_scan differ checked k v k_ l = Some l' -> sub l l' /\
  (forall x d, In (x, d) l -> In (x, d) l' \/ (nearby k x k_ = true /\ (checked = true -> differ d v = false))).
Proof.
  revert l'; induction l as [|[x d] l IH]; simpl; intros l' H.
  - injection H as <-. split; [constructor|tauto].
  - destruct (farther k x).
    + injection H as <-. split; [apply sub_refl|auto].
    + destruct (nearby k x k_) eqn:En.
      * destruct (checked && differ d v) eqn:Ec; [discriminate|].
        destruct (IH l' H) as [I1 I2]. split; [constructor; exact I1|].
        intros y e [E|Hy]; [|auto]. injection E as <- <-. right. split; [exact En|].
        intros Hc. rewrite Hc in Ec. exact Ec.
      * destruct (del_scan differ checked k v k_ l) as [l0|]; [|discriminate]. injection H as <-.
        destruct (IH l0 eq_refl) as [I1 I2]. split; [constructor; exact I1|].
        intros y e [E|Hy]; [left; left; exact E|]. destruct (I2 y e Hy); auto. left; right; assumption.
Qed.

Lemma del_ops_sub n k v ops l l' : del_ops differ checked n k v ops l = Some l' -> sub l l' /\
  (forall x d, In (x, d) l -> In (x, d) l' \/
     exists o, In o ops /\ nearby k x (app_signed n o k) = true /\ (checked = true -> differ d v = false)).
Proof.
  revert l; induction ops as [|o ops IH]; simpl; intros l H.
  - injection H as ->. split; [apply sub_refl|auto].
  - destruct (nearby k k (app_signed n o k)).
    + destruct (IH l H) as [I1 I2]. split; [exact I1|]. intros x d Hx.
      destruct (I2 x d Hx) as [?|(o' & A & B)]; eauto 6.
    + destruct (del_scan differ checked k v (app_signed n o k) l) as [l0|] eqn:E; [|discriminate].
      destruct (del_scan_sub _ _ _ _ _ E) as [S1 S2]. destruct (IH l0 H) as [I1 I2].
      split; [eapply sub_trans; eauto|]. intros x d Hx.
      destruct (S2 x d Hx) as [Hy|[Hy Hz]]; [|right; exists o; auto].
      destruct (I2 x d Hy) as [?|(o' & A & B)]; eauto 6.
Qed.

(** *** on sorted lists of integer points the scan removes every occurrence *)
Notation sortedP := (StronglySorted (fun p q : pt => (znorm2 (fst p) <= znorm2 (fst q))%Z)).

Lemma del_scan_removes n k v k_ l l' : wfv n k_ -> (forall x d, In (x, d) l -> wfv n x) ->
  (0 < znorm2 k <= 10 ^ 12)%Z -> znorm2 k_ = znorm2 k -> sortedP l ->
  del_scan differ checked k v k_ l = Some l' -> forall x d, In (x, d) l' -> x <> k_.
Proof.
  intros Hw HW Hk Hn. revert l'. induction l as [|[x d] l IH]; simpl; intros l' Hs H y e Hy.
  - injection H as <-. contradiction.
  - inversion Hs as [|a b Hs' Hf]; subst.
    destruct (farther k x) eqn:Ef.
    + injection H as <-. intros ->. apply farther_norm in Ef; [|lia].
      destruct Hy as [E|Hy].
      * injection E as -> ->. lia.
      * rewrite Forall_forall in Hf. specialize (Hf _ Hy). simpl in Hf. lia.
    + assert (HW' : forall x0 d0, In (x0, d0) l -> wfv n x0) by (intros x0 d0 H0; apply (HW x0 d0); right; exact H0).
      assert (Hx : wfv n x) by (apply (HW x d); left; reflexivity).
      destruct (nearby k x k_) eqn:En.
      * destruct (checked && differ d v); [discriminate|]. eapply (IH HW'); eauto.
      * destruct (del_scan differ checked k v k_ l) as [l0|]; [|discriminate]. injection H as <-.
        destruct Hy as [E|Hy].
        -- injection E as <- <-. intros ->.
           rewrite (proj2 (nearby_spec k k_ k_ eq_refl Hk) eq_refl) in En. discriminate.
        -- eapply (IH HW'); eauto.
Qed.

Lemma del_ops_removes n k v ops l l' : wfv n k -> (forall x d, In (x, d) l -> wfv n x) ->
  (0 < znorm2 k <= 10 ^ 12)%Z -> (forall o, In o ops -> znorm2 (app_signed n o k) = znorm2 k) ->
  sortedP l -> del_ops differ checked n k v ops l = Some l' ->
  forall x d o, In (x, d) l' -> In o ops -> x = app_signed n o k -> x = k.
Proof.
  intros Hw HW Hk. revert l HW. induction ops as [|o ops IH]; simpl; intros l HW Ho Hs H x d o' Hx Ho' E; [contradiction|].
  assert (Hwo : forall o0, wfv n (app_signed n o0 k)) by (intros o0; rewrite app_signed_all; apply lmv_wf).
  destruct (nearby k k (app_signed n o k)) eqn:En.
  - destruct Ho' as [<-|Ho'].
    + apply nearby_spec in En; [congruence| |exact Hk]. unfold wfv in *. rewrite Hw. symmetry. apply Hwo.
    + eapply (IH l); eauto.
  - destruct (del_scan differ checked k v (app_signed n o k) l) as [l0|] eqn:Es; [|discriminate].
    destruct (del_scan_sub _ _ _ _ _ Es) as [S1 _].
    destruct Ho' as [<-|Ho'].
    + exfalso. destruct (del_ops_sub _ _ _ _ _ _ H) as [S2 _].
      apply (sub_in _ _ _ S2) in Hx.
      eapply (del_scan_removes n k v (app_signed n o k) l l0); eauto.
    + eapply (IH l0); eauto.
      * intros y e Hy. eapply HW. eapply sub_in; eauto.
      * eapply sub_sorted; eauto.
Qed.

(** *** the loop *)
Section Loop.
Variables (g : sym).
Hypothesis HG : is_group (zmul (sdim g)) (zeye (sdim g)) (sym_all g).

Notation n := (sdim g).

(** every input point is represented, nothing is invented (any points, any tolerances) *)
Lemma reduce_loop_cover f : forall l r, reduce_loop differ f checked g l = Some r ->
  sub l r /\
  forall x d, In (x, d) l -> In (x, d) r \/
    exists k v o, In (k, v) r /\ In o (signed_ops g) /\ nearby k x (app_signed n o k) = true /\
      (checked = true -> differ d v = false).
Proof.
  induction f as [|f IH]; intros l r H.
  - destruct l; [injection H as <-; split; [constructor|simpl; tauto]|discriminate].
  - destruct l as [|[k v] rest]; [injection H as <-; split; [constructor|simpl; tauto]|].
    cbn [reduce_loop] in H. destruct (Z.eqb (znorm2 k) 0).
    + destruct (reduce_loop differ f checked g rest) as [r0|] eqn:E; [|discriminate]. injection H as <-.
      destruct (IH rest r0 E) as [I1 I2]. split; [constructor; exact I1|].
      intros x d [Ex|Hx]; [left; left; exact Ex|].
      destruct (I2 x d Hx) as [?|(k' & v' & o & A & B)]; [left; right; assumption|].
      right. exists k', v', o. split; [right; exact A|exact B].
    + destruct (del_ops differ checked n k v (signed_ops g) rest) as [rest'|] eqn:Ed; [|discriminate].
      destruct (reduce_loop differ f checked g rest') as [r0|] eqn:E; [|discriminate]. injection H as <-.
      destruct (del_ops_sub _ _ _ _ _ _ Ed) as [S1 S2]. destruct (IH rest' r0 E) as [I1 I2].
      split; [constructor; eapply sub_trans; eauto|].
      intros x d [Ex|Hx]; [left; left; exact Ex|].
      destruct (S2 x d Hx) as [Hy|(o & A & B)].
      * destruct (I2 x d Hy) as [?|(k' & v' & o & A & B)]; [left; right; assumption|].
        right. exists k', v', o. split; [right; exact A|exact B].
      * right. exists k, v, o. split; [left; reflexivity|]. split; [exact A|exact B].
Qed.

Hypothesis HW : forall s, In s (sops g) -> wfz n s.
Hypothesis Horth : forall s, In s (sym_all g) -> zmul n (ltr n s) s = zeye n.

Lemma signed_norm k o : wfv n k -> In o (signed_ops g) -> znorm2 (app_signed n o k) = znorm2 k.
Proof.
  intros Hk Ho. rewrite app_signed_all. apply orth_norm; [exact Hk|]. apply Horth.
  rewrite <- signed_all. apply (in_map (fun o : bool * zmat => if fst o then zneg n (snd o) else snd o)). exact Ho.
Qed.

(** no two distinct points of the result are images of each other *)
Lemma reduce_loop_distinct f : forall l r,
  (forall x d, In (x, d) l -> wfv n x /\ (znorm2 x <= 10 ^ 12)%Z) -> sortedP l ->
  reduce_loop differ f checked g l = Some r ->
  forall x d y e s, In (x, d) r -> In (y, e) r -> In s (sym_all g) -> y = zmv n s x -> x = y.
Proof.
  induction f as [|f IH]; intros l r HL Hs H x d y e s Hx Hy Hin E.
  - destruct l; [injection H as <-; contradiction|discriminate].
  - destruct l as [|[k v] rest]; [injection H as <-; contradiction|].
    cbn [reduce_loop] in H.
    assert (HLk : wfv n k /\ (znorm2 k <= 10 ^ 12)%Z) by (apply (HL k v); left; reflexivity).
    inversion_clear Hs as [|a b Hs' Hf].
    assert (HLr : forall x d, In (x, d) rest -> wfv n x /\ (znorm2 x <= 10 ^ 12)%Z)
      by (intros x0 d0 H0; apply (HL x0 d0); right; exact H0).
    pose proof HG as (Go & Gn & Gc & Gi).
    (* symmetric formulation *)
    assert (Hsym : forall a b s0, In s0 (sym_all g) -> wfv n a -> b = zmv n s0 a -> exists t, In t (sym_all g) /\ a = zmv n t b).
    { intros a b s0 Hs0 Ha ->. destruct (Gi s0 Hs0) as (t & Ht & _ & Hts). exists t. split; [exact Ht|].
      unfold zmv. rewrite <- lmv_mul. unfold zmul in Hts. rewrite Hts. symmetry; apply lmv_1; exact Ha. }
    destruct (Z.eqb_spec (znorm2 k) 0) as [Hz|Hz].
    + destruct (reduce_loop differ f checked g rest) as [r0|] eqn:Er; [|discriminate H]. injection H as <-.
      destruct Hx as [Ex|Hx], Hy as [Ey|Hy].
      * congruence.
      * injection Ex as <- <-. rewrite E. symmetry. apply zmv_zero; [apply HLk|exact Hz].
      * injection Ey as <- <-.
        assert (Hxw : wfv n x).
        { apply (HLr x d). eapply sub_in; [apply (reduce_loop_cover f rest r0 Er)|exact Hx]. }
        destruct (Hsym x k s Hin Hxw E) as (t & Ht & Et).
        rewrite Et. apply zmv_zero; [apply HLk|exact Hz].
      * exact (IH rest r0 HLr Hs' Er x d y e s Hx Hy Hin E).
    + destruct (del_ops differ checked n k v (signed_ops g) rest) as [rest'|] eqn:Ed; [|discriminate H].
      destruct (reduce_loop differ f checked g rest') as [r0|] eqn:Er; [|discriminate H]. injection H as <-.
      destruct (del_ops_sub _ _ _ _ _ _ Ed) as [S1 _].
      assert (HLr' : forall x d, In (x, d) rest' -> wfv n x /\ (znorm2 x <= 10 ^ 12)%Z)
        by (intros x0 d0 H0; apply (HLr x0 d0); eapply sub_in; eauto).
      assert (Hrem : forall z c t, In (z, c) r0 -> In t (sym_all g) -> z = zmv n t k -> z = k).
      { intros z c t Hz0 Ht Ez.
        assert (Hz1 : In (z, c) rest') by (eapply sub_in; [apply (reduce_loop_cover f rest' r0 Er)|exact Hz0]).
        rewrite <- signed_all in Ht. apply in_map_iff in Ht. destruct Ht as [o [Eo Ho]].
        eapply (del_ops_removes n k v (signed_ops g) rest rest'); eauto.
        - apply HLk.
        - intros x0 d0 H0; apply (HLr x0 d0 H0).
        - pose proof (znorm2_nonneg k). split; [lia|apply HLk].
        - intros o0 Ho0. apply signed_norm; [apply HLk|exact Ho0].
        - rewrite app_signed_all. rewrite Eo. exact Ez. }
      destruct Hx as [Ex|Hx], Hy as [Ey|Hy].
      * congruence.
      * injection Ex as <- <-. symmetry. exact (Hrem y e s Hy Hin E).
      * injection Ey as <- <-.
        assert (Hxw : wfv n x).
        { apply (HLr' x d). eapply sub_in; [apply (reduce_loop_cover f rest' r0 Er)|exact Hx]. }
        destruct (Hsym x k s Hin Hxw E) as (t & Ht & Et). exact (Hrem x d t Hx Ht Et).
      * exact (IH rest' r0 HLr' (sub_sorted _ _ _ S1 Hs') Er x d y e s Hx Hy Hin E).
Qed.
End Loop.

Lemma reduce_sorted_perm den dim l : Permutation (reduce_sorted (D:=D) den dim l) l.
Proof.
  unfold reduce_sorted. rewrite sort_by_perm. generalize (seq 0 dim). intros s. revert l.
  induction s as [|i s IH]; intros l; simpl; [reflexivity|]. rewrite IH. apply sort_by_perm.
Qed.

Lemma reduce_sorted_sorted dim l : sortedP (reduce_sorted (D:=D) 1 dim l).
Proof.
  unfold reduce_sorted. eapply StronglySorted_impl; [|apply sort_by_sorted].
  intros a b H. cbv beta in H. rewrite !rkey_one in H. lia.
Qed.

(** the loop does not run out of fuel *)
Lemma del_ops_len n k v ops l l' : del_ops differ checked n k v ops l = Some l' -> length l' <= length l.
Proof. intros H. apply sub_len. eapply del_ops_sub; exact H. Qed.

(** the ValueError is raised exactly if some deleted copy carries different data *)
Lemma reduce_ok_unchecked f g l : checked = false -> length l <= f -> exists r, reduce_loop differ f checked g l = Some r.
Proof.
  intros Hc. revert l. induction f as [|f IH]; intros l Hl.
  - destruct l; [exists []; reflexivity|simpl in Hl; lia].
  - destruct l as [|[k v] rest]; [exists []; reflexivity|]. simpl in Hl. cbn [reduce_loop].
    destruct (Z.eqb (znorm2 k) 0).
    + destruct (IH rest ltac:(lia)) as [r Hr]. rewrite Hr. eexists; reflexivity.
    + assert (Hscan : forall k_ l0, exists l1, del_scan differ checked k v k_ l0 = Some l1).
      { intros k_ l0. induction l0 as [|[x d] l0 [l1 Hl1]]; simpl; [eauto|].
        destruct (farther k x); [eauto|]. destruct (nearby k x k_).
        - rewrite Hc. simpl. rewrite <- Hc. eauto.
        - rewrite Hl1. simpl. eauto. }
      assert (Hops : forall ops l0, exists l1, del_ops differ checked (sdim g) k v ops l0 = Some l1).
      { induction ops as [|o ops IHo]; intros l0; simpl; [eauto|].
        destruct (nearby k k (app_signed (sdim g) o k)); [apply IHo|].
        destruct (Hscan (app_signed (sdim g) o k) l0) as [l1 ->]. apply IHo. }
      destruct (Hops (signed_ops g) rest) as [rest' Hr']. rewrite Hr'.
      pose proof (del_ops_len _ _ _ _ _ _ Hr').
      destruct (IH rest' ltac:(lia)) as [r Hr]. rewrite Hr. eexists; reflexivity.
Qed.

Lemma is_orthogonal_spec g : (forall s, In s (sops g) -> wfz (sdim g) s /\ unimod (sdim g) s) ->
  is_orthogonal g = true -> forall s, In s (sym_all g) -> zmul (sdim g) (ltr (sdim g) s) s = zeye (sdim g).
Proof.
  intros HW H. unfold is_orthogonal in H. rewrite forallb_forall in H.
  assert (Hops : forall s, In s (sops g) -> zmul (sdim g) (ltr (sdim g) s) s = zeye (sdim g)).
  { intros s Hs. destruct (HW s Hs) as [Hw Hu]. apply orth_left; auto. apply zmeqb_spec, H, Hs. }
  intros s Hs. unfold sym_all in Hs. apply in_app_or in Hs. destruct Hs as [Hs|Hs]; [auto|].
  destruct (sinv g); [|contradiction]. apply in_map_iff in Hs. destruct Hs as [t [<- Ht]].
  rewrite ltr_neg. unfold zmul, zneg. rewrite lneg_mul_l, lneg_mul_r, lneg_invol by apply lmul_wf.
  apply Hops; exact Ht.
Qed.

(** full statement for lattice points *)
Lemma reduce_symmetric_data_spec g l r :
  (forall s, In s (sops g) -> wfz (sdim g) s /\ unimod (sdim g) s) ->
  is_group (zmul (sdim g)) (zeye (sdim g)) (sym_all g) ->
  (forall x d, In (x, d) l -> wfv (sdim g) x /\ (znorm2 x <= 10 ^ 12)%Z) ->
  reduce_symmetric_data differ 1 checked g l = RedOk r ->
  (forall x d, In (x, d) r -> In (x, d) l) /\
  (forall x d, In (x, d) l -> exists y e s, In (y, e) r /\ In s (sym_all g) /\ x = zmv (sdim g) s y /\
      (checked = true -> e = d \/ differ d e = false)) /\
  (forall x d y e s, In (x, d) r -> In (y, e) r -> In s (sym_all g) -> y = zmv (sdim g) s x -> x = y).
Proof.
  intros HW HG HL H. unfold reduce_symmetric_data in H.
  destruct (is_orthogonal g) eqn:Ho; cbn [negb] in H; [|discriminate].
  pose proof (is_orthogonal_spec g HW Ho) as Horth.
  match type of H with context[reduce_loop ?a ?b ?c ?d ?e] => destruct (reduce_loop a b c d e) as [r0|] eqn:E; [|discriminate H] end.
  injection H as ->. pose proof (reduce_sorted_perm 1 (sdim g) l) as Hp.
  destruct (reduce_loop_cover g (length l) _ _ E) as [C1 C2].
  assert (HL' : forall x d, In (x, d) (reduce_sorted 1 (sdim g) l) -> wfv (sdim g) x /\ (znorm2 x <= 10 ^ 12)%Z).
  { intros x d Hx. apply (HL x d). eapply Permutation_in; [exact Hp|exact Hx]. }
  split; [|split].
  - intros x d Hx. eapply Permutation_in; [exact Hp|]. eapply sub_in; eauto.
  - intros x d Hx.
    assert (Hx' : In (x, d) (reduce_sorted 1 (sdim g) l)) by (eapply Permutation_in; [apply Permutation_sym, Hp|exact Hx]).
    destruct (HL x d Hx) as [Hw Hb].
    destruct (C2 x d Hx') as [Hr|(k & v & o & Hk & Hin & Hn & Hc)].
    + exists x, d, (zeye (sdim g)). repeat split; auto; [apply HG|]. symmetry; apply lmv_1; exact Hw.
    + exists k, v, (if fst o then zneg (sdim g) (snd o) else snd o).
      split; [exact Hk|]. split; [|split].
      * rewrite <- signed_all. apply (in_map (fun o : bool * zmat => if fst o then zneg (sdim g) (snd o) else snd o)). exact Hin.
      * rewrite <- app_signed_all. destruct (HL' k v ltac:(eapply sub_in; eauto)) as [Hwk Hbk].
        apply nearby_spec in Hn; [exact Hn| |].
        -- unfold wfv in Hw. rewrite Hw. symmetry. rewrite app_signed_all. apply lmv_wf.
        -- split; [|exact Hbk]. unfold nearby in Hn. apply Z.ltb_lt in Hn.
           pose proof (znorm2_nonneg (zvsub x (app_signed (sdim g) o k))). nia.
      * intros Hch. right. auto.
  - apply (reduce_loop_distinct g HG Horth (length l) _ _ HL' (reduce_sorted_sorted _ _) E).
Qed.

(** never the out-of-fuel branch *)
Lemma reduce_fuel g den l : checked = false -> is_orthogonal g = true ->
  exists r, reduce_symmetric_data differ den checked g l = RedOk r.
Proof.
  intros Hc Ho. unfold reduce_symmetric_data. rewrite Ho. cbn [negb].
  destruct (reduce_ok_unchecked (length l) g (reduce_sorted den (sdim g) l) Hc) as [r ->]; [|eauto].
  rewrite (Permutation_length (reduce_sorted_perm den (sdim g) l)). lia.
Qed.
End Reduce.

(* ------------------------------------------------------------------ *)
Lemma check_neighbors_rejects g ns : sdim g = 3 -> sops g <> [] -> ns <> [] -> (forall r, In r ns -> wfv 3 r) ->
  check_neighbors g ns = CnValueError.
Proof.
  intros Hd Hs Hn HW. unfold check_neighbors. rewrite Hd, Nat.eqb_refl. cbn [negb].
  destruct (sort_by znorm2 ns) as [|r l] eqn:E.
  - exfalso. apply Hn. pose proof (sort_by_perm znorm2 ns) as Hp. rewrite E in Hp.
    apply Permutation_nil in Hp. exact Hp.
  - destruct (sops g) as [|s S']; [congruence|].
    assert (Hr : length r = 3).
    { apply HW. eapply Permutation_in; [apply (sort_by_perm znorm2)|]. rewrite E. left; reflexivity. }
    unfold matmul3, transpose_zipped. cbn [seq map forallb length].
    replace (@length (car Zs) r) with 3 by (symmetry; exact Hr). reflexivity.
Qed.

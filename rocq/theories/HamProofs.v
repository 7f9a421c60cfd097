(** Proofs about HamModel.v: symmetrize is the projection onto symmetric models (C24), the table driven
    symmetrizer computes the same (C25), band names (C55). *)
From Coq Require Import List Arith ZArith Lia Bool Permutation Setoid Morphisms.
Import ListNotations.
From Verif Require Import SRing LMat FMat FinGroup SymModel DetMC SymInitProofs SymEqProofs HamModel.

(** ** numbered lists *)
Lemma combine_seq_nth {X} (l : list X) o k s : In (k, s) (combine (seq o (length l)) l) ->
  nth_error l (k - o) = Some s /\ (o <= k).
Proof.
  revert o; induction l as [|a l IH]; simpl; intros o; [tauto|].
  intros [E|Hin].
  - injection E as -> ->. rewrite Nat.sub_diag. auto.
  - apply IH in Hin. destruct Hin as [H1 H2]. replace (k - o) with (S (k - S o)) by lia. split; [exact H1|lia].
Qed.
Lemma map_snd_combine_seq {X} (l : list X) o : map snd (combine (seq o (length l)) l) = l.
Proof. revert o; induction l as [|a l IH]; simpl; intros o; [reflexivity|]. rewrite IH; reflexivity. Qed.
Lemma map_fst_combine_seq {X} (l : list X) o : map fst (combine (seq o (length l)) l) = seq o (length l).
Proof. revert o; induction l as [|a l IH]; simpl; intros o; [reflexivity|]. rewrite IH; reflexivity. Qed.
Lemma nth_combine_seq {X} (l : list X) o i x : nth_error l i = Some x ->
  nth_error (combine (seq o (length l)) l) i = Some ((o + i), x).
Proof.
  revert o i; induction l as [|a l IH]; intros o [|i]; simpl; intros E; try discriminate E.
  - injection E as ->. rewrite Nat.add_0_r. reflexivity.
  - rewrite (IH _ _ E). do 2 f_equal. lia.
Qed.

Lemma nth_map_error {X Y} (f : X -> Y) l i x d : nth_error l i = Some x -> nth i (map f l) d = f x.
Proof.
  intros E. apply nth_error_nth. rewrite nth_error_map, E. reflexivity.
Qed.

(* ------------------------------------------------------------------ *)
(** ** vectors *)
Section Vec.
Variable n : nat.
Implicit Types u v w : zvec.

Lemma vent_zvadd u v i : i < n -> vent (K:=Zs) (zvadd n u v) i = (vent (K:=Zs) u i + vent (K:=Zs) v i)%Z.
Proof. intros; unfold zvadd; apply vent_vmk; assumption. Qed.
Lemma vent_zvdiff u v i : i < n -> vent (K:=Zs) (zvdiff n u v) i = (vent (K:=Zs) u i - vent (K:=Zs) v i)%Z.
Proof. intros; unfold zvdiff; apply vent_vmk; assumption. Qed.
Lemma vent_zvneg u i : i < n -> vent (K:=Zs) (zvneg n u) i = (- vent (K:=Zs) u i)%Z.
Proof. intros; unfold zvneg, vneg. rewrite vent_vmk by assumption. reflexivity. Qed.

(** a linear map commutes with entrywise integer combinations *)
Lemma zmv_lin s u v w : (forall i, i < n -> vent (K:=Zs) w i = (vent (K:=Zs) u i - vent (K:=Zs) v i)%Z) ->
  forall i, i < n -> vent (K:=Zs) (zmv n s w) i = (vent (K:=Zs) (zmv n s u) i - vent (K:=Zs) (zmv n s v) i)%Z.
Proof.
  intros H i Hi. unfold zmv. rewrite !vent_lmv by exact Hi. change Z.sub with (@ssub Zs). rewrite <- nsum_sub.
  apply nsum_ext. intros k Hk. rewrite H by exact Hk. cbn [smul ssub Zs car]. ring.
Qed.

Lemma zmv_veq s u v : (forall i, i < n -> vent (K:=Zs) u i = vent (K:=Zs) v i) -> zmv n s u = zmv n s v.
Proof.
  intros H. apply (vec_ext Zs n); try apply lmv_wf. intros i Hi. unfold zmv. rewrite !vent_lmv by exact Hi.
  apply nsum_ext. intros k Hk. rewrite H by exact Hk. reflexivity.
Qed.

Lemma zmv_opp s u v : (forall i, i < n -> vent (K:=Zs) u i = (- vent (K:=Zs) v i)%Z) ->
  forall i, i < n -> vent (K:=Zs) (zmv n s u) i = (- vent (K:=Zs) (zmv n s v) i)%Z.
Proof.
  intros H i Hi. unfold zmv. rewrite !vent_lmv by exact Hi. change Z.opp with (@sopp Zs). rewrite <- nsum_opp.
  apply nsum_ext. intros k Hk. rewrite H by exact Hk. cbn [smul sopp Zs car]. ring.
Qed.

Lemma zvneg_wf u : wfv n (zvneg n u).
Proof. apply (vneg_wf Zs). Qed.
Lemma zvneg_invol u : wfv n u -> zvneg n (zvneg n u) = u.
Proof.
  intros H. apply (vec_ext Zs n); [apply zvneg_wf|exact H|]. intros i Hi.
  rewrite !vent_zvneg by exact Hi. lia.
Qed.

Lemma rot_pos_wf s r r1 r2 : wfv n (rot_pos n s r r1 r2).
Proof. apply wfv_vmk. Qed.
Lemma inv_pos_wf r r1 r2 : wfv n (inv_pos n r r1 r2).
Proof. apply wfv_vmk. Qed.

Lemma rot_pos_mul s t r r1 r2 : rot_pos n (zmul n s t) r r1 r2 = rot_pos n s (rot_pos n t r r1 r2) r1 r2.
Proof.
  apply (vec_ext Zs n); try apply rot_pos_wf. intros i Hi. unfold rot_pos.
  rewrite !vent_zvadd, !vent_zvdiff by exact Hi. do 2 f_equal.
  unfold zmul. rewrite (lmv_mul Zs n s t). fold (zmv n t). fold (zmv n s). f_equal.
  apply zmv_veq. intros j Hj. rewrite !vent_zvdiff, !vent_zvadd, !vent_zvdiff by exact Hj.
  unfold zmv. lia.
Qed.

Lemma rot_pos_one r r1 r2 : wfv n r -> rot_pos n (zeye n) r r1 r2 = r.
Proof.
  intros H. apply (vec_ext Zs n); [apply rot_pos_wf|exact H|]. intros i Hi. unfold rot_pos.
  rewrite vent_zvadd, vent_zvdiff by exact Hi. unfold zmv, zeye.
  rewrite (lmv_1 Zs n) by apply wfv_vmk.
  rewrite vent_zvdiff, vent_zvadd by exact Hi. lia.
Qed.

Lemma rot_pos_neg s r r1 r2 : rot_pos n s (zvneg n r) r1 r2 = zvneg n (rot_pos n s r r2 r1).
Proof.
  apply (vec_ext Zs n); [apply rot_pos_wf|apply zvneg_wf|]. intros i Hi. unfold rot_pos.
  rewrite vent_zvneg, !vent_zvadd, !vent_zvdiff by exact Hi.
  rewrite (zmv_opp s (zvdiff n (zvadd n (zvneg n r) r2) r1) (zvdiff n (zvadd n r r1) r2)); [lia| |exact Hi].
  intros j Hj. rewrite !vent_zvdiff, !vent_zvadd, vent_zvneg by exact Hj. lia.
Qed.

Lemma inv_pos_neg r r1 r2 : inv_pos n (zvneg n r) r1 r2 = zvneg n (inv_pos n r r2 r1).
Proof.
  apply (vec_ext Zs n); [apply inv_pos_wf|apply zvneg_wf|]. intros i Hi. unfold inv_pos.
  rewrite !vent_zvneg, !vent_zvdiff, !vent_zvadd, !vent_zvdiff, !vent_zvneg by exact Hi. lia.
Qed.

Lemma inv_pos_invol r r1 r2 : wfv n r -> inv_pos n (inv_pos n r r1 r2) r1 r2 = r.
Proof.
  intros H. apply (vec_ext Zs n); [apply inv_pos_wf|exact H|]. intros i Hi. unfold inv_pos.
  rewrite !vent_zvdiff, !vent_zvneg, !vent_zvdiff, !vent_zvneg, !vent_zvadd, !vent_zvdiff by exact Hi. lia.
Qed.

Lemma rot_inv_pos s r r1 r2 : rot_pos n s (inv_pos n r r1 r2) r1 r2 = inv_pos n (rot_pos n s r r1 r2) r1 r2.
Proof.
  apply (vec_ext Zs n); [apply rot_pos_wf|apply inv_pos_wf|]. intros i Hi. unfold rot_pos.
  rewrite vent_zvadd, vent_zvdiff by exact Hi.
  rewrite (zmv_opp s _ (zvdiff n (zvadd n r r2) r1)); [| |exact Hi].
  - unfold inv_pos. rewrite !vent_zvdiff, !vent_zvneg, !vent_zvadd, !vent_zvdiff by exact Hi. lia.
  - intros j Hj. unfold inv_pos.
    rewrite !vent_zvdiff, !vent_zvadd, !vent_zvdiff, !vent_zvneg, !vent_zvadd, !vent_zvdiff by exact Hj. lia.
Qed.
End Vec.
Local Opaque rot_pos inv_pos zmul zeye zvneg.

(* ------------------------------------------------------------------ *)
Section Ham.
Context {K : sring}.
Add Ring Kring_ham : (s_rt K).
Open Scope sring_scope.
Notation hblock := (hblock K).
Notation hsym := (hsym K).

(** ** assembling matrices from blocks *)
Definition inr (o d x : nat) : bool := Nat.leb o x && Nat.ltb x (o + d)%nat.

Lemma inr_spec o d x : inr o d x = true <-> (o <= x < o + d)%nat.
Proof. unfold inr. rewrite andb_true_iff, Nat.leb_le, Nat.ltb_lt. lia. Qed.

Notation obl := (nat * hblock)%type.

Definition blk_term (p : obl * obl -> fmat K) (a b : nat) (bb : obl * obl) : K :=
  if inr (fst (fst bb)) (bdim (snd (fst bb))) a && inr (fst (snd bb)) (bdim (snd (snd bb))) b
  then p bb (a - fst (fst bb))%nat (b - fst (snd bb))%nat else 0.

Lemma add_block_ent o1 d1 o2 d2 (p M : fmat K) a b :
  add_block o1 d1 o2 d2 p M a b = M a b + (if inr o1 d1 a && inr o2 d2 b then p (a - o1)%nat (b - o2)%nat else 0).
Proof.
  unfold add_block, inr. rewrite !andb_assoc.
  destruct (Nat.leb o1 a && Nat.ltb a (o1 + d1)%nat && Nat.leb o2 b && Nat.ltb b (o2 + d2)%nat); ring.
Qed.

Lemma fold_add_blocks (p : obl * obl -> fmat K) L M a b :
  fold_left (fun M bb => add_block (fst (fst bb)) (bdim (snd (fst bb))) (fst (snd bb)) (bdim (snd (snd bb))) (p bb) M) L M a b
  = M a b + ksum L (blk_term p a b).
Proof.
  revert M; induction L as [|bb L IH]; intros M; cbn [fold_left ksum]; [ring|].
  rewrite IH, add_block_ent. unfold blk_term at 2. ring.
Qed.

Lemma boffs_ge o bs ob : In ob (boffs (K:=K) o bs) -> (o <= fst ob)%nat.
Proof.
  revert o; induction bs as [|b bs IH]; simpl; intros o; [tauto|].
  intros [<-|H]; [simpl; lia|]. apply IH in H. lia.
Qed.

Lemma boffs_unique o bs ob ob' x : In ob (boffs (K:=K) o bs) -> In ob' (boffs o bs) ->
  inr (fst ob) (bdim (snd ob)) x = true -> inr (fst ob') (bdim (snd ob')) x = true -> ob = ob'.
Proof.
  revert o; induction bs as [|b bs IH]; simpl; intros o; [tauto|].
  rewrite !inr_spec. intros [<-|H] [<-|H'] H1 H2; [reflexivity| | |].
  - apply boffs_ge in H'. simpl in H1. lia.
  - apply boffs_ge in H. simpl in H2. lia.
  - apply (IH _ H H'); apply inr_spec; assumption.
Qed.

Lemma ksum_boffs o bs (g : obl -> K) ob a : In ob (boffs (K:=K) o bs) -> (a < bdim (snd ob))%nat ->
  ksum (boffs o bs) (fun ob' => if inr (fst ob') (bdim (snd ob')) (fst ob + a)%nat then g ob' else 0) = g ob.
Proof.
  revert o; induction bs as [|b bs IH]; simpl; intros o; [tauto|].
  intros [<-|H] Ha; simpl in *.
  - rewrite (proj2 (inr_spec o (bdim b) (o + a)%nat)) by lia.
    rewrite (ksum_zero K (boffs _ _)); [ring|]. intros ob' Hob'. apply boffs_ge in Hob'.
    destruct (inr _ _ _) eqn:E; [|reflexivity]. apply inr_spec in E. lia.
  - rewrite (IH _ H Ha). apply boffs_ge in H.
    destruct (inr o (bdim b) (fst ob + a)%nat) eqn:E; [apply inr_spec in E; lia|ring].
Qed.

Lemma ksum_list_prod {A B} (l1 : list A) (l2 : list B) (f : A * B -> K) :
  ksum (list_prod l1 l2) f = ksum l1 (fun x => ksum l2 (fun y => f (x, y))).
Proof.
  induction l1 as [|x l1 IH]; simpl; [reflexivity|]. rewrite ksum_app, ksum_map, IH. reflexivity.
Qed.

Lemma ksum_bpairs (h : hsym) (p : obl * obl -> fmat K) ob1 ob2 a b :
  In ob1 (boffs 0%nat (hblocks h)) -> In ob2 (boffs 0%nat (hblocks h)) ->
  (a < bdim (snd ob1))%nat -> (b < bdim (snd ob2))%nat ->
  ksum (bpairs h) (blk_term p (fst ob1 + a)%nat (fst ob2 + b)%nat) = p (ob1, ob2) a b.
Proof.
  intros H1 H2 Ha Hb. unfold bpairs. rewrite ksum_list_prod.
  transitivity (ksum (boffs 0%nat (hblocks h)) (fun x =>
    if inr (fst x) (bdim (snd x)) (fst ob1 + a)%nat then p (x, ob2) (fst ob1 + a - fst x)%nat b else 0)).
  - apply ksum_ext. intros x Hx. unfold blk_term; cbn [fst snd].
    destruct (inr (fst x) (bdim (snd x)) (fst ob1 + a)%nat); cbn [andb].
    + rewrite (ksum_boffs 0%nat (hblocks h)
        (fun y => p (x, y) (fst ob1 + a - fst x)%nat (fst ob2 + b - fst y)%nat) ob2 b H2 Hb).
      replace (fst ob2 + b - fst ob2)%nat with b by lia. reflexivity.
    + apply ksum_zero. reflexivity.
  - rewrite (ksum_boffs 0%nat (hblocks h) (fun x => p (x, ob2) (fst ob1 + a - fst x)%nat b) ob1 a H1 Ha).
    replace (fst ob1 + a - fst ob1)%nat with a by lia. reflexivity.
Qed.

(** every index below the dimension lies in a block *)
Lemma boffs_cover o bs x : (o <= x < o + fold_right Nat.add 0%nat (map bdim bs))%nat ->
  exists ob, In ob (boffs (K:=K) o bs) /\ (fst ob <= x < fst ob + bdim (snd ob))%nat.
Proof.
  revert o; induction bs as [|b bs IH]; simpl; intros o H; [lia|].
  destruct (Nat.ltb_spec x (o + bdim b)%nat).
  - exists (o, b). simpl. split; [auto|lia].
  - destruct (IH (o + bdim b)%nat) as (ob & Hin & Hx); [lia|]. exists ob. auto.
Qed.

(* ------------------------------------------------------------------ *)
(** ** the setting *)
Variable h : hsym.
Variable ns : list zvec.
Let n := sdim (hs h).
Let ops := sops (hs h).
Let N := hdim h.
Notation blocks := (boffs 0%nat (hblocks h)).

Definition opidx (s : zmat) : nat := match find_idx (zmeqb s) ops with Some k => k | None => 0%nat end.
Definition blkU (b : hblock) (s : zmat) : fmat K := nth (opidx s) (bU b) fzero.

Hypothesis Hgrp : is_group (zmul n) (zeye n) ops.
Hypothesis Hwf : forall s, In s ops -> wfz n s.
(** every block is a unitary representation of the operations *)
Hypothesis Hhom : forall ob, In ob blocks -> forall k1 k2 k3 s1 s2,
  nth_error ops k1 = Some s1 -> nth_error ops k2 = Some s2 -> nth_error ops k3 = Some (zmul n s1 s2) ->
  feq (bdim (snd ob)) (bdim (snd ob)) (nth k3 (bU (snd ob)) fzero)
      (fmul (bdim (snd ob)) (nth k1 (bU (snd ob)) fzero) (nth k2 (bU (snd ob)) fzero)).
Hypothesis Huni : forall ob, In ob blocks -> forall k s, nth_error ops k = Some s ->
  let u := nth k (bU (snd ob)) fzero in
  feq (bdim (snd ob)) (bdim (snd ob)) (fmul (bdim (snd ob)) u (fadj u)) fid /\
  feq (bdim (snd ob)) (bdim (snd ob)) (fmul (bdim (snd ob)) (fadj u) u) fid.
(** the neighbor list: right length, no repetition, no pair r, -r except 0 *)
Hypothesis Hns : forall r, In r ns -> wfv n r.
Hypothesis Hnd : NoDup ns.
Hypothesis Hhalf : forall r, In r ns -> In (zvneg n r) ns -> r = zvneg n r.

Variables half dv : K.
Hypothesis half_ok : half + half = 1.
Hypothesis half_conj : sconj half = half.
Hypothesis dv_ok : dv * ksum ops (fun _ => 1) = 1.
Hypothesis dv_conj : sconj dv = dv.

Lemma opidx_nth k s : nth_error ops k = Some s -> opidx s = k.
Proof.
  intros H. unfold opidx. destruct (find_idx (zmeqb s) ops) as [j|] eqn:E.
  - apply find_idx_some in E. destruct E as (s' & Hj & E & _). apply zmeqb_spec in E. subst s'.
    destruct Hgrp as (_ & Hnd' & _). rewrite NoDup_nth_error in Hnd'. apply Hnd'; [|congruence].
    apply nth_error_Some. congruence.
  - exfalso. pose proof (proj1 (find_idx_none _ _) E s (nth_error_In _ _ H)) as E'.
    rewrite (proj2 (zmeqb_spec s s) eq_refl) in E'. discriminate E'.
Qed.

Lemma ops_nth s : In s ops -> nth_error ops (opidx s) = Some s.
Proof.
  intros H. apply In_nth_error in H. destruct H as [k Hk]. rewrite (opidx_nth k s Hk). exact Hk.
Qed.

Lemma blkU_hom ob s t : In ob blocks -> In s ops -> In t ops ->
  feq (bdim (snd ob)) (bdim (snd ob)) (blkU (snd ob) (zmul n s t))
      (fmul (bdim (snd ob)) (blkU (snd ob) s) (blkU (snd ob) t)).
Proof.
  intros Hob Hs Ht. apply (Hhom ob Hob _ _ _ s t); try (apply ops_nth; assumption).
  apply ops_nth. apply Hgrp; assumption.
Qed.
Lemma blkU_uni ob s : In ob blocks -> In s ops ->
  feq (bdim (snd ob)) (bdim (snd ob)) (fmul (bdim (snd ob)) (blkU (snd ob) s) (fadj (blkU (snd ob) s))) fid /\
  feq (bdim (snd ob)) (bdim (snd ob)) (fmul (bdim (snd ob)) (fadj (blkU (snd ob) s)) (blkU (snd ob) s)) fid.
Proof. intros Hob Hs. apply (Huni ob Hob (opidx s) s). apply ops_nth; exact Hs. Qed.

(** ** the neighbor domain *)
Definition dom (r : zvec) : bool := match try_neighbor zveqb (zvneg n) ns r with Some _ => true | None => false end.
Definition hext (H : list (fmat K)) (r : zvec) : fmat K :=
  match hlook n ns H r with Some x => x | None => fzero end.

Lemma dom_spec r : wfv n r -> dom r = true <-> In r ns \/ In (zvneg n r) ns.
Proof.
  intros Hr. unfold dom. pose proof (try_neighbor_spec zveqb (zvneg n) ns r zveqb_spec) as H.
  destruct (try_neighbor zveqb (zvneg n) ns r) as [[j []]|].
  - split; [intros _; right|reflexivity]. destruct H as [H _]. apply nth_error_In in H. exact H.
  - split; [intros _; left|reflexivity]. apply nth_error_In in H. exact H.
  - split; [discriminate|]. intros Hc; exfalso; destruct H as [Ha Hb]; destruct Hc; [apply Ha|apply Hb]; assumption.
Qed.
Lemma dom_neg r : wfv n r -> dom (zvneg n r) = dom r.
Proof.
  intros Hr. apply eq_true_iff_eq. rewrite (dom_spec r Hr), (dom_spec _ (zvneg_wf n r)).
  rewrite zvneg_invol by exact Hr. tauto.
Qed.
Lemma hext_out H r : dom r = false -> hext H r = fzero.
Proof. unfold dom, hext, hlook. destruct (try_neighbor _ _ _ _) as [[]|]; [discriminate|reflexivity]. Qed.

Lemma hext_nth H i r : nth_error ns i = Some r -> hext H r = nth i H fzero.
Proof.
  intros Hi. unfold hext, hlook. pose proof (try_neighbor_spec zveqb (zvneg n) ns r zveqb_spec) as T.
  destruct (try_neighbor zveqb (zvneg n) ns r) as [[j []]|].
  - exfalso. destruct T as [T1 T2]. apply T2; eapply nth_error_In; exact Hi.
  - assert (j = i); [|subst; reflexivity]. rewrite NoDup_nth_error in Hnd. apply Hnd; [|congruence].
    apply nth_error_Some. congruence.
  - exfalso. destruct T as [T1 T2]. apply T1; eapply nth_error_In; exact Hi.
Qed.
Lemma hext_mirror H i r : wfv n r -> nth_error ns i = Some (zvneg n r) -> r <> zvneg n r -> hext H r = fadj (nth i H fzero).
Proof.
  intros Hr Hi Hne. unfold hext, hlook. pose proof (try_neighbor_spec zveqb (zvneg n) ns r zveqb_spec) as T.
  destruct (try_neighbor zveqb (zvneg n) ns r) as [[j []]|].
  - destruct T as [T _]. assert (j = i); [|subst; reflexivity]. rewrite NoDup_nth_error in Hnd. apply Hnd; [|congruence].
    apply nth_error_Some. congruence.
  - exfalso. apply Hne. apply Hhalf; [eapply nth_error_In; exact T|eapply nth_error_In; exact Hi].
  - exfalso. apply (proj2 T). eapply nth_error_In; exact Hi.
Qed.

(** ** block functions: one matrix-valued function of the position per pair of blocks *)
Definition bfun := obl -> obl -> zvec -> fmat K.
Definition bherm (P : bfun) : Prop := forall ob1 ob2 x, In ob1 blocks -> In ob2 blocks -> wfv n x ->
  feq (bdim (snd ob1)) (bdim (snd ob2)) (P ob1 ob2 (zvneg n x)) (fadj (P ob2 ob1 x)).
Definition bzero (P : bfun) : Prop := forall ob1 ob2 x, In ob1 blocks -> In ob2 blocks -> wfv n x -> dom x = false ->
  feq (bdim (snd ob1)) (bdim (snd ob2)) (P ob1 ob2 x) fzero.
Definition represents (R : list (fmat K)) (P : bfun) : Prop := forall ob1 ob2 i r,
  In ob1 blocks -> In ob2 blocks -> nth_error ns i = Some r ->
  feq (bdim (snd ob1)) (bdim (snd ob2)) (slice (fst ob1) (fst ob2) (nth i R fzero)) (P ob1 ob2 r).
Definition bext (H : list (fmat K)) : bfun := fun ob1 ob2 x => slice (fst ob1) (fst ob2) (hext H x).

Lemma ext_repr R P : bherm P -> bzero P -> represents R P ->
  forall ob1 ob2 x, In ob1 blocks -> In ob2 blocks -> wfv n x ->
  feq (bdim (snd ob1)) (bdim (snd ob2)) (bext R ob1 ob2 x) (P ob1 ob2 x).
Proof.
  intros HH HZ HR ob1 ob2 x H1 H2 Hx. unfold bext.
  pose proof (try_neighbor_spec zveqb (zvneg n) ns x zveqb_spec) as T.
  destruct (try_neighbor zveqb (zvneg n) ns x) as [[j []]|] eqn:E.
  - destruct T as [Hj Hni]. unfold hext, hlook. rewrite E.
    assert (E2 : feq (bdim (snd ob1)) (bdim (snd ob2)) (slice (fst ob1) (fst ob2) (fadj (nth j R fzero)))
                 (fadj (slice (fst ob2) (fst ob1) (nth j R fzero)))) by (intros a b _ _; reflexivity).
    rewrite E2. rewrite (HR ob2 ob1 j _ H2 H1 Hj).
    rewrite <- (HH ob1 ob2 _ H1 H2 (zvneg_wf n x)). rewrite zvneg_invol by exact Hx. reflexivity.
  - unfold hext, hlook. rewrite E. exact (HR ob1 ob2 j x H1 H2 T).
  - assert (Ed : dom x = false) by (unfold dom; rewrite E; reflexivity).
    rewrite (hext_out R x Ed). rewrite (HZ ob1 ob2 x H1 H2 Hx Ed). reflexivity.
Qed.

(** ** the rotation average *)
Definition rotact (ob1 ob2 : obl) (s : zmat) (r : zvec) : zvec := rot_pos n s r (bpos (snd ob1)) (bpos (snd ob2)).
Definition rotavg (P : bfun) : bfun := fun ob1 ob2 =>
  gavg zmat zvec ops (rotact ob1 ob2) dom (bdim (snd ob1)) (bdim (snd ob2)) (blkU (snd ob1)) (blkU (snd ob2)) dv (P ob1 ob2).

Definition rotterm (ob1 ob2 : obl) s x := conjl zmat (bdim (snd ob1)) (bdim (snd ob2)) (blkU (snd ob1)) (blkU (snd ob2)) s x.

Lemma rot_sum_spec H ob1 ob2 r ks :
  (forall k s, In (k, s) ks -> nth_error ops k = Some s) ->
  match rot_sum n ns H r ob1 ob2 ks with
  | Some p => forallb (fun s => dom (rotact ob1 ob2 s r)) (map snd ks) = true /\
              feq (bdim (snd ob1)) (bdim (snd ob2)) p
                (fsum (map snd ks) (fun s => rotterm ob1 ob2 s (bext H ob1 ob2 (rotact ob1 ob2 s r))))
  | None => forallb (fun s => dom (rotact ob1 ob2 s r)) (map snd ks) = false
  end.
Proof.
  induction ks as [|[k s] ks IH]; intros Hks; cbn [rot_sum map snd].
  - split; [reflexivity|]. reflexivity.
  - specialize (IH (fun k s H => Hks k s (or_intror H))). cbn [forallb].
    assert (Hk : opidx s = k) by (apply opidx_nth, Hks; left; reflexivity).
    change (rot_pos n s r (bpos (snd ob1)) (bpos (snd ob2))) with (rotact ob1 ob2 s r).
    destruct (hlook n ns H (rotact ob1 ob2 s r)) as [x|] eqn:E.
    + assert (Ed : dom (rotact ob1 ob2 s r) = true).
      { unfold dom. unfold hlook in E. destruct (try_neighbor _ _ _ _); [reflexivity|discriminate E]. }
      assert (Ex : hext H (rotact ob1 ob2 s r) = x) by (unfold hext; rewrite E; reflexivity).
      rewrite Ed.
      destruct (rot_sum n ns H r ob1 ob2 ks) as [p|].
      * destruct IH as [I1 I2]. split; [rewrite I1; reflexivity|].
        intros a b Ha Hb. unfold fadd, fsum. cbn [map ksum snd]. specialize (I2 a b Ha Hb). unfold fsum in I2. rewrite I2.
        f_equal. unfold rotterm, conjl, blkU, bext. rewrite Hk, Ex. reflexivity.
      * rewrite IH. reflexivity.
    + assert (Ed : dom (rotact ob1 ob2 s r) = false).
      { unfold dom. unfold hlook in E. destruct (try_neighbor _ _ _ _) as [[]|]; [discriminate E|reflexivity]. }
      rewrite Ed. reflexivity.
Qed.

Lemma rot_step_repr H : represents (rot_step dv h ns H) (rotavg (bext H)).
Proof.
  intros ob1 ob2 i r H1 H2 Hi. unfold rot_step.
  rewrite (nth_map_error _ ns i r fzero Hi).
  intros a b Ha Hb. unfold slice, fscale. rewrite fold_add_blocks, (ksum_bpairs h _ ob1 ob2 a b H1 H2 Ha Hb).
  cbn [fst snd]. unfold fzero at 1.
  set (ks := combine (seq 0%nat (length (sops (hs h)))) (sops (hs h))).
  pose proof (rot_sum_spec H ob1 ob2 r ks) as Hs.
  assert (Eks : map snd ks = ops) by apply map_snd_combine_seq. rewrite Eks in Hs.
  unfold rotavg, gavg. fold n. cbn [fst snd].
  destruct (rot_sum n ns H r ob1 ob2 ks) as [p|].
  - destruct Hs as [I1 I2].
    { intros k s Hk. apply combine_seq_nth in Hk. rewrite Nat.sub_0_r in Hk. apply Hk. }
    rewrite I1. unfold fscale. rewrite (I2 a b Ha Hb). unfold rotterm. ring.
  - rewrite Hs; [unfold fzero; ring|]. intros k s Hk. apply combine_seq_nth in Hk. rewrite Nat.sub_0_r in Hk. apply Hk.
Qed.

Lemma rotavg_inv P ob1 ob2 t r : In ob1 blocks -> In ob2 blocks -> In t ops ->
  feq (bdim (snd ob1)) (bdim (snd ob2)) (rotavg P ob1 ob2 (rotact ob1 ob2 t r))
    (conjr zmat (bdim (snd ob1)) (bdim (snd ob2)) (blkU (snd ob1)) (blkU (snd ob2)) t (rotavg P ob1 ob2 r)).
Proof.
  intros H1 H2 Ht. unfold rotavg.
  apply (gavg_inv zmat zvec (zmul n) (zeye n) (wfz n)).
  - apply zmul_assoc.
  - apply zmul_1_r.
  - exact Hgrp.
  - exact Hwf.
  - intros s u x. exact (rot_pos_mul n s u x (bpos (snd ob1)) (bpos (snd ob2))).
  - intros s u. apply blkU_hom; assumption.
  - intros s u. apply blkU_hom; assumption.
  - intros s. apply blkU_uni; assumption.
  - intros s. apply blkU_uni; assumption.
  - exact Ht.
Qed.

Lemma rotavg_zero P : bzero (rotavg P).
Proof.
  intros ob1 ob2 x H1 H2 Hx Hd. unfold rotavg.
  rewrite (gavg_out zmat zvec (zmul n) (zeye n) ops Hgrp (rotact ob1 ob2) (wfv n)
    (fun r Hr => rot_pos_one n r _ _ Hr) dom _ _ _ _ dv _ x Hx Hd). reflexivity.
Qed.

Lemma gavg_herm {T} (S : list T) (act12 act21 : T -> zvec -> zvec) d1 d2 (A B : T -> fmat K) (dv0 : K) F12 F21 x :
  sconj dv0 = dv0 -> wfv n x ->
  (forall s, wfv n (act21 s x)) ->
  (forall s, act12 s (zvneg n x) = zvneg n (act21 s x)) ->
  (forall y, wfv n y -> feq d1 d2 (F12 (zvneg n y)) (fadj (F21 y))) ->
  feq d1 d2 (gavg T zvec S act12 dom d1 d2 A B dv0 F12 (zvneg n x))
            (fadj (gavg T zvec S act21 dom d2 d1 B A dv0 F21 x)).
Proof.
  intros Hdv Hx Hw Hact HF. unfold gavg.
  assert (E : forallb (fun s => dom (act12 s (zvneg n x))) S = forallb (fun s => dom (act21 s x)) S).
  { clear -Hw Hact. induction S as [|s S IH]; simpl; [reflexivity|]. rewrite IH, Hact, dom_neg by apply Hw. reflexivity. }
  rewrite E. destruct (forallb (fun s => dom (act21 s x)) S).
  - rewrite fadj_scale, Hdv. apply fscale_proper; [reflexivity|]. rewrite fadj_sum. apply fsum_ext. intros s Hs.
    unfold conjl. rewrite Hact. rewrite (HF _ (Hw s)). rewrite !fadj_mul.
    rewrite (fadj_invol d1 d1 (fadj (A s))) || idtac.
    rewrite fmul_assoc. rewrite (fadj_invol _ _ (B s)). reflexivity.
  - rewrite fadj_zero. reflexivity.
Qed.

Lemma rotavg_herm P : bherm P -> bherm (rotavg P).
Proof.
  intros HP ob1 ob2 x H1 H2 Hx. unfold rotavg. apply gavg_herm.
  - exact dv_conj.
  - exact Hx.
  - intros s. apply rot_pos_wf.
  - intros s. exact (rot_pos_neg n s x (bpos (snd ob1)) (bpos (snd ob2))).
  - intros y Hy. apply HP; assumption.
Qed.

(** ** the inversion average: the group {1, -1} *)
Definition invact (ob1 ob2 : obl) (s : bool) (r : zvec) : zvec :=
  if s then inv_pos n r (bpos (snd ob1)) (bpos (snd ob2)) else r.
Definition invU (b : hblock) (s : bool) : fmat K := if s then fscale (sgn_of (beven b)) fid else fid.
Definition invavg (P : bfun) : bfun := fun ob1 ob2 =>
  gavg bool zvec [false; true] (invact ob1 ob2) dom (bdim (snd ob1)) (bdim (snd ob2)) (invU (snd ob1)) (invU (snd ob2)) half (P ob1 ob2).

Lemma sgn_sq b : sgn_of (K:=K) b * sgn_of b = 1.
Proof. destruct b; simpl; ring. Qed.
Lemma sgn_conj b : sconj (sgn_of (K:=K) b) = sgn_of b.
Proof. destruct b; simpl; [apply conj_1|]. rewrite conj_opp, conj_1. reflexivity. Qed.

Lemma bool_group : is_group xorb false [false; true].
Proof.
  split; [left; reflexivity|]. split; [repeat constructor; simpl; intuition discriminate|]. split.
  - intros [] [] _ _; simpl; auto.
  - intros [] _; [exists true|exists false]; simpl; auto.
Qed.

Lemma invU_hom b s t d : feq d d (invU b (xorb s t)) (fmul d (invU b s) (invU b t)).
Proof.
  destruct s, t; simpl.
  - rewrite fmul_scale_l, fmul_scale_r, fmul_id_l, fscale_mul, sgn_sq, fscale_1. reflexivity.
  - rewrite fmul_id_r. reflexivity.
  - rewrite fmul_id_l. reflexivity.
  - rewrite fmul_id_l. reflexivity.
Qed.
Lemma invU_adj b s d : feq d d (fadj (invU b s)) (invU b s).
Proof. destruct s; simpl; rewrite ?fadj_scale, ?sgn_conj, fadj_id; reflexivity. Qed.
Lemma invU_uni b s d : feq d d (fmul d (invU b s) (fadj (invU b s))) fid /\ feq d d (fmul d (fadj (invU b s)) (invU b s)) fid.
Proof.
  assert (E : feq d d (fmul d (invU b s) (invU b s)) fid).
  { rewrite <- (invU_hom b s s d). rewrite xorb_nilpotent. reflexivity. }
  split; rewrite (invU_adj b s d); exact E.
Qed.

Lemma inv_conjl (ob1 ob2 : obl) s x :
  feq (bdim (snd ob1)) (bdim (snd ob2)) (conjl bool (bdim (snd ob1)) (bdim (snd ob2)) (invU (snd ob1)) (invU (snd ob2)) s x)
    (if s then fscale (sgn_of (beven (snd ob1)) * sgn_of (beven (snd ob2))) x else x).
Proof.
  unfold conjl. rewrite (invU_adj (snd ob1) s (bdim (snd ob1))). destruct s; simpl.
  - rewrite !fmul_scale_l, fmul_scale_r, fmul_id_l, fmul_id_r, fscale_mul. reflexivity.
  - rewrite fmul_id_l, fmul_id_r. reflexivity.
Qed.

Lemma inv_step_repr H : sinv (hs h) = true -> represents (inv_step half h ns H) (invavg (bext H)).
Proof.
  intros Hinv ob1 ob2 i r H1 H2 Hi. unfold inv_step. rewrite Hinv.
  rewrite (nth_map_error _ _ i (i, r) fzero) by (apply (nth_combine_seq ns 0%nat i r Hi)).
  assert (Hdr : dom r = true) by (apply dom_spec; [apply Hns; eapply nth_error_In; exact Hi|left; eapply nth_error_In; exact Hi]).
  intros a b Ha Hb. unfold slice, fscale, fadd. rewrite fold_add_blocks, (ksum_bpairs h _ ob1 ob2 a b H1 H2 Ha Hb).
  cbn [fst snd]. unfold fzero at 2. unfold inv_block. fold n.
  unfold invavg, gavg. cbn [forallb].
  change (invact ob1 ob2 false r) with r. rewrite Hdr. cbn [andb].
  change (invact ob1 ob2 true r) with (inv_pos n r (bpos (snd ob1)) (bpos (snd ob2))).
  set (r' := inv_pos n r (bpos (snd ob1)) (bpos (snd ob2))).
  destruct (hlook n ns H r') as [x|] eqn:E.
  - assert (Ed : dom r' = true).
    { unfold dom. unfold hlook in E. destruct (try_neighbor _ _ _ _); [reflexivity|discriminate E]. }
    assert (Ex : hext H r' = x) by (unfold hext; rewrite E; reflexivity).
    rewrite Ed. cbn [andb]. unfold fscale, fsum. cbn [ksum].
    rewrite (inv_conjl ob1 ob2 false _ a b Ha Hb), (inv_conjl ob1 ob2 true _ a b Ha Hb).
    change (invact ob1 ob2 false r) with r. change (invact ob1 ob2 true r) with r'.
    unfold bext. rewrite Ex, (hext_nth H i r Hi). unfold slice, fscale. ring.
  - assert (Ed : dom r' = false).
    { unfold dom. unfold hlook in E. destruct (try_neighbor _ _ _ _) as [[]|]; [discriminate E|reflexivity]. }
    rewrite Ed. cbn [andb]. unfold fscale, slice, fzero at 3. ring.
Qed.

Lemma invact_mul ob1 ob2 s t r : wfv n r -> invact ob1 ob2 (xorb s t) r = invact ob1 ob2 s (invact ob1 ob2 t r).
Proof.
  intros Hr. destruct s, t; simpl; try reflexivity. symmetry. apply inv_pos_invol; exact Hr.
Qed.

(** like [gavg_inv], but the action law is only available on well-formed positions *)
Lemma invavg_inv P ob1 ob2 r : In ob1 blocks -> In ob2 blocks -> wfv n r ->
  feq (bdim (snd ob1)) (bdim (snd ob2)) (invavg P ob1 ob2 (invact ob1 ob2 true r))
    (fscale (sgn_of (beven (snd ob1)) * sgn_of (beven (snd ob2))) (invavg P ob1 ob2 r)).
Proof.
  intros H1 H2 Hr. unfold invavg, gavg. cbn [forallb].
  assert (E1 : invact ob1 ob2 false (invact ob1 ob2 true r) = invact ob1 ob2 true r) by reflexivity.
  assert (E2 : invact ob1 ob2 true (invact ob1 ob2 true r) = r) by (apply inv_pos_invol; exact Hr).
  assert (E3 : invact ob1 ob2 false r = r) by reflexivity.
  rewrite E1, E2, E3. rewrite !andb_true_r. rewrite (andb_comm (dom (invact ob1 ob2 true r))).
  destruct (dom r && dom (invact ob1 ob2 true r)).
  - intros a b Ha Hb. unfold fscale, fsum. cbn [ksum].
    rewrite !(inv_conjl ob1 ob2 false _ a b Ha Hb), !(inv_conjl ob1 ob2 true _ a b Ha Hb).
    rewrite E1, E2, E3. unfold fscale.
    pose proof (sgn_sq (beven (snd ob1))) as Q1. pose proof (sgn_sq (beven (snd ob2))) as Q2.
    set (e1 := sgn_of (beven (snd ob1))) in *. set (e2 := sgn_of (beven (snd ob2))) in *.
    set (X := P ob1 ob2 (invact ob1 ob2 true r) a b). set (Y := P ob1 ob2 r a b).
    transitivity (half * ((e1 * e1) * (e2 * e2) * X + e1 * e2 * Y)); [rewrite Q1, Q2; ring|ring].
  - intros a b _ _. unfold fscale, fzero. ring.
Qed.

Lemma invavg_zero P : bzero (invavg P).
Proof.
  intros ob1 ob2 x H1 H2 Hx Hd. unfold invavg, gavg. cbn [forallb]. change (invact ob1 ob2 false x) with x. rewrite Hd. reflexivity.
Qed.
Lemma invavg_herm P : bherm P -> bherm (invavg P).
Proof.
  intros HP ob1 ob2 x H1 H2 Hx. unfold invavg. apply gavg_herm.
  - exact half_conj.
  - exact Hx.
  - intros []; simpl; [apply inv_pos_wf|exact Hx].
  - intros []; simpl; [apply inv_pos_neg|reflexivity].
  - intros y Hy. apply HP; assumption.
Qed.
Lemma invavg_fix P ob1 ob2 r : In ob1 blocks -> In ob2 blocks -> wfv n r -> bzero P ->
  (forall x, wfv n x -> feq (bdim (snd ob1)) (bdim (snd ob2)) (P ob1 ob2 (invact ob1 ob2 true x))
     (fscale (sgn_of (beven (snd ob1)) * sgn_of (beven (snd ob2))) (P ob1 ob2 x))) ->
  feq (bdim (snd ob1)) (bdim (snd ob2)) (invavg P ob1 ob2 r) (P ob1 ob2 r).
Proof.
  intros H1 H2 Hr HZ Hs. unfold invavg, gavg. cbn [forallb]. change (invact ob1 ob2 false r) with r. rewrite andb_true_r.
  pose proof (sgn_sq (beven (snd ob1))) as Q1. pose proof (sgn_sq (beven (snd ob2))) as Q2.
  set (e1 := sgn_of (beven (snd ob1))) in *. set (e2 := sgn_of (beven (snd ob2))) in *.
  destruct (dom r) eqn:Ed; cbn [andb].
  2:{ rewrite (HZ ob1 ob2 r H1 H2 Hr Ed). reflexivity. }
  destruct (dom (invact ob1 ob2 true r)) eqn:Ei.
  - intros a b Ha Hb. unfold fscale, fsum. cbn [ksum].
    rewrite (inv_conjl ob1 ob2 false _ a b Ha Hb), (inv_conjl ob1 ob2 true _ a b Ha Hb).
    change (invact ob1 ob2 false r) with r. fold e1 e2. unfold fscale. rewrite (Hs r Hr a b Ha Hb). unfold fscale.
    set (Y := P ob1 ob2 r a b). transitivity (half * (Y + (e1 * e1) * (e2 * e2) * Y)); [ring|]. rewrite Q1, Q2.
    transitivity ((half + half) * Y); [ring|]. rewrite half_ok. ring.
  - intros a b Ha Hb. unfold fzero.
    pose proof (HZ ob1 ob2 _ H1 H2 (inv_pos_wf n r _ _) Ei a b Ha Hb) as E. unfold fzero in E.
    change (inv_pos n r (bpos (snd ob1)) (bpos (snd ob2))) with (invact ob1 ob2 true r) in E.
    rewrite (Hs r Hr a b Ha Hb) in E. unfold fscale in E. fold e1 e2 in E.
    transitivity ((e1 * e2) * (e1 * e2 * P ob1 ob2 r a b)).
    + rewrite E. ring.
    + transitivity ((e1 * e1) * (e2 * e2) * P ob1 ob2 r a b); [ring|]. rewrite Q1, Q2. ring.
Qed.

(** ** hermitian part at the origin *)
Lemma zero_vec_neg r : wfv n r -> zero_vec r = true <-> r = zvneg n r.
Proof.
  intros Hr. unfold zero_vec. rewrite forallb_forall. split.
  - intros H. apply (vec_ext Zs n); [exact Hr|apply zvneg_wf|]. intros i Hi. rewrite vent_zvneg by exact Hi.
    assert (E : vent (K:=Zs) r i = 0%Z).
    { symmetry. apply Z.eqb_eq, H. apply nth_In. unfold wfv in Hr. change (i < length r)%nat. rewrite Hr. exact Hi. }
    rewrite E. reflexivity.
  - intros H x Hx. apply Z.eqb_eq. apply In_nth with (d := 0%Z) in Hx. destruct Hx as (i & Hi & Ex).
    assert (Hi' : (i < n)%nat) by (unfold wfv in Hr; rewrite <- Hr; exact Hi).
    pose proof (vent_zvneg n r i Hi') as E. rewrite <- H in E.
    assert (Ex' : vent (K:=Zs) r i = x) by exact Ex. rewrite Ex' in E. lia.
Qed.

Lemma herm_origin_nz hf (l : list zvec) H i r : nth_error l i = Some r -> zero_vec r = false ->
  nth i (herm_origin (K:=K) hf l H) fzero = nth i H fzero.
Proof.
  revert H i; induction l as [|a l IH]; intros [|x H] [|i]; simpl; intros E Hz; try discriminate E; try reflexivity.
  - injection E as ->. rewrite Hz. reflexivity.
  - destruct (zero_vec a); [reflexivity|]. simpl. apply IH; assumption.
Qed.
Lemma herm_origin_z hf (l : list zvec) H i r : nth_error l i = Some r -> zero_vec r = true -> length H = length l ->
  (forall j r', (j < i)%nat -> nth_error l j = Some r' -> zero_vec r' = false) ->
  nth i (herm_origin (K:=K) hf l H) fzero = fscale hf (fadd (nth i H fzero) (fadj (nth i H fzero))).
Proof.
  revert H i; induction l as [|a l IH]; intros [|x H] [|i]; simpl; intros E Hz HL Hf; try discriminate E; try discriminate HL.
  - injection E as ->. rewrite Hz. reflexivity.
  - rewrite (Hf 0%nat a) by (reflexivity || lia). simpl. apply IH; try assumption; [lia|].
    intros j r' Hj Hn. apply (Hf (S j) r'); [lia|exact Hn].
Qed.
Lemma herm_origin_length hf (l : list zvec) H : length (herm_origin (K:=K) hf l H) = length H.
Proof.
  revert H; induction l as [|a l IH]; intros [|x H]; simpl; try reflexivity.
  destruct (zero_vec a); simpl; [reflexivity|]. rewrite IH; reflexivity.
Qed.

Lemma zero_vec_unique r r' : wfv n r -> wfv n r' -> zero_vec r = true -> zero_vec r' = true -> r = r'.
Proof.
  intros Hr Hr' H H'. apply zero_vec_neg in H; [|exact Hr]. apply zero_vec_neg in H'; [|exact Hr'].
  apply (vec_ext Zs n); [exact Hr|exact Hr'|]. intros i Hi.
  pose proof (vent_zvneg n r i Hi) as E. rewrite <- H in E.
  pose proof (vent_zvneg n r' i Hi) as E'. rewrite <- H' in E'. lia.
Qed.

Lemma herm_origin_z' H i r : length H = length ns -> nth_error ns i = Some r -> zero_vec r = true ->
  nth i (herm_origin half ns H) fzero = fscale half (fadd (nth i H fzero) (fadj (nth i H fzero))).
Proof.
  intros HL Hi Hz. apply (herm_origin_z half ns H i r Hi Hz HL).
  intros j r' Hj Hn. destruct (zero_vec r') eqn:E; [|reflexivity]. exfalso.
  assert (r' = r).
  { apply zero_vec_unique; try assumption; apply Hns; eapply nth_error_In; eassumption. }
  subst r'. rewrite NoDup_nth_error in Hnd. assert (j = i); [|lia]. apply Hnd; [|congruence].
  apply nth_error_Some. congruence.
Qed.

(** the matrix at the origin is hermitian *)
Definition herm0 (H : list (fmat K)) : Prop := forall i r ob1 ob2, nth_error ns i = Some r -> zero_vec r = true ->
  In ob1 blocks -> In ob2 blocks ->
  feq (bdim (snd ob1)) (bdim (snd ob2)) (slice (fst ob1) (fst ob2) (fadj (nth i H fzero))) (slice (fst ob1) (fst ob2) (nth i H fzero)).

Lemma herm_origin_herm0 H : length H = length ns -> herm0 (herm_origin half ns H).
Proof.
  intros HL i r ob1 ob2 Hi Hz _ _. rewrite (herm_origin_z' H i r HL Hi Hz).
  intros a b _ _. unfold slice, fadj, fscale, fadd. rewrite s_conj_mul, s_conj_add, s_conj_invol, half_conj. ring.
Qed.

Lemma herm0_bherm H : herm0 H -> bherm (bext H).
Proof.
  intros HH ob1 ob2 x H1 H2 Hx.
  assert (Hnx : wfv n (zvneg n x)) by apply zvneg_wf.
  assert (Hdec : x = zvneg n x \/ x <> zvneg n x).
  { destruct (zveqb x (zvneg n x)) eqn:E; [left; apply zveqb_spec; exact E|right].
    intros E'. apply zveqb_spec in E'. congruence. }
  assert (Tr : forall M : fmat K, feq (bdim (snd ob1)) (bdim (snd ob2)) (fadj (slice (fst ob2) (fst ob1) M)) (slice (fst ob1) (fst ob2) (fadj M)))
    by (intros M a b _ _; reflexivity).
  unfold bext. rewrite Tr.
  pose proof (dom_spec x Hx) as Hd.
  destruct (dom x) eqn:Ed.
  - destruct (proj1 Hd eq_refl) as [Hin|Hin]; apply In_nth_error in Hin; destruct Hin as [i Hi].
    + destruct Hdec as [E|E].
      * rewrite <- E. rewrite (hext_nth H i x Hi). symmetry. apply (HH i x); try assumption.
        apply zero_vec_neg; assumption.
      * rewrite (hext_nth H i x Hi).
        rewrite (hext_mirror H i (zvneg n x) Hnx).
        -- reflexivity.
        -- rewrite zvneg_invol by exact Hx. exact Hi.
        -- rewrite zvneg_invol by exact Hx. intros E'. apply E. symmetry. exact E'.
    + destruct Hdec as [E|E].
      * rewrite <- E in *. rewrite (hext_nth H i x Hi). symmetry. apply (HH i x); try assumption.
        apply zero_vec_neg; assumption.
      * rewrite (hext_nth H i _ Hi). rewrite (hext_mirror H i x Hx Hi E).
        intros a b _ _. unfold slice, fadj. rewrite s_conj_invol. reflexivity.
  - rewrite (hext_out H x Ed). rewrite (hext_out H (zvneg n x)) by (rewrite dom_neg; assumption).
    intros a b _ _. unfold slice, fadj, fzero. rewrite conj_0. reflexivity.
Qed.

Lemma bext_zero H : bzero (bext H).
Proof. intros ob1 ob2 x _ _ _ Hd. unfold bext. rewrite (hext_out H x Hd). reflexivity. Qed.

(** ** the result of the inversion step *)
Definition step1 (H : list (fmat K)) : list (fmat K) := inv_step half h ns (herm_origin half ns H).

Lemma step1_ext H : length H = length ns -> forall ob1 ob2 x, In ob1 blocks -> In ob2 blocks -> wfv n x ->
  feq (bdim (snd ob1)) (bdim (snd ob2)) (bext (step1 H) ob1 ob2 x)
    (if sinv (hs h) then invavg (bext (herm_origin half ns H)) ob1 ob2 x else bext (herm_origin half ns H) ob1 ob2 x).
Proof.
  intros HL ob1 ob2 x H1 H2 Hx. unfold step1. destruct (sinv (hs h)) eqn:E.
  - apply (ext_repr _ (invavg (bext (herm_origin half ns H)))); try assumption.
    + apply invavg_herm, herm0_bherm, herm_origin_herm0, HL.
    + apply invavg_zero.
    + apply inv_step_repr, E.
  - unfold inv_step. rewrite E. reflexivity.
Qed.
Lemma step1_herm H : length H = length ns -> bherm (bext (step1 H)).
Proof.
  intros HL ob1 ob2 x H1 H2 Hx.
  rewrite (step1_ext H HL ob1 ob2 _ H1 H2 (zvneg_wf n x)). rewrite (step1_ext H HL ob2 ob1 x H2 H1 Hx).
  assert (HB : bherm (bext (herm_origin half ns H))) by apply herm0_bherm, herm_origin_herm0, HL.
  destruct (sinv (hs h)); [apply invavg_herm; assumption|apply HB; assumption].
Qed.

(** the zero extension of the result of symmetrize *)
Lemma result_ext H : length H = length ns -> forall ob1 ob2 x, In ob1 blocks -> In ob2 blocks -> wfv n x ->
  feq (bdim (snd ob1)) (bdim (snd ob2)) (bext (ham_symmetrize half dv h H ns) ob1 ob2 x) (rotavg (bext (step1 H)) ob1 ob2 x).
Proof.
  intros HL ob1 ob2 x H1 H2 Hx. apply (ext_repr _ (rotavg (bext (step1 H)))); try assumption.
  - apply rotavg_herm, step1_herm, HL.
  - apply rotavg_zero.
  - apply rot_step_repr.
Qed.
Lemma ham_symmetrize_length H : length (ham_symmetrize half dv h H ns) = length ns.
Proof. unfold ham_symmetrize, rot_step. apply map_length. Qed.

Lemma result_herm H : length H = length ns -> bherm (bext (ham_symmetrize half dv h H ns)).
Proof.
  intros HL ob1 ob2 x H1 H2 Hx.
  rewrite (result_ext H HL ob1 ob2 _ H1 H2 (zvneg_wf n x)). rewrite (result_ext H HL ob2 ob1 x H2 H1 Hx).
  apply rotavg_herm; try assumption. apply step1_herm, HL.
Qed.
Lemma bherm_herm0 H : bherm (bext H) -> herm0 H.
Proof.
  intros HB i r ob1 ob2 Hi Hz H1 H2.
  assert (Hr : wfv n r) by (apply Hns; eapply nth_error_In; exact Hi).
  pose proof (HB ob1 ob2 r H1 H2 Hr) as E. apply zero_vec_neg in Hz; [|exact Hr]. rewrite <- Hz in E.
  unfold bext in E. rewrite (hext_nth H i r Hi) in E. symmetry. rewrite E. intros a b _ _. reflexivity.
Qed.

(** C24: the result transforms with the representation *)
Theorem symmetrize_symmetric H : length H = length ns -> forall ob1 ob2 k s x,
  In ob1 blocks -> In ob2 blocks -> nth_error ops k = Some s -> wfv n x ->
  feq (bdim (snd ob1)) (bdim (snd ob2))
    (bext (ham_symmetrize half dv h H ns) ob1 ob2 (rot_pos n s x (bpos (snd ob1)) (bpos (snd ob2))))
    (fmul (bdim (snd ob2)) (fmul (bdim (snd ob1)) (nth k (bU (snd ob1)) fzero) (bext (ham_symmetrize half dv h H ns) ob1 ob2 x))
       (fadj (nth k (bU (snd ob2)) fzero))).
Proof.
  intros HL ob1 ob2 k s x H1 H2 Hk Hx.
  rewrite (result_ext H HL ob1 ob2 _ H1 H2 (rot_pos_wf n s x _ _)). rewrite (result_ext H HL ob1 ob2 x H1 H2 Hx).
  rewrite (rotavg_inv (bext (step1 H)) ob1 ob2 s x H1 H2 (nth_error_In _ _ Hk)).
  unfold conjr, blkU. rewrite (opidx_nth k s Hk). reflexivity.
Qed.

(** orbits of the neighbor domain are compatible with the inversion *)
Definition inv_compat : Prop := forall ob1 ob2 x, In ob1 blocks -> In ob2 blocks -> wfv n x ->
  (forall s, In s ops -> dom (rot_pos n s x (bpos (snd ob1)) (bpos (snd ob2))) = true) ->
  dom (inv_pos n x (bpos (snd ob1)) (bpos (snd ob2))) = true ->
  forall s, In s ops -> dom (inv_pos n (rot_pos n s x (bpos (snd ob1)) (bpos (snd ob2))) (bpos (snd ob1)) (bpos (snd ob2))) = true.

Lemma rotact_back ob1 ob2 s x : In s ops -> wfv n x -> exists t, In t ops /\ rotact ob1 ob2 t (rotact ob1 ob2 s x) = x.
Proof.
  intros Hs Hx. destruct (proj2 (proj2 (proj2 Hgrp)) s Hs) as (t & Ht & E2 & E).
  exists t. split; [exact Ht|]. unfold rotact. rewrite <- rot_pos_mul, E. apply rot_pos_one, Hx.
Qed.

Theorem symmetrize_inversion H : length H = length ns -> sinv (hs h) = true -> inv_compat -> forall ob1 ob2 x,
  In ob1 blocks -> In ob2 blocks -> wfv n x ->
  feq (bdim (snd ob1)) (bdim (snd ob2))
    (bext (ham_symmetrize half dv h H ns) ob1 ob2 (inv_pos n x (bpos (snd ob1)) (bpos (snd ob2))))
    (fscale (sgn_of (beven (snd ob1)) * sgn_of (beven (snd ob2))) (bext (ham_symmetrize half dv h H ns) ob1 ob2 x)).
Proof.
  intros HL Hi HC ob1 ob2 x H1 H2 Hx.
  rewrite (result_ext H HL ob1 ob2 _ H1 H2 (inv_pos_wf n x _ _)). rewrite (result_ext H HL ob1 ob2 x H1 H2 Hx).
  set (iv := fun y => inv_pos n y (bpos (snd ob1)) (bpos (snd ob2))).
  change (inv_pos n x (bpos (snd ob1)) (bpos (snd ob2))) with (iv x).
  set (e := sgn_of (beven (snd ob1)) * sgn_of (beven (snd ob2))).
  assert (Hcomm : forall s y, rotact ob1 ob2 s (iv y) = iv (rotact ob1 ob2 s y)) by (intros s y; exact (rot_inv_pos n s y (bpos (snd ob1)) (bpos (snd ob2)))).
  (* orbit predicates *)
  set (orb := fun y => forallb (fun s => dom (rotact ob1 ob2 s y)) ops).
  assert (Horb : forall y, orb y = true <-> forall s, In s ops -> dom (rotact ob1 ob2 s y) = true)
    by (intros y; unfold orb; apply forallb_forall).
  assert (Hone : forall y, wfv n y -> rotact ob1 ob2 (zeye n) y = y) by (intros y Hy; exact (rot_pos_one n y (bpos (snd ob1)) (bpos (snd ob2)) Hy)).
  assert (HF : forall y, wfv n y -> feq (bdim (snd ob1)) (bdim (snd ob2)) (bext (step1 H) ob1 ob2 (iv y)) (fscale e (bext (step1 H) ob1 ob2 y))).
  { intros y Hy. unfold iv. rewrite (step1_ext H HL ob1 ob2 _ H1 H2 (inv_pos_wf n y _ _)). rewrite (step1_ext H HL ob1 ob2 y H1 H2 Hy).
    rewrite Hi. apply (invavg_inv (bext (herm_origin half ns H)) ob1 ob2 y H1 H2 Hy). }
  (* P vanishes when a partner is missing *)
  assert (Hvan : forall y, wfv n y -> dom (iv y) = false -> feq (bdim (snd ob1)) (bdim (snd ob2)) (bext (step1 H) ob1 ob2 y) fzero).
  { intros y Hy Hd. rewrite (step1_ext H HL ob1 ob2 y H1 H2 Hy). rewrite Hi. unfold invavg, gavg. cbn [forallb].
    change (invact ob1 ob2 true y) with (iv y). rewrite Hd. rewrite andb_false_r || idtac. destruct (dom (invact ob1 ob2 false y)); reflexivity. }
  assert (key : forall y, wfv n y -> orb y = true -> orb (iv y) = false ->
                feq (bdim (snd ob1)) (bdim (snd ob2)) (rotavg (bext (step1 H)) ob1 ob2 y) fzero).
  { intros y Hy Ho Hoi. unfold rotavg, gavg. fold (orb y). rewrite Ho.
    rewrite fsum_zero; [apply fscale_0|]. intros s Hs.
    rewrite (conjl_feq zmat (bdim (snd ob1)) (bdim (snd ob2)) (blkU (snd ob1)) (blkU (snd ob2)) s _ fzero).
    - unfold conjl. rewrite fmul_zero_r, fmul_zero_l. reflexivity.
    - apply Hvan; [apply rot_pos_wf|]. destruct (dom (iv (rotact ob1 ob2 s y))) eqn:Ed; [|reflexivity]. exfalso.
      assert (orb (iv y) = true); [|congruence]. apply Horb. intros t Ht. rewrite Hcomm.
      (* t y = (t s^-1) (s y) *)
      destruct (rotact_back ob1 ob2 s y Hs Hy) as (u & Hu & Eu).
      replace (rotact ob1 ob2 t y) with (rotact ob1 ob2 (zmul n t u) (rotact ob1 ob2 s y)).
      + apply (HC ob1 ob2 (rotact ob1 ob2 s y) H1 H2).
        * apply rot_pos_wf.
        * intros v Hv. change (dom (rotact ob1 ob2 v (rotact ob1 ob2 s y)) = true). unfold rotact. rewrite <- rot_pos_mul.
          apply (proj1 (Horb y) Ho). apply Hgrp; assumption.
        * exact Ed.
        * apply Hgrp; assumption.
      + unfold rotact. rewrite rot_pos_mul. f_equal. exact Eu. }
  destruct (orb x) eqn:Ho, (orb (iv x)) eqn:Hoi.
  - unfold rotavg, gavg. fold (orb x). fold (orb (iv x)). rewrite Ho, Hoi.
    rewrite fscale_mul. replace (e * dv) with (dv * e) by ring. rewrite <- fscale_mul. apply fscale_proper; [reflexivity|].
    rewrite <- fsum_scale. apply fsum_ext. intros s Hs. rewrite Hcomm.
    rewrite (conjl_feq zmat _ _ _ _ s _ _ (HF (rotact ob1 ob2 s x) (rot_pos_wf n s x _ _))).
    unfold conjl. rewrite fmul_scale_r, fmul_scale_l. reflexivity.
  - rewrite (key x Hx Ho Hoi). unfold rotavg, gavg. fold (orb (iv x)). rewrite Hoi. rewrite fscale_0. reflexivity.
  - assert (E2 : iv (iv x) = x) by exact (inv_pos_invol n x (bpos (snd ob1)) (bpos (snd ob2)) Hx).
    rewrite (key (iv x) (inv_pos_wf n x _ _) Hoi); [|rewrite E2; exact Ho].
    unfold rotavg, gavg. fold (orb x). rewrite Ho. rewrite fscale_0. reflexivity.
  - unfold rotavg, gavg. fold (orb x). fold (orb (iv x)). rewrite Ho, Hoi. rewrite fscale_0. reflexivity.
Qed.

(** symmetric models *)
Definition rot_symmetric (H : list (fmat K)) : Prop := forall ob1 ob2 k s x,
  In ob1 blocks -> In ob2 blocks -> nth_error ops k = Some s -> wfv n x ->
  feq (bdim (snd ob1)) (bdim (snd ob2)) (bext H ob1 ob2 (rot_pos n s x (bpos (snd ob1)) (bpos (snd ob2))))
    (fmul (bdim (snd ob2)) (fmul (bdim (snd ob1)) (nth k (bU (snd ob1)) fzero) (bext H ob1 ob2 x))
       (fadj (nth k (bU (snd ob2)) fzero))).
Definition inv_symmetric (H : list (fmat K)) : Prop := forall ob1 ob2 x,
  In ob1 blocks -> In ob2 blocks -> wfv n x ->
  feq (bdim (snd ob1)) (bdim (snd ob2)) (bext H ob1 ob2 (inv_pos n x (bpos (snd ob1)) (bpos (snd ob2))))
    (fscale (sgn_of (beven (snd ob1)) * sgn_of (beven (snd ob2))) (bext H ob1 ob2 x)).

Lemma feq_blocks (A B : fmat K) :
  (forall ob1 ob2, In ob1 blocks -> In ob2 blocks ->
     feq (bdim (snd ob1)) (bdim (snd ob2)) (slice (fst ob1) (fst ob2) A) (slice (fst ob1) (fst ob2) B)) -> feq N N A B.
Proof.
  intros HB a b Ha Hb.
  destruct (boffs_cover 0%nat (hblocks h) a) as (ob1 & I1 & Q1); [unfold N, hdim in Ha; lia|].
  destruct (boffs_cover 0%nat (hblocks h) b) as (ob2 & I2 & Q2); [unfold N, hdim in Hb; lia|].
  pose proof (HB ob1 ob2 I1 I2 (a - fst ob1)%nat (b - fst ob2)%nat) as E. unfold slice in E.
  replace (fst ob1 + (a - fst ob1))%nat with a in E by lia. replace (fst ob2 + (b - fst ob2))%nat with b in E by lia.
  apply E; lia.
Qed.

Lemma herm0_origin_same H i r ob1 ob2 : length H = length ns -> herm0 H -> In ob1 blocks -> In ob2 blocks -> nth_error ns i = Some r ->
  feq (bdim (snd ob1)) (bdim (snd ob2)) (slice (fst ob1) (fst ob2) (nth i (herm_origin half ns H) fzero)) (slice (fst ob1) (fst ob2) (nth i H fzero)).
Proof.
  intros HL HH H1 H2 Hi. destruct (zero_vec r) eqn:Ez.
  - rewrite (herm_origin_z' H i r HL Hi Ez). intros a b Ha Hb. pose proof (HH i r ob1 ob2 Hi Ez H1 H2 a b Ha Hb) as E.
    unfold slice, fscale, fadd in *. rewrite E.
    set (y := nth i H fzero (fst ob1 + a)%nat (fst ob2 + b)%nat). transitivity ((half + half) * y); [ring|]. rewrite half_ok. ring.
  - rewrite (herm_origin_nz half ns H i r Hi Ez). reflexivity.
Qed.

Theorem symmetrize_fixed H : length H = length ns -> herm0 H -> rot_symmetric H ->
  (sinv (hs h) = true -> inv_symmetric H) ->
  forall i, (i < length ns)%nat -> feq N N (nth i (ham_symmetrize half dv h H ns) fzero) (nth i H fzero).
Proof.
  intros HL HH HR HI i Hi.
  destruct (nth_error ns i) as [r|] eqn:Er; [|apply nth_error_None in Er; lia].
  assert (Hr : wfv n r) by (apply Hns; eapply nth_error_In; exact Er).
  assert (B1 : forall ob1 ob2 x, In ob1 blocks -> In ob2 blocks -> wfv n x ->
     feq (bdim (snd ob1)) (bdim (snd ob2)) (bext (herm_origin half ns H) ob1 ob2 x) (bext H ob1 ob2 x)).
  { intros ob1 ob2 x H1 H2 Hx. apply (ext_repr _ (bext H)); try assumption.
    - apply herm0_bherm, HH.
    - apply bext_zero.
    - intros o1 o2 j y J1 J2 Hj. rewrite (herm0_origin_same H j y o1 o2 HL HH J1 J2 Hj).
      unfold bext. rewrite (hext_nth H j y Hj). reflexivity. }
  assert (B2 : forall ob1 ob2 x, In ob1 blocks -> In ob2 blocks -> wfv n x ->
     feq (bdim (snd ob1)) (bdim (snd ob2)) (bext (step1 H) ob1 ob2 x) (bext H ob1 ob2 x)).
  { intros ob1 ob2 x H1 H2 Hx. rewrite (step1_ext H HL ob1 ob2 x H1 H2 Hx).
    destruct (sinv (hs h)) eqn:Es; [|apply B1; assumption].
    rewrite (invavg_fix (bext (herm_origin half ns H)) ob1 ob2 x H1 H2 Hx (bext_zero _)); [apply B1; assumption|].
    intros y Hy. cbn [invact]. rewrite (B1 ob1 ob2 _ H1 H2 (inv_pos_wf n y _ _)). rewrite (B1 ob1 ob2 y H1 H2 Hy).
    apply (HI eq_refl); assumption. }
  apply feq_blocks. intros ob1 ob2 H1 H2.
  rewrite (rot_step_repr (step1 H) ob1 ob2 i r H1 H2 Er).
  transitivity (bext (step1 H) ob1 ob2 r).
  2:{ rewrite (B2 ob1 ob2 r H1 H2 Hr). unfold bext. rewrite (hext_nth H i r Er). reflexivity. }
  unfold rotavg. apply (gavg_fix zmat zvec ops (rotact ob1 ob2) (wfv n)).
  - intros s x _. apply rot_pos_wf.
  - intros s Hs. apply blkU_uni; assumption.
  - intros s Hs. apply blkU_uni; assumption.
  - exact dv_ok.
  - exact Hr.
  - intros x Hx Hd. apply bext_zero; assumption.
  - intros t x Ht Hx. unfold rotact at 1. rewrite (B2 ob1 ob2 _ H1 H2 (rot_pos_wf n t x _ _)).
    unfold conjr. rewrite (B2 ob1 ob2 x H1 H2 Hx). apply (HR ob1 ob2 (opidx t) t x H1 H2 (ops_nth t Ht) Hx).
Qed.

Theorem symmetrize_idempotent H : length H = length ns -> (sinv (hs h) = true -> inv_compat) ->
  forall i, (i < length ns)%nat ->
  feq N N (nth i (ham_symmetrize half dv h (ham_symmetrize half dv h H ns) ns) fzero) (nth i (ham_symmetrize half dv h H ns) fzero).
Proof.
  intros HL HC. apply symmetrize_fixed.
  - apply ham_symmetrize_length.
  - apply bherm_herm0, result_herm, HL.
  - intros ob1 ob2 k s x. apply symmetrize_symmetric, HL.
  - intros Hi ob1 ob2 x. apply symmetrize_inversion; auto.
Qed.

Lemma symmetrize_herm0 H : length H = length ns -> herm0 (ham_symmetrize half dv h H ns).
Proof. intros HL. apply bherm_herm0, result_herm, HL. Qed.

(** ** linearity over the self-adjoint scalars *)
Definition lin_rel (c : K) (H H' H'' : list (fmat K)) : Prop := forall i, (i < length ns)%nat ->
  forall ob1 ob2, In ob1 blocks -> In ob2 blocks ->
  feq (bdim (snd ob1)) (bdim (snd ob2)) (slice (fst ob1) (fst ob2) (nth i H'' fzero))
     (slice (fst ob1) (fst ob2) (fadd (nth i H fzero) (fscale c (nth i H' fzero)))).

Lemma bext_lin c H H' H'' : sconj c = c -> lin_rel c H H' H'' -> forall ob1 ob2 x, In ob1 blocks -> In ob2 blocks ->
  feq (bdim (snd ob1)) (bdim (snd ob2)) (bext H'' ob1 ob2 x) (fadd (bext H ob1 ob2 x) (fscale c (bext H' ob1 ob2 x))).
Proof.
  intros Hc HL ob1 ob2 x H1 H2 a b Ha Hb. unfold bext, hext, hlook.
  pose proof (try_neighbor_spec zveqb (zvneg n) ns x zveqb_spec) as T.
  destruct (try_neighbor zveqb (zvneg n) ns x) as [[j []]|].
  - assert (Hj : (j < length ns)%nat) by (apply nth_error_Some; destruct T; congruence).
    pose proof (HL j Hj ob2 ob1 H2 H1 b a Hb Ha) as E. unfold slice, fadj, fadd, fscale in *. rewrite E.
    rewrite s_conj_add, s_conj_mul, Hc. reflexivity.
  - assert (Hj : (j < length ns)%nat) by (apply nth_error_Some; congruence).
    exact (HL j Hj ob1 ob2 H1 H2 a b Ha Hb).
  - unfold slice, fadd, fscale, fzero. ring.
Qed.

Theorem symmetrize_linear c H H' H'' : sconj c = c -> length H = length ns -> length H' = length ns -> length H'' = length ns ->
  (forall i, (i < length ns)%nat -> feq N N (nth i H'' fzero) (fadd (nth i H fzero) (fscale c (nth i H' fzero)))) ->
  forall i, (i < length ns)%nat -> feq N N (nth i (ham_symmetrize half dv h H'' ns) fzero)
    (fadd (nth i (ham_symmetrize half dv h H ns) fzero) (fscale c (nth i (ham_symmetrize half dv h H' ns) fzero))).
Proof.
  intros Hc L L' L'' HH.
  assert (Hbound : forall bs o ob a, In ob (boffs (K:=K) o bs) -> (a < bdim (snd ob))%nat ->
            (fst ob + a < o + fold_right Nat.add 0 (map bdim bs))%nat).
  { induction bs as [|b bs IH]; simpl; intros o ob a; [tauto|]. intros [<-|Hin] Ha; [simpl in *; lia|].
    pose proof (IH _ ob a Hin Ha). lia. }
  assert (R1 : lin_rel c H H' H'').
  { intros i Hi ob1 ob2 H1 H2 a b Ha Hb. unfold slice. apply (HH i Hi).
    - apply (Hbound _ _ _ _ H1 Ha).
    - apply (Hbound _ _ _ _ H2 Hb). }
  assert (R2 : lin_rel c (herm_origin half ns H) (herm_origin half ns H') (herm_origin half ns H'')).
  { intros i Hi ob1 ob2 H1 H2 a b Ha Hb. destruct (nth_error ns i) as [r|] eqn:Er; [|apply nth_error_None in Er; lia].
    destruct (zero_vec r) eqn:Ez.
    - rewrite (herm_origin_z' H i r L Er Ez), (herm_origin_z' H' i r L' Er Ez), (herm_origin_z' H'' i r L'' Er Ez).
      pose proof (R1 i Hi ob1 ob2 H1 H2 a b Ha Hb) as E1. pose proof (R1 i Hi ob2 ob1 H2 H1 b a Hb Ha) as E2.
      unfold slice, fscale, fadd, fadj in *. rewrite E1, E2. rewrite s_conj_add, s_conj_mul, Hc. ring.
    - rewrite (herm_origin_nz half ns H i r Er Ez), (herm_origin_nz half ns H' i r Er Ez), (herm_origin_nz half ns H'' i r Er Ez).
      apply (R1 i Hi); assumption. }
  assert (R3 : lin_rel c (step1 H) (step1 H') (step1 H'')).
  { unfold step1. destruct (sinv (hs h)) eqn:Es.
    - intros i Hi ob1 ob2 H1 H2. destruct (nth_error ns i) as [r|] eqn:Er; [|apply nth_error_None in Er; lia].
      rewrite (inv_step_repr _ Es ob1 ob2 i r H1 H2 Er).
      transitivity (fadd (invavg (bext (herm_origin half ns H)) ob1 ob2 r) (fscale c (invavg (bext (herm_origin half ns H')) ob1 ob2 r))).
      + unfold invavg. rewrite <- gavg_lin. apply gavg_ext. intros x _. apply bext_lin; assumption.
      + rewrite <- (inv_step_repr (herm_origin half ns H) Es ob1 ob2 i r H1 H2 Er).
        rewrite <- (inv_step_repr (herm_origin half ns H') Es ob1 ob2 i r H1 H2 Er). intros a b _ _. reflexivity.
    - unfold inv_step. rewrite Es. exact R2. }
  intros i Hi. destruct (nth_error ns i) as [r|] eqn:Er; [|apply nth_error_None in Er; lia].
  apply feq_blocks. intros ob1 ob2 H1 H2.
  unfold ham_symmetrize. fold (step1 H) (step1 H') (step1 H'').
  rewrite (rot_step_repr (step1 H'') ob1 ob2 i r H1 H2 Er).
  transitivity (fadd (rotavg (bext (step1 H)) ob1 ob2 r) (fscale c (rotavg (bext (step1 H')) ob1 ob2 r))).
  - unfold rotavg. rewrite <- gavg_lin. apply gavg_ext. intros x _. apply bext_lin; assumption.
  - rewrite <- (rot_step_repr (step1 H) ob1 ob2 i r H1 H2 Er). rewrite <- (rot_step_repr (step1 H') ob1 ob2 i r H1 H2 Er).
    intros a b _ _. reflexivity.
Qed.
End Ham.

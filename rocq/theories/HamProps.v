(** Properties C24, C25, C55: symmetrisation of models (hamiltonian_symmetry.py). *)
From Coq Require Import List Arith ZArith Lia Bool Permutation Setoid Morphisms QArith Qcanon.
Local Close Scope Q_scope.
Local Close Scope Qc_scope.
Import ListNotations.
From Verif Require Import SRing LMat CplxR FMat FinGroup SymModel DetMC SymInitProofs SymEqProofs SymNamedProofs SymProps
  HamModel HamProofs HamTableProofs.

(* ------------------------------------------------------------------ *)
(** ** specification *)
Section Spec.
Context {K : sring}.
Local Open Scope sring_scope.

(** every appended block carries a unitary representation of the operations *)
Definition ham_rep (h : hsym K) : Prop :=
  let n := sdim (hs h) in let ops := sops (hs h) in
  is_group (zmul n) (zeye n) ops /\ (forall s, In s ops -> wfz n s) /\
  forall b, In b (hblocks h) ->
    (forall k1 k2 k3 s1 s2, nth_error ops k1 = Some s1 -> nth_error ops k2 = Some s2 ->
       nth_error ops k3 = Some (zmul n s1 s2) ->
       feq (bdim b) (bdim b) (nth k3 (bU b) fzero) (fmul (bdim b) (nth k1 (bU b) fzero) (nth k2 (bU b) fzero))) /\
    (forall k, (k < length ops)%nat ->
       feq (bdim b) (bdim b) (fmul (bdim b) (nth k (bU b) fzero) (fadj (nth k (bU b) fzero))) fid /\
       feq (bdim b) (bdim b) (fmul (bdim b) (fadj (nth k (bU b) fzero)) (nth k (bU b) fzero)) fid).

(** a list of neighbors: one of r, -r is listed, nothing twice *)
Definition nbr_list (n : nat) (ns : list zvec) : Prop :=
  (forall r, In r ns -> wfv n r) /\ NoDup ns /\ (forall r, In r ns -> In (zvneg n r) ns -> r = zvneg n r).

(** [F] is the hopping function of the model (H, ns) with [N] orbitals: H_r on the listed neighbors, the hermitian
    conjugate on the mirrored ones, zero elsewhere *)
Definition hopping_fun (n N : nat) (ns : list zvec) (H : list (fmat K)) (F : zvec -> fmat K) : Prop :=
  (forall i r, nth_error ns i = Some r -> feq N N (F r) (nth i H fzero)) /\
  (forall i r, nth_error ns i = Some r -> feq N N (F (zvneg n r)) (fadj (nth i H fzero))) /\
  (forall r, wfv n r -> ~ In r ns -> ~ In (zvneg n r) ns -> feq N N (F r) fzero).

(** the bond from atom 1 (at r1) to atom 2 (at r2 in the cell y) is the image under s of the one in the cell x *)
Definition bond_image (n : nat) (s : zmat) (r1 r2 x y : zvec) : Prop := forall i, (i < n)%nat ->
  (vent (K:=Zs) y i + (vent (K:=Zs) r2 i - vent (K:=Zs) r1 i))%Z =
  nsum (K:=Zs) n (fun j => (ent (K:=Zs) s i j * (vent (K:=Zs) x j + (vent (K:=Zs) r2 j - vent (K:=Zs) r1 j)))%Z).
Definition bond_inverted (n : nat) (r1 r2 x y : zvec) : Prop := forall i, (i < n)%nat ->
  (vent (K:=Zs) y i + (vent (K:=Zs) r2 i - vent (K:=Zs) r1 i) = - (vent (K:=Zs) x i + (vent (K:=Zs) r2 i - vent (K:=Zs) r1 i)))%Z.

(** the block of an [N]-orbital matrix belonging to a pair of atoms *)
Definition blk (ob1 ob2 : nat * hblock K) (M : fmat K) : fmat K := fun a b => M (fst ob1 + a)%nat (fst ob2 + b)%nat.

(** F transforms with the representation under the operations without / with the inversion *)
Definition rot_sym (h : hsym K) (F : zvec -> fmat K) : Prop :=
  forall ob1 ob2 k s x y, In ob1 (boffs 0%nat (hblocks h)) -> In ob2 (boffs 0%nat (hblocks h)) ->
  nth_error (sops (hs h)) k = Some s -> wfv (sdim (hs h)) x -> wfv (sdim (hs h)) y ->
  bond_image (sdim (hs h)) s (bpos (snd ob1)) (bpos (snd ob2)) x y ->
  feq (bdim (snd ob1)) (bdim (snd ob2)) (blk ob1 ob2 (F y))
    (fmul (bdim (snd ob2)) (fmul (bdim (snd ob1)) (nth k (bU (snd ob1)) fzero) (blk ob1 ob2 (F x)))
       (fadj (nth k (bU (snd ob2)) fzero))).
Definition inv_sym_fun (h : hsym K) (F : zvec -> fmat K) : Prop :=
  forall ob1 ob2 x y, In ob1 (boffs 0%nat (hblocks h)) -> In ob2 (boffs 0%nat (hblocks h)) ->
  wfv (sdim (hs h)) x -> wfv (sdim (hs h)) y ->
  bond_inverted (sdim (hs h)) (bpos (snd ob1)) (bpos (snd ob2)) x y ->
  forall a b, (a < bdim (snd ob1))%nat -> (b < bdim (snd ob2))%nat ->
  blk ob1 ob2 (F y) a b = if Bool.eqb (beven (snd ob1)) (beven (snd ob2)) then blk ob1 ob2 (F x) a b else - blk ob1 ob2 (F x) a b.

(** when all images of a bond and its inverse are listed, all images of the inverse are *)
Definition inv_closed (h : hsym K) (ns : list zvec) : Prop :=
  let n := sdim (hs h) in
  let listed r := In r ns \/ In (zvneg n r) ns in
  forall ob1 ob2 x x', In ob1 (boffs 0%nat (hblocks h)) -> In ob2 (boffs 0%nat (hblocks h)) ->
  wfv n x -> wfv n x' -> bond_inverted n (bpos (snd ob1)) (bpos (snd ob2)) x x' -> listed x' ->
  (forall s y, In s (sops (hs h)) -> wfv n y -> bond_image n s (bpos (snd ob1)) (bpos (snd ob2)) x y -> listed y) ->
  (forall s y, In s (sops (hs h)) -> wfv n y -> bond_image n s (bpos (snd ob1)) (bpos (snd ob2)) x' y -> listed y).

(** the list is closed under the operations as a set of lattice vectors *)
Definition nbr_closed (h : hsym K) (ns : list zvec) : Prop :=
  forall s r, In s (sops (hs h)) -> In r ns -> In (zmv (sdim (hs h)) s r) ns \/ In (zvneg (sdim (hs h)) (zmv (sdim (hs h)) s r)) ns.
End Spec.

(* ------------------------------------------------------------------ *)
(** ** from the specification to the lemmas *)
Section Bridge.
Context {K : sring}.
Local Open Scope sring_scope.
Add Ring Kring_hamp : (s_rt K).
Variable h : hsym K.
Variable ns : list zvec.
Let n := sdim (hs h).

Lemma boffs_in o (bs : list (hblock K)) ob : In ob (boffs o bs) -> In (snd ob) bs.
Proof. revert o; induction bs as [|b bs IH]; simpl; intros o; [tauto|]. intros [<-|H]; [left; reflexivity|right; eapply IH; exact H]. Qed.
Lemma boffs_bound bs o (ob : nat * hblock K) a : In ob (boffs o bs) -> (a < bdim (snd ob))%nat ->
  (fst ob + a < o + fold_right Nat.add 0 (map bdim bs))%nat.
Proof.
  revert o; induction bs as [|b bs IH]; simpl; intros o; [tauto|]. intros [<-|Hin] Ha; [simpl in *; lia|].
  pose proof (IH _ Hin Ha). lia.
Qed.

Lemma bond_image_rot s r1 r2 x : bond_image n s r1 r2 x (rot_pos n s x r1 r2).
Proof.
  intros i Hi. unfold rot_pos. rewrite vent_zvadd, vent_zvdiff by exact Hi.
  unfold zmv. rewrite vent_lmv by exact Hi.
  match goal with |- (?a - ?b + ?c + (?b - ?c))%Z = ?d => transitivity a; [lia|] end.
  apply (nsum_ext Zs). intros j Hj. rewrite vent_zvdiff, vent_zvadd by exact Hj. cbn [smul Zs car]. f_equal. lia.
Qed.
Lemma bond_image_eq s r1 r2 x y : wfv n y -> bond_image n s r1 r2 x y -> y = rot_pos n s x r1 r2.
Proof.
  intros Hy H. apply (vec_ext Zs n); [exact Hy|apply rot_pos_wf|]. intros i Hi.
  pose proof (H i Hi) as E. pose proof (bond_image_rot s r1 r2 x i Hi) as E'. rewrite <- E' in E.
  change (vent (K:=Zs) y i = vent (K:=Zs) (rot_pos n s x r1 r2) i). lia.
Qed.
Lemma bond_inverted_inv r1 r2 x : bond_inverted n r1 r2 x (inv_pos n x r1 r2).
Proof.
  intros i Hi. unfold inv_pos. rewrite vent_zvdiff, vent_zvneg, vent_zvadd, vent_zvdiff by exact Hi. lia.
Qed.
Lemma bond_inverted_eq r1 r2 x y : wfv n y -> bond_inverted n r1 r2 x y -> y = inv_pos n x r1 r2.
Proof.
  intros Hy H. apply (vec_ext Zs n); [exact Hy|apply inv_pos_wf|]. intros i Hi.
  pose proof (H i Hi) as E. pose proof (bond_inverted_inv r1 r2 x i Hi) as E'. rewrite <- E' in E.
  change (vent (K:=Zs) y i = vent (K:=Zs) (inv_pos n x r1 r2) i). lia.
Qed.

Hypothesis Hrep : ham_rep h.
Hypothesis Hnb : nbr_list n ns.

Lemma rep_grp : is_group (zmul n) (zeye n) (sops (hs h)).
Proof. apply Hrep. Qed.
Lemma rep_wf : forall s, In s (sops (hs h)) -> wfz n s.
Proof. apply Hrep. Qed.
Lemma rep_hom : forall ob, In ob (boffs 0%nat (hblocks h)) -> forall k1 k2 k3 s1 s2,
  nth_error (sops (hs h)) k1 = Some s1 -> nth_error (sops (hs h)) k2 = Some s2 -> nth_error (sops (hs h)) k3 = Some (zmul n s1 s2) ->
  feq (bdim (snd ob)) (bdim (snd ob)) (nth k3 (bU (snd ob)) fzero)
      (fmul (bdim (snd ob)) (nth k1 (bU (snd ob)) fzero) (nth k2 (bU (snd ob)) fzero)).
Proof. intros ob Hob. destruct Hrep as (_ & _ & H). apply (H (snd ob) (boffs_in _ _ _ Hob)). Qed.
Lemma rep_uni : forall ob, In ob (boffs 0%nat (hblocks h)) -> forall k s, nth_error (sops (hs h)) k = Some s ->
  let u := nth k (bU (snd ob)) fzero in
  feq (bdim (snd ob)) (bdim (snd ob)) (fmul (bdim (snd ob)) u (fadj u)) fid /\
  feq (bdim (snd ob)) (bdim (snd ob)) (fmul (bdim (snd ob)) (fadj u) u) fid.
Proof.
  intros ob Hob k s Hk. destruct Hrep as (_ & _ & H). apply (H (snd ob) (boffs_in _ _ _ Hob)).
  apply nth_error_Some. congruence.
Qed.
Lemma nb_wf : forall r, In r ns -> wfv n r. Proof. apply Hnb. Qed.
Lemma nb_nd : NoDup ns. Proof. apply Hnb. Qed.
Lemma nb_half : forall r, In r ns -> In (zvneg n r) ns -> r = zvneg n r. Proof. apply Hnb. Qed.

Lemma hopping_hext H F x : hopping_fun n (hdim h) ns H F -> wfv n x -> feq (hdim h) (hdim h) (F x) (hext h ns H x).
Proof.
  intros (F1 & F2 & F3) Hx. unfold hext, hlook. fold n.
  pose proof (try_neighbor_spec zveqb (zvneg n) ns x zveqb_spec) as T.
  destruct (try_neighbor zveqb (zvneg n) ns x) as [[j []]|].
  - destruct T as [T _]. rewrite <- (F2 j _ T). rewrite zvneg_invol by exact Hx. reflexivity.
  - apply F1; exact T.
  - destruct T. apply F3; assumption.
Qed.

(** the hermitian origin makes the extension a hopping function *)
Lemma hext_hopping H : (forall i r, nth_error ns i = Some r -> r = zvneg n r -> feq (hdim h) (hdim h) (fadj (nth i H fzero)) (nth i H fzero)) ->
  hopping_fun n (hdim h) ns H (hext h ns H).
Proof.
  intros H0. repeat split.
  - intros i r Hi. rewrite (hext_nth h ns nb_nd H i r Hi). reflexivity.
  - intros i r Hi. assert (Hr : wfv n r) by (apply nb_wf; eapply nth_error_In; exact Hi).
    destruct (zveqb r (zvneg n r)) eqn:E.
    + apply zveqb_spec in E. rewrite <- E. rewrite (hext_nth h ns nb_nd H i r Hi). symmetry. apply (H0 i r Hi E).
    + rewrite (hext_mirror h ns nb_nd nb_half H i (zvneg n r)); [reflexivity|apply zvneg_wf| |].
      * rewrite zvneg_invol by exact Hr. exact Hi.
      * fold n. rewrite zvneg_invol by exact Hr. intros E'. symmetry in E'. apply zveqb_spec in E'. congruence.
  - intros r Hr N1 N2. rewrite hext_out; [reflexivity|].
    destruct (dom h ns r) eqn:E; [|reflexivity]. apply (dom_spec h ns r Hr) in E. tauto.
Qed.

Lemma blk_feq ob1 ob2 A B : In ob1 (boffs 0%nat (hblocks h)) -> In ob2 (boffs 0%nat (hblocks h)) ->
  feq (hdim h) (hdim h) A B -> feq (bdim (snd ob1)) (bdim (snd ob2)) (blk ob1 ob2 A) (blk ob1 ob2 B).
Proof.
  intros H1 H2 E a b Ha Hb. unfold blk. apply E; unfold hdim; eapply (boffs_bound _ 0%nat); eassumption.
Qed.

Lemma hopping_sym H F : hopping_fun n (hdim h) ns H F -> rot_symmetric h ns H -> rot_sym h F.
Proof.
  intros HF HR ob1 ob2 k s x y H1 H2 Hk Hx Hy Hb. apply bond_image_eq in Hb; [|exact Hy]. subst y.
  rewrite (blk_feq ob1 ob2 _ _ H1 H2 (hopping_hext H F _ HF Hy)).
  rewrite (blk_feq ob1 ob2 _ _ H1 H2 (hopping_hext H F _ HF Hx)).
  exact (HR ob1 ob2 k s x H1 H2 Hk Hx).
Qed.
Lemma sym_hopping H F : hopping_fun n (hdim h) ns H F -> rot_sym h F -> rot_symmetric h ns H.
Proof.
  intros HF HR ob1 ob2 k s x H1 H2 Hk Hx.
  assert (Hy : wfv n (rot_pos n s x (bpos (snd ob1)) (bpos (snd ob2)))) by apply rot_pos_wf.
  pose proof (HR ob1 ob2 k s x _ H1 H2 Hk Hx Hy (bond_image_rot s _ _ x)) as E.
  rewrite (blk_feq ob1 ob2 _ _ H1 H2 (hopping_hext H F _ HF Hy)) in E.
  rewrite (blk_feq ob1 ob2 _ _ H1 H2 (hopping_hext H F _ HF Hx)) in E. exact E.
Qed.
Lemma sgn_prod (b1 b2 : bool) (x : K) : sgn_of b1 * sgn_of b2 * x = if Bool.eqb b1 b2 then x else - x.
Proof. destruct b1, b2; simpl; ring. Qed.
Lemma hopping_inv H F : hopping_fun n (hdim h) ns H F -> inv_symmetric h ns H -> inv_sym_fun h F.
Proof.
  intros HF HR ob1 ob2 x y H1 H2 Hx Hy Hb a b Ha Hb'. apply bond_inverted_eq in Hb; [|exact Hy]. subst y.
  rewrite (blk_feq ob1 ob2 _ _ H1 H2 (hopping_hext H F _ HF Hy) a b Ha Hb').
  rewrite (blk_feq ob1 ob2 _ _ H1 H2 (hopping_hext H F _ HF Hx) a b Ha Hb').
  rewrite <- sgn_prod. exact (HR ob1 ob2 x H1 H2 Hx a b Ha Hb').
Qed.
Lemma inv_hopping H F : hopping_fun n (hdim h) ns H F -> inv_sym_fun h F -> inv_symmetric h ns H.
Proof.
  intros HF HR ob1 ob2 x H1 H2 Hx a b Ha Hb.
  assert (Hy : wfv n (inv_pos n x (bpos (snd ob1)) (bpos (snd ob2)))) by apply inv_pos_wf.
  pose proof (HR ob1 ob2 x _ H1 H2 Hx Hy (bond_inverted_inv _ _ x) a b Ha Hb) as E.
  rewrite (blk_feq ob1 ob2 _ _ H1 H2 (hopping_hext H F _ HF Hy) a b Ha Hb) in E.
  rewrite (blk_feq ob1 ob2 _ _ H1 H2 (hopping_hext H F _ HF Hx) a b Ha Hb) in E.
  rewrite <- sgn_prod in E. exact E.
Qed.
Lemma hopping_herm0 H F : hopping_fun n (hdim h) ns H F -> herm0 h ns H.
Proof.
  intros (F1 & F2 & _) i r ob1 ob2 Hi Hz H1 H2.
  assert (Hr : wfv n r) by (apply nb_wf; eapply nth_error_In; exact Hi).
  apply (zero_vec_neg h r Hr) in Hz. pose proof (F1 i r Hi) as E1. pose proof (F2 i r Hi) as E2.
  fold n in Hz. rewrite <- Hz in E2. 
  assert (E3 : feq (hdim h) (hdim h) (fadj (nth i H fzero)) (nth i H fzero)) by (rewrite <- E2; exact E1).
  exact (blk_feq ob1 ob2 _ _ H1 H2 E3).
Qed.
Lemma herm0_full H : herm0 h ns H ->
  forall i r, nth_error ns i = Some r -> r = zvneg n r -> feq (hdim h) (hdim h) (fadj (nth i H fzero)) (nth i H fzero).
Proof.
  intros HH i r Hi Hz. assert (Hr : wfv n r) by (apply nb_wf; eapply nth_error_In; exact Hi).
  apply feq_blocks. intros ob1 ob2 H1 H2. apply (HH i r ob1 ob2 Hi); try assumption.
  apply (zero_vec_neg h r Hr). exact Hz.
Qed.
Lemma inv_closed_compat : inv_closed h ns -> inv_compat h ns.
Proof.
  intros HC ob1 ob2 x H1 H2 Hx Ho Hi s Hs. rewrite <- rot_inv_pos.
  apply (dom_spec h ns _ (rot_pos_wf _ _ _ _ _)).
  apply (HC ob1 ob2 x (inv_pos n x (bpos (snd ob1)) (bpos (snd ob2))) H1 H2 Hx (inv_pos_wf _ _ _ _) (bond_inverted_inv _ _ x)) with (s := s).
  - apply (dom_spec h ns _ (inv_pos_wf _ _ _ _)). exact Hi.
  - intros t y Ht Hy Hb. apply bond_image_eq in Hb; [|exact Hy]. subst y. apply (dom_spec h ns _ (rot_pos_wf _ _ _ _ _)). apply Ho, Ht.
  - exact Hs.
  - apply rot_pos_wf.
  - apply bond_image_rot.
Qed.
End Bridge.

(* ------------------------------------------------------------------ *)
(** ** C24

    Full statement (C24): the result of symmetrize transforms with the representation under every operation
    including the inversion, symmetric models are unchanged, the map is linear and idempotent, for every closed
    neighbor list. The statement is proved for symmetries without inversion, and with the extra hypothesis
    [inv_closed] for symmetries with inversion; [C24_symmetrize_refuted] shows that without it the claim fails. *)
Section C24.
Context {K : sring}.
Local Open Scope sring_scope.

Theorem C24_result_symmetric : forall (h : hsym K) ns half dv H, ham_rep h -> nbr_list (sdim (hs h)) ns ->
  sconj half = half -> sconj dv = dv -> length H = length ns ->
  exists F, hopping_fun (sdim (hs h)) (hdim h) ns (ham_symmetrize half dv h H ns) F /\ rot_sym h F /\
    (sinv (hs h) = true -> inv_closed h ns -> inv_sym_fun h F).
Proof.
  intros h ns half dv H Hr Hn Hh Hd HL.
  assert (HF : hopping_fun (sdim (hs h)) (hdim h) ns (ham_symmetrize half dv h H ns) (hext h ns (ham_symmetrize half dv h H ns))).
  { apply (hext_hopping h ns Hn). apply (herm0_full h ns Hn).
    apply (symmetrize_herm0 h ns (rep_grp h Hr) (nb_wf h ns Hn) (nb_nd h ns Hn) (nb_half h ns Hn) half dv Hh Hd H HL). }
  exists (hext h ns (ham_symmetrize half dv h H ns)). split; [exact HF|split].
  - apply (hopping_sym h ns _ _ HF). intros ob1 ob2 k s x.
    apply (symmetrize_symmetric h ns (rep_grp h Hr) (rep_wf h Hr) (rep_hom h Hr) (rep_uni h Hr) (nb_wf h ns Hn) (nb_nd h ns Hn) (nb_half h ns Hn) half dv Hh Hd H HL).
  - intros Hi HC. apply (hopping_inv h ns _ _ HF). intros ob1 ob2 x.
    apply (symmetrize_inversion h ns (rep_grp h Hr) (nb_wf h ns Hn) (nb_nd h ns Hn) (nb_half h ns Hn) half dv Hh Hd H HL Hi).
    apply inv_closed_compat, HC.
Qed.

Theorem C24_symmetric_fixed : forall (h : hsym K) ns half dv H F, ham_rep h -> nbr_list (sdim (hs h)) ns ->
  half + half = 1 -> sconj half = half -> dv * ksum (sops (hs h)) (fun _ => 1) = 1 -> length H = length ns ->
  hopping_fun (sdim (hs h)) (hdim h) ns H F -> rot_sym h F -> (sinv (hs h) = true -> inv_sym_fun h F) ->
  forall i, (i < length ns)%nat -> feq (hdim h) (hdim h) (nth i (ham_symmetrize half dv h H ns) fzero) (nth i H fzero).
Proof.
  intros h ns half dv H F Hr Hn H1 H2 H3 HL HF HS HI.
  apply (symmetrize_fixed h ns (rep_grp h Hr) (rep_uni h Hr) (nb_wf h ns Hn) (nb_nd h ns Hn) (nb_half h ns Hn) half dv H1 H2 H3 H HL).
  - apply (hopping_herm0 h ns Hn H F HF).
  - apply (sym_hopping h ns H F HF HS).
  - intros E. apply (inv_hopping h ns H F HF (HI E)).
Qed.

Theorem C24_linear : forall (h : hsym K) ns half dv c H H' H'', ham_rep h -> nbr_list (sdim (hs h)) ns -> sconj c = c ->
  length H = length ns -> length H' = length ns -> length H'' = length ns ->
  (forall i, (i < length ns)%nat -> feq (hdim h) (hdim h) (nth i H'' fzero) (fadd (nth i H fzero) (fscale c (nth i H' fzero)))) ->
  forall i, (i < length ns)%nat -> feq (hdim h) (hdim h) (nth i (ham_symmetrize half dv h H'' ns) fzero)
    (fadd (nth i (ham_symmetrize half dv h H ns) fzero) (fscale c (nth i (ham_symmetrize half dv h H' ns) fzero))).
Proof.
  intros h ns half dv c H H' H'' Hr Hn. apply (symmetrize_linear h ns (rep_grp h Hr) (nb_wf h ns Hn) (nb_nd h ns Hn)).
Qed.

Theorem C24_idempotent_partial : forall (h : hsym K) ns half dv H, ham_rep h -> nbr_list (sdim (hs h)) ns ->
  half + half = 1 -> sconj half = half -> dv * ksum (sops (hs h)) (fun _ => 1) = 1 -> sconj dv = dv -> length H = length ns ->
  (sinv (hs h) = true -> inv_closed h ns) ->
  forall i, (i < length ns)%nat -> feq (hdim h) (hdim h)
    (nth i (ham_symmetrize half dv h (ham_symmetrize half dv h H ns) ns) fzero) (nth i (ham_symmetrize half dv h H ns) fzero).
Proof.
  intros h ns half dv H Hr Hn H1 H2 H3 H4 HL HC.
  apply (symmetrize_idempotent h ns (rep_grp h Hr) (rep_wf h Hr) (rep_hom h Hr) (rep_uni h Hr) (nb_wf h ns Hn) (nb_nd h ns Hn) (nb_half h ns Hn) half dv H1 H2 H3 H4 H HL).
  intros E. apply inv_closed_compat, HC, E.
Qed.

(** when all atoms sit at the same position every closed or unclosed list is fine: the condition holds *)
Theorem C24_inv_closed_same_position : forall (h : hsym K) ns, nbr_list (sdim (hs h)) ns ->
  (forall b1 b2, In b1 (hblocks h) -> In b2 (hblocks h) -> bpos b1 = bpos b2) -> inv_closed h ns.
Proof.
  intros h ns Hn Hp ob1 ob2 x x' H1 H2 Hx Hx' Hb Hl Ho s y Hs Hy Hi.
  rewrite (Hp (snd ob1) (snd ob2) (boffs_in _ _ _ H1) (boffs_in _ _ _ H2)) in *.
  set (n := sdim (hs h)) in *. set (p := bpos (snd ob2)) in *.
  assert (E' : forall i, (i < n)%nat -> vent (K:=Zs) x' i = (- vent (K:=Zs) x i)%Z).
  { intros i Hi'. specialize (Hb i Hi'). lia. }
  assert (Hneg : bond_image n s p p x (zvneg n y)).
  { intros i Hi'. specialize (Hi i Hi'). rewrite vent_zvneg by exact Hi'.
    rewrite (nsum_ext Zs n _ (fun j => @sopp Zs (ent (K:=Zs) s i j * (vent (K:=Zs) x j + (vent (K:=Zs) p j - vent (K:=Zs) p j)))%Z)) in Hi.
    - rewrite (nsum_opp Zs) in Hi. cbn [sopp Zs car] in Hi.
      match goal with |- _ = ?r => set (q := r) in * end. 
      match type of Hi with _ = Z.opp ?r => change r with q in Hi end. lia.
    - intros j Hj. rewrite (E' j Hj). cbn [sopp Zs car]. lia. }
  destruct (Ho s (zvneg n y) Hs (zvneg_wf n y) Hneg) as [A|A].
  - right. exact A.
  - left. rewrite zvneg_invol in A by exact Hy. exact A.
Qed.
End C24.
Print Assumptions C24_result_symmetric.
Print Assumptions C24_symmetric_fixed.
Print Assumptions C24_linear.
Print Assumptions C24_idempotent_partial.
Print Assumptions C24_inv_closed_same_position.

(* ------------------------------------------------------------------ *)
(** ** decision procedures for the examples (rational matrices) *)
Definition qeqb (x y : Qs) : bool := if Qc_eq_dec x y then true else false.
Lemma qeqb_spec x y : qeqb x y = true <-> x = y.
Proof. unfold qeqb. destruct (Qc_eq_dec x y); split; intros; congruence || discriminate. Qed.
Definition feqb (n m : nat) (A B : fmat Qs) : bool :=
  forallb (fun i => forallb (fun j => qeqb (A i j) (B i j)) (seq 0 m)) (seq 0 n).
Lemma feqb_spec n m A B : feqb n m A B = true <-> feq n m A B.
Proof.
  unfold feqb, feq. rewrite forallb_forall. split.
  - intros H i j Hi Hj. specialize (H i). rewrite in_seq in H. specialize (H ltac:(lia)).
    rewrite forallb_forall in H. specialize (H j). rewrite in_seq in H. apply qeqb_spec, H. lia.
  - intros H i Hi. apply forallb_forall. intros j Hj. apply in_seq in Hi. apply in_seq in Hj. apply qeqb_spec, H; lia.
Qed.
Definition rep_b (n : nat) (ops : list zmat) (d : nat) (U : list (fmat Qs)) : bool :=
  let ks := seq 0 (length ops) in
  forallb (fun k1 => forallb (fun k2 => forallb (fun k3 =>
     negb (zmeqb (nth k3 ops []) (zmul n (nth k1 ops []) (nth k2 ops []))) ||
     feqb d d (nth k3 U fzero) (fmul d (nth k1 U fzero) (nth k2 U fzero))) ks) ks) ks &&
  forallb (fun k => feqb d d (fmul d (nth k U fzero) (fadj (nth k U fzero))) fid &&
                    feqb d d (fmul d (fadj (nth k U fzero)) (nth k U fzero)) fid) ks.
Lemma rep_b_spec n ops d U : rep_b n ops d U = true ->
  (forall k1 k2 k3 s1 s2, nth_error ops k1 = Some s1 -> nth_error ops k2 = Some s2 ->
       nth_error ops k3 = Some (zmul n s1 s2) ->
       feq d d (nth k3 U fzero) (fmul d (nth k1 U fzero) (nth k2 U fzero))) /\
  (forall k, (k < length ops)%nat ->
       feq d d (fmul d (nth k U fzero) (fadj (nth k U fzero))) fid /\
       feq d d (fmul d (fadj (nth k U fzero)) (nth k U fzero)) fid).
Proof.
  unfold rep_b. rewrite andb_true_iff. intros [H1 H2]. split.
  - intros k1 k2 k3 s1 s2 E1 E2 E3. rewrite forallb_forall in H1.
    assert (L : forall k s, nth_error ops k = Some s -> In k (seq 0 (length ops)) /\ nth k ops [] = s).
    { intros k s E. split; [|apply nth_error_nth; exact E]. apply in_seq. split; [lia|].
      apply nth_error_Some. congruence. }
    destruct (L _ _ E1) as [I1 N1]. destruct (L _ _ E2) as [I2 N2]. destruct (L _ _ E3) as [I3 N3].
    specialize (H1 k1 I1). rewrite forallb_forall in H1. specialize (H1 k2 I2). rewrite forallb_forall in H1. specialize (H1 k3 I3).
    rewrite N1, N2, N3 in H1. rewrite (proj2 (zmeqb_spec _ _) eq_refl) in H1. apply feqb_spec. exact H1.
  - intros k Hk. rewrite forallb_forall in H2. specialize (H2 k). rewrite in_seq in H2. specialize (H2 ltac:(lia)).
    apply andb_true_iff in H2. destruct H2 as [A B]. split; apply feqb_spec; assumption.
Qed.
Definition ham_rep_b (h : hsym Qs) : bool :=
  is_group_b (sdim (hs h)) (sops (hs h)) && forallb (wfz_b (sdim (hs h))) (sops (hs h)) &&
  forallb (fun b => rep_b (sdim (hs h)) (sops (hs h)) (bdim b) (bU b)) (hblocks h).
Lemma ham_rep_b_spec h : ham_rep_b h = true -> ham_rep h.
Proof.
  unfold ham_rep_b. rewrite !andb_true_iff. intros [[A B] C]. split; [apply is_group_b_spec; exact A|].
  split; [apply wfz_b_spec; exact B|]. intros b Hb. rewrite forallb_forall in C. apply rep_b_spec, C, Hb.
Qed.
Fixpoint nodupv_b (l : list zvec) : bool :=
  match l with [] => true | a :: l' => negb (existsb (zveqb a) l') && nodupv_b l' end.
Definition nbr_list_b (n : nat) (ns : list zvec) : bool :=
  forallb (fun r => Nat.eqb (length r) n) ns && nodupv_b ns &&
  forallb (fun r => negb (existsb (zveqb (zvneg n r)) ns) || zveqb r (zvneg n r)) ns.
Lemma existsb_zveqb a l : existsb (zveqb a) l = true <-> In a l.
Proof.
  rewrite existsb_exists. split.
  - intros (x & Hx & E). apply zveqb_spec in E. subst; exact Hx.
  - intros H. exists a. split; [exact H|apply zveqb_spec; reflexivity].
Qed.
Lemma nbr_list_b_spec n ns : nbr_list_b n ns = true -> nbr_list n ns.
Proof.
  unfold nbr_list_b. rewrite !andb_true_iff. intros [[A B] C]. split; [|split].
  - intros r Hr. rewrite forallb_forall in A. apply Nat.eqb_eq, A, Hr.
  - clear -B. induction ns as [|a l IH]; simpl in B; [constructor|]. apply andb_true_iff in B. destruct B as [B1 B2].
    constructor; [|auto]. intros Hin. apply existsb_zveqb in Hin. rewrite Hin in B1. discriminate B1.
  - intros r Hr Hn. rewrite forallb_forall in C. specialize (C r Hr). rewrite (proj2 (existsb_zveqb _ _) Hn) in C.
    apply zveqb_spec. exact C.
Qed.

(** *** example: the group {1, C2z} with inversion, an even orbital and an odd one that changes sign under C2z,
    both at the origin *)
Definition c2z : zmat := [[-1;0;0];[0;-1;0];[0;0;1]]%Z.
Definition qmat (l : list (list Z)) : fmat Qs := fun a b => Q2Qc (inject_Z (nth b (nth a l []) 0%Z)).
Definition sym_c2h : sym := MkSym 3 [zeye 3; c2z] true false.
Definition h_sp : hsym Qs := MkHsym sym_c2h
  [MkBlock 1 [qmat [[1%Z]]; qmat [[1%Z]]] true [0;0;0]%Z; MkBlock 1 [qmat [[1%Z]]; qmat [[(-1)%Z]]] false [0;0;0]%Z].
Definition ns_sp : list zvec := [[0;0;0]; [1;0;0]; [0;1;0]]%Z.
Definition H_sp : list (fmat Qs) := [qmat [[1;2];[3;4]]; qmat [[1;2];[6;4]]; qmat [[1;0];[2;4]]]%Z.
Definition qhalf : Qs := Q2Qc (1 # 2).

Example C24_example : ham_rep h_sp /\ nbr_list 3 ns_sp /\ length H_sp = length ns_sp /\
  sadd qhalf qhalf = s1 (s:=Qs) /\ smul qhalf (ksum (sops (hs h_sp)) (fun _ => s1 (s:=Qs))) = s1 (s:=Qs) /\
  inv_closed h_sp ns_sp /\
  feq 2 2 (nth 1 (ham_symmetrize qhalf qhalf h_sp H_sp ns_sp) fzero) (qmat [[1;-2];[2;4]]%Z) /\
  feq 2 2 (nth 0 (ham_symmetrize qhalf qhalf h_sp H_sp ns_sp) fzero) (qmat [[1;0];[0;4]]%Z).
Proof.
  split; [apply ham_rep_b_spec; vm_compute; reflexivity|].
  split; [apply nbr_list_b_spec; reflexivity|]. split; [reflexivity|].
  split; [apply Qc_is_canon; reflexivity|]. split; [apply Qc_is_canon; reflexivity|].
  split. { apply C24_inv_closed_same_position; [apply nbr_list_b_spec; reflexivity|].
    intros b1 b2 [<-|[<-|[]]] [<-|[<-|[]]]; reflexivity. }
  split; apply feqb_spec; vm_compute; reflexivity.
Qed.

(** *** refutation: C2z and inversion, two even orbitals at 0 and (1/2, 0, 1/2) (in units of half a lattice constant),
    the neighbors 0, (1,0,0), (1,0,1), (1,0,-1) and their negatives, a set closed under all four operations.
    The bond from orbital 1 to orbital 2 in the same cell has its C2z image and its inverse in the list, but not the
    C2z image of the inverse. The result is neither inversion symmetric nor a fixed point. *)
Definition h_bad : hsym Qs := MkHsym sym_c2h
  [MkBlock 1 [qmat [[1%Z]]; qmat [[1%Z]]] true [0;0;0]%Z; MkBlock 1 [qmat [[1%Z]]; qmat [[1%Z]]] true [1;0;1]%Z].
Definition ns_bad : list zvec := [[0;0;0]; [2;0;0]; [2;0;2]; [2;0;-2]]%Z.
Definition H_bad : list (fmat Qs) := [qmat [[0;4];[4;0]]; qmat [[0;0];[0;0]]; qmat [[0;0];[0;0]]; qmat [[0;0];[0;0]]]%Z.

Theorem C24_symmetrize_refuted :
  ham_rep h_bad /\ nbr_list 3 ns_bad /\ nbr_closed h_bad ns_bad /\ length H_bad = length ns_bad /\ sinv (hs h_bad) = true /\
  sadd qhalf qhalf = s1 (s:=Qs) /\ smul qhalf (ksum (sops (hs h_bad)) (fun _ => s1 (s:=Qs))) = s1 (s:=Qs) /\
  (forall F, hopping_fun 3 2 ns_bad (ham_symmetrize qhalf qhalf h_bad H_bad ns_bad) F -> ~ inv_sym_fun h_bad F) /\
  ~ feq 2 2 (nth 0 (ham_symmetrize qhalf qhalf h_bad (ham_symmetrize qhalf qhalf h_bad H_bad ns_bad) ns_bad) fzero)
            (nth 0 (ham_symmetrize qhalf qhalf h_bad H_bad ns_bad) fzero).
Proof.
  split; [apply ham_rep_b_spec; vm_compute; reflexivity|].
  split; [apply nbr_list_b_spec; reflexivity|].
  split. { intros s r [<-|[<-|[]]] [<-|[<-|[<-|[<-|[]]]]]; vm_compute; tauto. }
  split; [reflexivity|]. split; [reflexivity|].
  split; [apply Qc_is_canon; reflexivity|]. split; [apply Qc_is_canon; reflexivity|].
  split.
  - intros F (F1 & F2 & _) HI.
    set (b1 := MkBlock 1 [qmat [[1%Z]]; qmat [[1%Z]]] true [0;0;0]%Z : hblock Qs).
    set (b2 := MkBlock 1 [qmat [[1%Z]]; qmat [[1%Z]]] true [1;0;1]%Z : hblock Qs).
    pose proof (HI (0, b1) (1, b2) [0;0;0]%Z [-2;0;-2]%Z (or_introl eq_refl) (or_intror (or_introl eq_refl)) eq_refl eq_refl) as E.
    assert (Hb : bond_inverted 3 [0;0;0]%Z [1;0;1]%Z [0;0;0]%Z [-2;0;-2]%Z).
    { intros i Hi. destruct i as [|[|[|i]]]; [reflexivity..|lia]. }
    specialize (E Hb 0 0 ltac:(simpl; lia) ltac:(simpl; lia)). unfold blk in E. cbn [fst snd beven b1 b2 Bool.eqb Nat.add] in E.
    pose proof (F1 0 [0;0;0]%Z eq_refl 0 1 ltac:(lia) ltac:(lia)) as E1.
    pose proof (F2 2 [2;0;2]%Z eq_refl 0 1 ltac:(lia) ltac:(lia)) as E2.
    change (zvneg 3 [2;0;2]%Z) with [-2;0;-2]%Z in E2.
    assert (E3 : nth 0 (ham_symmetrize qhalf qhalf h_bad H_bad ns_bad) fzero 0 1 = fadj (nth 2 (ham_symmetrize qhalf qhalf h_bad H_bad ns_bad) fzero) 0 1).
    { rewrite <- E1, <- E2. symmetry. exact E. }
    apply qeqb_spec in E3. vm_compute in E3. discriminate E3.
  - intros E. apply feqb_spec in E. vm_compute in E. discriminate E.
Qed.
Print Assumptions C24_symmetrize_refuted.

(* ------------------------------------------------------------------ *)
(** ** C25: [ueqb] is the comparison of representation matrices that merges table entries; the code compares matrices
    rounded to 4 digits, which is exact for matrices that differ by more than that *)
Theorem C25_symmetrizer_eq_symmetrize : forall (K : sring) (h : hsym K) ns ueqb half dv H,
  (forall r, In r ns -> wfv (sdim (hs h)) r) -> NoDup ns ->
  (forall d A B, ueqb d A B = true -> feq d d A B) -> length H = length ns ->
  length (ham_symmetrizer ueqb half dv h ns H) = length (ham_symmetrize half dv h H ns) /\
  forall i a b, nth i (ham_symmetrizer ueqb half dv h ns H) fzero a b = nth i (ham_symmetrize half dv h H ns) fzero a b.
Proof.
  intros K h ns ueqb half dv H H1 H2 H3 H4. split.
  - unfold ham_symmetrizer, ham_symmetrize, rot_step. rewrite !map_length, seq_length. exact H4.
  - apply symmetrizer_eq; assumption.
Qed.
Print Assumptions C25_symmetrizer_eq_symmetrize.

Example C25_example :
  (forall r, In r ns_bad -> wfv 3 r) /\ NoDup ns_bad /\ (forall d A B, feqb d d A B = true -> feq d d A B) /\
  (exists e, In e (total_table (fun d => feqb d d) h_bad ns_bad) /\ te_f e = 2) /\
  feq 2 2 (nth 0 (ham_symmetrizer (fun d => feqb d d) qhalf qhalf h_bad ns_bad H_bad) fzero) (qmat [[0;1];[1;0]]%Z).
Proof.
  pose proof (nbr_list_b_spec 3 ns_bad eq_refl) as (A & B & _).
  split; [exact A|]. split; [exact B|]. split; [intros d X Y; apply feqb_spec|]. split.
  - destruct (find (fun e => Nat.eqb (te_f e) 2) (total_table (fun d => feqb d d) h_bad ns_bad)) as [e|] eqn:E.
    + apply find_some in E. exists e. split; [apply E|]. apply Nat.eqb_eq, E.
    + exfalso. vm_compute in E. discriminate E.
  - apply feqb_spec. vm_compute. reflexivity.
Qed.

(* ------------------------------------------------------------------ *)
(** ** C55 *)
(** for a band index in range the returned block is the one whose range of indices contains it, and the printed local
    index is the position inside the block; beyond the dimension there is an IndexError *)
Theorem C55_band_name_partial : forall (K : sring) (bs : list (hblock K)) (index : nat),
  let dims := map bdim bs in let total := fold_right Nat.add 0 dims in
  match band_name bs 0 (Z.of_nat index) with
  | None => total <= index
  | Some (i, local) =>
      index < total /\ exists b l, nth_error bs i = Some b /\ l < bdim b /\
      index = fold_right Nat.add 0 (firstn i dims) + l /\
      local = (if Nat.eqb (bdim b) 1 then None else Some (Z.of_nat l))
  end.
Proof.
  intros K bs index dims total. unfold total, dims.
  assert (G : forall (bs : list (hblock K)) i0 index,
    match band_name bs i0 (Z.of_nat index) with
    | None => fold_right Nat.add 0 (map bdim bs) <= index
    | Some (i, local) => i0 <= i /\
        index < fold_right Nat.add 0 (map bdim bs) /\ exists b l, nth_error bs (i - i0) = Some b /\ l < bdim b /\
        index = fold_right Nat.add 0 (firstn (i - i0) (map bdim bs)) + l /\
        local = (if Nat.eqb (bdim b) 1 then None else Some (Z.of_nat l))
    end).
  { clear. induction bs as [|b bs IH]; intros i0 index; cbn [band_name map fold_right]; [lia|].
    destruct (Z.ltb_spec (Z.of_nat index) (Z.of_nat (bdim b))).
    - split; [lia|]. split; [lia|]. exists b, index. rewrite Nat.sub_diag. simpl. repeat split; lia.
    - rewrite <- Nat2Z.inj_sub by lia. specialize (IH (S i0) (index - bdim b)).
      destruct (band_name bs (S i0) (Z.of_nat (index - bdim b))) as [[i local]|]; [|lia].
      destruct IH as (I1 & I2 & b' & l & I3 & I4 & I5 & I6). split; [lia|]. split; [lia|].
      exists b', l. replace (i - i0) with (S (i - S i0)) by lia. cbn [nth_error firstn fold_right]. repeat split; [exact I3|exact I4|lia|exact I6]. }
  specialize (G bs 0 index). destruct (band_name bs 0 (Z.of_nat index)) as [[i local]|]; [|exact G].
  destruct G as (_ & G). rewrite Nat.sub_0_r in G. exact G.
Qed.
Print Assumptions C55_band_name_partial.

Example C55_example : band_name (hblocks h_sp) 0 1 = Some (1, None) /\ band_name (hblocks h_sp) 0 2 = None.
Proof. split; reflexivity. Qed.

(** negative indices are out of range but return a name instead of raising IndexError *)
Theorem C55_band_name_refuted : forall (K : sring) (b : hblock K) bs (index : Z), (index < 0)%Z ->
  exists x, band_name (b :: bs) 0 index = Some x.
Proof.
  intros K b bs index H. cbn [band_name]. destruct (Z.ltb_spec index (Z.of_nat (bdim b))); [eexists; reflexivity|lia].
Qed.
Print Assumptions C55_band_name_refuted.

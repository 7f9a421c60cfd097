(** Proofs about UrepModel2.v: group averages with parity (C91, C92) *)
From Coq Require Import List Arith ZArith Lia Bool Permutation Setoid Morphisms.
Import ListNotations.
From Verif Require Import SRing LMat FMat FinGroup SymModel DetMC SymInitProofs SymEqProofs HamModel HamProofs UrepModel UrepProofs UrepProps UrepModel2.

(** ** specification *)
Section Spec.
Context {K : sring}.
Local Open Scope sring_scope.
(** a unitary representation of a matrix group; inversion acts as diag(1,..,1,-1,..,-1) and commutes with it *)
Definition unit_rep (r : urep K) : Prop :=
  let n := sdim (usym r) in let d := udim r in
  is_group (zmul n) (zeye n) (sops (usym r)) /\ (forall s, In s (sops (usym r)) -> wfz n s) /\ rep_shape r /\
  multiplicative n d (assigns r) /\
  (forall s u, assigns r s u -> feq d d (fmul d u (fadj u)) fid /\ feq d d (fmul d (fadj u) u) fid) /\
  (sinv (usym r) = true -> forall u, In u (uU r) -> inv_commutes d (usplit r) u).
(** one of x, -x is listed, nothing twice *)
Definition half_list (n : nat) (ns : list zvec) : Prop :=
  (forall x, In x ns -> wfv n x) /\ NoDup ns /\ (forall x, In x ns -> In (zvneg n x) ns -> x = zvneg n x).
Definition listed (n : nat) (ns : list zvec) (x : zvec) : Prop := In x ns \/ In (zvneg n x) ns.
(** F extends the list H to the mirrored neighbors with the parities of the basis functions *)
Definition par_fun (n d split : nat) (ns : list zvec) (H : list (fmat K)) (F : zvec -> fmat K) : Prop :=
  forall i x, nth_error ns i = Some x ->
    feq d d (F x) (nth i H fzero) /\
    forall a b, (a < d)%nat -> (b < d)%nat -> F (zvneg n x) a b = parity split a * nth i H fzero a b * parity split b.
(** H(s x) = U(s) H(x) U(s)^+ *)
Definition covariant (r : urep K) (P : zvec -> Prop) (F : zvec -> fmat K) : Prop :=
  forall s u x, assigns r s u -> wfv (sdim (usym r)) x -> P x ->
  feq (udim r) (udim r) (F (zmv (sdim (usym r)) s x)) (fmul (udim r) (fmul (udim r) u (F x)) (fadj u)).
End Spec.

Lemma zmv_neg n s x : zmv n s (zvneg n x) = zvneg n (zmv n s x).
Proof.
  apply (vec_ext Zs n); [apply lmv_wf|apply zvneg_wf|]. intros i Hi. rewrite vent_zvneg by exact Hi.
  apply zmv_opp; [|exact Hi]. intros k Hk. apply vent_zvneg; exact Hk.
Qed.
Lemma zmv_wf n s x : wfv n (zmv n s x). Proof. apply lmv_wf. Qed.
Lemma zero_b_neg n x : wfv n x -> zero_b x = true <-> x = zvneg n x.
Proof.
  intros Hr. unfold zero_b. rewrite forallb_forall. split.
  - intros H. apply (vec_ext Zs n); [exact Hr|apply zvneg_wf|]. intros i Hi. rewrite vent_zvneg by exact Hi.
    assert (E : vent (K:=Zs) x i = 0%Z).
    { symmetry. apply Z.eqb_eq, H. apply nth_In. unfold wfv in Hr. change (i < length x)%nat. rewrite Hr. exact Hi. }
    rewrite E. reflexivity.
  - intros H y Hy. apply Z.eqb_eq. apply In_nth with (d := 0%Z) in Hy. destruct Hy as (i & Hi & Ex).
    assert (Hi' : (i < n)%nat) by (unfold wfv in Hr; rewrite <- Hr; exact Hi).
    pose proof (vent_zvneg n x i Hi') as E. rewrite <- H in E.
    assert (Ex' : vent (K:=Zs) x i = y) by exact Ex. rewrite Ex' in E. lia.
 Qed.

Section P.
Context {K : sring}.
Local Open Scope sring_scope.
Add Ring Kring_u2 : (s_rt K).
Variable r : urep K.
Variable ns : list zvec.
Notation n := (sdim (usym r)).
Notation d := (udim r).
Notation ops := (sops (usym r)).
Notation sp := (usplit r).

(** *** parity *)
Lemma par_sq i : parity (K:=K) sp i * parity sp i = 1.
Proof. unfold parity. destruct (Nat.ltb i sp); ring. Qed.
Lemma par_conj i : sconj (parity (K:=K) sp i) = parity sp i.
Proof. unfold parity. destruct (Nat.ltb i sp); rewrite ?conj_opp, ?conj_1; reflexivity. Qed.
Lemma flip_ent (p : fmat K) a b : flip_par sp p a b = parity sp a * p a b * parity sp b.
Proof. unfold flip_par, parity. destruct (Nat.ltb a sp), (Nat.ltb b sp); cbn [Bool.eqb]; ring. Qed.
Lemma cut_flip (p : fmat K) a b : flip_par sp (cut_par sp p) a b = cut_par sp p a b.
Proof. unfold flip_par, cut_par. destruct (Bool.eqb _ _); ring. Qed.
Lemma flip_invol (p : fmat K) a b : flip_par sp (flip_par sp p) a b = p a b.
Proof. unfold flip_par. destruct (Bool.eqb _ _); ring. Qed.
Lemma flip_feq (p q : fmat K) : feq d d p q -> feq d d (flip_par sp p) (flip_par sp q).
Proof. intros E a b Ha Hb. rewrite !flip_ent, E by assumption. reflexivity. Qed.
Lemma flip_sum {A} (l : list A) (f : A -> fmat K) a b : flip_par sp (fsum l f) a b = fsum l (fun s => flip_par sp (f s)) a b.
Proof.
  unfold fsum. rewrite flip_ent. unfold fsum. rewrite <- ksum_mul_l, <- ksum_mul_r. apply ksum_ext. intros s _. rewrite flip_ent. reflexivity.
Qed.
Lemma comm_adj (u : fmat K) : inv_commutes d sp u -> inv_commutes d sp (fadj u).
Proof.
  intros H a b Ha Hb. unfold fadj. specialize (H b a Hb Ha). apply (f_equal sconj) in H.
  rewrite !s_conj_mul, !par_conj in H. transitivity (sconj (u b a) * parity sp a); [ring|]. rewrite <- H. ring.
Qed.
Lemma comm_conj (u v p : fmat K) : inv_commutes d sp u -> inv_commutes d sp v ->
  feq d d (flip_par sp (fmul d (fmul d u p) v)) (fmul d (fmul d u (flip_par sp p)) v).
Proof.
  intros Hu Hv a b Ha Hb. rewrite flip_ent. unfold fmul.
  rewrite <- nsum_mul_l, <- nsum_mul_r. apply nsum_ext. intros l Hl.
  rewrite <- !nsum_mul_r, <- nsum_mul_l, <- nsum_mul_r. apply nsum_ext. intros m Hm. rewrite flip_ent.
  transitivity ((parity sp a * u a m) * p m l * (v l b * parity sp b)); [ring|].
  rewrite (Hu a m Ha Hm), <- (Hv l b Hl Hb). ring.
Qed.
(** *** the mirrored extension used by the code and the sum as a group average *)
Notation look := (try_neighbor zveqb (zvneg n) ns).
Lemma zveqb_ok a b : zveqb a b = true <-> a = b. Proof. apply zveqb_spec. Qed.
Definition hx (H : list (fmat K)) (y : zvec) : fmat K :=
  match look y with
  | None => fzero
  | Some (j, m) => let p := nth j H fzero in
    if sinv (usym r) then (if zero_b y then cut_par sp p else if m then flip_par sp p else p) else p
  end.
Definition ldom (y : zvec) : bool := match look y with Some _ => true | None => false end.
Lemma ldom_spec y : ldom y = true <-> listed n ns y.
Proof.
  unfold ldom, listed. pose proof (try_neighbor_spec zveqb (zvneg n) ns y zveqb_ok) as S.
  destruct (look y) as [[j m]|].
  - split; [|reflexivity]. intros _. destruct m; [destruct S as [S _]; right|left]; eapply nth_error_In; exact S.
  - split; [discriminate|tauto].
Qed.

Lemma usym_sum_some H x l : (forall su, In su l -> ldom (zmv n (fst su) x) = true) ->
  exists q, usym_sum r ns H x l = Some q /\ forall a b, q a b = fsum l (fun su => uconjl d (snd su) (hx H (zmv n (fst su) x))) a b.
Proof.
  induction l as [|su l IH]; intros Hd; [exists fzero; split; reflexivity|].
  destruct IH as (q & Eq & Hq); [intros su' H'; apply Hd; right; exact H'|].
  cbn [usym_sum]. rewrite Eq. unfold usym_term.
  assert (D := Hd su (or_introl eq_refl)). unfold ldom in D.
  destruct (look (zmv n (fst su) x)) as [[j m]|] eqn:El; [|discriminate D].
  eexists. split; [reflexivity|]. intros a b. unfold fadd. rewrite Hq. unfold fsum. cbn [ksum]. f_equal.
  unfold uconjl, hx. rewrite El. reflexivity.
Qed.
Lemma usym_sum_none H x l su : In su l -> ldom (zmv n (fst su) x) = false -> usym_sum r ns H x l = None.
Proof.
  induction l as [|su' l IH]; [intros []|]. intros [-> |Hin] D.
  - cbn [usym_sum]. unfold usym_term. unfold ldom in D. destruct (look (zmv n (fst su) x)); [discriminate D|reflexivity].
  - cbn [usym_sum]. rewrite (IH Hin D). destruct (usym_term r ns H x su'); reflexivity.
Qed.
Lemma usym_list_some dv all H l : (forall x, In x l -> exists q, usym_sum r all H x (pairs r) = Some q) ->
  exists R, urep_symmetrize_list dv r all H l = Some R /\ length R = length l /\
    forall i x, nth_error l i = Some x -> exists q, usym_sum r all H x (pairs r) = Some q /\ nth i R fzero = fscale dv q.
Proof.
  induction l as [|x l IH]; intros Hq.
  - exists []. split; [reflexivity|]. split; [reflexivity|]. intros [|i] y E; discriminate E.
  - destruct IH as (R & ER & HL & HR); [intros y Hy; apply Hq; right; exact Hy|].
    destruct (Hq x (or_introl eq_refl)) as (q & Eq). cbn [urep_symmetrize_list]. unfold pairs in Eq. rewrite Eq, ER.
    eexists. split; [reflexivity|]. split; [cbn; rewrite HL; reflexivity|].
    intros [|i] y E; cbn in E |- *; [injection E as <-; exists q; auto|]. apply HR; exact E.
Qed.

(** *** hypotheses *)
Hypothesis HR : unit_rep r.
Lemma r_group : is_group (zmul n) (zeye n) ops. Proof. apply HR. Qed.
Lemma r_wf s : In s ops -> wfz n s. Proof. apply HR. Qed.
Lemma r_len : length (uU r) = length ops. Proof. apply HR. Qed.
Definition aU (s : zmat) : fmat K := match find_idx (zmeqb s) ops with Some k => opU r k | None => fzero end.
Lemma r_nodup : NoDup ops. Proof. apply r_group. Qed.
Lemma aU_assigns s : In s ops -> assigns r s (aU s).
Proof.
  intros Hs. unfold aU. destruct (find_idx (zmeqb s) ops) as [k|] eqn:E.
  - apply find_idx_some in E. destruct E as (a & Ha & Hb & _). apply zmeqb_spec in Hb. subst a.
    exists k. split; [exact Ha|]. unfold opU. apply nth_error_nth'. rewrite r_len. apply nth_error_Some. rewrite Ha. discriminate.
  - exfalso. apply (find_idx_none _ _ E) in Hs. rewrite (proj2 (zmeqb_spec s s) eq_refl) in Hs. discriminate.
Qed.
Lemma assigns_aU s u : assigns r s u -> u = aU s.
Proof.
  intros (k & Hs & Hu). destruct (aU_assigns s (nth_error_In _ _ Hs)) as (k' & Hs' & Hu').
  assert (k = k').
  { apply (proj1 (NoDup_nth_error ops) r_nodup); [apply nth_error_Some; rewrite Hs; discriminate|congruence]. }
  subst. congruence.
Qed.
Lemma pairs_map : pairs r = map (fun s => (s, aU s)) ops.
Proof.
  apply nth_ext with (d := ([], fzero)) (d' := ([], fzero)).
  - unfold pairs. rewrite combine_length, map_length, r_len. apply Nat.min_id.
  - intros k Hk. unfold pairs in Hk. rewrite combine_length, r_len, Nat.min_id in Hk.
    unfold pairs. rewrite combine_nth by (symmetry; apply r_len).
    destruct (nth_error ops k) as [s|] eqn:Es; [|apply nth_error_None in Es; lia].
    rewrite (nth_error_nth _ _ _ (map_nth_error (fun s => (s, aU s)) _ _ Es)).
    rewrite (nth_error_nth _ _ _ Es). f_equal. apply assigns_aU. exists k. split; [exact Es|].
    apply nth_error_nth'. rewrite r_len. exact Hk.
Qed.
Lemma aU_hom s t : In s ops -> In t ops -> feq d d (aU (zmul n s t)) (fmul d (aU s) (aU t)).
Proof.
  intros Hs Ht. destruct HR as (_ & _ & _ & HM & _ & _).
  destruct (HM _ _ _ _ (aU_assigns s Hs) (aU_assigns t Ht)) as [[w W] U].
  rewrite (assigns_aU _ _ W) in W. intros i j Hi Hj. apply (U _ W i j Hi Hj).
Qed.
Lemma aU_uni s : In s ops -> feq d d (fmul d (aU s) (fadj (aU s))) fid /\ feq d d (fmul d (fadj (aU s)) (aU s)) fid.
Proof. intros Hs. destruct HR as (_ & _ & _ & _ & HU & _). apply (HU s). apply aU_assigns; exact Hs. Qed.
Lemma aU_par s : sinv (usym r) = true -> In s ops -> inv_commutes d sp (aU s).
Proof.
  intros Hi Hs. destruct HR as (_ & _ & _ & _ & _ & HP). apply HP; [exact Hi|].
  destruct (aU_assigns s Hs) as (k & _ & E). eapply nth_error_In; exact E.
Qed.

Hypothesis HN : half_list n ns.
Variable dv : K.
Notation avg := (gavg zmat zvec ops (zmv n) ldom d d aU aU dv).

(** the code computes the average at every listed neighbor if the listed set is closed *)
Definition ns_closed : Prop := forall s x, In s ops -> In x ns -> listed n ns (zmv n s x).
Lemma sym_closed H : (1 < length (uU r))%nat -> ns_closed ->
  exists R, urep_symmetrize dv r H ns = Some R /\ length R = length ns /\
    forall i x, nth_error ns i = Some x -> feq d d (nth i R fzero) (avg (hx H) x).
Proof.
  intros H1 HC. unfold urep_symmetrize. rewrite (proj2 (Nat.leb_gt _ _)) by exact H1.
  assert (HD : forall x, In x ns -> forall su, In su (pairs r) -> ldom (zmv n (fst su) x) = true).
  { intros x Hx su Hsu. apply ldom_spec. rewrite pairs_map in Hsu. apply in_map_iff in Hsu. destruct Hsu as (s & <- & Hs).
    apply HC; assumption. }
  destruct (usym_list_some dv ns H ns) as (R & ER & HL & HRR).
  { intros x Hx. destruct (usym_sum_some H x (pairs r) (HD x Hx)) as (q & E & _). exists q; exact E. }
  exists R. split; [exact ER|]. split; [exact HL|]. intros i x Hi.
  destruct (HRR i x Hi) as (q & Eq & ->).
  destruct (usym_sum_some H x (pairs r) (HD x (nth_error_In _ _ Hi))) as (q' & Eq' & Hq').
  rewrite Eq in Eq'. injection Eq' as <-.
  unfold gavg. rewrite (proj2 (forallb_forall _ _)).
  - apply fscale_proper; [reflexivity|]. intros a b Ha Hb. rewrite Hq'. rewrite pairs_map. unfold fsum. rewrite ksum_map. reflexivity.
  - intros s Hs. apply (HD x (nth_error_In _ _ Hi) (s, aU s)). rewrite pairs_map. apply in_map_iff. exists s; auto.
Qed.

Lemma listed_neg y : wfv n y -> listed n ns y -> listed n ns (zvneg n y).
Proof. intros Hy [H|H]; [right|left; exact H]. rewrite zvneg_invol by exact Hy. exact H. Qed.
Lemma ldom_neg y : wfv n y -> ldom (zvneg n y) = ldom y.
Proof.
  intros Hy. destruct (ldom y) eqn:E.
  - apply ldom_spec, listed_neg; [exact Hy|]. apply ldom_spec; exact E.
  - destruct (ldom (zvneg n y)) eqn:E'; [|reflexivity]. exfalso. apply ldom_spec in E'.
    apply listed_neg in E'; [|apply zvneg_wf]. rewrite zvneg_invol in E' by exact Hy. apply ldom_spec in E'. congruence.
Qed.
Lemma nth_err_unique i j (x : zvec) : nth_error ns i = Some x -> nth_error ns j = Some x -> i = j.
Proof.
  intros Hi Hj. apply (proj1 (NoDup_nth_error ns)); [apply HN| |congruence]. apply nth_error_Some. rewrite Hi. discriminate.
Qed.
(** values of the extension *)
Lemma hx_zero H i y : sinv (usym r) = true -> nth_error ns i = Some y -> zero_b y = true -> hx H y = cut_par sp (nth i H fzero).
Proof.
  intros Hi Hy Hz. unfold hx. pose proof (try_neighbor_spec zveqb (zvneg n) ns y zveqb_ok) as S.
  destruct (look y) as [[j m]|].
  - rewrite Hi, Hz. do 2 f_equal. destruct m.
    + exfalso. apply (proj2 S). eapply nth_error_In; exact Hy.
    + eapply nth_err_unique; eassumption.
  - exfalso. apply (proj1 S). eapply nth_error_In; exact Hy.
Qed.
Lemma hx_pos H i y : nth_error ns i = Some y -> (sinv (usym r) = false \/ zero_b y = false) -> hx H y = nth i H fzero.
Proof.
  intros Hy Hz. unfold hx. pose proof (try_neighbor_spec zveqb (zvneg n) ns y zveqb_ok) as S.
  destruct (look y) as [[j m]|].
  - destruct m; [exfalso; apply (proj2 S); eapply nth_error_In; exact Hy|].
    rewrite (nth_err_unique _ _ _ S Hy). destruct Hz as [-> | ->]; [reflexivity|]. destruct (sinv (usym r)); reflexivity.
  - exfalso. apply (proj1 S). eapply nth_error_In; exact Hy.
Qed.
Lemma hx_mir H i y : wfv n y -> sinv (usym r) = true -> nth_error ns i = Some y -> zero_b y = false -> hx H (zvneg n y) = flip_par sp (nth i H fzero).
Proof.
  intros Hw Hi Hy Hz. unfold hx. pose proof (try_neighbor_spec zveqb (zvneg n) ns (zvneg n y) zveqb_ok) as S.
  assert (Hz' : zero_b (zvneg n y) = false).
  { destruct (zero_b (zvneg n y)) eqn:E; [|reflexivity]. apply (zero_b_neg n) in E; [|apply zvneg_wf].
    rewrite zvneg_invol in E by exact Hw. assert (zero_b y = true); [|congruence]. apply (zero_b_neg n); [exact Hw|congruence]. }
  rewrite zvneg_invol in S by exact Hw.
  destruct (look (zvneg n y)) as [[j m]|].
  - destruct m.
    + rewrite Hi, Hz'. do 2 f_equal. eapply nth_err_unique; [exact (proj1 S)|exact Hy].
    + exfalso. assert (zero_b y = true); [|congruence]. apply (zero_b_neg n); [exact Hw|].
      destruct HN as (_ & _ & HH). apply HH; eapply nth_error_In; eassumption.
  - exfalso. apply (proj2 S). eapply nth_error_In; exact Hy.
Qed.
Lemma ns_wf i y : nth_error ns i = Some y -> wfv n y. Proof. intros H. apply HN. eapply nth_error_In; exact H. Qed.
Lemma hx_neg H y : sinv (usym r) = true -> wfv n y -> listed n ns y -> forall a b, hx H (zvneg n y) a b = flip_par sp (hx H y) a b.
Proof.
  intros Hi Hw HL a b. destruct HL as [HL|HL]; apply In_nth_error in HL; destruct HL as [i HL].
  - destruct (zero_b y) eqn:Z.
    + assert (E := proj1 (zero_b_neg n y Hw) Z). rewrite <- E. rewrite (hx_zero H i y Hi HL Z), cut_flip. reflexivity.
    + rewrite (hx_mir H i y Hw Hi HL Z), (hx_pos H i y HL (or_intror Z)). reflexivity.
  - pose proof (ns_wf _ _ HL) as Hw'. destruct (zero_b (zvneg n y)) eqn:Z.
    + assert (E := proj1 (zero_b_neg n _ Hw') Z). rewrite zvneg_invol in E by exact Hw. rewrite E in *.
      rewrite (hx_zero H i y Hi HL Z), cut_flip. reflexivity.
    + pose proof (hx_mir H i _ Hw' Hi HL Z) as E. rewrite zvneg_invol in E by exact Hw. rewrite E.
      rewrite (hx_pos H i _ HL (or_intror Z)), flip_invol. reflexivity.
Qed.

Lemma zmul_ass a b c : zmul n a (zmul n b c) = zmul n (zmul n a b) c. Proof. apply lmul_assoc. Qed.
Lemma zmv_act s t x : zmv n (zmul n s t) x = zmv n s (zmv n t x). Proof. apply lmv_mul. Qed.
Lemma avg_inv F t x : In t ops -> feq d d (avg F (zmv n t x)) (uconjr d (aU t) (avg F x)).
Proof.
  intros Ht. apply (gavg_inv zmat zvec (zmul n) (zeye n) (wfz n)).
  - exact zmul_ass.
  - intros a Ha. apply (lmul_1_r Zs n); exact Ha.
  - exact r_group.
  - exact r_wf.
  - exact zmv_act.
  - exact aU_hom.
  - exact aU_hom.
  - exact aU_uni.
  - exact aU_uni.
  - exact Ht.
Qed.
Lemma avg_neg H x : sinv (usym r) = true -> wfv n x -> feq d d (avg (hx H) (zvneg n x)) (flip_par sp (avg (hx H) x)).
Proof.
  intros Hi Hw. unfold gavg.
  assert (E : forallb (fun s => ldom (zmv n s (zvneg n x))) ops = forallb (fun s => ldom (zmv n s x)) ops).
  { induction ops as [|s l IH]; [reflexivity|]. cbn [forallb]. rewrite IH, zmv_neg, ldom_neg by apply zmv_wf. reflexivity. }
  rewrite E. clear E. destruct (forallb (fun s => ldom (zmv n s x)) ops) eqn:E.
  - rewrite forallb_forall in E. intros a b Ha Hb. rewrite flip_ent. unfold fscale, fsum.
    transitivity (dv * (parity sp a * ksum ops (fun s => conjl zmat d d aU aU s (hx H (zmv n s x)) a b) * parity sp b)); [|ring].
    f_equal. rewrite <- ksum_mul_l, <- ksum_mul_r. apply ksum_ext. intros s Hs. rewrite zmv_neg.
    rewrite <- flip_ent. unfold conjl. pose proof (aU_par s Hi Hs) as Hc.
    rewrite (comm_conj (fadj (aU s)) (aU s) _ (comm_adj _ Hc) Hc a b Ha Hb).
    refine (fmul_proper d d d _ _ _ _ _ _ a b Ha Hb); [|reflexivity]. refine (fmul_proper d d d _ _ _ _ _ _); [reflexivity|].
    intros a' b' _ _. apply hx_neg; [exact Hi|apply zmv_wf|]. apply ldom_spec, E, Hs.
  - intros a b _ _. rewrite flip_ent. unfold fzero. ring.
Qed.

Lemma avg_fix F x : dv * ksum ops (fun _ => 1) = 1 -> wfv n x ->
  (forall y, wfv n y -> ldom y = false -> feq d d (F y) fzero) ->
  (forall t y, In t ops -> wfv n y -> feq d d (F (zmv n t y)) (uconjr d (aU t) (F y))) -> feq d d (avg F x) (F x).
Proof.
  intros. apply (gavg_fix zmat zvec ops (zmv n) (wfv n)); try assumption.
  - intros; apply zmv_wf.
  - exact aU_uni.
  - exact aU_uni.
Qed.

End P.

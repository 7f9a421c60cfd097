(** C91-C98: averages of hoppings and matrices over a unitary representation, permuted and named representations *)
From Coq Require Import List Arith ZArith Lia Bool Permutation Setoid Morphisms QArith Qcanon.
Local Close Scope Q_scope.
Local Close Scope Qc_scope.
Import ListNotations.
From Verif Require Import SRing LMat CplxR FMat FinGroup SymModel DetMC SymInitProofs SymEqProofs SymNamedProofs SymProps HamModel HamProofs HamProps UrepModel UrepProofs UrepProps UrepModel2 Urep2Proofs.

(** ** C91: symmetrize is the projection onto the hoppings that transform with the representation *)
Section C91.
Context {K : sring}.
Local Open Scope sring_scope.
Add Ring Kring_c91 : (s_rt K).

Theorem C91_symmetrize_invariant_partial : forall (dv : K) (r : urep K) (H : list (fmat K)) (ns : list zvec),
  let n := sdim (usym r) in
  unit_rep r -> sinv (usym r) = true -> half_list n ns ->
  (forall s x, In s (sops (usym r)) -> In x ns -> listed n ns (zmv n s x)) -> (1 < length (uU r))%nat ->
  exists R F, urep_symmetrize dv r H ns = Some R /\ length R = length ns /\
    par_fun n (udim r) (usplit r) ns R F /\ covariant r (fun _ => True) F.
Proof.
  intros dv r H ns n HR Hi HN HC H1.
  destruct (sym_closed r ns HR dv H H1 HC) as (R & ER & HL & HA).
  exists R, (gavg zmat zvec (sops (usym r)) (zmv n) (ldom r ns) (udim r) (udim r) (aU r) (aU r) dv (hx r ns H)).
  split; [exact ER|]. split; [exact HL|]. split.
  - intros i x Hx. split; [symmetry; apply HA; exact Hx|]. intros a b Ha Hb.
    pose proof (ns_wf r ns HN i x Hx) as Hw.
    unfold n. rewrite (avg_neg r ns HR HN dv H x Hi Hw a b Ha Hb), flip_ent, <- (HA i x Hx a b Ha Hb). reflexivity.
  - intros s u x Hs Hw _. rewrite (assigns_aU r HR s u Hs). apply (avg_inv r ns HR). destruct Hs as (k & Hs & _). eapply nth_error_In; exact Hs.
Qed.

(** without the inversion flag the mirrored neighbors must not occur: the list itself is closed *)
Theorem C91_symmetrize_plain_partial : forall (dv : K) (r : urep K) (H : list (fmat K)) (ns : list zvec),
  let n := sdim (usym r) in
  unit_rep r -> sinv (usym r) = false -> half_list n ns ->
  (forall s x, In s (sops (usym r)) -> In x ns -> In (zmv n s x) ns) -> (1 < length (uU r))%nat ->
  exists R F, urep_symmetrize dv r H ns = Some R /\ length R = length ns /\
    (forall i x, nth_error ns i = Some x -> feq (udim r) (udim r) (F x) (nth i R fzero)) /\ covariant r (fun _ => True) F.
Proof.
  intros dv r H ns n HR Hi HN HC H1.
  destruct (sym_closed r ns HR dv H H1) as (R & ER & HL & HA); [intros s x Hs Hx; left; apply HC; assumption|].
  exists R, (gavg zmat zvec (sops (usym r)) (zmv n) (ldom r ns) (udim r) (udim r) (aU r) (aU r) dv (hx r ns H)).
  split; [exact ER|]. split; [exact HL|]. split.
  - intros i x Hx. symmetry. apply HA; exact Hx.
  - intros s u x Hs Hw _. rewrite (assigns_aU r HR s u Hs). apply (avg_inv r ns HR). destruct Hs as (k & Hs & _). eapply nth_error_In; exact Hs.
Qed.

Lemma listed_act r ns s x : unit_rep r -> half_list (sdim (usym r)) ns ->
  (forall s x, In s (sops (usym r)) -> In x ns -> listed (sdim (usym r)) ns (zmv (sdim (usym r)) s x)) ->
  In s (sops (usym (K:=K) r)) -> wfv (sdim (usym r)) x -> listed (sdim (usym r)) ns x -> listed (sdim (usym r)) ns (zmv (sdim (usym r)) s x).
Proof.
  intros HR HN HC Hs Hw [Hx|Hx]; [apply HC; assumption|].
  pose proof (HC s _ Hs Hx) as E. rewrite zmv_neg in E. apply (listed_neg r) in E; [|apply zvneg_wf].
  rewrite zvneg_invol in E by apply zmv_wf. exact E.
Qed.

(** hoppings that already transform correctly are not changed, hence symmetrizing twice changes nothing *)
Theorem C91_symmetrize_fixes : forall (dv half : K) (r : urep K) (H : list (fmat K)) (ns : list zvec) (F : zvec -> fmat K),
  let n := sdim (usym r) in
  unit_rep r -> sinv (usym r) = true -> half_list n ns ->
  (forall s x, In s (sops (usym r)) -> In x ns -> listed n ns (zmv n s x)) -> (1 < length (uU r))%nat ->
  half + half = 1 -> dv * ksum (sops (usym r)) (fun _ => 1) = 1 ->
  par_fun n (udim r) (usplit r) ns H F -> covariant r (listed n ns) F ->
  exists R, urep_symmetrize dv r H ns = Some R /\ length R = length ns /\
    forall i, (i < length ns)%nat -> feq (udim r) (udim r) (nth i R fzero) (nth i H fzero).
Proof.
  intros dv half r H ns F n HR Hi HN HC H1 Hh Hdv HF Hcov.
  destruct (sym_closed r ns HR dv H H1 HC) as (R & ER & HL & HA).
  exists R. split; [exact ER|]. split; [exact HL|]. intros i Hlt.
  destruct (nth_error ns i) as [x|] eqn:Hx; [|apply nth_error_None in Hx; lia].
  pose proof (ns_wf r ns HN i x Hx) as Hw.
  assert (Hcut : forall j y, nth_error ns j = Some y -> zero_b y = true ->
     feq (udim r) (udim r) (cut_par (usplit r) (nth j H fzero)) (nth j H fzero)).
  { intros j y Hy Z a b Ha Hb. destruct (HF j y Hy) as [E1 E2]. specialize (E1 a b Ha Hb). specialize (E2 a b Ha Hb).
    rewrite <- (proj1 (zero_b_neg n y (ns_wf r ns HN j y Hy)) Z) in E2. rewrite E1 in E2. rewrite <- flip_ent in E2.
    unfold cut_par, flip_par in *. destruct (Bool.eqb _ _); [reflexivity|]. set (h := nth j H fzero a b) in *.
    transitivity ((half + half) * h - half * (h + h)); [ring|]. rewrite Hh. rewrite E2 at 2. ring. }
  assert (Hval : forall y, wfv n y -> listed n ns y -> feq (udim r) (udim r) (hx r ns H y) (F y)).
  { intros y Hy [HLy|HLy]; apply In_nth_error in HLy; destruct HLy as [j HLy].
    - destruct (zero_b y) eqn:Z.
      + rewrite (hx_zero r ns HN H j y Hi HLy Z). rewrite (Hcut j y HLy Z). symmetry. apply (HF j y HLy).
      + rewrite (hx_pos r ns HN H j y HLy (or_intror Z)). symmetry. apply (HF j y HLy).
    - pose proof (ns_wf r ns HN j _ HLy) as Hw'. destruct (zero_b (zvneg n y)) eqn:Z.
      + assert (E := proj1 (zero_b_neg n _ Hw') Z). rewrite zvneg_invol in E by exact Hy. rewrite E in *.
        rewrite (hx_zero r ns HN H j y Hi HLy Z). rewrite (Hcut j y HLy Z). symmetry. apply (HF j y HLy).
      + pose proof (hx_mir r ns HN H j _ Hw' Hi HLy Z) as E. fold n in E. rewrite zvneg_invol in E by exact Hy. rewrite E.
        intros a b Ha Hb. rewrite flip_ent. destruct (HF j _ HLy) as [_ E2]. specialize (E2 a b Ha Hb).
        rewrite zvneg_invol in E2 by exact Hy. rewrite E2. reflexivity. }
  rewrite (HA i x Hx). etransitivity.
  - apply (avg_fix r ns HR dv (hx r ns H) x Hdv Hw).
    + intros y _ Hd a b _ _. unfold hx. unfold ldom in Hd. destruct (try_neighbor _ _ ns y); [discriminate Hd|reflexivity].
    + intros t y Ht Hy. fold n. destruct (ldom r ns y) eqn:Hd.
      * apply ldom_spec in Hd. fold n in Hd. rewrite (Hval _ (zmv_wf n t y)) by (apply (listed_act r); assumption).
        etransitivity; [apply (Hcov t _ y (aU_assigns r HR t Ht) Hy Hd)|]. unfold uconjr. rewrite (Hval y Hy Hd). reflexivity.
      * destruct (ldom r ns (zmv n t y)) eqn:Hd'.
        { exfalso. apply ldom_spec in Hd'. fold n in Hd'.
          destruct (r_group r HR) as (_ & _ & _ & Hinv). destruct (Hinv t Ht) as (t' & Ht' & _ & E).
          apply (listed_act r ns t' _ HR HN HC Ht' (zmv_wf n t y)) in Hd'. unfold n in Hd'. rewrite <- zmv_act in Hd'. rewrite E in Hd'.
          unfold zmv, zeye in Hd'. rewrite (lmv_1 Zs) in Hd' by exact Hy. apply (ldom_spec r) in Hd'. congruence. }
        unfold hx. unfold ldom in Hd, Hd'. destruct (try_neighbor _ _ ns y); [discriminate Hd|].
        fold n. destruct (try_neighbor zveqb (zvneg n) ns (zmv n t y)) eqn:El; [fold n in Hd'; rewrite El in Hd'; discriminate Hd'|].
        unfold uconjr. rewrite fmul_zero_r, fmul_zero_l. reflexivity.
  - rewrite (Hval x Hw); [apply (HF i x Hx)|left; eapply nth_error_In; exact Hx].
Qed.
(** a list that is not closed raises *)
Lemma usym_list_none dv r all H l x : In x l -> usym_sum r all H x (combine (sops (usym r)) (uU r)) = None ->
  urep_symmetrize_list (K:=K) dv r all H l = None.
Proof.
  induction l as [|y l IH]; [intros []|]. intros [-> |Hx] E; cbn [urep_symmetrize_list].
  - rewrite E. reflexivity.
  - rewrite (IH Hx E). destruct (usym_sum r all H y _); reflexivity.
Qed.
Theorem C91_symmetrize_open_raises : forall (dv : K) (r : urep K) (H : list (fmat K)) (ns : list zvec) s x,
  let n := sdim (usym r) in
  length (uU r) = length (sops (usym r)) -> (1 < length (uU r))%nat ->
  In s (sops (usym r)) -> In x ns -> ~ listed n ns (zmv n s x) -> urep_symmetrize dv r H ns = None.
Proof.
  intros dv r H ns s x n HL H1 Hs Hx Hno. unfold urep_symmetrize. rewrite (proj2 (Nat.leb_gt _ _)) by exact H1.
  apply (usym_list_none dv r ns H ns x Hx). apply In_nth_error in Hs. destruct Hs as [k Hk].
  destruct (nth_error (uU r) k) as [u|] eqn:Hu.
  2:{ apply nth_error_None in Hu. assert (k < length (sops (usym r)))%nat by (apply nth_error_Some; congruence). lia. }
  apply (usym_sum_none r ns H x _ (s, u)).
  - apply (In_combine (sops (usym r)) (uU r)). exists k. auto.
  - destruct (ldom r ns (zmv (sdim (usym r)) (fst (s, u)) x)) eqn:D; [|reflexivity]. apply ldom_spec in D. contradiction.
Qed.
End C91.
Print Assumptions C91_symmetrize_invariant_partial.
Print Assumptions C91_symmetrize_plain_partial.
Print Assumptions C91_symmetrize_fixes.
Print Assumptions C91_symmetrize_open_raises.

(** *** decision procedure for the examples *)

Definition qd (d : nat) (a b : fmat Qs) : bool := feqb d d a b.
Definition unit_rep_b (r : urep Qs) : bool :=
  let n := sdim (usym r) in let d := udim r in
  is_group_b n (sops (usym r)) && forallb (wfz_b n) (sops (usym r)) &&
  (Nat.eqb (length (uU r)) (length (sops (usym r))) && Nat.leb (usplit r) d) && urep_check qd r &&
  forallb (fun u => feqb d d (fmul d u (fadj u)) fid && feqb d d (fmul d (fadj u) u) fid) (uU r).
Lemma unit_rep_b_spec r : unit_rep_b r = true -> unit_rep r.
Proof.
  unfold unit_rep_b. rewrite !andb_true_iff. intros ((((A & B) & C1 & C2) & D) & E).
  apply (C20_check_iff_homomorphism qd) in D; [|intros; apply feqb_spec]. destruct D as [D1 D2].
  split; [apply is_group_b_spec; exact A|]. split; [apply wfz_b_spec; exact B|].
  split; [split; [apply Nat.eqb_eq; exact C1|apply Nat.leb_le; exact C2]|]. split; [exact D1|]. split; [|exact D2].
  intros s u (k & _ & Hu). rewrite forallb_forall in E. specialize (E u (nth_error_In _ _ Hu)).
  apply andb_true_iff in E. split; apply feqb_spec; apply E.
Qed.
Definition listed_b (n : nat) (ns : list zvec) (x : zvec) : bool := existsb (zveqb x) ns || existsb (zveqb (zvneg n x)) ns.
Lemma listed_b_spec n ns x : listed_b n ns x = true <-> listed n ns x.
Proof. unfold listed_b, listed. rewrite orb_true_iff, !existsb_zveqb. reflexivity. Qed.
Lemma closed_b_spec n ops ns : forallb (fun s => forallb (fun x => listed_b n ns (zmv n s x)) ns) ops = true ->
  forall s x, In s ops -> In x ns -> listed n ns (zmv n s x).
Proof.
  intros H s x Hs Hx. rewrite forallb_forall in H. specialize (H s Hs). rewrite forallb_forall in H. apply listed_b_spec, H, Hx.
Qed.

(** the rotation C2z with inversion acts on an even orbital and an odd one that changes sign under C2z *)
Definition r_sp : urep Qs := MkUrep sym_c2h 2 [qmat [[1;0];[0;1]]; qmat [[1;0];[0;-1]]]%Z 1.
Definition opt_feqs (d : nat) (o : option (list (fmat Qs))) (l : list (fmat Qs)) : bool :=
  match o with Some R => Nat.eqb (length R) (length l) && forallb (fun p => feqb d d (fst p) (snd p)) (combine R l) | None => false end.
Example C91_example : unit_rep r_sp /\ sinv (usym r_sp) = true /\ half_list 3 ns_sp /\
  (forall s x, In s (sops (usym r_sp)) -> In x ns_sp -> listed 3 ns_sp (zmv 3 s x)) /\ (1 < length (uU r_sp))%nat /\
  sadd qhalf qhalf = s1 (s:=Qs) /\ smul qhalf (ksum (sops (usym r_sp)) (fun _ => s1 (s:=Qs))) = s1 (s:=Qs) /\
  opt_feqs 2 (urep_symmetrize qhalf r_sp H_sp ns_sp) [qmat [[1;0];[0;4]]; qmat [[1;2];[6;4]]; qmat [[1;0];[2;4]]]%Z = true /\
  urep_symmetrize qhalf r_sp H_sp [[0;0;0]; [1;0;1]; [0;1;0]]%Z = None.
Proof.
  split; [apply unit_rep_b_spec; vm_compute; reflexivity|]. split; [reflexivity|].
  split; [apply (nbr_list_b_spec 3); reflexivity|]. split; [apply closed_b_spec; vm_compute; reflexivity|].
  split; [cbn; lia|]. split; [apply Qc_is_canon; reflexivity|]. split; [apply Qc_is_canon; reflexivity|].
  split; vm_compute; reflexivity.
Qed.

(** *** refutations *)
(** the full statement: whenever it returns, the result has the symmetry *)
Definition C91_full (with_inv : bool) (Good : urep Qs -> list (fmat Qs) -> list zvec -> Prop) : Prop :=
  forall (dv : Qs) (r : urep Qs) (H : list (fmat Qs)) ns R, unit_rep r -> sinv (usym r) = with_inv -> half_list (sdim (usym r)) ns ->
  dv = Q2Qc (1 # Pos.of_nat (length (uU r))) -> length H = length ns -> urep_symmetrize dv r H ns = Some R -> Good r R ns.
Definition good_inv (r : urep Qs) (R : list (fmat Qs)) (ns : list zvec) : Prop :=
  exists F, par_fun (sdim (usym r)) (udim r) (usplit r) ns R F.
(** the hopping of a hermitian model: H(-x) = H(x)^+ *)
Definition good_herm (r : urep Qs) (R : list (fmat Qs)) (ns : list zvec) : Prop :=
  exists F, (forall i x, nth_error ns i = Some x -> feq (udim r) (udim r) (F x) (nth i R fzero) /\
               feq (udim r) (udim r) (F (zvneg (sdim (usym r)) x)) (fadj (nth i R fzero))) /\
    covariant r (listed (sdim (usym r)) ns) F.
(** the group of the inversion alone: nothing is done, the orbitals of different parity stay mixed in the cell *)
Definition r_inv1 : urep Qs := MkUrep (MkSym 3 [zeye 3] true false) 2 [qmat [[1;0];[0;1]]]%Z 1.
Theorem C91_inversion_only_refuted : ~ C91_full true good_inv.
Proof.
  intros C. specialize (C (Q2Qc 1) r_inv1 [qmat [[1;2];[3;4]]%Z] [[0;0;0]%Z] [qmat [[1;2];[3;4]]%Z]).
  destruct C as [F HF]; try reflexivity.
  - apply unit_rep_b_spec; vm_compute; reflexivity.
  - apply (nbr_list_b_spec 3); reflexivity.
  - destruct (HF 0%nat [0;0;0]%Z eq_refl) as [E1 E2]. specialize (E1 0%nat 1%nat ltac:(cbn; lia) ltac:(cbn; lia)).
    specialize (E2 0%nat 1%nat ltac:(cbn; lia) ltac:(cbn; lia)). change (zvneg (sdim (usym r_inv1)) [0;0;0]%Z) with [0;0;0]%Z in E2.
    rewrite E1 in E2. apply (f_equal this) in E2. vm_compute in E2. discriminate E2.
Qed.
(** a mirror without inversion: the hopping to a mirrored neighbor is read without the adjoint *)
Definition r_mir : urep Qs := MkUrep (MkSym 2 [zeye 2; [[-1;0];[0;1]]]%Z false false) 2 [qmat [[1;0];[0;1]]; qmat [[1;0];[0;1]]]%Z 2.
Theorem C91_mirrored_refuted : ~ C91_full false good_herm.
Proof.
  intros C. specialize (C qhalf r_mir [qmat [[0;1];[0;0]]%Z] [[1;0]%Z]).
  assert (B : opt_feqs 2 (urep_symmetrize qhalf r_mir [qmat [[0;1];[0;0]]%Z] [[1;0]%Z]) [qmat [[0;1];[0;0]]%Z] = true) by (vm_compute; reflexivity).
  destruct (urep_symmetrize qhalf r_mir [qmat [[0;1];[0;0]]%Z] [[1;0]%Z]) as [R|]; [|discriminate B].
  destruct (C R) as (F & HF & Hc); try reflexivity.
  - apply unit_rep_b_spec; vm_compute; reflexivity.
  - apply (nbr_list_b_spec 2); reflexivity.
  - unfold opt_feqs in B. destruct R as [|R0 [|R1 R]]; try discriminate B. cbn [length Nat.eqb combine forallb fst snd] in B.
    rewrite !andb_true_l, !andb_true_r in B. apply (feqb_spec 2 2) in B.
    destruct (HF 0%nat [1;0]%Z eq_refl) as [E1 E2].
    assert (A : assigns r_mir [[-1;0];[0;1]]%Z (qmat [[1;0];[0;1]]%Z)) by (exists 1%nat; split; reflexivity).
    specialize (Hc _ _ [1;0]%Z A eq_refl (or_introl (or_introl eq_refl))).
    specialize (Hc 0%nat 1%nat ltac:(cbn; lia) ltac:(cbn; lia)). change (zmv (sdim (usym r_mir)) [[-1;0];[0;1]]%Z [1;0]%Z) with [-1;0]%Z in Hc.
    specialize (E2 0%nat 1%nat ltac:(cbn; lia) ltac:(cbn; lia)). change (zvneg (sdim (usym r_mir)) [1;0]%Z) with [-1;0]%Z in E2.
    rewrite E2 in Hc. cbn [nth] in Hc, E1, E2. unfold fadj at 1 in Hc. rewrite (B 1%nat 0%nat) in Hc by lia.
    assert (X : feq 2 2 (F [1;0]%Z) (qmat [[0;1];[0;0]]%Z)) by (transitivity R0; [exact E1|exact B]).
    assert (Y : feq 2 2 (fmul 2 (fmul 2 (qmat [[1;0];[0;1]]%Z) (F [1;0]%Z)) (fadj (qmat [[1;0];[0;1]]%Z)))
                 (fmul 2 (fmul 2 (qmat [[1;0];[0;1]]%Z) (qmat [[0;1];[0;0]]%Z)) (fadj (qmat [[1;0];[0;1]]%Z)))) by (rewrite X; reflexivity).
    change (udim r_mir) with 2%nat in Hc. rewrite (Y 0%nat 1%nat) in Hc by lia. apply (f_equal this) in Hc. vm_compute in Hc. discriminate Hc.
Qed.
Print Assumptions C91_inversion_only_refuted.
Print Assumptions C91_mirrored_refuted.

(** ** C93: symmetrize2 makes every matrix invariant under the operations that fix its position *)
Section C93.
Context {K : sring}.
Local Open Scope sring_scope.
Add Ring Kring_c93 : (s_rt K).
(** M is invariant under the operations (with and without the inversion) that fix x *)
Definition little_inv (r : urep K) (x : zvec) (M : fmat K) : Prop :=
  let n := sdim (usym r) in let d := udim r in
  forall s u, assigns r s u ->
    (zmv n s x = x -> feq d d (fmul d (fmul d u M) (fadj u)) M) /\
    (sinv (usym r) = true -> zmv n s x = zvneg n x -> forall a b, (a < d)%nat -> (b < d)%nat ->
       parity (usplit r) a * fmul d (fmul d u M) (fadj u) a b * parity (usplit r) b = M a b).

Variable r : urep K.
Hypothesis HR : unit_rep r.
Notation n := (sdim (usym r)).
Notation d := (udim r).
Notation ops := (sops (usym r)).
Notation sp := (usplit r).
Variable x : zvec.
Hypothesis Hx : wfv n x.
Definition ofix (neg : bool) : list zmat := filter (fun s => zveqb (if neg then zvneg n (zmv n s x) else zmv n s x) x) ops.
Definition osum (M : fmat K) (l : list zmat) : fmat K := fsum l (fun s => uconjr d (aU r s) M).
Lemma fixing_map neg : fixing n neg x (combine ops (uU r)) = map (fun s => (s, aU r s)) (ofix neg).
Proof.
  change (combine ops (uU r)) with (pairs r). rewrite (pairs_map r HR). unfold fixing, ofix. generalize ops.
  intros l. induction l as [|s l IH]; [reflexivity|]. cbn [map filter fst]. destruct (zveqb _ x); cbn [map]; rewrite IH; reflexivity.
Qed.
Lemma fixing_sum neg M a b : sum_conj d (fixing n neg x (combine ops (uU r))) M a b = osum M (ofix neg) a b.
Proof. rewrite fixing_map. unfold sum_conj, osum, fsum. rewrite ksum_map. reflexivity. Qed.
Lemma fixing_len neg : length (fixing n neg x (combine ops (uU r))) = length (ofix neg).
Proof. rewrite fixing_map, map_length. reflexivity. Qed.
Lemma ofix_In neg s : In s (ofix neg) <-> In s ops /\ zmv n s x = (if neg then zvneg n x else x).
Proof.
  unfold ofix. rewrite filter_In, zveqb_spec. destruct neg; [|reflexivity]. split; intros [A B]; (split; [exact A|]).
  - rewrite <- B at 2. rewrite zvneg_invol by apply zmv_wf. reflexivity.
  - rewrite B, zvneg_invol by exact Hx. reflexivity.
Qed.
Lemma zmv_eye : zmv n (zeye n) x = x. Proof. unfold zmv, zeye. apply (lmv_1 Zs); exact Hx. Qed.
Lemma ofix_mul a b s t : In t (ofix a) -> In s (ofix b) -> In (zmul n t s) (ofix (xorb a b)).
Proof.
  rewrite !ofix_In. intros [Ht Et] [Hs Es]. split; [apply (r_group r HR); assumption|].
  rewrite (zmv_act r), Es. destruct b; [rewrite zmv_neg, Et|rewrite Et]; destruct a; cbn [xorb]; rewrite ?zvneg_invol by exact Hx; reflexivity.
Qed.
Lemma ofix_inv a t : In t (ofix a) -> exists t', In t' (ofix a) /\ zmul n t t' = zeye n /\ zmul n t' t = zeye n.
Proof.
  rewrite ofix_In. intros [Ht Et]. destruct (proj2 (proj2 (proj2 (r_group r HR))) t Ht) as (t' & Ht' & E1 & E2).
  exists t'. split; [|auto]. apply ofix_In. split; [exact Ht'|].
  assert (E : zmv n t' (zmv n t x) = x) by (rewrite <- (zmv_act r), E2; apply zmv_eye).
  rewrite Et in E. destruct a; [|exact E]. rewrite zmv_neg in E. rewrite <- E at 2. rewrite zvneg_invol by apply zmv_wf. reflexivity.
Qed.
Lemma zmul_1l s : In s ops -> zmul n (zeye n) s = s. Proof. intros H. apply (lmul_1_l Zs). apply (r_wf r HR); exact H. Qed.
Lemma ofix_perm a b t : In t (ofix a) -> Permutation (map (zmul n t) (ofix b)) (ofix (xorb a b)).
Proof.
  intros Ht. destruct (ofix_inv a t Ht) as (t' & Ht' & E1 & E2). apply NoDup_Permutation.
  - apply NoDup_map_inj; [|apply NoDup_filter, (r_nodup r HR)]. intros s1 s2 H1 H2 E.
    apply ofix_In in H1, H2. rewrite <- (zmul_1l s1), <- (zmul_1l s2), <- E2 by tauto.
    rewrite <- !(zmul_ass r), E. reflexivity.
  - apply NoDup_filter, (r_nodup r HR).
  - intros s. rewrite in_map_iff. split.
    + intros (s' & <- & Hs'). apply ofix_mul; assumption.
    + intros Hs. exists (zmul n t' s). split.
      * rewrite (zmul_ass r), E1. apply zmul_1l. apply ofix_In in Hs. tauto.
      * replace b with (xorb a (xorb a b)) by (destruct a, b; reflexivity). apply ofix_mul; assumption.
Qed.
Lemma osum_conj M a b t : In t (ofix a) -> feq d d (uconjr d (aU r t) (osum M (ofix b))) (osum M (ofix (xorb a b))).
Proof.
  intros Ht. unfold osum. rewrite <- (fsum_perm d d _ _ _ (ofix_perm a b t Ht)). rewrite fsum_map.
  unfold uconjr at 1. rewrite fmul_sum_r, fmul_sum_l. apply fsum_ext. intros s Hs.
  apply ofix_In in Ht, Hs. unfold uconjr. rewrite (aU_hom r HR t s) by tauto. rewrite fadj_mul. rewrite !fmul_assoc. reflexivity.
Qed.
Lemma flip_uconjr s M : sinv (usym r) = true -> In s ops -> feq d d (flip_par sp (uconjr d (aU r s) M)) (uconjr d (aU r s) (flip_par sp M)).
Proof.
  intros Hi Hs. pose proof (aU_par r HR s Hi Hs) as Hc. apply comm_conj; [exact Hc|apply comm_adj; exact Hc].
Qed.
Lemma uconjr_feq u (M M' : fmat K) : feq d d M M' -> feq d d (uconjr d u M) (uconjr d u M').
Proof. intros E. unfold uconjr. rewrite E. reflexivity. Qed.
Lemma uconjr_add u (M M' : fmat K) : feq d d (uconjr d u (fadd M M')) (fadd (uconjr d u M) (uconjr d u M')).
Proof. unfold uconjr. rewrite fmul_add_r, fmul_add_l. reflexivity. Qed.
Lemma uconjr_scale u c (M : fmat K) : feq d d (uconjr d u (fscale c M)) (fscale c (uconjr d u M)).
Proof. unfold uconjr. rewrite fmul_scale_r, fmul_scale_l. reflexivity. Qed.
Lemma flip_add (M M' : fmat K) a b : flip_par sp (fadd M M') a b = fadd (flip_par sp M) (flip_par sp M') a b.
Proof. unfold fadd. rewrite !flip_ent. ring. Qed.
Lemma flip_scale c (M : fmat K) a b : flip_par sp (fscale c M) a b = fscale c (flip_par sp M) a b.
Proof. unfold fscale. rewrite !flip_ent. ring. Qed.

Theorem C93_symmetrize2_invariant : forall dvs M, little_inv r x (urep_symmetrize2 dvs r x M).
Proof.
  intros dvs M s u Hsu. pose proof (assigns_aU r HR s u Hsu) as ->.
  assert (Hs : In s ops) by (destruct Hsu as (k & E & _); eapply nth_error_In; exact E). clear Hsu.
  fold (uconjr d (aU r s)).
  unfold urep_symmetrize2. destruct (sinv (usym r)) eqn:Hi.
  - set (c := dvs _). clearbody c.
    assert (E : feq d d (fscale c (fadd (flip_par sp (sum_conj d (fixing n true x (combine ops (uU r))) M))
                                        (sum_conj d (fixing n false x (combine ops (uU r))) M)))
                (fscale c (fadd (flip_par sp (osum M (ofix true))) (osum M (ofix false))))).
    { intros a b _ _. unfold fscale, fadd. rewrite !flip_ent, !fixing_sum. reflexivity. }
    split.
    + intros Hf. assert (Ht : In s (ofix false)) by (apply ofix_In; auto).
      change (fmul d (fmul d (aU r s) ?X) (fadj (aU r s))) with (uconjr d (aU r s) X).
      rewrite (uconjr_feq _ _ _ E), uconjr_scale, uconjr_add, E. apply fscale_proper; [reflexivity|].
      rewrite <- (flip_uconjr s _ Hi Hs). apply fadd_proper; [|apply (osum_conj M false false s Ht)].
      apply flip_feq. apply (osum_conj M false true s Ht).
    + intros _ Hf. assert (Ht : In s (ofix true)) by (apply ofix_In; auto). intros a b Ha Hb. rewrite <- flip_ent.
      change (fmul d (fmul d (aU r s) ?X) (fadj (aU r s))) with (uconjr d (aU r s) X).
      revert a b Ha Hb. change (feq d d (flip_par sp (uconjr d (aU r s) (fscale c (fadd (flip_par sp (sum_conj d (fixing n true x (combine ops (uU r))) M))
                                        (sum_conj d (fixing n false x (combine ops (uU r))) M)))))
         (fscale c (fadd (flip_par sp (sum_conj d (fixing n true x (combine ops (uU r))) M))
                                        (sum_conj d (fixing n false x (combine ops (uU r))) M)))).
      rewrite (flip_feq r _ _ (uconjr_feq _ _ _ E)), E.
      rewrite (flip_feq r _ _ (uconjr_scale _ _ _)). intros a b Ha Hb. rewrite flip_scale. unfold fscale. f_equal.
      rewrite (flip_feq r _ _ (uconjr_add _ _ _) a b Ha Hb), flip_add. unfold fadd.
      rewrite (flip_feq r _ _ (osum_conj M true false s Ht) a b Ha Hb). cbn [xorb].
      rewrite (flip_uconjr s (flip_par sp (osum M (ofix true))) Hi Hs a b Ha Hb).
      rewrite (uconjr_feq _ _ (osum M (ofix true)) (fun a b _ _ => flip_invol r _ a b) a b Ha Hb).
      rewrite (osum_conj M true true s Ht a b Ha Hb). cbn [xorb]. ring.
  - set (c := dvs _). clearbody c.
    assert (E : feq d d (fscale c (sum_conj d (fixing n false x (combine ops (uU r))) M)) (fscale c (osum M (ofix false)))).
    { intros a b _ _. unfold fscale. rewrite fixing_sum. reflexivity. }
    split; [|discriminate]. intros Hf. assert (Ht : In s (ofix false)) by (apply ofix_In; auto).
    change (fmul d (fmul d (aU r s) ?X) (fadj (aU r s))) with (uconjr d (aU r s) X).
    rewrite (uconjr_feq _ _ _ E), uconjr_scale, E. apply fscale_proper; [reflexivity|]. apply (osum_conj M false false s Ht).
Qed.

Lemma osum_fix M neg : (forall s, In s (ofix neg) -> feq d d (uconjr d (aU r s) M) M) ->
  feq d d (osum M (ofix neg)) (fscale (ksum (seq 0 (length (ofix neg))) (fun _ => 1)) M).
Proof.
  intros H. unfold osum. rewrite (fsum_ext _ _ _ _ (fun _ => M) H). rewrite fsum_const. apply fscale_proper; [|reflexivity].
  generalize (ofix neg) 0%nat. intros l. induction l as [|s l IH]; intros k; [reflexivity|]. cbn [ksum length seq]. rewrite (IH (S k)). reflexivity.
Qed.
Lemma ksum_ones k m o o' : ksum (seq o (k + m)) (fun _ => 1) = ksum (seq o k) (fun _ => 1) + ksum (seq o' m) (fun _ => (1:K)).
Proof.
  rewrite seq_app, ksum_app. f_equal. generalize (o + k)%nat. intros p. revert p o'. induction m as [|m IH]; intros p o'; [reflexivity|].
  cbn [seq ksum]. rewrite (IH (S p) (S o')). reflexivity.
Qed.
(** an invariant matrix is not changed, hence symmetrizing twice changes nothing *)
Theorem C93_symmetrize2_fixes : forall dvs M, (forall c, (0 < c)%nat -> dvs c * ksum (seq 0 c) (fun _ => 1) = (1:K)) ->
  little_inv r x M -> feq d d (urep_symmetrize2 dvs r x M) M.
Proof.
  intros dvs M Hdv HM.
  assert (H1 : (0 < length (ofix false))%nat).
  { assert (In (zeye n) (ofix false)) as I by (apply ofix_In; split; [apply (r_group r HR)|apply zmv_eye]).
    destruct (ofix false); [destruct I|cbn; lia]. }
  assert (Ep : feq d d (osum M (ofix false)) (fscale (ksum (seq 0 (length (ofix false))) (fun _ => 1)) M)).
  { apply osum_fix. intros s Hs. apply ofix_In in Hs. apply (HM s _ (aU_assigns r HR s (proj1 Hs))). apply Hs. }
  unfold urep_symmetrize2. rewrite !fixing_len. destruct (sinv (usym r)) eqn:Hi.
  - assert (En : feq d d (flip_par sp (osum M (ofix true))) (fscale (ksum (seq 0 (length (ofix true))) (fun _ => 1)) M)).
    { assert (E : feq d d (flip_par sp (osum M (ofix true))) (fsum (ofix true) (fun _ => M))).
      { intros a b Ha Hb. unfold osum. rewrite flip_sum. unfold fsum. apply ksum_ext. intros s Hs. apply ofix_In in Hs. rewrite flip_ent.
        apply (HM s _ (aU_assigns r HR s (proj1 Hs))); [exact Hi|apply Hs|exact Ha|exact Hb]. }
      rewrite E, fsum_const. apply fscale_proper; [|reflexivity].
      generalize (ofix true) 0%nat. intros l. induction l as [|s l IH]; intros k; [reflexivity|]. cbn [ksum length seq]. rewrite (IH (S k)). reflexivity. }
    intros a b Ha Hb. unfold fscale, fadd. rewrite flip_ent, !fixing_sum, <- flip_ent.
    rewrite (En a b Ha Hb), (Ep a b Ha Hb). unfold fscale.
    specialize (Hdv (length (ofix true) + length (ofix false))%nat ltac:(lia)).
    rewrite (ksum_ones _ _ 0 0) in Hdv.
    transitivity (dvs (length (ofix true) + length (ofix false))%nat *
       (ksum (seq 0 (length (ofix true))) (fun _ => 1) + ksum (seq 0 (length (ofix false))) (fun _ => 1)) * M a b); [ring|].
    rewrite Hdv. ring.
  - intros a b Ha Hb. unfold fscale. rewrite fixing_sum, (Ep a b Ha Hb). unfold fscale.
    specialize (Hdv (length (ofix false)) H1).
    transitivity (dvs (length (ofix false)) * ksum (seq 0 (length (ofix false))) (fun _ => 1) * M a b); [ring|]. rewrite Hdv. ring.
Qed.
End C93.
Print Assumptions C93_symmetrize2_invariant.
Print Assumptions C93_symmetrize2_fixes.
(** C2z fixes the points of the z axis, C2z followed by the inversion (the mirror z -> -z) those of the xy plane *)
Definition qdiv (c : nat) : Qs := Q2Qc (1 # Pos.of_nat c).
Example C93_example : unit_rep r_sp /\
  feqb 2 2 (urep_symmetrize2 qdiv r_sp [0;0;1]%Z (qmat [[1;2];[3;4]]%Z)) (qmat [[1;0];[0;4]]%Z) = true /\
  feqb 2 2 (urep_symmetrize2 qdiv r_sp [1;0;0]%Z (qmat [[1;2];[3;4]]%Z)) (qmat [[1;2];[3;4]]%Z) = true /\
  feqb 2 2 (urep_symmetrize2 qdiv r_sp [0;0;0]%Z (qmat [[1;2];[3;4]]%Z)) (qmat [[1;0];[0;4]]%Z) = true /\
  feqb 2 2 (urep_symmetrize2 qdiv r_sp [1;0;2]%Z (qmat [[1;2];[3;4]]%Z)) (qmat [[1;2];[3;4]]%Z) = true.
Proof. split; [apply unit_rep_b_spec; vm_compute; reflexivity|]. repeat split; vm_compute; reflexivity. Qed.

(** ** C94: realize_symmetric_matrices continues matrices along the orbits *)
Section C94.
Context {K : sring}.
Local Open Scope sring_scope.
Add Ring Kring_c94 : (s_rt K).

Definition isgn (n : nat) (neg : bool) (x : zvec) : zvec := if neg then zvneg n x else x.
Definition iconj (d : nat) (inverse : bool) (u M : fmat K) : fmat K :=
  if inverse then fmul d (fmul d u M) (fadj u) else fmul d (fmul d (fadj u) M) u.
Lemma NoDup_snoc {A} (l : list A) x : NoDup l -> ~ In x l -> NoDup (l ++ [x]).
Proof.
  intros H Hn. apply (Permutation_NoDup (l := x :: l)); [apply Permutation_cons_append|]. constructor; assumption.
Qed.
Lemma rsm_scan_spec n d inverse neg k (M : fmat K) l : forall used out, NoDup used ->
  exists new, rsm_scan n d inverse neg k M l used out = (used ++ map fst new, out ++ new) /\ NoDup (used ++ map fst new) /\
    (forall y M', In (y, M') new -> exists s u, In (s, u) l /\ y = isgn n neg (zmv n s k) /\ M' = iconj d inverse u M) /\
    (forall s u, In (s, u) l -> In (isgn n neg (zmv n s k)) (used ++ map fst new)).
Proof.
  induction l as [|[s u] l IH]; intros used out Hnd.
  - exists []. cbn. rewrite !app_nil_r. split; [reflexivity|]. split; [exact Hnd|]. split; intros; contradiction.
  - cbn [rsm_scan]. change (if neg then zvneg n (zmv n s k) else zmv n s k) with (isgn n neg (zmv n s k)).
    destruct (existsb (zveqb (isgn n neg (zmv n s k))) used) eqn:E.
    + destruct (IH used out Hnd) as (new & E1 & E2 & E3 & E4). exists new. split; [exact E1|]. split; [exact E2|]. split.
      * intros y M' H. destruct (E3 y M' H) as (s' & u' & Hin & H'). exists s', u'. split; [right; exact Hin|exact H'].
      * intros s' u' [H|H]; [|apply (E4 s' u' H)]. injection H as <- <-. apply in_or_app. left. apply existsb_zveqb. exact E.
    + assert (Hno : ~ In (isgn n neg (zmv n s k)) used) by (intros H; apply existsb_zveqb in H; congruence).
      destruct (IH (used ++ [isgn n neg (zmv n s k)]) (out ++ [(isgn n neg (zmv n s k), iconj d inverse u M)]) (NoDup_snoc _ _ Hnd Hno)) as (new & E1 & E2 & E3 & E4).
      exists ((isgn n neg (zmv n s k), iconj d inverse u M) :: new). rewrite <- !app_assoc in E1. cbn [app] in E1.
      unfold iconj in E1 at 1. unfold uconjr, uconjl. rewrite E1. clear E1.
      rewrite <- app_assoc in E2, E4. cbn [app] in E2, E4. cbn [map fst]. split; [reflexivity|]. split; [exact E2|]. split.
      * intros y M' [H|H]; [injection H as <- <-; exists s, u; split; [left; reflexivity|auto]|].
        destruct (E3 y M' H) as (s' & u' & Hin & H'). exists s', u'. split; [right; exact Hin|exact H'].
      * intros s' u' [H|H]; [|apply (E4 s' u' H)]. injection H as <- <-. apply in_or_app. right. left. reflexivity.
Qed.

(** every point of the orbit appears exactly once, with the matrix moved by an operation that leads there *)
Theorem C94_orbit : forall (r : urep K) inverse (k : zvec) M, let n := sdim (usym r) in let d := udim r in
  unit_rep r -> wfv n k -> zero_b k = false ->
  let out := rsm_orbit r inverse k M in
  NoDup (k :: map fst out) /\
  (forall y, In y (k :: map fst out) <-> exists s neg, In s (sops (usym r)) /\ (neg = true -> sinv (usym r) = true) /\ y = isgn n neg (zmv n s k)) /\
  (forall y M', In (y, M') out -> exists s u neg, assigns r s u /\ (neg = true -> sinv (usym r) = true) /\
      y = isgn n neg (zmv n s k) /\ M' = iconj d inverse u M).
Proof.
  intros r inverse k M n d HR Hk Hz out.
  assert (Hone : k = isgn n false (zmv n (zeye n) k)) by (symmetry; unfold isgn, zmv, zeye; apply (lmv_1 Zs); exact Hk).
  assert (Hp : forall s u, In (s, u) (combine (sops (usym r)) (uU r)) <-> assigns r s u) by (intros; symmetry; apply assigns_pairs).
  assert (Ho : forall s u, assigns r s u -> In s (sops (usym r))) by (intros s u (j & E & _); eapply nth_error_In; exact E).
  unfold out, rsm_orbit. rewrite Hz. cbv zeta. fold n d.
  destruct (rsm_scan_spec n d inverse false k M (combine (sops (usym r)) (uU r)) [k] []) as (new & E1 & E2 & E3 & E4);
    [constructor; [intros []|constructor]|]. rewrite E1. cbn [app] in *.
  destruct (sinv (usym r)) eqn:Hi.
  - destruct (rsm_scan_spec n d inverse true k M (combine (sops (usym r)) (uU r)) (k :: map fst new) new E2) as (new' & F1 & F2 & F3 & F4).
    rewrite F1. cbn [snd]. rewrite map_app. cbn [app] in F2. split; [exact F2|].
    assert (F3' : forall y M', In (y, M') (new ++ new') -> exists s u neg, assigns r s u /\ (neg = true -> true = true) /\
      y = isgn n neg (zmv n s k) /\ M' = iconj d inverse u M).
    { intros y M' H. apply in_app_or in H. destruct H as [H|H]; [destruct (E3 y M' H) as (s & u & A & B & C); exists s, u, false
        |destruct (F3 y M' H) as (s & u & A & B & C); exists s, u, true]; (split; [apply Hp; exact A|auto]). }
    split; [|exact F3'].
    intros y. split.
    + intros [<-|H]; [exists (zeye n), false; split; [apply (r_group r HR)|auto]|].
      rewrite <- map_app in H. apply in_map_iff in H. destruct H as ([y' M'] & <- & H). destruct (F3' y' M' H) as (s & u & neg & A & B & C & _).
      exists s, neg. split; [eapply Ho; exact A|auto].
    + intros (s & neg & A & _ & ->). pose proof (aU_assigns r HR s A) as Au. apply Hp in Au. destruct neg.
      * apply (F4 s _ Au).
      * specialize (E4 s _ Au). destruct E4 as [E4|E4]; [left; exact E4|right; apply in_or_app; left; exact E4].
  - split; [exact E2|].
    assert (F3' : forall y M', In (y, M') new -> exists s u neg, assigns r s u /\ (neg = true -> false = true) /\
      y = isgn n neg (zmv n s k) /\ M' = iconj d inverse u M).
    { intros y M' H. destruct (E3 y M' H) as (s & u & A & B & C); exists s, u, false. split; [apply Hp; exact A|]. split; [discriminate|auto]. }
    split; [|exact F3'].
    intros y. split.
    + intros [<-|H]; [exists (zeye n), false; split; [apply (r_group r HR)|split; [discriminate|exact Hone]]|].
      apply in_map_iff in H. destruct H as ([y' M'] & <- & H). destruct (F3' y' M' H) as (s & u & neg & A & B & C & _).
      exists s, neg. split; [eapply Ho; exact A|auto].
    + intros (s & neg & A & B & ->). destruct neg; [specialize (B eq_refl); discriminate B|].
      pose proof (aU_assigns r HR s A) as Au. apply Hp in Au. apply (E4 s _ Au).
Qed.

(** for inverse=True and without the inversion flag the matrices transform with the representation, M(s k) = U(s) M(k) U(s)^+ *)
Theorem C94_covariant_partial : forall (r : urep K) (k : zvec) M, let n := sdim (usym r) in let d := udim r in
  unit_rep r -> wfv n k -> sinv (usym r) = false -> little_inv r k M ->
  forall s u, assigns r s u ->
  (exists M', In (zmv n s k, M') ((k, M) :: rsm_orbit r true k M)) /\
  forall M', In (zmv n s k, M') ((k, M) :: rsm_orbit r true k M) -> feq d d M' (fmul d (fmul d u M) (fadj u)).
Proof.
  intros r k M n d HR Hk Hi HM s u Hsu.
  assert (Hs : In s (sops (usym r))) by (destruct Hsu as (j & E & _); eapply nth_error_In; exact E).
  pose proof (assigns_aU r HR s u Hsu) as ->.
  assert (Hone : zmv n (zeye n) k = k) by (unfold zmv, zeye; apply (lmv_1 Zs); exact Hk).
  (* an operation and another one that leads to the same point *)
  assert (Hsame : forall s', In s' (sops (usym r)) -> zmv n s k = zmv n s' k -> feq d d (uconjr d (aU r s') M) (uconjr d (aU r s) M)).
  { intros s' Hs' E. destruct (proj2 (proj2 (proj2 (r_group r HR))) s Hs) as (t & Ht & I1 & I2).
    assert (Hst : In (zmul n t s') (sops (usym r))) by (apply (r_group r HR); assumption).
    assert (Hfx : zmv n (zmul n t s') k = k).
    { unfold n. rewrite (zmv_act r). fold n. rewrite <- E. unfold n. rewrite <- (zmv_act r), I2. exact Hone. }
    pose proof (proj1 (HM _ _ (aU_assigns r HR _ Hst)) Hfx) as Hinv. fold n d in Hinv.
    assert (Es : s' = zmul n s (zmul n t s')).
    { unfold n. rewrite (zmul_ass r), I1. symmetry. apply (zmul_1l r HR); exact Hs'. }
    assert (Eu : feq d d (aU r s') (fmul d (aU r s) (aU r (zmul n t s')))) by (rewrite Es at 1; apply (aU_hom r HR); assumption).
    unfold uconjr. rewrite Eu, fadj_mul. rewrite <- Hinv at 2. rewrite !fmul_assoc. reflexivity. }
  assert (Hid : feq d d M (uconjr d (aU r (zeye n)) M)).
  { symmetry. apply (proj1 (HM _ _ (aU_assigns r HR (zeye n) (proj1 (r_group r HR)))) Hone). }
  destruct (zero_b k) eqn:Hz.
  - unfold rsm_orbit. rewrite Hz.
    assert (Hfix : zmv n s k = k).
    { apply (zero_b_neg n k Hk) in Hz. apply (vec_ext Zs n); [apply zmv_wf|exact Hk|]. intros i Hj.
      assert (Z0 : forall j, (j < n)%nat -> vent (K:=Zs) k j = 0%Z).
      { intros j Hj'. pose proof (vent_zvneg n k j Hj') as E. rewrite <- Hz in E. lia. }
      rewrite (Z0 i Hj). unfold zmv. rewrite (vent_lmv Zs) by exact Hj. apply (nsum_zero Zs). intros j Hj'. rewrite (Z0 j Hj').
      apply Z.mul_0_r. }
    split; [exists M; left; congruence|]. intros M' [H|[]]. injection H as _ <-. symmetry. apply (proj1 (HM _ _ Hsu) Hfix).
  - destruct (C94_orbit r true k M HR Hk Hz) as (O1 & O2 & O3). fold n d in O2, O3. split.
    + assert (Hin : In (zmv n s k) (k :: map fst (rsm_orbit r true k M))) by (apply O2; exists s, false; split; [exact Hs|]; split; [discriminate|reflexivity]).
      change (k :: map fst (rsm_orbit r true k M)) with (map fst ((k, M) :: rsm_orbit r true k M)) in Hin.
      apply in_map_iff in Hin. destruct Hin as ([y M'] & E & Hin). cbn in E. subst y. exists M'. exact Hin.
    + intros M' [H|H].
      * injection H as E <-. rewrite Hid at 1. apply Hsame; [apply (r_group r HR)|]. rewrite Hone. symmetry; exact E.
      * destruct (O3 _ _ H) as (s' & u' & neg & A & B & C & ->). destruct neg; [specialize (B eq_refl); congruence|].
        pose proof (assigns_aU r HR s' u' A) as ->. apply Hsame; [|exact C]. destruct A as (j & E & _). eapply nth_error_In; exact E.
Qed.
End C94.
Print Assumptions C94_orbit.
Print Assumptions C94_covariant_partial.

(** the full statement: whatever is returned at s k is the matrix at k transformed with U(s) (and at -s k with the parities) *)
Definition C94_full (K : sring) (inverse : bool) : Prop := forall (r : urep K) (k : zvec) M, unit_rep r -> wfv (sdim (usym r)) k -> little_inv r k M ->
  forall s u M', assigns r s u ->
  (In (zmv (sdim (usym r)) s k, M') (rsm_orbit r inverse k M) -> feq (udim r) (udim r) M' (fmul (udim r) (fmul (udim r) u M) (fadj u))) /\
  (sinv (usym r) = true -> In (zvneg (sdim (usym r)) (zmv (sdim (usym r)) s k), M') (rsm_orbit r inverse k M) ->
     forall a b, (a < udim r)%nat -> (b < udim r)%nat ->
     M' a b = smul (smul (parity (usplit r) a) (fmul (udim r) (fmul (udim r) u M) (fadj u) a b)) (parity (usplit r) b)).
(** with the inversion flag the parities are missing: C2z with inversion at a general position *)
Theorem C94_inversion_refuted : ~ C94_full Qs true.
Proof.
  intros C. specialize (C r_sp [1;0;1]%Z (qmat [[1;2];[3;4]]%Z)).
  assert (HU : unit_rep r_sp) by (apply unit_rep_b_spec; vm_compute; reflexivity).
  assert (HL : little_inv r_sp [1;0;1]%Z (qmat [[1;2];[3;4]]%Z)).
  { intros s u ([|[|k]] & Hs & Hu); cbn in Hs, Hu; try discriminate Hs; try (injection Hs as <-; injection Hu as <-).
    - split; [intros _; apply (feqb_spec 2 2); vm_compute; reflexivity|intros _ E; vm_compute in E; discriminate E].
    - split; [intros E|intros _ E]; vm_compute in E; discriminate E.
    - destruct k; discriminate Hs. }
  specialize (C HU eq_refl HL (zeye 3) (qmat [[1;0];[0;1]]%Z)).
  assert (E : exists M', In (zvneg 3 (zmv 3 (zeye 3) [1;0;1]%Z), M') (rsm_orbit r_sp true [1;0;1]%Z (qmat [[1;2];[3;4]]%Z)) /\
     feq 2 2 M' (qmat [[1;2];[3;4]]%Z)).
  { exists (iconj 2 true (qmat [[1;0];[0;1]]%Z) (qmat [[1;2];[3;4]]%Z)). split; [|apply feqb_spec; vm_compute; reflexivity].
    change (rsm_orbit r_sp true [1;0;1]%Z (qmat [[1;2];[3;4]]%Z)) with
      [([-1;0;1]%Z, iconj 2 true (qmat [[1;0];[0;-1]]%Z) (qmat [[1;2];[3;4]]%Z));
       ([-1;0;-1]%Z, iconj 2 true (qmat [[1;0];[0;1]]%Z) (qmat [[1;2];[3;4]]%Z));
       ([1;0;-1]%Z, iconj 2 true (qmat [[1;0];[0;-1]]%Z) (qmat [[1;2];[3;4]]%Z))].
    right. left. reflexivity. }
  destruct E as (M' & HI & HM). destruct (C M') as [_ C']; [exists 0%nat; split; reflexivity|].
  specialize (C' eq_refl HI 0%nat 1%nat ltac:(cbn; lia) ltac:(cbn; lia)). rewrite (HM 0%nat 1%nat) in C' by lia.
  apply (f_equal this) in C'. vm_compute in C'. discriminate C'.
Qed.

(** the default inverse=False moves the matrices with the inverse operation, although the comment above the function
    states U mat U^+: C4 with the eigenvalues 1 and i *)
Definition rep_1i : urep Gs := MkUrep sym_c4 2 (map (fun k => gmat [[(1,0);(0,0)]; [(0,0); ipow k]]%Z) [0;1;2;3]%nat) 2.
Definition gunit_rep_b (r : urep Gs) : bool :=
  let n := sdim (usym r) in let d := udim r in
  is_group_b n (sops (usym r)) && forallb (wfz_b n) (sops (usym r)) &&
  (Nat.eqb (length (uU r)) (length (sops (usym r))) && Nat.leb (usplit r) d) && urep_check gfeqb r &&
  forallb (fun u => gfeqb d (fmul d u (fadj u)) fid && gfeqb d (fmul d (fadj u) u) fid) (uU r).
Lemma gunit_rep_b_spec r : gunit_rep_b r = true -> unit_rep r.
Proof.
  unfold gunit_rep_b. rewrite !andb_true_iff. intros ((((A & B) & C1 & C2) & D) & E).
  apply (C20_check_iff_homomorphism gfeqb) in D; [|intros; apply gfeqb_spec]. destruct D as [D1 D2].
  split; [apply is_group_b_spec; exact A|]. split; [apply wfz_b_spec; exact B|].
  split; [split; [apply Nat.eqb_eq; exact C1|apply Nat.leb_le; exact C2]|]. split; [exact D1|]. split; [|exact D2].
  intros s u (k & _ & Hu). rewrite forallb_forall in E. specialize (E u (nth_error_In _ _ Hu)).
  apply andb_true_iff in E. split; apply gfeqb_spec; apply E.
Qed.
Definition gM : fmat Gs := gmat [[(0,0);(1,0)]; [(0,0);(0,0)]]%Z.
Lemma rep_1i_little : little_inv rep_1i [1;0]%Z gM.
Proof.
  intros s u ([|[|[|[|k]]]] & Hs & Hu); cbn in Hs, Hu; try discriminate Hs; try (injection Hs as <-; injection Hu as <-).
  - split; [intros _; apply gfeqb_spec; vm_compute; reflexivity|discriminate].
  - split; [intros E; vm_compute in E; discriminate E|discriminate].
  - split; [intros E; vm_compute in E; discriminate E|discriminate].
  - split; [intros E; vm_compute in E; discriminate E|discriminate].
  - destruct k; discriminate Hs.
Qed.
Theorem C94_default_refuted : ~ C94_full Gs false.
Proof.
  intros C. specialize (C rep_1i [1;0]%Z gM ltac:(apply gunit_rep_b_spec; vm_compute; reflexivity) eq_refl rep_1i_little (r4 1) (gmat [[(1,0);(0,0)]; [(0,0); (0,1)]]%Z)).
  assert (E : exists M', In (zmv 2 (r4 1) [1;0]%Z, M') (rsm_orbit rep_1i false [1;0]%Z gM) /\ M' 0%nat 1%nat = (0,1)%Z).
  { exists (iconj 2 false (gmat [[(1,0);(0,0)]; [(0,0); ipow 1]]%Z) gM). split; [|vm_compute; reflexivity].
    unfold rsm_orbit. left. reflexivity. }
  destruct E as (M' & HI & HM). destruct (C M') as [C' _]; [exists 1%nat; split; reflexivity|].
  specialize (C' HI 0%nat 1%nat ltac:(cbn; lia) ltac:(cbn; lia)). rewrite HM in C'. vm_compute in C'. discriminate C'.
Qed.
Print Assumptions C94_inversion_refuted.
Print Assumptions C94_default_refuted.
Example C94_example : unit_rep rep_1i /\ wfv (K:=Zs) 2 [1;0]%Z /\ sinv (usym rep_1i) = false /\ little_inv rep_1i [1;0]%Z gM /\
  map (fun p => (fst p, snd p 0%nat 1%nat)) (urep_realize rep_1i true [([1;0]%Z, gM); ([0;0]%Z, gM)]) =
  [([1;0], (1,0)); ([0;0], (1,0)); ([0;1], (0,-1)); ([-1;0], (-1,0)); ([0;-1], (0,1))]%Z.
Proof. split; [apply gunit_rep_b_spec; vm_compute; reflexivity|]. split; [reflexivity|]. split; [reflexivity|]. split; [exact rep_1i_little|vm_compute; reflexivity]. Qed.

(** ** C95: permute *)
Section C95.
Context {K : sring}.
Local Open Scope sring_scope.
Add Ring Kring_c95 : (s_rt K).
Lemma nsum_perm d order (f : nat -> K) : Permutation order (seq 0 d) -> nsum d (fun l => f (nth l order 0%nat)) = nsum d f.
Proof.
  intros HP. unfold nsum. transitivity (ksum (map (fun l => nth l order 0%nat) (seq 0 d)) f); [symmetry; apply ksum_map|].
  rewrite <- (ksum_perm K _ _ f HP). f_equal.
  apply nth_ext with (d := 0%nat) (d' := 0%nat).
  - rewrite map_length, seq_length, (Permutation_length HP), seq_length. reflexivity.
  - intros i Hi. rewrite map_length, seq_length in Hi. rewrite (nth_indep _ 0%nat (nth 0%nat order 0%nat)) by (rewrite map_length, seq_length; exact Hi).
    rewrite (map_nth (fun l => nth l order 0%nat)). rewrite seq_nth by exact Hi. reflexivity.
Qed.
Lemma perm_lt d order i : Permutation order (seq 0 d) -> (i < d)%nat -> (nth i order 0 < d)%nat.
Proof.
  intros HP Hi. assert (In (nth i order 0%nat) (seq 0 d)) as H.
  { apply (Permutation_in _ HP). apply nth_In. rewrite (Permutation_length HP), seq_length. exact Hi. }
  apply in_seq in H. lia.
Qed.
Lemma perm_inj d order i j : Permutation order (seq 0 d) -> (i < d)%nat -> (j < d)%nat -> nth i order 0%nat = nth j order 0%nat -> i = j.
Proof.
  intros HP Hi Hj E. assert (L := Permutation_length HP). rewrite seq_length in L.
  assert (N : NoDup order) by (apply (Permutation_NoDup (l := seq 0 d)); [symmetry; exact HP|apply seq_NoDup]).
  apply (proj1 (NoDup_nth order 0%nat) N); [lia|lia|exact E].
Qed.
(** a permutation of the basis functions that keeps their parities gives the representation in the new basis *)
Theorem C95_permute_representation : forall (r : urep K) order,
  unit_rep r -> Permutation order (seq 0 (udim r)) ->
  (forall i, (i < udim r)%nat -> (i < usplit r)%nat <-> (nth i order 0 < usplit r)%nat) ->
  exists r', urep_permute r order = Some r' /\ unit_rep r' /\ usym r' = usym r /\ udim r' = udim r /\ usplit r' = usplit r /\
    forall s u', assigns r' s u' -> exists u, assigns r s u /\
      forall i j, (i < udim r)%nat -> (j < udim r)%nat -> u' i j = u (nth i order 0%nat) (nth j order 0%nat).
Proof.
  intros r order HR HP Hpar. set (pu := fun (u : fmat K) (i j : nat) => u (nth i order 0%nat) (nth j order 0%nat)).
  set (d := udim r) in *. assert (L := Permutation_length HP). rewrite seq_length in L.
  set (r' := MkUrep (usym r) d (map pu (uU r)) (usplit r)).
  assert (HA : forall s u', assigns r' s u' -> exists u, assigns r s u /\ u' = pu u).
  { intros s u' (k & Hs & Hu). unfold r' in Hs, Hu. cbn in Hs, Hu. rewrite nth_error_map in Hu.
    destruct (nth_error (uU r) k) as [u|] eqn:E; [|discriminate Hu]. injection Hu as <-. exists u. split; [exists k; auto|reflexivity]. }
  assert (HA' : forall s u, assigns r s u -> assigns r' s (pu u)).
  { intros s u (k & Hs & Hu). exists k. split; [exact Hs|]. unfold r'. cbn. rewrite nth_error_map, Hu. reflexivity. }
  exists r'. split; [|split].
  - unfold urep_permute. fold d. rewrite L, Nat.eqb_refl. rewrite (proj2 (forallb_forall _ _)); [reflexivity|].
    intros [i j] Hin. cbn [fst snd]. apply eqb_true_iff.
    assert (Hi : (i < d)%nat /\ nth i order 0%nat = j).
    { rewrite <- L in Hin. apply combine_seq_nth in Hin. rewrite Nat.sub_0_r in Hin. destruct Hin as [Hin _]. split.
      - rewrite <- L. apply nth_error_Some. congruence.
      - apply nth_error_nth. exact Hin. }
    destruct Hi as [Hi <-]. apply eq_true_iff_eq. rewrite !Nat.ltb_lt. apply Hpar; exact Hi.
  - destruct HR as (G & W & [S1 S2] & M & U & C). unfold unit_rep. cbn [usym udim usplit uU r'].
    split; [exact G|]. split; [exact W|]. split; [split; [cbn; rewrite map_length; exact S1|exact S2]|]. split; [|split].
    + intros s1 u1 s2 u2 A1 A2. destruct (HA _ _ A1) as (v1 & B1 & ->). destruct (HA _ _ A2) as (v2 & B2 & ->).
      destruct (M _ _ _ _ B1 B2) as [[w Hw] Hm]. split; [exists (pu w); apply HA'; exact Hw|].
      intros w' Hw' i j Hi Hj. destruct (HA _ _ Hw') as (w0 & B0 & ->). unfold pu.
      rewrite (Hm w0 B0) by (apply (perm_lt d); assumption).
      symmetry. apply (nsum_perm d order (fun l => v1 (nth i order 0%nat) l * v2 l (nth j order 0%nat))). exact HP.
    + intros s u' A'. destruct (HA _ _ A') as (u & B & ->). destruct (U s u B) as [U1 U2].
      assert (Hid : forall i j, (i < d)%nat -> (j < d)%nat -> fid (K:=K) (nth i order 0%nat) (nth j order 0%nat) = fid i j).
      { intros i j Hi Hj. unfold fid. destruct (Nat.eqb_spec i j) as [->|Hne]; [rewrite Nat.eqb_refl; reflexivity|].
        destruct (Nat.eqb_spec (nth i order 0%nat) (nth j order 0%nat)) as [E|_]; [|reflexivity].
        exfalso. apply Hne. apply (perm_inj d order); assumption. }
      split; intros i j Hi Hj; rewrite <- (Hid i j Hi Hj);
        [rewrite <- (U1 _ _ (perm_lt d order i HP Hi) (perm_lt d order j HP Hj))|rewrite <- (U2 _ _ (perm_lt d order i HP Hi) (perm_lt d order j HP Hj))];
        unfold fmul, fadj, pu; cbn [udim]; fold d.
      * apply (nsum_perm d order (fun l => u (nth i order 0%nat) l * sconj (u (nth j order 0%nat) l))). exact HP.
      * apply (nsum_perm d order (fun l => sconj (u l (nth i order 0%nat)) * u l (nth j order 0%nat))). exact HP.
    + intros Hi u' Hu. apply in_map_iff in Hu. destruct Hu as (u & <- & Hu). intros i j Hi' Hj'. unfold pu.
      specialize (C Hi u Hu (nth i order 0%nat) (nth j order 0%nat) (perm_lt d order i HP Hi') (perm_lt d order j HP Hj')).
      assert (P : forall i, (i < d)%nat -> parity (K:=K) (usplit r) (nth i order 0%nat) = parity (usplit r) i).
      { intros k Hk. unfold parity. destruct (Hpar k Hk) as [P1 P2].
        destruct (Nat.ltb_spec k (usplit r)), (Nat.ltb_spec (nth k order 0%nat) (usplit r)); try reflexivity; exfalso; lia. }
      rewrite !P in C by assumption. exact C.
  - split; [reflexivity|]. split; [reflexivity|]. split; [reflexivity|]. intros s u' A'. destruct (HA _ _ A') as (u & B & ->).
    exists u. split; [exact B|reflexivity].
Qed.
End C95.
Print Assumptions C95_permute_representation.
(** the order is not checked to be a permutation: repeating one basis function is accepted and nothing unitary remains *)
Definition C95_full : Prop := forall (r r' : urep Qs) order, unit_rep r -> urep_permute r order = Some r' -> unit_rep r'.
Definition r_pp : urep Qs := MkUrep sym_c2h 3 [qmat [[1;0;0];[0;1;0];[0;0;1]]; qmat [[1;0;0];[0;0;1];[0;1;0]]]%Z 1.
Theorem C95_repeated_refuted : ~ C95_full.
Proof.
  intros C. destruct (urep_permute r_pp [0;1;1]%nat) as [r'|] eqn:E; [|vm_compute in E; discriminate E].
  assert (HU : unit_rep r_pp) by (apply unit_rep_b_spec; vm_compute; reflexivity).
  specialize (C r_pp r' [0;1;1]%nat HU E). unfold urep_permute in E. cbn in E. injection E as <-.
  destruct C as (_ & _ & _ & _ & U & _).
  destruct (U (zeye 3) _ (ex_intro _ 0%nat (conj eq_refl eq_refl))) as [U1 _].
  specialize (U1 1%nat 2%nat ltac:(cbn; lia) ltac:(cbn; lia)). apply (f_equal this) in U1. vm_compute in U1. discriminate U1.
Qed.
Print Assumptions C95_repeated_refuted.
Example C95_example : unit_rep r_pp /\ Permutation [0;2;1]%nat (seq 0 (udim r_pp)) /\
  (forall i, (i < udim r_pp)%nat -> (i < usplit r_pp)%nat <-> (nth i [0;2;1]%nat 0 < usplit r_pp)%nat) /\
  urep_permute r_pp [1;0;2]%nat = None.
Proof.
  split; [apply unit_rep_b_spec; vm_compute; reflexivity|]. split; [apply perm_skip, perm_swap|]. split; [|reflexivity].
  intros [|[|[|i]]] Hi; cbn in *; lia.
Qed.

(** ** C96: the tensor product of representations is never returned *)
Definition C96_full : Prop := forall a b : urep Qs, unit_rep a -> unit_rep b -> usym a = usym b -> usplit b = udim b ->
  exists c, urep_times a b = MOk c /\ udim c = (udim a * udim b)%nat /\
    forall s ua ub, assigns a s ua -> assigns b s ub -> exists uc, assigns c s uc /\
      forall i i' j j', (i < udim a)%nat -> (i' < udim a)%nat -> (j < udim b)%nat -> (j' < udim b)%nat ->
      uc (i * udim b + j)%nat (i' * udim b + j')%nat = smul (ua i i') (ub j j').
Definition r_sgn : urep Qs := MkUrep sym_c2h 1 [qmat [[1]]; qmat [[-1]]]%Z 1.
Theorem C96_product_refuted : ~ C96_full.
Proof.
  intros C. destruct (C r_sp r_sgn) as (c & E & _); try reflexivity.
  - apply unit_rep_b_spec; vm_compute; reflexivity.
  - apply unit_rep_b_spec; vm_compute; reflexivity.
  - vm_compute in E. discriminate E.
Qed.
(** not for any pair of representations *)
Theorem C96_product_never_returns : forall (K : sring) (a b c : urep K), urep_times a b <> MOk c.
Proof.
  intros K a b c. unfold urep_times. destruct (urep_match b (usym a)); [|discriminate].
  destruct (_ || _); [discriminate|]. destruct (_ || _); discriminate.
Qed.
Print Assumptions C96_product_refuted.
Print Assumptions C96_product_never_returns.
Example C96_example : urep_times r_sp r_sgn = MType /\ urep_times r_sp r_sp = MValue /\ unit_rep r_sgn.
Proof. split; [reflexivity|]. split; [reflexivity|]. apply unit_rep_b_spec; vm_compute; reflexivity. Qed.

(** ** C97: check_symmetry *)
Section C97.
Context {K : sring}.
Local Open Scope sring_scope.
Variable ueqb : nat -> fmat K -> fmat K -> bool.
Hypothesis ueqb_spec : forall d a b, ueqb d a b = true <-> feq d d a b.
Lemma conj_back (r : urep K) s X : unit_rep r -> In s (sops (usym r)) -> feq (udim r) (udim r) (uconjl (udim r) (aU r s) (uconjr (udim r) (aU r s) X)) X.
Proof.
  intros HR Hs. unfold uconjl, uconjr. rewrite !fmul_assoc. rewrite (proj2 (aU_uni r HR s Hs)), fmul_id_l.
  rewrite <- fmul_assoc, (proj2 (aU_uni r HR s Hs)), fmul_id_r. reflexivity.
Qed.
Lemma conj_back' (r : urep K) s X : unit_rep r -> In s (sops (usym r)) -> feq (udim r) (udim r) (uconjr (udim r) (aU r s) (uconjl (udim r) (aU r s) X)) X.
Proof.
  intros HR Hs. unfold uconjl, uconjr. rewrite !fmul_assoc. rewrite (proj1 (aU_uni r HR s Hs)), fmul_id_l.
  rewrite <- fmul_assoc, (proj1 (aU_uni r HR s Hs)), fmul_id_r. reflexivity.
Qed.
(** it decides the symmetry at the single point (0, 1/2, 0) *)
Theorem C97_check_symmetry_point_partial : forall (r : urep K) (H : zvec -> fmat K), unit_rep r -> sdim (usym r) = 3%nat ->
  exists b, urep_check_symmetry ueqb r H = Some b /\
   (b = true <-> forall s u, assigns r s u ->
      feq (udim r) (udim r) (H (zmv 3 s [0;1;0]%Z)) (fmul (udim r) (fmul (udim r) u (H [0;1;0]%Z)) (fadj u))).
Proof.
  intros r H HR H3. unfold urep_check_symmetry. rewrite H3, Nat.eqb_refl. cbn [negb].
  change (combine (sops (usym r)) (uU r)) with (pairs r). rewrite (pairs_map r HR), map_map. cbn [fst snd].
  set (f := fun s => uconjl (udim r) (aU r s) (H (zmv 3 s [0;1;0]%Z))).
  set (d := udim r) in *. set (k0 := [0;1;0]%Z : zvec) in *.
  assert (Hone : zmv 3 (zeye 3) k0 = k0) by reflexivity.
  assert (HI : In (zeye 3) (sops (usym r))) by (rewrite <- H3; apply (r_group r HR)).
  assert (Hu1 : feq d d (aU r (zeye 3)) fid).
  { pose proof (aU_hom r HR (zeye 3) (zeye 3) HI HI) as E. rewrite H3 in E. fold d in E.
    replace (zmul 3 (zeye 3) (zeye 3)) with (zeye 3) in E by reflexivity.
    assert (E' : feq d d (fmul d (fadj (aU r (zeye 3))) (aU r (zeye 3))) (fmul d (fadj (aU r (zeye 3))) (fmul d (aU r (zeye 3)) (aU r (zeye 3))))) by (rewrite <- E; reflexivity).
    rewrite fmul_assoc in E'. pose proof (proj2 (aU_uni r HR (zeye 3) HI)) as U. fold d in U. rewrite U in E'. rewrite fmul_id_l in E'. symmetry. exact E'. }
  assert (Hf1 : feq d d (f (zeye 3)) (H k0)).
  { unfold f. rewrite Hone. unfold uconjl. rewrite Hu1. intros i j Hi Hj.
    assert (A : feq d d (fadj (fid (K:=K))) fid) by (intros a b _ _; unfold fadj, fid; rewrite Nat.eqb_sym; destruct (Nat.eqb a b); [apply conj_1|apply conj_0]).
    assert (B : feq d d (fmul d (fmul d (fadj fid) (H k0)) fid) (H k0)) by (rewrite A, fmul_id_l, fmul_id_r; reflexivity).
    apply B; assumption. }
  assert (Hiff : (forall s, In s (sops (usym r)) -> feq d d (f s) (H k0)) <->
     (forall s u, assigns r s u -> feq d d (H (zmv 3 s k0)) (fmul d (fmul d u (H k0)) (fadj u)))).
  { split.
    - intros E s u A. pose proof (assigns_aU r HR s u A) as ->. assert (Hs : In s (sops (usym r))) by (destruct A as (k & A & _); eapply nth_error_In; exact A).
      change (fmul d (fmul d (aU r s) (H k0)) (fadj (aU r s))) with (uconjr d (aU r s) (H k0)).
      rewrite <- (conj_back' r s (H (zmv 3 s k0)) HR Hs). unfold uconjr. specialize (E s Hs). unfold f in E. fold d. rewrite E. reflexivity.
    - intros E s Hs. unfold f. specialize (E s _ (aU_assigns r HR s Hs)). unfold uconjl. rewrite E.
      change (fmul d (fmul d (fadj (aU r s)) (fmul d (fmul d (aU r s) (H k0)) (fadj (aU r s)))) (aU r s)) with (uconjl d (aU r s) (uconjr d (aU r s) (H k0))).
      apply conj_back; assumption. }
  destruct (sops (usym r)) as [|s0 l] eqn:El; [destruct HI|].
  cbn [map]. eexists. split; [reflexivity|]. rewrite <- Hiff, forallb_forall. split.
  - intros E. assert (E0 : forall s, In s (s0 :: l) -> feq d d (f s0) (f s)).
    { intros s [<-|Hs]; [reflexivity|]. apply ueqb_spec, E. apply in_map. exact Hs. }
    intros s Hs. rewrite <- (E0 s Hs), (E0 _ HI). exact Hf1.
  - intros E y Hy. apply in_map_iff in Hy. destruct Hy as (s & <- & Hs). apply ueqb_spec.
    rewrite (E s0 (or_introl eq_refl)), (E s (or_intror Hs)). reflexivity.
Qed.
(** a two-dimensional representation always raises *)
Theorem C97_dimension_raises : forall (r : urep K) H, sdim (usym r) <> 3%nat -> urep_check_symmetry ueqb r H = None.
Proof. intros r H Hn. unfold urep_check_symmetry. rewrite (proj2 (Nat.eqb_neq _ _) Hn). reflexivity. Qed.
End C97.
Print Assumptions C97_check_symmetry_point_partial.
Print Assumptions C97_dimension_raises.
(** the answer True does not mean that the operator is symmetric: C2z, one s orbital, H = k_x *)
Definition C97_full : Prop := forall (r : urep Qs) H, unit_rep r -> urep_check_symmetry qd r H = Some true -> covariant r (fun _ => True) H.
Definition r_s : urep Qs := MkUrep sym_c2h 1 [qmat [[1]]; qmat [[1]]]%Z 1.
Definition H_kx : zvec -> fmat Qs := fun k => qmat [[nth 0 k 0%Z]].
Theorem C97_accepts_asymmetric_refuted : ~ C97_full.
Proof.
  intros C. assert (HU : unit_rep r_s) by (apply unit_rep_b_spec; vm_compute; reflexivity).
  specialize (C r_s H_kx HU ltac:(vm_compute; reflexivity) c2z _ [1;0;0]%Z (ex_intro _ 1%nat (conj eq_refl eq_refl)) eq_refl I).
  specialize (C 0%nat 0%nat ltac:(cbn; lia) ltac:(cbn; lia)). apply (f_equal this) in C. vm_compute in C. discriminate C.
Qed.
Print Assumptions C97_accepts_asymmetric_refuted.
Example C97_example : unit_rep r_sp /\ sdim (usym r_sp) = 3%nat /\
  urep_check_symmetry qd r_sp (fun k => qmat [[1; nth 1 k 0]; [nth 1 k 0; 2]]%Z) = Some true /\
  urep_check_symmetry qd r_sp (fun k => qmat [[1; nth 2 k 0 + 1]; [nth 2 k 0 + 1; 2]]%Z) = Some false /\
  urep_check_symmetry qd r_mir (fun k => qmat [[1;0];[0;1]]%Z) = None.
Proof. split; [apply unit_rep_b_spec; vm_compute; reflexivity|]. repeat split; vm_compute; reflexivity. Qed.

(** Proofs about the [Symmetry] constructor, length, equality and generated groups of integer
    matrices (symmetry.py l.70-156, 235-283). *)
From Coq Require Import List Arith ZArith Lia Bool Permutation.
Import ListNotations.
From Verif Require Import SRing LMat SymModel FinGroup SymGenProofs DetMC.

Lemma list_eqb_spec {A} (eqb : A -> A -> bool) (H : forall a b, eqb a b = true <-> a = b) :
  forall l1 l2, list_eqb eqb l1 l2 = true <-> l1 = l2.
Proof.
  induction l1 as [|a l1 IH]; intros [|b l2]; simpl; try (split; congruence).
  rewrite andb_true_iff, H, IH. split; [intros [-> ->]; reflexivity|intros E; injection E; auto].
Qed.

Lemma zveqb_spec u v : zveqb u v = true <-> u = v.
Proof. apply list_eqb_spec. intros; apply Z.eqb_eq. Qed.
Lemma zmeqb_spec a b : zmeqb a b = true <-> a = b.
Proof. apply list_eqb_spec. apply zveqb_spec. Qed.
Lemma zmeqb_refl a : zmeqb a a = true. Proof. apply zmeqb_spec; reflexivity. Qed.
Lemma zveqb_refl a : zveqb a a = true. Proof. apply zveqb_spec; reflexivity. Qed.

Definition wfz (n : nat) (a : zmat) : Prop := wfm n n a.

Lemma wfz_eye n : wfz n (zeye n). Proof. apply leye_wf. Qed.
Lemma wfz_mul n a b : wfz n (zmul n a b). Proof. apply lmul_wf. Qed.
Lemma wfz_neg n a : wfz n (zneg n a). Proof. apply lneg_wf. Qed.
Lemma zmul_assoc n a b c : zmul n a (zmul n b c) = zmul n (zmul n a b) c.
Proof. apply lmul_assoc. Qed.
Lemma zmul_1_l n a : wfz n a -> zmul n (zeye n) a = a. Proof. apply lmul_1_l. Qed.
Lemma zmul_1_r n a : wfz n a -> zmul n a (zeye n) = a. Proof. apply lmul_1_r. Qed.
Lemma zneg_invol n a : wfz n a -> zneg n (zneg n a) = a. Proof. apply lneg_invol. Qed.
Lemma zneg_mul_l n a b : zmul n (zneg n a) b = zneg n (zmul n a b). Proof. apply lneg_mul_l. Qed.
Lemma zneg_mul_r n a b : zmul n a (zneg n b) = zneg n (zmul n a b). Proof. apply lneg_mul_r. Qed.

Definition zmemb_In := @memb_In zmat zmeqb zmeqb_spec.

(** *** Unimodular matrices *)
Definition unimod (n : nat) (a : zmat) : Prop := Z.abs (zdet n a) = 1%Z.

Lemma det_ok_spec n a : det_ok n a = true <-> unimod n a.
Proof. unfold det_ok, unimod. rewrite Z.eqb_eq. reflexivity. Qed.

Lemma unimod_eye n : unimod n (zeye n).
Proof. unfold unimod. rewrite zdet_eye. reflexivity. Qed.

Lemma unimod_mul n a b : wfz n a -> wfz n b -> unimod n a -> unimod n b -> unimod n (zmul n a b).
Proof. unfold unimod. intros Ha Hb H1 H2. rewrite zdet_mul by assumption. lia. Qed.

Lemma unimod_neg n a : wfz n a -> unimod n a -> unimod n (zneg n a).
Proof. unfold unimod. intros Ha H1. rewrite zdet_neg by assumption. destruct (Nat.even n); lia. Qed.

Lemma unimod_cancel n g a b : wfz n g -> wfz n a -> wfz n b -> unimod n g ->
  zmul n g a = zmul n g b -> a = b.
Proof.
  intros Hg Ha Hb Hu E. destruct (@zdet_inverse n g Hg Hu) as (h & Hh & _ & Hhg).
  rewrite <- (zmul_1_l n a), <- (zmul_1_l n b) by assumption.
  rewrite <- Hhg, <- !zmul_assoc, E. reflexivity.
Qed.

Lemma generated_wf n G x : generated (zmul n) (zeye n) G x -> wfz n x.
Proof.
  intros [w [Hw ->]]. destruct w; simpl; [apply wfz_eye|apply wfz_mul].
Qed.

Lemma generated_unimod n G x : (forall g, In g G -> wfz n g /\ unimod n g) ->
  generated (zmul n) (zeye n) G x -> unimod n x.
Proof.
  intros HG [w [Hw ->]]. induction w as [|a w IH]; simpl; [apply unimod_eye|].
  assert (Ha : In a G) by (apply Hw; left; reflexivity).
  apply unimod_mul; try apply (HG a Ha).
  - destruct w; simpl; [apply wfz_eye|apply wfz_mul].
  - apply IH. intros g Hg; apply Hw; right; exact Hg.
Qed.

(** *** Results of from_generator are groups, in every dimension *)
Lemma from_generator_det n G R :
  from_generator zmeqb (zmul n) (zeye n) (det_ok n) G = GenOk R ->
  forall g, In g G -> unimod n g.
Proof.
  unfold from_generator. destruct G as [|g1 G1]; [discriminate|]. set (G := g1 :: G1).
  intros H g Hg.
  destruct (zmeqb g (zeye n)) eqn:E; [apply zmeqb_spec in E; subst; apply unimod_eye|].
  assert (Hf : In g (filter (fun s => negb (zmeqb s (zeye n))) G)) by (apply filter_In; rewrite E; auto).
  destruct (filter (fun s => negb (zmeqb s (zeye n))) G) as [|g0 G']; [contradiction|].
  destruct (existsb (fun s => negb (det_ok n s)) (g0 :: G')) eqn:Ed; [discriminate|].
  apply det_ok_spec. destruct (det_ok n g) eqn:Eg; [reflexivity|].
  assert (existsb (fun s => negb (det_ok n s)) (g0 :: G') = true); [|congruence].
  apply existsb_exists. exists g; rewrite Eg; auto.
Qed.

Lemma from_generator_ok_z n G R : (forall g, In g G -> wfz n g) ->
  from_generator zmeqb (zmul n) (zeye n) (det_ok n) G = GenOk R ->
  hd_error R = Some (zeye n) /\ (forall g, In g G -> In g R) /\ NoDup R /\ closed (zmul n) R /\
  length R < 200 /\ (forall x, In x R <-> generated (zmul n) (zeye n) G x).
Proof.
  apply (from_generator_ok zmeqb (zmul n) (zeye n) (det_ok n) (wfz n) zmeqb_spec
           (wfz_eye n) (wfz_mul n) (zmul_assoc n) (zmul_1_l n) (zmul_1_r n)).
Qed.

Lemma from_generator_group n G R : (forall g, In g G -> wfz n g) ->
  from_generator zmeqb (zmul n) (zeye n) (det_ok n) G = GenOk R ->
  is_group (zmul n) (zeye n) R.
Proof.
  intros HW H. pose proof (from_generator_det n G R H) as Hu.
  pose proof (from_generator_ok_z n G R HW H) as (H1 & H2 & H3 & H4 & H5 & H6).
  assert (Ho : In (zeye n) R) by (apply H6, generated_one).
  assert (HRw : forall a, In a R -> wfz n a) by (intros a Ha; apply (generated_wf n G), H6, Ha).
  assert (HRu : forall a, In a R -> unimod n a).
  { intros a Ha; apply (generated_unimod n G); [auto|]. apply H6, Ha. }
  repeat split; auto.
  apply (closed_inverses (zmul n) (zeye n) (wfz n) (zmul_assoc n) (zmul_1_l n) (zmul_1_r n)); auto.
  intros g a b Hg Ha Hb. apply unimod_cancel; auto.
Qed.

(** *** The constructor *)
Lemma cloud_close_spec a b : cloud_close a b = true <-> forall p, In p a -> In p b.
Proof.
  unfold cloud_close. rewrite forallb_forall. split; intros H p Hp; apply zmemb_In; auto.
Qed.

(** the list handed to the constructor is closed under negation *)
Definition neg_closed (n : nat) (S : list zmat) : Prop := forall s, In s S -> In (zneg n s) S.

Lemma neg_closed_spec n S : (forall s, In s S -> wfz n s) ->
  (cloud_close S (map (zneg n) S) = true <-> neg_closed n S).
Proof.
  intros HW. rewrite cloud_close_spec. unfold neg_closed. split; intros H s Hs.
  - specialize (H s Hs). apply in_map_iff in H. destruct H as [t [E Ht]].
    rewrite <- E, zneg_invol by auto. exact Ht.
  - apply in_map_iff. exists (zneg n s). split; [apply zneg_invol; auto|apply H; exact Hs].
Qed.

Lemma sym_init_some n S inv proj : hd_error S = Some (zeye n) -> (forall s, In s S -> unimod n s) ->
  exists g, sym_init n S inv proj = Some g /\ sdim g = n /\ sproj g = proj.
Proof.
  destruct S as [|s_0 S']; [discriminate|]. intros E Hu. injection E as ->.
  unfold sym_init. rewrite zmeqb_refl. cbn [negb].
  destruct (existsb (fun s => negb (det_ok n s)) (zeye n :: S')) eqn:Ed.
  - apply existsb_exists in Ed. destruct Ed as [x [Hx Ed]]. apply Hu, det_ok_spec in Hx.
    rewrite Hx in Ed. discriminate.
  - destruct (cloud_close _ _), (Nat.odd n), (inv && Nat.even n); eexists; repeat split.
Qed.

Lemma sym_init_inv n S inv proj g : sym_init n S inv proj = Some g ->
  hd_error S = Some (zeye n) /\ (forall s, In s S -> unimod n s) /\ sdim g = n /\ sproj g = proj /\
  ((cloud_close S (map (zneg n) S) = true /\ Nat.odd n = true /\
      sops g = filter (fun s => Z.ltb 0 (zdet n s)) S /\ sinv g = true) \/
   (cloud_close S (map (zneg n) S) = true /\ Nat.odd n = false /\ sops g = S /\ sinv g = inv) \/
   (cloud_close S (map (zneg n) S) = false /\ inv = true /\ Nat.odd n = false /\
      sops g = S ++ map (zneg n) S /\ sinv g = false) \/
   (cloud_close S (map (zneg n) S) = false /\ (inv = false \/ Nat.odd n = true) /\
      sops g = S /\ sinv g = inv)).
Proof.
  unfold sym_init. destruct S as [|s_0 S']; [discriminate|].
  destruct (zmeqb s_0 (zeye n)) eqn:E0; [|discriminate]. apply zmeqb_spec in E0. cbn [negb].
  destruct (existsb (fun s => negb (det_ok n s)) (s_0 :: S')) eqn:Ed; [discriminate|].
  assert (Hu : forall s, In s (s_0 :: S') -> unimod n s).
  { intros s Hs. apply det_ok_spec. destruct (det_ok n s) eqn:E; [reflexivity|].
    assert (existsb (fun s => negb (det_ok n s)) (s_0 :: S') = true); [|congruence].
    apply existsb_exists. exists s; rewrite E; auto. }
  rewrite <- Nat.negb_odd.
  destruct (cloud_close (s_0 :: S') (map (zneg n) (s_0 :: S'))) eqn:Ec.
  - destruct (Nat.odd n) eqn:Eo; intros H; injection H as <-; cbn [sops sinv sdim sproj];
      (split; [simpl; congruence|]); (split; [exact Hu|]); repeat split.
    + left; auto.
    + right; left; auto.
  - destruct inv, (Nat.odd n) eqn:Eo; cbn [andb negb]; intros H; injection H as <-;
      cbn [sops sinv sdim sproj];
      (split; [simpl; congruence|]); (split; [exact Hu|]); repeat split.
    + right; right; right; auto.
    + right; right; left; auto.
    + right; right; right; auto.
    + right; right; right; auto.
Qed.

Lemma odd_even n : Nat.even n = negb (Nat.odd n).
Proof. symmetry; apply Nat.negb_odd. Qed.

(** the represented operations are the given ones, plus their negatives if requested *)
Lemma sym_init_ops n S inv proj g : (forall s, In s S -> wfz n s) -> sym_init n S inv proj = Some g ->
  forall x, In x (sym_all g) <-> In x S \/ (inv = true /\ exists s, In s S /\ x = zneg n s).
Proof.
  intros HW H x. apply sym_init_inv in H. destruct H as (_ & Hu & Hd & _ & H).
  unfold sym_all. rewrite in_app_iff, Hd.
  destruct H as [(Hc & Ho & -> & ->)|[(Hc & Ho & -> & ->)|[(Hc & -> & Ho & -> & ->)|(Hc & Hi & -> & ->)]]].
  - apply neg_closed_spec in Hc; [|exact HW].
    rewrite in_map_iff. split.
    + intros [Hx|[s [<- Hs]]].
      * apply filter_In in Hx. left; apply Hx.
      * apply filter_In in Hs. left. apply Hc, Hs.
    + intros Hx. assert (Hin : In x S) by (destruct Hx as [Hx|[_ [s [Hs ->]]]]; [exact Hx|apply Hc, Hs]).
      destruct (Z.ltb_spec 0 (zdet n x)) as [Hlt|Hle].
      * left. apply filter_In; split; [exact Hin|]. apply Z.ltb_lt; exact Hlt.
      * right. exists (zneg n x). split; [apply zneg_invol; auto|].
        apply filter_In; split; [apply Hc, Hin|]. apply Z.ltb_lt.
        rewrite zdet_neg by (apply HW; exact Hin). rewrite odd_even, Ho. cbn [negb].
        assert (Hux := Hu x Hin). unfold unimod in Hux. lia.
  - destruct inv; cbn [In].
    + rewrite in_map_iff. split.
      * intros [Hx|[s [<- Hs]]]; [left; exact Hx|right; split; eauto].
      * intros [Hx|[_ [s [Hs ->]]]]; [left; exact Hx|right; eauto].
    + split; [intros [Hx|[]]; left; exact Hx|intros [Hx|[E _]]; [left; exact Hx|discriminate]].
  - cbn [In]. rewrite in_app_iff, in_map_iff. split.
    + intros [[Hx|[s [<- Hs]]]|[]]; [left; exact Hx|right; split; eauto].
    + intros [Hx|[_ [s [Hs ->]]]]; left; [left; exact Hx|right; eauto].
  - destruct inv; cbn [In].
    + rewrite in_map_iff. split.
      * intros [Hx|[s [<- Hs]]]; [left; exact Hx|right; split; eauto].
      * intros [Hx|[_ [s [Hs ->]]]]; [left; exact Hx|right; eauto].
    + split; [intros [Hx|[]]; left; exact Hx|intros [Hx|[E _]]; [left; exact Hx|discriminate]].
Qed.

Lemma NoDup_neg n S : (forall s, In s S -> wfz n s) -> NoDup S -> NoDup (map (zneg n) S).
Proof.
  intros HW Hnd. apply NoDup_map_inj; [|exact Hnd]. intros a b Ha Hb E.
  rewrite <- (zneg_invol n a), <- (zneg_invol n b) by auto. congruence.
Qed.

(** no operation is listed twice *)
Lemma sym_init_nodup n S inv proj g : (forall s, In s S -> wfz n s) -> NoDup S ->
  (neg_closed n S \/ forall s, In s S -> ~ In (zneg n s) S) ->
  (Nat.odd n = true \/ inv = false \/ ~ neg_closed n S) ->
  sym_init n S inv proj = Some g -> NoDup (sym_all g).
Proof.
  intros HW Hnd Hneg Hside H. apply sym_init_inv in H. destruct H as (Hh & Hu & Hd & _ & H).
  unfold sym_all. rewrite Hd.
  assert (Hdisj : cloud_close S (map (zneg n) S) = false -> NoDup (S ++ map (zneg n) S)).
  { intros Hc. apply NoDup_app_iff. split; [exact Hnd|]. split; [apply NoDup_neg; assumption|].
    destruct Hneg as [Hneg|Hneg].
    { apply neg_closed_spec in Hneg; [congruence|exact HW]. }
    intros x Hx Hx2. apply in_map_iff in Hx2. destruct Hx2 as [s [<- Hs]]. exact (Hneg s Hs Hx). }
  destruct H as [(Hc & Ho & -> & ->)|[(Hc & Ho & -> & ->)|[(Hc & -> & Ho & -> & ->)|(Hc & Hi & -> & ->)]]].
  - assert (HWf : forall s, In s (filter (fun s => Z.ltb 0 (zdet n s)) S) -> wfz n s)
      by (intros s Hs; apply filter_In in Hs; apply HW, Hs).
    apply NoDup_app_iff. split; [apply NoDup_filter; exact Hnd|].
    split; [apply NoDup_neg; [exact HWf|apply NoDup_filter; exact Hnd]|].
    intros x Hx Hx2. apply in_map_iff in Hx2. destruct Hx2 as [s [<- Hs]].
    apply filter_In in Hx, Hs. destruct Hx as [_ Hx], Hs as [HsS Hs].
    apply Z.ltb_lt in Hx, Hs. rewrite zdet_neg in Hx by (apply HW, HsS).
    rewrite odd_even, Ho in Hx. cbn [negb] in Hx. lia.
  - apply neg_closed_spec in Hc; [|exact HW].
    destruct Hside as [Hs|[->|Hs]]; [congruence| |contradiction].
    rewrite app_nil_r; exact Hnd.
  - rewrite app_nil_r. apply Hdisj, Hc.
  - destruct inv; [apply Hdisj, Hc|rewrite app_nil_r; exact Hnd].
Qed.

Lemma sym_len_all g : sym_len g = length (sym_all g).
Proof.
  unfold sym_len, sym_all. rewrite app_length. destruct (sinv g); simpl; rewrite ?map_length; lia.
Qed.

(** for a group either all or no negatives are present *)
Lemma group_neg_alt n R : is_group (zmul n) (zeye n) R -> (forall s, In s R -> wfz n s) ->
  neg_closed n R \/ forall s, In s R -> ~ In (zneg n s) R.
Proof.
  intros (Ho & Hnd & Hc & Hi) HW.
  destruct (memb zmeqb (zneg n (zeye n)) R) eqn:E.
  - left. apply zmemb_In in E. intros s Hs.
    replace (zneg n s) with (zmul n (zneg n (zeye n)) s); [apply Hc; assumption|].
    rewrite zneg_mul_l, zmul_1_l by auto. reflexivity.
  - right. intros s Hs Hn. apply (memb_notIn zmeqb zmeqb_spec) in E. apply E.
    destruct (Hi s Hs) as (t & Ht & Hst & Hts).
    replace (zneg n (zeye n)) with (zmul n (zneg n s) t); [apply Hc; assumption|].
    rewrite zneg_mul_l, Hst. reflexivity.
Qed.

Definition inv_gen (n : nat) (inv : bool) : list zmat := if inv then [zneg n (zeye n)] else [].

Lemma zneg_central n a : wfz n a -> zneg n a = zmul n (zneg n (zeye n)) a /\ zneg n a = zmul n a (zneg n (zeye n)).
Proof.
  intros Ha. rewrite zneg_mul_l, zneg_mul_r, zmul_1_l, zmul_1_r by assumption. auto.
Qed.

(** adding -1 to the generators doubles the generated group *)
Lemma generated_inv n G R : (forall g, In g G -> wfz n g) ->
  (forall x, In x R <-> generated (zmul n) (zeye n) G x) ->
  forall x, generated (zmul n) (zeye n) (G ++ [zneg n (zeye n)]) x <->
            In x R \/ exists s, In s R /\ x = zneg n s.
Proof.
  intros HW HR x.
  assert (HW2 : forall g, In g (G ++ [zneg n (zeye n)]) -> wfz n g).
  { intros g Hg. apply in_app_or in Hg. destruct Hg as [Hg|[<-|[]]]; [auto|apply wfz_neg]. }
  assert (HRw : forall s, In s R -> wfz n s) by (intros s Hs; eapply generated_wf; apply HR, Hs).
  split.
  - intros [w [Hw ->]]. induction w as [|a w IH]; cbn [wprod fold_right].
    + left. apply HR, generated_one.
    + assert (Hwx : In (wprod (zmul n) (zeye n) w) R \/ exists s, In s R /\ wprod (zmul n) (zeye n) w = zneg n s).
      { apply IH. intros g Hg; apply Hw; right; exact Hg. }
      fold (wprod (zmul n) (zeye n) w).
      assert (Hmul : forall a b, In a R -> In b R -> In (zmul n a b) R).
      { intros c d Hc2 Hd. apply HR. apply (generated_mul (zmul n) (zeye n) (wfz n)
          (wfz_eye n) (wfz_mul n) (zmul_assoc n) (zmul_1_l n)); [auto| |]; apply HR; assumption. }
      assert (Ha : In a (G ++ [zneg n (zeye n)])) by (apply Hw; left; reflexivity).
      apply in_app_or in Ha. destruct Ha as [Ha|[<-|[]]].
      * assert (HaR : In a R) by (apply HR, (generated_in (zmul n) (zeye n) (wfz n) (zmul_1_r n)); auto).
        destruct Hwx as [Hx|[s [Hs ->]]]; [left; auto|right].
        exists (zmul n a s). rewrite zneg_mul_r. auto.
      * destruct Hwx as [Hx|[s [Hs ->]]].
        -- right. exists (wprod (zmul n) (zeye n) w). split; [exact Hx|].
           symmetry. apply zneg_central. auto.
        -- left. rewrite <- (proj1 (zneg_central n (zneg n s) (wfz_neg n s))), zneg_invol by auto. exact Hs.
  - assert (Hg : forall s, In s R -> generated (zmul n) (zeye n) (G ++ [zneg n (zeye n)]) s).
    { intros s Hs. apply HR in Hs. destruct Hs as [w [Hw ->]]. exists w; split; [|reflexivity].
      intros g Hg; apply in_or_app; left; auto. }
    intros [Hx|[s [Hs ->]]]; [auto|].
    rewrite (proj1 (zneg_central n s (HRw s Hs))).
    apply (generated_mul (zmul n) (zeye n) (wfz n) (wfz_eye n) (wfz_mul n) (zmul_assoc n) (zmul_1_l n)); auto.
    apply (generated_in (zmul n) (zeye n) (wfz n) (zmul_1_r n)); [apply wfz_neg|].
    apply in_or_app; right; left; reflexivity.
Qed.

(** the Symmetry object built from generators represents exactly the generated group *)
Lemma sym_from_generator_ops n G inv g : (forall s, In s G -> wfz n s) ->
  sym_from_generator n G inv = Some g ->
  sdim g = n /\ sproj g = false /\
  (forall x, In x (sym_all g) <-> generated (zmul n) (zeye n) (G ++ inv_gen n inv) x) /\
  (Nat.odd n = true \/ inv = false \/ ~ generated (zmul n) (zeye n) G (zneg n (zeye n)) ->
   NoDup (sym_all g)).
Proof.
  intros HW H. unfold sym_from_generator in H.
  destruct (from_generator zmeqb (zmul n) (zeye n) (det_ok n) G) as [R| | |] eqn:E; try discriminate.
  pose proof (from_generator_ok_z n G R HW E) as (H1 & H2 & H3 & H4 & H5 & H6).
  pose proof (from_generator_group n G R HW E) as HG.
  assert (HRw : forall a, In a R -> wfz n a) by (intros a Ha; apply (generated_wf n G), H6, Ha).
  pose proof (sym_init_inv n R inv false g H) as (_ & _ & Hd & Hp & _).
  repeat split; auto.
  - intros Hx. apply (sym_init_ops n R inv false g HRw H) in Hx. destruct inv; cbn [inv_gen].
    + apply (generated_inv n G R HW H6). destruct Hx as [Hx|[_ Hx]]; auto.
    + rewrite app_nil_r. apply H6. destruct Hx as [Hx|[Hx _]]; [auto|discriminate].
  - intros Hx. apply (sym_init_ops n R inv false g HRw H). destruct inv; cbn [inv_gen] in Hx.
    + apply (generated_inv n G R HW H6) in Hx. destruct Hx as [Hx|Hx]; auto.
    + rewrite app_nil_r in Hx. left. apply H6, Hx.
  - intros Hside. apply (sym_init_nodup n R inv false g HRw H3); auto.
    + apply group_neg_alt; assumption.
    + destruct Hside as [Hs|[Hs|Hs]]; auto. right; right. intros Hn. apply Hs, H6.
      apply Hn. apply H6, generated_one.
Qed.

Lemma sym_from_generator_none n G inv : G <> [] -> (forall s, In s G -> wfz n s /\ unimod n s) ->
  (sym_from_generator n G inv = None <->
   from_generator zmeqb (zmul n) (zeye n) (det_ok n) G = GenSize).
Proof.
  intros Hne HW. unfold sym_from_generator.
  destruct (from_generator_total zmeqb (zmul n) (zeye n) (det_ok n) G Hne) as [[R HR]|HS].
  - intros g Hg; apply det_ok_spec, HW, Hg.
  - rewrite HR.
    pose proof (from_generator_ok_z n G R (fun s Hs => proj1 (HW s Hs)) HR) as (H1 & H2 & H3 & H4 & H5 & H6).
    destruct (sym_init_some n R inv false H1) as (g & Hg & _).
    { intros s Hs. apply (generated_unimod n G); [exact HW|]. apply H6, Hs. }
    rewrite Hg. split; discriminate.
  - rewrite HS. split; auto.
Qed.

(** Proofs about UnitaryRepresentation.from_generator *)
From Coq Require Import List Arith ZArith Lia Bool Permutation Setoid Morphisms.
Import ListNotations.
From Verif Require Import SRing LMat FMat FinGroup SymModel SymGenProofs SymInitProofs UrepModel UrepProofs.

Section G.
Context {K : sring}.
Open Scope sring_scope.
Variable ueqb : nat -> fmat K -> fmat K -> bool.
Hypothesis ueqb_spec : forall d a b, ueqb d a b = true <-> feq d d a b.
Notation plist := (list (zmat * fmat K)).

Lemma ugen_insert_spec d s u (l r : plist) : ugen_insert ueqb d s u l = Some r -> NoDup (map fst l) ->
  NoDup (map fst r) /\ (forall p, In p l -> In p r) /\ (forall p, In p r -> In p l \/ p = (s, u)) /\
  exists w, In (s, w) r /\ feq d d w u.
Proof.
  revert r. induction l as [|[s' u'] l IH]; intros r H Hn; cbn [ugen_insert] in H.
  - injection H as <-. split; [|split; [|split]].
    + constructor; [simpl; tauto|constructor].
    + intros p [].
    + intros p [<-|[]]. right; reflexivity.
    + exists u. split; [left; reflexivity|reflexivity].
  - destruct (zmeqb s' s) eqn:E.
    + apply zmeqb_spec in E. subst s'. destruct (ueqb d u' u) eqn:F; [|discriminate H]. injection H as <-.
      apply ueqb_spec in F. split; [exact Hn|]. split; [auto|]. split; [auto|].
      exists u'. split; [left; reflexivity|exact F].
    + destruct (ugen_insert ueqb d s u l) as [r'|] eqn:F; [|discriminate H]. injection H as <-.
      cbn [map fst] in Hn. inversion_clear Hn as [|? ? Ha Hl].
      destruct (IH r' eq_refl Hl) as [H1 [H2 [H3 [w [H4 H5]]]]].
      split; [|split; [|split]].
      * cbn [map fst]. constructor; [|exact H1]. intro Hin. apply in_map_iff in Hin. destruct Hin as [p [Ep Hp]].
        destruct (H3 p Hp) as [Hp'| ->].
        -- apply Ha. rewrite <- Ep. apply in_map; exact Hp'.
        -- simpl in Ep. subst s'. rewrite zmeqb_refl in E. discriminate E.
      * intros p [<-|Hp]; [left; reflexivity|right; auto].
      * intros p [<-|Hp]; [left; left; reflexivity|]. destruct (H3 p Hp); [left; right; assumption|auto].
      * exists w. split; [right; exact H4|exact H5].
Qed.
Lemma ugen_collect_spec d ps : forall (acc r : plist), ugen_collect ueqb d ps acc = Some r -> NoDup (map fst acc) ->
  NoDup (map fst r) /\ (forall p, In p acc -> In p r) /\ (forall p, In p r -> In p acc \/ In p ps) /\
  forall s u, In (s, u) ps -> exists w, In (s, w) r /\ feq d d w u.
Proof.
  induction ps as [|[s u] ps IH]; intros acc r H Hn; cbn [ugen_collect] in H.
  - injection H as <-. repeat split; auto. intros s u [].
  - destruct (ugen_insert ueqb d s u acc) as [acc'|] eqn:E; [|discriminate H].
    apply ugen_insert_spec in E; [|exact Hn]. destruct E as [A1 [A2 [A3 [w [A4 A5]]]]].
    destruct (IH acc' r H A1) as [B1 [B2 [B3 B4]]]. split; [exact B1|]. split; [auto|]. split.
    + intros p Hp. destruct (B3 p Hp) as [Hp'|Hp']; [|right; right; exact Hp'].
      destruct (A3 p Hp') as [Hq|Hq]; [left; exact Hq|right; left; symmetry; exact Hq].
    + intros s' u' [E|Hp]; [|apply B4; exact Hp]. injection E as <- <-. exists w. auto.
Qed.
Lemma ugen_products_In n d (l : plist) x w : In (x, w) (ugen_products n d l) <->
  exists s u t v, In (s, u) l /\ In (t, v) l /\ x = zmul n s t /\ w = fmul d u v.
Proof.
  unfold ugen_products. rewrite in_map_iff. split.
  - intros [[[s u] [t v]] [E H]]. cbn in E. injection E as <- <-. apply in_prod_iff in H. exists s, u, t, v. tauto.
  - intros [s [u [t [v [H1 [H2 [-> ->]]]]]]]. exists ((s, u), (t, v)). split; [reflexivity|]. apply in_prod_iff. auto.
Qed.

(** one round *)
Lemma ugen_round n d (l l' : plist) : ugen_collect ueqb d (ugen_products n d l) [] = Some l' ->
  NoDup (map fst l') /\
  (forall s u t v, In (s, u) l -> In (t, v) l -> exists w, In (zmul n s t, w) l' /\ feq d d w (fmul d u v)) /\
  (forall x w, In (x, w) l' -> exists s u t v, In (s, u) l /\ In (t, v) l /\ x = zmul n s t /\ w = fmul d u v).
Proof.
  intro H. apply ugen_collect_spec in H; [|constructor]. destruct H as [H1 [_ [H3 H4]]].
  split; [exact H1|]. split.
  - intros s u t v A B. apply H4. apply ugen_products_In. exists s, u, t, v. auto.
  - intros x w Hx. destruct (H3 _ Hx) as [[]|Hp]. apply ugen_products_In in Hp. exact Hp.
Qed.
Lemma keys_unique (l : plist) s u v : NoDup (map fst l) -> In (s, u) l -> In (s, v) l -> u = v.
Proof.
  induction l as [|[t w] l IH]; intros Hn Hu Hv; [destruct Hu|].
  cbn in Hn. inversion_clear Hn as [|? ? Ha Hl].
  destruct Hu as [Eu|Hu], Hv as [Ev|Hv].
  - congruence.
  - injection Eu as <- <-. exfalso. apply Ha. apply (in_map fst) in Hv. exact Hv.
  - injection Ev as <- <-. exfalso. apply Ha. apply (in_map fst) in Hu. exact Hu.
  - auto.
Qed.

(** the list has distinct well-formed operations and carries the identity with the identity matrix *)
Definition gen_ok n d (l : plist) : Prop :=
  NoDup (map fst l) /\ (forall s u, In (s, u) l -> wfz n s) /\ exists uI, In (zeye n, uI) l /\ feq d d uI fid.
Definition extends d (l0 l : plist) : Prop := forall s u, In (s, u) l0 -> exists w, In (s, w) l /\ feq d d w u.
Definition hom n d (l : plist) : Prop := forall s u t v, In (s, u) l -> In (t, v) l ->
  exists w, In (zmul n s t, w) l /\ feq d d w (fmul d u v).

Lemma round_extends n d (l l' : plist) : gen_ok n d l ->
  ugen_collect ueqb d (ugen_products n d l) [] = Some l' -> gen_ok n d l' /\ extends d l l'.
Proof.
  intros [Hn [Hw [uI [HI EI]]]] H. apply ugen_round in H. destruct H as [H1 [H2 H3]].
  assert (He : extends d l l').
  { intros s u Hs. destruct (H2 _ _ _ _ HI Hs) as [w [A B]]. exists w. rewrite zmul_1_l in A by (apply (Hw s u Hs)).
    split; [exact A|]. rewrite B, EI. apply fmul_id_l. }
  split; [|exact He]. split; [exact H1|]. split.
  - intros x w Hx. destruct (H3 x w Hx) as [s [u [t [v [_ [_ [-> _]]]]]]]. apply wfz_mul.
  - destruct (He _ _ HI) as [w [A B]]. exists w. split; [exact A|]. rewrite B. exact EI.
Qed.
Lemma round_final n d (l l' : plist) : gen_ok n d l -> ugen_collect ueqb d (ugen_products n d l) [] = Some l' ->
  length l' <= length l -> hom n d l'.
Proof.
  intros Hok H Hlen. destruct (round_extends _ _ _ _ Hok H) as [[N' _] He].
  destruct Hok as [Hn _]. apply ugen_round in H. destruct H as [_ [H2 _]].
  assert (Hincl : incl (map fst l') (map fst l)).
  { apply NoDup_length_incl; [exact Hn|rewrite !map_length; exact Hlen|].
    intros s Hs. apply in_map_iff in Hs. destruct Hs as [[s' u] [<- Hs]]. destruct (He _ _ Hs) as [w [A _]].
    apply (in_map fst) in A. exact A. }
  assert (Hback : forall s u', In (s, u') l' -> exists u, In (s, u) l /\ feq d d u' u).
  { intros s u' Hs. assert (In s (map fst l)) as X by (apply Hincl; apply (in_map fst) in Hs; exact Hs).
    apply in_map_iff in X. destruct X as [[s0 u] [E X]]. cbn in E. subst s0. exists u. split; [exact X|].
    destruct (He _ _ X) as [w [A B]]. rewrite (keys_unique _ _ _ _ N' Hs A). exact B. }
  intros s u t v Hs Ht. destruct (Hback _ _ Hs) as [u1 [A1 B1]]. destruct (Hback _ _ Ht) as [v1 [A2 B2]].
  destruct (H2 _ _ _ _ A1 A2) as [w [C D]]. exists w. split; [exact C|]. rewrite D, B1, B2. reflexivity.
Qed.
Lemma extends_trans d (a b c : plist) : extends d a b -> extends d b c -> extends d a c.
Proof.
  intros H1 H2 s u Hs. destruct (H1 _ _ Hs) as [w [A B]]. destruct (H2 _ _ A) as [w' [A' B']].
  exists w'. split; [exact A'|]. rewrite B'. exact B.
Qed.
Definition keys_gen n (G : list zmat) (l : plist) := forall s u, In (s, u) l -> generated (zmul n) (zeye n) G s.
Lemma round_gen n d G (l l' : plist) : (forall g, In g G -> wfz n g) -> keys_gen n G l ->
  ugen_collect ueqb d (ugen_products n d l) [] = Some l' -> keys_gen n G l'.
Proof.
  intros HG Hg H. apply ugen_round in H. destruct H as [_ [_ H3]]. intros x w Hx.
  destruct (H3 x w Hx) as [s [u [t [v [A [B [-> _]]]]]]].
  apply (generated_mul (zmul n) (zeye n) (wfz n) (wfz_eye n) (wfz_mul n) (zmul_assoc n) (zmul_1_l n)); eauto.
Qed.
Lemma ugen_loop_ok n d G fuel : (forall g, In g G -> wfz n g) -> forall (l l' : plist), gen_ok n d l -> keys_gen n G l ->
  ugen_loop ueqb fuel n d l = UGen l' -> gen_ok n d l' /\ extends d l l' /\ hom n d l' /\ keys_gen n G l'.
Proof.
  intro HG. induction fuel as [|fuel IH]; intros l l' Hok Hg H; cbn [ugen_loop] in H; [discriminate H|].
  destruct (ugen_collect ueqb d (ugen_products n d l) []) as [l1|] eqn:E; [|discriminate H].
  destruct (Nat.ltb (length l1) 1000); [|discriminate H].
  destruct (round_extends _ _ _ _ Hok E) as [Hok1 He]. pose proof (round_gen n d G _ _ HG Hg E) as Hg1.
  destruct (Nat.leb_spec (length l1) (length l)) as [L|L].
  - injection H as <-. split; [exact Hok1|]. split; [exact He|]. split; [|exact Hg1].
    apply (round_final _ _ _ _ Hok E L).
  - destruct (IH l1 l' Hok1 Hg1 H) as [A [B [C D]]]. split; [exact A|]. split; [|split; [exact C|exact D]].
    apply (extends_trans d l l1 l'); assumption.
Qed.

(** the round limit is never reached *)
Lemma ugen_loop_fuel n d fuel : forall (l : plist), fuel + length l >= 1000 -> (fuel = 0%nat -> length l < 1000) ->
  ugen_loop ueqb fuel n d l <> UFuel.
Proof.
  induction fuel as [|fuel IH]; intros l H1 H2; cbn [ugen_loop].
  - specialize (H2 eq_refl). change (0 + length l)%nat with (length l) in H1. lia.
  - destruct (ugen_collect _ _ _ _) as [l1|]; [|intro C; discriminate C].
    destruct (Nat.ltb_spec (length l1) 1000); [|intro C; discriminate C].
    destruct (Nat.leb_spec (length l1) (length l)); [intro C; discriminate C|].
    apply IH; intros; lia.
Qed.

(** consistent values never fail *)
Lemma ugen_insert_total d (rho : zmat -> fmat K) s u (l : plist) :
  (forall t v, In (t, v) l -> feq d d v (rho t)) -> feq d d u (rho s) -> exists r, ugen_insert ueqb d s u l = Some r.
Proof.
  intros Hl Hu. induction l as [|[t v] l IH]; cbn [ugen_insert]; [eauto|].
  destruct (zmeqb t s) eqn:E.
  - apply zmeqb_spec in E. subst t. replace (ueqb d v u) with true; [eauto|]. symmetry. apply ueqb_spec.
    rewrite (Hl s v (or_introl eq_refl)), Hu. reflexivity.
  - destruct IH as [r ->]; [intros; apply Hl; right; assumption|]. eauto.
Qed.
Lemma ugen_collect_total d (rho : zmat -> fmat K) ps : forall (acc : plist), NoDup (map fst acc) ->
  (forall t v, In (t, v) acc -> feq d d v (rho t)) -> (forall t v, In (t, v) ps -> feq d d v (rho t)) ->
  exists r, ugen_collect ueqb d ps acc = Some r.
Proof.
  induction ps as [|[s u] ps IH]; intros acc Hn Ha Hp; cbn [ugen_collect]; [eauto|].
  destruct (ugen_insert_total d rho s u acc Ha (Hp s u (or_introl eq_refl))) as [r Hr]. rewrite Hr.
  apply ugen_insert_spec in Hr; [|exact Hn]. destruct Hr as [H1 [H2 [H3 _]]].
  apply IH; [exact H1| |intros; apply Hp; right; assumption].
  intros t v Ht. destruct (H3 _ Ht) as [Ht'|E]; [apply Ha; exact Ht'|]. injection E as -> ->. apply Hp. left; reflexivity.
Qed.
Lemma ugen_loop_total n d G (rho : zmat -> fmat K) (L : list zmat) fuel : (forall g, In g G -> wfz n g) ->
  (forall s, generated (zmul n) (zeye n) G s -> In s L) -> length L < 1000 ->
  (forall s t, generated (zmul n) (zeye n) G s -> generated (zmul n) (zeye n) G t ->
     feq d d (rho (zmul n s t)) (fmul d (rho s) (rho t))) ->
  forall (l : plist), keys_gen n G l -> (forall s u, In (s, u) l -> feq d d u (rho s)) ->
  ugen_loop ueqb fuel n d l <> UAssert.
Proof.
  intros HG HL HLn Hrho. induction fuel as [|fuel IH]; intros l Hg Hl; cbn [ugen_loop]; [intro C; discriminate C|].
  destruct (ugen_collect_total d rho (ugen_products n d l) []) as [l1 E].
  - constructor.
  - intros t v [].
  - intros x w Hx. apply ugen_products_In in Hx. destruct Hx as [s [u [t [v [A [B [-> ->]]]]]]].
    rewrite (Hl _ _ A), (Hl _ _ B). symmetry. apply Hrho; eauto.
  - rewrite E. pose proof (round_gen n d G _ _ HG Hg E) as Hg1.
    pose proof (ugen_round _ _ _ _ E) as [N1 [_ H3]].
    assert (length l1 < 1000)%nat as Len.
    { rewrite <- (map_length fst l1). apply Nat.le_lt_trans with (length L); [|exact HLn].
      apply NoDup_incl_length; [exact N1|]. intros s Hs. apply in_map_iff in Hs. destruct Hs as [[s' u] [<- Hs]].
      apply HL. apply (Hg1 _ _ Hs). }
    rewrite (proj2 (Nat.ltb_lt _ _) Len).
    destruct (Nat.leb (length l1) (length l)); [intro C; discriminate C|].
    apply IH; [exact Hg1|]. intros x w Hx. destruct (H3 x w Hx) as [s [u [t [v [A [B [-> ->]]]]]]].
    rewrite (Hl _ _ A), (Hl _ _ B). symmetry. apply Hrho; eauto.
Qed.
End G.

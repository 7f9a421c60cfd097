(** Finite groups given as duplicate-free lists of operations: the mathematical notions the
    symmetry theorems are stated with, and the counting facts behind them
    (translation is a permutation, orbit-stabiliser).  Independent of the model. *)
From Coq Require Import List Arith Lia Bool Permutation.
Import ListNotations.

(** product of a word *)
Definition wprod {T} (mul : T -> T -> T) (one : T) (w : list T) : T := fold_right mul one w.

(** [x] is a finite product of elements of [G] *)
Definition generated {T} (mul : T -> T -> T) (one : T) (G : list T) (x : T) : Prop :=
  exists w, (forall g, In g w -> In g G) /\ x = wprod mul one w.

Definition closed {T} (mul : T -> T -> T) (S : list T) : Prop :=
  forall a b, In a S -> In b S -> In (mul a b) S.

(** a finite group: contains the neutral element, closed, with two-sided inverses, no repetition *)
Definition is_group {T} (mul : T -> T -> T) (one : T) (S : list T) : Prop :=
  In one S /\ NoDup S /\ closed mul S /\
  (forall a, In a S -> exists b, In b S /\ mul a b = one /\ mul b a = one).

Lemma NoDup_map_inj {A B} (f : A -> B) (l : list A) :
  (forall a b, In a l -> In b l -> f a = f b -> a = b) -> NoDup l -> NoDup (map f l).
Proof.
  induction l as [|a l IH]; simpl; intros Hinj Hnd; [constructor|].
  inversion Hnd as [|x y Hni Hnd']; subst. constructor.
  - intros Hin. apply in_map_iff in Hin. destruct Hin as [b [Hb Hin]].
    assert (a = b) by (apply Hinj; auto). subst. contradiction.
  - apply IH; auto.
Qed.

Lemma NoDup_map_nodup {A B} (f : A -> B) (l : list A) : NoDup (map f l) -> NoDup l.
Proof.
  induction l as [|a l IH]; simpl; intros H; [constructor|].
  inversion H; subst. constructor; [|auto].
  intros Hin. apply H2. apply in_map; exact Hin.
Qed.

Lemma NoDup_app_iff {A} (l1 l2 : list A) :
  NoDup (l1 ++ l2) <-> NoDup l1 /\ NoDup l2 /\ (forall x, In x l1 -> ~ In x l2).
Proof.
  induction l1 as [|a l1 IH]; simpl.
  - split; [intros H; repeat split; auto; constructor|tauto].
  - rewrite !NoDup_cons_iff, IH, in_app_iff. split.
    + intros (H1 & H2 & H3 & H4). repeat split; auto. intros x [<-|Hx]; auto.
    + intros ((H1 & H2) & H3 & H4). repeat split; auto.
      intros [H|H]; [auto|]. apply (H4 a); auto.
Qed.

Section Grp.
Context {T : Type} (mul : T -> T -> T) (one : T) (P : T -> Prop).
Hypothesis P_one : P one.
Hypothesis P_mul : forall a b, P (mul a b).
Hypothesis assoc : forall a b c, mul a (mul b c) = mul (mul a b) c.
Hypothesis one_l : forall a, P a -> mul one a = a.
Hypothesis one_r : forall a, P a -> mul a one = a.

Lemma P_wprod w : (forall g, In g w -> P g) -> P (wprod mul one w).
Proof. destruct w; simpl; auto. Qed.

Lemma wprod_app w1 w2 : (forall g, In g w1 -> P g) -> (forall g, In g w2 -> P g) ->
  wprod mul one (w1 ++ w2) = mul (wprod mul one w1) (wprod mul one w2).
Proof.
  intros H1 H2. induction w1 as [|a w1 IH]; simpl.
  - symmetry; apply one_l, P_wprod; exact H2.
  - rewrite IH, assoc by (intros; apply H1; right; assumption). reflexivity.
Qed.

Lemma generated_one G : generated mul one G one.
Proof. exists []; split; [intros g []|reflexivity]. Qed.

Lemma generated_in G g : P g -> In g G -> generated mul one G g.
Proof.
  intros Hp Hg. exists [g]; split.
  - intros h [<-|[]]; exact Hg.
  - simpl; symmetry; apply one_r; exact Hp.
Qed.

Lemma generated_mul G a b : (forall g, In g G -> P g) ->
  generated mul one G a -> generated mul one G b -> generated mul one G (mul a b).
Proof.
  intros HP [w1 [H1 ->]] [w2 [H2 ->]]. exists (w1 ++ w2); split.
  - intros g Hg. apply in_app_or in Hg. destruct Hg; auto.
  - symmetry; apply wprod_app; auto.
Qed.

Lemma generated_least G S : In one S -> closed mul S -> (forall g, In g G -> In g S) ->
  forall x, generated mul one G x -> In x S.
Proof.
  intros Ho Hc HG x [w [Hw ->]]. induction w as [|a w IH]; simpl; [exact Ho|].
  apply Hc; [apply HG, Hw; left; reflexivity|]. apply IH. intros; apply Hw; right; assumption.
Qed.

(** left multiplication with a cancellable element permutes a finite closed set *)
Lemma translate_perm S g : NoDup S -> closed mul S -> In g S ->
  (forall a b, In a S -> In b S -> mul g a = mul g b -> a = b) ->
  Permutation (map (mul g) S) S.
Proof.
  intros Hnd Hc Hg Hcan. apply NoDup_Permutation_bis.
  - apply NoDup_map_inj; assumption.
  - rewrite map_length; lia.
  - intros x Hx. apply in_map_iff in Hx. destruct Hx as [y [<- Hy]]. apply Hc; assumption.
Qed.

Lemma closed_inverses S : NoDup S -> In one S -> closed mul S -> (forall a, In a S -> P a) ->
  (forall g a b, In g S -> In a S -> In b S -> mul g a = mul g b -> a = b) ->
  forall a, In a S -> exists b, In b S /\ mul a b = one /\ mul b a = one.
Proof.
  intros Hnd Ho Hc HP Hcan.
  assert (Hright : forall a, In a S -> exists b, In b S /\ mul a b = one).
  { intros a Ha.
    assert (Hp : Permutation (map (mul a) S) S) by (apply translate_perm; auto; intros x y Hx Hy E; apply (Hcan a); assumption).
    assert (Hin : In one (map (mul a) S)) by (eapply Permutation_in; [symmetry; exact Hp|exact Ho]).
    apply in_map_iff in Hin. destruct Hin as [b [Hb Hin]]. exists b; auto. }
  intros a Ha. destruct (Hright a Ha) as [b [Hb Hab]]. destruct (Hright b Hb) as [c [Hcc Hbc]].
  exists b; repeat split; auto.
  assert (a = c).
  { transitivity (mul a (mul b c)); [rewrite Hbc; symmetry; apply one_r; auto|].
    rewrite assoc, Hab. apply one_l; auto. }
  subst c. exact Hbc.
Qed.

Lemma group_cancel S : is_group mul one S -> (forall a, In a S -> P a) ->
  forall g a b, In g S -> P a -> P b -> mul g a = mul g b -> a = b.
Proof.
  intros (Ho & Hnd & Hc & Hi) HP g a b Hg Ha Hb E.
  destruct (Hi g Hg) as [h [Hh [_ Hhg]]].
  rewrite <- (one_l a), <- (one_l b) by auto. rewrite <- Hhg, <- !assoc, E. reflexivity.
Qed.

Lemma group_translate S : is_group mul one S -> (forall a, In a S -> P a) ->
  forall g, In g S -> Permutation (map (mul g) S) S.
Proof.
  intros HG HP g Hg. pose proof HG as (Ho & Hnd & Hc & Hi).
  apply translate_perm; auto. intros a b Ha Hb. apply (group_cancel S HG HP g); auto.
Qed.

Lemma group_translate_r S : is_group mul one S -> (forall a, In a S -> P a) ->
  forall g, In g S -> Permutation (map (fun a => mul a g) S) S.
Proof.
  intros (Ho & Hnd & Hc & Hi) HP g Hg. apply NoDup_Permutation_bis.
  - apply NoDup_map_inj; [|exact Hnd]. intros a b Ha Hb E.
    destruct (Hi g Hg) as [h [Hh [Hgh _]]].
    rewrite <- (one_r a), <- (one_r b) by auto. rewrite <- Hgh, !assoc, E. reflexivity.
  - rewrite map_length; lia.
  - intros x Hx. apply in_map_iff in Hx. destruct Hx as [y [<- Hy]]. apply Hc; assumption.
Qed.

(** *** Orbit-stabiliser *)
Section Orbit.
Context {X : Type} (xeqb : X -> X -> bool) (act : T -> X -> X).
Hypothesis xeqb_spec : forall x y, xeqb x y = true <-> x = y.

Fixpoint nodupb (l : list X) : list X :=
  match l with
  | [] => []
  | a :: l' => if existsb (xeqb a) l' then nodupb l' else a :: nodupb l'
  end.

Lemma existsb_xeqb a l : existsb (xeqb a) l = true <-> In a l.
Proof using xeqb_spec.
  clear - xeqb_spec.
  rewrite existsb_exists. split.
  - intros [y [Hy E]]. apply xeqb_spec in E. subst; exact Hy.
  - intros H. exists a; split; [exact H|]. apply xeqb_spec; reflexivity.
Qed.

Lemma nodupb_in a l : In a (nodupb l) <-> In a l.
Proof using xeqb_spec.
  clear - xeqb_spec.
  induction l as [|b l IH]; simpl; [tauto|].
  destruct (existsb (xeqb b) l) eqn:E.
  - rewrite IH. split; [auto|]. intros [<-|H]; [|exact H]. apply existsb_xeqb; exact E.
  - simpl; rewrite IH; tauto.
Qed.

Lemma nodupb_nodup l : NoDup (nodupb l).
Proof using xeqb_spec.
  clear - xeqb_spec.
  induction l as [|b l IH]; simpl; [constructor|].
  destruct (existsb (xeqb b) l) eqn:E; [exact IH|].
  constructor; [|exact IH]. rewrite nodupb_in. intros H. apply existsb_xeqb in H. congruence.
Qed.

(** counting by fibres *)
Lemma filter_length_sum (S : list T) (f : T -> X) (ys : list X) :
  NoDup ys -> (forall s, In s S -> In (f s) ys) ->
  length S = list_sum (map (fun y => length (filter (fun s => xeqb (f s) y) S)) ys).
Proof.
  intros Hnd. induction S as [|s S IH]; simpl; intros H.
  - clear. induction ys; simpl; auto.
  - rewrite IH by auto.
    assert (Hin : In (f s) ys) by auto. clear IH H.
    induction ys as [|y ys IHy]; [contradiction|].
    inversion Hnd as [|a b Hni Hnd']; subst. simpl.
    destruct (xeqb (f s) y) eqn:E.
    + apply xeqb_spec in E. subst y. simpl. f_equal. f_equal. f_equal.
      apply map_ext_in. intros z Hz. destruct (xeqb (f s) z) eqn:E2; [|reflexivity].
      apply xeqb_spec in E2. subst; contradiction.
    + destruct Hin as [Hy|Hin];
        [exfalso; assert (xeqb (f s) y = true) by (apply xeqb_spec; auto); congruence|].
      specialize (IHy Hnd' Hin). lia.
Qed.

Lemma orbit_stabiliser S : is_group mul one S -> (forall a, In a S -> P a) ->
  forall (Q : X -> Prop) x, Q x ->
  (forall s y, In s S -> Q y -> Q (act s y)) ->
  (forall a b y, In a S -> In b S -> Q y -> act (mul a b) y = act a (act b y)) ->
  (forall y, Q y -> act one y = y) ->
  length S = length (nodupb (map (fun s => act s x) S)) * length (filter (fun s => xeqb (act s x) x) S).
Proof.
  intros HG HP Q x HQ HQact Hact Hone.
  pose proof HG as (Ho & Hnd & Hc & Hi).
  set (ys := nodupb (map (fun s => act s x) S)).
  rewrite (filter_length_sum S (fun s => act s x) ys);
    [| apply nodupb_nodup | intros s Hs; apply nodupb_in; apply in_map_iff; exists s; auto].
  assert (Hc2 : forall y, In y ys ->
    length (filter (fun s => xeqb (act s x) y) S) = length (filter (fun s => xeqb (act s x) x) S)).
  { intros y Hy. apply (proj1 (nodupb_in _ _)) in Hy. apply in_map_iff in Hy. destruct Hy as [g [<- Hg]].
    rewrite <- (map_length (mul g) (filter (fun s => xeqb (act s x) x) S)).
    apply Permutation_length. apply NoDup_Permutation.
    - apply NoDup_filter; exact Hnd.
    - apply NoDup_map_inj; [|apply NoDup_filter; exact Hnd].
      intros a b Ha Hb. apply filter_In in Ha, Hb. destruct Ha, Hb.
      apply (group_cancel S HG HP g); auto.
    - intros s. rewrite filter_In, in_map_iff. split.
      + intros [Hs E]. apply xeqb_spec in E.
        destruct (Hi g Hg) as [h [Hh [Hgh Hhg]]].
        exists (mul h s). split.
        * rewrite assoc, Hgh. apply one_l; auto.
        * apply filter_In. split; [apply Hc; auto|]. apply xeqb_spec.
          rewrite Hact, E, <- Hact, Hhg by auto. apply Hone; exact HQ.
      + intros [s' [<- Hs']]. apply filter_In in Hs'. destruct Hs' as [Hs' E].
        apply xeqb_spec in E. split; [apply Hc; auto|]. apply xeqb_spec.
        rewrite Hact, E by auto. reflexivity. }
  clearbody ys. induction ys as [|y ys IH]; [reflexivity|].
  simpl. rewrite Hc2 by (left; reflexivity). rewrite IH; [reflexivity|].
  intros z Hz; apply Hc2; right; exact Hz.
Qed.
End Orbit.
End Grp.

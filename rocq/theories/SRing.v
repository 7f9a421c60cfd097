(** Commutative rings with an involution ("star rings") and finite sums over them.

    This file is mathematical infrastructure and models no python code: numpy's exact
    number types (integers, complex numbers) are replaced by an arbitrary instance of
    [sring].  Instances: the integers [Zs], the Gaussian integers [Gs]
    (computable complex numbers for examples) and, in [CplxR.v], the complex numbers
    over Coq's reals. *)
From Coq Require Import List Arith ZArith Lia Ring Permutation.
Import ListNotations.

Record sring := MkSring {
  car :> Type;
  s0 : car;
  s1 : car;
  sadd : car -> car -> car;
  smul : car -> car -> car;
  ssub : car -> car -> car;
  sopp : car -> car;
  sconj : car -> car;
  s_rt : ring_theory s0 s1 sadd smul ssub sopp eq;
  s_conj_add : forall x y, sconj (sadd x y) = sadd (sconj x) (sconj y);
  s_conj_mul : forall x y, sconj (smul x y) = smul (sconj x) (sconj y);
  s_conj_invol : forall x, sconj (sconj x) = x
}.

Arguments s0 {s}. Arguments s1 {s}. Arguments sadd {s}. Arguments smul {s}.
Arguments ssub {s}. Arguments sopp {s}. Arguments sconj {s}.

Declare Scope sring_scope.
Delimit Scope sring_scope with K.
Infix "+" := sadd : sring_scope.
Infix "*" := smul : sring_scope.
Infix "-" := ssub : sring_scope.
Notation "- x" := (sopp x) : sring_scope.
Notation "0" := s0 : sring_scope.
Notation "1" := s1 : sring_scope.

Section Sums.
Variable K : sring.
Add Ring Kring : (s_rt K).
Open Scope sring_scope.
Implicit Types x y : K.

Lemma conj_0 : sconj (0:K) = 0.
Proof.
  assert (H : sconj (0:K) + sconj 0 = sconj 0 + 0).
  { rewrite <- s_conj_add. replace ((0:K) + 0) with (0:K) by ring. ring. }
  assert (H2 : (sconj (0:K) + sconj 0) - sconj 0 = (sconj 0 + 0) - sconj 0) by (rewrite H; ring).
  replace ((sconj (0:K) + sconj 0) - sconj 0) with (sconj (0:K)) in H2 by ring.
  rewrite H2; ring.
Qed.

Lemma conj_1 : sconj (1:K) = 1.
Proof.
  transitivity (sconj (1:K) * sconj (sconj 1)).
  - rewrite s_conj_invol; ring.
  - rewrite <- s_conj_mul. replace ((1:K) * sconj 1) with (sconj (1:K)) by ring. apply s_conj_invol.
Qed.

Lemma conj_opp x : sconj (- x) = - sconj x.
Proof.
  assert (H : sconj (- x) + sconj x = 0).
  { rewrite <- s_conj_add. replace (- x + x) with (0:K) by ring. apply conj_0. }
  replace (sconj (- x)) with ((sconj (- x) + sconj x) - sconj x) by ring.
  rewrite H; ring.
Qed.

Lemma conj_sub x y : sconj (x - y) = sconj x - sconj y.
Proof.
  replace (x - y) with (x + - y) by ring. rewrite s_conj_add, conj_opp. ring.
Qed.

Fixpoint ksum {A} (l : list A) (f : A -> K) : K :=
  match l with [] => 0 | a :: l' => f a + ksum l' f end.

Definition nsum (n : nat) (f : nat -> K) : K := ksum (seq 0 n) f.

Section L.
Context {A : Type}.
Implicit Types (l : list A) (f g : A -> K).

Lemma ksum_ext l f g : (forall a, In a l -> f a = g a) -> ksum l f = ksum l g.
Proof.
  induction l as [|a l IH]; simpl; intros H; [reflexivity|].
  rewrite H by auto. rewrite IH; auto.
Qed.

Lemma ksum_add l f g : ksum l (fun a => f a + g a) = ksum l f + ksum l g.
Proof. induction l as [|a l IH]; simpl; [ring|]. rewrite IH; ring. Qed.

Lemma ksum_sub l f g : ksum l (fun a => f a - g a) = ksum l f - ksum l g.
Proof. induction l as [|a l IH]; simpl; [ring|]. rewrite IH; ring. Qed.

Lemma ksum_opp l f : ksum l (fun a => - f a) = - ksum l f.
Proof. induction l as [|a l IH]; simpl; [ring|]. rewrite IH; ring. Qed.

Lemma ksum_mul_l l f c : ksum l (fun a => c * f a) = c * ksum l f.
Proof. induction l as [|a l IH]; simpl; [ring|]. rewrite IH; ring. Qed.

Lemma ksum_mul_r l f c : ksum l (fun a => f a * c) = ksum l f * c.
Proof. induction l as [|a l IH]; simpl; [ring|]. rewrite IH; ring. Qed.

Lemma ksum_zero l f : (forall a, In a l -> f a = 0) -> ksum l f = 0.
Proof.
  induction l as [|a l IH]; simpl; intros H; [reflexivity|].
  rewrite H by auto. rewrite IH by auto. ring.
Qed.

Lemma ksum_app l1 l2 f : ksum (l1 ++ l2) f = ksum l1 f + ksum l2 f.
Proof. induction l1 as [|a l IH]; simpl; [ring|]. rewrite IH; ring. Qed.

Lemma ksum_perm l1 l2 f : Permutation l1 l2 -> ksum l1 f = ksum l2 f.
Proof.
  induction 1; simpl; [reflexivity|congruence|ring|congruence].
Qed.

Lemma ksum_conj l f : sconj (ksum l f) = ksum l (fun a => sconj (f a)).
Proof.
  induction l as [|a l IH]; simpl; [apply conj_0|]. rewrite s_conj_add, IH; reflexivity.
Qed.

Lemma ksum_filter l f (p : A -> bool) :
  ksum (filter p l) f = ksum l (fun a => if p a then f a else 0).
Proof.
  induction l as [|a l IH]; simpl; [reflexivity|].
  destruct (p a); simpl; rewrite IH; ring.
Qed.

Lemma ksum_split l f (p : A -> bool) :
  ksum l f = ksum (filter p l) f + ksum (filter (fun a => negb (p a)) l) f.
Proof.
  induction l as [|a l IH]; simpl; [ring|].
  destruct (p a); simpl; rewrite IH; ring.
Qed.
End L.

Lemma ksum_map {A B} (l : list A) (h : A -> B) (f : B -> K) :
  ksum (map h l) f = ksum l (fun a => f (h a)).
Proof. induction l as [|a l IH]; simpl; [reflexivity|]. rewrite IH; reflexivity. Qed.

Lemma ksum_flat_map {A B} (l : list A) (h : A -> list B) (f : B -> K) :
  ksum (flat_map h l) f = ksum l (fun a => ksum (h a) f).
Proof.
  induction l as [|a l IH]; simpl; [reflexivity|]. rewrite ksum_app, IH; reflexivity.
Qed.

Lemma ksum_swap {A B} (l1 : list A) (l2 : list B) (f : A -> B -> K) :
  ksum l1 (fun a => ksum l2 (fun b => f a b)) = ksum l2 (fun b => ksum l1 (fun a => f a b)).
Proof.
  induction l1 as [|a l IH]; simpl.
  - symmetry; apply ksum_zero; auto.
  - rewrite IH, <- ksum_add. reflexivity.
Qed.

Lemma nsum_ext n f g : (forall i, i < n -> f i = g i) -> nsum n f = nsum n g.
Proof. intros H; apply ksum_ext; intros a Ha; apply in_seq in Ha; apply H; lia. Qed.

Lemma nsum_zero n f : (forall i, i < n -> f i = 0) -> nsum n f = 0.
Proof. intros H; apply ksum_zero; intros a Ha; apply in_seq in Ha; apply H; lia. Qed.

Lemma nsum_S n f : nsum (S n) f = nsum n f + f n.
Proof. unfold nsum. rewrite seq_S, ksum_app. simpl. ring. Qed.

Lemma nsum_0 f : nsum 0 f = 0.
Proof. reflexivity. Qed.

Lemma nsum_add n f g : nsum n (fun i => f i + g i) = nsum n f + nsum n g.
Proof. apply ksum_add. Qed.
Lemma nsum_sub n f g : nsum n (fun i => f i - g i) = nsum n f - nsum n g.
Proof. apply ksum_sub. Qed.
Lemma nsum_opp n f : nsum n (fun i => - f i) = - nsum n f.
Proof. apply ksum_opp. Qed.
Lemma nsum_mul_l n f c : nsum n (fun i => c * f i) = c * nsum n f.
Proof. apply ksum_mul_l. Qed.
Lemma nsum_mul_r n f c : nsum n (fun i => f i * c) = nsum n f * c.
Proof. apply ksum_mul_r. Qed.
Lemma nsum_swap n m (f : nat -> nat -> K) :
  nsum n (fun i => nsum m (fun j => f i j)) = nsum m (fun j => nsum n (fun i => f i j)).
Proof. apply ksum_swap. Qed.
Lemma nsum_conj n f : sconj (nsum n f) = nsum n (fun i => sconj (f i)).
Proof. apply ksum_conj. Qed.
Lemma nsum_ksum_swap {A} n (l : list A) (f : nat -> A -> K) :
  nsum n (fun i => ksum l (fun a => f i a)) = ksum l (fun a => nsum n (fun i => f i a)).
Proof. apply ksum_swap. Qed.

Lemma nsum_plus n m f : nsum (n + m) f = nsum n f + nsum m (fun i => f (n + i)%nat).
Proof.
  induction m as [|m IH].
  - rewrite Nat.add_0_r, nsum_0. ring.
  - rewrite Nat.add_succ_r, !nsum_S, IH. ring.
Qed.

(** Kronecker delta *)
Lemma nsum_delta n i f : i < n -> nsum n (fun k => if Nat.eqb k i then f k else 0) = f i.
Proof.
  induction n as [|n IH]; intros H; [lia|].
  rewrite nsum_S. destruct (Nat.eq_dec i n) as [->|Hne].
  - rewrite Nat.eqb_refl. rewrite nsum_zero; [ring|].
    intros k Hk. destruct (Nat.eqb_spec k n); [lia|reflexivity].
  - rewrite IH by lia. destruct (Nat.eqb_spec n i); [lia|ring].
Qed.

Lemma nsum_single n i f : i < n -> (forall k, k < n -> k <> i -> f k = 0) -> nsum n f = f i.
Proof.
  intros Hi H. rewrite <- (nsum_delta n i f Hi). apply nsum_ext. intros k Hk.
  destruct (Nat.eqb_spec k i); [reflexivity|auto].
Qed.

End Sums.

Arguments ksum {K A}. Arguments nsum {K}.

(** The integers, with trivial involution. *)
Definition Zs : sring.
Proof.
  refine (MkSring Z 0%Z 1%Z Z.add Z.mul Z.sub Z.opp (fun x => x) _ _ _ _).
  - constructor; intros; ring.
  - reflexivity.
  - reflexivity.
  - reflexivity.
Defined.

(** Gaussian integers [a + b i] as pairs; a computable stand-in for complex numbers. *)
Definition Gs : sring.
Proof.
  refine (MkSring (Z * Z) (0, 0)%Z (1, 0)%Z
    (fun x y => (fst x + fst y, snd x + snd y)%Z)
    (fun x y => (fst x * fst y - snd x * snd y, fst x * snd y + snd x * fst y)%Z)
    (fun x y => (fst x - fst y, snd x - snd y)%Z)
    (fun x => (- fst x, - snd x)%Z)
    (fun x => (fst x, - snd x)%Z) _ _ _ _).
  - constructor; intros; repeat match goal with x : _ * _ |- _ => destruct x end;
      cbn [fst snd]; apply f_equal2; ring.
  - intros; cbn [fst snd]; apply f_equal2; ring.
  - intros; cbn [fst snd]; apply f_equal2; ring.
  - intros [a b]; cbn [fst snd]; apply f_equal2; ring.
Defined.

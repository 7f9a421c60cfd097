(** Rectangular matrices as functions of the index pair, compared on an index range. Mathematical
    infrastructure (no python code): used where blocks of different sizes are multiplied. *)
From Coq Require Import List Arith Lia Bool Permutation Setoid Morphisms.
Import ListNotations.
From Verif Require Import SRing FinGroup.

Section FMat.
Context {K : sring}.
Add Ring Kring_fmat : (s_rt K).
Open Scope sring_scope.

Definition fmat := nat -> nat -> K.

Definition feq (n m : nat) (a b : fmat) : Prop := forall i j, i < n -> j < m -> a i j = b i j.

Definition fmul (k : nat) (a b : fmat) : fmat := fun i j => nsum k (fun l => a i l * b l j).
Definition fadj (a : fmat) : fmat := fun i j => sconj (a j i).
Definition fid : fmat := fun i j => if Nat.eqb i j then 1 else 0.
Definition fzero : fmat := fun _ _ => 0.
Definition fadd (a b : fmat) : fmat := fun i j => a i j + b i j.
Definition fscale (c : K) (a : fmat) : fmat := fun i j => c * a i j.
Definition fsum {A} (l : list A) (f : A -> fmat) : fmat := fun i j => ksum l (fun s => f s i j).

Global Instance feq_equiv n m : Equivalence (feq n m).
Proof.
  split.
  - intros a i j _ _; reflexivity.
  - intros a b H i j Hi Hj; symmetry; apply H; assumption.
  - intros a b c H1 H2 i j Hi Hj. rewrite H1, H2 by assumption. reflexivity.
Qed.

Global Instance fmul_proper n k m : Proper (feq n k ==> feq k m ==> feq n m) (fmul k).
Proof.
  intros a a' Ha b b' Hb i j Hi Hj. unfold fmul. apply nsum_ext. intros l Hl.
  rewrite Ha, Hb by assumption. reflexivity.
Qed.
Global Instance fadj_proper n m : Proper (feq n m ==> feq m n) fadj.
Proof. intros a a' Ha i j Hi Hj. unfold fadj. rewrite Ha by assumption. reflexivity. Qed.
Global Instance fadd_proper n m : Proper (feq n m ==> feq n m ==> feq n m) fadd.
Proof. intros a a' Ha b b' Hb i j Hi Hj. unfold fadd. rewrite Ha, Hb by assumption. reflexivity. Qed.
Global Instance fscale_proper n m : Proper (eq ==> feq n m ==> feq n m) fscale.
Proof. intros c c' -> a a' Ha i j Hi Hj. unfold fscale. rewrite Ha by assumption. reflexivity. Qed.

Lemma fmul_assoc n k l m a b c : feq n m (fmul k a (fmul l b c)) (fmul l (fmul k a b) c).
Proof.
  intros i j Hi Hj. unfold fmul.
  transitivity (nsum k (fun p => nsum l (fun q => a i p * (b p q * c q j)))).
  - apply nsum_ext; intros p Hp. rewrite nsum_mul_l. reflexivity.
  - rewrite nsum_swap. apply nsum_ext; intros q Hq. rewrite <- nsum_mul_r. apply nsum_ext; intros p Hp. ring.
Qed.

Lemma fmul_id_l n m a : feq n m (fmul n fid a) a.
Proof.
  intros i j Hi Hj. unfold fmul, fid. rewrite (nsum_single _ n i); [rewrite Nat.eqb_refl; ring|exact Hi|].
  intros k Hk Hne. destruct (Nat.eqb_spec i k); [congruence|ring].
Qed.
Lemma fmul_id_r n m a : feq n m (fmul m a fid) a.
Proof.
  intros i j Hi Hj. unfold fmul, fid. rewrite (nsum_single _ m j); [rewrite Nat.eqb_refl; ring|exact Hj|].
  intros k Hk Hne. destruct (Nat.eqb_spec k j); [congruence|ring].
Qed.

Lemma fadj_mul n k m a b : feq m n (fadj (fmul k a b)) (fmul k (fadj b) (fadj a)).
Proof.
  intros i j Hi Hj. unfold fadj, fmul. rewrite nsum_conj. apply nsum_ext; intros l Hl.
  rewrite s_conj_mul. ring.
Qed.
Lemma fadj_invol n m a : feq n m (fadj (fadj a)) a.
Proof. intros i j Hi Hj. unfold fadj. apply s_conj_invol. Qed.
Lemma fadj_id n : feq n n (fadj fid) fid.
Proof.
  intros i j Hi Hj. unfold fadj, fid. rewrite Nat.eqb_sym. destruct (Nat.eqb i j); [apply conj_1|apply conj_0].
Qed.
Lemma fadj_add n m a b : feq n m (fadj (fadd a b)) (fadd (fadj a) (fadj b)).
Proof. intros i j Hi Hj. unfold fadj, fadd. apply s_conj_add. Qed.
Lemma fadj_zero n m : feq n m (fadj fzero) fzero.
Proof. intros i j Hi Hj. unfold fadj, fzero. apply conj_0. Qed.
Lemma fadj_scale n m c a : feq n m (fadj (fscale c a)) (fscale (sconj c) (fadj a)).
Proof. intros i j Hi Hj. unfold fadj, fscale. apply s_conj_mul. Qed.
Lemma fadj_sum {A} n m (l : list A) f : feq n m (fadj (fsum l f)) (fsum l (fun s => fadj (f s))).
Proof. intros i j Hi Hj. unfold fadj, fsum. apply ksum_conj. Qed.

Lemma fmul_add_l n k m a b c : feq n m (fmul k (fadd a b) c) (fadd (fmul k a c) (fmul k b c)).
Proof.
  intros i j Hi Hj. unfold fmul, fadd. rewrite <- nsum_add. apply nsum_ext; intros; ring.
Qed.
Lemma fmul_add_r n k m a b c : feq n m (fmul k a (fadd b c)) (fadd (fmul k a b) (fmul k a c)).
Proof.
  intros i j Hi Hj. unfold fmul, fadd. rewrite <- nsum_add. apply nsum_ext; intros; ring.
Qed.
Lemma fmul_scale_l n k m x a b : feq n m (fmul k (fscale x a) b) (fscale x (fmul k a b)).
Proof. intros i j Hi Hj. unfold fmul, fscale. rewrite <- nsum_mul_l. apply nsum_ext; intros; ring. Qed.
Lemma fmul_scale_r n k m x a b : feq n m (fmul k a (fscale x b)) (fscale x (fmul k a b)).
Proof. intros i j Hi Hj. unfold fmul, fscale. rewrite <- nsum_mul_l. apply nsum_ext; intros; ring. Qed.
Lemma fmul_zero_l n k m a : feq n m (fmul k fzero a) fzero.
Proof. intros i j Hi Hj. unfold fmul, fzero. apply nsum_zero; intros; ring. Qed.
Lemma fmul_zero_r n k m a : feq n m (fmul k a fzero) fzero.
Proof. intros i j Hi Hj. unfold fmul, fzero. apply nsum_zero; intros; ring. Qed.

Lemma fmul_sum_l {A} n k m (l : list A) f b :
  feq n m (fmul k (fsum l f) b) (fsum l (fun s => fmul k (f s) b)).
Proof.
  intros i j Hi Hj. unfold fmul, fsum. rewrite <- nsum_ksum_swap. apply nsum_ext; intros p Hp.
  rewrite ksum_mul_r. reflexivity.
Qed.
Lemma fmul_sum_r {A} n k m (l : list A) f b :
  feq n m (fmul k b (fsum l f)) (fsum l (fun s => fmul k b (f s))).
Proof.
  intros i j Hi Hj. unfold fmul, fsum. rewrite <- nsum_ksum_swap. apply nsum_ext; intros p Hp.
  rewrite ksum_mul_l. reflexivity.
Qed.
Lemma fsum_ext {A} n m (l : list A) f g :
  (forall s, In s l -> feq n m (f s) (g s)) -> feq n m (fsum l f) (fsum l g).
Proof. intros H i j Hi Hj. unfold fsum. apply ksum_ext. intros s Hs. apply H; assumption. Qed.
Lemma fsum_perm {A} n m (l l' : list A) f : Permutation l l' -> feq n m (fsum l f) (fsum l' f).
Proof. intros H i j Hi Hj. unfold fsum. apply ksum_perm; exact H. Qed.
Lemma fsum_map {A B} n m (l : list A) (h : A -> B) f : feq n m (fsum (map h l) f) (fsum l (fun s => f (h s))).
Proof. intros i j Hi Hj. unfold fsum. apply ksum_map. Qed.
Lemma fsum_zero {A} n m (l : list A) f :
  (forall s, In s l -> feq n m (f s) fzero) -> feq n m (fsum l f) fzero.
Proof. intros H i j Hi Hj. unfold fsum, fzero. apply ksum_zero. intros s Hs. apply (H s Hs); assumption. Qed.
Lemma fsum_const {A} n m (l : list A) a : feq n m (fsum l (fun _ => a)) (fscale (ksum l (fun _ => 1)) a).
Proof.
  intros i j Hi Hj. unfold fsum, fscale. rewrite <- ksum_mul_r. apply ksum_ext; intros; ring.
Qed.
Lemma fsum_add {A} n m (l : list A) f g : feq n m (fsum l (fun s => fadd (f s) (g s))) (fadd (fsum l f) (fsum l g)).
Proof. intros i j Hi Hj. unfold fsum, fadd. apply ksum_add. Qed.
Lemma fsum_scale {A} n m (l : list A) c f : feq n m (fsum l (fun s => fscale c (f s))) (fscale c (fsum l f)).
Proof. intros i j Hi Hj. unfold fsum, fscale. apply ksum_mul_l. Qed.
Lemma fscale_mul n m x y a : feq n m (fscale x (fscale y a)) (fscale (x * y) a).
Proof. intros i j Hi Hj. unfold fscale. ring. Qed.
Lemma fscale_1 n m a : feq n m (fscale 1 a) a.
Proof. intros i j Hi Hj. unfold fscale. ring. Qed.
Lemma fscale_0 n m x : feq n m (fscale x fzero) fzero.
Proof. intros i j Hi Hj. unfold fscale, fzero. ring. Qed.
Lemma fscale_add n m x a b : feq n m (fscale x (fadd a b)) (fadd (fscale x a) (fscale x b)).
Proof. intros i j Hi Hj. unfold fscale, fadd. ring. Qed.

End FMat.
Arguments fmat : clear implicits.

(** ** Averages over a finite group acting on positions *)
Section GroupAvg.
Context {K : sring}.
Add Ring Kring_gavg : (s_rt K).
Open Scope sring_scope.
Variables (T Pos : Type) (mul : T -> T -> T) (one : T) (PT : T -> Prop).
Hypothesis assoc : forall a b c, mul a (mul b c) = mul (mul a b) c.
Hypothesis one_l : forall a, PT a -> mul one a = a.
Hypothesis one_r : forall a, PT a -> mul a one = a.
Hypothesis PT_mul : forall a b, PT (mul a b).
Hypothesis PT_one : PT one.
Variable S : list T.
Hypothesis HG : is_group mul one S.
Hypothesis HP : forall s, In s S -> PT s.
Variable act : T -> Pos -> Pos.
Variable PP : Pos -> Prop.
Hypothesis act_one : forall r, PP r -> act one r = r.
Hypothesis act_mul : forall s t r, act (mul s t) r = act s (act t r).
Hypothesis act_wf : forall s r, PP r -> PP (act s r).
Variable dom : Pos -> bool.
Variables (d1 d2 : nat) (A B : T -> fmat K).
Hypothesis A_hom : forall s t, In s S -> In t S -> feq d1 d1 (A (mul s t)) (fmul d1 (A s) (A t)).
Hypothesis B_hom : forall s t, In s S -> In t S -> feq d2 d2 (B (mul s t)) (fmul d2 (B s) (B t)).
Hypothesis A_uni : forall s, In s S -> feq d1 d1 (fmul d1 (A s) (fadj (A s))) fid /\ feq d1 d1 (fmul d1 (fadj (A s)) (A s)) fid.
Hypothesis B_uni : forall s, In s S -> feq d2 d2 (fmul d2 (B s) (fadj (B s))) fid /\ feq d2 d2 (fmul d2 (fadj (B s)) (B s)) fid.
Variable dv : K.

(** A(s)^+ x B(s) and A(s) x B(s)^+ *)
Definition conjl (s : T) (x : fmat K) : fmat K := fmul d2 (fmul d1 (fadj (A s)) x) (B s).
Definition conjr (s : T) (x : fmat K) : fmat K := fmul d2 (fmul d1 (A s) x) (fadj (B s)).

Lemma conjl_feq s x y : feq d1 d2 x y -> feq d1 d2 (conjl s x) (conjl s y).
Proof. intros H. unfold conjl. rewrite H. reflexivity. Qed.
Lemma conjr_feq s x y : feq d1 d2 x y -> feq d1 d2 (conjr s x) (conjr s y).
Proof. intros H. unfold conjr. rewrite H. reflexivity. Qed.

Lemma conjlr s x : In s S -> feq d1 d2 (conjl s (conjr s x)) x.
Proof.
  intros Hs. unfold conjl, conjr.
  rewrite !fmul_assoc. rewrite (proj2 (A_uni s Hs)).
  rewrite <- (fmul_assoc d1 d2 d2 d2). rewrite (proj2 (B_uni s Hs)).
  rewrite fmul_id_r, fmul_id_l. reflexivity.
Qed.

Lemma conjr_l_mul s t x : In s S -> In t S -> feq d1 d2 (conjr t (conjl (mul s t) x)) (conjl s x).
Proof.
  intros Hs Ht. unfold conjl, conjr.
  rewrite (A_hom s t Hs Ht), (B_hom s t Hs Ht). rewrite fadj_mul.
  rewrite !fmul_assoc. rewrite (proj1 (A_uni t Ht)). rewrite fmul_id_l.
  rewrite <- (fmul_assoc d1 d2 d2 d2 _ (B t) (fadj (B t))). rewrite (proj1 (B_uni t Ht)), fmul_id_r.
  reflexivity.
Qed.

(** the average over the group if the whole orbit lies in the domain, otherwise 0 *)
Definition gavg (F : Pos -> fmat K) (r : Pos) : fmat K :=
  if forallb (fun s => dom (act s r)) S then fscale dv (fsum S (fun s => conjl s (F (act s r)))) else fzero.

Lemma forallb_perm {X} (f : X -> bool) l l' : Permutation l l' -> forallb f l = forallb f l'.
Proof.
  induction 1; simpl; [reflexivity|congruence| |congruence].
  destruct (f x), (f y); reflexivity.
Qed.
Lemma forallb_map {X Y} (f : Y -> bool) (h : X -> Y) l : forallb f (map h l) = forallb (fun x => f (h x)) l.
Proof. induction l as [|a l IH]; simpl; [reflexivity|]. rewrite IH; reflexivity. Qed.

Lemma orbit_dom t r : In t S -> forallb (fun s => dom (act s (act t r))) S = forallb (fun s => dom (act s r)) S.
Proof.
  intros Ht. pose proof (group_translate_r mul one PT assoc one_r S HG HP t Ht) as Hp.
  rewrite <- (forallb_perm (fun s => dom (act s r)) _ _ Hp), forallb_map.
  assert (E : forall l, forallb (fun s => dom (act s (act t r))) l = forallb (fun x => dom (act (mul x t) r)) l).
  { induction l as [|a l IH]; simpl; [reflexivity|]. rewrite act_mul, IH. reflexivity. }
  apply E.
Qed.

Theorem gavg_inv F t r : In t S -> feq d1 d2 (gavg F (act t r)) (conjr t (gavg F r)).
Proof.
  intros Ht. unfold gavg. rewrite (orbit_dom t r Ht).
  destruct (forallb (fun s => dom (act s r)) S).
  - pose proof (group_translate_r mul one PT assoc one_r S HG HP t Ht) as Hp.
    transitivity (fscale dv (fsum S (fun u => conjr t (conjl u (F (act u r)))))).
    2:{ symmetry. unfold conjr at 1. rewrite fmul_scale_r, fmul_scale_l.
        apply fscale_proper; [reflexivity|]. rewrite fmul_sum_r, fmul_sum_l. reflexivity. }
    apply fscale_proper; [reflexivity|].
    rewrite <- (fsum_perm d1 d2 _ _ (fun u => conjr t (conjl u (F (act u r)))) Hp). rewrite fsum_map.
    apply fsum_ext. intros s Hs.
    rewrite (conjr_l_mul s t _ Hs Ht). rewrite act_mul. reflexivity.
  - unfold conjr. rewrite fmul_zero_r, fmul_zero_l. reflexivity.
Qed.

(** the zero extension of a function on the domain that transforms correctly is a fixed point *)
Theorem gavg_fix F r : (dv * ksum S (fun _ => 1))%K = 1%K -> PP r ->
  (forall x, PP x -> dom x = false -> feq d1 d2 (F x) fzero) ->
  (forall t x, In t S -> PP x -> feq d1 d2 (F (act t x)) (conjr t (F x))) ->
  feq d1 d2 (gavg F r) (F r).
Proof.
  intros Hdv Hr Hz Hsym. unfold gavg. destruct (forallb (fun s => dom (act s r)) S) eqn:E.
  - assert (E2 : feq d1 d2 (fsum S (fun s => conjl s (F (act s r)))) (fsum S (fun _ => F r))).
    { apply fsum_ext. intros s Hs. rewrite (conjl_feq s _ _ (Hsym s r Hs Hr)). apply conjlr; exact Hs. }
    rewrite E2, fsum_const, fscale_mul. rewrite Hdv, fscale_1. reflexivity.
  - (* some image is outside, so F r = A^+ F(s r) B = 0 *)
    assert (Hex : exists s, In s S /\ dom (act s r) = false).
    { destruct (existsb (fun s => negb (dom (act s r))) S) eqn:Ex.
      - apply existsb_exists in Ex. destruct Ex as [s [Hs Hn]]. exists s. split; [exact Hs|].
        apply negb_true_iff; exact Hn.
      - exfalso. assert (forallb (fun s => dom (act s r)) S = true); [|congruence].
        apply forallb_forall. intros s Hs. destruct (dom (act s r)) eqn:Ed; [reflexivity|].
        assert (existsb (fun s => negb (dom (act s r))) S = true); [|congruence].
        apply existsb_exists. exists s. rewrite Ed. auto. }
    destruct Hex as [s [Hs Hd]].
    rewrite <- (conjlr s (F r) Hs). rewrite <- (conjl_feq s _ _ (Hsym s r Hs Hr)).
    rewrite (conjl_feq s _ _ (Hz _ (act_wf s r Hr) Hd)).
    unfold conjl. rewrite fmul_zero_r, fmul_zero_l. reflexivity.
Qed.

(** averages vanish outside the domain *)
Lemma gavg_out F r : PP r -> dom r = false -> gavg F r = fzero.
Proof.
  intros Hr Hd. unfold gavg. destruct (forallb (fun s => dom (act s r)) S) eqn:E; [|reflexivity].
  exfalso. rewrite forallb_forall in E. specialize (E one (proj1 HG)). rewrite act_one in E by exact Hr. congruence.
Qed.

Lemma gavg_ext F F' r : (forall x, dom x = true -> feq d1 d2 (F x) (F' x)) -> feq d1 d2 (gavg F r) (gavg F' r).
Proof.
  intros H. unfold gavg. destruct (forallb (fun s => dom (act s r)) S) eqn:E; [|reflexivity].
  rewrite forallb_forall in E. apply fscale_proper; [reflexivity|]. apply fsum_ext. intros s Hs.
  apply conjl_feq, H, E, Hs.
Qed.

Lemma gavg_lin F F' c r : feq d1 d2 (gavg (fun x => fadd (F x) (fscale c (F' x))) r) (fadd (gavg F r) (fscale c (gavg F' r))).
Proof.
  unfold gavg. destruct (forallb (fun s => dom (act s r)) S).
  - rewrite fscale_mul. replace (c * dv) with (dv * c) by ring. rewrite <- fscale_mul. rewrite <- fscale_add.
    apply fscale_proper; [reflexivity|]. rewrite <- fsum_scale. rewrite <- fsum_add. apply fsum_ext. intros s Hs.
    unfold conjl. rewrite fmul_add_r, fmul_add_l, fmul_scale_r, fmul_scale_l. reflexivity.
  - intros i j _ _. unfold fadd, fscale, fzero. ring.
Qed.
End GroupAvg.

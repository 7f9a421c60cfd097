(** Proofs about the Bloch Hamiltonians *)
From Coq Require Import List Arith ZArith Reals Lra Lia Bool Permutation Setoid Morphisms.
From Coquelicot Require Import Coquelicot.
Import ListNotations.
From Verif Require Import SRing LMat FMat CplxR UrepModel FourierModel.
Local Open Scope R_scope.

Notation "x +c y" := (cadd x y) (at level 50, left associativity).
Notation "x *c y" := (cmul x y) (at level 40, left associativity).
Lemma Cs_ring : @ring_theory cplx (0,0) (1,0) cadd cmul csub copp eq.
Proof. exact (s_rt Cs). Qed.
Add Ring Cring : Cs_ring.
Ltac rg := match goal with |- @eq ?T ?a ?b => first [ring | change (@eq cplx a b); ring | change (@eq R a b); ring] end.
Ltac csolve := apply cplx_eq; simpl; unfold cre; simpl; try field; try rg.

Lemma herm_entry c (P : list cmat) i j : herm_series c P i j =
  cadd (cadd (ksum (K:=Cs) (seq 1 (length P - 1)) (fun l => cmul (c l) (nth l P fzero i j)))
             (ksum (K:=Cs) (seq 1 (length P - 1)) (fun l => cmul (cconj (c l)) (cconj (nth l P fzero j i)))))
       (cmul (c 0%nat) (nth 0 P fzero i j)).
Proof.
  unfold herm_series. cbv zeta. unfold fadd, fadj, fsum, fscale.
  change (@sadd Cs) with cadd. f_equal. f_equal.
  rewrite (ksum_conj Cs). apply (ksum_ext Cs). intros l _. apply (s_conj_mul Cs).
Qed.

Lemma herm_series_herm c (P : list cmat) d : cconj (c 0%nat) = c 0%nat ->
  feq (K:=Cs) d d (fadj (K:=Cs) (nth 0 P fzero)) (nth 0 P fzero) ->
  feq (K:=Cs) d d (fadj (K:=Cs) (herm_series c P)) (herm_series c P).
Proof.
  intros Hc H i j Hi Hj. unfold fadj at 1. rewrite !herm_entry.
  change (@sconj Cs) with cconj.
  assert (conj_add : forall x y, cconj (cadd x y) = cadd (cconj x) (cconj y)) by (intros; apply (s_conj_add Cs)).
  assert (conj_mul : forall x y, cconj (cmul x y) = cmul (cconj x) (cconj y)) by (intros; apply (s_conj_mul Cs)).
  rewrite !conj_add.
  assert (E1 : forall l f, cconj (ksum (K:=Cs) l f) = ksum (K:=Cs) l (fun a : nat => cconj (f a))) by (intros; apply (ksum_conj Cs)).
  rewrite !E1.
  rewrite (ksum_ext Cs (seq 1 (length P - 1)) (fun l => cconj (cmul (c l) (nth l P fzero j i)))
                    (fun l => cmul (cconj (c l)) (cconj (nth l P fzero j i)))) by (intros; apply conj_mul).
  rewrite (ksum_ext Cs (seq 1 (length P - 1)) (fun l => cconj (cmul (cconj (c l)) (cconj (nth l P fzero i j))))
                    (fun l => cmul (c l) (nth l P fzero i j))).
  2:{ intros l _. rewrite conj_mul. f_equal; apply (s_conj_invol Cs). }
  rewrite conj_mul, Hc. specialize (H i j Hi Hj). unfold fadj in H. change (@sconj Cs) with cconj in H. rewrite H. rg.
Qed.

Lemma herm_series_ext c c' (P : list cmat) : (forall l, (l < length P)%nat -> c l = c' l) -> (0 < length P)%nat ->
  forall i j, herm_series c P i j = herm_series c' P i j.
Proof.
  intros H H0 i j. rewrite !herm_entry. f_equal; [f_equal|].
  - apply (ksum_ext Cs). intros l Hl. apply in_seq in Hl. rewrite H by lia. reflexivity.
  - apply (ksum_ext Cs). intros l Hl. apply in_seq in Hl. rewrite H by lia. reflexivity.
  - rewrite H by lia. reflexivity.
Qed.
Lemma herm_series_conj c (P : list cmat) : (forall l, (l < length P)%nat -> forall i j, cconj (nth l P fzero i j) = nth l P fzero i j) ->
  (0 < length P)%nat ->
  forall i j, herm_series (fun l => cconj (c l)) P i j = cconj (herm_series c P i j).
Proof.
  intros H H0 i j. rewrite !herm_entry.
  assert (conj_add : forall x y, cconj (cadd x y) = cadd (cconj x) (cconj y)) by (intros; apply (s_conj_add Cs)).
  assert (conj_mul : forall x y, cconj (cmul x y) = cmul (cconj x) (cconj y)) by (intros; apply (s_conj_mul Cs)).
  assert (E1 : forall l f, cconj (ksum (K:=Cs) l f) = ksum (K:=Cs) l (fun a : nat => cconj (f a))) by (intros; apply (ksum_conj Cs)).
  rewrite !conj_add, !E1, conj_mul. f_equal; [f_equal|].
  - apply (ksum_ext Cs). intros l Hl. apply in_seq in Hl. rewrite conj_mul, H by lia. reflexivity.
  - apply (ksum_ext Cs). intros l Hl. apply in_seq in Hl. rewrite conj_mul. f_equal. rewrite (H l) by lia. rewrite (H l) by lia. reflexivity.
  - rewrite (H 0%nat) by lia. reflexivity.
Qed.

(* ---- dot ---- *)
Lemma dot_add_l n k k' r : dot n (fun a => k a + k' a) r = dot n k r + dot n k' r.
Proof.
  unfold dot. transitivity (nsum (K:=Rs) n (fun a => k a * r a + k' a * r a)).
  - apply (nsum_ext Rs). intros; change (@smul Rs) with Rmult. rg.
  - apply (nsum_add Rs).
Qed.
Lemma dot_scal_l n t k r : dot n (fun a => t * k a) r = t * dot n k r.
Proof.
  unfold dot. transitivity (nsum (K:=Rs) n (fun a => t * (k a * r a))).
  - apply (nsum_ext Rs). intros; rg.
  - apply (nsum_mul_l Rs).
Qed.
Lemma dot_opp_l n k r : dot n (fun a => - k a) r = - dot n k r.
Proof.
  transitivity (dot n (fun a => -1 * k a) r); [apply (nsum_ext Rs); intros; rg|]. rewrite dot_scal_l. rg.
Qed.
Lemma dot_zero_r n k r : (forall a, (a < n)%nat -> r a = 0) -> dot n k r = 0.
Proof. intro H. unfold dot. apply (nsum_zero Rs). intros a Ha. rewrite H by exact Ha. change (@s0 Rs) with 0. rg. Qed.
Lemma dot_int n G r : (forall a, (a < n)%nat -> exists z, G a = IZR z) -> (forall a, (a < n)%nat -> exists z, r a = IZR z) ->
  exists z, dot n G r = IZR z.
Proof.
  intros HG Hr. unfold dot. induction n as [|n IH].
  - exists 0%Z. reflexivity.
  - destruct IH as [z Hz]; [intros; apply HG; lia|intros; apply Hr; lia|].
    destruct (HG n) as [x Hx]; [lia|]. destruct (Hr n) as [y Hy]; [lia|].
    exists (z + x * y)%Z. rewrite (nsum_S Rs). rewrite Hz, Hx, Hy. rewrite plus_IZR, mult_IZR. reflexivity.
Qed.

(* ---- complex derivative of functions of a real variable ---- *)
Definition cderiv (f : R -> cplx) (x : R) (l : cplx) : Prop :=
  is_derive (fun t => fst (f t)) x (fst l) /\ is_derive (fun t => snd (f t)) x (snd l).
Lemma cderiv_add f g x l m : cderiv f x l -> cderiv g x m -> cderiv (fun t => cadd (f t) (g t)) x (cadd l m).
Proof. intros [A B] [C D]. split; simpl; apply (is_derive_plus (K:=R_AbsRing) (V:=R_NormedModule)); assumption. Qed.
Lemma is_derive_lin2 (f g : R -> R) x l m a b : is_derive f x l -> is_derive g x m ->
  is_derive (fun t => f t * a + g t * b) x (l * a + m * b).
Proof.
  intros A B. apply (is_derive_plus (fun t => f t * a) (fun t => g t * b)).
  - replace (l * a) with (scal a l) by (unfold scal; simpl; unfold mult; simpl; rg).
    apply (is_derive_ext (fun t => scal a (f t))); [intro; unfold scal; simpl; unfold mult; simpl; rg|].
    apply is_derive_scal. exact A.
  - replace (m * b) with (scal b m) by (unfold scal; simpl; unfold mult; simpl; rg).
    apply (is_derive_ext (fun t => scal b (g t))); [intro; unfold scal; simpl; unfold mult; simpl; rg|].
    apply is_derive_scal. exact B.
Qed.
Lemma cderiv_mul_c f x l c : cderiv f x l -> cderiv (fun t => cmul (f t) c) x (cmul l c).
Proof.
  intros [A B]. destruct c as [a b]. split; simpl.
  - apply (is_derive_ext (fun t => fst (f t) * a + snd (f t) * (-b))); [intro; simpl; rg|].
    replace (fst l * a - snd l * b) with (fst l * a + snd l * (- b)) by rg. apply is_derive_lin2; assumption.
  - apply is_derive_lin2; assumption.
Qed.
Lemma cderiv_conj f x l : cderiv f x l -> cderiv (fun t => cconj (f t)) x (cconj l).
Proof. intros [A B]. split; simpl; [exact A|]. apply (is_derive_opp (K:=R_AbsRing) (V:=R_NormedModule)). exact B. Qed.
Lemma cderiv_const c x : cderiv (fun _ => c) x (0, 0).
Proof. split; simpl; apply (is_derive_const (K:=R_AbsRing) (V:=R_NormedModule)). Qed.
Lemma cderiv_ext f g x l : (forall t, f t = g t) -> cderiv f x l -> cderiv g x l.
Proof.
  intros H [A B]. split; [apply (is_derive_ext (fun t => fst (f t)))|apply (is_derive_ext (fun t => snd (f t)))];
    auto; intro; rewrite H; reflexivity.
Qed.
Lemma cderiv_ksum {A} (l : list A) (f : A -> R -> cplx) x (g : A -> cplx) :
  (forall a, In a l -> cderiv (f a) x (g a)) ->
  cderiv (fun t => ksum (K:=Cs) l (fun a => f a t)) x (ksum (K:=Cs) l g).
Proof.
  induction l as [|a l IH]; intro H; simpl; [apply cderiv_const|].
  apply (cderiv_add (f a) (fun t => ksum (K:=Cs) l (fun a0 => f a0 t))); [apply H; left; reflexivity|].
  apply IH. intros; apply H; right; assumption.
Qed.
Lemma cderiv_cexp (g : R -> R) x l : is_derive g x l -> cderiv (fun t => cexp (g t)) x (cmul (cre l) (cmul ci (cexp (g x)))).
Proof.
  intro H. split; simpl.
  - replace (l * (0 * cos (g x) - 1 * sin (g x)) - 0 * (0 * sin (g x) + 1 * cos (g x))) with (scal l (- sin (g x)))
      by (unfold scal; simpl; unfold mult; simpl; rg).
    apply (is_derive_comp cos g); [apply is_derive_cos|exact H].
  - replace (l * (0 * sin (g x) + 1 * cos (g x)) + 0 * (0 * cos (g x) - 1 * sin (g x))) with (scal l (cos (g x)))
      by (unfold scal; simpl; unfold mult; simpl; rg).
    apply (is_derive_comp sin g); [apply is_derive_sin|exact H].
Qed.
Lemma cderiv_herm (c : R -> nat -> cplx) x (c' : nat -> cplx) (P : list cmat) i j :
  (forall l, (l < length P)%nat -> cderiv (fun t => c t l) x (c' l)) -> (0 < length P)%nat ->
  cderiv (fun t => herm_series (c t) P i j) x (herm_series c' P i j).
Proof.
  intros H H0. apply (cderiv_ext (fun t =>
    cadd (cadd (ksum (K:=Cs) (seq 1 (length P - 1)) (fun l => cmul (c t l) (nth l P fzero i j)))
             (ksum (K:=Cs) (seq 1 (length P - 1)) (fun l => cmul (cconj (c t l)) (cconj (nth l P fzero j i)))))
       (cmul (c t 0%nat) (nth 0 P fzero i j)))); [intro; symmetry; apply herm_entry|].
  rewrite herm_entry. apply cderiv_add; [apply cderiv_add|].
  - apply (cderiv_ksum _ (fun l t => cmul (c t l) (nth l P fzero i j))). intros l Hl. apply in_seq in Hl.
    apply cderiv_mul_c. apply H. lia.
  - apply (cderiv_ksum _ (fun l t => cmul (cconj (c t l)) (cconj (nth l P fzero j i)))). intros l Hl. apply in_seq in Hl.
    apply cderiv_mul_c. apply (cderiv_conj (fun t => c t l)). apply H. lia.
  - apply (cderiv_mul_c (fun t => c t 0%nat)). apply H. exact H0.
Qed.

(** linear combinations of the coefficients *)
Lemma herm_series_rlin {A} (l : list A) (v : A -> R) (c : A -> nat -> cplx) (P : list cmat) i j :
  herm_series (fun m => ksum (K:=Cs) l (fun a => cmul (cre (v a)) (c a m))) P i j =
  ksum (K:=Cs) l (fun a => cmul (cre (v a)) (herm_series (c a) P i j)).
Proof.
  induction l as [|a l IH].
  - simpl. rewrite herm_entry. simpl.
    assert (Z1 : ksum (K:=Cs) (seq 1 (length P - 1)) (fun l => cmul (0, 0) (nth l P fzero i j)) = (0,0)).
    { apply (ksum_zero Cs). intros. change (@s0 Cs) with (0,0). rg. }
    assert (Z2 : ksum (K:=Cs) (seq 1 (length P - 1)) (fun l => cmul (cconj (0, 0)) (cconj (nth l P fzero j i))) = (0,0)).
    { apply (ksum_zero Cs). intros. replace (cconj (0,0)) with ((0,0) : cplx) by (unfold cconj; simpl; f_equal; rg). change (@s0 Cs) with (0,0). rg. }
    change (@s0 Cs) with ((0,0) : cplx). rewrite Z1, Z2. csolve.
  - cbn [ksum]. rewrite <- IH. rewrite !herm_entry. change (@sadd Cs) with cadd.
    assert (conj_add : forall x y, cconj (cadd x y) = cadd (cconj x) (cconj y)) by (intros; apply (s_conj_add Cs)).
    rewrite (ksum_ext Cs (seq 1 (length P - 1)) _ (fun m => cadd (cmul (cre (v a)) (cmul (c a m) (nth m P fzero i j)))
       (cmul (ksum (K:=Cs) l (fun a0 => cmul (cre (v a0)) (c a0 m))) (nth m P fzero i j)))) by (intros; rg).
    rewrite (ksum_ext Cs (seq 1 (length P - 1)) (fun l0 => cmul (cconj _) _) (fun m => cadd (cmul (cre (v a)) (cmul (cconj (c a m)) (cconj (nth m P fzero j i))))
       (cmul (cconj (ksum (K:=Cs) l (fun a0 => cmul (cre (v a0)) (c a0 m)))) (cconj (nth m P fzero j i))))).
    2:{ intros m _. rewrite conj_add. replace (cconj (cmul (cre (v a)) (c a m))) with (cmul (cre (v a)) (cconj (c a m))) by csolve. rg. }
    assert (KA : forall f g, ksum (K:=Cs) (seq 1 (length P - 1)) (fun a => cadd (f a) (g a)) =
              cadd (ksum (K:=Cs) (seq 1 (length P - 1)) f) (ksum (K:=Cs) (seq 1 (length P - 1)) g)) by (intros; apply (ksum_add Cs)).
    assert (KM : forall f x, ksum (K:=Cs) (seq 1 (length P - 1)) (fun a => cmul x (f a)) =
              cmul x (ksum (K:=Cs) (seq 1 (length P - 1)) f)) by (intros; apply (ksum_mul_l Cs)).
    rewrite !KA, !KM. rg.
Qed.

(* ---- coefficient derivatives ---- *)
Lemma dot_line n k v r t : dot n (fun a => k a + t * v a) r = dot n k r + t * dot n v r.
Proof. rewrite (dot_add_l n k (fun a => t * v a) r), dot_scal_l. reflexivity. Qed.
Lemma is_derive_affine p q x : is_derive (fun t => 2 * PI * (p + t * q)) x (2 * PI * q).
Proof. auto_derive; [exact I|rg]. Qed.
Lemma cre_mul a b : cre (a * b) = cmul (cre a) (cre b). Proof. csolve. Qed.
Lemma cre_ksum n (f : nat -> R) : cre (nsum (K:=Rs) n f) = nsum (K:=Cs) n (fun a => cre (f a)).
Proof.
  induction n as [|n IH]; [reflexivity|]. rewrite (nsum_S Rs), (nsum_S Cs), <- IH. csolve.
Qed.
Lemma fs_coef_deriv n nbs k v l : cderiv (fun t => fs_coef n nbs (fun a => k a + t * v a) l) 0
  (ksum (K:=Cs) (seq 0 n) (fun a => cmul (cre (v a)) (fs_dcoef n nbs k a l))).
Proof.
  unfold fs_coef, fs_dcoef.
  apply (cderiv_ext (fun t => cexp (2 * PI * (dot n k (nb nbs l) + t * dot n v (nb nbs l))))).
  { intro t. rewrite dot_line. reflexivity. }
  pose proof (cderiv_cexp _ 0 _ (is_derive_affine (dot n k (nb nbs l)) (dot n v (nb nbs l)) 0)) as D.
  cbv beta in D.
  replace (dot n k (nb nbs l) + 0 * dot n v (nb nbs l)) with (dot n k (nb nbs l)) in D by rg.
  match goal with |- cderiv _ _ ?x => match type of D with cderiv _ _ ?y => replace x with y; [exact D|] end end.
  rewrite cre_mul. unfold dot at 1. rewrite cre_ksum. unfold nsum.
  set (w := fs_coef n nbs k l). fold w in D.
  transitivity (ksum (K:=Cs) (seq 0 n) (fun a => cmul (cmul (cre (2 * PI)) (cmul ci w)) (cre (v a * nb nbs l a)))).
  - assert (KM : forall f x, ksum (K:=Cs) (seq 0 n) (fun a => cmul x (f a)) = cmul x (ksum (K:=Cs) (seq 0 n) f)) by (intros; apply (ksum_mul_l Cs)).
    rewrite KM. fold w. unfold w, fs_coef. rg.
  - apply (ksum_ext Cs). intros a _. rewrite !cre_mul. unfold fs_coef. fold w. unfold w, fs_coef. rg.
Qed.
Lemma fs_dcoef_deriv n nbs k v b l : cderiv (fun t => fs_dcoef n nbs (fun a => k a + t * v a) b l) 0
  (ksum (K:=Cs) (seq 0 n) (fun a => cmul (cre (v a)) (fs_ddcoef n nbs k a b l))).
Proof.
  unfold fs_dcoef.
  pose proof (cderiv_mul_c _ _ _ (cre (nb nbs l b)) (cderiv_mul_c _ _ _ (cmul (cre 2) (cmul ci (cre PI))) (fs_coef_deriv n nbs k v l))) as D.
  match goal with |- cderiv _ _ ?x => match type of D with cderiv _ _ ?y => replace x with y end end.
  - eapply cderiv_ext; [|exact D]. intro t. simpl. rg.
  - assert (KM : forall f x, cmul (ksum (K:=Cs) (seq 0 n) f) x = ksum (K:=Cs) (seq 0 n) (fun a => cmul (f a) x)) by (intros; symmetry; apply (ksum_mul_r Cs)).
    rewrite !KM. apply (ksum_ext Cs). intros a _. unfold fs_dcoef, fs_ddcoef. rewrite cre_mul. rg.
Qed.
Lemma fs_f_deriv n h k v i j : (0 < length (hH h))%nat ->
  cderiv (fun t => fs_f n h (fun a => k a + t * v a) i j) 0
         (ksum (K:=Cs) (seq 0 n) (fun a => cmul (cre (v a)) (fs_df n h k a i j))).
Proof.
  intro H0. unfold fs_df. rewrite <- (herm_series_rlin (seq 0 n) v (fun a => fs_dcoef n (hnb h) k a)).
  apply (cderiv_herm (fun t => fs_coef n (hnb h) (fun a => k a + t * v a))); [|exact H0].
  intros l _. apply fs_coef_deriv.
Qed.
Lemma fs_df_deriv n h k v b i j : (0 < length (hH h))%nat ->
  cderiv (fun t => fs_df n h (fun a => k a + t * v a) b i j) 0
         (ksum (K:=Cs) (seq 0 n) (fun a => cmul (cre (v a)) (fs_ddf n h k a b i j))).
Proof.
  intro H0. unfold fs_ddf. rewrite <- (herm_series_rlin (seq 0 n) v (fun a => fs_ddcoef n (hnb h) k a b)).
  apply (cderiv_herm (fun t => fs_dcoef n (hnb h) (fun a => k a + t * v a) b)); [|exact H0].
  intros l _. apply fs_dcoef_deriv.
Qed.
Lemma fs_ddf_sym n h k a b i j : fs_ddf n h k a b i j = fs_ddf n h k b a i j.
Proof.
  unfold fs_ddf. rewrite !herm_entry. unfold fs_ddcoef. rewrite (Rmult_comm (nb (hnb h) 0 a)).
  f_equal; f_equal; apply (ksum_ext Cs); intros; rewrite (Rmult_comm (nb (hnb h) a0 a)); reflexivity.
Qed.

(** real vectors given by integer components *)
Lemma fs_coef_period n nbs k G l : (forall a, (a < n)%nat -> exists z, G a = IZR z) ->
  (forall a, (a < n)%nat -> exists z, nb nbs l a = IZR z) ->
  fs_coef n nbs (fun a => k a + G a) l = fs_coef n nbs k l.
Proof.
  intros HG Hr. unfold fs_coef. rewrite dot_add_l. destruct (dot_int n G (nb nbs l) HG Hr) as [z ->].
  rewrite Rmult_plus_distr_l. apply cexp_period.
Qed.
Lemma fs_coef_neg n nbs k l : fs_coef n nbs (fun a => - k a) l = cconj (fs_coef n nbs k l).
Proof.
  unfold fs_coef. rewrite dot_opp_l. rewrite <- cexp_neg. f_equal. rg.
Qed.
Lemma fs_coef_zero n nbs k l : (forall a, (a < n)%nat -> nb nbs l a = 0) -> fs_coef n nbs k l = (1, 0).
Proof. intro H. unfold fs_coef. rewrite dot_zero_r by exact H. rewrite Rmult_0_r. apply cexp_0. Qed.

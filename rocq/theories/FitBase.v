(** Lemmas for the fits: linearity of the matrix of the model in its parameters, action of the window matrices on the
    eigenvectors, the real inner product of parameter sets. *)
From Coq Require Import List Arith ZArith Reals Lra Lia Bool Setoid Morphisms.
From Coquelicot Require Import Coquelicot.
Import List ListNotations.
From Verif Require Import SRing LMat FMat CplxR UrepModel UrepProofs FourierModel FourierProofs BsmProofs SpecProofs FourierProps EigModel EigProofs EigBase EigProps TbmModel TbmProps FitModel.
Local Open Scope R_scope.

(** ** specification *)
(** real inner product of two sets of np matrices of size d *)
Definition inner (d np : nat) (x y : pars) : R :=
  rsum np (fun k => rsum d (fun i => rsum d (fun j => fst (x k i j) * fst (y k i j) + snd (x k i j) * snd (y k i j)))).
(** P + t Q *)
Definition shift_pars (P Q : pars) (t : R) : pars := fun k i j => cadd (P k i j) (cmul (cre t) (Q k i j)).

(** ** sums *)
Lemma ksum_index {A} (K : sring) (l : list A) (d : A) (f : A -> K) : ksum (K:=K) l f = nsum (K:=K) (length l) (fun b => f (nth b l d)).
Proof.
  induction l as [|a l IH] using rev_ind; [reflexivity|].
  rewrite app_length. cbn [length]. rewrite Nat.add_1_r, (nsum_S K), (ksum_app K).
  rewrite app_nth2, Nat.sub_diag by lia. cbn [ksum nth]. rewrite IH. f_equal.
  - apply (nsum_ext K). intros b Hb. rewrite app_nth1 by exact Hb. reflexivity.
  - destruct K as [C z o a1 m1 s1 o1 c1 rt]. simpl in *. rewrite (Radd_comm rt). apply (Radd_0_l rt).
Qed.
Lemma sum_list_index (l : list R) : sum_list l = rsum (length l) (fun b => nth b l 0).
Proof.
  rewrite <- (ksum_index Rs l 0 (fun x => x)). induction l as [|a l IH]; [reflexivity|]. simpl. rewrite IH. reflexivity.
Qed.

(** ** the matrix of the model *)
Lemma fit_sum_entry np f P i j : fit_sum np f P i j = nsum (K:=Cs) np (fun l => cmul (f l) (P l i j)).
Proof. reflexivity. Qed.
Lemma fit_H_entry np f P i j : fit_H np f P i j =
  nsum (K:=Cs) np (fun l => cadd (cmul (f l) (P l i j)) (cmul (cconj (f l)) (cconj (P l j i)))).
Proof.
  unfold fit_H. cbv zeta. unfold fadd, fadj. rewrite !fit_sum_entry. change (@sadd Cs) with cadd. rewrite (nsum_conj Cs).
  symmetry. etransitivity; [apply (nsum_add Cs)|]. change (@sadd Cs) with cadd. f_equal. apply (nsum_ext Cs). intros l _. simpl. apply cplx_eq; simpl; ring.
Qed.
Lemma fit_H_herm np f P d : hermitian d (fit_H np f P).
Proof.
  intros i j _ _. unfold fit_H. cbv zeta. unfold fadd, fadj. simpl. apply cplx_eq; simpl; ring.
Qed.
Lemma fit_H_ext np f P Q i j : (forall l, (l < np)%nat -> P l i j = Q l i j /\ P l j i = Q l j i) -> fit_H np f P i j = fit_H np f Q i j.
Proof. intro H. rewrite !fit_H_entry. apply (nsum_ext Cs). intros l Hl. destruct (H l Hl) as [-> ->]. reflexivity. Qed.
Lemma fit_H_shift np f P Q t i j : fit_H np f (shift_pars P Q t) i j = cadd (fit_H np f P i j) (cmul (cre t) (fit_H np f Q i j)).
Proof.
  rewrite !fit_H_entry. change (cmul (cre t)) with (@smul Cs (cre t)). rewrite <- (nsum_mul_l Cs). change cadd with (@sadd Cs) at 2. rewrite <- (nsum_add Cs).
  apply (nsum_ext Cs). intros l _. unfold shift_pars. simpl. apply cplx_eq; simpl; ring.
Qed.
(** the matrix is the one of the class after the hermitisation of the first parameter matrix in normalize *)
Lemma fit_H_series c P i j : c 0%nat = (1, 0) -> P <> [] -> fit_H (length P) (half0 c) (fun l => nth l P fzero) i j = herm_series c (herm0 P) i j.
Proof.
  intros Hc HP. rewrite herm_entry, fit_H_entry. destruct P as [|p0 P]; [congruence|]. cbn [herm0 length nth].
  unfold nsum. cbn [seq ksum]. rewrite Nat.sub_succ, Nat.sub_0_r. unfold half0 at 1 2. cbn [Nat.eqb]. rewrite Hc.
  assert (E : csum (seq 1 (length P)) (fun a => cadd (cmul (half0 c a) (nth a (p0 :: P) fzero i j)) (cmul (cconj (half0 c a)) (cconj (nth a (p0 :: P) fzero j i)))) =
    cadd (csum (seq 1 (length P)) (fun l => cmul (c l) (nth l (fscale (K:=Cs) chalf (fadd (K:=Cs) p0 (fadj (K:=Cs) p0)) :: P) fzero i j)))
         (csum (seq 1 (length P)) (fun l => cmul (cconj (c l)) (cconj (nth l (fscale (K:=Cs) chalf (fadd (K:=Cs) p0 (fadj (K:=Cs) p0)) :: P) fzero j i))))).
  { etransitivity; [|apply (ksum_add Cs)]. apply (ksum_ext Cs). intros a Ha. apply in_seq in Ha. destruct a as [|a]; [lia|]. reflexivity. }
  etransitivity; [apply f_equal2; [reflexivity|exact E]|]. cbn [nth]. unfold fscale, fadd, fadj, chalf. apply cplx_eq; simpl; field.
Qed.

(** ** window matrices *)
Lemma win_herm V off ne (g : nat -> R) i j : win_mat V off ne (fun a => cre (g a)) i j = cconj (win_mat V off ne (fun a => cre (g a)) j i).
Proof.
  unfold win_mat. change cconj with (@sconj Cs). rewrite (nsum_conj Cs). apply (nsum_ext Cs). intros a _. simpl. apply cplx_eq; simpl; ring.
Qed.
Lemma win_scale V off ne (g : nat -> R) r i j : win_mat V off ne (fun a => cre (r * g a)) i j = cmul (cre r) (win_mat V off ne (fun a => cre (g a)) i j).
Proof.
  unfold win_mat. symmetry. etransitivity; [symmetry; apply (nsum_mul_l Cs)|]. apply (nsum_ext Cs). intros a _. simpl. apply cplx_eq; simpl; ring.
Qed.
Lemma win_ext V off ne g h i j : (forall a, (a < ne)%nat -> g a = h a) -> win_mat V off ne g i j = win_mat V off ne h i j.
Proof. intro H. unfold win_mat. apply (nsum_ext Cs). intros a Ha. rewrite (H a Ha). reflexivity. Qed.
Definition in_win (off ne j : nat) : bool := Nat.leb off j && Nat.ltb j (off + ne).
Lemma win_col d V off ne (g : nat -> R) j k : feq (K:=Cs) d d (fmul (K:=Cs) d (fadj (K:=Cs) V) V) (fid (K:=Cs)) -> feq (K:=Cs) d d (fmul (K:=Cs) d V (fadj (K:=Cs) V)) (fid (K:=Cs)) ->
  (off + ne <= d)%nat -> (j < d)%nat -> (k < d)%nat ->
  nsum (K:=Cs) d (fun x => cmul (win_mat V off ne (fun a => cre (g a)) j x) (V x k)) = cmul (cre (if in_win off ne k then g (k - off)%nat else 0)) (V j k).
Proof.
  intros B1 B2 Hw Hj Hk.
  assert (B : eigenbasis d (fun _ _ => (0,0)) (fid (K:=Cs)) (fun _ => 0, V)).
  { split; [|split]; cbn [fst snd].
    - intros a b _ _. rewrite !csum_nsum. etransitivity; [apply (nsum_zero Cs); intros; apply cplx_eq; simpl; ring|apply cplx_eq; simpl; ring].
    - rewrite (fmul_id_r (K:=Cs)). exact B1.
    - rewrite (fmul_id_r (K:=Cs) d d (fadj (K:=Cs) V)). exact B2. }
  pose proof (opt_diff_col d (fun _ => 0) V off ne (fun _ => 1) g j k B Hw Hj Hk) as C.
  etransitivity; [|etransitivity; [exact C|]].
  - apply (nsum_ext Cs). intros x _. refine (f_equal2 cmul _ eq_refl). unfold win_mat, opt_diff. apply (nsum_ext Cs). intros a _.
    rewrite Rminus_0_r, Rmult_1_r. reflexivity.
  - unfold in_win. rewrite Rminus_0_r, Rmult_1_r. reflexivity.
Qed.
Lemma basis_unitary d H la V : eigenbasis d H (fid (K:=Cs)) (la, V) ->
  feq (K:=Cs) d d (fmul (K:=Cs) d (fadj (K:=Cs) V) V) (fid (K:=Cs)) /\ feq (K:=Cs) d d (fmul (K:=Cs) d V (fadj (K:=Cs) V)) (fid (K:=Cs)).
Proof.
  intros (_ & B1 & B2). cbn [snd] in *. split.
  - rewrite (fmul_id_r (K:=Cs) d d (fadj (K:=Cs) V)) in B1. exact B1.
  - rewrite (fmul_id_r (K:=Cs) d d (fadj (K:=Cs) V)) in B2. exact B2.
Qed.
(** adding the window matrix moves the eigenvalues of the window and keeps the eigenvectors *)
Lemma win_eigenbasis d H H' la V off ne g : eigenbasis d H (fid (K:=Cs)) (la, V) -> (off + ne <= d)%nat ->
  (forall i j, (i < d)%nat -> (j < d)%nat -> H' i j = cadd (H i j) (win_mat V off ne (fun a => cre (g a)) i j)) ->
  eigenbasis d H' (fid (K:=Cs)) (fun j => la j + (if in_win off ne j then g (j - off)%nat else 0), V).
Proof.
  intros B Hw HH. destruct (basis_unitary _ _ _ _ B) as [U1 U2]. destruct B as (B1 & B2 & B3). split; [|split; assumption]. cbn [fst snd] in *.
  intros j q Hj Hq. specialize (B1 j q Hj Hq). rewrite !csum_nsum in *.
  pose proof (win_col d V off ne g j q U1 U2 Hw Hj Hq) as C.
  assert (I : nsum (K:=Cs) d (fun x => cmul (fid (K:=Cs) j x) (V x q)) = V j q).
  { etransitivity; [|exact (nsum_delta Cs d j (fun x => V x q) Hj)]. apply (nsum_ext Cs). intros x _. unfold fid. rewrite (Nat.eqb_sym j x). destruct (Nat.eqb x j); simpl; apply cplx_eq; simpl; ring. }
  rewrite I in *.
  transitivity (cadd (nsum (K:=Cs) d (fun x => cmul (H j x) (V x q))) (nsum (K:=Cs) d (fun x => cmul (win_mat V off ne (fun a => cre (g a)) j x) (V x q)))).
  - change cadd with (@sadd Cs). rewrite <- (nsum_add Cs). apply (nsum_ext Cs). intros x Hx. rewrite HH by assumption. apply cplx_eq; simpl; ring.
  - rewrite B1, C. apply cplx_eq; simpl; ring.
Qed.

(** ** expectation values *)
Lemma eig_el_fit d V np f P j : eig_diag d V (fit_H np f P) j = 2 * fst (nsum (K:=Cs) np (fun l => cmul (f l) (eig_el d V (P l) j j))).
Proof.
  unfold eig_diag.
  assert (E : eig_el d V (fit_H np f P) j j = cadd (nsum (K:=Cs) np (fun l => cmul (f l) (eig_el d V (P l) j j))) (cconj (nsum (K:=Cs) np (fun l => cmul (f l) (eig_el d V (P l) j j))))).
  { transitivity (eig_el d V (fun a b => nsum (K:=Cs) np (fun l => cadd (cmul (f l) (P l a b)) (cmul (cconj (f l)) (cconj (P l b a))))) j j).
    { apply eig_el_ext. intros a b _ _. apply fit_H_entry. }
    rewrite (eig_el_nsum d V np (fun l a b => cadd (cmul (f l) (P l a b)) (cmul (cconj (f l)) (cconj (P l b a))))).
    change cconj with (@sconj Cs) at 2. rewrite (nsum_conj Cs). change cadd with (@sadd Cs) at 2. rewrite <- (nsum_add Cs). apply (nsum_ext Cs). intros l _.
    rewrite !eig_el_entry. change (@sconj Cs) with cconj. change (@sadd Cs) with cadd.
    set (S1 := nsum (K:=Cs) d (fun m => nsum (K:=Cs) d (fun j0 => cmul (cmul (cconj (V j0 j)) (P l j0 m)) (V m j)))).
    assert (Q : cconj (cmul (f l) S1) = nsum (K:=Cs) d (fun m => nsum (K:=Cs) d (fun j0 => cmul (cmul (cconj (V j0 j)) (cmul (cconj (f l)) (cconj (P l m j0)))) (V m j)))).
    { etransitivity; [exact (s_conj_mul Cs (f l) S1)|]. unfold S1. rewrite (nsum_conj Cs), <- (nsum_mul_l Cs).
      transitivity (nsum (K:=Cs) d (fun m => nsum (K:=Cs) d (fun j0 => cmul (cmul (cconj (V m j)) (cmul (cconj (f l)) (cconj (P l j0 m)))) (V j0 j)))); [|apply (nsum_swap Cs)].
      apply (nsum_ext Cs). intros m _. rewrite (nsum_conj Cs), <- (nsum_mul_l Cs). apply (nsum_ext Cs). intros a _. simpl. apply cplx_eq; simpl; ring. }
    rewrite Q. unfold S1. etransitivity; [|apply f_equal2; [apply (nsum_mul_l Cs)|reflexivity]]. change cadd with (@sadd Cs). rewrite <- (nsum_add Cs). apply (nsum_ext Cs). intros m _.
    rewrite <- (nsum_mul_l Cs), <- (nsum_add Cs). apply (nsum_ext Cs). intros a _. simpl. apply cplx_eq; simpl; ring. }
  rewrite E. simpl. ring.
Qed.

(** ** inner products *)
Definition cin (d : nat) (X Y : cmat) : cplx := nsum (K:=Cs) d (fun i => nsum (K:=Cs) d (fun j => cmul (cconj (X i j)) (Y i j))).
Lemma inner_cin d np x y : inner d np x y = fst (nsum (K:=Cs) np (fun k => cin d (x k) (y k))).
Proof.
  unfold inner, cin. rewrite fst_nsum. apply (nsum_ext Rs). intros k _. rewrite fst_nsum. apply (nsum_ext Rs). intros i _. rewrite fst_nsum.
  apply (nsum_ext Rs). intros j _. simpl. ring.
Qed.
Lemma inner_sym d np x y : inner d np x y = inner d np y x.
Proof. unfold inner. do 3 (apply (nsum_ext Rs); intros ? _). simpl. ring. Qed.
Lemma inner_nonneg d np x : 0 <= inner d np x x.
Proof.
  unfold inner. assert (N : forall n (f : nat -> R), (forall k, 0 <= f k) -> 0 <= rsum n f).
  { intros n f H. induction n as [|n IH]; [simpl; unfold nsum; simpl; lra|]. rewrite (nsum_S Rs). specialize (H n). simpl. lra. }
  apply N. intro k. apply N. intro i. apply N. intro j. nra.
Qed.
Lemma cin_win d V off ne (g : nat -> cplx) Y : cin d (win_mat V off ne g) Y = nsum (K:=Cs) ne (fun a => cmul (cconj (g a)) (eig_el d V Y (off + a)%nat (off + a)%nat)).
Proof.
  unfold cin, win_mat.
  transitivity (nsum (K:=Cs) d (fun i => nsum (K:=Cs) ne (fun a => nsum (K:=Cs) d (fun j => cmul (cconj (g a)) (cmul (cmul (cconj (V i (off + a)%nat)) (Y i j)) (V j (off + a)%nat)))))).
  { apply (nsum_ext Cs). intros i _. etransitivity; [|apply (nsum_swap Cs)]. apply (nsum_ext Cs). intros j _.
    change cconj with (@sconj Cs) at 1. rewrite (nsum_conj Cs). etransitivity; [symmetry; apply (nsum_mul_r Cs)|]. apply (nsum_ext Cs). intros a _. simpl. apply cplx_eq; simpl; ring. }
  etransitivity; [apply (nsum_swap Cs)|]. apply (nsum_ext Cs). intros a _. rewrite eig_el_entry.
  etransitivity; [apply (nsum_swap Cs)|]. change (cmul (cconj (g a))) with (@smul Cs (cconj (g a))). rewrite <- (nsum_mul_l Cs). apply (nsum_ext Cs). intros j _.
  rewrite <- (nsum_mul_l Cs). reflexivity.
Qed.
Lemma cin_fsum {A} d (l : list A) (c : A -> cplx) (X : A -> cmat) Y :
  cin d (fsum (K:=Cs) l (fun s => fscale (K:=Cs) (c s) (X s))) Y = csum l (fun s => cmul (cconj (c s)) (cin d (X s) Y)).
Proof.
  unfold cin, fsum, fscale.
  transitivity (nsum (K:=Cs) d (fun i => csum l (fun s => nsum (K:=Cs) d (fun j => cmul (cconj (c s)) (cmul (cconj (X s i j)) (Y i j)))))).
  { apply (nsum_ext Cs). intros i _. etransitivity; [|apply (nsum_ksum_swap Cs)]. apply (nsum_ext Cs). intros j _.
    change cconj with (@sconj Cs) at 1. rewrite (ksum_conj Cs). etransitivity; [symmetry; apply (ksum_mul_r Cs)|]. apply (ksum_ext Cs). intros s _. simpl. apply cplx_eq; simpl; ring. }
  rewrite (nsum_ksum_swap Cs). apply (ksum_ext Cs). intros s _. change (cmul (cconj (c s))) with (@smul Cs (cconj (c s))). rewrite <- (nsum_mul_l Cs).
  apply (nsum_ext Cs). intros i _. rewrite <- (nsum_mul_l Cs). reflexivity.
Qed.
(** the form of all the parameter updates: sum over the samples of c_k times a window matrix *)
Lemma inner_updates {A} d np off ne (l : list A) (c : A -> nat -> cplx) (V : A -> cmat) (g : A -> nat -> R) y :
  inner d np (fun k => fsum (K:=Cs) l (fun s => fscale (K:=Cs) (c s k) (win_mat (V s) off ne (fun a => cre (g s a))))) y =
  ksum (K:=Rs) l (fun s => rsum ne (fun a => g s a * fst (nsum (K:=Cs) np (fun k => cmul (cconj (c s k)) (eig_el d (V s) (y k) (off + a)%nat (off + a)%nat))))).
Proof.
  rewrite inner_cin.
  transitivity (fst (csum l (fun s => nsum (K:=Cs) ne (fun a => cmul (cre (g s a)) (nsum (K:=Cs) np (fun k => cmul (cconj (c s k)) (eig_el d (V s) (y k) (off + a)%nat (off + a)%nat))))))).
  - f_equal. transitivity (nsum (K:=Cs) np (fun k => csum l (fun s => cmul (cconj (c s k)) (nsum (K:=Cs) ne (fun a => cmul (cre (g s a)) (eig_el d (V s) (y k) (off + a)%nat (off + a)%nat)))))).
    + apply (nsum_ext Cs). intros k _. rewrite cin_fsum. apply (ksum_ext Cs). intros s _. rewrite cin_win. refine (f_equal2 cmul eq_refl _).
      apply (nsum_ext Cs). intros a _. refine (f_equal2 cmul _ eq_refl). apply cplx_eq; simpl; ring.
    + rewrite (nsum_ksum_swap Cs). apply (ksum_ext Cs). intros s _.
      transitivity (nsum (K:=Cs) np (fun k => nsum (K:=Cs) ne (fun a => cmul (cre (g s a)) (cmul (cconj (c s k)) (eig_el d (V s) (y k) (off + a)%nat (off + a)%nat))))).
      * apply (nsum_ext Cs). intros k _. etransitivity; [symmetry; apply (nsum_mul_l Cs)|]. apply (nsum_ext Cs). intros a _. simpl. apply cplx_eq; simpl; ring.
      * etransitivity; [apply (nsum_swap Cs)|]. apply (nsum_ext Cs). intros a _. apply (nsum_mul_l Cs).
  - assert (F : forall (f : A -> cplx), fst (csum l f) = ksum (K:=Rs) l (fun s => fst (f s))).
    { intro f. induction l as [|s l' IH]; [reflexivity|]. simpl. simpl in IH. rewrite IH. reflexivity. }
    rewrite F. apply (ksum_ext Rs). intros s _. rewrite fst_nsum. apply (nsum_ext Rs). intros a _. simpl. ring.
Qed.
(** derivative of the matrix in the parameters *)
Lemma fit_H_deriv d np f P Q : cderiv_mat d (fun t => fit_H np f (shift_pars P Q t)) 0 (fit_H np f Q).
Proof.
  intros i j _ _. unfold cderiv. split.
  - apply (is_derive_ext (fun t => fst (fit_H np f P i j) + t * fst (fit_H np f Q i j))).
    + intro t. rewrite fit_H_shift. simpl. ring.
    + match goal with |- is_derive (fun t => ?a + t * ?b) _ ?l => change l with b; generalize (a : R) (b : R) end. intros a b. auto_derive; [exact I|ring].
  - apply (is_derive_ext (fun t => snd (fit_H np f P i j) + t * snd (fit_H np f Q i j))).
    + intro t. rewrite fit_H_shift. simpl. ring.
    + match goal with |- is_derive (fun t => ?a + t * ?b) _ ?l => change l with b; generalize (a : R) (b : R) end. intros a b. auto_derive; [exact I|ring].
Qed.
Lemma shift_pars_0 np f P Q d : feq (K:=Cs) d d (fit_H np f (shift_pars P Q 0)) (fit_H np f P).
Proof. intros i j _ _. rewrite fit_H_shift. apply cplx_eq; simpl; ring. Qed.
Lemma eigenbasis_extH d H H' S r : feq (K:=Cs) d d H H' -> eigenbasis d H S r -> eigenbasis d H' S r.
Proof.
  intros E (B1 & B2). split; [|exact B2]. intros j k Hj Hk. rewrite <- (B1 j k Hj Hk). apply (ksum_ext Cs). intros m Hm. apply in_seq in Hm. rewrite (E j m) by lia. reflexivity.
Qed.
(** the first order change of a band under a change of the parameters *)
Lemma fit_first_order d np f P Q la V i e : (i < d)%nat -> eigenbasis d (fit_H np f P) (fid (K:=Cs)) (la, V) -> simple d la i ->
  band d (fun t => fit_H np f (shift_pars P Q t)) (fun _ => fid (K:=Cs)) e -> e 0 = la i -> is_derive e 0 (eig_diag d V (fit_H np f Q) i).
Proof.
  intros Hi B Hs Hb He.
  pose proof (first_order d i (fun t => fit_H np f (shift_pars P Q t)) (fun _ => fid (K:=Cs)) (fit_H np f Q) (fun _ _ => (0,0)) la V e Hi
    (fit_H_herm _ _ _ _) (hermitian_id d)) as F.
  assert (Z : eig_diag d V (fun _ _ => (0, 0)) i = 0) by (unfold eig_diag; rewrite eig_el_zero; reflexivity).
  rewrite Z in F. replace (eig_diag d V (fit_H np f Q) i) with (eig_diag d V (fit_H np f Q) i - 0 * la i) by ring.
  apply F; try assumption.
  - apply (eigenbasis_extH d (fit_H np f P)); [|exact B]. symmetry. apply shift_pars_0.
  - apply fit_H_deriv.
  - apply const_deriv.
Qed.

(** The class TightBindingModel: which models can be constructed, derivatives, Fourier coefficients, optimiser step. *)
From Coq Require Import List Arith ZArith Lia Reals Lra Bool.
From Coquelicot Require Import Coquelicot.
Import List ListNotations.
From Verif Require Import SRing LMat FMat CplxR SymModel HamModel UrepModel UrepModel2 FourierModel FourierProofs FourierProps SpecProofs EigModel EigProofs EigBase EigProps EigHess EigBad TbmModel.
Local Open Scope R_scope.
Local Notation csum l f := (ksum (K:=Cs) l f).

(** ** C106 *)
Lemma row_no_zero n ns x : forall ms i row, row_tasks false n ns i x ms = TOk row -> Forall (fun t => t_k t = TNor) row.
Proof.
  induction ms as [|[m s] ms IH]; intros i row H; cbn [row_tasks] in H; [injection H as <-; constructor|].
  destruct (try_neighbor _ _ _ _) as [[j mir]|]; [|discriminate H]. rewrite !andb_false_r in H.
  destruct mir; [discriminate H|]. destruct (row_tasks false n ns i x ms) as [l| | |] eqn:E; try discriminate H.
  injection H as <-. constructor; [reflexivity|]. exact (IH i l E).
Qed.
Lemma all_no_zero (r : urep Cs) ns : sinv (usym r) = false -> forall l rows, all_tasks r ns l = TOk rows -> Forall (fun t => t_k t = TNor) (concat rows).
Proof.
  intro Hi. induction l as [|[i x] l IH]; intros rows H; cbn [all_tasks] in H; [injection H as <-; constructor|].
  destruct (row_tasks _ _ _ _ _ _) as [row| | |] eqn:E1; try discriminate H. destruct (all_tasks r ns l) as [rs| | |] eqn:E2; try discriminate H.
  injection H as <-. cbn [concat]. apply Forall_app. split; [|apply (IH rs eq_refl)]. rewrite Hi in E1. exact (row_no_zero _ _ _ _ _ _ E1).
Qed.
Lemma symz_needs_inv dv (r : urep Cs) ns f : urep_symmetrizer (K:=Cs) dv r ns = TOk f -> (1 < length (uU r))%nat -> sinv (usym r) = true.
Proof.
  intros H H1. destruct (sinv (usym r)) eqn:Hi; [reflexivity|]. exfalso. unfold urep_symmetrizer in H. rewrite (proj2 (Nat.leb_gt _ _)) in H by exact H1.
  destruct (negb _); [discriminate H|]. unfold usz_prepare in H. destruct (all_tasks r ns _) as [rows| | |] eqn:EA; try discriminate H.
  destruct (negb _); [discriminate H|]. apply (all_no_zero r ns Hi) in EA. destruct (filter (is_kind TZero) (concat rows)) as [|t0 ts] eqn:EF; [discriminate H|].
  assert (T : In t0 (filter (is_kind TZero) (concat rows))) by (rewrite EF; left; reflexivity). apply filter_In in T. destruct T as [T K].
  rewrite Forall_forall in EA. unfold is_kind in K. rewrite (EA t0 T) in K. discriminate K.
Qed.
(** the models that can be constructed are those without any symmetry: at most one matrix and no inversion *)
Theorem C106_constructor : forall dv q (r : urep Cs) ns d P m,
  tbm_new dv q r ns (Some (d, P)) = TbOk m <->
  (length (uU r) <= 1)%nat /\ sinv (usym r) = false /\ ns <> [] /\ zero_b (hd [] ns) = true /\ udim r = d /\ length P = (2 * length ns - 1)%nat /\
  m = MkTbm (map (zpos q) ns) P.
Proof.
  intros dv q r ns d P m. unfold tbm_new. destruct ns as [|x0 ns']; [split; [discriminate|intros (_ & _ & H & _); congruence]|]. cbn [hd].
  set (ns := x0 :: ns'). destruct (zero_b x0) eqn:Z; cbn [negb]; [|split; [discriminate|intros (_ & _ & _ & H & _); discriminate H]].
  split.
  - intro H. destruct (urep_symmetrizer (K:=Cs) dv r ns) as [f| | |] eqn:E; try discriminate H. destruct (sinv (usym r)) eqn:Hi; [discriminate H|].
    destruct (Nat.eqb (udim r) d && Nat.eqb (length P) (length ns * 2 - 1)) eqn:B; [|discriminate H]. injection H as <-.
    apply andb_true_iff in B. destruct B as [B1 B2]. apply Nat.eqb_eq in B1, B2.
    split; [|split; [reflexivity|]]. { destruct (Nat.le_gt_cases (length (uU r)) 1) as [|H1]; [assumption|]. pose proof (symz_needs_inv dv r ns f E H1). congruence. }
    split; [discriminate|]. split; [reflexivity|]. split; [exact B1|]. split; [lia|reflexivity].
  - intros (H1 & Hi & _ & _ & Hd & HP & ->). unfold urep_symmetrizer. rewrite (proj2 (Nat.leb_le _ _)) by exact H1. rewrite Hi.
    rewrite (proj2 (Nat.eqb_eq _ _) Hd). rewrite (proj2 (Nat.eqb_eq (length P) (length ns * 2 - 1))) by lia. reflexivity.
Qed.
(** ... so normalize and the symmetrisation inside optimize change nothing *)
Theorem C106_symmetrizer_trivial : forall dv q (r : urep Cs) ns p m f H,
  tbm_new dv q r ns p = TbOk m -> urep_symmetrizer (K:=Cs) dv r ns = TOk f -> f H = Some H.
Proof.
  intros dv q r ns p m f H E F. unfold tbm_new in E. destruct ns as [|x0 ns']; [discriminate E|]. destruct (negb (zero_b x0)); [discriminate E|].
  rewrite F in E. destruct (sinv (usym r)) eqn:Hi; [discriminate E|].
  destruct (Nat.le_gt_cases (length (uU r)) 1) as [H1|H1].
  - unfold urep_symmetrizer in F. rewrite (proj2 (Nat.leb_le _ _) H1) in F. injection F as <-. reflexivity.
  - pose proof (symz_needs_inv _ _ _ _ F H1). congruence.
Qed.
(** a representation with inversion never gives a model *)
Theorem C106_inversion_refuted : exists (r : urep Cs) ns P, (forall dv q, tbm_new dv q r ns (Some (1%nat, P)) = TbAttr) /\
  sinv (usym r) = true /\ length (uU r) = 1%nat /\ hd [] ns = [0%Z] /\ length P = length ns.
Proof.
  exists (MkUrep (MkSym 1 [[[1%Z]]] true false) 1 [fid (K:=Cs)] 1), [[0%Z]; [1%Z]], [cm (1, 0); cm (1, 0)]. repeat split; reflexivity.
Qed.
(** a model without symmetry: one orbital, a chain *)
Definition u1 : urep Cs := MkUrep (MkSym 1 [[[1%Z]]] false false) 1 [fid (K:=Cs)] 1.
Example C106_example : exists m, tbm_new (1, 0) 1 u1 [[0%Z]; [1%Z]] (Some (1%nat, [cm (1, 0); cm (2, 0); cm (3, 0)])) = TbOk m /\ tparams m = [cm (1, 0); cm (2, 0); cm (3, 0)] /\
  tbm_new (1, 0) 1 u1 [[0%Z]; [1%Z]] (Some (1%nat, [cm (1, 0); cm (2, 0)])) = TbAssert.
Proof.
  exists (MkTbm (map (zpos 1) [[0%Z]; [1%Z]]) [cm (1, 0); cm (2, 0); cm (3, 0)]). split; [apply C106_constructor|split; reflexivity].
  repeat split; try reflexivity; try discriminate; cbn; lia.
Qed.

(** ** C107 *)
Lemma psum_entry c P i j : psum c P i j = csum (seq 0 (length P)) (fun l => cmul (cre (c l)) (nth l P fzero i j)).
Proof. reflexivity. Qed.
Lemma cderiv_cre f x l : is_derive f x l -> cderiv (fun t => cre (f t)) x (cre l).
Proof. intro H. split; simpl; [exact H|apply (is_derive_const (K:=R_AbsRing) (V:=R_NormedModule))]. Qed.
Lemma psum_deriv (c : R -> nat -> R) x c' P i j : (forall l, (l < length P)%nat -> is_derive (fun t => c t l) x (c' l)) ->
  cderiv (fun t => psum (c t) P i j) x (psum c' P i j).
Proof.
  intro H. apply (cderiv_ksum _ (fun l t => cmul (cre (c t l)) (nth l P fzero i j))). intros l Hl. apply in_seq in Hl.
  apply (cderiv_mul_c (fun t => cre (c t l))). apply (cderiv_cre (fun t => c t l)). apply H. lia.
Qed.
Lemma psum_contract n (v : rvec) (c : nat -> nat -> R) P i j :
  contract n v (fun a => psum (c a) P) i j = psum (fun l => rsum n (fun a => v a * c a l)) P i j.
Proof.
  unfold contract. rewrite psum_entry.
  transitivity (csum (seq 0 n) (fun a => csum (seq 0 (length P)) (fun l => cmul (cre (v a)) (cmul (cre (c a l)) (nth l P fzero i j))))).
  - apply (ksum_ext Cs). intros a _. rewrite psum_entry. symmetry. apply (ksum_mul_l Cs).
  - etransitivity; [apply (ksum_swap Cs)|]. apply (ksum_ext Cs). intros l _. rewrite cre_ksum. unfold nsum.
    symmetry. etransitivity; [symmetry; apply (ksum_mul_r Cs)|]. apply (ksum_ext Cs). intros a _. rewrite cre_mul. simpl. rg.
Qed.
Lemma rsum_lin n c (f g : nat -> R) : (forall a, (a < n)%nat -> f a = c * g a) -> rsum n f = c * rsum n g.
Proof. intro H. etransitivity; [apply (nsum_ext Rs); exact H|]. apply (nsum_mul_l Rs). Qed.
Lemma fi_deriv n m k v l : is_derive (fun t => tbm_fi n m (along k v t) l) 0 (rsum n (fun a => v a * tbm_dfi n m k a l)).
Proof.
  unfold tbm_fi, tbm_dfi. destruct (Nat.eqb l 0).
  { replace (rsum n (fun a => v a * 0)) with 0; [apply (is_derive_const (K:=R_AbsRing) (V:=R_NormedModule))|]. symmetry. apply (nsum_zero Rs). intros; simpl; ring. }
  set (r := tbm_nb m l). destruct (Nat.ltb l (length (tnb m))).
  - apply (is_derive_ext (fun t => cos (2 * PI * (dot n k r + t * dot n v r)) - 1)); [intro t; unfold along; rewrite dot_line; reflexivity|].
    rewrite (rsum_lin n (- (2 * PI * sin (2 * PI * dot n k r))) _ (fun a => v a * r a)) by (intros; simpl; ring). fold (dot n v r).
    auto_derive; [exact I|]. replace (dot n k r + 0 * dot n v r) with (dot n k r) by ring. ring.
  - apply (is_derive_ext (fun t => sin (2 * PI * (dot n k r + t * dot n v r)))); [intro t; unfold along; rewrite dot_line; reflexivity|].
    rewrite (rsum_lin n (2 * PI * cos (2 * PI * dot n k r)) _ (fun a => v a * r a)) by (intros; simpl; ring). fold (dot n v r).
    auto_derive; [exact I|]. replace (dot n k r + 0 * dot n v r) with (dot n k r) by ring. ring.
Qed.
Lemma dfi_deriv n m k v b l : is_derive (fun t => tbm_dfi n m (along k v t) b l) 0 (rsum n (fun a => v a * tbm_ddfi n m k a b l)).
Proof.
  unfold tbm_dfi, tbm_ddfi. destruct (Nat.eqb l 0).
  { replace (rsum n (fun a => v a * 0)) with 0; [apply (is_derive_const (K:=R_AbsRing) (V:=R_NormedModule))|]. symmetry. apply (nsum_zero Rs). intros; simpl; ring. }
  set (r := tbm_nb m l). destruct (Nat.ltb l (length (tnb m))).
  - apply (is_derive_ext (fun t => 0 - 2 * PI * sin (2 * PI * (dot n k r + t * dot n v r)) * r b)); [intro t; unfold along; rewrite dot_line; reflexivity|].
    rewrite (rsum_lin n (- (cos (2 * PI * dot n k r) * (2 * PI * (2 * PI)) * r b)) _ (fun a => v a * r a)) by (intros; simpl; ring). fold (dot n v r).
    auto_derive; [exact I|]. replace (dot n k r + 0 * dot n v r) with (dot n k r) by ring. ring.
  - apply (is_derive_ext (fun t => 0 + 2 * PI * cos (2 * PI * (dot n k r + t * dot n v r)) * r b)); [intro t; unfold along; rewrite dot_line; reflexivity|].
    rewrite (rsum_lin n (- (sin (2 * PI * dot n k r) * (2 * PI * (2 * PI)) * r b)) _ (fun a => v a * r a)) by (intros; simpl; ring). fold (dot n v r).
    auto_derive; [exact I|]. replace (dot n k r + 0 * dot n v r) with (dot n k r) by ring. ring.
Qed.
Theorem C107_gradient : forall n d m k v, mat_deriv d (tbm_f n m) k v (contract n v (tbm_df n m k)).
Proof.
  intros n d m k v i j _ _. unfold tbm_df. rewrite psum_contract. apply (psum_deriv (fun t => tbm_fi n m (fun a => k a + t * v a))).
  intros l _. apply fi_deriv.
Qed.
Theorem C107_hessian : forall n d m k v b, mat_deriv d (fun q => tbm_df n m q b) k v (contract n v (fun a => tbm_ddf n m k a b)).
Proof.
  intros n d m k v b i j _ _. unfold tbm_ddf. rewrite (psum_contract n v (fun a => tbm_ddfi n m k a b)).
  apply (psum_deriv (fun t => tbm_dfi n m (fun a => k a + t * v a) b)). intros l _. apply dfi_deriv.
Qed.
Lemma psum_herm d c P : (forall p, In p P -> hermitian d p) -> hermitian d (psum c P).
Proof.
  intros H i j Hi Hj. rewrite !psum_entry. etransitivity; [|symmetry; apply (ksum_conj Cs)]. apply (ksum_ext Cs). intros l Hl. apply in_seq in Hl.
  rewrite (H (nth l P fzero)) by (try assumption; apply nth_In; lia). simpl. apply cplx_eq; simpl; ring.
Qed.
Theorem C107_hermitian : forall n d m k, (forall p, In p (tparams m) -> hermitian d p) -> hermitian d (tbm_f n m k).
Proof. intros n d m k H. apply psum_herm. exact H. Qed.
(** params[0] is the matrix at k = 0 *)
Theorem C107_gamma : forall n m k i j, (forall a, (a < n)%nat -> k a = 0) -> tbm_f n m k i j = nth 0 (tparams m) fzero i j.
Proof.
  intros n m k i j Hk. unfold tbm_f. rewrite psum_entry. destruct (tparams m) as [|p P]; [reflexivity|]. cbn [length seq ksum nth].
  etransitivity; [apply f_equal2; [reflexivity|apply (ksum_zero Cs)]|].
  - intros l Hl. apply in_seq in Hl. unfold tbm_fi. destruct l as [|l]; [lia|]. cbn [Nat.eqb].
    assert (D : dot n k (tbm_nb m (S l)) = 0). { unfold dot. apply (nsum_zero Rs). intros a Ha. rewrite Hk by exact Ha. simpl. ring. }
    rewrite D, Rmult_0_r, cos_0, sin_0. destruct (Nat.ltb _ _); apply cplx_eq; simpl; ring.
  - unfold tbm_fi. cbn [Nat.eqb]. apply cplx_eq; simpl; ring.
Qed.
Lemma trig_int t z : cos (2 * PI * (t + IZR z)) = cos (2 * PI * t) /\ sin (2 * PI * (t + IZR z)) = sin (2 * PI * t).
Proof.
  destruct (Z_le_gt_dec 0 z) as [H|H].
  - rewrite <- (Z2Nat.id z H), <- INR_IZR_INZ. replace (2 * PI * (t + INR (Z.to_nat z))) with (2 * PI * t + 2 * INR (Z.to_nat z) * PI) by ring.
    split; [apply cos_period|apply sin_period].
  - assert (Hz : (0 <= - z)%Z) by lia. assert (E : IZR z = - INR (Z.to_nat (- z))) by (rewrite INR_IZR_INZ, Z2Nat.id, opp_IZR by exact Hz; ring). rewrite E.
    replace (2 * PI * t) with (2 * PI * (t + - INR (Z.to_nat (- z))) + 2 * INR (Z.to_nat (- z)) * PI) by ring.
    split; symmetry; [apply cos_period|apply sin_period].
Qed.
Theorem C107_periodic : forall n m k G i j, (forall a, (a < n)%nat -> exists z, G a = IZR z) ->
  (forall r a, In r (tnb m) -> (a < n)%nat -> exists z, r a = IZR z) -> tbm_f n m (fun a => k a + G a) i j = tbm_f n m k i j.
Proof.
  intros n m k G i j HG HR. unfold tbm_f. rewrite !psum_entry. apply (ksum_ext Cs). intros l _. f_equal. f_equal. unfold tbm_fi.
  destruct (Nat.eqb l 0); [reflexivity|]. assert (Z : exists z, dot n G (tbm_nb m l) = IZR z).
  { apply dot_int; [exact HG|]. intros a Ha. unfold tbm_nb, nb. set (q := (_ + _)%nat). destruct (nth_in_or_default q (tnb m) (fun _ : nat => 0)) as [I| ->]; [apply HR; assumption|exists 0%Z; reflexivity]. }
  destruct Z as [z Ez]. rewrite dot_add_l, Ez. destruct (trig_int (dot n k (tbm_nb m l)) z) as [-> ->]. reflexivity.
Qed.
(** gradients and Hessians of the bands *)
Theorem C107_bands_grad : forall eigh d n m k v i e, let r := tbm_bands_grad eigh d n m k in
  (forall p, In p (tparams m) -> hermitian d p) -> eigenbasis d (tbm_f n m k) (fid (K:=Cs)) (eigh (tbm_f n m k)) ->
  (i < d)%nat -> simple d (fst r) i -> band d (fun t => tbm_f n m (along k v t)) (fun _ => fid (K:=Cs)) e -> e 0 = fst r i ->
  is_derive e 0 (rsum n (fun a => v a * snd r a i)).
Proof.
  intros eigh d n m k v i e r Hh B Hi Hs Hb He. unfold r, tbm_bands_grad in *.
  destruct (eigh_grad eigh d (tbm_f n m k) (tbm_df n m k)) as [[la g] V] eqn:E.
  pose proof E as E'. unfold eigh_grad in E'. destruct (eigh (tbm_f n m k)) as [la' V'] eqn:EE. injection E' as <- <- <-. cbn [fst snd] in *.
  refine (C100_eigh_grad eigh d n i (tbm_f n m) (tbm_df n m k) k v e _ _ _ E _ (C107_hermitian n d m k Hh) Hi Hs (C107_gradient n d m k v) Hb He).
  rewrite EE. exact B.
Qed.
Theorem C107_bands_grad_hess : forall eigh d n m k v i e la g hs, tbm_bands_grad_hess eigh d n m k = (la, g, hs) ->
  (forall p, In p (tparams m) -> hermitian d p) -> eigenbasis d (tbm_f n m k) (fid (K:=Cs)) (eigh (tbm_f n m k)) ->
  (i < d)%nat -> simple d la i -> band d (fun t => tbm_f n m (along k v t)) (fun _ => fid (K:=Cs)) e -> e 0 = la i ->
  is_lim (fun t => (e t - e 0 - t * rsum n (fun a => v a * g a i)) / (t * t)) 0 (1 / 2 * ddir n v (fun a c => hs a c i)).
Proof.
  intros eigh d n m k v i e la g hs E Hh B Hi Hs Hb He.
  apply (C101_perturbation_sum d n (tbm_f n m) (tbm_df n m) (tbm_ddf n m k) (fid (K:=Cs)) (eigh (tbm_f n m k)) k v i e la g hs E
    (C107_hermitian n d m k Hh) (hermitian_id d) B Hi Hs (fun y => C107_gradient n d m y v) (fun b _ => C107_hessian n d m k v b) Hb He).
Qed.
(** f(k) = 2 (cos(2 pi k) - 1) + 3 sin(2 pi k) + 1 *)
Definition tch : tbm := MkTbm [rv1 0; rv1 1] [cm (1, 0); cm (2, 0); cm (3, 0)].
Lemma tch_f k i j : tbm_f 1 tch k i j = cre (1 + 2 * (cos (2 * PI * k 0%nat) - 1) + 3 * sin (2 * PI * k 0%nat)).
Proof.
  unfold tbm_f. rewrite psum_entry. cbn [tparams tch length seq ksum nth]. unfold tbm_fi, tbm_nb, nb. cbn [tnb tch length Nat.eqb Nat.ltb Nat.leb].
  change (1 mod 2 + 1 / 2)%nat with 1%nat. change (2 mod 2 + 2 / 2)%nat with 1%nat. cbn [nth]. rewrite dot1. unfold rv1, cm. rewrite Rmult_1_r. apply cplx_eq; simpl; ring.
Qed.
Example C107_example : (forall p, In p (tparams tch) -> hermitian 1 p) /\ tbm_f 1 tch (rv1 (1 / 4)) 0%nat 0%nat = (2, 0) /\ tbm_df 1 tch (rv1 0) 0 0%nat 0%nat = (6 * PI, 0) /\
  band 1 (fun t => tbm_f 1 tch (along (rv1 0) vx t)) (fun _ => fid (K:=Cs)) (fun t => 1 + 2 * (cos (2 * PI * t) - 1) + 3 * sin (2 * PI * t)).
Proof.
  split; [|split; [|split; [|split]]].
  - intros p [<-|[<-|[<-|[]]]] i j _ _; unfold cm; apply cplx_eq; simpl; ring.
  - rewrite tch_f. unfold rv1. replace (2 * PI * (1 / 4)) with (PI / 2) by field. rewrite cos_PI2, sin_PI2. apply cplx_eq; simpl; ring.
  - unfold tbm_df. rewrite psum_entry. cbn [tparams tch length seq ksum nth]. unfold tbm_dfi, tbm_nb, nb. cbn [tnb tch length Nat.eqb Nat.ltb Nat.leb].
    change (1 mod 2 + 1 / 2)%nat with 1%nat. change (2 mod 2 + 2 / 2)%nat with 1%nat. cbn [nth]. rewrite dot1. unfold rv1, cm. rewrite Rmult_0_l, Rmult_0_r, sin_0, cos_0.
    apply cplx_eq; simpl; ring.
  - apply derivable_continuous_pt. eexists. apply is_derive_Reals. auto_derive; [exact I|reflexivity].
  - exists (fun _ _ => (1, 0)), 1. split; [lra|]. intros t _. split; [exists 0%nat; split; [lia|intro E; injection E; lra]|].
    intros j Hj. destruct j; [|lia]. rewrite !csum_nsum, !nsum1, tch_f. unfold along, rv1, vx. rewrite Rplus_0_l, Rmult_1_r. unfold fid. cbn [Nat.eqb]. apply cplx_eq; simpl; ring.
Qed.

(** ** C108 *)
Lemma ksum_shift a M (f : nat -> cplx) : csum (seq a M) f = csum (seq 0 M) (fun l => f (a + l)%nat).
Proof.
  revert a. induction M as [|M IH]; intro a; [reflexivity|]. cbn [seq ksum]. rewrite (IH (S a)), Nat.add_0_r. f_equal.
  rewrite <- (seq_shift M 0). rewrite (ksum_map Cs (seq 0 M) S). apply (ksum_ext Cs). intros l _. f_equal. lia.
Qed.
Lemma ksum_nth {A} (t : list A) (d : A) (f : A -> cplx) : csum t f = csum (seq 0 (length t)) (fun l => f (nth l t d)).
Proof.
  induction t as [|x t IH]; [reflexivity|]. cbn [length seq ksum nth]. f_equal. rewrite IH, <- seq_shift, (ksum_map Cs (seq 0 (length t)) S). reflexivity.
Qed.
(** f of the model set from the hoppings is the hermitian part of H_0 plus H_r e^(i t) + H_r^+ e^(-i t) *)
Definition bloch (n : nat) (nbs : list rvec) (H : list cmat) (k : rvec) (i j : nat) : cplx :=
  cadd (hermitian_part (nth 0 H fzero) i j)
       (csum (seq 0 (length H - 1)) (fun l => let w := cexp (2 * PI * dot n k (nb nbs (S l))) in
          cadd (cmul w (nth (S l) H fzero i j)) (cmul (cconj w) (cconj (nth (S l) H fzero j i))))).
Definition dbl (h : cmat) : cmat := fscale (K:=Cs) (cre 2) (fscale (K:=Cs) chalf h).
Lemma sfc_params m h0 t : tparams (set_from_complex m (h0 :: t)) =
  fadd (K:=Cs) (fscale (K:=Cs) chalf (fadd (K:=Cs) h0 (fadj (K:=Cs) h0)))
    (fscale (K:=Cs) (cre 2) (fsum (K:=Cs) (map (fun h => fscale (K:=Cs) chalf (fadd (K:=Cs) h (fadj (K:=Cs) h))) t) (fun x => x)))
  :: map (fun h => dbl (fadd (K:=Cs) h (fadj (K:=Cs) h))) t ++ map (fun h => dbl (fscale (K:=Cs) ci (fadd (K:=Cs) h (fneg (fadj (K:=Cs) h))))) t.
Proof.
  unfold set_from_complex. cbn [length map app tl add_first tparams]. rewrite Nat.sub_succ, Nat.sub_0_r. f_equal.
  - f_equal. f_equal. f_equal. rewrite map_app, firstn_app, !map_length, Nat.sub_diag. cbn [firstn]. rewrite app_nil_r.
    rewrite map_map. rewrite firstn_all2 by (rewrite map_length; lia). reflexivity.
  - rewrite !map_app, !map_map. reflexivity.
Qed.
Lemma nth_map_in {A B} (f : A -> B) (l : list A) i (d : B) (d' : A) : (i < length l)%nat -> nth i (map f l) d = f (nth i l d').
Proof. intro H. rewrite (nth_indep _ d (f d')) by (rewrite map_length; exact H). apply map_nth. Qed.
Theorem C108_set_from_complex : forall n m H k i j, length H = length (tnb m) -> H <> [] ->
  tbm_f n (set_from_complex m H) k i j = bloch n (tnb m) H k i j.
Proof.
  intros n m H k i j HL Hne. destruct H as [|h0 t]; [congruence|]. unfold tbm_f. rewrite psum_entry, sfc_params. cbn [length]. rewrite app_length, !map_length.
  cbn [length] in HL. set (M := length t) in *. unfold bloch. cbn [length nth]. rewrite Nat.sub_succ, Nat.sub_0_r. fold M.
  cbn [seq ksum nth]. rewrite seq_app. rewrite (ksum_app Cs). rewrite (ksum_shift 1 M), (ksum_shift (1 + M) M).
  assert (T : tnb (set_from_complex m (h0 :: t)) = tnb m) by reflexivity.
  assert (C1 : csum (seq 0 M) (fun l => cmul (cre (tbm_fi n (set_from_complex m (h0 :: t)) k (1 + l)))
     (nth (1 + l) (fadd (K:=Cs) (fscale (K:=Cs) chalf (fadd (K:=Cs) h0 (fadj (K:=Cs) h0)))
    (fscale (K:=Cs) (cre 2) (fsum (K:=Cs) (map (fun h => fscale (K:=Cs) chalf (fadd (K:=Cs) h (fadj (K:=Cs) h))) t) (fun x => x)))
  :: map (fun h => dbl (fadd (K:=Cs) h (fadj (K:=Cs) h))) t ++ map (fun h => dbl (fscale (K:=Cs) ci (fadd (K:=Cs) h (fneg (fadj (K:=Cs) h))))) t) fzero i j)) =
   csum (seq 0 M) (fun l => cmul (cre (cos (2 * PI * dot n k (nb (tnb m) (S l))) - 1)) (cadd (nth l t fzero i j) (cconj (nth l t fzero j i))))).
  { apply (ksum_ext Cs). intros l Hl. apply in_seq in Hl. cbn [Nat.add nth]. rewrite app_nth1 by (rewrite map_length; fold M; lia).
    rewrite (nth_map_in _ _ _ _ fzero) by (fold M; lia). unfold tbm_fi, tbm_nb. rewrite T, <- HL. cbn [Nat.eqb].
    rewrite (Nat.mod_small (S l)) by lia. rewrite (Nat.div_small (S l)) by lia. rewrite Nat.add_0_r. rewrite (proj2 (Nat.ltb_lt (S l) (S M))) by lia.
    unfold dbl, chalf, fscale, fadd, fadj. apply cplx_eq; simpl; field. }
  assert (C2 : csum (seq 0 M) (fun l => cmul (cre (tbm_fi n (set_from_complex m (h0 :: t)) k (1 + M + l)))
     (nth (1 + M + l) (fadd (K:=Cs) (fscale (K:=Cs) chalf (fadd (K:=Cs) h0 (fadj (K:=Cs) h0)))
    (fscale (K:=Cs) (cre 2) (fsum (K:=Cs) (map (fun h => fscale (K:=Cs) chalf (fadd (K:=Cs) h (fadj (K:=Cs) h))) t) (fun x => x)))
  :: map (fun h => dbl (fadd (K:=Cs) h (fadj (K:=Cs) h))) t ++ map (fun h => dbl (fscale (K:=Cs) ci (fadd (K:=Cs) h (fneg (fadj (K:=Cs) h))))) t) fzero i j)) =
   csum (seq 0 M) (fun l => cmul (cre (sin (2 * PI * dot n k (nb (tnb m) (S l))))) (cmul ci (csub (nth l t fzero i j) (cconj (nth l t fzero j i)))))).
  { apply (ksum_ext Cs). intros l Hl. apply in_seq in Hl. cbn [Nat.add nth]. rewrite app_nth2 by (rewrite map_length; fold M; lia). rewrite map_length. fold M.
    replace (M + l - M)%nat with l by lia. rewrite (nth_map_in _ _ _ _ fzero) by (fold M; lia). unfold tbm_fi, tbm_nb. rewrite T, <- HL. cbn [Nat.eqb].
    replace (S (M + l)) with (l + 1 * S M)%nat by lia. rewrite Nat.mod_add by lia. rewrite Nat.div_add by lia. rewrite (Nat.mod_small l) by lia. rewrite (Nat.div_small l) by lia.
    rewrite (proj2 (Nat.ltb_ge (l + 1 * S M) (S M))) by lia. replace (l + (0 + 1))%nat with (S l) by lia.
    unfold dbl, chalf, fneg, fscale, fadd, fadj, ci. apply cplx_eq; simpl; field. }
  etransitivity; [apply f_equal2; [reflexivity|apply f_equal2; [exact C1|exact C2]]|]. clear C1 C2.
  assert (C0 : fsum (K:=Cs) (map (fun h => fscale (K:=Cs) chalf (fadd (K:=Cs) h (fadj (K:=Cs) h))) t) (fun x => x) i j =
     csum (seq 0 M) (fun l => cmul chalf (cadd (nth l t fzero i j) (cconj (nth l t fzero j i))))).
  { unfold fsum. rewrite (ksum_map Cs t). rewrite (ksum_nth t fzero). reflexivity. }
  transitivity (cadd (hermitian_part h0 i j) (cadd (csum (seq 0 M) (fun l => cmul (cre 2) (cmul chalf (cadd (nth l t fzero i j) (cconj (nth l t fzero j i))))))
    (cadd (csum (seq 0 M) (fun l => cmul (cre (cos (2 * PI * dot n k (nb (tnb m) (S l))) - 1)) (cadd (nth l t fzero i j) (cconj (nth l t fzero j i)))))
          (csum (seq 0 M) (fun l => cmul (cre (sin (2 * PI * dot n k (nb (tnb m) (S l))))) (cmul ci (csub (nth l t fzero i j) (cconj (nth l t fzero j i))))))))).
  - assert (X : csum (seq 0 M) (fun l => cmul (cre 2) (cmul chalf (cadd (nth l t fzero i j) (cconj (nth l t fzero j i))))) =
       cmul (cre 2) (csum (seq 0 M) (fun l => cmul chalf (cadd (nth l t fzero i j) (cconj (nth l t fzero j i)))))) by apply (ksum_mul_l Cs).
    rewrite X, <- C0. set (F := fsum _ _). unfold tbm_fi. cbn [Nat.eqb]. unfold fadd, fscale, hermitian_part, fadj, chalf. cbn [sadd smul sconj Cs].
    set (a := csum _ _). set (b := csum _ _). apply cplx_eq; simpl; ring.
  - f_equal. assert (A2 : forall f g, cadd (csum (seq 0 M) f) (csum (seq 0 M) g) = csum (seq 0 M) (fun l => cadd (f l) (g l))) by (intros; symmetry; apply (ksum_add Cs)).
    rewrite !A2. apply (ksum_ext Cs). intros l _. unfold cexp, chalf, ci. apply cplx_eq; simpl; field.
Qed.
(** ... which is f of the asymmetric model with the same hoppings *)
Theorem C108_same_as_asym : forall n d m H k i j, length H = length (tnb m) -> H <> [] -> hermitian d (nth 0 H fzero) -> (i < d)%nat -> (j < d)%nat ->
  (forall a, (a < n)%nat -> nb (tnb m) 0 a = 0) -> tbm_f n (set_from_complex m H) k i j = fs_f n (MkHfs (tnb m) H) k i j.
Proof.
  intros n d m H k i j HL Hne Hh Hi Hj H0. rewrite C108_set_from_complex by assumption. unfold fs_f. cbn [hnb hH]. rewrite herm_entry. unfold bloch.
  rewrite (ksum_shift 1), (ksum_shift 1). cbn [Nat.add].
  assert (A2 : forall f g, cadd (csum (seq 0 (length H - 1)) f) (csum (seq 0 (length H - 1)) g) = csum (seq 0 (length H - 1)) (fun l => cadd (f l) (g l))) by (intros; symmetry; apply (ksum_add Cs)).
  rewrite A2. unfold fs_coef at 3. rewrite (dot_zero_r n k (nb (tnb m) 0) H0), Rmult_0_r, cexp_0. unfold hermitian_part. rewrite <- (Hh i j Hi Hj).
  match goal with |- cadd ?a ?b = cadd ?c ?e => change c with b; set (z := b) end. apply cplx_eq; simpl; field.
Qed.
Example C108_example : let m := set_from_complex (MkTbm [rv1 0; rv1 1] []) [cm (1, 0); cm (0, 1)] in
  tbm_f 1 m (rv1 (1 / 4)) 0%nat 0%nat = (-1, 0) /\ length (tparams m) = 3%nat.
Proof.
  cbv zeta. split; [|reflexivity]. rewrite C108_set_from_complex by (try reflexivity; discriminate). unfold bloch. cbn [length Nat.sub seq ksum nth nb tnb].
  unfold hermitian_part, nb. cbn [nth]. rewrite dot1. unfold rv1, cm. rewrite Rmult_1_r. replace (2 * PI * (1 / 4)) with (PI / 2) by field. unfold cexp. rewrite cos_PI2, sin_PI2.
  apply cplx_eq; simpl; field.
Qed.

(** ** C109 *)
Theorem C109_raises : forall m, (3 <= length (tnb m))%nat -> length (tparams m) = (2 * length (tnb m) - 1)%nat -> tbm_params_complex m = None.
Proof.
  intros m H1 H2. unfold tbm_params_complex. set (N := length (tnb m)) in *. rewrite H2. replace (2 * N - 1 + 1)%nat with (N * 2)%nat by lia. rewrite Nat.div_mul by lia.
  set (y := map (fscale (K:=Cs) ci) (skipn N (map (fscale (K:=Cs) chalf) (tparams m)))).
  assert (Y : length y = (N - 1)%nat) by (unfold y; rewrite map_length, skipn_length, map_length, H2; lia).
  assert (X : length (tl (map (fscale (K:=Cs) chalf) (tparams m))) = (2 * N - 2)%nat).
  { destruct (tparams m) as [|p P]; cbn [length map tl] in *; [lia|rewrite map_length; lia]. }
  destruct y as [|y0 [|y1 ys]]; cbn [length] in Y; [lia|lia|]. rewrite (proj2 (Nat.eqb_neq _ _)); [reflexivity|]. rewrite X. cbn [length]. lia.
Qed.
(** one neighbor pair: what comes back is half the matrix at k = 0 and the conjugate transpose of the hopping *)
Theorem C109_two : forall m h0 h1, exists x y, tbm_params_complex (set_from_complex m [h0; h1]) = Some [x; y] /\
  forall i j, y i j = cconj (h1 j i) /\ x i j = cmul (cre (1 / 2)) (cadd (hermitian_part h0 i j) (cadd (h1 i j) (cconj (h1 j i)))).
Proof.
  intros m h0 h1. unfold tbm_params_complex. rewrite sfc_params. cbn [map app length]. change ((3 + 1) / 2)%nat with 2%nat. cbn [tl skipn map firstn app].
  eexists. eexists. split; [reflexivity|]. intros i j. unfold dbl, hermitian_part, chalf, ci, fneg, fscale, fadd, fadj, fsum. cbn [ksum]. split; apply cplx_eq; simpl; field.
Qed.
(** params_complex does not undo set_from_complex, for one and for two neighbor pairs *)
Theorem C109_roundtrip_refuted :
  (exists m H P, length H = length (tnb m) /\ hermitian 1 (nth 0 H fzero) /\ tbm_params_complex (set_from_complex m H) = Some P /\ ~ feq (K:=Cs) 1 1 (nth 1 P fzero) (nth 1 H fzero)) /\
  (exists m H, length H = length (tnb m) /\ hermitian 1 (nth 0 H fzero) /\ tbm_params_complex (set_from_complex m H) = None).
Proof.
  assert (Hh : hermitian 1 (cm (1, 0))) by (intros i j _ _; unfold cm; apply cplx_eq; simpl; ring).
  split.
  - destruct (C109_two (MkTbm [rv1 0; rv1 1] []) (cm (1, 0)) (cm (0, 1))) as (x & y & E & F).
    exists (MkTbm [rv1 0; rv1 1] []), [cm (1, 0); cm (0, 1)], [x; y]. split; [reflexivity|]. split; [exact Hh|]. split; [exact E|].
    intro Q. specialize (Q 0%nat 0%nat Nat.lt_0_1 Nat.lt_0_1). cbn [nth] in Q. rewrite (proj1 (F 0%nat 0%nat)) in Q. unfold cm in Q. injection Q. simpl. lra.
  - exists (MkTbm [rv1 0; rv1 1; rv1 2] []), [cm (1, 0); cm (0, 1); cm (1, 0)]. split; [reflexivity|]. split; [exact Hh|]. apply C109_raises; cbn; lia.
Qed.

(** ** C110 *)
(** the model after one iteration of optimize with the single sample [k] *)
Definition opt1 (eigh : cmat -> eigsys) (d n : nat) (off ne : nat) (w ref : nat -> R) (lr : R) (tk : bool) (m : tbm) (last : list cmat) (k : rvec) : tbm :=
  MkTbm (tnb m) (fst (opt_step eigh d 1 (fun _ => tbm_fi n m k) off ne w (fun _ => ref) lr tk (tparams m) last)).
(** sum of the squares of the coefficients *)
Definition csq (np : nat) (c : nat -> R) : R := rsum np (fun i => c i * c i).
Lemma csq_pos np c : (0 < np)%nat -> c 0%nat = 1 -> 1 <= csq np c.
Proof.
  intros H H0. unfold csq. induction np as [|np IH]; [lia|]. rewrite (nsum_S Rs). destruct np as [|np].
  - unfold nsum. simpl. rewrite H0. lra.
  - specialize (IH (Nat.lt_0_succ np)). change (@sadd Rs) with Rplus. pose proof (Rle_0_sqr (c (S np))). unfold Rsqr in *. lra.
Qed.
Lemma opt_sc_one np c : csq np c <> 0 -> opt_sc 1 np c = / csq np c.
Proof.
  intro H. unfold opt_sc. assert (E : rsum np (fun i => c i * c i + c i * c i) = 2 * csq np c).
  { unfold csq. transitivity (rsum np (fun i => 2 * (c i * c i))); [apply (nsum_ext Rs); intros; simpl; ring|apply (nsum_mul_l Rs)]. }
  rewrite E. simpl (INR 1). field. exact H.
Qed.
Lemma combine_nth_P {A B} (P : list A) (g : nat -> B) l (dP : A) (dB : B) : (l < length P)%nat -> nth l (combine P (map g (seq 0 (length P)))) (dP, dB) = (nth l P dP, g l).
Proof.
  intro H. rewrite combine_nth by (rewrite map_length, seq_length; reflexivity). f_equal.
  rewrite (nth_map_in g (seq 0 (length P)) l dB 0%nat) by (rewrite seq_length; exact H). rewrite seq_nth by exact H. reflexivity.
Qed.
Ltac toR := match goal with |- ?a = ?b => change (@eq R a b) end.
(** the part of the squares that is trained *)
Definition csq_tr (tk : bool) (np : nat) (c : nat -> R) : R := if tk then csq np c else csq np c - c 0%nat * c 0%nat.
Lemma opt_step_one eigh d (c : nat -> R) off ne w ref lr tk P last i j : (0 < length P)%nat -> csq (length P) c <> 0 ->
  psum c (fst (opt_step eigh d 1 (fun _ => c) off ne w (fun _ => ref) lr tk P last)) i j =
  cadd (psum c P i j) (cmul (cre (lr * (csq_tr tk (length P) c / (csq (length P) c * csq (length P) c)))) (opt_diff d (eigh (psum c P)) off ne w ref i j)).
Proof.
  intros HP HS. unfold opt_step. cbn [fst]. set (D := opt_diff d (eigh (psum c P)) off ne w ref). rewrite psum_entry.
  set (np := length P) in *. set (g := fun i0 : nat => fadd (K:=Cs) _ _). rewrite map_length, combine_length, map_length, seq_length. fold np. rewrite Nat.min_id.
  set (s := opt_sc 1 np c).
  transitivity (csum (seq 0 np) (fun l => cadd (cmul (cre (c l)) (nth l P fzero i j)) (cmul (cre (lr * (c l * (if negb tk && Nat.eqb l 0 then 0 else c l * s * s)))) (D i j)))).
  - apply (ksum_ext Cs). intros l Hl. apply in_seq in Hl.
    rewrite (nth_map_in _ _ l fzero (fzero, fzero)) by (rewrite combine_length, map_length, seq_length; fold np; rewrite Nat.min_id; lia).
    rewrite (combine_nth_P P g l) by (fold np; lia). cbn [fst snd]. unfold g, fadd. fold s. destruct (negb tk && Nat.eqb l 0);
      unfold fzero, fscale, fsum; cbn [seq ksum]; simpl (INR 1); apply cplx_eq; simpl; field.
  - etransitivity; [apply (ksum_add Cs)|]. apply f_equal2; [reflexivity|]. etransitivity; [apply (ksum_mul_r Cs)|]. apply f_equal2; [|reflexivity].
    change (nsum (K:=Cs) np (fun l => cre (lr * (c l * (if negb tk && Nat.eqb l 0 then 0 else c l * s * s)))) = cre (lr * (csq_tr tk np c / (csq np c * csq np c)))).
    rewrite <- cre_ksum. f_equal.
    transitivity (lr * rsum np (fun l => c l * (if negb tk && Nat.eqb l 0 then 0 else c l * s * s))); [apply (nsum_mul_l Rs)|]. f_equal.
    unfold s. rewrite (opt_sc_one np c HS). set (S0 := csq np c) in *.
    transitivity (/ S0 * / S0 * csq_tr tk np c); [|toR; field; exact HS]. unfold csq_tr. fold S0. unfold S0 at 5 6, csq.
    destruct tk; cbn [negb andb].
    + etransitivity; [|apply (nsum_mul_l Rs)]. apply (nsum_ext Rs). intros l _. simpl. ring.
    + clearbody S0. clear -HP. clearbody np. destruct np as [|np']; [lia|]. clear HP. induction np' as [|q IH]; [unfold nsum; simpl; ring|].
      rewrite (nsum_S Rs). etransitivity; [apply f_equal2; [exact IH|reflexivity]|]. rewrite (nsum_S Rs (S q)). cbn [Nat.eqb]. simpl. ring.
Qed.
Lemma opt_diff_col d la V off ne w ref j k : eigenbasis d (fun _ _ => (0,0)) (fid (K:=Cs)) (fun _ => 0, V) -> (off + ne <= d)%nat -> (j < d)%nat -> (k < d)%nat ->
  nsum (K:=Cs) d (fun x => cmul (opt_diff d (la, V) off ne w ref j x) (V x k)) =
  cmul (cre (if Nat.leb off k && Nat.ltb k (off + ne) then (ref (k - off)%nat - la k) * w (k - off)%nat else 0)) (V j k).
Proof.
  intros (_ & B & _) Hw Hj Hk. cbn [snd] in B.
  assert (O : forall a, (a < d)%nat -> nsum (K:=Cs) d (fun x => cmul (cconj (V x a)) (V x k)) = if Nat.eqb a k then (1, 0) else (0, 0)).
  { intros a Ha. specialize (B a k Ha Hk). unfold fid at 2 in B. etransitivity; [|exact B]. clear B. unfold fmul at 1. apply (nsum_ext Cs). intros x Hx. refine (f_equal2 cmul _ eq_refl).
    unfold fmul. symmetry. etransitivity; [|exact (nsum_delta Cs d x (fun p => fadj (K:=Cs) V a p) Hx)]. apply (nsum_ext Cs). intros p _. unfold fid. destruct (Nat.eqb p x); simpl; apply cplx_eq; simpl; ring. }
  unfold opt_diff.
  transitivity (nsum (K:=Cs) ne (fun a => cmul (cmul (V j (off + a)%nat) (cre ((ref a - la (off + a)%nat) * w a))) (nsum (K:=Cs) d (fun x => cmul (cconj (V x (off + a)%nat)) (V x k))))).
  { transitivity (nsum (K:=Cs) d (fun x => nsum (K:=Cs) ne (fun a => cmul (cmul (V j (off + a)%nat) (cre ((ref a - la (off + a)%nat) * w a))) (cmul (cconj (V x (off + a)%nat)) (V x k))))).
    - apply (nsum_ext Cs). intros x _. etransitivity; [symmetry; apply (nsum_mul_r Cs)|]. apply (nsum_ext Cs). intros a _. apply cplx_eq; simpl; ring.
    - etransitivity; [apply (nsum_swap Cs)|]. apply (nsum_ext Cs). intros a _. apply (nsum_mul_l Cs). }
  destruct (Nat.leb off k && Nat.ltb k (off + ne)) eqn:W.
  - apply andb_true_iff in W. destruct W as [W1 W2]. apply Nat.leb_le in W1. apply Nat.ltb_lt in W2.
    etransitivity; [|etransitivity; [exact (nsum_delta Cs ne (k - off) (fun a => cmul (V j (off + a)%nat) (cre ((ref a - la (off + a)%nat) * w a))) ltac:(lia))|]].
    + apply (nsum_ext Cs). intros a Ha. rewrite O by lia. destruct (Nat.eqb a (k - off)) eqn:E.
      * apply Nat.eqb_eq in E. rewrite (proj2 (Nat.eqb_eq (off + a) k)) by lia. apply cplx_eq; simpl; ring.
      * apply Nat.eqb_neq in E. rewrite (proj2 (Nat.eqb_neq (off + a) k)) by lia. apply cplx_eq; simpl; ring.
    + cbv beta. replace (off + (k - off))%nat with k by lia. apply cplx_eq; simpl; ring.
  - etransitivity; [apply (nsum_zero Cs)|apply cplx_eq; simpl; ring]. intros a Ha. rewrite O by lia. rewrite (proj2 (Nat.eqb_neq (off + a) k)); [apply cplx_eq; simpl; ring|].
    intro E. apply andb_false_iff in W. destruct W as [W|W]; [apply Nat.leb_gt in W; lia|apply Nat.ltb_ge in W; lia].
Qed.
(** one step with one sample keeps the eigenvectors at k and moves the energies of the window by the fraction
    lr w_j s / S^2 of the way to the reference; S is the sum of the squared coefficients, s the trained part of it *)
Theorem C110_one_sample : forall eigh d n m off ne w ref lr tk last k la V, let np := length (tparams m) in let c := tbm_fi n m k in
  (0 < np)%nat -> (off + ne <= d)%nat -> eigh (tbm_f n m k) = (la, V) -> eigenbasis d (tbm_f n m k) (fid (K:=Cs)) (la, V) ->
  eigenbasis d (tbm_f n (opt1 eigh d n off ne w ref lr tk m last k) k) (fid (K:=Cs))
    (fun j => la j + (if Nat.leb off j && Nat.ltb j (off + ne) then lr * (csq_tr tk np c / (csq np c * csq np c)) * w (j - off)%nat * (ref (j - off)%nat - la j) else 0), V).
Proof.
  intros eigh d n m off ne w ref lr tk last k la V np c Hnp Hw E B.
  assert (HS : csq np c <> 0). { pose proof (csq_pos np c Hnp eq_refl). lra. }
  assert (F : forall i j, tbm_f n (opt1 eigh d n off ne w ref lr tk m last k) k i j =
    cadd (tbm_f n m k i j) (cmul (cre (lr * (csq_tr tk np c / (csq np c * csq np c)))) (opt_diff d (la, V) off ne w ref i j))).
  { intros i j. rewrite <- E. exact (opt_step_one eigh d c off ne w ref lr tk (tparams m) last i j Hnp HS). }
  destruct B as (B1 & B2 & B3). split; [|split; assumption]. cbn [fst snd] in *. intros j q Hj Hq. specialize (B1 j q Hj Hq). rewrite !csum_nsum in *.
  assert (B' : eigenbasis d (fun _ _ => (0,0)) (fid (K:=Cs)) (fun _ => 0, V)).
  { split; [|split; assumption]. intros a b _ _. cbn [fst]. rewrite !csum_nsum. etransitivity; [apply (nsum_zero Cs); intros; apply cplx_eq; simpl; ring|apply cplx_eq; simpl; ring]. }
  pose proof (opt_diff_col d la V off ne w ref j q B' Hw Hj Hq) as C.
  set (al := lr * _) in *.
  assert (I : nsum (K:=Cs) d (fun x => cmul (fid (K:=Cs) j x) (V x q)) = V j q).
  { etransitivity; [|exact (nsum_delta Cs d j (fun x => V x q) Hj)]. apply (nsum_ext Cs). intros x _. unfold fid. rewrite (Nat.eqb_sym j x). destruct (Nat.eqb x j); simpl; apply cplx_eq; simpl; ring. }
  rewrite I in *.
  transitivity (cadd (nsum (K:=Cs) d (fun x => cmul (tbm_f n m k j x) (V x q))) (cmul (cre al) (nsum (K:=Cs) d (fun x => cmul (opt_diff d (la, V) off ne w ref j x) (V x q))))).
  - change (cmul (cre al)) with (@smul Cs (cre al)). rewrite <- (nsum_mul_l Cs). change cadd with (@sadd Cs). rewrite <- (nsum_add Cs). apply (nsum_ext Cs). intros x _. rewrite F. apply cplx_eq; simpl; ring.
  - rewrite B1, C. destruct (Nat.leb off q && Nat.ltb q (off + ne)); apply cplx_eq; simpl; ring.
Qed.
(** the distance of every band of the window to its reference never grows for a learning rate and weights between 0 and 1 *)
Theorem C110_contracts : forall n m k lr w la ref, let np := length (tparams m) in let c := tbm_fi n m k in (0 < np)%nat -> 0 <= lr <= 1 -> 0 <= w <= 1 ->
  Rabs (ref - (la + lr * (csq_tr true np c / (csq np c * csq np c)) * w * (ref - la))) <= Rabs (ref - la).
Proof.
  intros n m k lr w la ref np c Hnp Hl Hw. pose proof (csq_pos np c Hnp eq_refl) as HS. unfold csq_tr. set (S := csq np c) in *.
  replace (S / (S * S)) with (/ S) by (field; lra). assert (0 < / S <= 1). { split; [apply Rinv_0_lt_compat; lra|rewrite <- Rinv_1; apply Rinv_le_contravar; lra]. }
  replace (ref - (la + lr * / S * w * (ref - la))) with ((1 - lr * / S * w) * (ref - la)) by ring. rewrite Rabs_mult.
  assert (0 <= lr * / S * w <= 1). { assert (0 <= lr * / S <= 1) by nra. nra. }
  rewrite (Rabs_right (1 - lr * / S * w)) by lra. pose proof (Rabs_pos (ref - la)). nra.
Qed.
(** with learning rate 1 the step does not reach the reference: k = 1/4, one neighbor pair, S = 3 *)
Theorem C110_exact_refuted : exists eigh d n m k off ne w ref la V, (0 < length (tparams m))%nat /\ (off + ne <= d)%nat /\ eigh (tbm_f n m k) = (la, V) /\
  eigenbasis d (tbm_f n m k) (fid (K:=Cs)) (la, V) /\ w 0%nat = 1 /\ ref 0%nat = 1 /\ la 0%nat = 0 /\
  tbm_f n (opt1 eigh d n off ne w ref 1 true m [] k) k 0%nat 0%nat = (1 / 3, 0).
Proof.
  set (m := MkTbm [rv1 0; rv1 1] [cm (0, 0); cm (0, 0); cm (0, 0)]). set (eg := fun H : cmat => ((fun _ : nat => fst (H 0%nat 0%nat)), fid (K:=Cs))).
  assert (Z : forall i j, tbm_f 1 m (rv1 (1 / 4)) i j = (0, 0)).
  { intros i j. unfold tbm_f. rewrite psum_entry. cbn [tparams m length seq ksum nth]. unfold cm. apply cplx_eq; simpl; ring. }
  exists eg, 1%nat, 1%nat, m, (rv1 (1 / 4)), 0%nat, 1%nat, (fun _ => 1), (fun _ => 1), (fun _ => 0), (fid (K:=Cs)).
  assert (EG : eg (tbm_f 1 m (rv1 (1 / 4))) = (fun _ => 0, fid (K:=Cs))) by (unfold eg; rewrite Z; reflexivity).
  assert (B : eigenbasis 1 (tbm_f 1 m (rv1 (1 / 4))) (fid (K:=Cs)) (fun _ => 0, fid (K:=Cs))).
  { split; [|split]; intros j k Hj Hk; destruct j, k; try lia.
    - rewrite !csum_nsum, !nsum1. cbn [fst snd]. rewrite Z. apply cplx_eq; simpl; ring.
    - unfold fmul. rewrite nsum1, nsum1. unfold fadj. cbn [snd]. apply cplx_eq; simpl; ring.
    - unfold fmul. rewrite nsum1, nsum1. unfold fadj. cbn [snd]. apply cplx_eq; simpl; ring. }
  split; [cbn; lia|]. split; [lia|]. split; [exact EG|]. split; [exact B|]. split; [reflexivity|]. split; [reflexivity|]. split; [reflexivity|].
  destruct (C110_one_sample eg 1 1 m 0 1 (fun _ => 1) (fun _ => 1) 1 true [] (rv1 (1 / 4)) (fun _ => 0) (fid (K:=Cs)) ltac:(cbn; lia) ltac:(lia) EG B) as (Q & _ & _).
  specialize (Q 0%nat 0%nat Nat.lt_0_1 Nat.lt_0_1). rewrite !csum_nsum, !nsum1 in Q. cbn [fst snd Nat.leb Nat.ltb andb Nat.add] in Q.
  assert (SQ : csq (length (tparams m)) (tbm_fi 1 m (rv1 (1 / 4))) = 3).
  { unfold csq, nsum. cbn [length tparams m seq ksum]. unfold tbm_fi, tbm_nb, nb. cbn [tnb m length Nat.eqb Nat.ltb Nat.leb].
    change (1 mod 2 + 1 / 2)%nat with 1%nat. change (2 mod 2 + 2 / 2)%nat with 1%nat. cbn [nth]. rewrite dot1. unfold rv1.
    replace (2 * PI * (1 / 4 * 1)) with (PI / 2) by field. rewrite cos_PI2, sin_PI2. simpl. ring. }
  unfold csq_tr in Q. rewrite SQ in Q. set (f := tbm_f 1 _ _ 0%nat 0%nat) in *. clearbody f. unfold fid in Q. cbn [Nat.eqb] in Q.
  destruct f as [x y]. cbn in Q. injection Q as Q1 Q2. apply cplx_eq; simpl; lra.
Qed.

Print Assumptions C106_constructor.
Print Assumptions C106_symmetrizer_trivial.
Print Assumptions C106_inversion_refuted.
Print Assumptions C107_gradient.
Print Assumptions C107_hessian.
Print Assumptions C107_hermitian.
Print Assumptions C107_gamma.
Print Assumptions C107_periodic.
Print Assumptions C107_bands_grad.
Print Assumptions C107_bands_grad_hess.
Print Assumptions C108_set_from_complex.
Print Assumptions C108_same_as_asym.
Print Assumptions C109_raises.
Print Assumptions C109_two.
Print Assumptions C109_roundtrip_refuted.
Print Assumptions C110_one_sample.
Print Assumptions C110_contracts.
Print Assumptions C110_exact_refuted.

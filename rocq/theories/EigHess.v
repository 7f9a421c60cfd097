(** Properties C101 and C102: second derivatives of the bands and the sum rules of the derivatives. *)
From Coq Require Import List Arith ZArith Reals Lra Lia Bool Permutation FunctionalExtensionality Setoid Morphisms.
From Coquelicot Require Import Coquelicot.
Import List ListNotations.
From Verif Require Import SRing LMat FMat CplxR UrepModel UrepProofs FourierModel FourierProofs BsmProofs SpecProofs FourierProps EigModel EigProofs EigBase EigProps.
Local Open Scope R_scope.

Lemma Rltb_true x y : Rltb x y = true <-> x < y.
Proof. unfold Rltb. destruct (Rlt_dec x y); split; intro H; try reflexivity; try assumption; [discriminate|contradiction]. Qed.
Lemma Rltb_false x y : Rltb x y = false <-> y <= x.
Proof. unfold Rltb. destruct (Rlt_dec x y); split; intro H; try reflexivity; try lra; try discriminate. Qed.
(** no two eigenvalues are closer than the tolerance *)
Definition separated (d : nat) (la : nat -> R) (eps : R) : Prop :=
  forall k l, (k < d)%nat -> (l < d)%nat -> k <> l -> eps <= Rabs (la k - la l).
Lemma eselect_false d la eps : eselect d la eps = false <-> separated d la eps.
Proof.
  unfold eselect. split.
  - intros H k l Hk Hl Hne.
    assert (Q : forall k l, (k < l < d)%nat -> eps <= Rabs (la k - la l)).
    { clear k l Hk Hl Hne. intros k l Hkl. apply Rltb_false. fold (emask la eps k l).
      destruct (emask la eps k l) eqn:E; [|reflexivity]. exfalso.
      assert (T : existsb (fun k => existsb (fun l => Nat.ltb k l && emask la eps k l) (seq 0 d)) (seq 0 d) = true); [|congruence].
      apply existsb_exists. exists k. split; [apply in_seq; lia|]. apply existsb_exists. exists l. split; [apply in_seq; lia|].
      rewrite E, (proj2 (Nat.ltb_lt k l)) by lia. reflexivity. }
    destruct (Nat.lt_ge_cases k l) as [L|L]; [apply Q; lia|]. rewrite Rabs_minus_sym. apply Q. lia.
  - intro H. destruct (existsb _ _) eqn:E; [|reflexivity]. exfalso. apply existsb_exists in E. destruct E as (k & Hk & E).
    apply existsb_exists in E. destruct E as (l & Hl & E). apply in_seq in Hk. apply in_seq in Hl. apply andb_prop in E. destruct E as [E1 E2].
    apply Nat.ltb_lt in E1. unfold emask in E2. apply (proj1 (Rltb_true _ _)) in E2.
    pose proof (H k l). assert (eps <= Rabs (la k - la l)) by (apply H; lia). lra.
Qed.
Lemma separated_simple d la eps i : 0 < eps -> (i < d)%nat -> separated d la eps -> simple d la i.
Proof.
  intros He Hi H k Hk Hne E. pose proof (H k i Hk Hi Hne) as Q. rewrite E, Rminus_diag_eq, Rabs_R0 in Q by reflexivity. lra.
Qed.

(** the Hessian of band [i] without equal eigenvalues *)
Definition hform (d : nat) (la : nat -> R) (X : nat -> cmat) (h1 : nat -> nat -> R) (i p q : nat) : R :=
  h1 p q - 2 * fst (nsum (K:=Cs) d (fun k => cmul (X p i k) (if Nat.eqb k i then (0,0) else cmul (X q k i) (cre (/ (la k - la i)))))).
Lemma eh_item_hform eigh d eps H dH ddH la g hs i : 0 < eps -> (i < d)%nat ->
  eh_item eigh d eps H dH ddH = (la, g, hs) -> separated d la eps ->
  la = fst (eigh H) /\ (forall p, g p i = eig_diag d (snd (eigh H)) (dH p) i) /\
  forall p q, hs p q i = hform d la (fun p => eig_el d (snd (eigh H)) (dH p)) (fun p q => eig_diag d (snd (eigh H)) (ddH p q) i) i p q.
Proof.
  intros Hep Hi E Hsep. unfold eh_item in E. destruct (eigh H) as [la' V]. cbn [fst snd].
  injection E as E1 E2 E3. subst la'.
  assert (X : eh_els eigh d la V eps dH = fun p => eig_el d V (dH p)).
  { apply functional_extensionality. intro p. unfold eh_els. rewrite (proj2 (eselect_false d la eps) Hsep). reflexivity. }
  rewrite X in *. split; [reflexivity|]. split; [intro p; rewrite <- E2; reflexivity|]. intros p q. rewrite <- E3. unfold hform. f_equal. f_equal. f_equal.
  apply (nsum_ext Cs). intros k Hk. f_equal. destruct (Nat.eqb_spec k i) as [-> |Hne].
  - unfold emask. rewrite Rminus_diag_eq, Rabs_R0 by reflexivity. rewrite (proj2 (Rltb_true 0 eps) Hep). reflexivity.
  - unfold emask. rewrite (proj2 (Rltb_false _ _) (Hsep k i Hk Hi Hne)). reflexivity.
Qed.
Lemma pert_item_hform d r df ddf la g hs i : (i < d)%nat -> pert_item d r df ddf = (la, g, hs) -> simple d la i ->
  la = fst r /\ (forall p, g p i = eig_diag d (snd r) (df p) i) /\
  forall p q, hs p q i = hform d la (fun p => eig_el d (snd r) (df p)) (fun p q => eig_diag d (snd r) (ddf p q) i) i p q.
Proof.
  intros Hi E Hs. unfold pert_item in E. destruct r as [la' V]. cbn [fst snd]. injection E as E1 E2 E3. subst la'.
  split; [reflexivity|]. split; [intro p; rewrite <- E2; reflexivity|]. intros p q. rewrite <- E3. unfold hform. f_equal. f_equal. f_equal.
  apply (nsum_ext Cs). intros k Hk. f_equal. destruct (Nat.eqb_spec k i) as [-> |Hne]; [reflexivity|].
  unfold pert_div. destruct (Req_EM_T (la k - la i) 0) as [Ez|]; [|reflexivity]. exfalso. apply (Hs k Hk Hne). lra.
Qed.

(** contraction with a direction *)
Lemma nsum_prod n (f g : nat -> cplx) : cmul (nsum (K:=Cs) n f) (nsum (K:=Cs) n g) = nsum (K:=Cs) n (fun a => nsum (K:=Cs) n (fun b => cmul (f a) (g b))).
Proof.
  change cmul with (@smul Cs). rewrite <- (nsum_mul_r Cs). apply (nsum_ext Cs). intros a _. rewrite <- (nsum_mul_l Cs). reflexivity.
Qed.
Definition ddir (n : nat) (v : rvec) (h : nat -> nat -> R) : R := rsum n (fun a => rsum n (fun b => v a * v b * h a b)).
Lemma ddir_ext n v h h' : (forall a b, (a < n)%nat -> (b < n)%nat -> h a b = h' a b) -> ddir n v h = ddir n v h'.
Proof. intro H. apply (nsum_ext Rs). intros a Ha. apply (nsum_ext Rs). intros b Hb. rewrite (H a b Ha Hb). reflexivity. Qed.
Lemma ddir_lin n v h h' c : ddir n v (fun a b => h a b + c * h' a b) = ddir n v h + c * ddir n v h'.
Proof.
  unfold ddir. assert (Q : forall m (f f' : nat -> R), rsum m (fun a => f a + c * f' a) = rsum m f + c * rsum m f').
  { intros m f f'. induction m as [|m IH]; [unfold nsum; simpl; ring|]. rewrite !(nsum_S Rs), IH. simpl. ring. }
  rewrite <- Q. apply (nsum_ext Rs). intros a _. rewrite <- Q. apply (nsum_ext Rs). intros b _. simpl. ring.
Qed.
Lemma ddir_rsum n v m (h : nat -> nat -> nat -> R) : ddir n v (fun a b => rsum m (fun l => h l a b)) = rsum m (fun l => ddir n v (h l)).
Proof.
  induction m as [|m IH].
  - unfold ddir. etransitivity; [|exact (nsum_zero Rs 0 (fun l => ddir n v (h l)) (fun l Hl => False_ind _ (Nat.nlt_0_r l Hl)))].
    apply (nsum_zero Rs). intros a _. apply (nsum_zero Rs). intros b _. unfold nsum. simpl. ring.
  - rewrite (nsum_S Rs), <- IH. transitivity (ddir n v (fun a b => rsum m (fun l => h l a b) + 1 * h m a b)).
    + apply ddir_ext. intros a b _ _. rewrite (nsum_S Rs). simpl. ring.
    + rewrite ddir_lin. simpl. ring.
Qed.
Lemma hform_ddir d la V n v F1 F2 i : (i < d)%nat ->
  1 / 2 * ddir n v (hform d la (fun p => eig_el d V (F1 p)) (fun p q => eig_diag d V (F2 p q) i) i) =
  1 / 2 * eig_diag d V (contract n v (fun b => contract n v (fun a => F2 a b))) i +
  rsum d (fun l => if Nat.eqb l i then 0 else
    fst (cmul (eig_el d V (contract n v F1) i l) (eig_el d V (contract n v F1) l i)) / (la i - la l)).
Proof.
  intro Hi. set (T := fun l a b => if Nat.eqb l i then 0 else fst (cmul (eig_el d V (F1 a) i l) (eig_el d V (F1 b) l i)) * / (la l - la i)).
  transitivity (1 / 2 * ddir n v (fun a b => eig_diag d V (F2 a b) i + (-2) * rsum d (fun l => T l a b))).
  - f_equal. apply ddir_ext. intros a b _ _. unfold hform. rewrite fst_nsum. unfold Rminus. f_equal.
    replace (-2 * rsum d (fun l => T l a b)) with (- (2 * rsum d (fun l => T l a b))) by ring. do 2 f_equal. apply (nsum_ext Rs).
    intros l _. unfold T. generalize (eig_el d V (F1 a) i l) (eig_el d V (F1 b) l i). intros z z'. destruct (Nat.eqb l i); simpl; unfold Rminus; rg.
  - rewrite ddir_lin, ddir_rsum. rewrite Rmult_plus_distr_l. f_equal.
    + f_equal. rewrite eig_diag_contract. unfold ddir. etransitivity; [apply (nsum_swap Rs)|]. apply (nsum_ext Rs). intros b _.
      rewrite eig_diag_contract. etransitivity; [|exact (nsum_mul_l Rs n (fun a => v a * eig_diag d V (F2 a b) i) (v b))].
      apply (nsum_ext Rs). intros a _. simpl. ring.
    + replace (1 / 2 * (-2 * rsum d (fun l => ddir n v (T l)))) with ((-1) * rsum d (fun l => ddir n v (T l))) by field.
      etransitivity; [symmetry; exact (nsum_mul_l Rs d (fun l => ddir n v (T l)) (-1))|].
      apply (nsum_ext Rs). intros l _. change (@smul Rs) with Rmult. cbv beta. unfold T. destruct (Nat.eqb_spec l i) as [E|E].
      * replace (ddir n v (fun _ _ => 0)) with 0; [rg|]. symmetry. apply (nsum_zero Rs). intros a _. apply (nsum_zero Rs). intros b _. simpl. ring.
      * rewrite !eig_el_contract, nsum_prod, fst_nsum.
        transitivity (rsum n (fun a => rsum n (fun b => fst (cmul (cmul (cre (v a)) (eig_el d V (F1 a) i l)) (cmul (cre (v b)) (eig_el d V (F1 b) l i))))) * / (la i - la l)).
        2:{ unfold Rdiv. f_equal. apply (nsum_ext Rs). intros a _. rewrite fst_nsum. reflexivity. }
        unfold ddir. destruct (Req_dec (la l - la i) 0) as [Z|Z].
        -- replace (la i - la l) with 0 by lra. rewrite Z, Rinv_0.
           replace (rsum n (fun a => rsum n (fun b => v a * v b * (fst (cmul (eig_el d V (F1 a) i l) (eig_el d V (F1 b) l i)) * 0)))) with 0; [rg|].
           symmetry. apply (nsum_zero Rs). intros a _. apply (nsum_zero Rs). intros b _. simpl. ring.
        -- replace (/ (la i - la l)) with (- / (la l - la i)) by (field; split; lra).
           etransitivity; [|exact (nsum_mul_r Rs n (fun a => rsum n (fun b => fst (cmul (cmul (cre (v a)) (eig_el d V (F1 a) i l)) (cmul (cre (v b)) (eig_el d V (F1 b) l i))))) (- / (la l - la i)))].
           etransitivity; [symmetry; exact (nsum_mul_l Rs n (fun a => rsum n (fun b => v a * v b * (fst (cmul (eig_el d V (F1 a) i l) (eig_el d V (F1 b) l i)) * / (la l - la i)))) (-1))|].
           apply (nsum_ext Rs). intros a _. simpl.
           etransitivity; [|exact (nsum_mul_r Rs n (fun b => fst (cmul (cmul (cre (v a)) (eig_el d V (F1 a) i l)) (cmul (cre (v b)) (eig_el d V (F1 b) l i)))) (- / (la l - la i)))].
           etransitivity; [symmetry; exact (nsum_mul_l Rs n (fun b => v a * v b * (fst (cmul (eig_el d V (F1 a) i l) (eig_el d V (F1 b) l i)) * / (la l - la i))) (-1))|].
           apply (nsum_ext Rs). intros b _. simpl. rg.
Qed.

(** ** C101 *)
Lemma contract_deriv d n v (F : nat -> R -> cmat) t (D : nat -> cmat) : (forall b, (b < n)%nat -> cderiv_mat d (F b) t (D b)) ->
  cderiv_mat d (fun s => contract n v (fun b => F b s)) t (contract n v D).
Proof.
  intros H i j Hi Hj. unfold contract.
  apply (cderiv_ksum (seq 0 n) (fun a s => cmul (cre (v a)) (F a s i j)) t (fun a => cmul (cre (v a)) (D a i j))). intros a Ha. apply in_seq in Ha.
  apply (cderiv_ext (fun s => cmul (F a s i j) (cre (v a)))); [intro; rg|].
  replace (cmul (cre (v a)) (D a i j)) with (cmul (D a i j) (cre (v a))) by rg. apply (cderiv_mul_c (fun s => F a s i j)). apply H; [lia|exact Hi|exact Hj].
Qed.
(** second derivative of a simple band of a smooth family, constant overlap *)
Lemma hessian_limit d n i (F : rvec -> cmat) (F1 : rvec -> nat -> cmat) F2 S x v la V e :
  (i < d)%nat -> hermitian d (F x) -> hermitian d S -> eigenbasis d (F x) S (la, V) -> simple d la i ->
  (forall y, mat_deriv d F y v (contract n v (F1 y))) ->
  (forall b, (b < n)%nat -> mat_deriv d (fun y => F1 y b) x v (contract n v (fun a => F2 a b))) ->
  band d (fun t => F (along x v t)) (fun _ => S) e -> e 0 = la i ->
  is_lim (fun t => (e t - e 0 - t * rsum n (fun a => v a * eig_diag d V (F1 x a) i)) / (t * t)) 0
    (1 / 2 * ddir n v (hform d la (fun p => eig_el d V (F1 x p)) (fun p q => eig_diag d V (F2 p q) i) i)).
Proof.
  intros Hi HH HS HB Hs D1 D2 Hb He.
  pose proof (second_order d i (fun t => F (along x v t)) S (fun t => contract n v (F1 (along x v t)))
    (contract n v (fun b => contract n v (fun a => F2 a b))) la V e Hi) as Q.
  cbv beta in Q. rewrite along_0 in Q. specialize (Q HH HS HB Hs).
  rewrite hform_ddir by exact Hi. rewrite eig_diag_contract in Q. apply Q.
  - intro t. exact (line_deriv_all d F x v (fun y => contract n v (F1 y)) D1 t).
  - apply (contract_deriv d n v (fun b t => F1 (along x v t) b)). intros b Hbn. exact (line_deriv _ _ _ _ _ (D2 b Hbn)).
  - exact Hb.
  - exact He.
Qed.
(** BandStructureModel.bands_grad_hess: Taylor expansion to second order of band i in the direction v *)
Theorem C101_bands_grad_hess : forall eigh d n b k v i e la g hs,
  bsm_bands_grad_hess eigh d n b k = (la, g, hs) -> separated d la (/ 10 ^ 6) ->
  bparams b <> [] -> hermitian d (nth 0 (bparams b) fzero) -> eigenbasis d (bsm_f n b k) (fid (K:=Cs)) (eigh (bsm_f n b k)) ->
  (i < d)%nat -> band d (fun t => bsm_f n b (along k v t)) (fun _ => fid (K:=Cs)) e -> e 0 = la i ->
  is_lim (fun t => (e t - e 0 - t * rsum n (fun a => v a * g a i)) / (t * t)) 0 (1 / 2 * ddir n v (fun a c => hs a c i)).
Proof.
  intros eigh d n b k v i e la g hs E Hsep Hp Hh B Hi Hb He. unfold bsm_bands_grad_hess in E.
  assert (E6 : 0 < / 10 ^ 6) by (apply Rinv_0_lt_compat; apply pow_lt; lra).
  destruct (eh_item_hform _ _ _ _ _ _ _ _ _ i E6 Hi E Hsep) as (El & Eg & Eh).
  pose proof (hessian_limit d n i (bsm_f n b) (bsm_df n b) (bsm_ddf n b k) (fid (K:=Cs)) k v la (snd (eigh (bsm_f n b k))) e Hi
    (C26_bsm_hermitian n d b k Hh) (hermitian_id d)) as Q.
  assert (B' : eigenbasis d (bsm_f n b k) (fid (K:=Cs)) (la, snd (eigh (bsm_f n b k)))) by (rewrite El; destruct (eigh (bsm_f n b k)); exact B).
  specialize (Q B' (separated_simple _ _ _ _ E6 Hi Hsep) (fun y => C28_bsm_gradient n d b y v Hp) (fun c _ => C28_bsm_hessian n d b k v c Hp) Hb He).
  replace (ddir n v (fun a c => hs a c i)) with (ddir n v (hform d la (fun p => eig_el d (snd (eigh (bsm_f n b k))) (bsm_df n b k p))
     (fun p q => eig_diag d (snd (eigh (bsm_f n b k))) (bsm_ddf n b k p q) i) i)) by (apply ddir_ext; intros; symmetry; apply Eh).
  eapply is_lim_ext; [|exact Q]. intro t. cbv beta.
  match goal with |- (_ - t * ?p) / _ = (_ - t * ?q) / _ => replace q with p; [reflexivity|] end.
  apply (nsum_ext Rs). intros a _. rewrite (Eg a). reflexivity.
Qed.
(** eigh_grad_hess for any smooth family of matrices (a sample of a batch, or a single matrix) *)
Theorem C101_eigh_grad_hess : forall eigh d n eps (F : rvec -> cmat) F1 F2 x v i e la g hs,
  eigh_grad_hess_one eigh d eps (F x) (F1 x) F2 = Some (la, g, hs) \/
  (separated d la eps /\ exists xs j, nth_error xs j = Some (F x, F1 x, F2) /\ nth_error (eigh_grad_hess_batch eigh d eps xs) j = Some (la, g, hs)) ->
  0 < eps -> hermitian d (F x) -> eigenbasis d (F x) (fid (K:=Cs)) (eigh (F x)) -> (i < d)%nat ->
  (forall y, mat_deriv d F y v (contract n v (F1 y))) ->
  (forall b, (b < n)%nat -> mat_deriv d (fun y => F1 y b) x v (contract n v (fun a => F2 a b))) ->
  band d (fun t => F (along x v t)) (fun _ => fid (K:=Cs)) e -> e 0 = la i ->
  is_derive e 0 (rsum n (fun a => v a * g a i)) /\
  is_lim (fun t => (e t - e 0 - t * rsum n (fun a => v a * g a i)) / (t * t)) 0 (1 / 2 * ddir n v (fun a c => hs a c i)).
Proof.
  intros eigh d n eps F F1 F2 x v i e la g hs HE Hep HH B Hi D1 D2 Hb He.
  assert (E : eh_item eigh d eps (F x) (F1 x) F2 = (la, g, hs) /\ separated d la eps).
  { destruct HE as [HE|[Hsep (xs & j & Hx & HE)]].
    - unfold eigh_grad_hess_one in HE. destruct (eselect d (fst (eigh (F x))) eps) eqn:Es; [discriminate HE|]. injection HE as HE.
      split; [exact HE|]. apply eselect_false in Es. unfold eh_item in HE. destruct (eigh (F x)) as [la' V]. injection HE as <- _ _. exact Es.
    - split; [|exact Hsep]. unfold eigh_grad_hess_batch in HE. rewrite nth_error_map, Hx in HE. cbn [option_map fst snd] in HE. injection HE as HE. exact HE. }
  destruct E as [E Hsep].
  destruct (eh_item_hform _ _ _ _ _ _ _ _ _ i Hep Hi E Hsep) as (El & Eg & Eh).
  pose proof (separated_simple _ _ _ _ Hep Hi Hsep) as Hs.
  assert (B' : eigenbasis d (F x) (fid (K:=Cs)) (la, snd (eigh (F x)))) by (rewrite El; destruct (eigh (F x)); exact B).
  assert (G : rsum n (fun a => v a * g a i) = rsum n (fun a => v a * eig_diag d (snd (eigh (F x))) (F1 x a) i)).
  { apply (nsum_ext Rs). intros a _. rewrite (Eg a). reflexivity. }
  rewrite G. split.
  - apply (C100_eigh_grad eigh d n i F (F1 x) x v e la (fun a i => eig_diag d (snd (eigh (F x))) (F1 x a) i) (snd (eigh (F x)))).
    + unfold eigh_grad. rewrite El. destruct (eigh (F x)). reflexivity.
    + exact B.
    + exact HH.
    + exact Hi.
    + exact Hs.
    + apply D1.
    + exact Hb.
    + exact He.
  - replace (ddir n v (fun a c => hs a c i)) with (ddir n v (hform d la (fun p => eig_el d (snd (eigh (F x))) (F1 x p))
      (fun p q => eig_diag d (snd (eigh (F x))) (F2 p q) i) i)) by (apply ddir_ext; intros; symmetry; apply Eh).
    exact (hessian_limit d n i F F1 F2 (fid (K:=Cs)) x v la (snd (eigh (F x))) e Hi HH (hermitian_id d) B' Hs D1 D2 Hb He).
Qed.
(** tight_binding_asym.py / tight_binding.py: the perturbation sum, correct for every simple band if S is constant *)
Theorem C101_perturbation_sum : forall d n (F : rvec -> cmat) F1 F2 S r x v i e la g hs,
  pert_item d r (F1 x) F2 = (la, g, hs) -> hermitian d (F x) -> hermitian d S -> eigenbasis d (F x) S r -> (i < d)%nat -> simple d la i ->
  (forall y, mat_deriv d F y v (contract n v (F1 y))) ->
  (forall b, (b < n)%nat -> mat_deriv d (fun y => F1 y b) x v (contract n v (fun a => F2 a b))) ->
  band d (fun t => F (along x v t)) (fun _ => S) e -> e 0 = la i ->
  is_lim (fun t => (e t - e 0 - t * rsum n (fun a => v a * g a i)) / (t * t)) 0 (1 / 2 * ddir n v (fun a c => hs a c i)).
Proof.
  intros d n F F1 F2 S r x v i e la g hs E HH HS B Hi Hs D1 D2 Hb He.
  destruct (pert_item_hform _ _ _ _ _ _ _ i Hi E Hs) as (El & Eg & Eh).
  assert (B' : eigenbasis d (F x) S (la, snd r)) by (rewrite El; destruct r; exact B).
  pose proof (hessian_limit d n i F F1 F2 S x v la (snd r) e Hi HH HS B' Hs D1 D2 Hb He) as Q.
  replace (ddir n v (fun a c => hs a c i)) with (ddir n v (hform d la (fun p => eig_el d (snd r) (F1 x p))
     (fun p q => eig_diag d (snd r) (F2 p q) i) i)) by (apply ddir_ext; intros; symmetry; apply Eh).
  eapply is_lim_ext; [|exact Q]. intro t. cbv beta.
  match goal with |- (_ - t * ?p) / _ = (_ - t * ?q) / _ => replace q with p; [reflexivity|] end.
  apply (nsum_ext Rs). intros a _. rewrite (Eg a). reflexivity.
Qed.
(** the Hessian is symmetric, also with equal eigenvalues *)
Definition solves (d : nat) (eigh : cmat -> (nat -> R) * cmat) : Prop := forall X, hermitian d X -> eigenbasis d X (fid (K:=Cs)) (eigh X).
Lemma eh_els_herm eigh d la V eps dH p : hermitian d (dH p) -> hermitian d (eh_els eigh d la V eps dH p).
Proof.
  intros H i j Hi Hj. unfold eh_els. destruct (eselect d la eps); [|apply eig_el_herm; exact H].
  apply eig_el_herm. intros a b _ _. apply eig_el_herm. exact H.
Qed.
Theorem C101_symmetric : forall eigh d eps H dH ddH la g hs p q i, eh_item eigh d eps H dH ddH = (la, g, hs) ->
  hermitian d (dH p) -> hermitian d (dH q) -> feq (K:=Cs) d d (ddH p q) (ddH q p) -> (i < d)%nat -> hs p q i = hs q p i.
Proof.
  intros eigh d eps H dH ddH la g hs p q i E Hp Hq Hs Hi. unfold eh_item in E. destruct (eigh H) as [la' V]. injection E as E1 E2 E3. rewrite <- E3.
  unfold eig_diag. rewrite (eig_el_ext d V _ _ i i Hs). rewrite !fst_nsum. do 2 f_equal. apply (nsum_ext Rs). intros k Hk.
  rewrite (eh_els_herm eigh d la' V eps dH p Hp i k Hi Hk), (eh_els_herm eigh d la' V eps dH q Hq i k Hi Hk).
  generalize (eh_els eigh d la' V eps dH p k i) (eh_els eigh d la' V eps dH q k i). intros z z'. destruct (emask la' eps k i); simpl; rg.
Qed.

(** ** C102 *)
(** real part of the trace *)
Definition retr (d : nat) (X : cmat) : R := rsum d (fun j => fst (X j j)).
Lemma trace_unitary d H V la X : eigenbasis d H (fid (K:=Cs)) (la, V) ->
  nsum (K:=Cs) d (fun i => eig_el d V X i i) = nsum (K:=Cs) d (fun j => X j j).
Proof.
  intros (_ & _ & B). cbn [snd] in B.
  assert (U : forall m j, (m < d)%nat -> (j < d)%nat -> nsum (K:=Cs) d (fun i => cmul (V m i) (cconj (V j i))) = fid (K:=Cs) m j).
  { intros m j Hm Hj. rewrite <- (B m j Hm Hj). unfold fmul at 1. apply (nsum_ext Cs). intros i Hi.
    rewrite (fmul_id_r (K:=Cs) d d (fadj (K:=Cs) V) i j Hi Hj). reflexivity. }
  transitivity (nsum (K:=Cs) d (fun m => nsum (K:=Cs) d (fun j => nsum (K:=Cs) d (fun i => cmul (X j m) (cmul (V m i) (cconj (V j i))))))).
  - etransitivity; [apply (nsum_ext Cs); intros i _; apply eig_el_entry|]. etransitivity; [apply (nsum_swap Cs)|].
    apply (nsum_ext Cs). intros m _. etransitivity; [apply (nsum_swap Cs)|]. apply (nsum_ext Cs). intros j _. apply (nsum_ext Cs). intros i _. rg.
  - apply (nsum_ext Cs). intros m Hm. transitivity (nsum (K:=Cs) d (fun j => cmul (X j m) (fid (K:=Cs) m j))).
    + apply (nsum_ext Cs). intros j Hj. rewrite <- (U m j Hm Hj). exact (nsum_mul_l Cs d (fun i => cmul (V m i) (cconj (V j i))) (X j m)).
    + rewrite (nsum_single Cs d m); [|exact Hm|].
      * unfold fid. rewrite Nat.eqb_refl. apply cplx_eq; simpl; ring.
      * intros k _ Hk. unfold fid. rewrite (proj2 (Nat.eqb_neq m k)) by lia. apply cplx_eq; simpl; ring.
Qed.
Lemma trace_unitary_re d H V la X : eigenbasis d H (fid (K:=Cs)) (la, V) -> rsum d (fun i => eig_diag d V X i) = retr d X.
Proof.
  intro B. unfold eig_diag, retr. rewrite <- !fst_nsum. f_equal. exact (trace_unitary d H V la X B).
Qed.
Lemma kinsert_perm key x l : Permutation (kinsert key x l) (x :: l).
Proof.
  induction l as [|y l IH]; [apply Permutation_refl|]. cbn [kinsert]. destruct (Nat.leb (key x) (key y)); [apply Permutation_refl|].
  rewrite IH. apply perm_swap.
Qed.
Lemma ksort_perm key l : Permutation (ksort key l) l.
Proof. induction l as [|x l IH]; [apply Permutation_refl|]. cbn [ksort fold_right]. fold (ksort key l). rewrite kinsert_perm, IH. apply Permutation_refl. Qed.
Lemma sort_cols_trace d E X : nsum (K:=Cs) d (fun c => eig_el d (sort_cols d E) X c c) = nsum (K:=Cs) d (fun c => eig_el d E X c c).
Proof.
  unfold sort_cols. rewrite <- (nsum_perm (ksort (first_row d E) (seq 0 d)) d (fun c => eig_el d E X c c) (ksort_perm _ _)).
  reflexivity.
Qed.
Lemma emask_sym la eps k l : emask la eps k l = emask la eps l k.
Proof. unfold emask. rewrite Rabs_minus_sym. reflexivity. Qed.
Lemma antisym_sum d (f : nat -> nat -> R) : (forall i k, (i < d)%nat -> (k < d)%nat -> f i k = - f k i) -> rsum d (fun i => rsum d (fun k => f i k)) = 0.
Proof.
  intro H. assert (Q : rsum d (fun i => rsum d (fun k => f i k)) = - rsum d (fun i => rsum d (fun k => f i k))); [|lra].
  rewrite (nsum_swap Rs) at 1. etransitivity; [|exact (nsum_opp Rs d (fun i => rsum d (fun k => f i k)))].
  apply (nsum_ext Rs). intros i Hi. etransitivity; [|exact (nsum_opp Rs d (fun k => f i k))]. apply (nsum_ext Rs). intros k Hk. exact (H k i Hk Hi).
Qed.
Lemma rsum_lin2 d (f f' : nat -> R) : rsum d (fun i => f i + (-2) * f' i) = rsum d f - 2 * rsum d f'.
Proof. induction d as [|n IH]; [unfold nsum; simpl; ring|]. rewrite !(nsum_S Rs), IH. simpl. ring. Qed.
(** the sum over all bands is the trace of the perturbation, also with equal eigenvalues *)
Theorem C102_gradient_sum : forall eigh d H dH p, hermitian d H -> solves d eigh ->
  rsum d (fun i => snd (fst (eigh_grad eigh d H dH)) p i) = retr d (dH p).
Proof.
  intros eigh d H dH p HH B. specialize (B H HH). unfold eigh_grad. destruct (eigh H) as [la V]. cbn [fst snd]. exact (trace_unitary_re d H V la (dH p) B).
Qed.
Theorem C102_sums : forall eigh d eps H dH ddH la g hs p q, eh_item eigh d eps H dH ddH = (la, g, hs) ->
  hermitian d H -> hermitian d (dH p) -> hermitian d (dH q) -> solves d eigh ->
  rsum d (fun i => g p i) = retr d (dH p) /\ rsum d (fun i => hs p q i) = retr d (ddH p q).
Proof.
  intros eigh d eps H dH ddH la g hs p q E HH Hp Hq B. pose proof (B H HH) as BH. unfold eh_item in E. destruct (eigh H) as [la' V] eqn:EV.
  injection E as E1 E2 E3. subst la'. split.
  - rewrite <- E2. unfold eh_els. destruct (eselect d la eps); [|exact (trace_unitary_re d H V la (dH p) BH)].
    unfold retr. rewrite <- !fst_nsum. f_equal. rewrite sort_cols_trace.
    set (M := fun i j => if emask la eps i j then eig_el d V (dH p) i j else (0,0)).
    assert (HM : hermitian d M).
    { intros a b Ha Hb. unfold M. rewrite (emask_sym la eps b a). destruct (emask la eps a b); [apply eig_el_herm; exact Hp|apply cplx_eq; simpl; ring]. }
    pose proof (B M HM) as BM. destruct (eigh M) as [lm E]. cbn [snd].
    rewrite (trace_unitary d M E lm _ BM). exact (trace_unitary d H V la (dH p) BH).
  - rewrite <- E3. transitivity (rsum d (fun i => eig_diag d V (ddH p q) i) - 2 * rsum d (fun i => rsum d (fun k =>
      fst (cmul (eh_els eigh d la V eps dH p i k) (if emask la eps k i then (0,0) else cmul (eh_els eigh d la V eps dH q k i) (cre (/ (la k - la i)))))))).
    + transitivity (rsum d (fun i => eig_diag d V (ddH p q) i + (-2) * rsum d (fun k =>
        fst (cmul (eh_els eigh d la V eps dH p i k) (if emask la eps k i then (0,0) else cmul (eh_els eigh d la V eps dH q k i) (cre (/ (la k - la i)))))))).
      * apply (nsum_ext Rs). intros i _. rewrite fst_nsum. rg.
      * exact (rsum_lin2 d (fun i => eig_diag d V (ddH p q) i) _).
    + rewrite (trace_unitary_re d H V la (ddH p q) BH). rewrite antisym_sum; [rg|]. intros i k Hi Hk.
      rewrite (emask_sym la eps i k).
      rewrite (eh_els_herm eigh d la V eps dH p Hp i k Hi Hk), (eh_els_herm eigh d la V eps dH q Hq k i Hk Hi).
      generalize (eh_els eigh d la V eps dH p k i) (eh_els eigh d la V eps dH q i k). intros z z'.
      destruct (emask la eps k i) eqn:Em; [simpl; ring|].
      assert (Z : la k - la i <> 0 \/ la k - la i = 0) by (destruct (Req_dec (la k - la i) 0); [right|left]; assumption).
      destruct Z as [Z|Z].
      * replace (/ (la i - la k)) with (- / (la k - la i)) by (field; split; lra). simpl. ring.
      * replace (la i - la k) with 0 by lra. rewrite Z, Rinv_0. simpl. ring.
Qed.

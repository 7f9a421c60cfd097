(** Properties C26-C32: Bloch Hamiltonians, their derivatives, parameter conventions and model arithmetic
    (tight_binding_asym.py, bandstructure.py). *)
From Coq Require Import List Arith ZArith Reals Lra Lia Bool Permutation Setoid Morphisms.
From Coquelicot Require Import Coquelicot.
Import ListNotations.
From Verif Require Import SRing LMat FMat CplxR UrepModel UrepProofs FourierModel FourierProofs BsmProofs SpecProofs.
Local Open Scope R_scope.

(* ------------------------------------------------------------------ *)
(** ** specification *)
Definition hermitian (d : nat) (x : cmat) : Prop := forall i j, (i < d)%nat -> (j < d)%nat -> x i j = cconj (x j i).
Definition integer_vec (n : nat) (v : rvec) : Prop := forall a, (a < n)%nat -> exists z, v a = IZR z.
Definition wf_series (n : nat) (h : hfs) : Prop :=
  length (hnb h) = length (hH h) /\ hH h <> [] /\ (forall a, (a < n)%nat -> nb (hnb h) 0 a = 0).
(** matrix derivative at [k] along [v]; [cderiv] is the derivative (Coquelicot) of real and imaginary part *)
Definition mat_deriv (d : nat) (F : rvec -> cmat) (k v : rvec) (D : cmat) : Prop :=
  forall i j, (i < d)%nat -> (j < d)%nat -> cderiv (fun t => F (fun a => k a + t * v a) i j) 0 (D i j).
(** sum_a v_a D_a *)
Definition contract (n : nat) (v : rvec) (D : nat -> cmat) : cmat := fun i j => csum (seq 0 n) (fun a => cmul (cre (v a)) (D a i j)).
(** H_0 + sum_R sum_(s in S) (e^(2 pi i k.(s R)) H_R + h.c.) *)
Definition bloch_sum (n : nat) (S : list (fmat Rs)) (nbs : list rvec) (H : list cmat) (k : rvec) : cmat := fun i j =>
  cadd (nth 0 H fzero i j)
       (csum (seq 1 (length H - 1)) (fun l => csum S (fun s =>
          cadd (cmul (cexp (2 * PI * dot n k (rot n s (nb nbs l)))) (nth l H fzero i j))
               (cmul (cexp (- (2 * PI * dot n k (rot n s (nb nbs l))))) (cconj (nth l H fzero j i)))))).
Definition hermitian_part (h : cmat) : cmat := fun i j => cmul (cre (1/2)) (cadd (h i j) (cconj (h j i))).

Definition cm (z : cplx) : cmat := fun _ _ => z.
Definition rv1 (x : R) : rvec := fun _ => x.
Definition idR : fmat Rs := fun a c => if Nat.eqb a c then 1 else 0.
Definition one1 : fmat Rs := fun _ _ => 1.
Definition neg1 : fmat Rs := fun _ _ => -1.

Lemma csum1 f : csum (seq 1 1) f = f 1%nat. Proof. simpl. csolve. Qed.
Lemma dot1 k r : dot 1 k r = k 0%nat * r 0%nat. Proof. unfold dot, nsum. simpl. ring. Qed.

(* ------------------------------------------------------------------ *)
(** ** C26 *)
Theorem C26_hermitian : forall n d h k, wf_series n h -> hermitian d (nth 0 (hH h) fzero) -> hermitian d (fs_f n h k).
Proof.
  intros n d h k (_ & _ & H0) Hh i j Hi Hj. symmetry. unfold fs_f.
  apply (herm_series_herm (fs_coef n (hnb h) k) (hH h) d); try assumption.
  - rewrite (fs_coef_zero n (hnb h) k 0 H0). csolve.
  - intros a b Ha Hb. unfold fadj. symmetry. apply Hh; assumption.
Qed.
(** BandStructureModel.f has the same shape *)
Theorem C26_bsm_hermitian : forall n d b k, hermitian d (nth 0 (bparams b) fzero) -> hermitian d (bsm_f n b k).
Proof.
  intros n d b k Hh i j Hi Hj. symmetry. unfold bsm_f.
  apply (herm_series_herm (bsm_coef n b k) (bparams b) d); try assumption.
  - rewrite bsm_coef0. csolve.
  - intros a c Ha Hb. unfold fadj. symmetry. apply Hh; assumption.
Qed.
(** an arbitrary matrix at R = 1: a one band chain with hopping i: f(k) = 2 - 2 sin(2 pi k) *)
Definition chain_i : hfs := MkHfs [rv1 0; rv1 1] [cm (2,0); cm (0,1)].
Lemma chain_i_wf : wf_series 1 chain_i. Proof. repeat split. discriminate. Qed.
Lemma chain_i_f k : fs_f 1 chain_i k 0%nat 0%nat = (2 - 2 * sin (2 * PI * k 0%nat), 0).
Proof.
  unfold fs_f, chain_i. cbn [hnb hH]. rewrite herm_join. cbn [length Nat.sub]. rewrite csum1.
  unfold fs_coef, nb. cbn [nth]. rewrite !dot1. unfold rv1, cm. rewrite Rmult_0_r, Rmult_1_r, Rmult_0_r, cexp_0. unfold cexp. csolve.
Qed.
Example C26_example : hermitian 1 (nth 0 (hH chain_i) fzero) /\ hermitian 1 (fs_f 1 chain_i (rv1 (1/4))) /\
  fs_f 1 chain_i (rv1 (1/4)) 0%nat 0%nat = (0,0).
Proof.
  assert (H : hermitian 1 (nth 0 (hH chain_i) fzero)) by (intros i j _ _; simpl; unfold cm; csolve).
  split; [exact H|]. split; [exact (C26_hermitian 1 1 chain_i _ chain_i_wf H)|].
  rewrite chain_i_f. unfold rv1. replace (2 * PI * (1/4)) with (PI / 2) by field. rewrite sin_PI2. csolve.
Qed.

(* ------------------------------------------------------------------ *)
(** ** C27 *)
Theorem C27_periodic : forall n h k G i j, wf_series n h ->
  (forall r, In r (hnb h) -> integer_vec n r) -> integer_vec n G ->
  fs_f n h (fun a => k a + G a) i j = fs_f n h k i j.
Proof.
  intros n h k G i j (HL & Hne & H0) Hr HG. unfold fs_f.
  rewrite (herm_series_ext (fs_coef n (hnb h) (fun a => k a + G a)) (fs_coef n (hnb h) k)); [reflexivity| |].
  - intros l Hl. apply fs_coef_period; [exact HG|]. apply Hr. apply nth_In. lia.
  - destruct (hH h); [congruence|simpl; lia].
Qed.
Theorem C27_time_reversal : forall n h k i j, wf_series n h ->
  (forall x, In x (hH h) -> forall a b, snd (x a b) = 0) ->
  fs_f n h (fun a => - k a) i j = cconj (fs_f n h k i j).
Proof.
  intros n h k i j (HL & Hne & H0) Hr. unfold fs_f.
  assert (L0 : (0 < length (hH h))%nat) by (destruct (hH h); [congruence|simpl; lia]).
  rewrite (herm_series_ext (fs_coef n (hnb h) (fun a => - k a)) (fun l => cconj (fs_coef n (hnb h) k l)) (hH h)).
  - apply herm_series_conj; [|exact L0]. intros l Hl a b. apply cplx_eq; simpl; [reflexivity|].
    rewrite (Hr (nth l (hH h) fzero)); [ring|]. apply nth_In. exact Hl.
  - intros l _. apply fs_coef_neg.
  - exact L0.
Qed.
(** the chain with hopping i is periodic but not time-reversal symmetric; with hopping 1 it is *)
Definition chain_1 : hfs := MkHfs [rv1 0; rv1 1] [cm (2,0); cm (1,0)].
Example C27_example : (forall k, fs_f 1 chain_i (fun a => k a + 3) 0%nat 0%nat = fs_f 1 chain_i k 0%nat 0%nat) /\
  (forall k, fs_f 1 chain_1 (fun a => - k a) 0%nat 0%nat = cconj (fs_f 1 chain_1 k 0%nat 0%nat)) /\
  fs_f 1 chain_i (fun _ => - (1/4)) 0%nat 0%nat <> cconj (fs_f 1 chain_i (fun _ => 1/4) 0%nat 0%nat).
Proof.
  split; [|split].
  - intro k. apply (C27_periodic 1 chain_i k (fun _ => 3)); [exact chain_i_wf| |].
    + intros r [<-|[<-|[]]] a _; [exists 0%Z|exists 1%Z]; reflexivity.
    + intros a _. exists 3%Z. reflexivity.
  - intro k. apply C27_time_reversal.
    + repeat split. discriminate.
    + intros x [<-|[<-|[]]] a b; reflexivity.
  - rewrite !chain_i_f. replace (2 * PI * - (1/4)) with (- (PI / 2)) by field. replace (2 * PI * (1/4)) with (PI / 2) by field.
    rewrite sin_neg, sin_PI2. intro H. apply (f_equal fst) in H. simpl in H. lra.
Qed.

(* ------------------------------------------------------------------ *)
(** ** C28 *)
Theorem C28_gradient : forall n d h k v, wf_series n h -> mat_deriv d (fs_f n h) k v (contract n v (fs_df n h k)).
Proof.
  intros n d h k v (_ & Hne & _) i j _ _. apply fs_f_deriv. destruct (hH h); [congruence|simpl; lia].
Qed.
Theorem C28_hessian : forall n d h k v b, wf_series n h ->
  mat_deriv d (fun q => fs_df n h q b) k v (contract n v (fun a => fs_ddf n h k a b)).
Proof.
  intros n d h k v b (_ & Hne & _) i j _ _. apply fs_df_deriv. destruct (hH h); [congruence|simpl; lia].
Qed.
Theorem C28_hessian_symmetric : forall n h k a b i j, fs_ddf n h k a b i j = fs_ddf n h k b a i j.
Proof. exact fs_ddf_sym. Qed.
(** the same for BandStructureModel, every flag combination and every symmetry *)
Theorem C28_bsm_gradient : forall n d b k v, bparams b <> [] -> mat_deriv d (bsm_f n b) k v (contract n v (bsm_df n b k)).
Proof. intros n d b k v Hne i j _ _. apply bsm_f_deriv. destruct (bparams b); [congruence|simpl; lia]. Qed.
Theorem C28_bsm_hessian : forall n d b k v c, bparams b <> [] ->
  mat_deriv d (fun q => bsm_df n b q c) k v (contract n v (fun a => bsm_ddf n b k a c)).
Proof. intros n d b k v c Hne i j _ _. apply bsm_df_deriv. destruct (bparams b); [congruence|simpl; lia]. Qed.
(** f(k) = 2 - 2 sin(2 pi k), df(0) = -4 pi, ddf(1/4) = 8 pi^2 *)
Example C28_example : wf_series 1 chain_i /\ fs_df 1 chain_i (rv1 0) 0 0%nat 0%nat = (- (4 * PI), 0) /\
  fs_ddf 1 chain_i (rv1 (1/4)) 0 0 0%nat 0%nat = (8 * PI * PI, 0).
Proof.
  split; [exact chain_i_wf|]. unfold fs_df, fs_ddf, chain_i. cbn [hnb hH]. rewrite !herm_join. cbn [length Nat.sub]. rewrite !csum1.
  unfold fs_dcoef, fs_ddcoef, fs_coef, nb. cbn [nth]. rewrite !dot1. unfold rv1, cm. split.
  - rewrite !Rmult_0_r, Rmult_0_l, Rmult_0_r, cexp_0. csolve.
  - replace (2 * PI * (1 / 4 * 1)) with (PI / 2) by field. replace (2 * PI * (1 / 4 * 0)) with 0 by field.
    rewrite cexp_0. unfold cexp. rewrite cos_PI2, sin_PI2. csolve.
Qed.

(* ------------------------------------------------------------------ *)
(** ** C29 *)
Lemma target_bloch n b k H i j : target n b k H i j = bloch_sum n (bops b) (bnb b) H k i j.
Proof.
  unfold target, bloch_sum. f_equal. apply csum_ext. intros l _. unfold e_sum.
  rewrite csum_conj, <- !csum_mul_r, <- csum_add. apply csum_ext. intros s _. rewrite cexp_neg. reflexivity.
Qed.
(** FULL STATEMENT (C29): the equation below for every [b] with [binv b = false]. Proved for cos_reduced = False with every
    symmetry and both values of exp, and for cos_reduced = True with a symmetry consisting of one operation. The remaining
    case is false: C29_refuted. *)
Theorem C29_convention_partial : forall n d b H b' k i j, binv b = false -> (bcos b = false \/ length (bops b) = 1%nat) ->
  set_params_complex b H = Some b' -> H <> [] -> hermitian d (nth 0 H fzero) -> (i < d)%nat -> (j < d)%nat ->
  bsm_f n b' k i j = bloch_sum n (bops b) (bnb b) H k i j.
Proof.
  intros n d b H b' k i j Hinv Hc Hs Hne Hh Hi Hj. rewrite <- target_bloch.
  assert (Z : cadd (target n b k H i j) (cmul (cre (if bcos b then 1 - nops b else 0)) (hsumH H i j)) = target n b k H i j).
  { set (X := hsumH H i j). set (Y := target n b k H i j).
    replace (if bcos b then 1 - nops b else 0) with 0; [csolve|]. destruct Hc as [->| E]; [reflexivity|].
    destruct (bcos b); [|reflexivity]. unfold nops. rewrite E. simpl. ring. }
  rewrite <- Z. destruct (bexp b) eqn:He.
  - apply bsm_f_exp; assumption.
  - apply (bsm_f_cossin n b k H b' d); try assumption. intros a c Ha Hc'. unfold fadj. symmetry. apply Hh; assumption.
Qed.
(** set_params_complex fails only for a wrong number of matrices *)
Theorem C29_defined : forall b H, set_params_complex b H <> None <-> length H = length (bnb b).
Proof.
  intros b H. unfold set_params_complex. destruct (Nat.eqb_spec (length H) (length (bnb b))); cbn [negb]; split; intro Q; congruence.
Qed.
(** the trivial symmetry: the plain series H_0 + sum_R (e^(2 pi i k.R) H_R + h.c.) for all four conventions *)
Theorem C29_plain : forall n d b H b' k i j, binv b = false -> bops b = [idR] ->
  set_params_complex b H = Some b' -> H <> [] -> hermitian d (nth 0 H fzero) -> (i < d)%nat -> (j < d)%nat ->
  bsm_f n b' k i j =
    cadd (nth 0 H fzero i j)
         (csum (seq 1 (length H - 1)) (fun l => cadd (cmul (cexp (2 * PI * dot n k (nb (bnb b) l))) (nth l H fzero i j))
                                                     (cmul (cexp (- (2 * PI * dot n k (nb (bnb b) l)))) (cconj (nth l H fzero j i))))).
Proof.
  intros n d b H b' k i j Hinv Hops Hs Hne Hh Hi Hj.
  rewrite (C29_convention_partial n d b H b' k i j Hinv (or_intror (f_equal (@length _) Hops)) Hs Hne Hh Hi Hj).
  unfold bloch_sum. rewrite Hops. f_equal. apply csum_ext. intros l _. cbn [ksum].
  assert (E : dot n k (rot n idR (nb (bnb b) l)) = dot n k (nb (bnb b) l)).
  { unfold dot. apply (nsum_ext Rs). intros a Ha. f_equal. unfold rot, idR. rewrite (nsum_single Rs n a).
    - rewrite Nat.eqb_refl. rg.
    - exact Ha.
    - intros c _ Hne'. rewrite (proj2 (Nat.eqb_neq a c)) by lia. change (@s0 Rs) with 0. rg. }
  rewrite E. csolve.
Qed.
(** inversion symmetric models in cos form: the series with cos(2 pi k.(s R)) *)
Theorem C29_inversion : forall n d b H b' k i j, binv b = true -> bexp b = false -> (bcos b = false \/ length (bops b) = 1%nat) ->
  set_params_complex b H = Some b' -> H <> [] -> hermitian d (nth 0 H fzero) -> (i < d)%nat -> (j < d)%nat ->
  bsm_f n b' k i j =
    cadd (nth 0 H fzero i j)
         (csum (seq 1 (length H - 1)) (fun l => cmul (csum (bops b) (fun s => cre (cos (2 * PI * dot n k (rot n s (nb (bnb b) l))))))
                                                     (cadd (nth l H fzero i j) (cconj (nth l H fzero j i))))).
Proof.
  intros n d b H b' k i j Hinv He Hc Hs Hne Hh Hi Hj.
  rewrite (bsm_f_inv n b k H b' d) ; try assumption.
  2:{ intros a c Ha Hc'. unfold fadj. symmetry. apply Hh; assumption. }
  replace (if bcos b then 1 - nops b else 0) with 0.
  2:{ destruct Hc as [->| E]; [reflexivity|]. destruct (bcos b); [|reflexivity]. unfold nops. rewrite E. simpl. ring. }
  unfold c_sum. rewrite (csum_ext (seq 1 (length H - 1)) _ (fun l => cmul (csum (bops b) (fun s => cre (cos (2 * PI * dot n k (rot n s (nb (bnb b) l))))))
                                                     (cadd (nth l H fzero i j) (cconj (nth l H fzero j i))))).
  - set (X := csum _ _). set (Y := hsumH _ _ _). csolve.
  - intros l _. rewrite csum_cre. reflexivity.
Qed.
(** one band, neighbor 1, rotations {1, -1}: cos_reduced changes the Hamiltonian *)
Definition two_ops (cr : bool) : bsm := MkBsm true cr false [one1; neg1] [rv1 0; rv1 1] [].
Definition hop1 : list cmat := [cm (0,0); cm (1,0)].
Lemma two_ops_f cr b' : set_params_complex (two_ops cr) hop1 = Some b' -> bsm_f 1 b' (rv1 0) 0%nat 0%nat = if cr then (2,0) else (4,0).
Proof.
  intro Hs. rewrite (bsm_f_exp 1 (two_ops cr) (rv1 0) hop1 b' 0 0); [|reflexivity|exact Hs|discriminate].
  unfold target, hsumH, hop1, e_sum, nops. cbn [length Nat.sub bops two_ops bcos bnb]. rewrite !csum1. cbn [ksum nth nb].
  unfold cm. rewrite !dot1. unfold rv1. rewrite !Rmult_0_l, Rmult_0_r, cexp_0. destruct cr; csolve.
Qed.
Theorem C29_refuted : ~ (forall n d b H b' k i j, binv b = false ->
  set_params_complex b H = Some b' -> H <> [] -> hermitian d (nth 0 H fzero) -> (i < d)%nat -> (j < d)%nat ->
  bsm_f n b' k i j = bloch_sum n (bops b) (bnb b) H k i j).
Proof.
  intro A.
  assert (Hh : hermitian 1 (nth 0 hop1 fzero)) by (intros i j _ _; simpl; unfold cm; csolve).
  destruct (set_params_complex (two_ops true) hop1) as [b1|] eqn:E1; [|discriminate E1].
  destruct (set_params_complex (two_ops false) hop1) as [b2|] eqn:E2; [|discriminate E2].
  pose proof (A 1%nat 1%nat (two_ops true) hop1 b1 (rv1 0) 0%nat 0%nat eq_refl E1 ltac:(discriminate) Hh ltac:(lia) ltac:(lia)) as F1.
  pose proof (A 1%nat 1%nat (two_ops false) hop1 b2 (rv1 0) 0%nat 0%nat eq_refl E2 ltac:(discriminate) Hh ltac:(lia) ltac:(lia)) as F2.
  rewrite (two_ops_f _ _ E1) in F1. rewrite (two_ops_f _ _ E2) in F2. cbn [two_ops bops bnb] in F1, F2. rewrite <- F2 in F1.
  injection F1. lra.
Qed.
Definition triv_ops (ex cr : bool) : bsm := MkBsm ex cr false [one1] [rv1 0; rv1 1] [].
Example C29_example : forall ex cr b', set_params_complex (triv_ops ex cr) [cm (2,0); cm (0,1)] = Some b' ->
  bsm_f 1 b' (rv1 (1/4)) 0%nat 0%nat = (0,0).
Proof.
  intros ex cr b' Hs.
  rewrite (C29_convention_partial 1 1 (triv_ops ex cr) [cm (2,0); cm (0,1)] b' (rv1 (1/4)) 0%nat 0%nat eq_refl (or_intror eq_refl) Hs); try discriminate; try lia.
  - unfold bloch_sum. cbn [length Nat.sub triv_ops bops bnb]. rewrite csum1. cbn [ksum nth nb]. rewrite dot1. unfold rot, nsum, rv1, cm, one1. cbn [seq ksum].
    change (@sadd Rs) with Rplus. change (@s0 Rs) with 0. replace (2 * PI * (1 / 4 * (1 * 1 + 0))) with (PI / 2) by field.
    unfold cexp. rewrite cos_neg, sin_neg, cos_PI2, sin_PI2. csolve.
  - intros i j _ _. simpl. unfold cm. csolve.
Qed.

(* ------------------------------------------------------------------ *)
(** ** C30 *)
Theorem C30_roundtrip : forall d b H b', set_params_complex b H = Some b' -> H <> [] -> binv b = false ->
  hermitian d (nth 0 H fzero) -> Forall2 (feq (K:=Cs) d d) (params_complex b') H.
Proof.
  intros d b H b' Hs Hne Hinv Hh. apply (params_roundtrip_noinv d b H b' Hs Hne Hinv).
  intros i j Hi Hj. unfold fadj. symmetry. apply Hh; assumption.
Qed.
Theorem C30_roundtrip_inversion : forall d b H b', set_params_complex b H = Some b' -> H <> [] -> binv b = true -> bexp b = false ->
  Forall2 (feq (K:=Cs) d d) (params_complex b') (map hermitian_part H).
Proof. exact params_roundtrip_inv. Qed.
(** with inversion and exp the matrices are returned as they are *)
Theorem C30_roundtrip_inversion_exp : forall d b H b', set_params_complex b H = Some b' -> H <> [] -> bexp b = true ->
  Forall2 (feq (K:=Cs) d d) (params_complex b') H.
Proof.
  intros d b H b' Hs Hne He. unfold set_params_complex in Hs.
  destruct (Nat.eqb (length H) (length (bnb b))); cbn [negb] in Hs; [|discriminate Hs].
  injection Hs as <-. unfold params_complex. cbn [bparams bexp bcos binv set_params]. rewrite He.
  destruct H as [|h0 H]; [congruence|]. destruct (bcos b); [|apply Forall2_refl_feq]. cbn [add_first tl].
  constructor; [|apply Forall2_refl_feq].
  intros i j _ _. unfold fadd. rewrite fneg_entry. change (@sadd Cs) with cadd. set (x := sum_herm H i j). csolve.
Qed.
Example C30_example : forall b', set_params_complex (triv_ops false true) [cm (2,0); cm (3,1)] = Some b' ->
  length (bparams b') = 3%nat /\ nth 0 (bparams b') fzero 0%nat 0%nat = (8,0) /\
  Forall2 (feq (K:=Cs) 1 1) (params_complex b') [cm (2,0); cm (3,1)].
Proof.
  intros b' Hs. split; [|split].
  - unfold set_params_complex in Hs. cbn [length triv_ops bnb Nat.eqb negb bexp bcos binv] in Hs. injection Hs as <-. reflexivity.
  - unfold set_params_complex in Hs. cbn [length triv_ops bnb Nat.eqb negb bexp bcos binv] in Hs. injection Hs as <-.
    cbn [bparams set_params map tl app add_first nth Nat.sub firstn]. unfold fadd, fscale, fadj, fsum, fneg, fscale, cm. cbn [ksum].
    change (@sadd Cs) with cadd. change (@smul Cs) with cmul. change (@sconj Cs) with cconj. change (@s0 Cs) with (0,0). unfold chalf. csolve.
  - apply (C30_roundtrip 1 _ _ _ Hs); [discriminate|reflexivity|]. intros i j _ _. simpl. unfold cm. csolve.
Qed.

(* ------------------------------------------------------------------ *)
(** ** C31. [spectrum d H S E] (SpecProofs.v): E lists the generalised eigenvalues of (H, S) with multiplicity:
    H V = S V diag(E) with V and S invertible. The list is unique up to order. *)
Theorem C31_energies_unique : forall d H S E E', spectrum d H S E -> spectrum d H S E' -> Permutation E E'.
Proof. exact spectrum_unique. Qed.

(** BandStructureModel: S = 1 *)
Definition bsm_energies n d (b : bsm) k (E : list R) : Prop := spectrum d (bsm_f n b k) (fid (K:=Cs)) E.
Theorem C31_bsm_shift : forall n d b k E e, bparams b <> [] -> bsm_energies n d b k E ->
  bsm_energies n d (bsm_shift e b) k (map (fun x => x + e) E).
Proof.
  intros n d b k E e Hne HE. unfold bsm_energies in *.
  apply (spectrum_proper d (fadd (K:=Cs) (bsm_f n b k) (fscale (K:=Cs) (cre e) (fid (K:=Cs)))) _ (fid (K:=Cs)) _);
    [|reflexivity|apply spectrum_shift; exact HE].
  intros i j _ _. unfold bsm_f, bsm_shift. cbn [bparams set_params]. rewrite herm_add_first by exact Hne.
  change (bsm_coef n (set_params b _) k) with (bsm_coef n b k). rewrite bsm_coef0. unfold fadd at 1. change (@sadd Cs) with cadd.
  set (X := herm_series _ _ _ _). set (Y := fscale _ _ _ _). csolve.
Qed.
Theorem C31_bsm_scale : forall n d b k E c, bparams b <> [] -> bsm_energies n d b k E ->
  bsm_energies n d (bsm_scale c b) k (map (fun x => c * x) E).
Proof.
  intros n d b k E c Hne HE. unfold bsm_energies in *.
  apply (spectrum_proper d (fscale (K:=Cs) (cre c) (bsm_f n b k)) _ (fid (K:=Cs)) _);
    [|reflexivity|apply spectrum_scale; exact HE].
  intros i j _ _. unfold bsm_f, bsm_scale. cbn [bparams set_params]. rewrite herm_scale by exact Hne. reflexivity.
Qed.
(** the assertions of __add__: equal flags and neighbors; the matrices have the same number as they belong to the same neighbors *)
Definition bsm_add_ok (a b : bsm) : Prop :=
  bexp a = bexp b /\ bcos a = bcos b /\ bnb a = bnb b /\ length (bparams a) = length (bparams b) /\ bparams a <> [].
(** FULL STATEMENT: without [bops a = bops b] and [binv a = binv b]; false, see C31_bsm_union_refuted *)
Theorem C31_bsm_union_partial : forall n d1 d2 a b k E1 E2, bsm_add_ok a b -> bops a = bops b -> binv a = binv b ->
  bsm_energies n d1 a k E1 -> bsm_energies n d2 b k E2 -> bsm_energies n (d1 + d2) (bsm_add d1 a b) k (E1 ++ E2).
Proof.
  intros n d1 d2 a b k E1 E2 (Ee & Ec & En & El & Hne) Eo Ei H1 H2. unfold bsm_energies in *.
  apply (spectrum_proper (d1 + d2) (dsum (K:=Cs) d1 (bsm_f n a k) (bsm_f n b k)) _ (dsum (K:=Cs) d1 (fid (K:=Cs)) (fid (K:=Cs))) _);
    [|apply dsum_id|apply spectrum_dsum; assumption].
  intros i j _ _. symmetry. unfold bsm_f, bsm_add. cbn [bparams set_params].
  change (bsm_coef n (set_params a _) k) with (bsm_coef n a k).
  rewrite herm_dsum by assumption.
  assert (EC : bsm_coef n b k = bsm_coef n a k).
  { destruct a, b; simpl in *; subst; reflexivity. }
  rewrite EC. reflexivity.
Qed.
Lemma spectrum1 (h s : R) : s <> 0 -> spectrum 1 (cm (h,0)) (cm (s,0)) [h / s].
Proof.
  intro Hs. split; [reflexivity|]. exists (cm (1,0)), (cm (1,0)), (cm (/ s, 0)).
  repeat split; intros i j Hi Hj; assert (i = 0%nat) by lia; assert (j = 0%nat) by lia; subst; unfold fmul, nsum; cbn [seq ksum];
    change (@sadd Cs) with cadd; change (@smul Cs) with cmul; change (@s0 Cs) with (0,0); unfold cm, fid, cdiag; cbn [Nat.eqb nth];
    change (@s1 Cs) with (1,0); apply cplx_eq; simpl; try field; try exact Hs; try ring.
Qed.
Lemma spectrum1_at (H S : cmat) h s : H 0%nat 0%nat = (h,0) -> S 0%nat 0%nat = (s,0) -> s <> 0 -> spectrum 1 H S [h / s].
Proof.
  intros EH ES Hs. apply (spectrum_proper 1 (cm (h,0)) H (cm (s,0)) S); [| |apply spectrum1; exact Hs];
    intros i j Hi Hj; assert (i = 0%nat) by lia; assert (j = 0%nat) by lia; subst; unfold cm; symmetry; assumption.
Qed.
(** two one band models with the same neighbors and flags but different symmetries pass the assertions of __add__ *)
Theorem C31_bsm_union_refuted : ~ (forall n d1 d2 a b k E1 E2, bsm_add_ok a b ->
  bsm_energies n d1 a k E1 -> bsm_energies n d2 b k E2 -> bsm_energies n (d1 + d2) (bsm_add d1 a b) k (E1 ++ E2)).
Proof.
  intro A.
  set (a := MkBsm true false false [one1] [rv1 0; rv1 1] hop1).
  set (b := MkBsm true false false [one1; neg1] [rv1 0; rv1 1] hop1).
  assert (F : forall ops, bsm_f 1 (MkBsm true false false ops [rv1 0; rv1 1] hop1) (rv1 0) 0%nat 0%nat = (2 * INR (length ops), 0)).
  { intro ops. unfold bsm_f, hop1. cbn [bparams]. rewrite herm_join. cbn [length Nat.sub]. rewrite csum1.
    rewrite coef_exp by (reflexivity || (simpl; lia)). unfold e_sum, dshift. cbn [bcos bops nth].
    rewrite (csum_ext _ _ (fun _ => cre 1)).
    - rewrite csum_one, bsm_coef0. unfold cm. csolve.
    - intros s _. rewrite dot1. unfold rv1 at 1. rewrite Rmult_0_l, Rmult_0_r. apply cexp_0. }
  assert (Id : fid (K:=Cs) 0%nat 0%nat = (1,0)) by reflexivity.
  pose proof (spectrum1_at (bsm_f 1 a (rv1 0)) (fid (K:=Cs)) _ _ (F [one1]) Id ltac:(lra)) as SA.
  pose proof (spectrum1_at (bsm_f 1 b (rv1 0)) (fid (K:=Cs)) _ _ (F [one1; neg1]) Id ltac:(lra)) as SB.
  assert (OK : bsm_add_ok a b) by (repeat split; discriminate).
  pose proof (A 1%nat 1%nat 1%nat a b (rv1 0) _ _ OK SA SB) as U.
  assert (OK2 : bsm_add_ok a a) by (repeat split; discriminate).
  pose proof (C31_bsm_union_partial 1 1 1 a a (rv1 0) _ _ OK2 eq_refl eq_refl SA SA) as U2.
  change (bsm_add 1 a b) with (bsm_add 1 a a) in U.
  pose proof (spectrum_unique _ _ _ _ _ U U2) as P. simpl in P.
  assert (I4 : In (2 * (1 + 1) / 1) [2 * 1 / 1; 2 * 1 / 1]).
  { apply (Permutation_in _ P). right. left. reflexivity. }
  destruct I4 as [I|[I|[]]]; lra.
Qed.

(** AsymTightBindingModel *)
Definition atb_energies n d (a : atb) k (E : list R) : Prop := spectrum d (fs_f n (tH a) k) (fs_f n (tS a) k) E.
Definition wf_atb n (a : atb) : Prop := wf_series n (tH a) /\ wf_series n (tS a).
Theorem C31_scale : forall n d a k E c, wf_atb n a -> atb_energies n d a k E ->
  atb_energies n d (atb_scale c a) k (map (fun x => c * x) E).
Proof.
  intros n d a k E c ((_ & Hne & _) & _) HE. unfold atb_energies in *.
  apply (spectrum_proper d (fscale (K:=Cs) (cre c) (fs_f n (tH a) k)) _ (fs_f n (tS a) k) _);
    [|reflexivity|apply spectrum_scale; exact HE].
  intros i j _ _. unfold fs_f, atb_scale. cbn [tH hnb hH]. rewrite herm_scale by exact Hne. reflexivity.
Qed.
(** sum of two models over the same neighbors (otherwise the assertion l.184 fails) *)
Definition atb_add_ok (a b : atb) : Prop :=
  hnb (tH a) = hnb (tH b) /\ hnb (tS a) = hnb (tS b) /\
  length (hH (tH a)) = length (hH (tH b)) /\ length (hH (tS a)) = length (hH (tS b)).
Theorem C31_union : forall n d1 d2 a b k E1 E2, wf_atb n a -> wf_atb n b -> atb_add_ok a b ->
  atb_energies n d1 a k E1 -> atb_energies n d2 b k E2 -> atb_energies n (d1 + d2) (atb_add d1 a b) k (E1 ++ E2).
Proof.
  intros n d1 d2 a b k E1 E2 ((_ & Hn1 & _) & (_ & Hn2 & _)) _ (EH & ES & LH & LS) H1 H2. unfold atb_energies in *.
  apply (spectrum_proper (d1 + d2) (dsum (K:=Cs) d1 (fs_f n (tH a) k) (fs_f n (tH b) k)) _ (dsum (K:=Cs) d1 (fs_f n (tS a) k) (fs_f n (tS b) k)) _).
  - intros i j _ _. symmetry. unfold fs_f, atb_add, fs_add. cbn [tH hnb hH]. rewrite herm_dsum, EH by assumption. reflexivity.
  - intros i j _ _. symmetry. unfold fs_f, atb_add, fs_add. cbn [tS hnb hH]. rewrite herm_dsum, ES by assumption. reflexivity.
  - apply spectrum_dsum; assumption.
Qed.
(** FULL STATEMENT: without the hypothesis on S; false, see C31_shift_refuted *)
Theorem C31_shift_partial : forall n d a k E e, wf_atb n a ->
  (forall l, (0 < l < length (hH (tS a)))%nat -> forall i j, nth l (hH (tS a)) fzero i j = (0,0)) ->
  atb_energies n d a k E -> atb_energies n d (atb_shift e a) k (map (fun x => x + e) E).
Proof.
  intros n d a k E e ((_ & Hn1 & Z1) & (_ & Hn2 & Z2)) HS HE. unfold atb_energies in *.
  apply (spectrum_proper d (fadd (K:=Cs) (fs_f n (tH a) k) (fscale (K:=Cs) (cre e) (fs_f n (tS a) k))) _ (fs_f n (tS a) k) _);
    [|reflexivity|apply spectrum_shift; exact HE].
  intros i j _ _. unfold fs_f at 3. unfold atb_shift. cbn [tH hnb hH]. rewrite herm_add_first by exact Hn1.
  rewrite (fs_coef_zero n (hnb (tH a)) k 0 Z1).
  assert (ES : fs_f n (tS a) k i j = nth 0 (hH (tS a)) fzero i j).
  { unfold fs_f. rewrite herm_join. rewrite csum_zero.
    - rewrite (fs_coef_zero n (hnb (tS a)) k 0 Z2). csolve.
    - intros l Hl. apply in_seq in Hl. rewrite !HS by lia. csolve. }
  unfold fadd, fscale. rewrite ES. change (@sadd Cs) with cadd. change (@smul Cs) with cmul. unfold fs_f.
  set (X := herm_series _ _ _ _). csolve.
Qed.
(** one band with the overlap S(k) = 1 + cos(2 pi k)/2: adding 1 to the model changes the energy 0 at k = 0 into 2/3 *)
Theorem C31_shift_refuted : ~ (forall n d a k E e, wf_atb n a -> atb_energies n d a k E ->
  atb_energies n d (atb_shift e a) k (map (fun x => x + e) E)).
Proof.
  intro A.
  set (a := MkAtb (MkHfs [rv1 0; rv1 1] [cm (0,0); cm (0,0)]) (MkHfs [rv1 0; rv1 1] [cm (1,0); cm (1/4,0)])).
  assert (WF : wf_atb 1 a) by (repeat split; discriminate).
  assert (F : forall h0 h1, fs_f 1 (MkHfs [rv1 0; rv1 1] [h0; cm h1]) (rv1 0) 0%nat 0%nat = cadd (h0 0%nat 0%nat) (cadd h1 (cconj h1))).
  { intros h0 h1. unfold fs_f. cbn [hnb hH]. rewrite herm_join. cbn [length Nat.sub]. rewrite csum1. unfold fs_coef, nb. cbn [nth].
    rewrite !dot1. unfold rv1, cm. rewrite !Rmult_0_l, Rmult_0_r, cexp_0. csolve. }
  assert (S0 : spectrum 1 (fs_f 1 (tH a) (rv1 0)) (fs_f 1 (tS a) (rv1 0)) [0 / (3/2)]).
  { apply spectrum1_at; [unfold a; cbn [tH]; rewrite F; unfold cm; csolve|unfold a; cbn [tS]; rewrite F; unfold cm; csolve|lra]. }
  pose proof (A 1%nat 1%nat a (rv1 0) _ 1 WF S0) as B.
  assert (S1 : spectrum 1 (fs_f 1 (tH (atb_shift 1 a)) (rv1 0)) (fs_f 1 (tS (atb_shift 1 a)) (rv1 0)) [1 / (3/2)]).
  { apply spectrum1_at; [|unfold a; cbn [tS atb_shift]; rewrite F; unfold cm; csolve|lra].
    unfold a, atb_shift. cbn [tH tS hnb hH nth add_first]. rewrite F. unfold fadd, fscale, cm.
    change (@sadd Cs) with cadd. change (@smul Cs) with cmul. csolve. }
  pose proof (spectrum_unique _ _ _ _ _ B S1) as P. simpl in P. apply Permutation_length_1 in P. lra.
Qed.
(** a two band model (levels 1 and 3) and a one band model *)
Example C31_example : forall e c,
  let b := MkBsm true false false [one1] [rv1 0] [fun i j => if Nat.eqb i j then if Nat.eqb i 0 then (1,0) else (3,0) else (0,0)] in
  bsm_energies 1 2 b (rv1 0) [1; 3] /\ bsm_energies 1 2 (bsm_shift e b) (rv1 0) [1 + e; 3 + e] /\
  bsm_energies 1 2 (bsm_scale c b) (rv1 0) [c * 1; c * 3] /\ bsm_energies 1 4 (bsm_add 2 b b) (rv1 0) [1; 3; 1; 3].
Proof.
  intros e c b.
  assert (Hne : bparams b <> []) by discriminate.
  assert (B : bsm_energies 1 2 b (rv1 0) [1; 3]).
  { unfold bsm_energies. split; [reflexivity|]. exists (fid (K:=Cs)), (fid (K:=Cs)), (fid (K:=Cs)).
    assert (F : forall i j, bsm_f 1 b (rv1 0) i j = if Nat.eqb i j then if Nat.eqb i 0 then (1,0) else (3,0) else (0,0)).
    { intros i j. unfold bsm_f, b. cbn [bparams]. rewrite herm_join. cbn [length Nat.sub seq ksum nth]. rewrite bsm_coef0.
      change (@s0 Cs) with (0,0). destruct (Nat.eqb i j); [destruct (Nat.eqb i 0)|]; csolve. }
    split; [apply fmul_id_l|]. split; [apply fmul_id_l|]. split; [apply fmul_id_l|].
    rewrite (fmul_id_r (K:=Cs)). rewrite (fmul_id_l (K:=Cs) 2 2 (fid (K:=Cs))), (fmul_id_l (K:=Cs)).
    intros i j Hi Hj. rewrite F. unfold cdiag. destruct i as [|[|i]]; [| |lia]; destruct j as [|[|j]]; try lia; reflexivity. }
  split; [exact B|]. split; [exact (C31_bsm_shift 1 2 b (rv1 0) _ e Hne B)|].
  split; [exact (C31_bsm_scale 1 2 b (rv1 0) _ c Hne B)|].
  apply (C31_bsm_union_partial 1 2 2 b b (rv1 0) [1; 3] [1; 3]); try reflexivity; try exact B. repeat split; discriminate.
Qed.

(* ------------------------------------------------------------------ *)
(** ** C32 *)
Theorem C32_permute : forall n d a k E order, wf_atb n a -> Permutation order (seq 0 d) ->
  atb_energies n d a k E -> atb_energies n d (atb_permute order a) k E.
Proof.
  intros n d a k E order ((_ & Hn1 & _) & (_ & Hn2 & _)) Hp HE. unfold atb_energies in *.
  apply (spectrum_proper d (perm_mat order (fs_f n (tH a) k)) _ (perm_mat order (fs_f n (tS a) k)) _).
  - intros i j _ _. symmetry. apply herm_permute. exact Hn1.
  - intros i j _ _. symmetry. apply herm_permute. exact Hn2.
  - apply spectrum_permute; assumption.
Qed.
Theorem C32_congruence : forall n d a k E L M, wf_atb n a ->
  feq (K:=Cs) d d (fmul (K:=Cs) d L M) (fid (K:=Cs)) -> feq (K:=Cs) d d (fmul (K:=Cs) d M L) (fid (K:=Cs)) ->
  atb_energies n d a k E -> atb_energies n d (atb_congr d L a) k E.
Proof.
  intros n d a k E L M ((_ & Hn1 & _) & (_ & Hn2 & _)) LM ML HE. unfold atb_energies in *.
  apply (spectrum_proper d (congr d L (fs_f n (tH a) k)) _ (congr d L (fs_f n (tS a) k)) _).
  - intros i j _ _. symmetry. apply herm_congr. exact Hn1.
  - intros i j _ _. symmetry. apply herm_congr. exact Hn2.
  - apply (spectrum_congr d _ _ _ L M); assumption.
Qed.
Definition unitary_mat (d : nat) (u : cmat) : Prop :=
  feq (K:=Cs) d d (fmul (K:=Cs) d u (fadj (K:=Cs) u)) (fid (K:=Cs)) /\ feq (K:=Cs) d d (fmul (K:=Cs) d (fadj (K:=Cs) u) u) (fid (K:=Cs)).
Definition rdiag (g : nat -> R) : cmat := fun i j => if Nat.eqb i j then cre (g i) else cre 0.
Lemma rdiag_inv d g h : (forall i, (i < d)%nat -> g i * h i = 1) -> feq (K:=Cs) d d (fmul (K:=Cs) d (rdiag g) (rdiag h)) (fid (K:=Cs)).
Proof.
  intros E i j Hi Hj. unfold fmul, rdiag, fid. rewrite (nsum_single Cs d i).
  - rewrite Nat.eqb_refl. destruct (Nat.eqb_spec i j) as [->|]; change (@smul Cs) with cmul; change (@s1 Cs) with (1,0); change (@s0 Cs) with (0,0).
    + rewrite <- cre_mul, (E j Hj). reflexivity.
    + csolve.
  - exact Hi.
  - intros k _ Hk. rewrite (proj2 (Nat.eqb_neq i k)) by lia. change (@smul Cs) with cmul; change (@s0 Cs) with (0,0). csolve.
Qed.
Lemma diag_conj_inv d u g h : unitary_mat d u -> (forall i, (i < d)%nat -> g i * h i = 1) ->
  feq (K:=Cs) d d (fmul (K:=Cs) d (fmul (K:=Cs) d (fmul (K:=Cs) d u (rdiag g)) (fadj (K:=Cs) u)) (fmul (K:=Cs) d (fmul (K:=Cs) d u (rdiag h)) (fadj (K:=Cs) u))) (fid (K:=Cs)).
Proof.
  intros (U1 & U2) E.
  rewrite <- (fmul_assoc (K:=Cs) d d d d (fmul (K:=Cs) d u (rdiag g))).
  rewrite (fmul_assoc (K:=Cs) d d d d (fadj (K:=Cs) u)). rewrite (fmul_assoc (K:=Cs) d d d d (fadj (K:=Cs) u) u), U2, (fmul_id_l (K:=Cs)).
  rewrite (fmul_assoc (K:=Cs)). rewrite <- (fmul_assoc (K:=Cs) d d d d u). rewrite (rdiag_inv d g h E), (fmul_id_r (K:=Cs)). exact U1.
Qed.
Lemma herm0_f n d h k i j : wf_series n h -> hermitian d (nth 0 (hH h) fzero) -> (i < d)%nat -> (j < d)%nat ->
  fs_f n (MkHfs (hnb h) (herm0 (hH h))) k i j = fs_f n h k i j.
Proof.
  intros (_ & Hne & H0) Hh Hi Hj. unfold fs_f. cbn [hnb hH]. rewrite !herm_join.
  destruct (hH h) as [|p0 p]; [congruence|]. cbn [herm0 length Nat.sub nth] in *. rewrite Nat.sub_0_r. f_equal.
  - apply csum_ext. intros l Hl. apply in_seq in Hl. destruct l; [lia|]. reflexivity.
  - f_equal. unfold fscale, fadd, fadj. change (@smul Cs) with cmul. change (@sadd Cs) with cadd. change (@sconj Cs) with cconj.
    rewrite <- (Hh i j Hi Hj). unfold chalf. csolve.
Qed.
(** normalize: [la], [ev] the eigenvalues and eigenvectors of S(0), [ev2] the (reordered) eigenvectors of H(0);
    only unitarity and positivity are needed *)
Theorem C32_normalize : forall n d a k E la ev ev2, wf_atb n a ->
  hermitian d (nth 0 (hH (tH a)) fzero) -> hermitian d (nth 0 (hH (tS a)) fzero) ->
  unitary_mat d ev -> unitary_mat d ev2 -> (forall i, (i < d)%nat -> 0 < la i) ->
  atb_energies n d a k E -> atb_energies n d (atb_normalize d la ev ev2 a) k E.
Proof.
  intros n d a k E la ev ev2 WF HH HS U (V1 & V2) Hla HE. unfold atb_normalize.
  set (a0 := MkAtb _ _).
  assert (W0 : wf_atb n a0).
  { destruct WF as ((L1 & N1 & Z1) & (L2 & N2 & Z2)). unfold a0. split; (split; [|split]); cbn [tH tS hnb hH]; try assumption.
    - rewrite L1. destruct (hH (tH a)); reflexivity.
    - destruct (hH (tH a)); [congruence|discriminate].
    - rewrite L2. destruct (hH (tS a)); reflexivity.
    - destruct (hH (tS a)); [congruence|discriminate]. }
  assert (E0 : atb_energies n d a0 k E).
  { unfold atb_energies. apply (spectrum_proper d (fs_f n (tH a) k) _ (fs_f n (tS a) k) _); [| |exact HE].
    - intros i j Hi Hj. symmetry. apply (herm0_f n d); try assumption. apply WF.
    - intros i j Hi Hj. symmetry. apply (herm0_f n d); try assumption. apply WF. }
  set (g := fun i => / sqrt (la i)). set (h := fun i => sqrt (la i)).
  assert (GH : forall i, (i < d)%nat -> g i * h i = 1).
  { intros i Hi. unfold g, h. apply Rinv_l. apply Rgt_not_eq. apply sqrt_lt_R0. apply Hla. exact Hi. }
  assert (HG : forall i, (i < d)%nat -> h i * g i = 1) by (intros; rewrite Rmult_comm; auto).
  assert (E1 : atb_energies n d (atb_congr d (inv_sqrt_mat d la ev) a0) k E).
  { apply (C32_congruence n d a0 k E _ (fmul (K:=Cs) d (fmul (K:=Cs) d ev (rdiag h)) (fadj (K:=Cs) ev)) W0).
    - exact (diag_conj_inv d ev g h U GH).
    - exact (diag_conj_inv d ev h g U HG).
    - exact E0. }
  apply (C32_congruence n d _ k E ev2 (fadj (K:=Cs) ev2)); try assumption.
  destruct W0 as ((L1 & N1 & Z1) & (L2 & N2 & Z2)). split; (split; [|split]); cbn [tH tS hnb hH atb_congr fs_map]; try assumption.
  - rewrite map_length. exact L1.
  - destruct (hH (tH a0)); [congruence|discriminate].
  - rewrite map_length. exact L2.
  - destruct (hH (tS a0)); [congruence|discriminate].
Qed.
(** two coupled levels, order (1, 0) *)
Definition lev2 : atb := MkAtb (MkHfs [rv1 0] [fun i j => if Nat.eqb i j then if Nat.eqb i 0 then (1,0) else (3,0) else (0,0)])
                               (MkHfs [rv1 0] [fid (K:=Cs)]).
Example C32_example : atb_energies 1 2 lev2 (rv1 0) [1; 3] /\ atb_energies 1 2 (atb_permute [1; 0]%nat lev2) (rv1 0) [1; 3] /\
  fs_f 1 (tH (atb_permute [1; 0]%nat lev2)) (rv1 0) 0%nat 0%nat = (3,0).
Proof.
  assert (C0 : forall k, fs_coef 1 [rv1 0] k 0 = (1,0)) by (intro; apply fs_coef_zero; intros; reflexivity).
  assert (F : forall x i j, fs_f 1 (MkHfs [rv1 0] [x]) (rv1 0) i j = x i j).
  { intros x i j. unfold fs_f. cbn [hnb hH]. rewrite herm_join. cbn [length Nat.sub seq ksum nth]. rewrite C0. change (@s0 Cs) with (0,0). csolve. }
  assert (B : atb_energies 1 2 lev2 (rv1 0) [1; 3]).
  { unfold atb_energies. split; [reflexivity|]. exists (fid (K:=Cs)), (fid (K:=Cs)), (fid (K:=Cs)). unfold lev2. cbn [tH tS].
    assert (FS : feq (K:=Cs) 2 2 (fs_f 1 (MkHfs [rv1 0] [fid (K:=Cs)]) (rv1 0)) (fid (K:=Cs))) by (intros i j _ _; apply F).
    split; [apply fmul_id_l|]. split; [apply fmul_id_l|]. split; [rewrite FS; apply fmul_id_l|].
    rewrite FS. rewrite (fmul_id_r (K:=Cs)). rewrite (fmul_id_l (K:=Cs) 2 2 (fid (K:=Cs))), (fmul_id_l (K:=Cs)).
    intros i j Hi Hj. rewrite F. unfold cdiag. destruct i as [|[|i]]; [| |lia]; destruct j as [|[|j]]; try lia; reflexivity. }
  split; [exact B|]. split.
  - apply C32_permute; [|apply perm_swap|exact B]. repeat split; discriminate.
  - unfold lev2, atb_permute, fs_map. cbn [tH tS hnb hH map]. rewrite F. reflexivity.
Qed.
Print Assumptions C26_hermitian. Print Assumptions C27_periodic. Print Assumptions C28_gradient. Print Assumptions C28_bsm_hessian.
Print Assumptions C29_convention_partial. Print Assumptions C29_refuted. Print Assumptions C30_roundtrip. Print Assumptions C31_union.
Print Assumptions C31_shift_refuted. Print Assumptions C31_bsm_union_refuted. Print Assumptions C32_normalize. Print Assumptions C32_permute.

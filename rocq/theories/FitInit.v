(** Properties C116 and C117: keep_zeros and train_k0 of optimize, init_from_ref. *)
From Coq Require Import List Arith ZArith Reals Lra Lia Bool Setoid Morphisms Permutation Sorted.
From Coquelicot Require Import Coquelicot.
Import List ListNotations.
From Verif Require Import SRing LMat FMat CplxR UrepModel UrepProofs FourierModel FourierProofs BsmProofs SpecProofs FourierProps EigModel EigProofs EigBase EigProps EigHess EigBad TbmModel TbmProps FitModel FitBase FitProps FitNorm.
Local Open Scope R_scope.

Lemma reg_zero reg P i x y : P i x y = (0, 0) -> bsm_reg reg P i x y = (0, 0).
Proof. intro H. unfold bsm_reg. destruct (Nat.eqb i 0); [exact H|]. unfold fscale. rewrite H. apply cplx_eq; simpl; ring. Qed.
Lemma zero_is_zero : is_zero (0, 0) = true.
Proof. unfold is_zero. apply Rltb_true. unfold cabs2. simpl. assert (0 < / 10 ^ 28) by (apply Rinv_0_lt_compat; lra). lra. Qed.
Lemma step_zero eigh np off ne bw lr acc tk symz reg bs P last i x y : P i x y = (0, 0) -> last i x y = (0, 0) ->
  let q := bsm_step eigh np off ne bw lr acc tk true symz reg bs P last in fst q i x y = (0, 0) /\ snd q i x y = (0, 0).
Proof.
  intros HP HL. unfold bsm_step. cbn [fst snd]. unfold fadd, fscale. rewrite (reg_zero reg P i x y HP), zero_is_zero, HL. cbn [andb]. split; apply cplx_eq; simpl; ring.
Qed.
(** in the loop the entries that are 0 stay 0 *)
Theorem C116_zeros_in_loop : forall eigh np off ne bw lr tk symz reg its P i x y, P i x y = (0, 0) ->
  bsm_run eigh np off ne bw lr tk true symz reg its P i x y = (0, 0).
Proof.
  intros eigh np off ne bw lr tk symz reg its P i x y HP. unfold bsm_run.
  enough (G : forall q : pars * pars, fst q i x y = (0, 0) -> snd q i x y = (0, 0) ->
    fst (fold_left (fun q it => bsm_step eigh np off ne bw lr (snd it) tk true symz reg (fst it) (fst q) (snd q)) its q) i x y = (0, 0)) by (apply G; [exact HP|reflexivity]).
  induction its as [|it its IH]; intros q H1 H2; [exact H1|]. cbn [fold_left]. apply IH; apply step_zero; assumption.
Qed.
Print Assumptions C116_zeros_in_loop.
(** train_k0 = False keeps the matrix params[0] in the loop ... *)
Theorem C116_k0_in_loop : forall eigh np off ne bw lr kz symz reg its P x y, bsm_run eigh np off ne bw lr false kz symz reg its P 0%nat x y = P 0%nat x y.
Proof.
  intros eigh np off ne bw lr kz symz reg its P x y. unfold bsm_run.
  enough (G : forall q : pars * pars, fst q 0%nat x y = P 0%nat x y -> snd q 0%nat x y = (0, 0) ->
    fst (fold_left (fun q it => bsm_step eigh np off ne bw lr (snd it) false kz symz reg (fst it) (fst q) (snd q)) its q) 0%nat x y = P 0%nat x y) by (apply G; reflexivity).
  induction its as [|it its IH]; intros q H1 H2; [exact H1|]. cbn [fold_left]. apply IH; unfold bsm_step; cbn [fst snd negb andb Nat.eqb]; unfold fadd, fscale, bsm_reg, fzero; cbn [Nat.eqb]; rewrite H2.
  - rewrite H1. destruct (kz && is_zero (P 0%nat x y)); apply cplx_eq; simpl; ring.
  - destruct (kz && is_zero (fst q 0%nat x y)); apply cplx_eq; simpl; ring.
Qed.
Lemma dot_zero n r : dot n (fun _ => 0) r = 0.
Proof. unfold dot. apply (nsum_zero Rs). intros i _. apply Rmult_0_l. Qed.
Lemma coef_gamma n b i : bcos b = true -> i <> 0%nat -> bsm_coef n b (fun _ => 0) i = (0, 0).
Proof.
  intros Hc Hi. unfold bsm_coef. rewrite (proj2 (Nat.eqb_neq i 0) Hi).
  induction (bops b) as [|s l IH]; [reflexivity|]. cbn [ksum]. rewrite IH. rewrite dot_zero, Rmult_0_r. unfold coeff_fun. rewrite Hc. rewrite cexp_0, cos_0, sin_0.
  destruct (bexp b), (i / length (bnb b))%nat; apply cplx_eq; simpl; ring.
Qed.
Lemma f_gamma n b x y : bcos b = true -> bsm_f n b (fun _ => 0) x y = nth 0 (bparams b) fzero x y.
Proof.
  intro Hc. unfold bsm_f. rewrite herm_join. rewrite (csum_ext _ _ (fun _ => (0, 0))).
  - rewrite bsm_coef0. assert (Z : csum (seq 1 (length (bparams b) - 1)) (fun _ => (0, 0)) = (0, 0)) by (apply (ksum_zero Cs); reflexivity). rewrite Z. apply cplx_eq; simpl; ring.
  - intros l Hl. apply in_seq in Hl. rewrite coef_gamma by (assumption || lia). apply cplx_eq; simpl; ring.
Qed.
(** ... and with cos_reduced the Hamiltonian at k = 0 *)
Theorem C116_f0_in_loop : forall eigh n np off ne bw lr kz symz reg its b x y, bcos b = true -> (0 < np)%nat ->
  bsm_f n (set_params b (map (bsm_run eigh np off ne bw lr false kz symz reg its (fun l => nth l (bparams b) fzero)) (seq 0 np))) (fun _ => 0) x y = bsm_f n b (fun _ => 0) x y.
Proof.
  intros eigh n np off ne bw lr kz symz reg its b x y Hc Hn. rewrite !f_gamma by exact Hc. cbn [set_params bparams]. destruct np; [lia|]. cbn [seq map nth]. apply C116_k0_in_loop.
Qed.
Print Assumptions C116_f0_in_loop.
(** the step from 0 to 1/2 is not taken with keep_zeros, and not with train_k0 = False *)
Example C116_ex : let run tk kz := bsm_run eg1 1 0 1 (fun _ => 1) 1 tk kz None 1 [(bsm_prep 1 None two_smp, 1)] pz 0%nat 0%nat 0%nat in
  run true false = (1 / 2, 0) /\ run true true = (0, 0) /\ run false false = (0, 0).
Proof.
  intro run. split; [|split; [apply C116_zeros_in_loop; reflexivity|apply C116_k0_in_loop]].
  unfold run, bsm_run. cbn [fold_left fst snd]. unfold bsm_step. cbn [fst negb andb].
  change (bsm_reg 1 pz) with (fun i : nat => if Nat.eqb i 0 then pz i else fscale (K:=Cs) (cre 1) (pz i)).
  assert (E : bsm_add eg1 1 0 1 (fun _ => 1) (bsm_prep 1 None two_smp) (bsm_reg 1 pz) 0%nat 0%nat 0%nat = (1 / 2, 0)).
  { rewrite <- two_add. unfold two_smp. rewrite !prep_add_entry. apply (nsum_ext Cs). intros s _. refine (f_equal2 cmul eq_refl _).
    assert (H : forall f, fit_H 1 f (bsm_reg 1 pz) 0%nat 0%nat = fit_H 1 f pz 0%nat 0%nat) by (intro f; rewrite !fit_H_entry, !nsum1; reflexivity).
    unfold eg1. cbn [fst snd]. rewrite H. reflexivity. }
  unfold bsm_reg in E. unfold fadd, fscale. cbn [Nat.eqb]. unfold fadd, fscale in E. rewrite E. unfold pz, fzero. apply cplx_eq; simpl; field.
Qed.
(** optimize starts with normalize, which rotates to the eigenvectors of params[0]: the zeros on the diagonal of [[0, 1], [1, 0]] become 1 and -1 *)
Theorem C116_keep_zeros_refuted : ~ (forall eigh d off ne bw lr tk reg its b i x y, (forall H, hermitian d H -> eigenbasis d H (fid (K:=Cs)) (eigh H)) ->
  bparams b <> [] -> (x < d)%nat -> (y < d)%nat -> nth i (bparams b) fzero x y = (0, 0) ->
  nth i (bparams (bsm_optimize eigh d off ne bw lr tk true reg its b)) fzero x y = (0, 0)).
Proof.
  intro A. set (b := MkBsm false false true [one1] [rv1 0] [m22 0 1 1 0]).
  pose proof (A eigh22 2%nat 0%nat 2%nat (fun _ => 1) 1 true 1 [] b 0%nat 0%nat 0%nat eigh22_solves ltac:(discriminate) ltac:(lia) ltac:(lia) eq_refl) as Q. clear A.
  set (b1 := bsm_normalize eigh22 2 None b) in *.
  assert (P1 : exists q, bparams b1 = [q] /\ q 0%nat 0%nat = (1, 0) /\ q 0%nat 1%nat = (0, 0) /\ q 1%nat 0%nat = (0, 0)).
  { unfold b1, bsm_normalize. cbn zeta. unfold bsm_herm. cbn [b bexp binv negb orb bparams herm0 map length Nat.ltb Nat.leb Nat.sub seq fold_left set_params nth].
    eexists. split; [reflexivity|]. set (x := fscale (K:=Cs) chalf (fadd (K:=Cs) (m22 0 1 1 0) (fadj (K:=Cs) (m22 0 1 1 0)))).
    assert (X : forall i j, (i < 2)%nat -> (j < 2)%nat -> x i j = m22 0 1 1 0 i j) by (intros i j Hi Hj; unfold x, fscale, fadd, fadj, chalf; two i Hi; two j Hj; apply cplx_eq; simpl; field).
    unfold eigh22. rewrite !X by lia. cbn [m22 cre fst snd]. destruct (Req_EM_T (1 * 1 + 0 * 0) 0) as [Z|_]; [lra|]. cbn [snd].
    replace ((0 - 0) / 2 + sqrt ((0 - 0) / 2 * ((0 - 0) / 2) + (1 * 1 + 0 * 0))) with 1.
    2:{ replace ((0 - 0) / 2 * ((0 - 0) / 2) + (1 * 1 + 0 * 0)) with 1 by field. rewrite sqrt_1. field. }
    replace (1 * 1 + 0 * 0 + 1 * 1) with 2 by ring. assert (S2 : / sqrt 2 * / sqrt 2 = / 2). { rewrite <- Rinv_mult. f_equal. apply sqrt_sqrt. lra. }
    set (s := / sqrt 2) in *. unfold congr, fmul. rewrite !nsum2. unfold fadj. rewrite !X by lia. split; [|split]; apply cplx_eq; simpl; try ring.
    transitivity (2 * (s * s)); [ring|]. rewrite S2. field. }
  destruct P1 as (q & Eq & q00 & q01 & q10). unfold bsm_optimize in Q. fold b1 in Q. rewrite Eq in Q. cbn [length seq map] in Q. unfold bsm_run in Q. cbn [fold_left fst nth] in Q.
  unfold bsm_normalize in Q. cbn zeta in Q. unfold bsm_herm in Q. cbn [set_params bexp binv bparams] in Q.
  replace (bexp b1) with false in Q by reflexivity. cbn [negb orb herm0 map length Nat.ltb Nat.leb nth] in Q.
  set (x := fscale (K:=Cs) chalf (fadd (K:=Cs) q (fadj (K:=Cs) q))) in *.
  assert (X : x 0%nat 0%nat = (1, 0)) by (unfold x, fscale, fadd, fadj, chalf; rewrite q00; apply cplx_eq; simpl; field).
  assert (X1 : x 0%nat 1%nat = (0, 0)) by (unfold x, fscale, fadd, fadj, chalf; rewrite q01, q10; apply cplx_eq; simpl; field).
  clearbody x. revert Q. unfold eigh22. rewrite X, X1. cbn [fst snd]. destruct (Req_EM_T (0 * 0 + 0 * 0) 0) as [_|Z]; [|exfalso; apply Z; ring]. cbn [snd].
  unfold congr, fmul. rewrite !nsum2. unfold fadj, fid. cbn [Nat.eqb]. rewrite X, X1. intro Q. apply (f_equal fst) in Q. simpl in Q. lra.
Qed.
Print Assumptions C116_keep_zeros_refuted.
(** without cos_reduced the Hamiltonian at k = 0 changes with train_k0 = False: one sample k = 0 with the reference 1, the model 2 p cos x *)
Definition k0_b : bsm := MkBsm false false true [one1] [rv1 0; rv1 1] [cm (0, 0); cm (0, 0)].
Theorem C116_k0_refuted : ~ (forall eigh n d off ne bw lr reg its b, (forall H, hermitian d H -> eigenbasis d H (fid (K:=Cs)) (eigh H)) -> bparams b <> [] ->
  forall x y, (x < d)%nat -> (y < d)%nat ->
  bsm_f n (set_params b (map (bsm_run eigh (length (bparams b)) off ne bw lr false false None reg its (fun l => nth l (bparams b) fzero)) (seq 0 (length (bparams b))))) (fun _ => 0) x y = bsm_f n b (fun _ => 0) x y).
Proof.
  intro A. pose proof (A eg1 1%nat 1%nat 0%nat 1%nat (fun _ => 1) 1 1 [(bsm_prep 2 None (samples 1 (fun _ => bsm_coef 1 k0_b (fun _ => 0)) (fun _ => 1) (fun _ _ => 1)), 1)] k0_b eg1_basis ltac:(discriminate) 0%nat 0%nat Nat.lt_0_1 Nat.lt_0_1) as Q. clear A.
  assert (CO : forall p, bsm_coef 1 (set_params k0_b p) (fun _ => 0) 1 = (1, 0)).
  { intro p. unfold bsm_coef, set_params, k0_b. cbn [Nat.eqb bnb bops length bexp]. change (1 / 2)%nat with 0%nat. change (1 mod 2 + 0)%nat with 1%nat. cbn [ksum]. unfold coeff_fun. cbn [bexp bcos].
    rewrite dot_zero, Rmult_0_r, cos_0. apply cplx_eq; simpl; ring. }
  assert (F : forall p0 p1 : cmat, bsm_f 1 (set_params k0_b [p0; p1]) (fun _ => 0) 0%nat 0%nat = cadd (cadd (p1 0%nat 0%nat) (cconj (p1 0%nat 0%nat))) (p0 0%nat 0%nat)).
  { intros p0 p1. unfold bsm_f. rewrite herm_join. cbn [set_params bparams length Nat.sub]. rewrite csum1. change (bsm_coef 1 _ _ 1) with (bsm_coef 1 (set_params k0_b [p0; p1]) (fun _ => 0) 1). rewrite CO. cbn [nth]. apply cplx_eq; simpl; ring. }
  pose proof (F (cm (0, 0)) (cm (0, 0))) as F0. change (set_params k0_b [cm (0, 0); cm (0, 0)]) with k0_b in F0. rewrite F0 in Q. cbn [k0_b bparams length seq map] in Q. rewrite F in Q.
  rewrite C116_k0_in_loop in Q. unfold bsm_run in Q. cbn [fold_left fst snd] in Q. unfold bsm_step in Q. cbn [fst snd negb andb Nat.eqb] in Q. unfold fadd, fscale in Q. rewrite prep_add_entry in Q.
  rewrite nsum1 in Q. unfold win_mat in Q. rewrite nsum1 in Q. unfold bsm_anti, half0, fit_q, mean, sq_sum, eg1 in Q. rewrite !rsum1 in Q. unfold nsum in Q at 1. cbn [seq ksum] in Q.
  rewrite !fit_H_entry in Q. unfold nsum in Q. cbn [seq ksum] in Q. pose proof (CO [cm (0, 0); cm (0, 0)]) as C1. change (set_params k0_b [cm (0, 0); cm (0, 0)]) with k0_b in C1.
  unfold fid in Q. cbn [Nat.eqb Nat.add fst snd] in Q. rewrite C1, bsm_coef0 in Q. unfold bsm_reg, fscale, cm, chalf, cabs2 in Q. cbn [Nat.eqb nth] in Q. apply (f_equal fst) in Q. simpl in Q. rewrite ?dot_zero, ?Rmult_0_r, ?cos_0 in Q. field_simplify in Q. lra.
Qed.
Print Assumptions C116_k0_refuted.

(* ------------------------------------------------------------------ *)
(** ** C117 *)
Lemma spectrum_diag e H : (forall i j, (i < length e)%nat -> (j < length e)%nat -> H i j = diag_list e i j) -> spectrum (length e) H (fid (K:=Cs)) e.
Proof.
  intro HE. split; [reflexivity|]. exists (fid (K:=Cs)), (fid (K:=Cs)), (fid (K:=Cs)). split; [apply fmul_id_l|]. split; [apply fmul_id_l|]. split; [apply fmul_id_l|].
  rewrite (fmul_id_r (K:=Cs)), (fmul_id_l (K:=Cs) (length e) (length e) (fid (K:=Cs))), (fmul_id_l (K:=Cs)). intros i j Hi Hj. rewrite HE by assumption. reflexivity.
Qed.
(** with cos_reduced the bands at k = 0 are the given ones, continued below and above by the first and the last one *)
Theorem C117_gamma : forall n b off add e rnd, bcos b = true ->
  bsm_energies n (length (ref_pad off add e)) (bsm_init b off add e rnd) (fun _ => 0) (ref_pad off add e).
Proof.
  intros n b off add e rnd Hc. apply spectrum_diag. intros i j _ _. rewrite f_gamma by exact Hc. reflexivity.
Qed.
(** there are add_bands more bands than in the reference, and the reference is found at band_offset in the sorted bands *)
Theorem C117_window : forall off add e, (off <= add)%nat -> e <> [] -> length (ref_pad off add e) = (length e + add)%nat /\
  (forall j, (j < length e)%nat -> nth (off + j) (ref_pad off add e) 0 = nth j e 0) /\ (StronglySorted Rle e -> StronglySorted Rle (ref_pad off add e)).
Proof.
  intros off add e Hoa He. unfold ref_pad. split; [rewrite !app_length, !repeat_length; lia|]. split.
  - intros j Hj. rewrite app_nth2 by (rewrite repeat_length; lia). rewrite repeat_length. replace (off + j - off)%nat with j by lia. apply app_nth1. exact Hj.
  - intro S. assert (HD : forall x, In x e -> hd 0 e <= x).
    { intros x Hx. destruct e as [|y e]; [destruct Hx|]. apply StronglySorted_inv in S. destruct S as [_ S]. cbn [hd]. destruct Hx as [<-|Hx]; [lra|]. rewrite Forall_forall in S. apply S. exact Hx. }
    assert (LA : forall x, In x e -> x <= last e 0).
    { clear HD Hoa. induction e as [|y e IH]; intros x Hx; [destruct Hx|]. destruct e as [|z e]; [destruct Hx as [<-|[]]; cbn [last]; lra|]. apply StronglySorted_inv in S. destruct S as [S1 S2].
      change (last (y :: z :: e) 0) with (last (z :: e) 0). destruct Hx as [<-|Hx]; [|apply IH; [discriminate|exact S1|exact Hx]]. apply (Rle_trans _ z).
      - rewrite Forall_forall in S2. apply S2. left. reflexivity.
      - apply IH; [discriminate|exact S1|left; reflexivity]. }
    assert (T : StronglySorted Rle (e ++ repeat (last e 0) (add - off))).
    { clear HD Hoa. revert LA. generalize (last e 0) as u. intros u LA. clear He. induction e as [|y e IH].
      - cbn [app]. induction (add - off)%nat as [|m IH]; [constructor|]. cbn [repeat]. constructor; [exact IH|]. apply Forall_forall. intros x Hx. apply repeat_spec in Hx. lra.
      - cbn [app]. apply StronglySorted_inv in S. destruct S as [S1 S2]. constructor; [apply IH; [exact S1|intros x Hx; apply LA; right; exact Hx]|].
        apply Forall_app. split; [exact S2|]. apply Forall_forall. intros x Hx. apply repeat_spec in Hx. subst x. apply LA. left. reflexivity. }
    assert (G : forall m, StronglySorted Rle (repeat (hd 0 e) m ++ e ++ repeat (last e 0) (add - off))).
    { induction m as [|m IHm]; [exact T|]. cbn [repeat app]. constructor; [exact IHm|]. apply Forall_app. split; [apply Forall_forall; intros x Hx; apply repeat_spec in Hx; lra|].
      apply Forall_app. split; apply Forall_forall; intros x Hx; [apply HD; exact Hx|]. apply repeat_spec in Hx. subst x. destruct e as [|y e]; [congruence|]. apply LA. left. reflexivity. }
    apply G.
Qed.
Print Assumptions C117_gamma.
(** the reference bands 5 and 7 with band_offset = 1 and add_bands = 2 *)
Example C117_ex : let b := MkBsm false true true [one1] [rv1 0; rv1 1] [] in
  ref_pad 1 2 [5; 7] = [5; 5; 7; 7] /\ bsm_energies 1 4 (bsm_init b 1 2 [5; 7] [m22 1 2 2 3]) (fun _ => 0) [5; 5; 7; 7].
Proof. intro b. split; [reflexivity|]. apply (C117_gamma 1 b 1 2 [5; 7] [m22 1 2 2 3]). reflexivity. Qed.
(** more bands below than there are added: no band is taken away above, the count is wrong *)
Theorem C117_count_refuted : ~ (forall off add e, e <> [] -> length (ref_pad off add e) = (length e + add)%nat).
Proof. intro A. specialize (A 1%nat 0%nat [0] ltac:(discriminate)). discriminate. Qed.
(** without cos_reduced: one band with the reference 0 and the random matrix 2 has the energy 4/1000 at k = 0 *)
Theorem C117_plain_refuted : ~ (forall n b off add e rnd, (forall p, In p rnd -> hermitian (length e + add) p) ->
  bsm_energies n (length (ref_pad off add e)) (bsm_init b off add e rnd) (fun _ => 0) (ref_pad off add e)).
Proof.
  intro A. pose proof (A 1%nat k0_b 0%nat 0%nat [0] [cm (2, 0)] ltac:(intros p [<-|[]] i j _ _; unfold cm; apply cplx_eq; simpl; ring)) as B. clear A.
  change (ref_pad 0 0 [0]) with [0] in B. cbn [length] in B.
  assert (CO : forall p, bsm_coef 1 (set_params k0_b p) (fun _ => 0) 1 = (1, 0)).
  { intro p. unfold bsm_coef, set_params, k0_b. cbn [Nat.eqb bnb bops length bexp]. change (1 / 2)%nat with 0%nat. change (1 mod 2 + 0)%nat with 1%nat. cbn [ksum]. unfold coeff_fun. cbn [bexp bcos].
    rewrite dot_zero, Rmult_0_r, cos_0. apply cplx_eq; simpl; ring. }
  assert (S1 : bsm_energies 1 1 (bsm_init k0_b 0 0 [0] [cm (2, 0)]) (fun _ => 0) [(4 / 1000) / 1]).
  { apply spectrum1_at; [|reflexivity|lra]. unfold bsm_f. rewrite herm_join. cbn [bsm_init set_params bparams map length Nat.sub]. rewrite csum1.
    match goal with |- context [bsm_coef 1 ?B _ 1] => change (bsm_coef 1 B (fun _ => 0) 1) with (bsm_coef 1 (set_params k0_b []) (fun _ => 0) 1) end. rewrite CO. cbn [nth].
    unfold diag_list, fscale, cm. cbn [Nat.eqb ref_pad repeat app hd last nth Nat.sub]. apply cplx_eq; simpl; field. }
  pose proof (spectrum_unique _ _ _ _ _ B S1) as P. apply Permutation_length_1 in P. lra.
Qed.
(** AsymTightBindingModel.init_from_ref: bands 0 and 1000 at k = 0, and the unit matrix for the neighbor: 2 and 1002 *)
Theorem C117_asym_refuted : ~ (forall n nbs e rnd, length nbs = S (length rnd) -> (forall a, (a < n)%nat -> nth 0 nbs (fun _ => 0) a = 0) -> (forall p, In p rnd -> hermitian (length e) p) ->
  spectrum (length e) (fs_f n (asym_init nbs e rnd) (fun _ => 0)) (fid (K:=Cs)) e).
Proof.
  intro A. pose proof (A 1%nat [rv1 0; rv1 1] [0; 1000] [fid (K:=Cs)] eq_refl ltac:(intros; reflexivity) ltac:(intros p [<-|[]] i j Hi Hj; cbn [length] in Hi, Hj; two i Hi; two j Hj; apply cplx_eq; simpl; ring)) as B. clear A.
  assert (S1 : spectrum 2 (fs_f 1 (asym_init [rv1 0; rv1 1] [0; 1000] [fid (K:=Cs)]) (fun _ => 0)) (fid (K:=Cs)) [2; 1002]).
  { apply (spectrum_diag [2; 1002]). intros i j Hi Hj. cbn [length] in Hi, Hj. unfold fs_f. rewrite herm_join. cbn [asym_init hH hnb map length Nat.sub]. rewrite csum1. unfold fs_coef, nb. cbn [nth].
    rewrite !dot_zero, Rmult_0_r, cexp_0. unfold fscale, fid, diag_list, ref_width. cbn [fold_right hd].
    replace (Rmax 0 (Rmax 1000 0)) with 1000 by (rewrite (Rmax_left 1000 0), Rmax_right; lra). replace (Rmin 0 (Rmin 1000 0)) with 0 by (rewrite (Rmin_right 1000 0), Rmin_left; lra).
    two i Hi; two j Hj; cbn [Nat.eqb nth]; apply cplx_eq; simpl; field. }
  pose proof (spectrum_unique _ _ _ _ _ B S1) as P. assert (IN : In 0 [2; 1002]) by (eapply Permutation_in; [exact P|left; reflexivity]). destruct IN as [I|[I|[]]]; lra.
Qed.
Print Assumptions C117_asym_refuted.

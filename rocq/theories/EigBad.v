(** Examples for C100-C102; properties C103-C105: equal eigenvalues, models with an overlap, single matrices. *)
From Coq Require Import List Arith ZArith Reals Lra Lia Bool FunctionalExtensionality Setoid Morphisms.
From Coquelicot Require Import Coquelicot.
Import List ListNotations.
From Verif Require Import SRing LMat FMat CplxR UrepModel UrepProofs FourierModel FourierProofs BsmProofs SpecProofs FourierProps EigModel EigProofs EigBase EigProps EigHess.
Local Open Scope R_scope.

Definition m22 (a b c d : R) : cmat := fun i j =>
  match i, j with O, O => cre a | O, _ => cre b | _, O => cre c | _, _ => cre d end.
Ltac two i H := destruct i as [|[|i]]; [| |exfalso; lia].
Lemma nsum2 f : nsum (K:=Cs) 2 f = cadd (f 0%nat) (f 1%nat).
Proof. unfold nsum. cbn [seq ksum]. apply cplx_eq; simpl; ring. Qed.
Lemma nsum1 f : nsum (K:=Cs) 1 f = f 0%nat.
Proof. unfold nsum. cbn [seq ksum]. apply cplx_eq; simpl; ring. Qed.
Lemma rsum1 f : rsum 1 f = f 0%nat. Proof. unfold nsum. simpl. ring. Qed.
Lemma rsum2 f : rsum 2 f = f 0%nat + f 1%nat. Proof. unfold nsum. simpl. ring. Qed.
Lemma m22_herm a b d : hermitian 2 (m22 a b b d).
Proof. intros i j Hi Hj. two i Hi; two j Hj; apply cplx_eq; simpl; ring. Qed.

(** two bands: H(x) = [[1, x], [x, -1]], energies -sqrt(1+x^2), sqrt(1+x^2) *)
Definition gapF (x : rvec) : cmat := m22 1 (x 0%nat) (x 0%nat) (-1).
Definition gapF1 (x : rvec) (a : nat) : cmat := m22 0 1 1 0.
Definition gapF2 (a b : nat) : cmat := m22 0 0 0 0.
Definition gap_eigh (_ : cmat) : (nat -> R) * cmat := (fun i => match i with O => -1 | _ => 1 end, m22 0 1 1 0).
Definition gap_e (t : R) : R := sqrt (1 + t * t).
Definition vx : rvec := fun _ => 1.
Lemma gap_basis : eigenbasis 2 (gapF (rv1 0)) (fid (K:=Cs)) (gap_eigh (gapF (rv1 0))).
Proof.
  split; [|split].
  - intros j k Hj Hk. rewrite !csum_nsum, !nsum2. two j Hj; two k Hk; apply cplx_eq; simpl; unfold rv1; ring.
  - intros j k Hj Hk. unfold fmul. rewrite nsum2. rewrite !nsum2. two j Hj; two k Hk; apply cplx_eq; simpl; ring.
  - intros j k Hj Hk. unfold fmul. rewrite nsum2. rewrite !nsum2. two j Hj; two k Hk; apply cplx_eq; simpl; ring.
Qed.
Lemma affine_deriv a b x : is_derive (fun t => a + t * b) x b.
Proof. auto_derive; [exact I|ring]. Qed.
Lemma const_d (a x : R) : is_derive (fun _ => a) x 0.
Proof. apply (is_derive_const (K:=R_AbsRing) (V:=R_NormedModule)). Qed.
Lemma gap_d1 y : mat_deriv 2 gapF y vx (contract 1 vx (gapF1 y)).
Proof.
  intros i j Hi Hj. unfold contract. rewrite csum_nsum, nsum1. two i Hi; two j Hj; split; simpl; unfold vx;
    try (replace (1 * 0 - 0 * 0) with 0 by ring); try (replace (1 * 0 + 0 * 0) with 0 by ring); try (replace (1 * 1 - 0 * 0) with 1 by ring);
    try (replace (1 * 0 + 0 * 1) with 0 by ring); try apply const_d; apply affine_deriv.
Qed.
Lemma gap_d2 b : mat_deriv 2 (fun y => gapF1 y b) (rv1 0) vx (contract 1 vx (fun a => gapF2 a b)).
Proof.
  intros i j Hi Hj. unfold contract. rewrite csum_nsum, nsum1. two i Hi; two j Hj; split; simpl; unfold vx;
    try (replace (1 * 0 - 0 * 0) with 0 by ring); try (replace (1 * 0 + 0 * 0) with 0 by ring); apply const_d.
Qed.
Lemma gap_band : band 2 (fun t => gapF (along (rv1 0) vx t)) (fun _ => fid (K:=Cs)) gap_e.
Proof.
  split.
  - apply derivable_continuous_pt. exists 0. apply is_derive_Reals. unfold gap_e. auto_derive; [nra|field].
    apply Rgt_not_eq. apply sqrt_lt_R0. lra.
  - exists (fun t j => match j with O => cre (1 + gap_e t) | _ => cre t end), 1. split; [lra|]. intros t _.
    assert (Q : gap_e t * gap_e t = 1 + t * t) by (apply sqrt_sqrt; nra). assert (P : 0 <= gap_e t) by apply sqrt_pos. split.
    + exists 0%nat. split; [lia|]. intro E. injection E. lra.
    + intros j Hj. rewrite !csum_nsum, !nsum2. two j Hj; apply cplx_eq; simpl; unfold along, rv1, vx; ring [Q].
Qed.
Lemma gap_sep : separated 2 (fst (gap_eigh (gapF (rv1 0)))) (/ 10 ^ 6).
Proof.
  assert (E : / 10 ^ 6 <= 2) by (rewrite <- (Rinv_inv 2); apply Rinv_le_contravar; lra).
  intros k l Hk Hl Hne. two k Hk; two l Hl; try congruence; simpl; [rewrite Rabs_left by lra|rewrite Rabs_pos_eq by lra]; lra.
Qed.
Lemma gap_simple : simple 2 (fst (gap_eigh (gapF (rv1 0)))) 1.
Proof. intros k Hk Hne. two k Hk; simpl; [lra|congruence]. Qed.
(** slope 0 and curvature 1 of the upper band *)
Example C100_example : eigenbasis 2 (gapF (rv1 0)) (fid (K:=Cs)) (gap_eigh (gapF (rv1 0))) /\
  (let '(la, g, V) := eigh_grad gap_eigh 2 (gapF (rv1 0)) (gapF1 (rv1 0)) in la 1%nat = 1 /\ g 0%nat 1%nat = 0) /\ is_derive gap_e 0 0.
Proof.
  split; [exact gap_basis|].
  assert (G : snd (fst (eigh_grad gap_eigh 2 (gapF (rv1 0)) (gapF1 (rv1 0)))) 0%nat 1%nat = 0).
  { unfold eigh_grad. cbn [gap_eigh fst snd]. unfold eig_diag, eig_el, fmul. rewrite nsum2. rewrite !nsum2. simpl. ring. }
  split; [split; [reflexivity|exact G]|].
  pose proof (C100_eigh_grad gap_eigh 2 1 1 gapF (gapF1 (rv1 0)) (rv1 0) vx gap_e _ _ _ eq_refl gap_basis (m22_herm _ _ _) Nat.lt_1_2
    gap_simple (gap_d1 (rv1 0)) gap_band) as Q.
  assert (E0 : gap_e 0 = 1) by (unfold gap_e; rewrite Rmult_0_l, Rplus_0_r; apply sqrt_1).
  specialize (Q E0). rewrite rsum1 in Q. change (fun a i => eig_diag 2 (m22 0 1 1 0) (gapF1 (rv1 0) a) i) with (snd (fst (eigh_grad gap_eigh 2 (gapF (rv1 0)) (gapF1 (rv1 0))))) in Q.
  cbv beta in Q. replace (vx 0%nat * _) with 0 in Q; [exact Q|]. symmetry.
  change (vx 0%nat * snd (fst (eigh_grad gap_eigh 2 (gapF (rv1 0)) (gapF1 (rv1 0)))) 0%nat 1%nat = 0). rewrite G. ring.
Qed.
Example C101_example : exists la g hs, eigh_grad_hess_one gap_eigh 2 (/ 10 ^ 6) (gapF (rv1 0)) (gapF1 (rv1 0)) gapF2 = Some (la, g, hs) /\
  hs 0%nat 0%nat 1%nat = 1 /\ hs 0%nat 0%nat 0%nat = -1 /\
  is_lim (fun t => (sqrt (1 + t * t) - 1) / (t * t)) 0 (1 / 2).
Proof.
  destruct (eh_item gap_eigh 2 (/ 10 ^ 6) (gapF (rv1 0)) (gapF1 (rv1 0)) gapF2) as [[la g] hs] eqn:E.
  exists la, g, hs.
  assert (S1 : eigh_grad_hess_one gap_eigh 2 (/ 10 ^ 6) (gapF (rv1 0)) (gapF1 (rv1 0)) gapF2 = Some (la, g, hs)).
  { unfold eigh_grad_hess_one. rewrite (proj2 (eselect_false _ _ _) gap_sep). rewrite E. reflexivity. }
  assert (E6 : 0 < / 10 ^ 6) by (apply Rinv_0_lt_compat; apply pow_lt; lra).
  assert (El : la = fst (gap_eigh (gapF (rv1 0)))).
  { unfold eh_item in E. cbn [gap_eigh] in E. injection E as <- _ _. reflexivity. }
  assert (Sp : separated 2 la (/ 10 ^ 6)) by (rewrite El; exact gap_sep).
  assert (Hh : forall i, (i < 2)%nat -> hs 0%nat 0%nat i = match i with O => -1 | _ => 1 end).
  { intros i Hi. destruct (eh_item_hform _ _ _ _ _ _ _ _ _ i E6 Hi E Sp) as (_ & _ & Eh). rewrite Eh. unfold hform.
    rewrite nsum2. unfold eig_diag, eig_el, fmul. rewrite !nsum2. rewrite El. two i Hi; simpl; field. }
  assert (Hg : g 0%nat 1%nat = 0).
  { destruct (eh_item_hform _ _ _ _ _ _ _ _ _ 1%nat E6 Nat.lt_1_2 E Sp) as (_ & Eg & _). rewrite Eg. unfold eig_diag, eig_el, fmul. rewrite !nsum2. simpl. ring. }
  split; [exact S1|]. split; [apply (Hh 1%nat); lia|]. split; [apply (Hh 0%nat); lia|].
  assert (E0 : gap_e 0 = la 1%nat) by (rewrite El; unfold gap_e; rewrite Rmult_0_l, Rplus_0_r; apply sqrt_1).
  destruct (C101_eigh_grad_hess gap_eigh 2 1 (/ 10 ^ 6) gapF gapF1 gapF2 (rv1 0) vx 1 gap_e la g hs (or_introl S1) E6 (m22_herm _ _ _) gap_basis Nat.lt_1_2
    gap_d1 (fun b _ => gap_d2 b) gap_band E0) as [_ Q].
  unfold ddir in Q. rewrite !rsum1 in Q. rewrite (Hh 1%nat Nat.lt_1_2), Hg in Q.
  replace (1 / 2 * (vx 0%nat * vx 0%nat * 1)) with (1 / 2) in Q by (unfold vx; field).
  eapply is_lim_ext; [|exact Q]. intro t. cbv beta. unfold gap_e. rewrite Rmult_0_l, Rplus_0_r, sqrt_1. unfold Rdiv. ring.
Qed.

(** an eigensolver for 2 x 2 matrices *)
Definition eigh22 (X : cmat) : (nat -> R) * cmat :=
  let a := fst (X 0%nat 0%nat) in let c := fst (X 1%nat 1%nat) in let b := X 0%nat 1%nat in
  let B := fst b * fst b + snd b * snd b in
  if Req_EM_T B 0 then (fun i => match i with O => a | _ => c end, fid (K:=Cs))
  else
    let u := (c - a) / 2 + sqrt ((c - a) / 2 * ((c - a) / 2) + B) in
    let s := / sqrt (B + u * u) in
    (fun i => match i with O => a + u | _ => c - u end,
     fun i j => match i, j with O, O => cmul (cre s) b | O, _ => cre (s * u) | _, O => cre (s * u) | _, _ => cmul (cre (- s)) (cconj b) end).
Lemma eigh22_solves : solves 2 eigh22.
Proof.
  intros X HX. unfold eigh22.
  assert (H00 : snd (X 0%nat 0%nat) = 0). { pose proof (f_equal snd (HX 0%nat 0%nat Nat.lt_0_2 Nat.lt_0_2)) as Q. simpl in Q. lra. }
  assert (H11 : snd (X 1%nat 1%nat) = 0). { pose proof (f_equal snd (HX 1%nat 1%nat Nat.lt_1_2 Nat.lt_1_2)) as Q. simpl in Q. lra. }
  assert (H10 : X 1%nat 0%nat = cconj (X 0%nat 1%nat)) by (apply HX; lia).
  destruct (X 0%nat 0%nat) as [a a'] eqn:Ea. destruct (X 1%nat 1%nat) as [c c'] eqn:Ec. destruct (X 0%nat 1%nat) as [p q] eqn:Eb.
  simpl in H00, H11. subst a' c'. cbn [fst snd]. set (B := p * p + q * q). destruct (Req_EM_T B 0) as [Z|Z].
  - assert (p = 0 /\ q = 0) as [-> ->] by (unfold B in Z; split; nra).
    split; [|split].
    + intros j k Hj Hk. rewrite !csum_nsum, !nsum2. cbn [fst snd]. two j Hj; two k Hk; rewrite ?Ea, ?Ec, ?Eb, ?H10; apply cplx_eq; simpl; ring.
    + intros j k Hj Hk. unfold fmul. rewrite nsum2. rewrite !nsum2. cbn [snd]. two j Hj; two k Hk; apply cplx_eq; simpl; ring.
    + intros j k Hj Hk. unfold fmul. rewrite nsum2. rewrite !nsum2. cbn [snd]. two j Hj; two k Hk; apply cplx_eq; simpl; ring.
  - set (h := (c - a) / 2). set (D := sqrt (h * h + B)). set (u := h + D). set (s := / sqrt (B + u * u)).
    assert (Bp : 0 < B). { assert (0 <= B) by (unfold B; nra). lra. }
    assert (DD : D * D = h * h + B) by (apply sqrt_sqrt; nra). assert (D0 : 0 <= D) by apply sqrt_pos.
    assert (U : u * u = 2 * h * u + B) by (unfold u; nra).
    assert (Np : 0 < B + u * u) by nra.
    assert (SS : s * s * (B + u * u) = 1).
    { unfold s. pose proof (sqrt_lt_R0 _ Np). pose proof (sqrt_sqrt (B + u * u) (Rlt_le _ _ Np)) as Q. rewrite <- Q at 3. field. lra. }
    assert (Uc : u * u = (c - a) * u + (p * p + q * q)) by (rewrite U; unfold h, B; field).
    assert (SN : s * s * (p * p) = 1 - s * s * (q * q) - s * s * (u * u)) by (unfold B in SS; lra).
    clearbody u s. split; [|split].
    + intros j k Hj Hk. rewrite !csum_nsum, !nsum2. cbn [fst snd]. two j Hj; two k Hk; rewrite ?Ea, ?Ec, ?Eb, ?H10; apply cplx_eq; simpl.
      * ring.
      * ring.
      * replace (a * (s * u) - 0 * 0 + (p * (- s * p - 0 * - q) - q * (- s * - q + 0 * p))) with (s * (a * u - (p * p + q * q))) by ring.
        replace (p * p + q * q) with (u * u - (c - a) * u) by lra. ring.
      * ring.
      * replace (p * (s * p - 0 * q) - - q * (s * q + 0 * p) + (c * (s * u) - 0 * 0)) with (s * ((p * p + q * q) + c * u)) by ring.
        replace (p * p + q * q) with (u * u - (c - a) * u) by lra. ring.
      * ring.
      * ring.
      * ring.
    + intros j k Hj Hk. unfold fmul. rewrite nsum2. rewrite !nsum2. cbn [snd]. two j Hj; two k Hk; apply cplx_eq; simpl; try ring; ring [SN].
    + intros j k Hj Hk. unfold fmul. rewrite nsum2. rewrite !nsum2. cbn [snd]. two j Hj; two k Hk; apply cplx_eq; simpl; try ring; ring [SN].
Qed.
(** H = 0 (equal eigenvalues), dH = [[3, 1], [1, -1]]: the gradients of the two bands add up to 2, the Hessians to tr ddH = 5 *)
Example C102_example : let r := eh_item eigh22 2 (/ 10 ^ 6) (m22 0 0 0 0) (fun _ => m22 3 1 1 (-1)) (fun _ _ => m22 4 7 7 1) in
  snd (fst r) 0%nat 0%nat + snd (fst r) 0%nat 1%nat = 2 /\ snd r 0%nat 0%nat 0%nat + snd r 0%nat 0%nat 1%nat = 5.
Proof.
  intro r. destruct r as [[la g] hs] eqn:E.
  destruct (C102_sums eigh22 2 (/ 10 ^ 6) (m22 0 0 0 0) (fun _ => m22 3 1 1 (-1)) (fun _ _ => m22 4 7 7 1) la g hs 0 0 E
    (m22_herm _ _ _) (m22_herm _ _ _) (m22_herm _ _ _) eigh22_solves) as [Q1 Q2].
  unfold retr in Q1, Q2. rewrite !rsum2 in Q1, Q2. cbn [fst snd]. rewrite Q1, Q2. simpl. split; ring.
Qed.

(** ** C103 *)
(** H(x) = [[2 x^2, x], [x, 0]]: two bands cross at x = 0, energies x^2 + x sqrt(1+x^2) and x^2 - x sqrt(1+x^2) *)
Definition crF (x : rvec) : cmat := m22 (2 * (x 0%nat * x 0%nat)) (x 0%nat) (x 0%nat) 0.
Definition crF1 (x : rvec) (a : nat) : cmat := m22 (4 * x 0%nat) 1 1 0.
Definition crF2 (a b : nat) : cmat := m22 4 0 0 0.
Definition cr_e (t : R) : R := t * t + t * sqrt (1 + t * t).
Definition cr_eigh (X : cmat) : (nat -> R) * cmat :=
  if Req_EM_T (fst (X 0%nat 1%nat)) 0 then (fun _ => 0, fid (K:=Cs))
  else (fun i => match i with O => -1 | _ => 1 end, m22 (- / sqrt 2) (/ sqrt 2) (/ sqrt 2) (/ sqrt 2)).
Lemma s2 : / sqrt 2 * / sqrt 2 = / 2.
Proof. rewrite <- Rinv_mult, sqrt_sqrt by lra. reflexivity. Qed.
Lemma cr_basis0 : eigenbasis 2 (crF (rv1 0)) (fid (K:=Cs)) (cr_eigh (crF (rv1 0))).
Proof.
  unfold cr_eigh. destruct (Req_EM_T (fst (crF (rv1 0) 0%nat 1%nat)) 0) as [_|F]; [|exfalso; apply F; reflexivity].
  split; [|split].
  - intros j k Hj Hk. rewrite !csum_nsum, !nsum2. two j Hj; two k Hk; apply cplx_eq; simpl; unfold rv1; ring.
  - intros j k Hj Hk. unfold fmul. rewrite nsum2. rewrite !nsum2. cbn [snd]. two j Hj; two k Hk; apply cplx_eq; simpl; ring.
  - intros j k Hj Hk. unfold fmul. rewrite nsum2. rewrite !nsum2. cbn [snd]. two j Hj; two k Hk; apply cplx_eq; simpl; ring.
Qed.
Lemma cr_basis1 (X : cmat) : feq (K:=Cs) 2 2 X (m22 0 1 1 0) -> eigenbasis 2 X (fid (K:=Cs)) (cr_eigh X).
Proof.
  intro HX. unfold cr_eigh. rewrite (HX 0%nat 1%nat Nat.lt_0_2 Nat.lt_1_2). cbn [fst m22 cre].
  destruct (Req_EM_T 1 0) as [F|_]; [exfalso; lra|]. pose proof s2 as Q. set (s := / sqrt 2) in *. clearbody s. split; [|split].
  - intros j k Hj Hk. rewrite !csum_nsum, !nsum2. rewrite !(HX j _ Hj) by lia. two j Hj; two k Hk; apply cplx_eq; simpl; ring.
  - intros j k Hj Hk. unfold fmul. rewrite nsum2. rewrite !nsum2. cbn [snd]. two j Hj; two k Hk; apply cplx_eq; simpl; nra.
  - intros j k Hj Hk. unfold fmul. rewrite nsum2. rewrite !nsum2. cbn [snd]. two j Hj; two k Hk; apply cplx_eq; simpl; nra.
Qed.
Lemma cr_eigh0 : cr_eigh (crF (rv1 0)) = (fun _ => 0, fid (K:=Cs)).
Proof. unfold cr_eigh. destruct (Req_EM_T (fst (crF (rv1 0) 0%nat 1%nat)) 0) as [_|F]; [reflexivity|exfalso; apply F; reflexivity]. Qed.
Lemma cr_eigh1 (X : cmat) : fst (X 0%nat 1%nat) = 1 ->
  cr_eigh X = (fun i => match i with O => -1 | _ => 1 end, m22 (- / sqrt 2) (/ sqrt 2) (/ sqrt 2) (/ sqrt 2)).
Proof. intro H. unfold cr_eigh. rewrite H. destruct (Req_EM_T 1 0) as [F|_]; [exfalso; lra|reflexivity]. Qed.
Lemma small6 : 0 < / 10 ^ 6. Proof. apply Rinv_0_lt_compat. apply pow_lt. lra. Qed.
Lemma small14 : / 10 ^ 14 <= / 2. Proof. apply Rinv_le_contravar; [lra|]. assert (1 <= 10 ^ 13) by (apply pow_R1_Rle; lra). rewrite <- (tech_pow_Rmult 10 13). lra. Qed.
Lemma emask0 k l : emask (fun _ => 0) (/ 10 ^ 6) k l = true.
Proof. unfold emask. apply Rltb_true. rewrite Rminus_0_r, Rabs_R0. exact small6. Qed.
Definition cr_E : cmat := m22 (- / sqrt 2) (/ sqrt 2) (/ sqrt 2) (/ sqrt 2).
Lemma cr_big i j : big_entry (cr_E i j) = true.
Proof.
  unfold big_entry. rewrite (proj2 (Rltb_false _ _)); [reflexivity|]. pose proof s2 as Q. pose proof small14 as S.
  destruct i as [|i], j as [|j]; simpl (fst _); simpl (snd _); rewrite ?Rmult_opp_opp, Rmult_0_r, Rplus_0_r, Q; exact S.
Qed.
Lemma cr_sorted : sort_cols 2 cr_E = fun r c => cr_E r (nth c [0; 1]%nat 0%nat).
Proof.
  assert (K : forall c, first_row 2 cr_E c = 0%nat). { intro c. unfold first_row. cbn [seq find]. rewrite cr_big. reflexivity. }
  unfold sort_cols. replace (ksort (first_row 2 cr_E) (seq 0 2)) with [0; 1]%nat; [reflexivity|].
  cbn [seq ksort fold_right kinsert]. rewrite !K. reflexivity.
Qed.
Lemma cr_result : let r := eh_item cr_eigh 2 (/ 10 ^ 6) (crF (rv1 0)) (crF1 (rv1 0)) crF2 in
  (forall i, fst (fst r) i = 0) /\ snd (fst r) 0%nat 0%nat = -1 /\ snd (fst r) 0%nat 1%nat = 1 /\ snd r 0%nat 0%nat 0%nat = 4 /\ snd r 0%nat 0%nat 1%nat = 0.
Proof.
  unfold eh_item. rewrite cr_eigh0. cbn [fst snd].
  assert (Se : eselect 2 (fun _ => 0) (/ 10 ^ 6) = true).
  { unfold eselect. cbn [seq existsb]. rewrite !emask0. reflexivity. }
  assert (X : forall i j, (i < 2)%nat -> (j < 2)%nat -> eig_el 2 (fid (K:=Cs)) (crF1 (rv1 0) 0) i j = m22 0 1 1 0 i j).
  { intros i j Hi Hj. unfold eig_el, fmul. rewrite !nsum2. two i Hi; two j Hj; apply cplx_eq; simpl; unfold rv1; ring. }
  assert (EE : feq (K:=Cs) 2 2 (eh_els cr_eigh 2 (fun _ => 0) (fid (K:=Cs)) (/ 10 ^ 6) (crF1 (rv1 0)) 0) (m22 (-1) 0 0 1)).
  { unfold eh_els. rewrite Se. rewrite cr_eigh1; [|rewrite emask0; rewrite X by lia; reflexivity]. cbn [snd]. fold cr_E. rewrite cr_sorted.
    intros i j Hi Hj. rewrite (eig_el_ext 2 _ _ (m22 0 1 1 0)); [|intros a b Ha Hb; apply X; assumption].
    pose proof s2 as Q. unfold eig_el, fmul. rewrite !nsum2. unfold cr_E. set (s := / sqrt 2) in *. clearbody s. two i Hi; two j Hj; apply cplx_eq; simpl; nra. }
  split; [reflexivity|]. split; [rewrite EE by lia; reflexivity|]. split; [rewrite EE by lia; reflexivity|].
  rewrite !nsum2. rewrite !emask0. unfold eig_diag, eig_el, fmul. rewrite !nsum2. split; simpl; ring.
Qed.
Lemma cr_d1 y : mat_deriv 2 crF y vx (contract 1 vx (crF1 y)).
Proof.
  intros i j Hi Hj. unfold contract. rewrite csum_nsum, nsum1. two i Hi; two j Hj; split; simpl; unfold vx; auto_derive; trivial; ring.
Qed.
Lemma cr_d2 b : mat_deriv 2 (fun y => crF1 y b) (rv1 0) vx (contract 1 vx (fun a => crF2 a b)).
Proof.
  intros i j Hi Hj. unfold contract. rewrite csum_nsum, nsum1. two i Hi; two j Hj; split; simpl; unfold vx; auto_derive; trivial; ring.
Qed.
Lemma cr_deriv : is_derive cr_e 0 1.
Proof.
  unfold cr_e. auto_derive; [nra|]. replace (1 + 0 * 0) with 1 by ring. rewrite sqrt_1. field.
Qed.
Lemma cr_band : band 2 (fun t => crF (along (rv1 0) vx t)) (fun _ => fid (K:=Cs)) cr_e.
Proof.
  split.
  - apply derivable_continuous_pt. exists 1. apply is_derive_Reals. exact cr_deriv.
  - exists (fun t j => match j with O => cre (t + sqrt (1 + t * t)) | _ => cre 1 end), 1. split; [lra|]. intros t _.
    assert (Q : sqrt (1 + t * t) * sqrt (1 + t * t) = 1 + t * t) by (apply sqrt_sqrt; nra). split.
    + exists 1%nat. split; [lia|]. intro E. injection E. lra.
    + intros j Hj. rewrite !csum_nsum, !nsum2. unfold cr_e. two j Hj; apply cplx_eq; simpl; unfold along, rv1, vx; ring [Q].
Qed.
Lemma cr_second : is_lim (fun t => (cr_e t - cr_e 0 - t * 1) / (t * t)) 0 1.
Proof.
  apply (is_lim_ext_loc (fun t => 1 + t * / (sqrt (1 + t * t) + 1))).
  - generalize near0_nz. apply near0_imp. intros t Ht. unfold cr_e.
    assert (Q : sqrt (1 + t * t) * sqrt (1 + t * t) = 1 + t * t) by (apply sqrt_sqrt; nra). pose proof (sqrt_pos (1 + t * t)) as P.
    set (s := sqrt (1 + t * t)) in *. clearbody s.
    apply (Rmult_eq_reg_r (t * t * (s + 1))); [|apply Rmult_integral_contrapositive; split; [nra|lra]].
    replace ((t * t + t * s - (0 * 0 + 0 * sqrt (1 + 0 * 0)) - t * 1) / (t * t) * (t * t * (s + 1))) with ((t * t + t * s - t) * (s + 1)) by (field; exact Ht).
    replace ((1 + t * / (s + 1)) * (t * t * (s + 1))) with (t * t * (s + 1) + t * (t * t)) by (field; lra).
    replace ((t * t + t * s - t) * (s + 1)) with (t * t * (s + 1) + t * (s * s - 1)) by ring. rewrite Q. ring.
  - assert (L : is_lim (fun t => 1 + t * / (sqrt (1 + t * t) + 1)) 0 (Finite (1 + 0 * / (sqrt (1 + 0 * 0) + 1)))).
    2:{ rewrite Rmult_0_l, Rplus_0_r in L. exact L. }
    apply (is_lim_continuity (fun t => 1 + t * / (sqrt (1 + t * t) + 1)) 0). apply derivable_continuous_pt.
    eexists. apply is_derive_Reals. auto_derive; [|reflexivity]. repeat split; [nra|]. pose proof (sqrt_pos (1 + 0 * 0)). lra.
Qed.
(** eigh_grad_hess "needs the basis change" only for the gradients: at a crossing the Hessian of neither band is the second
    derivative (2 for both bands) although the solver is correct and the gradients (-1 and 1) are *)
Theorem C103_degenerate_refuted : exists eigh d n eps (F : rvec -> cmat) F1 F2 x v e i la g hs,
  eigh_grad_hess_batch eigh d eps [(F x, F1 x, F2)] = [(la, g, hs)] /\ 0 < eps /\ hermitian d (F x) /\
  eigenbasis d (F x) (fid (K:=Cs)) (eigh (F x)) /\
  eigenbasis d (contract n v (F1 x)) (fid (K:=Cs)) (eigh (contract n v (F1 x))) /\ (i < d)%nat /\
  (forall y, mat_deriv d F y v (contract n v (F1 y))) /\
  (forall b, (b < n)%nat -> mat_deriv d (fun y => F1 y b) x v (contract n v (fun a => F2 a b))) /\
  band d (fun t => F (along x v t)) (fun _ => fid (K:=Cs)) e /\ e 0 = la i /\
  is_derive e 0 (rsum n (fun a => v a * g a i)) /\
  ~ is_lim (fun t => (e t - e 0 - t * rsum n (fun a => v a * g a i)) / (t * t)) 0 (1 / 2 * ddir n v (fun a c => hs a c i)) /\
  forall j, (j < d)%nat -> ~ is_lim (fun t => (e t - e 0 - t * rsum n (fun a => v a * g a i)) / (t * t)) 0 (1 / 2 * ddir n v (fun a c => hs a c j)).
Proof.
  pose proof cr_result as R. destruct (eh_item cr_eigh 2 (/ 10 ^ 6) (crF (rv1 0)) (crF1 (rv1 0)) crF2) as [[la g] hs] eqn:E. cbn [fst snd] in R.
  destruct R as (R0 & Rg0 & Rg1 & Rh0 & Rh1).
  exists cr_eigh, 2%nat, 1%nat, (/ 10 ^ 6), crF, crF1, crF2, (rv1 0), vx, cr_e, 1%nat, la, g, hs.
  assert (G : rsum 1 (fun a => vx a * g a 1%nat) = 1) by (rewrite rsum1, Rg1; unfold vx; rg).
  assert (N : forall j, (j < 2)%nat -> ~ is_lim (fun t => (cr_e t - cr_e 0 - t * rsum 1 (fun a => vx a * g a 1%nat)) / (t * t)) 0 (1 / 2 * ddir 1 vx (fun a c => hs a c j))).
  { intros j Hj L. rewrite G in L. pose proof (is_lim_unique _ _ _ cr_second) as U1. pose proof (is_lim_unique _ _ _ L) as U2.
    rewrite U1 in U2. injection U2 as U. unfold ddir in U. rewrite !rsum1 in U. unfold vx in U. two j Hj; [rewrite Rh0 in U|rewrite Rh1 in U]; lra. }
  split; [unfold eigh_grad_hess_batch; cbn [map fst snd]; rewrite E; reflexivity|]. split; [exact small6|]. split; [apply m22_herm|].
  split; [exact cr_basis0|]. split.
  { apply cr_basis1. intros i j Hi Hj. unfold contract. rewrite csum_nsum, nsum1. two i Hi; two j Hj; apply cplx_eq; simpl; unfold vx, rv1; ring. }
  split; [lia|]. split; [exact cr_d1|]. split; [intros b _; apply cr_d2|]. split; [exact cr_band|].
  split; [rewrite R0; unfold cr_e; ring|]. split; [rewrite G; exact cr_deriv|]. split; [apply N; lia|exact N].
Qed.

(** ** C104 *)
Lemma asym_hess_nth eigh eigh2 d n h s ks j k : nth_error ks j = Some k ->
  nth_error (asym_bands_grad_hess eigh eigh2 d n h s ks) j =
  Some (pert_item d (if near_id d (map (fs_f n s) ks) then eigh (fs_f n h k) else eigh2 (fs_f n h k) (fs_f n s k)) (fs_df n h k) (fs_ddf n h k)).
Proof.
  intro Hk. unfold asym_bands_grad_hess, geigh_batch. rewrite map_map. cbn [snd].
  change (map (fun x => fs_f n s x) ks) with (map (fs_f n s) ks). rewrite nth_error_map.
  destruct (near_id d (map (fs_f n s) ks)); rewrite map_map; cbn [fst snd].
  - replace (nth_error (combine (map (fun x => eigh (fs_f n h x)) ks) ks) j) with (Some (eigh (fs_f n h k), k)); [reflexivity|].
    revert j Hk. induction ks as [|y ys IH]; intros [|j] Hk; try discriminate; cbn in Hk |- *; [injection Hk as ->; reflexivity|apply IH; exact Hk].
  - replace (nth_error (combine (map (fun x => eigh2 (fs_f n h x) (fs_f n s x)) ks) ks) j) with (Some (eigh2 (fs_f n h k) (fs_f n s k), k)); [reflexivity|].
    revert j Hk. induction ks as [|y ys IH]; intros [|j] Hk; try discriminate; cbn in Hk |- *; [injection Hk as ->; reflexivity|apply IH; exact Hk].
Qed.
Lemma band_ext d H S S' e : (forall t, feq (K:=Cs) d d (S t) (S' t)) -> band d H S e -> band d H S' e.
Proof.
  intros E [A (w & dl & P & B)]. split; [exact A|]. exists w, dl. split; [exact P|]. intros t Ht. destruct (B t Ht) as [B1 B2]. split; [exact B1|].
  intros j Hj. rewrite (B2 j Hj). f_equal. apply (nsum_ext Cs). intros m Hm. rewrite (E t j m Hj Hm). reflexivity.
Qed.
(** AsymTightBindingModel.bands_grad_hess: the second order expansion of every simple band, if S has the R = 0 term only *)
Theorem C104_constant_overlap : forall eigh eigh2 d n h s ks j k v i e la g hs,
  nth_error ks j = Some k -> nth_error (asym_bands_grad_hess eigh eigh2 d n h s ks) j = Some (la, g, hs) ->
  wf_series n h -> hermitian d (nth 0 (hH h) fzero) -> hermitian d (fs_f n s k) -> (forall y, feq (K:=Cs) d d (fs_f n s y) (fs_f n s k)) ->
  eigenbasis d (fs_f n h k) (fid (K:=Cs)) (eigh (fs_f n h k)) ->
  eigenbasis d (fs_f n h k) (fs_f n s k) (eigh2 (fs_f n h k) (fs_f n s k)) ->
  (near_id d (map (fs_f n s) ks) = true -> feq (K:=Cs) d d (fs_f n s k) (fid (K:=Cs))) ->
  (i < d)%nat -> simple d la i -> band d (fun t => fs_f n h (along k v t)) (fun t => fs_f n s (along k v t)) e -> e 0 = la i ->
  is_lim (fun t => (e t - e 0 - t * rsum n (fun a => v a * g a i)) / (t * t)) 0 (1 / 2 * ddir n v (fun a c => hs a c i)).
Proof.
  intros eigh eigh2 d n h s ks j k v i e la g hs Hk Hr Wh Hh HS Hc B1 B2 N1 Hi Hs Hb He.
  rewrite (asym_hess_nth eigh eigh2 d n h s ks j k Hk) in Hr. injection Hr as Hr.
  eapply (C101_perturbation_sum d n (fs_f n h) (fs_df n h) (fs_ddf n h k) (fs_f n s k)); [exact Hr| | | | | | | | |].
  - apply C26_hermitian; assumption.
  - exact HS.
  - destruct (near_id d (map (fs_f n s) ks)); [|exact B2]. apply (eigenbasis_ext d (fs_f n h k) (fid (K:=Cs)) (fs_f n s k)); [symmetry; apply N1; reflexivity|exact B1].
  - exact Hi.
  - exact Hs.
  - intro y. apply C28_gradient. exact Wh.
  - intros b _. apply C28_hessian. exact Wh.
  - apply (band_ext d _ (fun t => fs_f n s (along k v t))); [intro t; apply Hc|exact Hb].
  - exact He.
Qed.
(** one orbital, H = 1, S(k) = 2 + cos(2 pi k): the energy is 1 / S(k) *)
Definition ovh : hfs := MkHfs [rv1 0] [cm (1, 0)].
Definition ovs : hfs := MkHfs [rv1 0; rv1 1] [cm (2, 0); cm (1 / 2, 0)].
Definition ov_eigh2 (H S : cmat) : (nat -> R) * cmat :=
  (fun _ => fst (H 0%nat 0%nat) / fst (S 0%nat 0%nat), fun _ _ => cre (/ sqrt (fst (S 0%nat 0%nat)))).
Definition ov_eigh (H : cmat) : (nat -> R) * cmat := (fun _ => fst (H 0%nat 0%nat), fid (K:=Cs)).
Lemma ovh_f k i j : fs_f 1 ovh k i j = (1, 0).
Proof.
  unfold fs_f, herm_series, fadd, fscale, fsum, fadj. cbn [hH hnb ovh length seq Nat.sub ksum nth]. unfold fs_coef, nb. cbn [nth].
  rewrite dot1. unfold rv1, cm. rewrite Rmult_0_r, Rmult_0_r, cexp_0. apply cplx_eq; simpl; ring.
Qed.
Lemma ovh_df k a i j : fs_df 1 ovh k a i j = (0, 0).
Proof.
  unfold fs_df, herm_series, fadd, fscale, fsum, fadj. cbn [hH hnb ovh length seq Nat.sub ksum nth]. unfold fs_dcoef, fs_coef, nb. cbn [nth].
  unfold rv1, cm. apply cplx_eq; simpl; ring.
Qed.
Lemma ovh_ddf k a b i j : fs_ddf 1 ovh k a b i j = (0, 0).
Proof.
  unfold fs_ddf, herm_series, fadd, fscale, fsum, fadj. cbn [hH hnb ovh length seq Nat.sub ksum nth]. unfold fs_ddcoef, fs_coef, nb. cbn [nth].
  unfold rv1, cm. apply cplx_eq; simpl; ring.
Qed.
Lemma ovs_f k i j : fs_f 1 ovs k i j = (2 + cos (2 * PI * k 0%nat), 0).
Proof.
  unfold fs_f, herm_series, fadd, fscale, fsum, fadj. cbn [hH hnb ovs length seq Nat.sub ksum nth]. unfold fs_coef, nb. cbn [nth].
  rewrite !dot1. unfold rv1, cm. rewrite !Rmult_0_r, cexp_0, Rmult_1_r. unfold cexp. apply cplx_eq; simpl; field.
Qed.
Lemma ovs_df k i j : fs_df 1 ovs k 0 i j = (- (2 * PI * sin (2 * PI * k 0%nat)), 0).
Proof.
  unfold fs_df, herm_series, fadd, fscale, fsum, fadj. cbn [hH hnb ovs length seq Nat.sub ksum nth]. unfold fs_dcoef, fs_coef, nb. cbn [nth].
  rewrite !dot1. unfold rv1, cm. rewrite Rmult_1_r. unfold cexp. apply cplx_eq; simpl; field.
Qed.
Definition kq : rvec := rv1 (1 / 4).
Lemma ovs_kq i j : fs_f 1 ovs kq i j = (2, 0).
Proof. rewrite ovs_f. unfold kq, rv1. replace (2 * PI * (1 / 4)) with (PI / 2) by field. rewrite cos_PI2. f_equal. ring. Qed.
Lemma ovs_dkq i j : fs_df 1 ovs kq 0 i j = (- (2 * PI), 0).
Proof. rewrite ovs_df. unfold kq, rv1. replace (2 * PI * (1 / 4)) with (PI / 2) by field. rewrite sin_PI2. f_equal. ring. Qed.
Lemma tiny16 : / 10 ^ 16 <= 1.
Proof. rewrite <- Rinv_1. apply Rinv_le_contravar; [lra|]. apply pow_R1_Rle. lra. Qed.
Lemma ov_not_id : near_id 1 [fs_f 1 ovs kq] = false.
Proof.
  unfold near_id. apply Rltb_false. cbn [map sum_list fold_right]. unfold frob2. rewrite rsum1. rewrite rsum1. unfold minus_id. rewrite ovs_kq.
  simpl (fst _). simpl (snd _). pose proof tiny16. lra.
Qed.
Lemma ov_basis : eigenbasis 1 (fs_f 1 ovh kq) (fs_f 1 ovs kq) (ov_eigh2 (fs_f 1 ovh kq) (fs_f 1 ovs kq)).
Proof.
  unfold ov_eigh2. pose proof s2 as Q. split; [|split].
  - intros j k Hj Hk. rewrite !csum_nsum, !nsum1. cbn [fst snd]. rewrite ?ovh_f, ?ovs_kq. apply cplx_eq; simpl; field; apply Rgt_not_eq, sqrt_lt_R0; lra.
  - intros j k Hj Hk. destruct j, k; try lia. unfold fmul. rewrite nsum1, nsum1. unfold fadj. cbn [snd]. rewrite !ovs_kq. apply cplx_eq; simpl; nra.
  - intros j k Hj Hk. destruct j, k; try lia. unfold fmul. rewrite nsum1, nsum1. unfold fadj. cbn [snd]. rewrite !ovs_kq. apply cplx_eq; simpl; nra.
Qed.
Lemma ov_basis1 : eigenbasis 1 (fs_f 1 ovh kq) (fid (K:=Cs)) (ov_eigh (fs_f 1 ovh kq)).
Proof.
  unfold ov_eigh. split; [|split]; intros j k Hj Hk; destruct j, k; try lia.
  - rewrite !csum_nsum, !nsum1. cbn [fst snd]. rewrite ?ovh_f. apply cplx_eq; simpl; ring.
  - unfold fmul. rewrite nsum1, nsum1. unfold fadj. cbn [snd]. apply cplx_eq; simpl; ring.
  - unfold fmul. rewrite nsum1, nsum1. unfold fadj. cbn [snd]. apply cplx_eq; simpl; ring.
Qed.
Definition ov_e (t : R) : R := / (2 + cos (2 * PI * (1 / 4 + t))).
Lemma ov_pos x : 0 < 2 + cos x. Proof. pose proof (COS_bound x). lra. Qed.
Lemma ov_band : band 1 (fun t => fs_f 1 ovh (along kq vx t)) (fun t => fs_f 1 ovs (along kq vx t)) ov_e.
Proof.
  split.
  - apply derivable_continuous_pt. eexists. apply is_derive_Reals. unfold ov_e. auto_derive; [|reflexivity].
    apply Rgt_not_eq. apply ov_pos.
  - exists (fun _ _ => (1, 0)), 1. split; [lra|]. intros t _. split.
    + exists 0%nat. split; [lia|]. intro E. injection E. lra.
    + intros j Hj. rewrite !csum_nsum, !nsum1. rewrite ovh_f, ovs_f. unfold along, kq, rv1, vx. replace (1 / 4 + t * 1) with (1 / 4 + t) by ring.
      unfold ov_e. pose proof (ov_pos (2 * PI * (1 / 4 + t))). apply cplx_eq; simpl; field; lra.
Qed.
Lemma ov_near_zero : near_zero 1 1 [fs_df 1 ovs kq] = false.
Proof.
  unfold near_zero. apply Rltb_false. cbn [map sum_list fold_right]. rewrite rsum1. unfold frob2. rewrite rsum1. rewrite rsum1. rewrite ovs_dkq.
  simpl (fst _). simpl (snd _). pose proof tiny16. pose proof PI2_1. nra.
Qed.
(** bands_grad_hess ignores the k dependence of S: the gradient it returns (0) is not the derivative (pi/2) of the band, and not
    the gradient bands_grad returns *)
Theorem C104_overlap_refuted : exists eigh eigh2 d n h s k v e la g la' g' hs,
  asym_bands_grad eigh eigh2 d n h s [k] = [(la, g)] /\ asym_bands_grad_hess eigh eigh2 d n h s [k] = [(la', g', hs)] /\
  wf_series n h /\ wf_series n s /\ hermitian d (nth 0 (hH h) fzero) /\ hermitian d (nth 0 (hH s) fzero) /\
  eigenbasis d (fs_f n h k) (fs_f n s k) (eigh2 (fs_f n h k) (fs_f n s k)) /\
  band d (fun t => fs_f n h (along k v t)) (fun t => fs_f n s (along k v t)) e /\ e 0 = la 0%nat /\ e 0 = la' 0%nat /\
  is_derive e 0 (rsum n (fun a => v a * g a 0%nat)) /\ ~ is_derive e 0 (rsum n (fun a => v a * g' a 0%nat)) /\ g 0%nat 0%nat = PI / 2 /\ g' 0%nat 0%nat = 0.
Proof.
  pose proof s2 as Q. set (r := / sqrt 2) in Q.
  destruct (geigh_grads 1 (ov_eigh2 (fs_f 1 ovh kq) (fs_f 1 ovs kq)) (MkGsmp (fs_f 1 ovh kq) (fs_f 1 ovs kq) (fs_df 1 ovh kq) (fs_df 1 ovs kq))) as [[la g] V] eqn:E1.
  destruct (pert_item 1 (ov_eigh2 (fs_f 1 ovh kq) (fs_f 1 ovs kq)) (fs_df 1 ovh kq) (fs_ddf 1 ovh kq)) as [[la' g'] hs] eqn:E2.
  exists ov_eigh, ov_eigh2, 1%nat, 1%nat, ovh, ovs, kq, vx, ov_e, la, g, la', g', hs.
  assert (A1 : asym_bands_grad ov_eigh ov_eigh2 1 1 ovh ovs [kq] = [(la, g)]).
  { unfold asym_bands_grad, geigh_grad_batch. cbn [map gS gdS]. rewrite ov_not_id. cbn [andb]. unfold geigh_batch. cbn [map fst snd gH gS]. rewrite ov_not_id.
    cbn [combine map fst snd]. rewrite E1. reflexivity. }
  assert (A2 : asym_bands_grad_hess ov_eigh ov_eigh2 1 1 ovh ovs [kq] = [(la', g', hs)]).
  { unfold asym_bands_grad_hess, geigh_batch. cbn [map fst snd]. rewrite ov_not_id. cbn [combine map fst snd]. rewrite E2. reflexivity. }
  assert (L : la 0%nat = 1 / 2 /\ g 0%nat 0%nat = PI / 2).
  { pose proof (f_equal (fun q => fst (fst q) 0%nat) E1) as X1. pose proof (f_equal (fun q => snd (fst q) 0%nat 0%nat) E1) as X2.
    cbv beta in X1, X2. unfold geigh_grads, ov_eigh2 in X1, X2. cbn [fst snd] in X1, X2. rewrite <- X2, <- X1. rewrite ovh_f, ovs_kq. cbn [fst]. split; [reflexivity|].
    unfold eig_diag, eig_el, fmul. rewrite !nsum1. unfold fadj. cbn [gdH gdS]. rewrite ovh_df, ovs_dkq. simpl. fold r. transitivity (PI * (r * r)); [field|rewrite Q; field]. }
  assert (L' : la' 0%nat = 1 / 2 /\ g' 0%nat 0%nat = 0).
  { pose proof (f_equal (fun q => fst (fst q) 0%nat) E2) as X1. pose proof (f_equal (fun q => snd (fst q) 0%nat 0%nat) E2) as X2.
    cbv beta in X1, X2. unfold pert_item, ov_eigh2 in X1, X2. cbn [fst snd] in X1, X2. rewrite <- X2, <- X1. rewrite ovh_f, ovs_kq. cbn [fst]. split; [reflexivity|].
    unfold eig_el, fmul. rewrite !nsum1. unfold fadj. rewrite ovh_df. simpl. ring. }
  destruct L as [L1 L2]. destruct L' as [L3 L4].
  assert (W1 : wf_series 1 ovh). { split; [reflexivity|]. split; [discriminate|]. intros a _. reflexivity. }
  assert (W2 : wf_series 1 ovs). { split; [reflexivity|]. split; [discriminate|]. intros a _. reflexivity. }
  assert (H1 : hermitian 1 (nth 0 (hH ovh) fzero)) by (intros i j _ _; apply cplx_eq; simpl; ring).
  assert (H2 : hermitian 1 (nth 0 (hH ovs) fzero)) by (intros i j _ _; apply cplx_eq; simpl; ring).
  assert (Z : ov_e 0 = 1 / 2).
  { unfold ov_e. replace (2 * PI * (1 / 4 + 0)) with (PI / 2) by field. rewrite cos_PI2. field. }
  assert (D : is_derive ov_e 0 (rsum 1 (fun a => vx a * g a 0%nat))).
  { apply (C100_asym_bands_grad ov_eigh ov_eigh2 1 1 ovh ovs [kq] 0 kq vx 0 ov_e la g).
    - reflexivity.
    - rewrite A1. reflexivity.
    - exact W1.
    - exact W2.
    - exact H1.
    - exact H2.
    - exact ov_basis1.
    - exact ov_basis.
    - cbn [map]. rewrite ov_not_id. discriminate.
    - cbn [map]. rewrite ov_near_zero. discriminate.
    - lia.
    - intros k Hk Hne. lia.
    - exact ov_band.
    - rewrite Z, L1. reflexivity. }
  repeat (split; [first [assumption | exact ov_basis | exact ov_band | (rewrite Z; symmetry; assumption)]|]).
  split; [|split; assumption]. intro F. pose proof (is_derive_unique _ _ _ D) as U1. pose proof (is_derive_unique _ _ _ F) as U2.
  rewrite U1 in U2. rewrite !rsum1 in U2. rewrite L2, L4 in U2. unfold vx in U2. pose proof PI2_1. lra.
Qed.

(** ** C105 *)
(** a single matrix: when there is a result, it is the one of a batch of one *)
Theorem C105_single : forall eigh eigh2 d m x r, geigh_grad_one eigh d m x = Some r -> geigh_grad_batch eigh eigh2 d m [x] = [r].
Proof.
  intros eigh eigh2 d m x r H. unfold geigh_grad_one in H. unfold geigh_grad_batch. cbn [map]. destruct (near_id d [gS x] && near_zero d m [gdS x]); [|discriminate].
  injection H as <-. reflexivity.
Qed.
Theorem C105_single_hess : forall eigh d eps H dH ddH r, eigh_grad_hess_one eigh d eps H dH ddH = Some r -> eigh_grad_hess_batch eigh d eps [(H, dH, ddH)] = [r].
Proof.
  intros eigh d eps H dH ddH r E. unfold eigh_grad_hess_one in E. destruct (eselect d (fst (eigh H)) eps); [discriminate|]. injection E as <-. reflexivity.
Qed.
(** eigh_grad_hess of a single matrix fails exactly if two eigenvalues are closer than epsilon *)
Theorem C105_single_fails : forall eigh d eps H dH ddH, eigh_grad_hess_one eigh d eps H dH ddH = None <-> ~ separated d (fst (eigh H)) eps.
Proof.
  intros eigh d eps H dH ddH. unfold eigh_grad_hess_one. rewrite <- eselect_false. destruct (eselect d (fst (eigh H)) eps); split; intro Q; try reflexivity; try discriminate.
  exfalso. apply Q. reflexivity.
Qed.
(** geigh_grad of a single pair with S <> 1 raises an IndexError, a batch of one works *)
Theorem C105_single_refuted : exists eigh eigh2 d m x r, geigh_grad_batch eigh eigh2 d m [x] = [r] /\ geigh_grad_one eigh d m x = None /\
  eigenbasis d (gH x) (gS x) (eigh2 (gH x) (gS x)).
Proof.
  exists ov_eigh, ov_eigh2, 1%nat, 1%nat, (MkGsmp (fs_f 1 ovh kq) (fs_f 1 ovs kq) (fs_df 1 ovh kq) (fs_df 1 ovs kq)).
  eexists. split; [|split].
  - unfold geigh_grad_batch. cbn [map gS gdS]. rewrite ov_not_id. cbn [andb]. unfold geigh_batch. cbn [map fst snd gH gS]. rewrite ov_not_id. reflexivity.
  - unfold geigh_grad_one. cbn [gS gdS]. rewrite ov_not_id. reflexivity.
  - exact ov_basis.
Qed.
(** two equal eigenvalues: the batch works, the single matrix fails *)
Example C105_example : eigh_grad_hess_one cr_eigh 2 (/ 10 ^ 6) (crF (rv1 0)) (crF1 (rv1 0)) crF2 = None /\
  eigh_grad_hess_one gap_eigh 2 (/ 10 ^ 6) (gapF (rv1 0)) (gapF1 (rv1 0)) gapF2 <> None /\
  length (eigh_grad_hess_batch cr_eigh 2 (/ 10 ^ 6) [(crF (rv1 0), crF1 (rv1 0), crF2)]) = 1%nat.
Proof.
  split; [|split; [|reflexivity]].
  - apply C105_single_fails. rewrite cr_eigh0. cbn [fst]. intro S. pose proof (S 0%nat 1%nat Nat.lt_0_2 Nat.lt_1_2 (O_S 0)) as Q. rewrite Rminus_0_r, Rabs_R0 in Q.
    pose proof small6. lra.
  - intro F. apply (proj1 (C105_single_fails _ _ _ _ _ _) F). exact gap_sep.
Qed.
(** constant overlap 2: the example of C104 without the cosine term *)
Definition ovc : hfs := MkHfs [rv1 0] [cm (2, 0)].
Definition ch1 : hfs := MkHfs [rv1 0; rv1 1] [cm (2, 0); cm (1 / 2, 0)].
Example C104_example : (forall y, feq (K:=Cs) 1 1 (fs_f 1 ovc y) (fs_f 1 ovc kq)) /\ fs_f 1 ovc kq 0%nat 0%nat = (2, 0) /\
  near_id 1 (map (fs_f 1 ovc) [kq]) = false /\ simple 1 (fun _ => 1) 0 /\
  eigenbasis 1 (fs_f 1 ch1 kq) (fs_f 1 ovc kq) (ov_eigh2 (fs_f 1 ch1 kq) (fs_f 1 ovc kq)).
Proof.
  assert (C : forall y i j, fs_f 1 ovc y i j = (2, 0)).
  { intros y i j. unfold fs_f, herm_series, fadd, fscale, fsum, fadj. cbn [hH hnb ovc length seq Nat.sub ksum nth]. unfold fs_coef, nb. cbn [nth].
    rewrite dot1. unfold rv1, cm. rewrite Rmult_0_r, Rmult_0_r, cexp_0. apply cplx_eq; simpl; ring. }
  split; [intros y i j _ _; rewrite !C; reflexivity|]. split; [apply C|]. split; [|split].
  - unfold near_id. apply Rltb_false. cbn [map sum_list fold_right]. unfold frob2. rewrite rsum1. rewrite rsum1. unfold minus_id. rewrite C.
    simpl (fst _). simpl (snd _). pose proof tiny16. lra.
  - intros k Hk Hne. lia.
  - unfold ov_eigh2. pose proof s2 as Q. split; [|split]; intros j k Hj Hk; destruct j, k; try lia.
    + rewrite !csum_nsum, !nsum1. cbn [fst snd]. change (fs_f 1 ch1) with (fs_f 1 ovs). rewrite ovs_kq, !C. apply cplx_eq; simpl; field; apply Rgt_not_eq, sqrt_lt_R0; lra.
    + unfold fmul. rewrite nsum1, nsum1. unfold fadj. cbn [snd]. rewrite !C. apply cplx_eq; simpl; nra.
    + unfold fmul. rewrite nsum1, nsum1. unfold fadj. cbn [snd]. rewrite !C. apply cplx_eq; simpl; nra.
Qed.

Print Assumptions C100_eigh_grad.
Print Assumptions C100_geigh_grad.
Print Assumptions C100_bands_grad.
Print Assumptions C100_asym_bands_grad.
Print Assumptions C101_bands_grad_hess.
Print Assumptions C101_eigh_grad_hess.
Print Assumptions C101_perturbation_sum.
Print Assumptions C101_symmetric.
Print Assumptions C102_gradient_sum.
Print Assumptions C102_sums.
Print Assumptions C103_degenerate_refuted.
Print Assumptions C104_constant_overlap.
Print Assumptions C104_overlap_refuted.
Print Assumptions C105_single.
Print Assumptions C105_single_hess.
Print Assumptions C105_single_fails.
Print Assumptions C105_single_refuted.
(** geigh returns an eigenbasis for (H, S); a batch whose overlap matrices are together within 10^-8 of the unit matrix is solved with S = 1 *)
Theorem C100_geigh : forall eigh eigh2 d HS j H S, eigenbasis d H S (eigh2 H S) -> eigenbasis d H (fid (K:=Cs)) (eigh H) ->
  nth_error HS j = Some (H, S) -> eigenbasis d H S (geigh_one eigh2 H S) /\
  exists r, nth_error (geigh_batch eigh eigh2 d HS) j = Some r /\
    if near_id d (map snd HS) then eigenbasis d H (fid (K:=Cs)) r else eigenbasis d H S r.
Proof.
  intros eigh eigh2 d HS j H S H2 H1 Hj. split; [exact H2|]. unfold geigh_batch. destruct (near_id d (map snd HS)).
  - exists (eigh H). rewrite nth_error_map, Hj. split; [reflexivity|exact H1].
  - exists (eigh2 H S). rewrite nth_error_map, Hj. split; [reflexivity|exact H2].
Qed.
(** the perturbation sum of bands_grad_hess at a point with equal energies: for H = [[0, x], [x, 0]] at x = 0 the second derivatives of the
    two bands add up to -4 10^40 instead of the trace 0 of the second derivative (eigh_grad_hess keeps the sum there, C102_sums) *)
Theorem C104_degenerate_refuted : ~ (forall d H la V df ddf a c, hermitian d H -> eigenbasis d H (fid (K:=Cs)) (la, V) ->
  hermitian d (df a) -> hermitian d (df c) -> hermitian d (ddf a c) ->
  rsum d (fun i => snd (pert_item d (la, V) df ddf) a c i) = rsum d (fun i => fst (ddf a c i i))).
Proof.
  intro A.
  assert (B : eigenbasis 2 (m22 0 0 0 0) (fid (K:=Cs)) (fun _ : nat => 0, fid (K:=Cs))).
  { split; [|split]; intros j k Hj Hk.
    - rewrite !csum_nsum, !nsum2. cbn [fst snd]. two j Hj; two k Hk; apply cplx_eq; simpl; ring.
    - unfold fmul. rewrite nsum2. rewrite !nsum2. cbn [snd]. two j Hj; two k Hk; apply cplx_eq; simpl; ring.
    - unfold fmul. rewrite nsum2. rewrite !nsum2. cbn [snd]. two j Hj; two k Hk; apply cplx_eq; simpl; ring. }
  pose proof (A 2%nat (m22 0 0 0 0) (fun _ => 0) (fid (K:=Cs)) (fun _ => m22 0 1 1 0) (fun _ _ => m22 0 0 0 0) 0%nat 0%nat (m22_herm _ _ _) B (m22_herm _ _ _) (m22_herm _ _ _) (m22_herm _ _ _)) as Q. clear A.
  unfold pert_item in Q. cbn [snd] in Q. unfold nsum in Q at 1. cbn [seq ksum] in Q. unfold eig_diag, eig_el, fmul in Q. rewrite !nsum2 in Q. cbn [Nat.eqb] in Q.
  unfold pert_div in Q. destruct (Req_EM_T (0 - 0) 0) as [_|N]; [|apply N; ring]. unfold nsum, fadj, fid, m22 in Q. cbn [seq ksum Nat.eqb] in Q. simpl in Q. lra.
Qed.
Print Assumptions C104_degenerate_refuted.

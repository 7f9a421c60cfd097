(** C135: HamiltonianSymmetry.apply *)
From Coq Require Import List Arith ZArith Lia Bool Setoid Morphisms.
Import ListNotations.
From Verif Require Import SRing LMat FMat FinGroup SymModel HamModel HamProofs UrepModel UrepModel2 HamProps CplxR FourierModel HamOrbModel.
From Coq Require Import Reals Lra.
Local Open Scope R_scope.
Add Ring Cring_apply : (s_rt Cs).

(** the phase of the class comment: exp(2 pi i k (1+S)(r1-r2)) *)
Definition doc_phase (n : nat) (k : rvec) (s : zmat) (r1 r2 : rvec) : cplx :=
  cexp (2 * PI * dot n k (fun a => (r1 a - r2 a) + smv n s (fun c => r1 c - r2 c) a)).
(** a matrix between two blocks: U1 M U2^+ *)
Definition conj_block (d1 d2 : nat) (u1 M u2 : fmat Cs) : fmat Cs := fun a b =>
  nsum (K:=Cs) d1 (fun i => nsum (K:=Cs) d2 (fun j => cmul (cmul (u1 a i) (M i j)) (cconj (u2 b j)))).
Definition hermitian (n : nat) (M : fmat Cs) : Prop := forall a b, (a < n)%nat -> (b < n)%nat -> M b a = cconj (M a b).

Lemma smv_sub n s x y a : smv n s (fun c => x c - y c) a = smv n s x a - smv n s y a.
Proof.
  unfold smv. induction n as [|n IH]; [rewrite !nsum_0; cbn; ring|]. rewrite !nsum_S, IH. cbn. ring.
Qed.
Lemma dot_sub n k x y : dot n k (fun a => x a - y a) = dot n k x - dot n k y.
Proof. unfold dot. induction n as [|n IH]; [rewrite !nsum_0; cbn; ring|]. rewrite !nsum_S, IH. cbn. ring. Qed.
Lemma dot_ext' n k x y : (forall a, x a = y a) -> dot n k x = dot n k y.
Proof. intros H. unfold dot. apply (nsum_ext Rs). intros a _. rewrite H. reflexivity. Qed.
Lemma apply_fac_doc n k s r1 r2 : apply_fac n k s r1 r2 = doc_phase n k s r1 r2.
Proof.
  unfold apply_fac, doc_phase. rewrite <- cexp_add. f_equal.
  rewrite (dot_ext' n k (fun a => r1 a - r2 a + smv n s (fun c => r1 c - r2 c) a)
             (fun a => (fun a => r1 a - smv n s r2 a) a - (fun a => r2 a - smv n s r1 a) a)).
  - rewrite (dot_sub n k (fun a => r1 a - smv n s r2 a) (fun a => r2 a - smv n s r1 a)). ring.
  - intros a. rewrite smv_sub. ring.
Qed.
Lemma apply_fac_conj n k s r1 r2 : apply_fac n k s r2 r1 = cconj (apply_fac n k s r1 r2).
Proof.
  unfold apply_fac. set (x := 2 * PI * dot n k (fun a => r1 a - smv n s r2 a)). set (y := 2 * PI * dot n k (fun a => r2 a - smv n s r1 a)).
  rewrite <- !cexp_add, <- cexp_neg. f_equal. ring.
Qed.

Lemma boffs_le (bs : list (hblock Cs)) : forall o ob, In ob (boffs o bs) -> (fst ob + bdim (snd ob) <= o + fold_right Nat.add 0 (map bdim bs))%nat.
Proof.
  induction bs as [|b bs IH]; intros o ob H; [destruct H|]. cbn [boffs] in H. cbn [map fold_right]. destruct H as [<- | H]; [cbn [fst snd]; lia|].
  apply IH in H. lia.
Qed.
Section Apply.
Variables (u : R) (h : hsym Cs) (k : rvec) (si : nat).
Notation n := (sdim (hs h)).
Notation s := (nth si (sops (hs h)) []).
Notation N := (hdim h).
Lemma apply_slice (M : fmat Cs) ob1 ob2 a b : In ob1 (boffs 0%nat (hblocks h)) -> In ob2 (boffs 0%nat (hblocks h)) ->
  (a < bdim (snd ob1))%nat -> (b < bdim (snd ob2))%nat ->
  ham_apply u h k M si (fst ob1 + a)%nat (fst ob2 + b)%nat =
  cmul (apply_fac n k s (rpos u (bpos (snd ob1))) (rpos u (bpos (snd ob2))))
    (conj_block (bdim (snd ob1)) (bdim (snd ob2)) (nth si (bU (snd ob1)) fzero) (slice (fst ob1) (fst ob2) (apply_inv (hblocks h) M)) (nth si (bU (snd ob2)) fzero) a b).
Proof.
  intros H1 H2 Ha Hb. unfold ham_apply. cbv zeta.
  set (p := fun bb : (nat * hblock Cs) * (nat * hblock Cs) => fscale (K:=Cs)
      (apply_fac n k s (rpos u (bpos (snd (fst bb)))) (rpos u (bpos (snd (snd bb)))))
      (fmul (K:=Cs) (bdim (snd (snd bb))) (fmul (K:=Cs) (bdim (snd (fst bb))) (nth si (bU (snd (fst bb))) fzero)
         (slice (fst (fst bb)) (fst (snd bb)) (apply_inv (hblocks h) M))) (fadj (nth si (bU (snd (snd bb))) fzero)))).
  etransitivity; [apply (fold_add_blocks (K:=Cs) p)|].
  rewrite (ksum_bpairs (K:=Cs) h p ob1 ob2 a b H1 H2 Ha Hb). unfold p, fscale, fzero. cbn [fst snd].
  etransitivity; [apply (Radd_0_l (s_rt Cs))|]. change (smul (s:=Cs)) with cmul. f_equal.
  unfold fmul, fadj, conj_block. etransitivity; [|apply (nsum_swap Cs)]. apply (nsum_ext Cs). intros j _.
  rewrite <- (nsum_mul_r Cs). reflexivity.
Qed.

Lemma apply_inv_even bs (M : fmat Cs) : (forall b, In b bs -> beven b = true) -> apply_inv bs M = M.
Proof.
  unfold apply_inv. revert M. induction bs as [|b bs IH]; intros M H; [reflexivity|]. cbn [fold_left]. rewrite (H b (or_introl eq_refl)).
  apply IH. intros b' Hb'. apply H. right; exact Hb'.
Qed.

(** with even blocks only, apply is the formula of the class comment *)
Theorem C135_formula_partial : (forall b, In b (hblocks h) -> beven b = true) ->
  forall (M : fmat Cs) ob1 ob2 a b, In ob1 (boffs 0%nat (hblocks h)) -> In ob2 (boffs 0%nat (hblocks h)) ->
  (a < bdim (snd ob1))%nat -> (b < bdim (snd ob2))%nat ->
  ham_apply u h k M si (fst ob1 + a)%nat (fst ob2 + b)%nat =
  cmul (doc_phase n k s (rpos u (bpos (snd ob1))) (rpos u (bpos (snd ob2))))
    (conj_block (bdim (snd ob1)) (bdim (snd ob2)) (nth si (bU (snd ob1)) fzero) (fun i j => M (fst ob1 + i)%nat (fst ob2 + j)%nat) (nth si (bU (snd ob2)) fzero) a b).
Proof.
  intros He M ob1 ob2 a b H1 H2 Ha Hb. rewrite (apply_slice M ob1 ob2 a b H1 H2 Ha Hb), (apply_inv_even _ M He), apply_fac_doc. reflexivity.
Qed.

Lemma cconj_mul x y : cconj (cmul x y) = cmul (cconj x) (cconj y).
Proof. apply (s_conj_mul Cs). Qed.
Lemma cconj_nsum m f : cconj (nsum (K:=Cs) m f) = nsum (K:=Cs) m (fun i => cconj (f i)).
Proof. induction m as [|m IH]; [rewrite !nsum_0; cbn; unfold cconj; cbn; f_equal; ring|]. rewrite !nsum_S, <- IH. apply (s_conj_add Cs). Qed.
Lemma flip_lead_herm d m M : hermitian m M -> hermitian m (flip_lead d M).
Proof.
  intros H a b Ha Hb. unfold flip_lead. rewrite (H a b Ha Hb). destruct (Nat.ltb a d), (Nat.ltb b d); unfold cconj, copp; cbn; f_equal; ring.
Qed.
Lemma apply_inv_herm bs m : forall M, hermitian m M -> hermitian m (apply_inv bs M).
Proof.
  unfold apply_inv. induction bs as [|b bs IH]; intros M H; [exact H|]. cbn [fold_left]. apply IH. destruct (beven b); [exact H|apply flip_lead_herm, H].
Qed.
(** a hermitian operator stays hermitian, whatever the parities, positions and matrices *)
Theorem C135_hermitian : forall M : fmat Cs, hermitian N M -> hermitian N (ham_apply u h k M si).
Proof.
  intros M HM x y Hx Hy.
  destruct (boffs_cover (K:=Cs) 0%nat (hblocks h) x) as (ob1 & I1 & Q1); [unfold hdim in Hx; lia|].
  destruct (boffs_cover (K:=Cs) 0%nat (hblocks h) y) as (ob2 & I2 & Q2); [unfold hdim in Hy; lia|].
  replace x with (fst ob1 + (x - fst ob1))%nat by lia. replace y with (fst ob2 + (y - fst ob2))%nat by lia.
  rewrite !apply_slice by (assumption || lia). rewrite cconj_mul, <- apply_fac_conj. f_equal.
  unfold conj_block. rewrite cconj_nsum. etransitivity; [apply (nsum_swap Cs)|]. apply (nsum_ext Cs). intros i Hi. rewrite cconj_nsum.
  apply (nsum_ext Cs). intros j Hj. rewrite !cconj_mul.
  assert (HH : slice (fst ob2) (fst ob1) (apply_inv (hblocks h) M) j i = cconj (slice (fst ob1) (fst ob2) (apply_inv (hblocks h) M) i j)).
  { apply (apply_inv_herm (hblocks h) N M HM).
    - pose proof (boffs_le _ _ _ I1). unfold hdim. lia.
    - pose proof (boffs_le _ _ _ I2). unfold hdim. lia. }
  rewrite HH. set (p := nth si (bU (snd ob2)) fzero (y - fst ob2)%nat j). set (q := nth si (bU (snd ob1)) fzero (x - fst ob1)%nat i).
  set (w := slice (fst ob1) (fst ob2) (apply_inv (hblocks h) M) i j).
  destruct p, q, w; unfold cmul, cconj; cbn; f_equal; ring.
Qed.
End Apply.
Print Assumptions C135_formula_partial.
Print Assumptions C135_hermitian.

(** operation number si is the identity and all its matrices are unit matrices *)
Definition identity_at (h : hsym Cs) (si : nat) : Prop :=
  nth_error (sops (hs h)) si = Some (zeye (sdim (hs h))) /\
  forall b, In b (hblocks h) -> feq (bdim b) (bdim b) (nth si (bU b) fzero) fid.
Lemma conj_block_id d1 d2 (u1 u2 M : fmat Cs) a b : feq d1 d1 u1 fid -> feq d2 d2 u2 fid -> (a < d1)%nat -> (b < d2)%nat -> conj_block d1 d2 u1 M u2 a b = M a b.
Proof.
  intros H1 H2 Ha Hb. unfold conj_block.
  etransitivity; [apply (nsum_ext Cs); intros i Hi; apply (nsum_ext Cs); intros j Hj; rewrite (H1 a i Ha Hi), (H2 b j Hb Hj); reflexivity|].
  etransitivity; [apply (nsum_single Cs d1 a _ Ha)|].
  - intros i Hi Hne. apply (nsum_zero Cs). intros j Hj. unfold fid. rewrite (proj2 (Nat.eqb_neq a i) (not_eq_sym Hne)).
    destruct (M i j), (Nat.eqb b j); cbn; unfold cmul, cconj; cbn; f_equal; ring.
  - etransitivity; [apply (nsum_single Cs d2 b _ Hb)|].
    + intros j Hj Hne. unfold fid. rewrite Nat.eqb_refl, (proj2 (Nat.eqb_neq b j) (not_eq_sym Hne)).
      destruct (M a j); cbn; unfold cmul, cconj; cbn; f_equal; ring.
    + unfold fid. rewrite !Nat.eqb_refl. destruct (M a b); cbn; unfold cmul, cconj; cbn; f_equal; ring.
Qed.
Lemma smv_eye n x a : (a < n)%nat -> smv n (zeye n) x a = x a.
Proof.
  intros Ha. unfold smv. etransitivity; [apply (nsum_single Rs n a _ Ha)|].
  - intros b Hb Hne. unfold zeye. rewrite (leye_ent Zs) by assumption. rewrite (proj2 (Nat.eqb_neq a b) (not_eq_sym Hne)). cbn. ring.
  - unfold zeye. rewrite (leye_ent Zs) by assumption. rewrite Nat.eqb_refl. cbn. ring.
Qed.
(** the identity changes nothing if all blocks are even and at the same position *)
Theorem C135_identity_partial : forall u (h : hsym Cs) k si pos, identity_at h si ->
  (forall b, In b (hblocks h) -> beven b = true) -> (forall b, In b (hblocks h) -> bpos b = pos) ->
  forall M : fmat Cs, feq (hdim h) (hdim h) (ham_apply u h k M si) M.
Proof.
  intros u h k si pos [HI HU] He Hp M x y Hx Hy.
  destruct (boffs_cover (K:=Cs) 0%nat (hblocks h) x) as (ob1 & I1 & Q1); [unfold hdim in Hx; lia|].
  destruct (boffs_cover (K:=Cs) 0%nat (hblocks h) y) as (ob2 & I2 & Q2); [unfold hdim in Hy; lia|].
  assert (IN : forall o bs ob, In ob (boffs (K:=Cs) o bs) -> In (snd ob) bs).
  { intros o bs. revert o. induction bs as [|b bs IH]; intros o ob H; [destruct H|]. destruct H as [<- | H]; [left; reflexivity|right; eapply IH; exact H]. }
  pose proof (IN _ _ _ I1) as J1. pose proof (IN _ _ _ I2) as J2.
  replace x with (fst ob1 + (x - fst ob1))%nat at 1 by lia. replace y with (fst ob2 + (y - fst ob2))%nat at 1 by lia.
  rewrite (C135_formula_partial u h k si He M ob1 ob2) by (assumption || lia).
  rewrite conj_block_id; [|apply HU, J1|apply HU, J2|lia|lia].
  rewrite (Hp _ J1), (Hp _ J2). replace (fst ob1 + (x - fst ob1))%nat with x by lia. replace (fst ob2 + (y - fst ob2))%nat with y by lia.
  assert (DP : doc_phase (sdim (hs h)) k (nth si (sops (hs h)) []) (rpos u pos) (rpos u pos) = (1, 0)).
  { unfold doc_phase. replace (dot _ k _) with 0; [rewrite Rmult_0_r; apply cexp_0|]. symmetry. unfold dot. apply (nsum_zero Rs). intros a _.
    rewrite smv_sub. cbn. ring. }
  rewrite DP. destruct (M x y); unfold cmul; cbn; f_equal; ring.
Qed.
Print Assumptions C135_identity_partial.

(** two functions on a chain: operation 0 is the identity, u = 1/4 is a quarter of the lattice constant *)
Definition chain_b (even : bool) (r : Z) : hblock Cs := MkBlock 1 [fid] even [r].
Definition chain_h (e : bool) (r : Z) : hsym Cs := MkHsym (MkSym 1 [zeye 1] false false) [chain_b true 0; chain_b e r].
Definition hop : fmat Cs := fun a b => if Nat.eqb a b then (0, 0) else (1, 0).
Lemma chain_identity e r : identity_at (chain_h e r) 0.
Proof. split; [reflexivity|]. intros b [<- | [<- | []]] i j _ _; reflexivity. Qed.
Lemma chain_entry u e r k : ham_apply u (chain_h e r) k hop 0 0%nat 1%nat =
  cmul (apply_fac 1 k (zeye 1) (rpos u [0%Z]) (rpos u [r])) (if e then (1, 0) else (- 1, 0)).
Proof.
  pose proof (apply_slice u (chain_h e r) k 0 hop (0%nat, chain_b true 0) (1%nat, chain_b e r) 0 0) as E. cbn [fst snd Nat.add] in E.
  rewrite E; [|left; reflexivity|right; left; reflexivity|cbn; lia|cbn; lia]. f_equal.
  rewrite conj_block_id; [|intros i j _ _; reflexivity|intros i j _ _; reflexivity|cbn; lia|cbn; lia].
  unfold slice, apply_inv. cbn [hblocks chain_h fold_left chain_b beven]. destruct e; [reflexivity|].
  unfold flip_lead, hop. cbn. unfold copp. cbn. f_equal; ring.
Qed.
(** parity: without any inversion, an odd function next to an even one changes the signs *)
Theorem C135_identity_parity_refuted : ~ forall u (h : hsym Cs) k si pos, identity_at h si -> (forall b, In b (hblocks h) -> bpos b = pos) ->
  forall M : fmat Cs, feq (hdim h) (hdim h) (ham_apply u h k M si) M.
Proof.
  intros C. specialize (C 1 (chain_h false 0) (fun _ => 0) 0%nat [0%Z] (chain_identity false 0)).
  specialize (C ltac:(intros b [<- | [<- | []]]; reflexivity) hop 0%nat 1%nat ltac:(cbn; lia) ltac:(cbn; lia)).
  rewrite chain_entry in C. unfold apply_fac in C. rewrite <- cexp_add in C. replace (_ + - _) with 0 in C by ring. rewrite cexp_0 in C.
  unfold cmul, hop in C. cbn in C. injection C as C _. lra.
Qed.
(** phase: the identity multiplies the hopping between two positions by exp(4 pi i k (r1-r2)) *)
Theorem C135_identity_phase_refuted : ~ forall u (h : hsym Cs) k si, identity_at h si -> (forall b, In b (hblocks h) -> beven b = true) ->
  forall M : fmat Cs, feq (hdim h) (hdim h) (ham_apply u h k M si) M.
Proof.
  intros C. specialize (C (/ 4) (chain_h true 1) (fun _ => 1) 0%nat (chain_identity true 1)).
  specialize (C ltac:(intros b [<- | [<- | []]]; reflexivity) hop 0%nat 1%nat ltac:(cbn; lia) ltac:(cbn; lia)).
  rewrite chain_entry in C. unfold apply_fac in C. rewrite <- cexp_add in C.
  assert (D : forall f, dot 1 (fun _ => 1) f = f 0%nat) by (intros f; unfold dot; rewrite nsum_S, nsum_0; cbn; ring).
  rewrite !D, !smv_eye in C by lia. unfold rpos, vent in C. cbn [nth] in C.
  replace (_ + - _) with (- PI) in C by field. unfold cexp in C. rewrite cos_neg, sin_neg, cos_PI, sin_PI in C.
  unfold cmul, hop in C. cbn in C. injection C as C _. lra.
Qed.
Print Assumptions C135_identity_parity_refuted.
Print Assumptions C135_identity_phase_refuted.
(** even functions at the same position, and a hermitian matrix *)
Example C135_example : identity_at (chain_h true 0) 0 /\ (forall b, In b (hblocks (chain_h true 0)) -> beven b = true) /\
  (forall b, In b (hblocks (chain_h true 0)) -> bpos b = [0%Z]) /\ hermitian 2 hop /\
  ham_apply 1 (chain_h true 0) (fun _ => 1) hop 0 0%nat 1%nat = (1, 0).
Proof.
  split; [apply chain_identity|]. split; [intros b [<- | [<- | []]]; reflexivity|]. split; [intros b [<- | [<- | []]]; reflexivity|].
  split.
  - intros a b _ _. unfold hop. rewrite (Nat.eqb_sym b a). destruct (Nat.eqb a b); unfold cconj; cbn; f_equal; ring.
  - apply (C135_identity_partial 1 (chain_h true 0) (fun _ => 1) 0 [0%Z] (chain_identity true 0)); try (cbn; lia); intros b [<- | [<- | []]]; reflexivity.
Qed.

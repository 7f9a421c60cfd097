(** Property C115: normalize of BandStructureModel. *)
From Coq Require Import List Arith ZArith Reals Lra Lia Bool Setoid Morphisms Permutation.
From Coquelicot Require Import Coquelicot.
Import List ListNotations.
From Verif Require Import SRing LMat FMat CplxR UrepModel UrepProofs FourierModel FourierProofs BsmProofs SpecProofs FourierProps EigModel EigProofs EigBase EigProps EigHess EigBad TbmModel TbmProps FitModel FitBase FitProps.
Local Open Scope R_scope.

Lemma series_feq d c P Q : length P = length Q -> (forall l, (l < length P)%nat -> feq (K:=Cs) d d (nth l P fzero) (nth l Q fzero)) -> P <> [] ->
  feq (K:=Cs) d d (herm_series c P) (herm_series c Q).
Proof.
  intros HL HE HP i j Hi Hj. assert (0 < length P)%nat by (destruct P; [congruence|simpl; lia]).
  rewrite !herm_join. rewrite <- HL. apply f_equal2.
  - apply csum_ext. intros l Hl. apply in_seq in Hl. rewrite (HE l ltac:(lia) i j Hi Hj), (HE l ltac:(lia) j i Hj Hi). reflexivity.
  - rewrite (HE 0%nat ltac:(lia) i j Hi Hj). reflexivity.
Qed.
Lemma coef_real n b k i : bexp b = false -> snd (bsm_coef n b k i) = 0.
Proof.
  intro He. unfold bsm_coef. destruct (Nat.eqb i 0); [reflexivity|].
  induction (bops b) as [|s l IH]; [reflexivity|]. cbn [ksum]. change (@sadd Cs) with cadd. simpl. rewrite IH.
  unfold coeff_fun. rewrite He. destruct (i / length (bnb b))%nat; [|simpl; ring]. destruct (bcos b); simpl; ring.
Qed.
(** making the matrices hermitian: nothing changes for real coefficients *)
Lemma series_herm d n b k : bparams b <> [] -> hermitian d (nth 0 (bparams b) fzero) ->
  (bexp b = true -> binv b = true -> forall l, (1 <= l < length (bparams b))%nat -> hermitian d (nth l (bparams b) fzero)) ->
  feq (K:=Cs) d d (herm_series (bsm_coef n b k) (bparams b)) (herm_series (bsm_coef n b k) (bsm_herm b)).
Proof.
  intros HP H0 H1 i j Hi Hj. set (P := bparams b) in *. rewrite !herm_join.
  assert (L : length (bsm_herm b) = length P). { unfold bsm_herm. fold P. destruct (negb (bexp b) || binv b), P; cbn [herm0 length]; rewrite ?map_length; reflexivity. }
  rewrite L. apply f_equal2.
  - apply csum_ext. intros l Hl. apply in_seq in Hl. destruct P as [|p0 p] eqn:EP; [congruence|]. cbn [length] in Hl. unfold bsm_herm. fold P. rewrite EP.
    destruct l as [|l]; [lia|]. destruct (negb (bexp b) || binv b) eqn:C; cbn [herm0 nth]; [|reflexivity].
    rewrite nth_mapf by lia. unfold herm_mat, fscale, fadd, fadj. destruct (bexp b) eqn:Ee.
    + cbn [negb orb] in C. specialize (H1 eq_refl C (S l) ltac:(cbn [length]; lia)). cbn [nth] in H1. pose proof (H1 i j Hi Hj) as E1.
      rewrite E1. unfold chalf. apply cplx_eq; simpl; field.
    + pose proof (coef_real n b k (S l) Ee) as Z. destruct (bsm_coef n b k (S l)) as [u v]. simpl in Z. subst v. unfold chalf. apply cplx_eq; simpl; field.
  - destruct P as [|p0 p] eqn:EP; [congruence|]. unfold bsm_herm. fold P. rewrite EP. pose proof (H0 i j Hi Hj) as E1. cbn [nth] in E1.
    assert (G : forall q : list cmat, nth 0 (herm0 (p0 :: q)) fzero i j = p0 i j).
    { intro q. cbn [herm0 nth]. unfold fscale, fadd, fadj, chalf. change (@sconj Cs) with cconj. change (@sadd Cs) with cadd. change (@smul Cs) with cmul. rewrite <- E1. apply cplx_eq; simpl; field. }
    destruct (negb (bexp b) || binv b); rewrite G; reflexivity.
Qed.
(** the reflection of one basis vector by a phase *)
Definition phase_mat (i : nat) (z : cplx) : cmat := fun a b => if Nat.eqb a b then (if Nat.eqb a i then z else (1, 0)) else (0, 0).
Lemma phase_congr d i z X a b : (a < d)%nat -> (b < d)%nat -> congr d (phase_mat i z) X a b = phase_col i z X a b.
Proof.
  intros Ha Hb. rewrite congr_entry. rewrite (nsum_single Cs d b); [|exact Hb|].
  - rewrite (nsum_single Cs d a); [|exact Ha|].
    + unfold phase_mat, phase_col. rewrite !Nat.eqb_refl. destruct (Nat.eqb a i), (Nat.eqb b i); apply cplx_eq; simpl; ring.
    + intros q _ Hq. unfold phase_mat at 1. rewrite (proj2 (Nat.eqb_neq q a)) by lia. apply cplx_eq; simpl; ring.
  - intros q _ Hq. apply (nsum_zero Cs). intros r _. unfold phase_mat at 2. rewrite (proj2 (Nat.eqb_neq q b)) by lia. apply cplx_eq; simpl; ring.
Qed.
Lemma phase_inv d i z : cmul z (cconj z) = (1, 0) -> feq (K:=Cs) d d (fmul (K:=Cs) d (phase_mat i z) (phase_mat i (cconj z))) (fid (K:=Cs)).
Proof.
  intros Hz a b Ha Hb. unfold fmul. rewrite (nsum_single Cs d a); [|exact Ha|].
  - unfold phase_mat, fid. rewrite Nat.eqb_refl. destruct (Nat.eqb a b) eqn:E; [|destruct (Nat.eqb a i); apply cplx_eq; simpl; ring].
    destruct (Nat.eqb a i); [exact Hz|apply cplx_eq; simpl; ring].
  - intros q _ Hq. unfold phase_mat at 1. rewrite (proj2 (Nat.eqb_neq a q)) by lia. apply cplx_eq; simpl; ring.
Qed.
Lemma spectrum_phase d i z H E : cmul z (cconj z) = (1, 0) -> spectrum d H (fid (K:=Cs)) E -> spectrum d (phase_col i z H) (fid (K:=Cs)) E.
Proof.
  intros Hz HE. apply (spectrum_proper d (congr d (phase_mat i z) H) _ (congr d (phase_mat i z) (fid (K:=Cs)))).
  - intros a b Ha Hb. apply phase_congr; assumption.
  - intros a b Ha Hb. rewrite phase_congr by assumption. unfold phase_col, fid. destruct (Nat.eqb_spec a i), (Nat.eqb_spec b i), (Nat.eqb_spec a b); try lia;
      change (@s1 Cs) with (1, 0); change (@s0 Cs) with (0, 0); first [solve [apply cplx_eq; simpl; ring] | (etransitivity; [|exact Hz]; apply cplx_eq; simpl; ring)].
  - apply (spectrum_congr d H _ E (phase_mat i z) (phase_mat i (cconj z))); [apply phase_inv; exact Hz| |exact HE].
    pose proof (phase_inv d i (cconj z)) as Q. rewrite conj_conj in Q. apply Q. etransitivity; [|exact Hz]. apply cplx_eq; simpl; ring.
Qed.
Lemma phase_series c P i z a b : P <> [] -> herm_series c (map (phase_col i z) P) a b = phase_col i z (herm_series c P) a b.
Proof.
  intro HP. apply (herm_map c P _ a b (fun x => phase_col i z x a b)); try exact HP.
  - reflexivity.
  - intro x. unfold phase_col, fadj. destruct (Nat.eqb a i), (Nat.eqb b i); apply cplx_eq; simpl; ring.
  - intros x y. unfold phase_col, fadd. destruct (Nat.eqb a i), (Nat.eqb b i); apply cplx_eq; simpl; ring.
  - intros w x. unfold phase_col, fscale. destruct (Nat.eqb a i), (Nat.eqb b i); apply cplx_eq; simpl; ring.
  - intros x y E. unfold phase_col. rewrite E. reflexivity.
Qed.
(** no entry next to the diagonal of the matrix is small without being 0 *)
Definition no_small (d : nat) (x : cmat) : Prop := forall i, (1 <= i < d)%nat -> x (i - 1)%nat i = (0, 0) \/ / 10 ^ 14 < sqrt (cabs2 (x (i - 1)%nat i)).
Lemma cabs2_pos z : 0 <= cabs2 z. Proof. unfold cabs2. nra. Qed.
Lemma cabs2_mul z w : cabs2 (cmul z w) = cabs2 z * cabs2 w. Proof. unfold cabs2. simpl. ring. Qed.
Lemma phase_unit x : 0 < sqrt (cabs2 x) -> cmul (cmul (cconj x) (cre (/ sqrt (cabs2 x)))) (cconj (cmul (cconj x) (cre (/ sqrt (cabs2 x))))) = (1, 0).
Proof.
  intro H. assert (Q : sqrt (cabs2 x) * sqrt (cabs2 x) = fst x * fst x + snd x * snd x) by (apply sqrt_sqrt, cabs2_pos).
  set (a := sqrt (cabs2 x)) in *. apply cplx_eq; simpl.
  - transitivity ((fst x * fst x + snd x * snd x) * / (a * a)); [field; lra|]. rewrite <- Q. field. lra.
  - ring.
Qed.
Lemma phase_abs i z x a b : cmul z (cconj z) = (1, 0) -> cabs2 (phase_col i z x a b) = cabs2 (x a b).
Proof.
  intro Hz. assert (Z : cabs2 z = 1). { apply (f_equal fst) in Hz. simpl in Hz. unfold cabs2. lra. }
  assert (Z' : cabs2 (cconj z) = 1). { unfold cabs2 in *. simpl. lra. }
  unfold phase_col. destruct (Nat.eqb a i), (Nat.eqb b i); rewrite ?cabs2_mul, ?Z, ?Z'; ring.
Qed.
Lemma small_pos : 0 < / 10 ^ 14. Proof. apply Rinv_0_lt_compat. lra. Qed.
Lemma cabs2_0 z : cabs2 z = 0 -> z = (0, 0).
Proof. unfold cabs2. intro H. apply cplx_eq; simpl; nra. Qed.
Lemma phase_step_keeps d c E P i : (1 < length P)%nat -> (1 <= i < d)%nat -> no_small d (nth 1 P fzero) ->
  spectrum d (herm_series c P) (fid (K:=Cs)) E ->
  (1 < length (phase_step i P))%nat /\ no_small d (nth 1 (phase_step i P) fzero) /\ spectrum d (herm_series c (phase_step i P)) (fid (K:=Cs)) E.
Proof.
  intros HL Hi NS HE. unfold phase_step. set (x := nth 1 P fzero (i - 1)%nat i) in *. destruct (Rltb (/ 10 ^ 14) (sqrt (cabs2 x))) eqn:C.
  - apply Rltb_true in C. pose proof small_pos. assert (U := phase_unit x ltac:(lra)). set (z := cmul (cconj x) (cre (/ sqrt (cabs2 x)))) in *.
    split; [rewrite map_length; exact HL|]. split.
    + intros j Hj. rewrite nth_mapf by lia. rewrite phase_abs by exact U. destruct (NS j Hj) as [Z|Z]; [left|right; exact Z].
      apply cabs2_0. rewrite phase_abs by exact U. rewrite Z. unfold cabs2. simpl. ring.
    + apply (spectrum_proper d (phase_col i z (herm_series c P)) _ (fid (K:=Cs))); [|intros ? ? _ _; reflexivity|apply spectrum_phase; assumption].
      intros a b _ _. symmetry. apply phase_series. intro; subst; simpl in HL; lia.
  - destruct (NS i Hi) as [Z|Z]; [|apply Rltb_false in C; fold x in Z; lra].
    destruct P as [|p0 [|p1 p]]; try (simpl in HL; lia).
    assert (EQ : forall a b, (if Nat.eqb a (i - 1) && Nat.eqb b i then (0, 0) else p1 a b) = p1 a b).
    { intros a b. destruct (Nat.eqb_spec a (i - 1)) as [->|]; [|reflexivity]. destruct (Nat.eqb_spec b i) as [->|]; [|reflexivity]. exact (eq_sym Z). }
    split; [exact HL|]. split.
    + intros j Hj. cbn [nth]. rewrite EQ. exact (NS j Hj).
    + refine (spectrum_proper d _ _ _ _ E _ _ HE); [|intros ? ? _ _; reflexivity]. apply series_feq; [reflexivity| |discriminate].
      intros l Hl a b _ _. destruct l as [|[|l]]; try reflexivity. cbn [nth]. symmetry. apply EQ.
Qed.
Lemma phase_fold_keeps d c E l : forall P, (forall i, In i l -> (1 <= i < d)%nat) -> (1 < length P)%nat -> no_small d (nth 1 P fzero) ->
  spectrum d (herm_series c P) (fid (K:=Cs)) E -> spectrum d (herm_series c (fold_left (fun P i => phase_step i P) l P)) (fid (K:=Cs)) E.
Proof.
  induction l as [|i l IH]; intros P Hl HL NS HE; [exact HE|]. cbn [fold_left].
  destruct (phase_step_keeps d c E P i HL (Hl i (or_introl eq_refl)) NS HE) as (A & B & C). apply IH; try assumption. intros j Hj. apply Hl. right. exact Hj.
Qed.
(** normalize keeps the energies at every k if params[0] is hermitian, with exponentials and inversion also the other
    matrices, and no entry next to the diagonal of the rotated params[1] is small without being 0 *)
Theorem C115_energies : forall eigh n d b k E, bparams b <> [] -> hermitian d (nth 0 (bparams b) fzero) ->
  (bexp b = true -> binv b = true -> forall l, (1 <= l < length (bparams b))%nat -> hermitian d (nth l (bparams b) fzero)) ->
  (forall H, hermitian d H -> eigenbasis d H (fid (K:=Cs)) (eigh H)) ->
  ((1 < length (bparams b))%nat -> no_small d (congr d (snd (eigh (nth 0 (bsm_herm b) fzero))) (nth 1 (bsm_herm b) fzero))) ->
  bsm_energies n d b k E -> bsm_energies n d (bsm_normalize eigh d None b) k E.
Proof.
  intros eigh n d b k E HP H0 H1 HS NS HE. unfold bsm_energies, bsm_f in *. unfold bsm_normalize. cbn [set_params bparams].
  assert (L : length (bsm_herm b) = length (bparams b)). { unfold bsm_herm. destruct (negb (bexp b) || binv b), (bparams b); cbn [herm0 length]; rewrite ?map_length; reflexivity. }
  assert (HN : bsm_herm b <> []) by (intro Z; rewrite Z in L; destruct (bparams b); [congruence|discriminate]).
  match goal with |- spectrum d (herm_series (bsm_coef n ?B k) ?Q) _ _ => change (bsm_coef n B k) with (bsm_coef n b k) end.
  set (P := bsm_herm b) in *. set (ev := snd (eigh (nth 0 P fzero))) in *.
  assert (HB : eigenbasis d (nth 0 P fzero) (fid (K:=Cs)) (eigh (nth 0 P fzero))).
  { apply HS. intros i j Hi Hj. unfold P, bsm_herm. destruct (bparams b) as [|p0 p]; [congruence|]. destruct (negb (bexp b) || binv b); cbn [herm0 nth]; unfold fscale, fadd, fadj, chalf; apply cplx_eq; simpl; ring. }
  unfold ev in NS. destruct (eigh (nth 0 P fzero)) as [la V] eqn:EV. cbn [snd] in *. subst ev. destruct (basis_unitary d _ la V HB) as [U1 U2].
  assert (S1 : spectrum d (herm_series (bsm_coef n b k) (map (congr d V) P)) (fid (K:=Cs)) E).
  { apply (spectrum_proper d (congr d V (herm_series (bsm_coef n b k) P)) _ (congr d V (fid (K:=Cs)))).
    - intros a c _ _. symmetry. apply herm_congr. exact HN.
    - unfold congr. rewrite (fmul_id_r (K:=Cs)). exact U1.
    - apply (spectrum_congr d _ _ E V (fadj (K:=Cs) V)); [exact U2|exact U1|]. refine (spectrum_proper d _ _ _ _ E _ _ HE); [|intros ? ? _ _; reflexivity]. apply series_herm; assumption. }
  rewrite map_length. destruct (Nat.ltb_spec 1 (length P)) as [HL|HL]; [|exact S1].
  apply phase_fold_keeps; try exact S1.
  - intros i Hi. apply in_seq in Hi. lia.
  - rewrite map_length. exact HL.
  - rewrite nth_mapf by lia. apply NS. lia.
Qed.
Print Assumptions C115_energies.

(** the normal form: params[0] is diagonal with the eigenvalues, the entries next to the diagonal of params[1] are real and not negative *)
Lemma phase_fold_form d (la : nat -> R) (n0 : nat) : forall l (P : list cmat), (1 < length P)%nat -> (forall i, In i l -> (n0 <= i)%nat) -> (1 <= n0)%nat ->
  (exists m, l = seq n0 m) ->
  (forall a b, (a < d)%nat -> (b < d)%nat -> nth 0 P fzero a b = if Nat.eqb a b then cre (la a) else (0, 0)) ->
  (forall i, (1 <= i < n0)%nat -> exists r, 0 <= r /\ nth 1 P fzero (i - 1)%nat i = cre r) ->
  let Q := fold_left (fun P i => phase_step i P) l P in
  (forall a b, (a < d)%nat -> (b < d)%nat -> nth 0 Q fzero a b = if Nat.eqb a b then cre (la a) else (0, 0)) /\
  (forall i, (1 <= i < n0 + length l)%nat -> exists r, 0 <= r /\ nth 1 Q fzero (i - 1)%nat i = cre r).
Proof.
  intros l. revert n0. induction l as [|i l IH]; intros n0 P HL Hl Hn [m Em] D0 D1.
  - cbn [fold_left length]. rewrite Nat.add_0_r. split; assumption.
  - destruct m as [|m]; [discriminate|]. cbn [seq] in Em. injection Em as -> ->. cbn [fold_left].
    assert (ST : (1 < length (phase_step n0 P))%nat /\
      (forall a b, (a < d)%nat -> (b < d)%nat -> nth 0 (phase_step n0 P) fzero a b = if Nat.eqb a b then cre (la a) else (0, 0)) /\
      (forall i, (1 <= i < S n0)%nat -> exists r, 0 <= r /\ nth 1 (phase_step n0 P) fzero (i - 1)%nat i = cre r)).
    { unfold phase_step. set (x := nth 1 P fzero (n0 - 1)%nat n0) in *. destruct (Rltb (/ 10 ^ 14) (sqrt (cabs2 x))) eqn:C.
      - apply Rltb_true in C. pose proof small_pos. assert (U := phase_unit x ltac:(lra)). assert (Q : sqrt (cabs2 x) * sqrt (cabs2 x) = fst x * fst x + snd x * snd x) by (apply sqrt_sqrt, cabs2_pos).
        set (w := sqrt (cabs2 x)) in *. set (z := cmul (cconj x) (cre (/ w))) in *. split; [rewrite map_length; exact HL|]. split.
        + intros a b Ha Hb. rewrite nth_mapf by lia. unfold phase_col. rewrite (D0 a b Ha Hb). destruct (Nat.eqb_spec a n0), (Nat.eqb_spec b n0), (Nat.eqb_spec a b); try lia; try (apply cplx_eq; simpl; ring).
          transitivity (cmul (cre (la a)) (cmul z (cconj z))); [apply cplx_eq; simpl; ring|]. rewrite U. apply cplx_eq; simpl; ring.
        + intros j Hj. rewrite nth_mapf by lia. unfold phase_col. rewrite (proj2 (Nat.eqb_neq (j - 1) n0)) by lia. destruct (Nat.eqb_spec j n0) as [->|Hne].
          * exists w. split; [apply sqrt_pos|]. fold x. unfold z. apply cplx_eq; simpl.
            -- transitivity ((fst x * fst x + snd x * snd x) * / w); [ring|]. rewrite <- Q. field. lra.
            -- ring.
          * apply D1. lia.
      - destruct P as [|p0 [|p1 p]]; try (simpl in HL; lia). split; [exact HL|]. split; [exact D0|]. intros j Hj. cbn [nth].
        destruct (Nat.eqb_spec (j - 1) (n0 - 1)); cbn [andb]; [destruct (Nat.eqb_spec j n0) as [->|Hne]; [exists 0; split; [lra|reflexivity]|lia]|].
        apply D1. lia. }
    destruct ST as (A & B & C). destruct (IH (S n0) (phase_step n0 P) A) as [R1 R2].
    + intros j Hj. apply in_seq in Hj. lia.
    + lia.
    + exists m. reflexivity.
    + exact B.
    + exact C.
    + split; [exact R1|]. intros j Hj. apply R2. cbn [length] in Hj. lia.
Qed.
Theorem C115_normal_form : forall eigh d b, bparams b <> [] -> (forall H, hermitian d H -> eigenbasis d H (fid (K:=Cs)) (eigh H)) ->
  let P := bparams (bsm_normalize eigh d None b) in
  exists la : nat -> R, (forall a c, (a < d)%nat -> (c < d)%nat -> nth 0 P fzero a c = if Nat.eqb a c then cre (la a) else (0, 0)) /\
    ((1 < length P)%nat -> forall i, (1 <= i < d)%nat -> exists r, 0 <= r /\ nth 1 P fzero (i - 1)%nat i = cre r).
Proof.
  intros eigh d b HP HS. unfold bsm_normalize. cbn [set_params bparams].
  assert (L : length (bsm_herm b) = length (bparams b)). { unfold bsm_herm. destruct (negb (bexp b) || binv b), (bparams b); cbn [herm0 length]; rewrite ?map_length; reflexivity. }
  assert (L0 : (0 < length (bsm_herm b))%nat) by (rewrite L; destruct (bparams b); [congruence|simpl; lia]).
  assert (HB : eigenbasis d (nth 0 (bsm_herm b) fzero) (fid (K:=Cs)) (eigh (nth 0 (bsm_herm b) fzero))).
  { apply HS. intros i j Hi Hj. unfold bsm_herm. destruct (bparams b) as [|p0 p]; [congruence|]. destruct (negb (bexp b) || binv b); cbn [herm0 nth]; unfold fscale, fadd, fadj, chalf; apply cplx_eq; simpl; ring. }
  set (P := bsm_herm b) in *. destruct (eigh (nth 0 P fzero)) as [la V] eqn:EV. cbn [snd]. exists la.
  assert (D0 : forall a c, (a < d)%nat -> (c < d)%nat -> nth 0 (map (congr d V) P) fzero a c = if Nat.eqb a c then cre (la a) else (0, 0)).
  { intros a c Ha Hc. rewrite nth_mapf by exact L0. destruct HB as (B1 & B2 & _). cbn [fst snd] in *. specialize (B2 a c Ha Hc). rewrite congr_entry.
    transitivity (cmul (cre (la c)) (fmul (K:=Cs) d (fmul (K:=Cs) d (fadj (K:=Cs) V) (fid (K:=Cs))) V a c)).
    - etransitivity; [apply (nsum_swap Cs)|]. transitivity (nsum (K:=Cs) d (fun m => cmul (cconj (V m a)) (cmul (cre (la c)) (V m c)))).
      + apply (nsum_ext Cs). intros m Hm. transitivity (nsum (K:=Cs) d (fun q => cmul (cconj (V m a)) (cmul (nth 0 P fzero m q) (V q c)))); [apply (nsum_ext Cs); intros q _; apply cplx_eq; simpl; ring|].
        etransitivity; [apply (nsum_mul_l Cs)|]. refine (f_equal2 cmul eq_refl _). etransitivity; [exact (B1 m c Hm Hc)|]. refine (f_equal2 cmul eq_refl _). exact (fmul_id_l (K:=Cs) d d V m c Hm Hc).
      + etransitivity; [|apply (nsum_mul_l Cs)]. apply (nsum_ext Cs). intros m Hm.
        assert (I2 : fmul (K:=Cs) d (fadj (K:=Cs) V) (fid (K:=Cs)) a m = fadj (K:=Cs) V a m) by (apply (fmul_id_r (K:=Cs) d d (fadj (K:=Cs) V) a m Ha Hm)).
        change (@smul Cs) with cmul. rewrite I2. unfold fadj. apply cplx_eq; simpl; ring.
    - rewrite B2. unfold fid. destruct (Nat.eqb_spec a c) as [->|]; apply cplx_eq; simpl; ring. }
  rewrite map_length. destruct (Nat.ltb_spec 1 (length P)) as [HL|HL].
  - destruct (phase_fold_form d la 1 (seq 1 (d - 1)) (map (congr d V) P)) as [R1 R2].
    + rewrite map_length. exact HL.
    + intros i Hi. apply in_seq in Hi. lia.
    + lia.
    + exists (d - 1)%nat. reflexivity.
    + exact D0.
    + intros i Hi. lia.
    + split; [exact R1|]. intros _ i Hi. apply R2. rewrite seq_length. lia.
  - split; [exact D0|]. rewrite map_length. intros; lia.
Qed.
Print Assumptions C115_normal_form.

(** levels 1 and 2, hopping i between them: the phase is removed *)
Definition pu : cmat := fun i j => match i, j with 0%nat, 1%nat => (0, 1) | 1%nat, 0%nat => (0, -1) | _, _ => (0, 0) end.
Definition nb2 : bsm := MkBsm false false true [one1] [rv1 0; rv1 1] [m22 1 0 0 2; pu].
Lemma pu_congr a b : (a < 2)%nat -> (b < 2)%nat -> congr 2 (fid (K:=Cs)) (herm_mat pu) a b = pu a b.
Proof. intros Ha Hb. unfold congr, fmul. rewrite !nsum2. two a Ha; two b Hb; unfold herm_mat, fscale, fadd, fadj, chalf, fid, pu; apply cplx_eq; simpl; field. Qed.
Lemma pu_ev : snd (eigh22 (nth 0 (bsm_herm nb2) fzero)) = fid (K:=Cs).
Proof.
  unfold eigh22. destruct (Req_EM_T _ 0) as [|N]; [reflexivity|]. exfalso. apply N. unfold bsm_herm, nb2. cbn [bexp binv negb orb bparams herm0 nth].
  unfold fscale, fadd, fadj, chalf, m22. simpl. ring.
Qed.
Example C115_ex : nth 1 (bparams (bsm_normalize eigh22 2 None nb2)) fzero 0%nat 1%nat = (1, 0) /\
  forall k E, bsm_energies 1 2 nb2 k E -> bsm_energies 1 2 (bsm_normalize eigh22 2 None nb2) k E.
Proof.
  assert (S1 : sqrt (cabs2 (0, 1)) = 1) by (unfold cabs2; simpl; replace (0 * 0 + 1 * 1) with 1 by ring; apply sqrt_1).
  assert (LT : / 10 ^ 14 < 1) by (rewrite <- Rinv_1; apply Rinv_lt_contravar; lra).
  split.
  - unfold bsm_normalize. cbn zeta. rewrite pu_ev. cbn [set_params bparams]. unfold bsm_herm, nb2. cbn [bexp binv negb orb bparams herm0 map length Nat.ltb Nat.leb Nat.sub seq fold_left].
    unfold phase_step. cbn [nth Nat.sub]. change (@fadd Cs) with (@fadd Cs). rewrite !pu_congr by lia. cbn [pu]. rewrite S1, (proj2 (Rltb_true _ _)) by exact LT. cbn [map nth].
    unfold phase_col. cbn [Nat.eqb]. rewrite pu_congr by lia. cbn [pu]. apply cplx_eq; simpl; field.
  - intros k E HE. apply C115_energies; try exact HE.
    + discriminate.
    + apply m22_herm.
    + discriminate.
    + exact eigh22_solves.
    + intros _ i Hi. rewrite pu_ev. replace (nth 1 (bsm_herm nb2) fzero) with (herm_mat pu) by reflexivity. assert (i = 1%nat) as -> by lia. right. rewrite pu_congr by lia. cbn [Nat.sub pu]. rewrite S1. exact LT.
Qed.

(** one band i e^{ix} + h.c. = -2 sin x in a model with exponentials whose symmetry has the inversion: normalize makes it 0 *)
Definition inv_b : bsm := MkBsm true false true [one1] [rv1 0; rv1 1] [cm (0, 0); cm (0, 1)].
Theorem C115_inversion_refuted : ~ (forall eigh n d b k E, bparams b <> [] -> hermitian d (nth 0 (bparams b) fzero) ->
  (forall H, hermitian d H -> eigenbasis d H (fid (K:=Cs)) (eigh H)) ->
  ((1 < length (bparams b))%nat -> no_small d (congr d (snd (eigh (nth 0 (bsm_herm b) fzero))) (nth 1 (bsm_herm b) fzero))) ->
  bsm_energies n d b k E -> bsm_energies n d (bsm_normalize eigh d None b) k E).
Proof.
  intro A. assert (HC : cexp (2 * PI * dot 1 (rv1 (1 / 4)) (rot 1 one1 (rv1 1))) = (0, 1)).
  { replace (2 * PI * dot 1 (rv1 (1 / 4)) (rot 1 one1 (rv1 1))) with (PI / 2). 2:{ unfold rot, dot, nsum, one1, rv1. simpl. field. } unfold cexp. rewrite cos_PI2, sin_PI2. reflexivity. }
  assert (CO : forall p, bsm_coef 1 (set_params inv_b p) (rv1 (1 / 4)) 1 = (0, 1)).
  { intro p. unfold bsm_coef, set_params, inv_b. cbn [Nat.eqb bnb bops length bexp]. change (1 / 2)%nat with 0%nat. change (1 mod 2 + 0)%nat with 1%nat. cbn [ksum]. unfold coeff_fun. cbn [bexp bcos].
    unfold nb. cbn [nth]. rewrite HC. apply cplx_eq; simpl; ring. }
  assert (F : forall p0 p1, bsm_f 1 (set_params inv_b [p0; p1]) (rv1 (1 / 4)) 0%nat 0%nat = cadd (cadd (cmul (0, 1) (p1 0%nat 0%nat)) (cmul (0, -1) (cconj (p1 0%nat 0%nat)))) (p0 0%nat 0%nat)).
  { intros p0 p1. unfold bsm_f. rewrite herm_join. cbn [set_params bparams length Nat.sub]. rewrite csum1. change (bsm_coef 1 _ _ 1) with (bsm_coef 1 (set_params inv_b [p0; p1]) (rv1 (1 / 4)) 1). rewrite CO. cbn [nth]. apply cplx_eq; simpl; ring. }
  assert (Id : fid (K:=Cs) 0%nat 0%nat = (1, 0)) by reflexivity.
  assert (S0 : bsm_energies 1 1 inv_b (rv1 (1 / 4)) [-2 / 1]).
  { apply spectrum1_at; [|exact Id|lra]. etransitivity; [exact (F (cm (0, 0)) (cm (0, 1)))|]. unfold cm. apply cplx_eq; simpl; ring. }
  pose proof (A eg1 1%nat 1%nat inv_b (rv1 (1 / 4)) _ ltac:(discriminate) ltac:(intros i j _ _; simpl; unfold cm; apply cplx_eq; simpl; ring) eg1_basis ltac:(intros _ i Hi; lia) S0) as B.
  assert (S1 : bsm_energies 1 1 (bsm_normalize eg1 1 None inv_b) (rv1 (1 / 4)) [0 / 1]).
  { apply spectrum1_at; [|exact Id|lra]. unfold bsm_normalize. cbn zeta. unfold bsm_herm at 1 2 3. cbn [inv_b bexp binv negb orb bparams herm0 map length Nat.ltb Nat.leb Nat.sub seq fold_left].
    etransitivity; [apply F|]. rewrite !congr_entry, !nsum1. unfold eg1. cbn [snd]. unfold herm_mat, fscale, fadd, fadj, chalf, fid, cm. apply cplx_eq; simpl; field. }
  pose proof (spectrum_unique _ _ _ _ _ B S1) as P. apply Permutation_length_1 in P. lra.
Qed.
Print Assumptions C115_inversion_refuted.

(** the hopping 10^-15 between two equal levels: only one of the two entries of params[1] is set to 0, and the splitting is halved *)
Definition eps15 : R := / 10 ^ 15.
Definition small_b : bsm := MkBsm false false true [one1] [rv1 0; rv1 1] [m22 0 0 0 0; m22 0 eps15 eps15 0].
Lemma spectrum_pm (H : cmat) h : H 0%nat 0%nat = (0, 0) -> H 0%nat 1%nat = (h, 0) -> H 1%nat 0%nat = (h, 0) -> H 1%nat 1%nat = (0, 0) ->
  spectrum 2 H (fid (K:=Cs)) [h; - h].
Proof.
  intros H00 H01 H10 H11. split; [reflexivity|]. exists (m22 1 1 1 (-1)), (m22 (1/2) (1/2) (1/2) (-1/2)), (fid (K:=Cs)).
  split; [|split; [|split]].
  - intros i j Hi Hj. unfold fmul. rewrite nsum2. two i Hi; two j Hj; apply cplx_eq; simpl; field.
  - intros i j Hi Hj. unfold fmul. rewrite nsum2. two i Hi; two j Hj; apply cplx_eq; simpl; field.
  - apply fmul_id_l.
  - rewrite (fmul_id_l (K:=Cs) 2 2 (m22 1 1 1 (-1))). intros i j Hi Hj. unfold fmul, cdiag. rewrite !nsum2. two i Hi; two j Hj; rewrite ?H00, ?H01, ?H10, ?H11; apply cplx_eq; simpl; ring.
Qed.
Theorem C115_small_refuted : ~ (forall eigh n d b k E, bparams b <> [] -> (forall p, In p (bparams b) -> hermitian d p) ->
  (forall H, hermitian d H -> eigenbasis d H (fid (K:=Cs)) (eigh H)) ->
  bsm_energies n d b k E -> bsm_energies n d (bsm_normalize eigh d None b) k E).
Proof.
  intro A. assert (E0 : 0 < eps15 < / 10 ^ 14). { unfold eps15. split; [apply Rinv_0_lt_compat; lra|apply Rinv_lt_contravar; lra]. }
  assert (CO : forall p, bsm_coef 1 (set_params small_b p) (rv1 0) 1 = (1, 0)).
  { intro p. unfold bsm_coef, set_params, small_b. cbn [Nat.eqb bnb bops length bexp]. change (1 / 2)%nat with 0%nat. change (1 mod 2 + 0)%nat with 1%nat. cbn [ksum]. unfold coeff_fun. cbn [bexp bcos].
    unfold nb. cbn [nth]. replace (2 * PI * dot 1 (rv1 0) (rot 1 one1 (rv1 1))) with 0 by (unfold dot, nsum, rv1; simpl; ring). rewrite cos_0. apply cplx_eq; simpl; ring. }
  assert (F : forall p0 p1 i j, bsm_f 1 (set_params small_b [p0; p1]) (rv1 0) i j = cadd (cadd (p1 i j) (cconj (p1 j i))) (p0 i j)).
  { intros p0 p1 i j. unfold bsm_f. rewrite herm_join. cbn [set_params bparams length Nat.sub]. rewrite csum1. change (bsm_coef 1 _ _ 1) with (bsm_coef 1 (set_params small_b [p0; p1]) (rv1 0) 1). rewrite CO. cbn [nth]. apply cplx_eq; simpl; ring. }
  assert (S0 : bsm_energies 1 2 small_b (rv1 0) [2 * eps15; - (2 * eps15)]).
  { apply spectrum_pm; (etransitivity; [apply (F (m22 0 0 0 0) (m22 0 eps15 eps15 0))|]; apply cplx_eq; simpl; ring). }
  pose proof (A eigh22 1%nat 2%nat small_b (rv1 0) _ ltac:(discriminate) ltac:(intros p [<-|[<-|[]]]; apply m22_herm) eigh22_solves S0) as B.
  assert (EV : snd (eigh22 (nth 0 (bsm_herm small_b) fzero)) = fid (K:=Cs)).
  { unfold eigh22. destruct (Req_EM_T _ 0) as [|N]; [reflexivity|]. exfalso. apply N. unfold bsm_herm, small_b. cbn [bexp binv negb orb bparams herm0 nth]. unfold fscale, fadd, fadj, chalf, m22. simpl. ring. }
  assert (CG : forall x a b, (a < 2)%nat -> (b < 2)%nat -> congr 2 (fid (K:=Cs)) x a b = x a b).
  { intros x a b Ha Hb. unfold congr, fmul. rewrite !nsum2. two a Ha; two b Hb; unfold fadj, fid; apply cplx_eq; simpl; ring. }
  assert (S1 : bsm_energies 1 2 (bsm_normalize eigh22 2 None small_b) (rv1 0) [eps15; - eps15]).
  { unfold bsm_energies. unfold bsm_normalize. cbn zeta. rewrite EV. unfold bsm_herm. cbn [small_b bexp binv negb orb bparams herm0 map length Nat.ltb Nat.leb Nat.sub seq fold_left].
    unfold phase_step. cbn [nth Nat.sub]. rewrite (proj2 (Rltb_false _ _)).
    2:{ rewrite CG by lia. unfold cabs2, herm_mat, fscale, fadd, fadj, chalf, m22. simpl. match goal with |- sqrt ?x <= _ => replace x with (eps15 * eps15) by field end. rewrite sqrt_square by lra. lra. }
    apply spectrum_pm; (etransitivity; [apply F|]; cbn [Nat.eqb andb]; rewrite !CG by lia; unfold herm_mat, fscale, fadd, fadj, chalf, m22; apply cplx_eq; simpl; field). }
  pose proof (spectrum_unique _ _ _ _ _ B S1) as P. assert (IN : In (2 * eps15) [eps15; - eps15]) by (eapply Permutation_in; [exact P|left; reflexivity]).
  destruct IN as [I|[I|[]]]; lra.
Qed.
Print Assumptions C115_small_refuted.

(** Properties C158 and C159: models written to a file and read back (bandstructure.py, tight_binding_asym.py). *)
From Coq Require Import List Arith ZArith Reals Lra Lia Bool Permutation String.
Import ListNotations.
From Verif Require Import SRing LMat FMat CplxR UrepModel SymModel FourierModel FourierProofs BsmProofs SpecProofs FourierProps NbrModel NbrProps SupercellModel
  FormatModel FormatProps AsymOpsModel AsymOpsProps BsmFileModel.
Local Open Scope nat_scope.
Notation length := List.length.

(** ** specification *)
(** the model is in the form that normalize leaves: the right number of matrices, the first one hermitian, and all of them hermitian
    unless the model uses exponentials without inversion symmetry *)
Definition normal_form (d : nat) (b : bsm) : Prop :=
  bnb b <> [] /\
  length (bparams b) = (if bexp b || binv b then length (bnb b) else 2 * length (bnb b) - 1) /\
  hermitian d (nth 0 (bparams b) fzero) /\
  (bexp b = false \/ binv b = true -> forall p, In p (bparams b) -> hermitian d p).
(** neighbors: the first one is 0, the others are not *)
Definition zero_first (n : nat) (nbs : list rvec) : Prop :=
  (forall a, a < n -> nb nbs 0 a = 0%R) /\ forall l, 0 < l < length nbs -> exists a, a < n /\ nb nbs l a <> 0%R.

(** ** lemmas *)
Lemma herm_feq d c (P Q : list cmat) i j : Forall2 (feq (K:=Cs) d d) P Q -> P <> [] -> i < d -> j < d -> herm_series c P i j = herm_series c Q i j.
Proof.
  intros H Hne Hi Hj. assert (L : length P = length Q) by (clear Hne; induction H; cbn; [reflexivity|congruence]).
  assert (E : forall l, forall a e, a < d -> e < d -> nth l P fzero a e = nth l Q fzero a e).
  { clear Hne L c. induction H as [|p q P Q Hpq H IH]; intros l a e Ha He; [reflexivity|]. destruct l as [|l]; [apply Hpq; assumption|apply IH; assumption]. }
  rewrite !herm_join, <- L. rewrite (E 0 i j Hi Hj). f_equal. apply csum_ext. intros l _. rewrite (E l i j Hi Hj), (E l j i Hj Hi). reflexivity.
Qed.
Lemma hermitian_hherm d x : hermitian d x -> feq (K:=Cs) d d (fadj (K:=Cs) x) x.
Proof. intros H i j Hi Hj. unfold fadj. symmetry. apply H; assumption. Qed.
Lemma Amat_h d h : hermitian d h -> feq (K:=Cs) d d (Amat h) h.
Proof.
  intros H. apply Amat_herm. exact (hermitian_hherm d h H).
Qed.
Lemma map_Amat_h d l : (forall h, In h l -> hermitian d h) -> Forall2 (feq (K:=Cs) d d) (map Amat l) l.
Proof.
  induction l as [|h l IH]; intros H; [constructor|]. cbn [map]. constructor; [apply Amat_h, H; left; reflexivity|apply IH; intros; apply H; right; assumption].
Qed.
Lemma two_A_sum d l i j : (forall h, In h l -> hermitian d h) -> i < d -> j < d ->
  fscale (K:=Cs) (cre 2) (fsum (K:=Cs) (map Amat l) (fun x => x)) i j = sum_herm l i j.
Proof.
  intros H Hi Hj. unfold fscale, fsum. change (@smul Cs) with cmul. rewrite sum_herm_entry, csum_map, <- csum_mul_l. apply csum_ext. intros h Hh.
  rewrite (Amat_h d h (H h Hh) i j Hi Hj), <- (H h Hh i j Hi Hj). csolve.
Qed.
(** A - i B *)
Definition ab (xy : cmat * cmat) : cmat := fadd (K:=Cs) (fst xy) (fscale (K:=Cs) (copp ci) (snd xy)).
Lemma ab_A d x y : hermitian d x -> hermitian d y -> feq (K:=Cs) d d (Amat (ab (x, y))) x.
Proof.
  intros Hx Hy i j Hi Hj. unfold Amat, ab, fscale, fadd, fadj. cbn [fst snd]. change (@smul Cs) with cmul. change (@sadd Cs) with cadd. change (@sconj Cs) with cconj.
  rewrite (Hx j i Hj Hi), (Hy j i Hj Hi). unfold chalf. csolve.
Qed.
Lemma ab_B d x y : hermitian d x -> hermitian d y -> feq (K:=Cs) d d (Bmat (ab (x, y))) y.
Proof.
  intros Hx Hy i j Hi Hj. unfold Bmat, ab, fneg, fscale, fadd, fadj. cbn [fst snd]. change (@smul Cs) with cmul. change (@sadd Cs) with cadd. change (@sconj Cs) with cconj.
  rewrite (Hx j i Hj Hi), (Hy j i Hj Hi). unfold chalf. csolve.
Qed.
Lemma ab_lists d X Y : length X = length Y -> (forall h, In h X -> hermitian d h) -> (forall h, In h Y -> hermitian d h) ->
  Forall2 (feq (K:=Cs) d d) (map Amat (map ab (combine X Y))) X /\ Forall2 (feq (K:=Cs) d d) (map Bmat (map ab (combine X Y))) Y.
Proof.
  revert Y. induction X as [|x X IH]; intros [|y Y] L HX HY; try discriminate L; [split; constructor|]. cbn [combine map].
  destruct (IH Y) as [I1 I2]; [injection L; auto|intros; apply HX; right; assumption|intros; apply HY; right; assumption|].
  split; constructor; try assumption; [apply ab_A|apply ab_B]; ((apply HX; left; reflexivity) || (apply HY; left; reflexivity)).
Qed.
Lemma csum_feq d (P Q : list cmat) i j : Forall2 (feq (K:=Cs) d d) P Q -> i < d -> j < d -> csum P (fun x => x i j) = csum Q (fun x => x i j).
Proof. intros H Hi Hj. induction H as [|p q P Q Hpq H IH]; [reflexivity|]. cbn [ksum]. rewrite IH, (Hpq i j Hi Hj). reflexivity. Qed.
Lemma two_A_sum' d P l i j : Forall2 (feq (K:=Cs) d d) P l -> (forall h, In h l -> hermitian d h) -> i < d -> j < d ->
  fscale (K:=Cs) (cre 2) (fsum (K:=Cs) P (fun x => x)) i j = sum_herm l i j.
Proof.
  intros HF H Hi Hj. unfold fscale, fsum. change (@smul Cs) with cmul. rewrite sum_herm_entry, (csum_feq d P l i j HF Hi Hj), <- csum_mul_l. apply csum_ext. intros h Hh.
  rewrite <- (H h Hh i j Hi Hj). csolve.
Qed.
Lemma Amat_sub d p s : hermitian d p -> hermitian d s -> feq (K:=Cs) d d (Amat (fadd (K:=Cs) p (fneg s))) (fadd (K:=Cs) p (fneg s)).
Proof.
  intros Hp Hs. apply Amat_h. intros i j Hi Hj. unfold fadd. rewrite !fneg_entry. change (@sadd Cs) with cadd. rewrite (Hp i j Hi Hj), (Hs i j Hi Hj). csolve.
Qed.
Lemma sum_herm_h d l : hermitian d (sum_herm l).
Proof.
  intros i j _ _. rewrite !sum_herm_entry, csum_conj. apply csum_ext. intros x _. csolve.
Qed.

(** set_params_complex after params_complex restores the matrices *)
Lemma reset d b : normal_form d b -> exists P, set_params_complex b (params_complex b) = Some (set_params b P) /\
  Forall2 (feq (K:=Cs) d d) P (bparams b) /\ length (params_complex b) = length (bnb b).
Proof.
  intros (Hne & HL & H0 & Hh). destruct (bparams b) as [|p0 p] eqn:EP.
  { destruct (bnb b) as [|r nbs]; [congruence|]. cbn [length] in HL. destruct (bexp b || binv b); cbn in HL; lia. }
  cbn [nth] in H0. destruct (bexp b) eqn:Eex; cbn [orb] in HL.
  - (* exponentials *)
    assert (L : length (params_complex b) = length (bnb b)).
    { unfold params_complex. rewrite Eex, EP. destruct (bcos b); [rewrite length_add_first|]; exact HL. }
    unfold set_params_complex. rewrite L, Nat.eqb_refl. cbn [negb]. rewrite Eex. eexists. split; [reflexivity|]. split; [|reflexivity].
    unfold params_complex. rewrite Eex, EP. destruct (bcos b); [|apply Forall2_refl_feq]. cbn [add_first tl].
    constructor; [|apply Forall2_refl_feq]. intros i j _ _. unfold fadd. rewrite fneg_entry. change (@sadd Cs) with cadd. set (x := sum_herm p i j). csolve.
  - assert (Hall : forall q, In q (p0 :: p) -> hermitian d q) by (apply Hh; left; reflexivity).
    destruct (binv b) eqn:Einv; cbn [orb] in HL.
    + (* cosines only *)
      assert (L : length (params_complex b) = length (bnb b)).
      { unfold params_complex. rewrite Eex, Einv, EP. cbn [negb]. destruct (bcos b); [rewrite length_add_first|]; exact HL. }
      unfold set_params_complex. rewrite L, Nat.eqb_refl. cbn [negb]. rewrite Eex, Einv. eexists. split; [reflexivity|]. split; [|reflexivity].
      unfold params_complex. rewrite Eex, Einv, EP. cbn [negb].
      change (fun h => fscale (K:=Cs) chalf (fadd (K:=Cs) h (fadj (K:=Cs) h))) with Amat.
      destruct (bcos b); cbn [add_first map tl length].
      * replace (length (bnb b) - 1) with (length (map Amat p)) by (rewrite map_length; rewrite <- HL; cbn; lia). rewrite firstn_all.
        constructor; [|apply map_Amat_h; intros; apply Hall; right; assumption].
        intros i j Hi Hj. unfold fadd at 1. rewrite (Amat_sub d p0 (sum_herm p)) by (assumption || apply sum_herm_h).
        rewrite (two_A_sum d p i j) by (assumption || (intros; apply Hall; right; assumption)).
        unfold fadd. rewrite fneg_entry. change (@sadd Cs) with cadd. set (x := sum_herm p i j). csolve.
      * constructor; [apply Amat_h, H0|apply map_Amat_h; intros; apply Hall; right; assumption].
    + (* cosines and sines *)
      assert (HN : length p = (length (bnb b) - 1) + (length (bnb b) - 1)) by (cbn [length] in HL; lia).
      set (N := length (bnb b) - 1) in *.
      assert (Em : (length (p0 :: p) + 1) / 2 - 1 = N).
      { cbn [length]. rewrite HN. replace (S (N + N) + 1) with (S N * 2) by lia. rewrite Nat.div_mul by lia. lia. }
      set (X := firstn N p). set (Y := skipn N p).
      assert (LX : length X = N) by (unfold X; rewrite firstn_length; lia).
      assert (LY : length Y = N) by (unfold Y; rewrite skipn_length; lia).
      assert (HX : forall h, In h X -> hermitian d h).
      { intros h Hin. apply Hall. right. rewrite <- (firstn_skipn N p). apply in_or_app. left. exact Hin. }
      assert (HY : forall h, In h Y -> hermitian d h).
      { intros h Hin. apply Hall. right. rewrite <- (firstn_skipn N p). apply in_or_app. right. exact Hin. }
      assert (EPC : params_complex b = (if bcos b then fadd (K:=Cs) p0 (fneg (sum_herm X)) else p0) :: map ab (combine X Y)).
      { unfold params_complex. rewrite Eex, Einv, EP. cbn [negb]. rewrite Em. cbn [tl]. fold X. destruct (bcos b); reflexivity. }
      assert (L : length (params_complex b) = length (bnb b)).
      { rewrite EPC. cbn [length]. rewrite map_length, combine_length, LX, LY, Nat.min_id. unfold N.
        destruct (bnb b); [congruence|]. cbn [length]. lia. }
      assert (LZ : length (map ab (combine X Y)) = N) by (rewrite map_length, combine_length, LX, LY, Nat.min_id; reflexivity).
      destruct (ab_lists d X Y (eq_trans LX (eq_sym LY)) HX HY) as [FA FB].
      unfold set_params_complex. rewrite L, Nat.eqb_refl. cbn [negb]. rewrite Eex, Einv. eexists. split; [reflexivity|]. split; [|reflexivity].
      change (fun h => fscale (K:=Cs) chalf (fadd (K:=Cs) h (fadj (K:=Cs) h))) with Amat.
      change (fun h => fscale (K:=Cs) chalf (fscale (K:=Cs) ci (fadd (K:=Cs) h (fneg (fadj (K:=Cs) h))))) with Bmat.
      assert (EXY : p = X ++ Y) by (symmetry; apply firstn_skipn). rewrite EPC, EXY. cbn [tl map app]. fold N.
      destruct (bcos b); cbn [add_first tl].
      * replace (firstn N (map Amat (map ab (combine X Y)) ++ map Bmat (map ab (combine X Y)))) with (map Amat (map ab (combine X Y))).
        2:{ rewrite firstn_app. rewrite (map_length Amat), LZ, Nat.sub_diag. cbn [firstn]. rewrite app_nil_r. symmetry. apply firstn_all2. rewrite (map_length Amat), LZ. lia. }
        constructor; [|apply Forall2_app; assumption].
        intros i j Hi Hj. unfold fadd at 1. rewrite (Amat_sub d p0 (sum_herm X)) by (assumption || apply sum_herm_h).
        rewrite (two_A_sum' d _ X i j FA HX Hi Hj). unfold fadd. rewrite fneg_entry. change (@sadd Cs) with cadd. set (x := sum_herm X i j). csolve.
      * constructor; [apply Amat_h, H0|apply Forall2_app; assumption].
Qed.
Lemma sub_herm d p l : hermitian d p -> hermitian d (fadd (K:=Cs) p (fneg (sum_herm l))).
Proof.
  intros Hp i j Hi Hj. unfold fadd. rewrite !fneg_entry. change (@sadd Cs) with cadd. rewrite (Hp i j Hi Hj), (sum_herm_h d l i j Hi Hj). csolve.
Qed.
Lemma nonempty_params d b : normal_form d b -> bparams b <> [].
Proof.
  intros (Hne & HL & _) E. rewrite E in HL. destruct (bnb b); [congruence|]. cbn [length] in HL. destruct (bexp b || binv b); cbn in HL; lia.
Qed.
Lemma pc_herm0 d b : normal_form d b -> hermitian d (nth 0 (params_complex b) fzero).
Proof.
  intros HN. pose proof (nonempty_params d b HN) as Hne. destruct HN as (_ & _ & H0 & _). unfold params_complex.
  destruct (bparams b) as [|p0 p]; [congruence|]. cbn [nth] in H0. cbn [tl].
  destruct (bexp b); [|destruct (binv b)]; cbn [negb]; destruct (bcos b); cbn [add_first nth]; try exact H0; apply sub_herm; exact H0.
Qed.
Lemma pc_herm_inv d b : normal_form d b -> binv b = true -> forall h, In h (params_complex b) -> hermitian d h.
Proof.
  intros HN Hi h. destruct HN as (_ & _ & H0 & Hall). specialize (Hall (or_intror Hi)). unfold params_complex. rewrite Hi. cbn [negb].
  assert (A : forall q, In h (add_first (fneg (sum_herm q)) (bparams b)) -> hermitian d h).
  { intros q. destruct (bparams b) as [|p0 p]; [intros []|]. cbn [add_first]. intros [<-|Hin]; [apply sub_herm, Hall; left; reflexivity|apply Hall; right; exact Hin]. }
  destruct (bexp b), (bcos b); try apply A; apply Hall.
Qed.
(** the Hamiltonian in terms of params_complex *)
Lemma normal_f n d b k i j : normal_form d b -> i < d -> j < d ->
  bsm_f n b k i j = cadd (target n b k (params_complex b) i j) (cmul (cre (if bcos b then 1 - nops b else 0)) (hsumH (params_complex b) i j)).
Proof.
  intros HN Hi Hj. destruct (reset d b HN) as (P & HS & HF & HL). pose proof (nonempty_params d b HN) as Hne.
  assert (HPne : P <> []) by (intros ->; inversion HF as [E|]; congruence).
  assert (Hne' : params_complex b <> []) by (intros E; rewrite E in HL; destruct HN as (X & _); destruct (bnb b); [congruence|discriminate HL]).
  assert (E : bsm_f n b k i j = bsm_f n (set_params b P) k i j).
  { unfold bsm_f. cbn [bparams set_params]. symmetry. change (bsm_coef n (set_params b P) k) with (bsm_coef n b k). apply (herm_feq d); assumption. }
  rewrite E. pose proof (hermitian_hherm d _ (pc_herm0 d b HN)) as H0. destruct (bexp b) eqn:Eex; [apply bsm_f_exp; assumption|].
  destruct (binv b) eqn:Einv; [|apply (bsm_f_cossin n b k _ _ d); assumption].
  rewrite (bsm_f_inv n b k _ _ d i j Eex Einv HS Hne' H0 Hi Hj). f_equal. unfold target. f_equal. apply csum_ext. intros l Hl. apply in_seq in Hl.
  assert (Hh : hermitian d (nth l (params_complex b) fzero)) by (apply (pc_herm_inv d b HN Einv), nth_In; lia).
  rewrite <- (Hh i j Hi Hj). rewrite e_sum_cs. csolve.
Qed.
(** target in terms of the spec [bloch_sum] *)
Lemma target_ext d n b b' k H H' i j : bops b = bops b' -> bnb b = bnb b' -> Forall2 (feq (K:=Cs) d d) H H' -> i < d -> j < d ->
  target n b k H i j = target n b' k H' i j /\ hsumH H i j = hsumH H' i j.
Proof.
  intros Ho Hn HF Hi Hj. assert (L : length H = length H') by (induction HF; cbn; [reflexivity|congruence]).
  assert (E : forall l, forall a e, a < d -> e < d -> nth l H fzero a e = nth l H' fzero a e).
  { clear L. induction HF as [|p q P Q Hpq HF IH]; intros l a e Ha He; [reflexivity|]. destruct l as [|l]; [apply Hpq; assumption|apply IH; assumption]. }
  split; [unfold target|unfold hsumH]; rewrite <- L; [rewrite (E 0 i j Hi Hj); f_equal|]; apply csum_ext; intros l _; rewrite (E l i j Hi Hj), (E l j i Hj Hi); [|reflexivity].
  unfold e_sum. rewrite Ho, Hn. reflexivity.
Qed.
Lemma of_to_rows d m : feq (K:=Cs) d d (of_rows (to_rows d m)) m.
Proof. intros i j Hi Hj. unfold of_rows, to_rows. rewrite nth_map_seq by exact Hi. rewrite nth_map_seq by exact Hj. reflexivity. Qed.
Lemma of_to_list d l : Forall2 (feq (K:=Cs) d d) (map of_rows (map (to_rows d) l)) l.
Proof. induction l as [|m l IH]; [constructor|]. cbn [map]. constructor; [apply of_to_rows|exact IH]. Qed.

(** ** C158: python format *)
(** FULL STATEMENT (C158, python): the loaded model has the same Hamiltonian. Proved for normalized models with cos_reduced, and for
    normalized models with one operation; the other cases are false (C158_python_refuted, C158_python_exp_refuted). *)
Theorem C158_python_partial n d b name given order cr ex file : normal_form d b -> (bcos b = true \/ length (bops b) = 1) ->
  save_format name given = Ok FPython -> bsm_save n d name given b = Ok file ->
  exists l, bsm_load order name given cr ex file = Ok l /\ bnb (lmodel l) = bnb b /\ bops (lmodel l) = bops b /\ binv (lmodel l) = binv b /\
    forall k, exists F, loaded_f n l k = Ok F /\ forall i j, i < d -> j < d -> F i j = bsm_f n b k i j.
Proof.
  intros HN Hc HF HS. unfold bsm_save in HS. rewrite HF in HS. injection HS as <-.
  assert (LF : load_format name given = Ok FPython).
  { unfold save_format in HF. unfold load_format. destruct given as [[]|]; try discriminate HF; [reflexivity|].
    destruct (ends_with name ".repr"); [reflexivity|]. destruct (ends_with name ".json"); [discriminate HF|]. destruct (ends_with name ".dat"); discriminate HF. }
  destruct (reset d b HN) as (_ & _ & _ & HL). set (H := params_complex b) in *. set (H' := map of_rows (map (to_rows d) H)).
  assert (HF' : Forall2 (feq (K:=Cs) d d) H' H) by apply of_to_list.
  assert (HL' : length H' = length (bnb b)) by (unfold H'; rewrite !map_length; exact HL).
  assert (Hne : bnb b <> []) by apply HN.
  assert (Hne' : H' <> []) by (intros E; rewrite E in HL'; destruct (bnb b); [congruence|discriminate HL']).
  unfold bsm_load. rewrite LF. unfold from_complex. fold H'. set (b0 := MkBsm false true (binv b) (bops b) (bnb b) []).
  destruct (set_params_complex b0 H') as [m|] eqn:ES.
  2:{ exfalso. assert (A : set_params_complex b0 H' <> None) by (apply C29_defined; exact HL'). congruence. }
  exists (MkL n m). split; [reflexivity|]. cbn [lmodel].
  assert (Em : bnb m = bnb b /\ bops m = bops b /\ binv m = binv b).
  { unfold set_params_complex in ES. destruct (negb _); [discriminate ES|]. injection ES as <-. repeat split. }
  destruct Em as (E1 & E2 & E3). repeat split; try assumption. intros k. unfold loaded_f. cbn [lsdim lmodel]. rewrite Nat.eqb_refl, orb_true_r.
  eexists. split; [reflexivity|]. intros i j Hi Hj.
  assert (H0 : feq (K:=Cs) d d (fadj (K:=Cs) (nth 0 H' fzero)) (nth 0 H' fzero)).
  { apply hermitian_hherm. pose proof (pc_herm0 d b HN) as HH. fold H in HH. intros a e Ha He. destruct HF' as [|x y X Y Hxy _]; [congruence|].
    cbn [nth] in *. rewrite (Hxy a e Ha He), (Hxy e a He Ha). apply HH; assumption. }
  rewrite (normal_f n d b k i j HN Hi Hj). fold H.
  destruct (target_ext d n b0 b k H' H i j eq_refl eq_refl HF' Hi Hj) as [T1 T2].
  assert (EN : (if bcos b then 1 - nops b else 0)%R = (1 - nops b)%R).
  { destruct Hc as [->|E]; [reflexivity|]. destruct (bcos b); [reflexivity|]. unfold nops. rewrite E. simpl. ring. }
  rewrite EN, <- T1, <- T2. change (nops b) with (nops b0). destruct (binv b) eqn:Einv.
  - rewrite (bsm_f_inv n b0 k H' m d i j eq_refl eq_refl ES Hne' H0 Hi Hj). change (bcos b0) with true. cbv iota. f_equal. unfold target. f_equal.
    apply csum_ext. intros l Hl. apply in_seq in Hl.
    assert (Hh : hermitian d (nth l H' fzero)).
    { assert (Hall : forall h, In h H -> hermitian d h) by (apply (pc_herm_inv d b HN Einv)). clear - HF' Hall Hl. intros a e Ha He.
      assert (E : forall q, feq (K:=Cs) d d (nth q H' fzero) (nth q H fzero)).
      { clear Hall Hl. induction HF' as [|x y X Y Hxy HX IH]; intros q u v Hu Hv; [reflexivity|]. destruct q as [|q]; [apply Hxy; assumption|apply IH; assumption]. }
      rewrite (E l a e Ha He), (E l e a He Ha). assert (LL : length H' = length H) by (clear - HF'; induction HF'; cbn; congruence).
      apply Hall; [apply nth_In; lia|assumption|assumption]. }
    rewrite <- (Hh i j Hi Hj), e_sum_cs. csolve.
  - exact (bsm_f_cossin n b0 k H' m d i j eq_refl eq_refl ES Hne' H0 Hi Hj).
Qed.
Print Assumptions C158_python_partial.
(** one band in two dimensions with the rotation by 180 degrees, without cos_reduced: f(0) = 4 becomes 2 *)
Definition minus_id : fmat Rs := fun a c => if Nat.eqb a c then (-1)%R else 0%R.
Definition c2_model : bsm := MkBsm true false false [idR; minus_id] [rv1 0; rv1 1] hop1.
Definition kzero : rvec := fun _ => 0%R.
Lemma loaded_eq n m k : loaded_f n (MkL n m) k = Ok (bsm_f n m k).
Proof. unfold loaded_f. cbn [lsdim lmodel]. rewrite Nat.eqb_refl, orb_true_r. reflexivity. Qed.
Lemma dot_kzero n r : dot n kzero r = 0%R.
Proof. unfold dot. apply (ksum_zero Rs). intros a _. unfold kzero. change (0 * r a = 0)%R. ring. Qed.
Lemma c2_normal : normal_form 1 c2_model.
Proof.
  split; [discriminate|]. split; [reflexivity|]. split; [intros i j _ _; cbn; unfold cm; csolve|]. intros [E|E]; discriminate E.
Qed.
Lemma c2_f0 : bsm_f 2 c2_model kzero 0 0 = (4, 0)%R.
Proof.
  rewrite (normal_f 2 1 c2_model kzero 0 0 c2_normal) by lia. unfold params_complex, c2_model. cbn [bexp bcos bparams].
  unfold target, hsumH, e_sum. cbn [bops hop1 length Nat.sub seq ksum nth]. rewrite !dot_kzero, !Rmult_0_r, !cexp_0. unfold cm. csolve.
Qed.
Theorem C158_python_refuted : ~ (forall n d b name order cr ex file l k F, normal_form d b ->
  bsm_save n d name (Some FPython) b = Ok file -> bsm_load order name (Some FPython) cr ex file = Ok l -> loaded_f n l k = Ok F ->
  forall i j, i < d -> j < d -> F i j = bsm_f n b k i j).
Proof.
  intros A. set (b0 := MkBsm false true false [idR; minus_id] [rv1 0; rv1 1] []). set (H' := map of_rows (map (to_rows 1) hop1)).
  destruct (set_params_complex b0 H') as [m|] eqn:ES; [|discriminate ES].
  assert (Ef : bsm_f 2 m kzero 0 0 = (2, 0)%R).
  { rewrite (bsm_f_cossin 2 b0 kzero H' m 1 0 0 eq_refl eq_refl ES); try lia; try discriminate.
    - unfold target, hsumH, e_sum, nops, H'. cbn [bops b0 hop1 map length Nat.sub seq ksum nth bcos]. rewrite !dot_kzero, !Rmult_0_r, !cexp_0.
      unfold of_rows, to_rows, cm. cbn [seq map nth]. csolve.
    - intros i j Hi Hj. assert (i = 0) by lia. assert (j = 0) by lia. subst. unfold H', fadj, of_rows, to_rows, cm. cbn. csolve. }
  assert (EL : bsm_load [] "m.repr" (Some FPython) false false (PyFile (map (to_rows 1) hop1) [rv1 0; rv1 1] 2 [idR; minus_id] false) = Ok (MkL 2 m)).
  { unfold bsm_load. cbn [load_format]. unfold from_complex. fold b0. fold H'. rewrite ES. reflexivity. }
  pose proof (A 2 1 c2_model "m.repr"%string [] false false _ _ kzero _ c2_normal eq_refl EL (loaded_eq 2 m kzero) 0 0 ltac:(lia) ltac:(lia)) as E. cbn [lmodel] in E.
  rewrite Ef, c2_f0 in E. injection E. lra.
Qed.
Print Assumptions C158_python_refuted.
(** exponentials with inversion symmetry that were not normalized: f = - 2 sin (2 pi k) becomes 0 *)
Definition inv_exp (cr : bool) : bsm := MkBsm true cr true [idR] [rv1 0; rv1 1] [].
Definition hop_i : list cmat := [cm (0, 0)%R; cm (0, 1)%R].
Lemma rot_idR_dot n k r : dot n k (rot n idR r) = dot n k r.
Proof.
  unfold dot. apply (nsum_ext Rs). intros a Ha. f_equal. unfold rot, idR. rewrite (nsum_single Rs n a).
  - rewrite Nat.eqb_refl. change (1 * r a = r a)%R. ring.
  - exact Ha.
  - intros c _ Hne'. rewrite (proj2 (Nat.eqb_neq a c)) by lia. change (@s0 Rs) with 0%R. change (0 * r c = 0)%R. ring.
Qed.
Theorem C158_python_exp_refuted : ~ (forall n d b0 H b name order cr ex file l k F, set_params_complex b0 H = Some b -> length (bops b) = 1 ->
  hermitian d (nth 0 H fzero) ->
  bsm_save n d name (Some FPython) b = Ok file -> bsm_load order name (Some FPython) cr ex file = Ok l -> loaded_f n l k = Ok F ->
  forall i j, i < d -> j < d -> F i j = bsm_f n b k i j).
Proof.
  intros A. set (b0 := MkBsm false true true [idR] [rv1 0; rv1 1] []). set (H' := map of_rows (map (to_rows 1) hop_i)).
  destruct (set_params_complex b0 H') as [m|] eqn:ES; [|discriminate ES]. set (k := rv1 (1/4)).
  assert (Ef : bsm_f 1 m k 0 0 = (0, 0)%R).
  { rewrite (bsm_f_inv 1 b0 k H' m 1 0 0 eq_refl eq_refl ES); try lia; try discriminate.
    - unfold hsumH, H'. cbn [bcos b0 hop_i map length Nat.sub seq ksum nth]. unfold of_rows, to_rows, cm. cbn [seq map nth].
      set (x := c_sum 1 b0 k 1). set (y := nops b0). csolve.
    - intros i j Hi Hj. assert (i = 0) by lia. assert (j = 0) by lia. subst. unfold H', fadj, of_rows, to_rows, cm. cbn. csolve. }
  set (b := set_params (inv_exp false) hop_i).
  assert (EL : bsm_load [] "m.repr" (Some FPython) false false (PyFile (map (to_rows 1) hop_i) [rv1 0; rv1 1] 1 [idR] true) = Ok (MkL 1 m)).
  { unfold bsm_load. cbn [load_format]. unfold from_complex. fold b0. fold H'. rewrite ES. reflexivity. }
  assert (H0 : hermitian 1 (nth 0 hop_i fzero)) by (intros i j _ _; cbn; unfold cm; csolve).
  pose proof (A 1 1 (inv_exp false) hop_i b "m.repr"%string [] false false _ _ k _ eq_refl eq_refl H0 eq_refl EL (loaded_eq 1 m k) 0 0 ltac:(lia) ltac:(lia)) as E. cbn [lmodel] in E.
  rewrite Ef in E. assert (Eb : bsm_f 1 b k 0 0 = (-2, 0)%R).
  { rewrite (bsm_f_exp 1 (inv_exp false) k hop_i b 0 0 eq_refl eq_refl ltac:(discriminate)). unfold target, hsumH, e_sum, nops.
    cbn [inv_exp bops bnb bcos hop_i length Nat.sub seq ksum nth nb]. rewrite rot_idR_dot, dot1. unfold k, rv1, cm.
    replace (2 * PI * (1 / 4 * 1))%R with (PI / 2)%R by field. unfold cexp. rewrite cos_PI2, sin_PI2. csolve. }
  rewrite Eb in E. injection E. lra.
Qed.
Print Assumptions C158_python_exp_refuted.

(** ** C158: JSON format *)
(** h2 is h with the parts below 1e-14 set to 0 *)
Definition cleaned_mats (d : nat) (H H2 : list cmat) : Prop := Forall2 (fun h h2 => forall i j, i < d -> j < d -> cleaned (h i j) (h2 i j)) H H2.
Definition bterm (n : nat) (ops : list (fmat Rs)) (k : rvec) (i j : nat) (p : rvec * cmat) : cplx :=
  csum ops (fun s => cadd (cmul (cexp (2 * PI * dot n k (rot n s (fst p)))) (snd p i j))
                          (cmul (cexp (- (2 * PI * dot n k (rot n s (fst p))))) (cconj (snd p j i)))).
Lemma csum_combine {A} (da : A) (nbs : list A) (H : list cmat) (g : A -> cmat -> cplx) : length nbs = length H ->
  csum (seq 0 (length H)) (fun l => g (nth l nbs da) (nth l H fzero)) = csum (combine nbs H) (fun p => g (fst p) (snd p)).
Proof.
  revert H. induction nbs as [|r nbs IH]; intros [|h H] L; try discriminate L; [reflexivity|]. cbn [length seq ksum combine fst snd nth]. f_equal.
  rewrite <- seq_shift, csum_map. cbn [nth]. apply IH. injection L. auto.
Qed.
Lemma bloch_pairs n ops r0 nbs h0 H k i j : length nbs = length H ->
  bloch_sum n ops (r0 :: nbs) (h0 :: H) k i j = cadd (h0 i j) (csum (combine nbs H) (bterm n ops k i j)).
Proof.
  intros L. unfold bloch_sum. cbn [nth length]. f_equal. replace (S (length H) - 1) with (length H) by lia. rewrite <- seq_shift, csum_map.
  exact (csum_combine (fun _ => 0%R) nbs H (fun r h => csum ops (fun s =>
     cadd (cmul (cexp (2 * PI * dot n k (rot n s r))) (h i j)) (cmul (cexp (- (2 * PI * dot n k (rot n s r)))) (cconj (h j i))))) L).
Qed.
Lemma square_to_rows d m : square_mat d (to_rows d m).
Proof.
  unfold square_mat, to_rows. rewrite map_length, seq_length. split; [reflexivity|]. intros row Hr. apply in_map_iff in Hr. destruct Hr as (i & <- & _).
  rewrite map_length. apply seq_length.
Qed.
Lemma Forall2_nth2 {A B} (R : A -> B -> Prop) (da : A) (db : B) l1 l2 q : Forall2 R l1 l2 -> q < length l1 -> R (nth q l1 da) (nth q l2 db).
Proof.
  intros H. revert q. induction H as [|x y l1 l2 Hxy H IH]; intros q Hq; [cbn in Hq; lia|]. destruct q as [|q]; [exact Hxy|]. apply IH. cbn in Hq. lia.
Qed.
Lemma F2_length {A B} (R : A -> B -> Prop) l1 l2 : Forall2 R l1 l2 -> length l1 = length l2.
Proof. induction 1; cbn; congruence. Qed.
Lemma cleaned_of_rows d H P2 : Forall2 (Forall2 (Forall2 cleaned)) (map (to_rows d) H) P2 -> cleaned_mats d H (map of_rows P2).
Proof.
  revert P2. induction H as [|h H IH]; intros P2 HF; inversion HF as [|x y X Y Hxy HX]; subst; [constructor|]. cbn [map]. constructor; [|apply IH; exact HX].
  intros i j Hi Hj. unfold of_rows.
  assert (L1 : i < length (to_rows d h)) by (unfold to_rows; rewrite map_length, seq_length; exact Hi).
  pose proof (Forall2_nth2 _ [] [] _ _ i Hxy L1) as H1.
  assert (L2 : j < length (nth i (to_rows d h) [])) by (unfold to_rows; rewrite nth_map_seq by exact Hi; rewrite map_length, seq_length; exact Hj).
  pose proof (Forall2_nth2 _ (0%R, 0%R) (0%R, 0%R) _ _ j H1 L2) as H2. unfold to_rows in H2. rewrite nth_map_seq in H2 by exact Hi. rewrite nth_map_seq in H2 by exact Hj. exact H2.
Qed.
Lemma cleaned_herm d h h2 : hermitian d h -> (forall i j, i < d -> j < d -> cleaned (h i j) (h2 i j)) -> hermitian d h2.
Proof.
  intros Hh Hc i j Hi Hj. destruct (Hc i j Hi Hj) as [A1 A2]. destruct (Hc j i Hj Hi) as [B1 B2]. rewrite (Hh i j Hi Hj) in A1, A2.
  destruct (h2 i j) as [x y], (h2 j i) as [x' y'], (h j i) as [u v]. cbn [fst snd cconj] in *. rewrite Rabs_Ropp in A2. subst.
  unfold cconj. cbn [fst snd]. f_equal. destruct (Rlt_dec (Rabs v) (1 / 10 ^ 14)); ring.
Qed.
(** what json_tb_format.load returns for a saved series with the neighbor 0 first *)
Lemma json_series n d nbs (H : list cmat) order f : 0 < d -> H <> [] -> length nbs = length H -> zero_first n nbs ->
  json_save nbs (map (to_rows d) H) = Some f -> argsort_of (map (vnorm n) nbs) order ->
  exists nbs' P' H2, json_load order f = Some (nbs', P') /\ length nbs' = length P' /\ P' <> [] /\ cleaned_mats d H H2 /\
    nb nbs' 0 = nb nbs 0 /\ of_rows (nth 0 P' []) = nth 0 H2 fzero /\ Permutation (combine nbs' (map of_rows P')) (combine nbs H2) /\
    forall m ops k i j, bloch_sum m ops nbs' (map of_rows P') k i j = bloch_sum m ops nbs H2 k i j.
Proof.
  intros Hd Hne HL [HZ HP] HS HO.
  destruct (C35_roundtrip n d nbs (map (to_rows d) H) order f) as (nbs' & P' & P2 & EL & HC & HPm & L1 & L2 & Hs); try assumption.
  - intros E. apply map_eq_nil in E. contradiction.
  - rewrite map_length. exact HL.
  - intros h Hh. apply in_map_iff in Hh. destruct Hh as (m & <- & _). apply square_to_rows.
  - rewrite map_length in L2. pose proof (F2_length _ _ _ HC) as L3. rewrite map_length in L3.
    assert (HPm' : Permutation (combine nbs' (map of_rows P')) (combine nbs (map of_rows P2))).
    { assert (G : forall (a : list rvec) (b : list cmatl), combine a (map of_rows b) = map (fun p => (fst p, of_rows (snd p))) (combine a b)).
      { intros a. induction a as [|x a IH]; intros [|y b]; try reflexivity. cbn [combine map fst snd]. f_equal. apply IH. }
      rewrite !G. apply Permutation_map. exact HPm. }
    pose proof (cleaned_of_rows d H P2 HC) as HCM.
    destruct H as [|h0 H]; [congruence|]. destruct nbs as [|r0 nbs]; [discriminate HL|]. destruct nbs' as [|r0' nbs']; [discriminate L1|].
    destruct P' as [|p0' P']; [discriminate L2|]. destruct P2 as [|p0 P2]; [discriminate L3|]. cbn [length] in *.
    cbn [map combine] in HPm'. unfold nb in HZ, HP. cbn [nth] in HZ.
    assert (Z0 : vnorm n r0 = 0%R) by (apply vnorm0; exact HZ).
    (* the first loaded pair has length 0 *)
    assert (Hin : In r0 (r0' :: nbs')).
    { assert (I : In (r0, of_rows p0) ((r0', of_rows p0') :: combine nbs' (map of_rows P'))) by (apply (Permutation_in _ (Permutation_sym HPm')); left; reflexivity).
      destruct I as [E|I]; [injection E as -> _; left; reflexivity|]. right. apply in_combine_l in I. exact I. }
    destruct (In_nth _ _ (fun _ => 0%R) Hin) as (q & Hq & Eq).
    assert (Z0' : (vnorm n r0' <= 0)%R).
    { rewrite <- Z0, <- Eq. change r0' with (nth 0 (r0' :: nbs') (fun _ => 0%R)) at 1. apply (Hs 0 q). split; [apply Nat.le_0_l|exact Hq]. }
    assert (E0 : (r0', of_rows p0') = (r0, of_rows p0)).
    { assert (I : In (r0', of_rows p0') ((r0, of_rows p0) :: combine nbs (map of_rows P2))) by (apply (Permutation_in _ HPm'); left; reflexivity).
      destruct I as [E|I]; [symmetry; exact E|]. exfalso. apply in_combine_l in I. destruct (In_nth _ _ (fun _ => 0%R) I) as (w & Hw & Ew).
      assert (V : (0 < vnorm n r0')%R) by (apply vnorm_pos; rewrite <- Ew; apply (HP (S w)); split; [apply Nat.lt_0_succ|apply (proj1 (Nat.succ_lt_mono w (length nbs))); exact Hw]). lra. }
    injection E0 as -> Ep. rewrite Ep in HPm'. apply Permutation_cons_inv in HPm'.
    assert (HB : forall m ops k i j, bloch_sum m ops (r0 :: nbs') (map of_rows (p0' :: P')) k i j = bloch_sum m ops (r0 :: nbs) (map of_rows (p0 :: P2)) k i j).
    { intros m ops k i j. cbn [map].
      rewrite (bloch_pairs m ops r0 nbs') by (rewrite map_length; exact (eq_trans (eq_add_S _ _ L1) (eq_trans (eq_add_S _ _ HL) (eq_sym (eq_add_S _ _ L2))))).
      rewrite (bloch_pairs m ops r0 nbs) by (rewrite map_length; exact (eq_trans (eq_add_S _ _ HL) (eq_add_S _ _ L3))). rewrite Ep. exact (f_equal (cadd _) (ksum_perm Cs _ _ (bterm m ops k i j) HPm')). }
    exists (r0 :: nbs'), (p0' :: P'), (map of_rows (p0 :: P2)). cbn [length]. rewrite EL. repeat split.
    + lia.
    + discriminate.
    + exact HCM.
    + exact Ep.
    + cbn [map combine]. rewrite Ep. apply perm_skip. exact HPm'.
    + exact HB.
Qed.
Lemma eye_idR : eyeR = idR. Proof. reflexivity. Qed.
Lemma json_fmt name given : save_format name given = Ok FJson -> load_format name given = Ok FJson.
Proof.
  intros HF. unfold save_format in HF. unfold load_format. destruct given as [[]|]; try discriminate HF; [reflexivity|].
  destruct (ends_with name ".repr"); [discriminate HF|]. destruct (ends_with name ".json"); [reflexivity|]. destruct (ends_with name ".dat"); discriminate HF.
Qed.
(** FULL STATEMENT (C158, JSON): the loaded model has the same Hamiltonian up to parts below 1e-14. Proved for normalized models with the
    trivial symmetry or inversion only ([bops = [idR]]), stored as exponentials or not, and for every choice of cos_reduced and exp when
    loading; evaluation needs 3 dimensions. Other symmetries and dimensions: C158_json_symmetry_refuted, C158_dimension_refuted. *)
Theorem C158_json_partial n d b name given order cr ex file : 0 < d -> normal_form d b -> bops b = [idR] -> zero_first n (bnb b) ->
  save_format name given = Ok FJson -> bsm_save n d name given b = Ok file -> argsort_of (map (vnorm n) (bnb b)) order ->
  exists l H2, bsm_load order name given cr ex file = Ok l /\ bexp (lmodel l) = ex /\ bcos (lmodel l) = cr /\
    cleaned_mats d (params_complex b) H2 /\
    (forall k i j, i < d -> j < d -> bsm_f n (lmodel l) k i j = bloch_sum n [idR] (bnb b) H2 k i j) /\
    (n = 3 -> forall k, loaded_f n l k = Ok (bsm_f n (lmodel l) k)) /\
    ((forall h i j, In h (params_complex b) -> i < d -> j < d -> cleaned (h i j) (h i j)) ->
     forall k i j, i < d -> j < d -> bsm_f n (lmodel l) k i j = bsm_f n b k i j).
Proof.
  intros Hd HN Ho HZ HF HS HO. unfold bsm_save in HS. rewrite HF in HS. destruct (reset d b HN) as (_ & _ & _ & HL).
  assert (Hne : params_complex b <> []) by (intros E; rewrite E in HL; destruct HN as (X & _); destruct (bnb b); [congruence|discriminate HL]).
  destruct (json_save (bnb b) (map (to_rows d) (params_complex b))) as [f|] eqn:EJ; [|discriminate HS]. injection HS as <-.
  destruct (json_series n d (bnb b) (params_complex b) order f Hd Hne (eq_sym HL) HZ EJ HO) as (nbs' & P' & H2 & EL & L & HP & HC & E0 & E1 & HPm & HB).
  unfold bsm_load. rewrite (json_fmt name given HF), EL. unfold from_complex. set (b0 := MkBsm ex cr false [eyeR] nbs' []).
  destruct (set_params_complex b0 (map of_rows P')) as [m|] eqn:ES.
  2:{ exfalso. assert (A : set_params_complex b0 (map of_rows P') <> None) by (apply C29_defined; rewrite map_length; symmetry; exact L). congruence. }
  assert (HM : bexp m = ex /\ bcos m = cr).
  { unfold set_params_complex in ES. destruct (negb _); [discriminate ES|]. injection ES as <-. split; reflexivity. }
  assert (HH2 : hermitian d (nth 0 H2 fzero)).
  { apply (cleaned_herm d (nth 0 (params_complex b) fzero)); [apply pc_herm0, HN|]. apply (Forall2_nth2 (fun h h2 : cmat => forall i j, i < d -> j < d -> cleaned (h i j) (h2 i j)) (fzero (K:=Cs)) (fzero (K:=Cs)) _ _ 0 HC).
    destruct (params_complex b); [congruence|]. cbn. lia. }
  assert (EF : forall k i j, i < d -> j < d -> bsm_f n m k i j = bloch_sum n [idR] (bnb b) H2 k i j).
  { intros k i j Hi Hj. rewrite <- HB. apply (C29_convention_partial n d b0 (map of_rows P') m k i j); try assumption; try reflexivity.
    - right. reflexivity.
    - intros E. apply map_eq_nil in E. contradiction.
    - destruct P' as [|p P']; [congruence|]. cbn [map nth] in *. rewrite E1. exact HH2. }
  exists (MkL 3 m), H2. cbn [lmodel]. destruct HM as [HM1 HM2]. repeat split; try assumption.
  - intros -> k. apply loaded_eq.
  - intros Hex k i j Hi Hj. rewrite (EF k i j Hi Hj), (normal_f n d b k i j HN Hi Hj).
    assert (HF2 : Forall2 (feq (K:=Cs) d d) H2 (params_complex b)).
    { unfold cleaned_mats in HC. clear - HC Hex. induction HC as [|h h2 H H2 Hh HC IH]; [constructor|]. constructor; [|apply IH; intros; apply Hex; [right; assumption|assumption|assumption]].
      intros a e Ha He. symmetry. destruct (Hex h a e (or_introl eq_refl) Ha He) as [A1 A2]. destruct (Hh a e Ha He) as [B1 B2].
      destruct (h a e) as [x y], (h2 a e) as [x' y']. cbn [fst snd] in *. congruence. }
    assert (EN : (if bcos b then 1 - nops b else 0)%R = 0%R) by (unfold nops; rewrite Ho; destruct (bcos b); simpl; ring).
    rewrite EN. destruct (target_ext d n b b k H2 (params_complex b) i j eq_refl eq_refl HF2 Hi Hj) as [T _]. rewrite <- T, target_bloch, Ho.
    set (x := bloch_sum _ _ _ _ _ _ _). set (y := hsumH _ _ _). csolve.
Qed.
Print Assumptions C158_json_partial.
(** JSON files do not contain the symmetry: with the rotation by 180 degrees around z, f(0) = 4 becomes 2 *)
Definition c2z : fmat Rs := fun a c => if Nat.eqb a c then (if Nat.eqb a 2 then 1%R else (-1)%R) else 0%R.
Definition z_model : bsm := MkBsm true false false [idR; c2z] [rv1 0; rv1 1] hop1.
Lemma clean_id z : (fst z = 0%R \/ 1 <= Rabs (fst z))%R -> (snd z = 0%R \/ 1 <= Rabs (snd z))%R -> cleaned z z.
Proof.
  destruct z as [x y]. unfold cleaned. cbn [fst snd]. intros Hx Hy. split.
  - destruct (Rlt_dec (Rabs x) (1 / 10 ^ 14)) as [H|H]; [|reflexivity]. destruct Hx as [Hx|Hx]; [exact Hx|lra].
  - destruct (Rlt_dec (Rabs y) (1 / 10 ^ 14)) as [H|H]; [|reflexivity]. destruct Hy as [Hy|Hy]; [exact Hy|lra].
Qed.
Lemma json_clean_id z : cleaned z z -> json_clean z = z.
Proof.
  intros [A1 A2]. destruct (json_clean_spec z) as [B1 B2]. destruct z as [x y], (json_clean (x, y)) as [u v]. cbn [fst snd] in *. congruence.
Qed.
Lemma clean00 : json_clean (0, 0)%R = (0, 0)%R.
Proof. apply json_clean_id, clean_id; left; reflexivity. Qed.
Lemma clean10 : json_clean (1, 0)%R = (1, 0)%R.
Proof. apply json_clean_id, clean_id; [right; rewrite Rabs_pos_eq; cbn; lra|left; reflexivity]. Qed.
Lemma z_zero_first n : 0 < n -> zero_first n [rv1 0; rv1 1].
Proof.
  intros Hn. split; [reflexivity|]. intros l Hl. cbn [length] in Hl. assert (l = 1) by lia. subst. exists 0. split; [exact Hn|]. unfold nb, rv1. cbn. lra.
Qed.
Lemma z_argsort n : argsort_of (map (vnorm n) [rv1 0; rv1 1]) [0; 1].
Proof.
  split; [reflexivity|]. cbn [map length]. intros i j Hij. assert (Hv : (vnorm n (rv1 0) = 0)%R) by (apply vnorm0; reflexivity).
  assert (Hw : (0 <= vnorm n (rv1 1))%R) by apply sqrt_pos.
  assert (C : i = 0 /\ j = 0 \/ i = 0 /\ j = 1 \/ i = 1 /\ j = 1) by lia. destruct C as [[-> ->]|[[-> ->]|[-> ->]]]; cbn [nth]; lra.
Qed.
Lemma z_normal : normal_form 1 z_model.
Proof.
  split; [discriminate|]. split; [reflexivity|]. split; [intros i j _ _; cbn; unfold cm; csolve|]. intros [E|E]; discriminate E.
Qed.
Definition z_file : jfile := MkJ 1 [[(0, 0)%R]; [(1, 0)%R]] [rv1 0; rv1 1].
Lemma z_saved n ops : bsm_save n 1 "m.json" (Some FJson) (MkBsm true false false ops [rv1 0; rv1 1] hop1) = Ok (JsonFile z_file).
Proof.
  unfold bsm_save. cbn [save_format]. unfold params_complex. cbn [bexp bcos bparams bnb]. unfold hop1, json_save. cbn [map]. unfold to_rows, cm. cbn [seq map concat app length].
  rewrite clean00, clean10. reflexivity.
Qed.
Definition z_loaded : bsm := MkBsm true false false [eyeR] [rv1 0; rv1 1] (map of_rows [[[(0, 0)%R]]; [[(1, 0)%R]]]).
Lemma z_load : bsm_load [0; 1] "m.json" (Some FJson) false true (JsonFile z_file) = Ok (MkL 3 z_loaded).
Proof. reflexivity. Qed.
Lemma z_loaded_f0 n : bsm_f n z_loaded kzero 0 0 = (2, 0)%R.
Proof.
  rewrite (bsm_f_exp n (MkBsm true false false [eyeR] [rv1 0; rv1 1] []) kzero (map of_rows [[[(0, 0)%R]]; [[(1, 0)%R]]]) z_loaded 0 0 eq_refl eq_refl ltac:(discriminate)).
  unfold target, hsumH, e_sum. cbn [bops bcos map length Nat.sub seq ksum nth]. rewrite dot_kzero, Rmult_0_r, cexp_0. unfold of_rows. cbn [nth]. csolve.
Qed.
Theorem C158_json_symmetry_refuted : ~ (forall n d b name order cr ex file l k F, 0 < d -> normal_form d b -> zero_first n (bnb b) ->
  bsm_save n d name (Some FJson) b = Ok file -> argsort_of (map (vnorm n) (bnb b)) order ->
  bsm_load order name (Some FJson) cr ex file = Ok l -> loaded_f n l k = Ok F ->
  (forall h i j, In h (params_complex b) -> i < d -> j < d -> cleaned (h i j) (h i j)) ->
  forall i j, i < d -> j < d -> F i j = bsm_f n b k i j).
Proof.
  intros A. assert (Hf : bsm_f 3 z_model kzero 0 0 = (4, 0)%R).
  { rewrite (normal_f 3 1 z_model kzero 0 0 z_normal) by lia. unfold params_complex, z_model. cbn [bexp bcos bparams].
    unfold target, hsumH, e_sum. cbn [bops hop1 length Nat.sub seq ksum nth]. rewrite !dot_kzero, !Rmult_0_r, !cexp_0. unfold cm. csolve. }
  assert (E : bsm_f 3 z_loaded kzero 0 0 = bsm_f 3 z_model kzero 0 0).
  { apply (A 3 1 z_model "m.json"%string [0; 1] false true (JsonFile z_file) (MkL 3 z_loaded) kzero (bsm_f 3 z_loaded kzero)); try lia.
    - exact z_normal.
    - apply z_zero_first. lia.
    - apply z_saved.
    - apply z_argsort.
    - exact z_load.
    - apply loaded_eq.
    - intros h i j Hin Hi Hj. unfold params_complex, z_model, hop1 in Hin. cbn [bexp bcos bparams] in Hin.
      destruct Hin as [<-|[<-|[]]]; unfold cm; apply clean_id; cbn [fst snd]; try (left; reflexivity). right. rewrite Rabs_pos_eq; lra. }
  rewrite Hf, z_loaded_f0 in E. injection E. lra.
Qed.
Print Assumptions C158_json_symmetry_refuted.
Lemma set_length b H m : set_params_complex b H = Some m -> length (bnb b) <= length (bparams m) /\ bnb m = bnb b.
Proof.
  unfold set_params_complex. destruct (Nat.eqb_spec (length H) (length (bnb b))) as [EL|]; cbn [negb]; [|discriminate]. intros E. injection E as <-. split; [|reflexivity].
  cbn [bparams set_params]. rewrite <- EL. destruct (bexp b), (bcos b), (binv b); rewrite ?length_add_first, ?app_length, ?map_length; lia.
Qed.
(** a model loaded from JSON can only be evaluated in 3 dimensions, whatever the dimension of the saved one *)
Theorem C158_dimension_refuted : (forall order name given cr ex f l n k, load_format name given = Ok FJson ->
    bsm_load order name given cr ex (JsonFile f) = Ok l -> 2 <= length (bnb (lmodel l)) -> n <> 3 -> loaded_f n l k = Err ValueError) /\
  exists b file l, normal_form 1 b /\ bops b = [idR] /\ zero_first 2 (bnb b) /\ argsort_of (map (vnorm 2) (bnb b)) [0; 1] /\
    bsm_save 2 1 "m.json" None b = Ok file /\ bsm_load [0; 1] "m.json" None false true file = Ok l /\
    forall k, loaded_f 2 l k = Err ValueError.
Proof.
  assert (G : forall order name given cr ex f l n k, load_format name given = Ok FJson ->
    bsm_load order name given cr ex (JsonFile f) = Ok l -> 2 <= length (bnb (lmodel l)) -> n <> 3 -> loaded_f n l k = Err ValueError).
  { intros order name given cr ex f l n k HF HL HN Hn. unfold bsm_load in HL. rewrite HF in HL. destruct (json_load order f) as [[nbs H]|]; [|discriminate HL].
    unfold from_complex in HL. destruct (set_params_complex _ _) as [m|] eqn:ES; [|discriminate HL]. injection HL as <-. cbn [lmodel] in HN.
    unfold loaded_f. cbn [lsdim lmodel]. rewrite (proj2 (Nat.eqb_neq 3 n)) by lia. rewrite orb_false_r.
    destruct (set_length _ _ _ ES) as [S1 S2]. cbn [bnb] in S1, S2. rewrite S2 in HN.
    destruct (Nat.leb_spec (length (bparams m)) 1) as [X|X]; [lia|reflexivity]. }
  split; [exact G|].
  exists (MkBsm true false false [idR] [rv1 0; rv1 1] hop1), (JsonFile z_file), (MkL 3 z_loaded). repeat split.
  - discriminate.
  - intros i j _ _. cbn. unfold cm. csolve.
  - intros [E|E]; discriminate E.
  - apply z_zero_first. lia.
  - apply z_argsort.
  - cbn [map length]. apply (proj2 (z_argsort 2)).
  - pose proof (z_saved 2 [idR]) as E. unfold bsm_save in E |- *. cbn [save_format] in E. change (save_format "m.json" None) with (Ok FJson). exact E.
Qed.
Print Assumptions C158_dimension_refuted.
(** ** C158: file names *)
(** without a format, exactly the names ending in .repr and .json can be saved, and load then picks the same format *)
Theorem C158_names d n b name : 0 < length (params_complex b) ->
  ((exists file, bsm_save n d name None b = Ok file) <-> ends_with name ".repr" = true \/ ends_with name ".json" = true) /\
  (forall file, bsm_save n d name None b = Ok file ->
     match file with PyFile _ _ _ _ _ => load_format name None = Ok FPython | JsonFile _ => load_format name None = Ok FJson end).
Proof.
  intros HL. assert (EJ : exists f, json_save (bnb b) (map (to_rows d) (params_complex b)) = Some f).
  { destruct (params_complex b) as [|p0 p]; [cbn in HL; lia|]. eexists. reflexivity. }
  destruct EJ as [f EJ]. unfold bsm_save, save_format, load_format.
  destruct (ends_with name ".repr"); [split; [split; [intros _; left; reflexivity|intros _; eexists; reflexivity]|intros file E; injection E as <-; reflexivity]|].
  destruct (ends_with name ".json").
  - rewrite EJ. split; [split; [intros _; right; reflexivity|intros _; eexists; reflexivity]|intros file E; injection E as <-; reflexivity].
  - destruct (ends_with name ".dat"); (split; [split; [intros [file E]; discriminate E|intros [E|E]; discriminate E]|intros file E; discriminate E]).
Qed.
Print Assumptions C158_names.
(** the format "wannier90" of save: never written, unknown to load, and chosen for names that load rejects or reads as another format *)
Theorem C158_formats_refuted : (forall n d name given b, save_format name given = Ok FWannier90 -> bsm_save n d name given b = Err NotImplementedError) /\
  (forall order name cr ex file, bsm_load order name (Some FWannier90) cr ex file = Err ValueError) /\
  save_format "silicon.dat" None = Ok FWannier90 /\ load_format "silicon.dat" None = Err ValueError /\
  save_format "silicon_tb.dat" None = Ok FWannier90 /\ load_format "silicon_tb.dat" None = Ok FWannier90tb /\
  (forall n d name b, bsm_save n d name (Some FWannier90hr) b = Err ValueError /\ bsm_save n d name (Some FWannier90tb) b = Err ValueError).
Proof.
  repeat split; try reflexivity. intros n d name given b E. unfold bsm_save. rewrite E. reflexivity.
Qed.
Print Assumptions C158_formats_refuted.
(** examples: a cos_reduced model with a rotation in python format, and a chain in 3 dimensions in JSON format *)
Definition py_model : bsm := MkBsm true true false [idR; minus_id] [rv1 0; rv1 1] [cm (5, 0)%R; cm (1, 0)%R].
Lemma py_normal : normal_form 1 py_model.
Proof. split; [discriminate|]. split; [reflexivity|]. split; [intros i j _ _; cbn; unfold cm; csolve|]. intros [E|E]; discriminate E. Qed.
Example C158_python_ex : normal_form 1 py_model /\ bsm_f 2 py_model kzero 0 0 = (5, 0)%R /\
  exists file l F, bsm_save 2 1 "a.repr" None py_model = Ok file /\ bsm_load [] "a.repr" None false false file = Ok l /\
    loaded_f 2 l kzero = Ok F /\ F 0 0 = (5, 0)%R.
Proof.
  assert (E0 : bsm_f 2 py_model kzero 0 0 = (5, 0)%R).
  { unfold bsm_f, py_model. cbn [bparams]. rewrite herm_join. cbn [length Nat.sub seq ksum nth].
    rewrite coef_exp by (try reflexivity; cbn; lia). unfold e_sum, dshift, nops. cbn [bcos bops ksum length]. rewrite !dot_kzero, !Rmult_0_r, !cexp_0, bsm_coef0. unfold cm. csolve. }
  split; [exact py_normal|]. split; [exact E0|].
  destruct (C158_python_partial 2 1 py_model "a.repr" None [] false false _ py_normal (or_introl eq_refl) eq_refl eq_refl) as (l & EL & _ & _ & _ & HF).
  destruct (HF kzero) as (F & EF & HE). eexists. exists l, F. split; [reflexivity|]. split; [exact EL|]. split; [exact EF|].
  rewrite <- E0. apply HE; lia.
Qed.
Example C158_json_ex : exists l F, bsm_save 3 1 "m.json" None (MkBsm true false false [idR] [rv1 0; rv1 1] hop1) = Ok (JsonFile z_file) /\
  bsm_load [0; 1] "m.json" None false true (JsonFile z_file) = Ok l /\ loaded_f 3 l kzero = Ok F /\ F 0 0 = (2, 0)%R.
Proof.
  exists (MkL 3 z_loaded), (bsm_f 3 z_loaded kzero). repeat split.
  - pose proof (z_saved 3 [idR]) as E. unfold bsm_save in E |- *. cbn [save_format] in E. change (save_format "m.json" None) with (Ok FJson). exact E.
  - apply z_loaded_f0.
Qed.

(** ** C159: AsymTightBindingModel *)
Lemma fs_bloch n nbs H k i j : (forall a, a < n -> nb nbs 0 a = 0%R) -> fs_f n (MkHfs nbs H) k i j = bloch_sum n [idR] nbs H k i j.
Proof.
  intros HZ. unfold fs_f, bloch_sum. cbn [hnb hH]. rewrite herm_join, (fs_coef_zero n nbs k 0 HZ).
  rewrite (csum_ext (seq 1 (length H - 1)) _ (fun l => csum [idR] (fun s => cadd (cmul (cexp (2 * PI * dot n k (rot n s (nb nbs l)))) (nth l H fzero i j))
               (cmul (cexp (- (2 * PI * dot n k (rot n s (nb nbs l))))) (cconj (nth l H fzero j i)))))).
  - set (x := csum _ _). csolve.
  - intros l _. cbn [ksum]. rewrite rot_idR_dot. unfold fs_coef. rewrite cexp_neg. csolve.
Qed.
Lemma new_ok n nbs H : (forall a, a < n -> nb nbs 0 a = 0%R) -> length nbs = length H ->
  exists u, new_atb n nbs H = Ok (MkAtb (MkHfs nbs H) u) /\ forall k i j, fs_f n u k i j = if Nat.eqb i j then (1, 0)%R else (0, 0)%R.
Proof.
  intros HZ L. unfold new_atb. rewrite (proj2 (zero_vec_spec n (nb nbs 0)) HZ), L, Nat.eqb_refl. cbn [andb].
  destruct (C131_unit n [fun _ => 0%R]) as [D V]. destruct (fs_unit n [fun _ => 0%R]) as [u|] eqn:E.
  - exists u. split; [reflexivity|]. apply (V u eq_refl).
  - exfalso. apply (proj2 D); [split; [discriminate|reflexivity]|reflexivity].
Qed.
(** FULL STATEMENT (C159): the loaded model has the same energies up to parts below 1e-14. Proved for every H; the energies follow when the
    overlap S is the identity, other overlaps are lost (C159_overlap_refuted). *)
Theorem C159_json_partial n d a name given order file : 0 < d -> wf_series n (tH a) -> zero_first n (hnb (tH a)) ->
  atb_save d name given a = Ok file -> argsort_of (map (vnorm n) (hnb (tH a))) order ->
  exists a' H2, atb_load n order name given file = Ok a' /\ cleaned_mats d (hH (tH a)) H2 /\
    Permutation (combine (hnb (tH a')) (hH (tH a'))) (combine (hnb (tH a)) H2) /\
    (forall k i j, fs_f n (tH a') k i j = fs_f n (MkHfs (hnb (tH a)) H2) k i j) /\
    (forall k i j, fs_f n (tS a') k i j = if Nat.eqb i j then (1, 0)%R else (0, 0)%R) /\
    ((forall h i j, In h (hH (tH a)) -> i < d -> j < d -> cleaned (h i j) (h i j)) ->
     forall k, feq (K:=Cs) d d (fs_f n (tH a') k) (fs_f n (tH a) k) /\
       (feq (K:=Cs) d d (fs_f n (tS a) k) (fid (K:=Cs)) -> forall E, atb_energies n d a' k E <-> atb_energies n d a k E)).
Proof.
  intros Hd (HL & Hne & _) HZ HS HO. destruct a as [[nbs H] Sa]. cbn [tH tS hnb hH] in *.
  assert (HF : load_format name given = Ok FJson /\ exists f, json_save nbs (map (to_rows d) H) = Some f /\ file = JsonFile f).
  { unfold atb_save in HS. cbn [tH hnb hH] in HS.
    assert (EJ : exists f, json_save nbs (map (to_rows d) H) = Some f) by (destruct H; [congruence|eexists; reflexivity]).
    destruct EJ as [f EJ]. rewrite EJ in HS. unfold load_format. destruct given as [[]|]; try discriminate HS.
    - injection HS as <-. split; [reflexivity|]. exists f. split; [exact EJ|reflexivity].
    - destruct (ends_with name ".json") eqn:Ej; [|discriminate HS]. injection HS as <-.
      destruct (ends_with name ".repr") eqn:Er; [|split; [reflexivity|exists f; split; [exact EJ|reflexivity]]].
      exfalso. unfold ends_with in Ej, Er. cbn [String.length] in Ej, Er. apply andb_prop in Ej, Er. destruct Ej as [_ Ej], Er as [_ Er].
      apply String.eqb_eq in Ej, Er. rewrite Ej in Er. discriminate Er. }
  destruct HF as (HF & f & EJ & ->).
  destruct (json_series n d nbs H order f Hd Hne HL HZ EJ HO) as (nbs' & P' & H2 & EL & L & HP & HC & E0 & E1 & HPm & HB).
  assert (HZ' : forall q, q < n -> nb nbs' 0 q = 0%R) by (rewrite E0; apply HZ).
  destruct (new_ok n nbs' (map of_rows P') HZ' (eq_trans L (eq_sym (map_length _ _)))) as (u & EU & HU).
  exists (MkAtb (MkHfs nbs' (map of_rows P')) u), H2. unfold atb_load. rewrite HF, EL, EU. cbn [tH tS hnb hH].
  assert (EF : forall k i j, fs_f n (MkHfs nbs' (map of_rows P')) k i j = fs_f n (MkHfs nbs H2) k i j).
  { intros k i j. rewrite (fs_bloch n nbs') by exact HZ'. rewrite (fs_bloch n nbs H2) by apply HZ. apply HB. }
  assert (EX : (forall h i j, In h H -> i < d -> j < d -> cleaned (h i j) (h i j)) ->
    forall k, feq (K:=Cs) d d (fs_f n (MkHfs nbs' (map of_rows P')) k) (fs_f n (MkHfs nbs H) k)).
  { intros H0 k i j Hi Hj. rewrite EF. unfold fs_f. cbn [hnb hH]. apply (herm_feq d); try assumption.
    - unfold cleaned_mats in HC. clear - HC H0. induction HC as [|h h2 H H2 Hh HC IH]; [constructor|]. constructor; [|apply IH; intros; apply H0; [right; assumption|assumption|assumption]].
      intros b e Hb He. destruct (H0 h b e (or_introl eq_refl) Hb He) as [A1 A2]. destruct (Hh b e Hb He) as [B1 B2].
      destruct (h b e) as [x y], (h2 b e) as [x' y']. cbn [fst snd] in *. congruence.
    - intros E2. apply Hne. apply length_zero_iff_nil. apply (eq_trans (F2_length _ _ _ HC)). rewrite E2. reflexivity. }
  split; [reflexivity|]. split; [exact HC|]. split; [exact HPm|]. split; [exact EF|]. split; [exact HU|]. intros H0 k. split; [apply EX; exact H0|].
  intros HI E. unfold atb_energies. cbn [tH tS].
  assert (HS2 : feq (K:=Cs) d d (fs_f n u k) (fs_f n Sa k)).
  { intros i j Hi Hj. rewrite HU. rewrite (HI i j Hi Hj). reflexivity. }
  split; apply spectrum_proper; try apply EX; try assumption; intros i j Hi Hj; symmetry; [apply EX|apply HS2]; assumption.
Qed.
Print Assumptions C159_json_partial.
(** one band with energy 1/2 because of the overlap 2: after saving and loading the energy is 1 *)
Definition over_model : atb := MkAtb (MkHfs [rv1 0] [cm (1, 0)%R]) (MkHfs [rv1 0] [cm (2, 0)%R]).
Lemma single_f n z k : fs_f n (MkHfs [rv1 0] [cm z]) k 0 0 = z.
Proof.
  rewrite fs_bloch by reflexivity. unfold bloch_sum. cbn [length Nat.sub seq ksum nth]. unfold cm. csolve.
Qed.
Theorem C159_overlap_refuted : ~ (forall n d a name order file a', 0 < d -> wf_atb n a -> zero_first n (hnb (tH a)) ->
  argsort_of (map (vnorm n) (hnb (tH a))) order -> atb_save d name None a = Ok file -> atb_load n order name None file = Ok a' ->
  (forall h i j, In h (hH (tH a)) -> i < d -> j < d -> cleaned (h i j) (h i j)) ->
  forall k E, atb_energies n d a k E -> atb_energies n d a' k E).
Proof.
  intros A. set (f := MkJ 1 [[(1, 0)%R]] [rv1 0]). destruct (C131_unit 1 [fun _ => 0%R]) as [D V].
  destruct (fs_unit 1 [fun _ => 0%R]) as [u|] eqn:EU; [|apply (proj2 D); [split; [discriminate|reflexivity]|reflexivity]].
  destruct (V u eq_refl) as (_ & _ & HU). set (a' := MkAtb (MkHfs [rv1 0] (map of_rows [[[(1, 0)%R]]])) u).
  assert (ES : atb_save 1 "a.json" None over_model = Ok (JsonFile f)).
  { unfold atb_save. change (ends_with "a.json" ".json") with true. cbv iota. cbn [over_model tH hnb hH]. unfold json_save. cbn [map]. unfold to_rows, cm.
    cbn [seq map concat app length]. rewrite clean10. reflexivity. }
  assert (EZ : zero_vec 1 (rv1 0) = true) by (apply zero_vec_spec; reflexivity).
  assert (EL : atb_load 1 [0] "a.json" None (JsonFile f) = Ok a').
  { unfold atb_load. change (load_format "a.json" None) with (Ok FJson). cbv iota.
    change (json_load [0] f) with (Some ([rv1 0], [[[(1, 0)%R]]])). cbv iota. unfold new_atb. unfold nb. cbn [nth]. rewrite EZ, EU. reflexivity. }
  assert (E1 : atb_energies 1 1 over_model (rv1 0) [1 / 2]%R).
  { unfold atb_energies, over_model. cbn [tH tS]. apply spectrum1_at; [apply single_f|apply single_f|lra]. }
  assert (E2 : atb_energies 1 1 a' (rv1 0) [1 / 1]%R).
  { unfold atb_energies, a'. cbn [tH tS]. apply spectrum1_at; [|apply HU|lra]. rewrite fs_bloch by reflexivity. unfold bloch_sum, of_rows.
    cbn [map length Nat.sub seq ksum nth]. csolve. }
  assert (E3 : atb_energies 1 1 a' (rv1 0) [1 / 2]%R).
  { apply (A 1 1 over_model "a.json"%string [0] (JsonFile f) a'); try assumption; try lia.
    - repeat split; try reflexivity; discriminate.
    - split; [reflexivity|]. cbn [over_model tH hnb length]. intros l Hl. lia.
    - split; [reflexivity|]. cbn [over_model tH hnb map length]. intros i j Hij. assert (i = 0) by lia. assert (j = 0) by lia. subst. apply Rle_refl.
    - intros h i j Hin _ _. destruct Hin as [<-|[]]. unfold cm. apply clean_id; cbn [fst snd]; [right; rewrite Rabs_pos_eq; lra|left; reflexivity]. }
  pose proof (C31_energies_unique 1 _ _ _ _ E2 E3) as P. apply Permutation_length_1 in P. lra.
Qed.
Print Assumptions C159_overlap_refuted.
(** files written by BandStructureModel.save can be read by AsymTightBindingModel.load: the python format of a model with the trivial symmetry
    gives the same Hamiltonian, every larger symmetry is rejected *)
Theorem C159_python n d b name given order file : normal_form d b -> (forall a, a < n -> nb (bnb b) 0 a = 0%R) ->
  save_format name given = Ok FPython -> bsm_save n d name given b = Ok file ->
  (bops b = [idR] -> binv b = false -> exists a, atb_load n order name given file = Ok a /\
     (forall k i j, i < d -> j < d -> fs_f n (tH a) k i j = bsm_f n b k i j) /\
     (forall k i j, fs_f n (tS a) k i j = if Nat.eqb i j then (1, 0)%R else (0, 0)%R)) /\
  (2 <= length (bops b) \/ binv b = true /\ bops b <> [] -> atb_load n order name given file = Err ValueError).
Proof.
  intros HN HZ HF HS. unfold bsm_save in HS. rewrite HF in HS. injection HS as <-.
  assert (LF : load_format name given = Ok FPython).
  { unfold save_format in HF. unfold load_format. destruct given as [[]|]; try discriminate HF; [reflexivity|].
    destruct (ends_with name ".repr"); [reflexivity|]. destruct (ends_with name ".json"); [discriminate HF|]. destruct (ends_with name ".dat"); discriminate HF. }
  unfold atb_load. rewrite LF. split.
  - intros Ho Hi. rewrite Ho, Hi. cbn [length]. change (1 <? 1 * 1) with false. cbv iota. destruct (reset d b HN) as (_ & _ & _ & HL).
    destruct (new_ok n (bnb b) (map of_rows (map (to_rows d) (params_complex b))) HZ) as (u & EU & HU); [rewrite !map_length; symmetry; exact HL|].
    rewrite EU. eexists. split; [reflexivity|]. cbn [tH tS]. split; [|exact HU]. intros k i j Hi' Hj.
    rewrite fs_bloch by exact HZ. rewrite (normal_f n d b k i j HN Hi' Hj).
    assert (EN : (if bcos b then 1 - nops b else 0)%R = 0%R) by (unfold nops; rewrite Ho; destruct (bcos b); simpl; ring).
    rewrite EN. destruct (target_ext d n b b k _ _ i j eq_refl eq_refl (of_to_list d (params_complex b)) Hi' Hj) as [T _]. rewrite <- T, target_bloch, Ho.
    set (x := bloch_sum _ _ _ _ _ _ _). set (y := hsumH _ _ _). csolve.
  - intros HB. assert (X : 1 <? length (bops b) * (if binv b then 2 else 1) = true); [|rewrite X; reflexivity].
    apply Nat.ltb_lt. destruct HB as [HB|[-> HB]]; [destruct (binv b); lia|]. destruct (bops b); [congruence|cbn [length]; lia].
Qed.
Print Assumptions C159_python.
Example C159_ex : exists file a, bsm_save 2 1 "a.repr" None (MkBsm true false false [idR] [rv1 0; rv1 1] hop1) = Ok file /\
  atb_load 2 [] "a.repr" None file = Ok a /\ fs_f 2 (tH a) kzero 0 0 = (2, 0)%R /\
  exists file', bsm_save 2 1 "a.repr" None py_model = Ok file' /\ atb_load 2 [] "a.repr" None file' = Err ValueError.
Proof.
  set (b := MkBsm true false false [idR] [rv1 0; rv1 1] hop1).
  assert (HN : normal_form 1 b) by (split; [discriminate|]; split; [reflexivity|]; split; [intros i j _ _; cbn; unfold cm; csolve|]; intros [E|E]; discriminate E).
  destruct (proj1 (C159_python 2 1 b "a.repr" None [] _ HN (fun _ _ => eq_refl) eq_refl eq_refl) eq_refl eq_refl) as (a & EL & EF & _).
  eexists. exists a. split; [reflexivity|]. split; [exact EL|]. split.
  - rewrite EF by lia. rewrite (normal_f 2 1 b kzero 0 0 HN) by lia. unfold params_complex, b. cbn [bexp bcos bparams].
    unfold target, hsumH, e_sum. cbn [bops hop1 length Nat.sub seq ksum nth]. rewrite !dot_kzero, !Rmult_0_r, !cexp_0. unfold cm. csolve.
  - eexists. split; [reflexivity|].
    apply (proj2 (C159_python 2 1 py_model "a.repr" None [] _ py_normal (fun _ _ => eq_refl) eq_refl eq_refl)). left. cbn. lia.
Qed.
Example C159_json_ex : exists a, atb_save 1 "m.json" None (MkAtb (MkHfs [rv1 0; rv1 1] hop1) (MkHfs [rv1 0] [fid (K:=Cs)])) = Ok (JsonFile z_file) /\
  atb_load 1 [0; 1] "m.json" None (JsonFile z_file) = Ok a /\ fs_f 1 (tH a) kzero 0 0 = (2, 0)%R.
Proof.
  assert (ES : atb_save 1 "m.json" None (MkAtb (MkHfs [rv1 0; rv1 1] hop1) (MkHfs [rv1 0] [fid (K:=Cs)])) = Ok (JsonFile z_file)).
  { unfold atb_save. change (ends_with "m.json" ".json") with true. cbv iota. cbn [tH hnb hH]. unfold json_save, hop1. cbn [map]. unfold to_rows, cm.
    cbn [seq map concat app length]. rewrite clean00, clean10. reflexivity. }
  destruct (C159_json_partial 1 1 (MkAtb (MkHfs [rv1 0; rv1 1] hop1) (MkHfs [rv1 0] [fid (K:=Cs)])) "m.json" None [0; 1] (JsonFile z_file)) as (a & H2 & EL & _ & _ & _ & _ & HX).
  - lia.
  - repeat split. discriminate.
  - apply z_zero_first. lia.
  - exact ES.
  - apply z_argsort.
  - exists a. split; [exact ES|]. split; [exact EL|]. destruct (HX) with (k := kzero) as [HE _].
    + cbn [tH hH]. intros h i j Hin _ _. destruct Hin as [<-|[<-|[]]]; unfold cm; apply clean_id; cbn [fst snd]; try (left; reflexivity). right. rewrite Rabs_pos_eq; lra.
    + rewrite (HE 0 0) by lia. cbn [tH]. rewrite fs_bloch by reflexivity. unfold bloch_sum, hop1. cbn [length Nat.sub seq ksum nth]. rewrite !dot_kzero, Rmult_0_r, Ropp_0, !cexp_0. unfold cm. csolve.
Qed.

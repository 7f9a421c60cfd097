(** Properties C100-C105: derivatives of the bands (linalg.py, bandstructure.py, tight_binding_asym.py, tight_binding.py). *)
From Coq Require Import List Arith ZArith Reals Lra Lia Bool FunctionalExtensionality Setoid Morphisms.
From Coquelicot Require Import Coquelicot.
Import List ListNotations.
From Verif Require Import SRing LMat FMat CplxR UrepModel UrepProofs FourierModel FourierProofs BsmProofs SpecProofs FourierProps EigModel EigProofs EigBase.
Local Open Scope R_scope.

Definition cderiv_mat (d : nat) (H : R -> cmat) (t : R) (D : cmat) : Prop :=
  forall i j, (i < d)%nat -> (j < d)%nat -> cderiv (fun s => H s i j) t (D i j).

(** ** first order *)
Section First.
Variables (d i : nat) (H S : R -> cmat) (dH dS : cmat) (la : nat -> R) (V : cmat) (e : R -> R).
Hypothesis Hi : (i < d)%nat.
Hypothesis HH : hermitian d (H 0).
Hypothesis HS : hermitian d (S 0).
Hypothesis HB : eigenbasis d (H 0) (S 0) (la, V).
Hypothesis Hs : simple d la i.
Hypothesis DH : cderiv_mat d H 0 dH.
Hypothesis DS : cderiv_mat d S 0 dS.
Hypothesis Hb : band d H S e.
Hypothesis He : e 0 = la i.
Let D t : cmat := fun j m => csub (csub (H t j m) (H 0 j m)) (cmul (cre (e t)) (csub (S t j m) (S 0 j m))).
Let A t k l := eig_el d V (D t) k l.
Let A1 k l := eig_el d V (fun j m => csub (dH j m) (cmul (cre (la i)) (dS j m))) k l.
Lemma band_lim : is_lim e 0 (la i).
Proof. destruct Hb as [Hc _]. rewrite <- He. apply is_lim_continuity. exact Hc. Qed.
Lemma band_A1 k l : clim (fun t => cmul (cre (/ t)) (A t k l)) (A1 k l).
Proof.
  apply (clim_ext_near (fun t => eig_el d V (fun j m => cmul (cre (/ t)) (D t j m)) k l)).
  - apply filter_forall. intro t. apply eig_el_scale.
  - apply (clim_eig_el d V (fun t j m => cmul (cre (/ t)) (D t j m))). intros j m Hj Hm.
    apply (clim_ext_near (fun t => csub (cmul (cre (/ t)) (csub (H t j m) (H 0 j m))) (cmul (cre (e t)) (cmul (cre (/ t)) (csub (S t j m) (S 0 j m)))))).
    + apply filter_forall. intro t. unfold D. apply cplx_eq; simpl; ring.
    + apply clim_sub; [apply (cderiv_clim (fun t => H t j m)); apply DH; assumption|].
      apply clim_mul; [apply clim_re; exact band_lim|apply (cderiv_clim (fun t => S t j m)); apply DS; assumption].
Qed.
Lemma band_sys : exists c : R -> nat -> cplx, near0 (fun t => (exists k, (k < d)%nat /\ c t k <> (0,0)) /\
  forall k, (k < d)%nat -> cmul (cre (e t - la k)) (c t k) = nsum (K:=Cs) d (fun l => cmul (A t k l) (c t l))).
Proof.
  destruct Hb as [_ (w & dl & Hdl & Hw)]. exists (fun t => sys_c d (S 0) V (w t)).
  exists (mkposreal dl Hdl). intros t Ht _. apply (proj1 (ball0 _ _)) in Ht. destruct (Hw t Ht) as [W0 W1]. split.
  - exact (sys_nonzero d (H 0) (S 0) la V (w t) HB W0).
  - intros k Hk. exact (sys_eq d (H 0) (S 0) (H t) (S t) la V (e t) (w t) HH HS HB W1 k Hk).
Qed.
Lemma first_order : is_derive e 0 (eig_diag d V dH i - eig_diag d V dS i * la i).
Proof.
  destruct band_sys as [c Hc].
  assert (L : clim (fun t => cre ((e t - la i) / t)) (A1 i i)).
  { apply (br_first d i la e A c Hi Hs band_lim).
    - intros k l _ _. apply (clim_bounded_times_t _ (A1 k l)). apply band_A1.
    - exact Hc.
    - intros k l _ _. apply band_A1. }
  apply lim_derive. rewrite He. destruct L as [L _]. simpl in L.
  replace (eig_diag d V dH i - eig_diag d V dS i * la i) with (fst (A1 i i)); [exact L|].
  unfold A1. rewrite eig_el_sub. rewrite eig_el_scale. unfold eig_diag. simpl. ring.
Qed.
End First.

(** ** second order, constant S *)
Section Second.
Variables (d i : nat) (H : R -> cmat) (S : cmat) (H1 : R -> cmat) (H2 : cmat) (la : nat -> R) (V : cmat) (e : R -> R).
Hypothesis Hi : (i < d)%nat.
Hypothesis HH : hermitian d (H 0).
Hypothesis HS : hermitian d S.
Hypothesis HB : eigenbasis d (H 0) S (la, V).
Hypothesis Hs : simple d la i.
Hypothesis DH : forall t, cderiv_mat d H t (H1 t).
Hypothesis DH2 : cderiv_mat d H1 0 H2.
Hypothesis Hb : band d H (fun _ => S) e.
Hypothesis He : e 0 = la i.
Let D t : cmat := fun j m => csub (H t j m) (H 0 j m).
Lemma band_D0 t k l : eig_el d V (fun j m => csub (csub (H t j m) (H 0 j m)) (cmul (cre (e t)) (csub (S j m) (S j m)))) k l = eig_el d V (D t) k l.
Proof. apply eig_el_ext. intros j m _ _. unfold D. apply cplx_eq; simpl; ring. Qed.
Lemma second_order : is_lim (fun t => (e t - e 0 - t * eig_diag d V (H1 0) i) / (t * t)) 0
  (1 / 2 * eig_diag d V H2 i + nsum (K:=Rs) d (fun l => if Nat.eqb l i then 0 else
     fst (cmul (eig_el d V (H1 0) i l) (eig_el d V (H1 0) l i)) / (la i - la l))).
Proof.
  pose proof (band_lim d i H (fun _ => S) la e Hb He) as Hl.
  destruct (band_sys d H (fun _ => S) la V e HH HS HB Hb) as [c Hc].
  assert (HA1 : forall k l, clim (fun t => cmul (cre (/ t)) (eig_el d V (D t) k l)) (eig_el d V (H1 0) k l)).
  { intros k l. apply (clim_ext_near (fun t => eig_el d V (fun j m => cmul (cre (/ t)) (D t j m)) k l)).
    - apply filter_forall. intro t. apply eig_el_scale.
    - apply (clim_eig_el d V (fun t j m => cmul (cre (/ t)) (D t j m))). intros j m Hj Hm.
      apply (cderiv_clim (fun t => H t j m)). apply DH; assumption. }
  pose proof (br_second d i la e (fun t k l => eig_el d V (D t) k l) c Hi Hs Hl) as B.
  specialize (B (fun k l _ _ => clim_bounded_times_t _ _ (HA1 k l))).
  assert (Hc' : near0 (fun t => (exists k, (k < d)%nat /\ c t k <> (0,0)) /\
     forall k, (k < d)%nat -> cmul (cre (e t - la k)) (c t k) = nsum (K:=Cs) d (fun l => cmul (eig_el d V (D t) k l) (c t l)))).
  { generalize Hc. apply near0_imp. intros t [Q1 Q2]. split; [exact Q1|]. intros k Hk. rewrite (Q2 k Hk). apply (nsum_ext Cs). intros l _.
    rewrite band_D0. reflexivity. }
  specialize (B Hc' (fun k l => eig_el d V (H1 0) k l) (fun k l _ _ => HA1 k l) (cmul (cre (1 / 2)) (eig_el d V H2 i i))).
  destruct B as [B _].
  - apply (clim_ext_near (fun t => eig_el d V (fun j m => cmul (cre (/ (t * t))) (csub (csub (H t j m) (H 0 j m)) (cmul (cre t) (H1 0 j m)))) i i)).
    + apply filter_forall. intro t. rewrite eig_el_scale. f_equal. rewrite eig_el_sub. f_equal. apply eig_el_scale.
    + apply (clim_eq _ (eig_el d V (fun j m => cmul (cre (1/2)) (H2 j m)) i i)); [apply eig_el_scale|].
      apply (clim_eig_el d V (fun t j m => cmul (cre (/ (t * t))) (csub (csub (H t j m) (H 0 j m)) (cmul (cre t) (H1 0 j m))))).
      intros j m Hj Hm. apply (ctaylor2 (fun t => H t j m) (fun t => H1 t j m)); [intro t; apply DH; assumption|apply DH2; assumption].
  - match type of B with is_lim _ _ (Finite ?x) => match goal with |- is_lim _ _ (Finite ?y) => replace y with x end end.
    + eapply is_lim_ext; [|exact B]. intro t. cbv beta. rewrite He. unfold eig_diag. simpl. unfold Rdiv. ring.
    + simpl. rewrite fst_nsum. unfold eig_diag. f_equal; [ring|]. apply (nsum_ext Rs). intros l _.
      destruct (Nat.eqb l i); [reflexivity|]. simpl. unfold Rdiv. ring.
Qed.
End Second.

(* ------------------------------------------------------------------ *)
(** ** lines in parameter space *)
Definition along (x v : rvec) (t : R) : rvec := fun a => x a + t * v a.
Notation rsum n f := (nsum (K:=Rs) n f).
Lemma along_0 x v : along x v 0 = x.
Proof. apply functional_extensionality. intro a. unfold along. ring. Qed.
Lemma along_add x v s t : along (along x v s) v t = along x v (s + t).
Proof. apply functional_extensionality. intro a. unfold along. ring. Qed.
Lemma line_deriv d F x v D : mat_deriv d F x v D -> cderiv_mat d (fun t => F (along x v t)) 0 D.
Proof. intro H. exact H. Qed.
Lemma line_deriv_all d F x v (D : rvec -> cmat) : (forall y, mat_deriv d F y v (D y)) ->
  forall t, cderiv_mat d (fun t => F (along x v t)) t (D (along x v t)).
Proof.
  intros H t i j Hi Hj. apply (cderiv_shift (fun s => F (along x v s) i j)).
  apply (cderiv_ext (fun s => F (along (along x v t) v s) i j)); [intro s; rewrite along_add; reflexivity|].
  exact (H (along x v t) i j Hi Hj).
Qed.
Lemma eig_diag_contract d V n v X i : eig_diag d V (contract n v X) i = rsum n (fun a => v a * eig_diag d V (X a) i).
Proof.
  unfold eig_diag. rewrite eig_el_contract, fst_nsum. apply (nsum_ext Rs). intros a _. simpl. ring.
Qed.
Lemma eigenbasis_ext d H S S' r : feq (K:=Cs) d d S S' -> eigenbasis d H S r -> eigenbasis d H S' r.
Proof.
  intros E (A & B & C). split; [|split].
  - intros j k Hj Hk. rewrite (A j k Hj Hk). f_equal. apply (nsum_ext Cs). intros m Hm. rewrite (E j m Hj Hm). reflexivity.
  - rewrite <- E. exact B.
  - rewrite <- E. exact C.
Qed.
Lemma hermitian_id d : hermitian d (fid (K:=Cs)).
Proof. intros i j _ _. unfold fid. rewrite (Nat.eqb_sym j i). destruct (Nat.eqb i j); apply cplx_eq; simpl; ring. Qed.
Lemma hermitian_ext d X Y : feq (K:=Cs) d d X Y -> hermitian d X -> hermitian d Y.
Proof. intros E H i j Hi Hj. rewrite <- (E i j Hi Hj), <- (E j i Hj Hi). apply H; assumption. Qed.
Lemma const_deriv d (S : cmat) t : cderiv_mat d (fun _ => S) t (fun _ _ => (0,0)).
Proof. intros i j _ _. apply cderiv_const. Qed.

(** ** C100 *)
(** eigh_grad: the sum of v_a grads[a, i] is the derivative of band i in the direction v *)
Theorem C100_eigh_grad : forall eigh d m i F dH x v e la g V,
  eigh_grad eigh d (F x) dH = (la, g, V) -> eigenbasis d (F x) (fid (K:=Cs)) (eigh (F x)) -> hermitian d (F x) ->
  (i < d)%nat -> simple d la i -> mat_deriv d F x v (contract m v dH) ->
  band d (fun t => F (along x v t)) (fun _ => fid (K:=Cs)) e -> e 0 = la i ->
  is_derive e 0 (rsum m (fun a => v a * g a i)).
Proof.
  intros eigh d m i F dH x v e la g V E B HH Hi Hs D Hb He. unfold eigh_grad in E. destruct (eigh (F x)) as [la' V'].
  injection E as E1 E2 E3. subst la' g V'.
  pose proof (first_order d i (fun t => F (along x v t)) (fun _ => fid (K:=Cs)) (contract m v dH) (fun _ _ => (0,0)) la V e Hi) as Q.
  cbv beta in Q. rewrite along_0 in Q. specialize (Q HH (hermitian_id d) B Hs (line_deriv _ _ _ _ _ D) (const_deriv d _ 0) Hb He).
  rewrite eig_diag_contract in Q. unfold eig_diag at 2 in Q. rewrite eig_el_zero in Q. simpl in Q. rewrite Rmult_0_l, Rminus_0_r in Q. exact Q.
Qed.
(** geigh_grad, any sample of a batch. The tests for S = 1, dS = 0 have a tolerance of 1e-8: they are assumed to be
    passed by exact unit matrices only. *)
Theorem C100_geigh_grad : forall eigh eigh2 d m i xs j x F G p v e la g V,
  nth_error xs j = Some x -> nth_error (geigh_grad_batch eigh eigh2 d m xs) j = Some (la, g, V) ->
  F p = gH x -> G p = gS x -> hermitian d (gH x) -> hermitian d (gS x) ->
  eigenbasis d (gH x) (fid (K:=Cs)) (eigh (gH x)) -> eigenbasis d (gH x) (gS x) (eigh2 (gH x) (gS x)) ->
  (near_id d (map gS xs) = true -> feq (K:=Cs) d d (gS x) (fid (K:=Cs))) ->
  (near_zero d m (map gdS xs) = true -> forall a, (a < m)%nat -> feq (K:=Cs) d d (gdS x a) (fzero (K:=Cs))) ->
  (i < d)%nat -> simple d la i ->
  mat_deriv d F p v (contract m v (gdH x)) -> mat_deriv d G p v (contract m v (gdS x)) ->
  band d (fun t => F (along p v t)) (fun t => G (along p v t)) e -> e 0 = la i ->
  is_derive e 0 (rsum m (fun a => v a * g a i)).
Proof.
  intros eigh eigh2 d m i xs j x F G p v e la g V Hx Hr EF EG HH HS B1 B2 N1 N2 Hi Hs DH DS Hb He.
  pose proof (first_order d i (fun t => F (along p v t)) (fun t => G (along p v t)) (contract m v (gdH x)) (contract m v (gdS x)) la V e Hi) as Q.
  cbv beta in Q. rewrite along_0, EF, EG in Q.
  specialize (fun B => Q HH HS B Hs (line_deriv _ _ _ _ _ DH) (line_deriv _ _ _ _ _ DS) Hb He).
  rewrite !eig_diag_contract in Q.
  assert (K : eigenbasis d (gH x) (gS x) (la, V) /\
     forall a, (a < m)%nat -> g a i = eig_diag d V (gdH x a) i - eig_diag d V (gdS x a) i * la i).
  { unfold geigh_grad_batch in Hr. destruct (near_id d (map gS xs)) eqn:En.
    - assert (ES : feq (K:=Cs) d d (fid (K:=Cs)) (gS x)) by (symmetry; apply N1; reflexivity).
      destruct (near_zero d m (map gdS xs)) eqn:Ez; cbn [andb] in Hr.
      + rewrite nth_error_map, Hx in Hr. cbn [option_map] in Hr. unfold eigh_grad in Hr. destruct (eigh (gH x)) as [la' V'].
        injection Hr as E1 E2 E3. subst la' g V'. split; [exact (eigenbasis_ext _ _ _ _ _ ES B1)|].
        intros a Ha. unfold eig_diag at 3. rewrite (eig_el_ext d V (gdS x a) (fun _ _ => (0,0))); [rewrite eig_el_zero; simpl; ring|].
        exact (N2 eq_refl a Ha).
      + rewrite nth_error_map in Hr. unfold geigh_batch in Hr. rewrite map_map in Hr. cbn [snd] in Hr.
        change (map (fun x0 : gsmp => gS x0) xs) with (map gS xs) in Hr. rewrite En in Hr. rewrite map_map in Hr. cbn [fst] in Hr.
        assert (Hc : nth_error (combine (map (fun x0 => eigh (gH x0)) xs) xs) j = Some (eigh (gH x), x)).
        { clear -Hx. revert j Hx. induction xs as [|y ys IH]; intros [|j] Hx; try discriminate.
          - cbn in Hx. injection Hx as ->. reflexivity.
          - cbn in Hx. cbn. apply IH. exact Hx. }
        rewrite Hc in Hr. cbn [option_map fst snd] in Hr. unfold geigh_grads in Hr. destruct (eigh (gH x)) as [la' V'].
        injection Hr as E1 E2 E3. subst la' g V'. split; [exact (eigenbasis_ext _ _ _ _ _ ES B1)|]. reflexivity.
    - cbn [andb] in Hr. rewrite nth_error_map in Hr. unfold geigh_batch in Hr. rewrite map_map in Hr. cbn [snd] in Hr.
      change (map (fun x0 : gsmp => gS x0) xs) with (map gS xs) in Hr. rewrite En in Hr. rewrite map_map in Hr. cbn [fst snd] in Hr.
      assert (Hc : nth_error (combine (map (fun x0 => eigh2 (gH x0) (gS x0)) xs) xs) j = Some (eigh2 (gH x) (gS x), x)).
      { clear -Hx. revert j Hx. induction xs as [|y ys IH]; intros [|j] Hx; try discriminate.
        - cbn in Hx. injection Hx as ->. reflexivity.
        - cbn in Hx. cbn. apply IH. exact Hx. }
      rewrite Hc in Hr. cbn [option_map fst snd] in Hr. unfold geigh_grads in Hr. destruct (eigh2 (gH x) (gS x)) as [la' V'].
      injection Hr as E1 E2 E3. subst la' g V'. split; [exact B2|]. reflexivity. }
  destruct K as [KB KG]. specialize (Q KB).
  replace (rsum m (fun a => v a * g a i)) with (rsum m (fun a => v a * eig_diag d V (gdH x a) i) - rsum m (fun a => v a * eig_diag d V (gdS x a) i) * la i); [exact Q|].
  symmetry. etransitivity; [apply (nsum_ext Rs); intros a Ha; rewrite (KG a Ha); reflexivity|].
  clear. induction m as [|m IH]; [unfold nsum; simpl; ring|]. rewrite !(nsum_S Rs), IH. simpl. ring.
Qed.
(** BandStructureModel.bands_grad *)
Theorem C100_bands_grad : forall eigh d n b k v i e, let r := bsm_bands_grad eigh d n b k in
  bparams b <> [] -> hermitian d (nth 0 (bparams b) fzero) -> eigenbasis d (bsm_f n b k) (fid (K:=Cs)) (eigh (bsm_f n b k)) ->
  (i < d)%nat -> simple d (fst r) i -> band d (fun t => bsm_f n b (along k v t)) (fun _ => fid (K:=Cs)) e -> e 0 = fst r i ->
  is_derive e 0 (rsum n (fun a => v a * snd r a i)).
Proof.
  intros eigh d n b k v i e r Hp Hh B Hi Hs Hb He. unfold r, bsm_bands_grad in *.
  destruct (eigh_grad eigh d (bsm_f n b k) (bsm_df n b k)) as [[la g] V] eqn:E. cbn [fst snd] in *.
  apply (C100_eigh_grad eigh d n i (bsm_f n b) (bsm_df n b k) k v e la g V E B (C26_bsm_hermitian n d b k Hh) Hi Hs
    (C28_bsm_gradient n d b k v Hp) Hb He).
Qed.
(** AsymTightBindingModel.bands_grad *)
Theorem C100_asym_bands_grad : forall eigh eigh2 d n h s ks j k v i e la g,
  nth_error ks j = Some k -> nth_error (asym_bands_grad eigh eigh2 d n h s ks) j = Some (la, g) ->
  wf_series n h -> wf_series n s -> hermitian d (nth 0 (hH h) fzero) -> hermitian d (nth 0 (hH s) fzero) ->
  eigenbasis d (fs_f n h k) (fid (K:=Cs)) (eigh (fs_f n h k)) ->
  eigenbasis d (fs_f n h k) (fs_f n s k) (eigh2 (fs_f n h k) (fs_f n s k)) ->
  (near_id d (map (fs_f n s) ks) = true -> feq (K:=Cs) d d (fs_f n s k) (fid (K:=Cs))) ->
  (near_zero d n (map (fs_df n s) ks) = true -> forall a, (a < n)%nat -> feq (K:=Cs) d d (fs_df n s k a) (fzero (K:=Cs))) ->
  (i < d)%nat -> simple d la i ->
  band d (fun t => fs_f n h (along k v t)) (fun t => fs_f n s (along k v t)) e -> e 0 = la i ->
  is_derive e 0 (rsum n (fun a => v a * g a i)).
Proof.
  intros eigh eigh2 d n h s ks j k v i e la g Hk Hr Wh Ws Hh Hs B1 B2 N1 N2 Hi Hsi Hb He.
  unfold asym_bands_grad in Hr. rewrite nth_error_map in Hr.
  set (xs := map (fun k => MkGsmp (fs_f n h k) (fs_f n s k) (fs_df n h k) (fs_df n s k)) ks) in *.
  change (option_map fst (nth_error (geigh_grad_batch eigh eigh2 d n xs) j : option ((nat -> R) * (nat -> nat -> R) * cmat)) = Some (la, g)) in Hr.
  destruct (nth_error (geigh_grad_batch eigh eigh2 d n xs) j : option ((nat -> R) * (nat -> nat -> R) * cmat)) as [[[la' g'] V]|] eqn:E;
    cbn [option_map fst] in Hr; [|discriminate Hr].
  injection Hr as -> ->.
  apply (C100_geigh_grad eigh eigh2 d n i xs j (MkGsmp (fs_f n h k) (fs_f n s k) (fs_df n h k) (fs_df n s k)) (fs_f n h) (fs_f n s) k v e la g V).
  - unfold xs. rewrite nth_error_map, Hk. reflexivity.
  - exact E.
  - reflexivity.
  - reflexivity.
  - apply C26_hermitian; assumption.
  - apply C26_hermitian; assumption.
  - exact B1.
  - exact B2.
  - unfold xs. rewrite map_map. cbn [gS]. exact N1.
  - unfold xs. rewrite map_map. cbn [gdS]. exact N2.
  - exact Hi.
  - exact Hsi.
  - apply C28_gradient. exact Wh.
  - apply C28_gradient. exact Ws.
  - exact Hb.
  - exact He.
Qed.

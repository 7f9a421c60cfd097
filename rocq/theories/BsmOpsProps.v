(** Properties C151 (transform), C152 (electron_phonon_coupling), C153 (supercell) of BandStructureModel (bandstructure.py). *)
From Coq Require Import List Arith ZArith Reals Lra Lia Bool Setoid Morphisms.
From Coquelicot Require Import Coquelicot.
From Verif Require Import SRing LMat FMat CplxR UrepModel UrepProofs FourierModel FourierProofs BsmProofs SpecProofs FourierProps EigModel EigProofs EigBase EigProps
  AsymOpsModel AsymOpsProps BsmOpsModel.
Import List ListNotations.
Local Open Scope R_scope.

(* ------------------------------------------------------------------ *)
(** ** C151 *)
Definition commute (n : nat) (s A : fmat Rs) : Prop := forall a b, (a < n)%nat -> (b < n)%nat ->
  nsum (K:=Rs) n (fun c => s a c * A c b) = nsum (K:=Rs) n (fun c => A a c * s c b).
Lemma rot_rot n (s A : fmat Rs) r a : rot n s (rot n A r) a = nsum (K:=Rs) n (fun b => nsum (K:=Rs) n (fun c => s a c * A c b) * r b).
Proof.
  unfold rot. transitivity (nsum (K:=Rs) n (fun c => nsum (K:=Rs) n (fun b => s a c * A c b * r b))).
  - apply (nsum_ext Rs). intros c _. etransitivity; [symmetry; apply (nsum_mul_l Rs)|]. apply (nsum_ext Rs). intros b _. simpl. ring.
  - etransitivity; [apply (nsum_swap Rs)|]. apply (nsum_ext Rs). intros b _. etransitivity; [apply (nsum_mul_r Rs)|]. reflexivity.
Qed.
Lemma rot_comm n s A r a : commute n s A -> (a < n)%nat -> rot n s (rot n A r) a = rot n A (rot n s r) a.
Proof. intros C Ha. rewrite !rot_rot. apply (nsum_ext Rs). intros b Hb. rewrite (C a b Ha Hb). reflexivity. Qed.
Lemma rot_ext n s r r' a : (forall b, (b < n)%nat -> r b = r' b) -> rot n s r a = rot n s r' a.
Proof. intros E. unfold rot. apply (nsum_ext Rs). intros b Hb. rewrite E by exact Hb. reflexivity. Qed.

Section Transform.
Variables (n : nat) (A : fmat Rs) (b : bsm).
Hypothesis HC : forall s, In s (bops b) -> commute n s A.
Lemma arg_transform k s i : In s (bops b) -> dot n k (rot n s (nb (map (rot n A) (bnb b)) i)) = dot n (mulT n A k) (rot n s (nb (bnb b) i)).
Proof.
  intros Hs. rewrite <- dot_rot. apply dot_ext. intros a Ha.
  rewrite (rot_ext n s _ (rot n A (nb (bnb b) i))) by (intros c _; apply nb_transform). apply rot_comm; [apply HC, Hs|exact Ha].
Qed.
Lemma bcoef_transform k i : bsm_coef n (bsm_transform n A b) k i = bsm_coef n b (mulT n A k) i.
Proof.
  unfold bsm_coef. destruct (Nat.eqb i 0); [reflexivity|]. cbv zeta. cbn [bsm_transform bnb bops]. rewrite map_length.
  apply (ksum_ext Cs). intros s Hs. rewrite (arg_transform k s _ Hs). reflexivity.
Qed.
Lemma bdcoef_transform k a i : (a < n)%nat ->
  bsm_dcoef n (bsm_transform n A b) k a i = csum (seq 0 n) (fun c => cmul (cre (A a c)) (bsm_dcoef n b (mulT n A k) c i)).
Proof.
  intros Ha. unfold bsm_dcoef. destruct (Nat.eqb i 0).
  - symmetry. apply (nsum_zero Cs). intros c _. apply cplx_eq; simpl; ring.
  - cbv zeta. cbn [bsm_transform bnb bops]. rewrite map_length. set (m := (i mod length (bnb b) + i / length (bnb b))%nat).
    transitivity (cmul (csum (bops b) (fun s => csum (seq 0 n) (fun c => cmul (cmul (coeff_dfun b (i / length (bnb b)) (2 * PI * dot n (mulT n A k) (rot n s (nb (bnb b) m)))) (cre (rot n s (nb (bnb b) m) c))) (cre (A a c))))) (cre (2 * PI))).
    + change (coeff_dfun (bsm_transform n A b)) with (coeff_dfun b). f_equal. apply (ksum_ext Cs). intros s Hs. rewrite (arg_transform k s _ Hs).
      rewrite (rot_ext n s _ (rot n A (nb (bnb b) m))) by (intros c _; apply nb_transform). rewrite (rot_comm n s A _ a (HC s Hs) Ha), cre_rot.
      etransitivity; [symmetry; apply (ksum_mul_l Cs)|]. apply csum_ext. intros c _. change (@smul Cs) with cmul. rg.
    + rewrite (ksum_swap Cs). etransitivity; [symmetry; apply (ksum_mul_r Cs)|]. apply csum_ext. intros c _. change (@smul Cs) with cmul.
      rewrite (ksum_mul_r Cs). change (@smul Cs) with cmul. rg.
Qed.
Lemma bddcoef_transform k a e i : (a < n)%nat -> (e < n)%nat ->
  bsm_ddcoef n (bsm_transform n A b) k a e i =
  csum (seq 0 n) (fun c => cmul (cre (A a c)) (csum (seq 0 n) (fun g => cmul (cre (A e g)) (bsm_ddcoef n b (mulT n A k) c g i)))).
Proof.
  intros Ha He. unfold bsm_ddcoef. destruct (Nat.eqb i 0).
  - symmetry. apply (nsum_zero Cs). intros c _. etransitivity; [apply (f_equal (cmul (cre (A a c)))), (nsum_zero Cs); intros g _|]; apply cplx_eq; simpl; ring.
  - cbv zeta. cbn [bsm_transform bnb bops]. rewrite map_length. set (m := (i mod length (bnb b) + i / length (bnb b))%nat).
    change (coeff_nddfun (bsm_transform n A b)) with (coeff_nddfun b).
    set (w := fun s => copp (coeff_nddfun b (i / length (bnb b)) (2 * PI * dot n (mulT n A k) (rot n s (nb (bnb b) m))))).
    set (z := cre (2 * PI * (2 * PI))).
    transitivity (csum (bops b) (fun s => csum (seq 0 n) (fun c => csum (seq 0 n) (fun g =>
      cmul (cre (A a c)) (cmul (cre (A e g)) (cmul (cmul (w s) (cre (rot n s (nb (bnb b) m) c * rot n s (nb (bnb b) m) g))) z)))))).
    + etransitivity; [symmetry; apply (ksum_mul_r Cs)|]. apply (ksum_ext Cs). intros s Hs. change (@smul Cs) with cmul. rewrite (arg_transform k s _ Hs). fold m.
      rewrite (rot_ext n s _ (rot n A (nb (bnb b) m)) a) by (intros c _; apply nb_transform).
      rewrite (rot_ext n s (nb (map (rot n A) (bnb b)) m) (rot n A (nb (bnb b) m)) e) by (intros c _; apply nb_transform).
      rewrite (rot_comm n s A _ a (HC s Hs) Ha), (rot_comm n s A _ e (HC s Hs) He), cre_mul, !cre_rot.
      transitivity (cmul (csum (seq 0 n) (fun c => cmul (cre (A a c)) (cre (rot n s (nb (bnb b) m) c))))
                         (cmul (cmul (w s) z) (csum (seq 0 n) (fun g => cmul (cre (A e g)) (cre (rot n s (nb (bnb b) m) g)))))); [unfold w; rg|].
      etransitivity; [symmetry; apply (ksum_mul_r Cs)|]. apply csum_ext. intros c _. change (@smul Cs) with cmul.
      transitivity (cmul (cmul (cmul (cre (A a c)) (cre (rot n s (nb (bnb b) m) c))) (cmul (w s) z)) (csum (seq 0 n) (fun g => cmul (cre (A e g)) (cre (rot n s (nb (bnb b) m) g))))); [rg|].
      etransitivity; [symmetry; apply (ksum_mul_l Cs)|]. apply csum_ext. intros g _. change (@smul Cs) with cmul. rewrite cre_mul. rg.
    + rewrite (ksum_swap Cs). apply csum_ext. intros c _. rewrite (ksum_swap Cs). etransitivity; [|apply (ksum_mul_l Cs)]. apply csum_ext. intros g _.
      change (@smul Cs) with cmul. rewrite (ksum_mul_l Cs). change (@smul Cs) with cmul. f_equal. rewrite (ksum_mul_l Cs). change (@smul Cs) with cmul. f_equal.
      rewrite (ksum_mul_r Cs). change (@smul Cs) with cmul. f_equal. apply (ksum_ext Cs). intros s _. unfold w. rg.
Qed.
End Transform.

(** the transformed model at k is the old one at A^T k, if A commutes with the operations *)
Theorem C151_transform_partial : forall n A b k i j, bparams b <> [] -> (forall s, In s (bops b) -> commute n s A) ->
  bsm_f n (bsm_transform n A b) k i j = bsm_f n b (mulT n A k) i j /\
  (forall a, (a < n)%nat -> bsm_df n (bsm_transform n A b) k a i j = contract n (fun c => A a c) (bsm_df n b (mulT n A k)) i j) /\
  (forall a e, (a < n)%nat -> (e < n)%nat -> bsm_ddf n (bsm_transform n A b) k a e i j =
    contract n (fun c => A a c) (fun c => contract n (fun g => A e g) (fun g => bsm_ddf n b (mulT n A k) c g)) i j).
Proof.
  intros n A b k i j Hp HC. assert (L : (0 < length (bparams b))%nat) by (destruct (bparams b); [contradiction|cbn; lia]). split; [|split].
  - unfold bsm_f. cbn [bsm_transform bparams]. apply herm_series_ext; [|exact L]. intros l _. exact (bcoef_transform n A b HC k l).
  - intros a Ha. unfold bsm_df at 2. rewrite contract_series. unfold bsm_df. cbn [bsm_transform bparams]. apply herm_series_ext; [|exact L].
    intros l _. exact (bdcoef_transform n A b HC k a l Ha).
  - intros a e Ha He. unfold bsm_ddf at 2.
    transitivity (contract n (fun c => A a c) (fun c => herm_series (fun l => csum (seq 0 n) (fun g => cmul (cre (A e g)) (bsm_ddcoef n b (mulT n A k) c g l))) (bparams b)) i j).
    2:{ unfold contract. apply csum_ext. intros c _. f_equal. symmetry. apply (contract_series n A e (fun g => bsm_ddcoef n b (mulT n A k) c g)). }
    rewrite contract_series. unfold bsm_ddf. cbn [bsm_transform bparams]. apply herm_series_ext; [|exact L].
    intros l _. exact (bddcoef_transform n A b HC k a e l Ha He).
Qed.
Print Assumptions C151_transform_partial.

(** one orbital on a square lattice in exponential form, the operations are the identity and the exchange of x and y *)
Definition swap2 : fmat Rs := fun a b => if Nat.eqb a b then 0 else 1.
Definition sq_nb : list rvec := [(fun _ => 0); (fun a => if Nat.eqb a 0 then 1 else 0)].
Definition sq_m (ops : list (fmat Rs)) (nbs : list rvec) : bsm := MkBsm true false false ops nbs [fzero (K:=Cs); (fun _ _ => cre 1)].
Definition stretch : fmat Rs := fun a b => if Nat.eqb a b then (if Nat.eqb a 0 then 1 else 2) else 0.
Definition k_half : rvec := fun a => if Nat.eqb a 0 then 0 else 1/2.
Lemma sq_val r0 r k : fst (bsm_f 2 (sq_m [fid (K:=Rs); swap2] [r0; r]) k 0%nat 0%nat) =
  2 * (cos (2 * PI * (k 0%nat * r 0%nat + k 1%nat * r 1%nat)) + cos (2 * PI * (k 0%nat * r 1%nat + k 1%nat * r 0%nat))).
Proof.
  assert (E : forall s, dot 2 k (rot 2 s r) = k 0%nat * (s 0%nat 0%nat * r 0%nat + s 0%nat 1%nat * r 1%nat) + k 1%nat * (s 1%nat 0%nat * r 0%nat + s 1%nat 1%nat * r 1%nat)).
  { intros s. unfold dot, rot, nsum. cbn. ring. }
  unfold bsm_f. cbn [sq_m bparams]. unfold herm_series, fsum. cbn [length Nat.sub seq]. unfold fadd, fscale, fadj, bsm_coef.
  cbn [ksum fold_right Nat.eqb sq_m bops bnb length]. change ((1 mod 2 + 1 / 2)%nat) with 1%nat. change (nb [r0; r] 1) with r. rewrite !E.
  unfold coeff_fun. cbn. unfold swap2. cbn.
  replace (k 0%nat * (1 * r 0%nat + 0 * r 1%nat) + k 1%nat * (0 * r 0%nat + 1 * r 1%nat)) with (k 0%nat * r 0%nat + k 1%nat * r 1%nat) by ring.
  replace (k 0%nat * (0 * r 0%nat + 1 * r 1%nat) + k 1%nat * (1 * r 0%nat + 0 * r 1%nat)) with (k 0%nat * r 1%nat + k 1%nat * r 0%nat) by ring.
  ring.
Qed.
(** the operations are not transformed with the neighbors *)
Theorem C151_symmetric_refuted : ~ forall n A b k i j, bparams b <> [] ->
  bsm_f n (bsm_transform n A b) k i j = bsm_f n b (mulT n A k) i j.
Proof.
  intros C. specialize (C 2%nat stretch (sq_m [fid (K:=Rs); swap2] sq_nb) k_half 0%nat 0%nat ltac:(discriminate)).
  change (bsm_transform 2 stretch (sq_m [fid (K:=Rs); swap2] sq_nb)) with
    (sq_m [fid (K:=Rs); swap2] [rot 2 stretch (fun _ => 0); rot 2 stretch (fun a => if Nat.eqb a 0 then 1 else 0)]) in C.
  unfold sq_nb in C. apply (f_equal fst) in C. rewrite !sq_val in C.
  unfold rot, mulT, stretch, k_half, nsum in C. cbn in C.
  assert (G : forall a b c d, a = 0 -> b = PI -> c = 0 -> d = 2 * PI -> 2 * (cos a + cos b) = 2 * (cos c + cos d) -> False).
  { intros a b c d -> -> -> ->. rewrite cos_0, cos_PI, cos_2PI. lra. }
  apply (G _ _ _ _) in C; [exact C|field..].
Qed.
Print Assumptions C151_symmetric_refuted.
(** without operations (Symmetry.none()) the same model is transformed correctly *)
Example C151_ex : forall k, bsm_f 2 (bsm_transform 2 stretch (sq_m [fid (K:=Rs)] sq_nb)) k 0%nat 0%nat = bsm_f 2 (sq_m [fid (K:=Rs)] sq_nb) (mulT 2 stretch k) 0%nat 0%nat.
Proof.
  intros k. refine (proj1 (C151_transform_partial 2 stretch (sq_m [fid (K:=Rs)] sq_nb) k 0%nat 0%nat _ _)); [discriminate|]. intros s [<-|[]] a b Ha Hb.
  destruct a as [|[|a]]; [| |lia]; destruct b as [|[|b]]; try lia; unfold nsum, stretch; cbn; ring.
Qed.

(** models with another array of neighbors are not changed, the model itself is *)
Theorem C151_other : forall n A hp o o', oref o' <> oref o -> view (obj_transform n A hp o) o' = view hp o'.
Proof. intros n A hp o o' H. unfold view, obj_transform. rewrite (proj2 (Nat.eqb_neq _ _) H). reflexivity. Qed.
Theorem C151_self : forall n A hp o, view (obj_transform n A hp o) o = bsm_transform n A (view hp o).
Proof. intros n A hp o. unfold view, obj_transform. rewrite Nat.eqb_refl. reflexivity. Qed.
(** the result of an arithmetic operation shares the array: to transform m * c or m + e changes m as well *)
Theorem C151_alias_refuted : ~ forall n A hp o c k i j,
  bsm_f n (view (obj_transform n A hp (obj_scale c o)) o) k i j = bsm_f n (view hp o) k i j.
Proof.
  intros C. specialize (C 2%nat (fun a b => if Nat.eqb a b then 2 else 0) (fun _ => sq_nb) (MkObj 0 (sq_m [fid (K:=Rs); swap2] [])) 1 k_half 0%nat 0%nat).
  change (view (obj_transform 2 (fun a b => if Nat.eqb a b then 2 else 0) (fun _ => sq_nb) (obj_scale 1 (MkObj 0 (sq_m [fid (K:=Rs); swap2] [])))) (MkObj 0 (sq_m [fid (K:=Rs); swap2] [])))
    with (sq_m [fid (K:=Rs); swap2] [rot 2 (fun a b => if Nat.eqb a b then 2 else 0) (fun _ => 0); rot 2 (fun a b => if Nat.eqb a b then 2 else 0) (fun a => if Nat.eqb a 0 then 1 else 0)]) in C.
  change (view (fun _ => sq_nb) (MkObj 0 (sq_m [fid (K:=Rs); swap2] []))) with (sq_m [fid (K:=Rs); swap2] [(fun _ : nat => 0); (fun a => if Nat.eqb a 0 then 1 else 0)]) in C.
  apply (f_equal fst) in C. rewrite !sq_val in C. unfold rot, k_half, nsum in C. cbn in C.
  assert (G : forall a b c d, a = 0 -> b = 2 * PI -> c = 0 -> d = PI -> 2 * (cos a + cos b) = 2 * (cos c + cos d) -> False).
  { intros a b c d -> -> -> ->. rewrite cos_0, cos_PI, cos_2PI. lra. }
  apply (G _ _ _ _) in C; [exact C|field..].
Qed.
Print Assumptions C151_alias_refuted.

(* ------------------------------------------------------------------ *)
(** ** C152 *)
(** <x|y> of two columns *)
Definition overlap (d : nat) (X Y : cmat) (i j : nat) : cplx := csum (seq 0 d) (fun k => cmul (cconj (X k i)) (Y k j)).
Definition cabs2 (z : cplx) : R := fst z * fst z + snd z * snd z.

Section Coupling.
Variables (eigh : cmat -> eigsys) (d : nat) (Hs : nat -> cmat) (dHs : nat -> nat -> cmat).
Notation V m := (snd (eigh (Hs m))).
Notation v := (ep_v eigh d Hs dHs).

(** (grad e_i(k) - grad e_j(k')) <i k|j k'> *)
Theorem C152_formula : forall k1 k2 a b n i j,
  ep_g eigh d Hs dHs k1 k2 a b n i j =
  cmul (cre (v (nth a k1 0%nat) n i - v (nth b k2 0%nat) n j)) (overlap d (V (nth a k1 0%nat)) (V (nth b k2 0%nat)) i j).
Proof.
  intros k1 k2 a b n i j. unfold ep_g. cbv zeta. set (m1 := nth a k1 0%nat). set (m2 := nth b k2 0%nat).
  unfold overlap. rewrite csum_nsum. set (w := fun k => cmul (cconj (V m1 k i)) (V m2 k j)).
  transitivity (csub (cmul (cre (v m1 n i)) (nsum (K:=Cs) d w)) (cmul (nsum (K:=Cs) d w) (cre (v m2 n j)))).
  - f_equal.
    + etransitivity; [|apply (nsum_mul_l Cs)]. apply (nsum_ext Cs). intros k _. unfold w. change (@smul Cs) with cmul. rg.
    + etransitivity; [|apply (nsum_mul_r Cs)]. reflexivity.
  - apply cplx_eq; simpl; ring.
Qed.
Lemma overlap_conj X Y i j : overlap d Y X j i = cconj (overlap d X Y i j).
Proof.
  unfold overlap. rewrite !csum_nsum. change cconj with (@sconj Cs) at 2. rewrite (nsum_conj Cs). apply (nsum_ext Cs). intros k _.
  apply cplx_eq; simpl; ring.
Qed.
(** exchange of the two points *)
Theorem C152_exchange : forall k1 k2 a b n i j, ep_g eigh d Hs dHs k2 k1 b a n j i = copp (cconj (ep_g eigh d Hs dHs k1 k2 a b n i j)).
Proof. intros. rewrite !C152_formula, (overlap_conj _ _ i j). apply cplx_eq; simpl; ring. Qed.
(** no coupling at the same point *)
Theorem C152_same : forall k1 k2 a b n i j, nth a k1 0%nat = nth b k2 0%nat ->
  eigenbasis d (Hs (nth a k1 0%nat)) (fid (K:=Cs)) (eigh (Hs (nth a k1 0%nat))) -> (i < d)%nat -> (j < d)%nat ->
  ep_g eigh d Hs dHs k1 k2 a b n i j = (0, 0).
Proof.
  intros k1 k2 a b n i j E (_ & B & _) Hi Hj. rewrite C152_formula, <- E. set (m := nth a k1 0%nat) in *.
  assert (O : overlap d (V m) (V m) i j = fid (K:=Cs) i j).
  { rewrite <- (B i j Hi Hj). symmetry. transitivity (fmul (K:=Cs) d (fadj (K:=Cs) (V m)) (V m) i j); [|reflexivity].
    revert i j Hi Hj. change (feq (K:=Cs) d d (fmul (K:=Cs) d (fmul (K:=Cs) d (fadj (K:=Cs) (V m)) (fid (K:=Cs))) (V m)) (fmul (K:=Cs) d (fadj (K:=Cs) (V m)) (V m))).
    rewrite (fmul_id_r (K:=Cs)). reflexivity. }
  rewrite O. unfold fid. destruct (Nat.eqb_spec i j) as [->|]; apply cplx_eq; simpl; ring.
Qed.
End Coupling.
Print Assumptions C152_same.

(** the returned velocities are the derivatives of nondegenerate bands *)
Theorem C152_grads : forall eigh d n b ks k1 k2 m w i e, let r := ep_coupling eigh d n b ks k1 k2 in
  bparams b <> [] -> hermitian d (nth 0 (bparams b) fzero) ->
  eigenbasis d (bsm_f n b (nb ks m)) (fid (K:=Cs)) (eigh (bsm_f n b (nb ks m))) -> (i < d)%nat -> simple d (fst (fst r) m) i ->
  band d (fun t => bsm_f n b (along (nb ks m) w t)) (fun _ => fid (K:=Cs)) e -> e 0 = fst (fst r) m i ->
  is_derive e 0 (rsum n (fun a => w a * snd (fst r) m a i)).
Proof.
  intros eigh d n b ks k1 k2 m w i e r Hp Hh B Hi Hs Hb He.
  assert (E1 : fst (bsm_bands_grad eigh d n b (nb ks m)) = fst (fst r) m).
  { unfold r, ep_coupling, bsm_bands_grad, eigh_grad, ep_bands. cbn [fst snd]. destruct (eigh (bsm_f n b (nb ks m))). reflexivity. }
  assert (E2 : forall a, snd (bsm_bands_grad eigh d n b (nb ks m)) a i = snd (fst r) m a i).
  { intros a. unfold r, ep_coupling, bsm_bands_grad, eigh_grad, ep_v. cbn [fst snd]. destruct (eigh (bsm_f n b (nb ks m))). reflexivity. }
  rewrite <- E1 in Hs, He. assert (D := C100_bands_grad eigh d n b (nb ks m) w i e Hp Hh B Hi Hs Hb He). cbv zeta in D.
  replace (rsum n (fun a => w a * snd (fst r) m a i)) with (rsum n (fun a => w a * snd (bsm_bands_grad eigh d n b (nb ks m)) a i)); [exact D|].
  apply (nsum_ext Rs). intros a _. rewrite E2. reflexivity.
Qed.
Print Assumptions C152_grads.

(** *** eigenvectors of a nondegenerate spectrum are unique up to phases *)
Lemma cconj_nsum m f : cconj (nsum (K:=Cs) m f) = nsum (K:=Cs) m (fun i => cconj (f i)).
Proof. change cconj with (@sconj Cs). apply (nsum_conj Cs). Qed.
Lemma phase d H r r' : hermitian d H -> eigenbasis d H (fid (K:=Cs)) r -> eigenbasis d H (fid (K:=Cs)) r' ->
  (forall i, (i < d)%nat -> fst r' i = fst r i) -> (forall i, (i < d)%nat -> simple d (fst r) i) ->
  exists p, forall j, (j < d)%nat -> cabs2 (p j) = 1 /\ forall k, (k < d)%nat -> snd r' k j = cmul (snd r k j) (p j).
Proof.
  intros HH (A1 & A2 & A3) (B1 & B2 & B3) El Hs. destruct r as [la V], r' as [la' W]. cbn [fst snd] in *.
  assert (VV : feq (K:=Cs) d d (fmul (K:=Cs) d V (fadj (K:=Cs) V)) fid) by (rewrite (fmul_id_r (K:=Cs)) in A3; exact A3).
  assert (WW : feq (K:=Cs) d d (fmul (K:=Cs) d (fadj (K:=Cs) W) W) fid) by (rewrite (fmul_id_r (K:=Cs)) in B2; exact B2).
  set (U := fmul (K:=Cs) d (fadj (K:=Cs) V) W).
  assert (EV : forall (X : cmat) l, (forall j k, (j < d)%nat -> (k < d)%nat -> csum (seq 0 d) (fun m => cmul (H j m) (X m k)) = cmul (cre (l k)) (csum (seq 0 d) (fun m => cmul (fid (K:=Cs) j m) (X m k)))) ->
    forall j k, (j < d)%nat -> (k < d)%nat -> nsum (K:=Cs) d (fun m => cmul (H j m) (X m k)) = cmul (cre (l k)) (X j k)).
  { intros X l E j k Hj Hk. rewrite <- csum_nsum, (E j k Hj Hk). f_equal. rewrite csum_nsum. exact (fmul_id_l (K:=Cs) d d X j k Hj Hk). }
  assert (HV := EV V la A1). assert (HW := EV W la' B1).
  (* la_i U_ij = U_ij la'_j *)
  assert (C : forall i j, (i < d)%nat -> (j < d)%nat -> cmul (cre (la i)) (U i j) = cmul (cre (la' j)) (U i j)).
  { intros i j Hi Hj. unfold U, fmul, fadj.
    transitivity (nsum (K:=Cs) d (fun k => cmul (cconj (cmul (cre (la i)) (V k i))) (W k j))).
    { etransitivity; [symmetry; apply (nsum_mul_l Cs)|]. apply (nsum_ext Cs). intros k _. apply cplx_eq; simpl; ring. }
    transitivity (nsum (K:=Cs) d (fun k => nsum (K:=Cs) d (fun m => cmul (cmul (cconj (V m i)) (H m k)) (W k j)))).
    { apply (nsum_ext Cs). intros k Hk. rewrite <- (HV k i Hk Hi), cconj_nsum. etransitivity; [symmetry; apply (nsum_mul_r Cs)|].
      apply (nsum_ext Cs). intros m Hm. rewrite (HH m k Hm Hk). apply cplx_eq; simpl; ring. }
    etransitivity; [apply (nsum_swap Cs)|].
    transitivity (nsum (K:=Cs) d (fun m => cmul (cconj (V m i)) (cmul (cre (la' j)) (W m j)))).
    { apply (nsum_ext Cs). intros m Hm. rewrite <- (HW m j Hm Hj). etransitivity; [|apply (nsum_mul_l Cs)]. apply (nsum_ext Cs). intros k _. change (@smul Cs) with cmul. rg. }
    etransitivity; [|apply (nsum_mul_l Cs)]. apply (nsum_ext Cs). intros m _. apply cplx_eq; simpl; ring. }
  assert (O : forall i j, (i < d)%nat -> (j < d)%nat -> i <> j -> U i j = (0, 0)).
  { intros i j Hi Hj Hne. specialize (C i j Hi Hj). rewrite (El j Hj) in C. assert (N := Hs j Hj i Hi Hne).
    assert (F1 := f_equal fst C). assert (F2 := f_equal snd C). cbn in F1, F2. apply cplx_eq; cbn.
    - apply (Rmult_eq_reg_l (la i - la j)); [lra|lra].
    - apply (Rmult_eq_reg_l (la i - la j)); [lra|lra]. }
  assert (D : forall k j, (k < d)%nat -> (j < d)%nat -> W k j = cmul (V k j) (U j j)).
  { intros k j Hk Hj. assert (E : feq (K:=Cs) d d (fmul (K:=Cs) d V U) W).
    { unfold U. rewrite (fmul_assoc (K:=Cs) d d d d), VV. apply (fmul_id_l (K:=Cs)). }
    rewrite <- (E k j Hk Hj). unfold fmul. apply (nsum_single Cs d j); [exact Hj|]. intros i Hi Hne. rewrite (O i j Hi Hj Hne). apply cplx_eq; simpl; ring. }
  exists (fun j => U j j). intros j Hj. split; [|intros k Hk; apply D; assumption].
  assert (N : forall X : cmat, feq (K:=Cs) d d (fmul (K:=Cs) d (fadj (K:=Cs) X) X) fid -> nsum (K:=Cs) d (fun k => cmul (cconj (X k j)) (X k j)) = (1, 0)).
  { intros X E. assert (E' := E j j Hj Hj). unfold fid in E'. rewrite Nat.eqb_refl in E'. exact E'. }
  assert (NV : feq (K:=Cs) d d (fmul (K:=Cs) d (fadj (K:=Cs) V) V) fid) by (rewrite (fmul_id_r (K:=Cs)) in A2; exact A2).
  assert (NW := N W WW). assert (NV' := N V NV).
  assert (Q : nsum (K:=Cs) d (fun k => cmul (cconj (W k j)) (W k j)) = cmul (cre (cabs2 (U j j))) (nsum (K:=Cs) d (fun k => cmul (cconj (V k j)) (V k j)))).
  { etransitivity; [|apply (nsum_mul_l Cs)]. apply (nsum_ext Cs). intros k Hk. rewrite (D k j Hk Hj). unfold cabs2. apply cplx_eq; simpl; ring. }
  rewrite NW, NV' in Q. apply (f_equal fst) in Q. cbn in Q. lra.
Qed.

(** for nondegenerate samples the velocities and the moduli of the coupling do not depend on the eigenvectors that eigh returns *)
Theorem C152_gauge : forall eigh eigh' d Hs dHs k1 k2 a b n i j,
  let m1 := nth a k1 0%nat in let m2 := nth b k2 0%nat in
  (forall m, m = m1 \/ m = m2 -> hermitian d (Hs m) /\ eigenbasis d (Hs m) (fid (K:=Cs)) (eigh (Hs m)) /\ eigenbasis d (Hs m) (fid (K:=Cs)) (eigh' (Hs m)) /\
     forall l, (l < d)%nat -> fst (eigh' (Hs m)) l = fst (eigh (Hs m)) l /\ simple d (fst (eigh (Hs m))) l) ->
  (i < d)%nat -> (j < d)%nat ->
  ep_v eigh' d Hs dHs m1 n i = ep_v eigh d Hs dHs m1 n i /\
  cabs2 (ep_g eigh' d Hs dHs k1 k2 a b n i j) = cabs2 (ep_g eigh d Hs dHs k1 k2 a b n i j).
Proof.
  intros eigh eigh' d Hs dHs k1 k2 a b n i j m1 m2 HM Hi Hj.
  assert (PH : forall m, m = m1 \/ m = m2 -> exists p, forall l, (l < d)%nat -> cabs2 (p l) = 1 /\ forall k, (k < d)%nat -> snd (eigh' (Hs m)) k l = cmul (snd (eigh (Hs m)) k l) (p l)).
  { intros m Hm. destruct (HM m Hm) as (A & B & B' & E). apply (phase d (Hs m)); try assumption; intros l Hl; apply (E l Hl). }
  assert (VE : forall m l, m = m1 \/ m = m2 -> (l < d)%nat -> ep_v eigh' d Hs dHs m n l = ep_v eigh d Hs dHs m n l).
  { intros m l Hm Hl. destruct (PH m Hm) as (p & P). destruct (P l Hl) as (P1 & P2).
    unfold ep_v, eig_diag. transitivity (cabs2 (p l) * fst (eig_el d (snd (eigh (Hs m))) (dHs m n) l l)); [|rewrite P1; ring].
    assert (E : eig_el d (snd (eigh' (Hs m))) (dHs m n) l l = cmul (cre (cabs2 (p l))) (eig_el d (snd (eigh (Hs m))) (dHs m n) l l)).
    { unfold eig_el, fmul, fadj. etransitivity; [|apply (nsum_mul_l Cs)]. apply (nsum_ext Cs). intros k Hk. rewrite (P2 k Hk).
      transitivity (cmul (cmul (cconj (p l)) (nsum (K:=Cs) d (fun c => cmul (cconj (snd (eigh (Hs m)) c l)) (dHs m n c k)))) (cmul (snd (eigh (Hs m)) k l) (p l))).
      - apply (f_equal (fun z => cmul z _)). etransitivity; [|apply (nsum_mul_l Cs)]. apply (nsum_ext Cs). intros c Hc. rewrite (P2 c Hc). apply cplx_eq; simpl; ring.
      - unfold cabs2. apply cplx_eq; simpl; ring. }
    rewrite E. cbn. ring. }
  split; [apply VE; [left; reflexivity|exact Hi]|].
  rewrite !C152_formula. fold m1 m2. rewrite (VE m1 i (or_introl eq_refl) Hi), (VE m2 j (or_intror eq_refl) Hj).
  destruct (PH m1 (or_introl eq_refl)) as (p & P). destruct (PH m2 (or_intror eq_refl)) as (q & Q).
  destruct (P i Hi) as (P1 & P2). destruct (Q j Hj) as (Q1 & Q2).
  assert (E : overlap d (snd (eigh' (Hs m1))) (snd (eigh' (Hs m2))) i j = cmul (cmul (cconj (p i)) (q j)) (overlap d (snd (eigh (Hs m1))) (snd (eigh (Hs m2))) i j)).
  { unfold overlap. rewrite !csum_nsum. etransitivity; [|apply (nsum_mul_l Cs)]. apply (nsum_ext Cs). intros k Hk. rewrite (P2 k Hk), (Q2 k Hk). apply cplx_eq; simpl; ring. }
  rewrite E. set (x := overlap d _ _ i j). set (c := ep_v eigh d Hs dHs m1 n i - ep_v eigh d Hs dHs m2 n j).
  transitivity (cabs2 (p i) * cabs2 (q j) * cabs2 (cmul (cre c) x)); [unfold cabs2; cbn; ring|]. rewrite P1, Q1. ring.
Qed.
Print Assumptions C152_gauge.

(** two bands m and m + 1 at the samples m, two choices of the eigenvectors *)
Definition ex_H (m : nat) : cmat := fun i j => if Nat.eqb i j then cre (INR m + INR i) else (0, 0).
Definition ex_dH (m n : nat) : cmat := fun i j => if Nat.eqb i j then cre (INR m) else (1, 0).
Definition ex_eigh (M : cmat) : eigsys := ((fun i => fst (M i i)), fid (K:=Cs)).
Definition ex_eigh' (M : cmat) : eigsys := ((fun i => fst (M i i)), fun i j => if Nat.eqb i j then (if Nat.eqb i 0 then (0, 1) else (-1, 0)) else (0, 0)).
Lemma two_cases (P : nat -> nat -> Prop) : P 0%nat 0%nat -> P 0%nat 1%nat -> P 1%nat 0%nat -> P 1%nat 1%nat -> forall i j, (i < 2)%nat -> (j < 2)%nat -> P i j.
Proof. intros A B C D i j Hi Hj. destruct i as [|[|i]]; [| |lia]; destruct j as [|[|j]]; try lia; assumption. Qed.
Lemma ex_basis m : eigenbasis 2 (ex_H m) (fid (K:=Cs)) (ex_eigh (ex_H m)) /\ eigenbasis 2 (ex_H m) (fid (K:=Cs)) (ex_eigh' (ex_H m)).
Proof.
  split; split.
  1,3: apply two_cases; unfold ex_eigh, ex_eigh', ex_H; apply cplx_eq; cbn; ring.
  all: split; unfold feq, fmul, fadj, nsum, ex_eigh, ex_eigh'; apply two_cases; apply cplx_eq; cbn; ring.
Qed.
Example C152_ex :
  (forall n i j, (i < 2)%nat -> (j < 2)%nat -> cabs2 (ep_g ex_eigh' 2 ex_H ex_dH [0%nat] [3%nat] 0 0 n i j) = cabs2 (ep_g ex_eigh 2 ex_H ex_dH [0%nat] [3%nat] 0 0 n i j)) /\
  ep_g ex_eigh 2 ex_H ex_dH [0%nat] [3%nat] 0 0 0 1 1 = (-3, 0) /\ ep_g ex_eigh 2 ex_H ex_dH [3%nat] [3%nat] 0 0 0 0 1 = (0, 0).
Proof.
  split; [|split].
  - intros n i j Hi Hj. refine (proj2 (C152_gauge ex_eigh ex_eigh' 2 ex_H ex_dH [0%nat] [3%nat] 0 0 n i j _ Hi Hj)). intros m _.
    split; [unfold hermitian; apply two_cases; unfold ex_H; apply cplx_eq; cbn; ring|]. split; [apply ex_basis|]. split; [apply ex_basis|]. intros l Hl.
    split; [reflexivity|]. intros k Hk Hne. unfold ex_eigh, ex_H. cbn [fst]. rewrite !Nat.eqb_refl. cbn [fst cre]. intros E.
    apply Hne. apply INR_eq. lra.
  - rewrite C152_formula. unfold ep_v, eig_diag, eig_el, fmul, fadj, overlap, nsum, ex_eigh, ex_dH. cbn. apply cplx_eq; cbn; ring.
  - apply C152_same; [reflexivity|apply ex_basis|lia|lia].
Qed.

(** for degenerate bands the velocities depend on the choice of the eigenvectors: H = 0, dH = sigma_x *)
Definition rot_eigh (M : cmat) : eigsys := ((fun _ => 0), fun i j => if Nat.eqb i j then cre (3/5) else if Nat.eqb i 0 then cre (-(4/5)) else cre (4/5)).
Theorem C152_degenerate_refuted : ~ forall eigh eigh' d Hs dHs m n i, (forall m, hermitian d (Hs m)) -> (forall m n, hermitian d (dHs m n)) ->
  eigenbasis d (Hs m) (fid (K:=Cs)) (eigh (Hs m)) -> eigenbasis d (Hs m) (fid (K:=Cs)) (eigh' (Hs m)) ->
  (forall l, fst (eigh' (Hs m)) l = fst (eigh (Hs m)) l) -> (i < d)%nat -> ep_v eigh' d Hs dHs m n i = ep_v eigh d Hs dHs m n i.
Proof.
  intros C. specialize (C (fun _ => ((fun _ => 0), fid (K:=Cs))) rot_eigh 2%nat (fun _ => fzero (K:=Cs)) (fun _ _ => fun i j => if Nat.eqb i j then (0,0) else (1, 0)) 0%nat 0%nat 0%nat).
  assert (E : ep_v rot_eigh 2 (fun _ => fzero (K:=Cs)) (fun _ _ => fun i j => if Nat.eqb i j then (0,0) else (1, 0)) 0 0 0 =
              ep_v (fun _ => ((fun _ => 0), fid (K:=Cs))) 2 (fun _ => fzero (K:=Cs)) (fun _ _ => fun i j => if Nat.eqb i j then (0,0) else (1, 0)) 0 0 0).
  { apply C.
    - intros m. unfold hermitian. apply two_cases; apply cplx_eq; cbn; ring.
    - intros m n. unfold hermitian. apply two_cases; apply cplx_eq; cbn; ring.
    - split; [apply two_cases; apply cplx_eq; cbn; ring|]. split; unfold feq, fmul, fadj, nsum; apply two_cases; apply cplx_eq; cbn; ring.
    - split; [apply two_cases; apply cplx_eq; cbn; ring|]. split; unfold feq, fmul, fadj, nsum; apply two_cases; apply cplx_eq; cbn; field.
    - reflexivity.
    - lia. }
  revert E. unfold ep_v, eig_diag, eig_el, fmul, fadj, nsum. cbn. lra.
Qed.
Print Assumptions C152_degenerate_refuted.

(* ------------------------------------------------------------------ *)
(** ** C153 *)
(** supercell never returns a model: the type of the bounding box is float64 for every supercell matrix *)
Theorem C153_raises : forall mat model inv mul rows integer_valued (rest : mat -> exn + model) nbd nops A A',
  exists e, bsm_supercell mat model inv mul rows integer_valued rest nbd nops A A' = inl e.
Proof.
  intros. unfold bsm_supercell. destruct nbd as [dim|]; [|eauto]. destruct (negb _); [eauto|]. destruct (inv A) as [Ai|]; [|eauto]. cbv zeta.
  destruct (negb (integer_valued _)); [eauto|]. destruct (negb _); [eauto|]. cbn. eauto.
Qed.
(** it does not even return for the identity, a doubling of the cell of a chain of one dimension *)
Theorem C153_supercell_refuted : ~ forall (rest : Z -> exn + Z) c, (0 < c)%Z -> (forall z, exists m, rest z = inr m) ->
  exists m, bsm_supercell Z Z (fun a => if Z.eqb a 0 then None else Some (1 / a)%Z) Z.mul (fun _ => 1%nat) (fun _ => true) rest (Some 1%nat) (Some 1%nat) 1%Z c = inr m.
Proof.
  intros C. destruct (C (fun z => inr z) 2%Z eq_refl (fun z => ex_intro _ z eq_refl)) as [m E].
  destruct (C153_raises Z Z (fun a => if Z.eqb a 0 then None else Some (1 / a)%Z) Z.mul (fun _ => 1%nat) (fun _ => true) (fun z => inr z) (Some 1%nat) (Some 1%nat) 1%Z 2%Z) as [e E'].
  rewrite E in E'. discriminate.
Qed.
Print Assumptions C153_supercell_refuted.
Example C153_ex : bsm_supercell Z Z (fun a => if Z.eqb a 0 then None else Some (1 / a)%Z) Z.mul (fun _ => 1%nat) (fun _ => true) (fun z => inr z) (Some 1%nat) (Some 1%nat) 1%Z 2%Z = inl AssertErr.
Proof. reflexivity. Qed.

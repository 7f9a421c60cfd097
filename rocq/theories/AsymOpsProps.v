(** Properties C131, C132: change of coordinates of a model, the identity series and the free electron model
    (tight_binding_asym.py). *)
From Coq Require Import List Arith ZArith Reals Lra Lia Bool Permutation.
From Coquelicot Require Import Coquelicot.
From Verif Require Import SRing LMat FMat CplxR UrepModel UrepProofs FourierModel FourierProofs BsmProofs SpecProofs FourierProps TbmProps
  Basel CosSeries AsymOpsModel.
Import List ListNotations.
Local Open Scope R_scope.

(* ------------------------------------------------------------------ *)
(** ** C131: transform *)
Definition mulT (n : nat) (A : fmat Rs) (k : rvec) : rvec := fun b => nsum (K:=Rs) n (fun a => A a b * k a).
Definition mulM (n : nat) (A : fmat Rs) (k : rvec) : rvec := fun a => nsum (K:=Rs) n (fun b => A a b * k b).

Lemma dot_rot n A k r : dot n k (rot n A r) = dot n (mulT n A k) r.
Proof.
  unfold dot, rot, mulT.
  transitivity (nsum (K:=Rs) n (fun a => nsum (K:=Rs) n (fun b => k a * A a b * r b))).
  { apply (nsum_ext Rs). intros a _. etransitivity; [symmetry; apply (nsum_mul_l Rs)|]. apply (nsum_ext Rs). intros b _. simpl. ring. }
  etransitivity; [apply (nsum_swap Rs)|]. apply (nsum_ext Rs). intros b _.
  etransitivity; [|apply (nsum_mul_r Rs)]. apply (nsum_ext Rs). intros a _. simpl. ring.
Qed.
Lemma rot_zero n A a : rot n A (fun _ => 0) a = 0.
Proof. unfold rot. apply (nsum_zero Rs). intros. simpl. ring. Qed.
Lemma nb_transform n A nbs l a : nb (map (rot n A) nbs) l a = rot n A (nb nbs l) a.
Proof.
  unfold nb. destruct (le_lt_dec (length nbs) l) as [H|H].
  - rewrite !nth_overflow by (try rewrite map_length; lia). symmetry. apply rot_zero.
  - rewrite (nth_indep _ _ (rot n A (fun _ => 0))) by (rewrite map_length; lia). rewrite map_nth. reflexivity.
Qed.
Lemma nsum_ext' n (f g : nat -> R) : (forall a, (a < n)%nat -> f a = g a) -> nsum (K:=Rs) n f = nsum (K:=Rs) n g.
Proof. apply (nsum_ext Rs). Qed.
Lemma dot_ext n k r r' : (forall a, (a < n)%nat -> r a = r' a) -> dot n k r = dot n k r'.
Proof. intros E. unfold dot. apply nsum_ext'. intros a Ha. rewrite E by exact Ha. reflexivity. Qed.
Lemma coef_transform n A nbs k l : fs_coef n (map (rot n A) nbs) k l = fs_coef n nbs (mulT n A k) l.
Proof.
  unfold fs_coef. f_equal. f_equal. rewrite <- dot_rot. apply dot_ext. intros a _. apply nb_transform.
Qed.

Theorem C131_transform : forall n h A k i j, wf_series n h ->
  wf_series n (fs_transform n A h) /\ fs_f n (fs_transform n A h) k i j = fs_f n h (mulT n A k) i j.
Proof.
  intros n h A k i j (L & N & Z). split.
  - split; [cbn; rewrite map_length; exact L|]. split; [exact N|]. intros a Ha. cbn [fs_transform hnb].
    rewrite nb_transform. unfold rot. apply (nsum_zero Rs). intros b Hb. rewrite (Z b Hb). simpl. ring.
  - unfold fs_f, fs_transform. cbn [hnb hH]. apply herm_series_ext.
    + intros l _. apply coef_transform.
    + destruct (hH h); [contradiction|cbn; lia].
Qed.
(** the gradient and the matrix of second derivatives transform with A *)
Lemma contract_series n (A : fmat Rs) a (c : nat -> nat -> cplx) (P : list cmat) i j :
  contract n (fun b => A a b) (fun b => herm_series (c b) P) i j =
  herm_series (fun l => csum (seq 0 n) (fun b => cmul (cre (A a b)) (c b l))) P i j.
Proof. unfold contract. symmetry. apply (herm_series_rlin (seq 0 n) (fun b => A a b) c P i j). Qed.
Lemma cre_rot n A r a : cre (rot n A r a) = csum (seq 0 n) (fun b => cmul (cre (A a b)) (cre (r b))).
Proof.
  unfold rot. rewrite cre_ksum. apply csum_ext. intros b _. rewrite cre_mul. reflexivity.
Qed.
Theorem C131_gradient : forall n h A k a i j, wf_series n h ->
  fs_df n (fs_transform n A h) k a i j = contract n (fun b => A a b) (fs_df n h (mulT n A k)) i j.
Proof.
  intros n h A k a i j (L & N & Z). unfold fs_df at 2. rewrite contract_series.
  unfold fs_df, fs_transform. cbn [hnb hH]. apply herm_series_ext.
  - intros l _. unfold fs_dcoef. rewrite coef_transform, nb_transform, cre_rot.
    etransitivity; [symmetry; apply (ksum_mul_l Cs)|]. apply csum_ext. intros b _. change (@smul Cs) with cmul. rg.
  - destruct (hH h); [contradiction|cbn; lia].
Qed.
Theorem C131_hessian : forall n h A k a c i j, wf_series n h ->
  fs_ddf n (fs_transform n A h) k a c i j =
  contract n (fun b => A a b) (fun b => contract n (fun e => A c e) (fun e => fs_ddf n h (mulT n A k) b e)) i j.
Proof.
  intros n h A k a c i j (L & N & Z). unfold fs_ddf at 2.
  transitivity (contract n (fun b => A a b) (fun b => herm_series (fun l => csum (seq 0 n) (fun e => cmul (cre (A c e)) (fs_ddcoef n (hnb h) (mulT n A k) b e l))) (hH h)) i j).
  2:{ unfold contract. apply csum_ext. intros b _. f_equal. symmetry. apply (contract_series n A c (fun e => fs_ddcoef n (hnb h) (mulT n A k) b e)). }
  rewrite contract_series. unfold fs_ddf, fs_transform. cbn [hnb hH]. apply herm_series_ext.
  - intros l _. unfold fs_ddcoef. cbv zeta. rewrite coef_transform, !nb_transform, cre_mul, !cre_rot.
    set (w := cmul (cmul _ _) (fs_coef _ _ _ _)).
    transitivity (csum (seq 0 n) (fun b => cmul (cre (A a b)) (cmul (cmul w (cre (nb (hnb h) l b))) (csum (seq 0 n) (fun e => cmul (cre (A c e)) (cre (nb (hnb h) l e))))))).
    + transitivity (cmul (csum (seq 0 n) (fun b => cmul (cre (A a b)) (cre (nb (hnb h) l b)))) (cmul w (csum (seq 0 n) (fun e => cmul (cre (A c e)) (cre (nb (hnb h) l e)))))); [rg|].
      etransitivity; [symmetry; apply (ksum_mul_r Cs)|]. apply csum_ext. intros b _. change (@smul Cs) with cmul. rg.
    + apply csum_ext. intros b _. f_equal. etransitivity; [symmetry; apply (ksum_mul_l Cs)|]. apply csum_ext. intros e _.
      change (@smul Cs) with cmul. rewrite cre_mul. rg.
  - destruct (hH h); [contradiction|cbn; lia].
Qed.
Theorem C131_energies : forall n d m A k E, wf_atb n m ->
  (atb_energies n d (atb_transform n A m) k E <-> atb_energies n d m (mulT n A k) E).
Proof.
  intros n d m A k E (WH & WS). unfold atb_energies.
  split; apply spectrum_proper; intros i j _ _; unfold atb_transform; cbn [tH tS];
    (rewrite (proj2 (C131_transform n _ A k i j WH)) || rewrite (proj2 (C131_transform n _ A k i j WS))); reflexivity.
Qed.
(** the use in the docstring: with the lattice vectors in the columns of A and the reciprocal ones in B (A^T B = 1), the transformed model
    at the reciprocal vector B q is the old model at the crystal coordinates q *)
Definition dual (n : nat) (A B : fmat Rs) : Prop := forall b c, (b < n)%nat -> (c < n)%nat ->
  nsum (K:=Rs) n (fun a => A a b * B a c) = if Nat.eqb b c then 1 else 0.
Theorem C131_crystal : forall n h A B q i j, wf_series n h -> dual n A B ->
  fs_f n (fs_transform n A h) (mulM n B q) i j = fs_f n h q i j.
Proof.
  intros n h A B q i j W D. rewrite (proj2 (C131_transform n h A (mulM n B q) i j W)).
  unfold fs_f. apply herm_series_ext; [|destruct W as (_ & N & _); destruct (hH h); [contradiction|cbn; lia]].
  intros l _. unfold fs_coef. f_equal. f_equal. unfold dot. apply (nsum_ext Rs). intros b Hb. f_equal.
  unfold mulT, mulM.
  transitivity (nsum (K:=Rs) n (fun c => nsum (K:=Rs) n (fun a => A a b * B a c) * q c)).
  - transitivity (nsum (K:=Rs) n (fun a => nsum (K:=Rs) n (fun c => A a b * B a c * q c))).
    + apply (nsum_ext Rs). intros a _. etransitivity; [symmetry; apply (nsum_mul_l Rs)|]. apply (nsum_ext Rs). intros c _. simpl. ring.
    + etransitivity; [apply (nsum_swap Rs)|]. apply (nsum_ext Rs). intros c _. apply (nsum_mul_r Rs).
  - transitivity (nsum (K:=Rs) n (fun c => if Nat.eqb c b then q b else 0)).
    + apply nsum_ext'. intros c Hc. rewrite (D b c Hb Hc). rewrite Nat.eqb_sym. destruct (Nat.eqb_spec c b) as [->|]; ring.
    + etransitivity; [apply (nsum_single Rs n b); [exact Hb|]|].
      * intros c Hc Ne. destruct (Nat.eqb_spec c b); [lia|reflexivity].
      * rewrite Nat.eqb_refl. reflexivity.
Qed.
(** a chain with lattice constant 2 *)
Example C131_ex : forall q, fs_f 1 (fs_transform 1 (fun _ _ => 2) chain_i) (rv1 (q / 2)) 0%nat 0%nat = (2 - 2 * sin (2 * PI * q), 0)
  /\ dual 1 (fun _ _ => 2) (fun _ _ => / 2).
Proof.
  intros q. split.
  - rewrite (proj2 (C131_transform 1 chain_i _ _ 0%nat 0%nat chain_i_wf)), chain_i_f.
    replace (mulT 1 (fun _ _ => 2) (rv1 (q / 2)) 0%nat) with q; [reflexivity|]. unfold mulT, nsum, rv1. simpl. change (@eq R q (2 * (q / 2) + 0)). field.
  - intros b c Hb Hc. assert (b = 0%nat) by lia. assert (c = 0%nat) by lia. subst. unfold nsum. simpl. field.
Qed.

(** ** unit_matrix is the identity at every k *)
Lemma zero_vec_spec n r : zero_vec n r = true <-> forall a, (a < n)%nat -> r a = 0.
Proof.
  unfold zero_vec. rewrite forallb_forall. split.
  - intros H a Ha. specialize (H a ltac:(apply in_seq; lia)). destruct (Req_EM_T (r a) 0); [assumption|discriminate].
  - intros H a Ha. apply in_seq in Ha. destruct (Req_EM_T (r a) 0) as [|N]; [reflexivity|exfalso; apply N, H; lia].
Qed.
Theorem C131_unit : forall n nbs,
  (fs_unit n nbs <> None <-> nbs <> [] /\ forall a, (a < n)%nat -> nb nbs 0 a = 0) /\
  forall u, fs_unit n nbs = Some u -> wf_series n u /\ hnb u = nbs /\
    forall k i j, fs_f n u k i j = if Nat.eqb i j then (1, 0) else (0, 0).
Proof.
  intros n nbs. split.
  - unfold fs_unit. destruct nbs as [|r rest]; [split; [congruence|intros [H _]; congruence]|].
    destruct (zero_vec n r) eqn:Z.
    + rewrite zero_vec_spec in Z. split; [intros _; split; [discriminate|exact Z]|discriminate].
    + split; [congruence|]. intros (_ & H). assert (zero_vec n r = true) by (apply zero_vec_spec; exact H). congruence.
  - intros u Hu. unfold fs_unit in Hu. destruct nbs as [|r rest]; [discriminate|].
    destruct (zero_vec n r) eqn:Z; [|discriminate]. inversion Hu; subst u; clear Hu. rewrite zero_vec_spec in Z.
    split; [|split; [reflexivity|]].
    + split; [cbn; rewrite map_length; reflexivity|]. split; [discriminate|]. exact Z.
    + intros k i j. unfold fs_f. cbn [hnb hH]. rewrite herm_join.
      rewrite (fs_coef_zero n (r :: rest) k 0 Z).
      assert (E : csum (seq 1 (length (fid (K:=Cs) :: map (fun _ => fzero (K:=Cs)) rest) - 1)) (fun l =>
         cadd (cmul (fs_coef n (r :: rest) k l) (nth l (fid (K:=Cs) :: map (fun _ => fzero (K:=Cs)) rest) fzero i j))
              (cmul (cconj (fs_coef n (r :: rest) k l)) (cconj (nth l (fid (K:=Cs) :: map (fun _ => fzero (K:=Cs)) rest) fzero j i)))) = (0, 0)).
      { apply (ksum_zero Cs). intros l Hl. apply in_seq in Hl. destruct l as [|l]; [lia|]. cbn [nth].
        assert (F : forall a b, nth l (map (fun _ : rvec => fzero (K:=Cs)) rest) fzero a b = (0, 0)).
        { intros a b. destruct (nth_in_or_default l (map (fun _ : rvec => fzero (K:=Cs)) rest) fzero) as [H|H].
          - apply in_map_iff in H. destruct H as (x & <- & _). reflexivity.
          - rewrite H. reflexivity. }
        rewrite !F. csolve. }
      rewrite E. cbn [nth]. unfold fid. destruct (Nat.eqb i j); csolve.
Qed.
Example C131_unit_ex : exists u, fs_unit 1 [rv1 0; rv1 1] = Some u /\ fs_unit 1 [rv1 1; rv1 0] = None.
Proof.
  destruct (C131_unit 1 [rv1 0; rv1 1]) as [[_ D] _]. destruct (C131_unit 1 [rv1 1; rv1 0]) as [[D' _] _].
  destruct (fs_unit 1 [rv1 0; rv1 1]) as [u|]; [|exfalso; apply D; [split; [discriminate|reflexivity]|reflexivity]].
  exists u. split; [reflexivity|]. destruct (fs_unit 1 [rv1 1; rv1 0]) as [v|]; [|reflexivity].
  exfalso. destruct D' as [_ H]; [discriminate|]. specialize (H 0%nat (Nat.lt_0_succ 0)). cbn in H. unfold rv1 in H. lra.
Qed.

(* ------------------------------------------------------------------ *)
(** ** C132: the free electron model *)
Lemma sum_paired {A} (g : A -> rvec) (h : A -> cmat) r0 h0 (L : list A) (F : rvec -> cmat -> cplx) :
  csum (seq 1 (length L)) (fun l => F (nth l (r0 :: map g L) (fun _ => 0)) (nth l (h0 :: map h L) fzero)) = csum L (fun p => F (g p) (h p)).
Proof.
  rewrite ksum_shift. destruct L as [|x L]; [reflexivity|].
  rewrite (ksum_nth (x :: L) x). apply csum_ext. intros l Hl. apply in_seq in Hl. cbn [Nat.add].
  change (nth (S l) (r0 :: map g (x :: L)) (fun _ => 0)) with (nth l (map g (x :: L)) (fun _ => 0)).
  change (nth (S l) (h0 :: map h (x :: L)) fzero) with (nth l (map h (x :: L)) fzero).
  rewrite (nth_indep _ _ (g x)) by (rewrite map_length; lia). rewrite (nth_indep (map h (x :: L)) _ (h x)) by (rewrite map_length; lia).
  rewrite !map_nth. reflexivity.
Qed.
Definition sum_axes (f : nat -> R) : R := f 0%nat + f 1%nat + f 2%nat.
Lemma sum_free (f : nat -> nat -> cplx) m : csum (free_indices (S m)) (fun p => f (fst p) (snd p)) =
  cadd (csum (free_indices m) (fun p => f (fst p) (snd p))) (cadd (cadd (f (S m) 0%nat) (f (S m) 1%nat)) (f (S m) 2%nat)).
Proof.
  unfold free_indices. rewrite seq_S, flat_map_app. rewrite (ksum_app Cs). change (@sadd Cs) with cadd. f_equal.
  cbn [flat_map app Nat.add]. cbn [ksum fst snd]. simpl. csolve.
Qed.
Lemma free_len m l (q : nat * nat) : In q (free_indices m) -> snd q = l -> (l < 3)%nat /\ (1 <= fst q <= m)%nat.
Proof.
  unfold free_indices. rewrite in_flat_map. intros (n & Hn & Hq) <-. apply in_seq in Hn. cbn in Hq.
  destruct Hq as [<- | [<- | [<- | []]]]; cbn; lia.
Qed.
Lemma dot_axis k i x : (i < 3)%nat -> dot 3 k (axis_vec i x) = k i * x.
Proof.
  intros Hi. unfold dot, axis_vec, nsum. destruct i as [|[|[|i]]]; [| | |lia]; simpl; ring.
Qed.
(** the value of the model: a real cosine sum *)
Lemma free_value a b c m k : a <> 0 -> b <> 0 -> c <> 0 ->
  fs_f 3 (free_series a b c m) k 0%nat 0%nat =
  (sum_axes (fun i => / (PI * edge a b c i) ^ 2 * (PI ^ 2 / 12 + csq m (2 * PI * (k i * edge a b c i)))), 0).
Proof.
  intros Ha Hb Hc. pose proof PI_RGT_0 as HP.
  unfold fs_f, free_series, free_neighbors, free_params. cbn [hnb hH]. rewrite herm_join. cbn [map]. rewrite map_map.
  set (g := fun p : nat * nat => axis_vec (snd p) (edge a b c (snd p) * INR (fst p))).
  set (h := fun p : nat * nat => fscale (K:=Cs) (cre (1 / (2 * PI) ^ 2)) (const1 (free_hop (edge a b c (snd p)) (fst p)))).
  set (h0 := fscale (K:=Cs) (cre (1 / (2 * PI) ^ 2)) (const1 (PI ^ 2 * (1 / a ^ 2 + 1 / b ^ 2 + 1 / c ^ 2) / 3))).
  replace (length (h0 :: map h (free_indices m)) - 1)%nat with (length (free_indices m)) by (cbn; rewrite map_length; lia).
  unfold fs_coef, nb.
  etransitivity; [apply (f_equal2 cadd); [apply (sum_paired g h (fun _ => 0) h0 (free_indices m)
     (fun r x => cadd (cmul (cexp (2 * PI * dot 3 k r)) (x 0%nat 0%nat)) (cmul (cconj (cexp (2 * PI * dot 3 k r))) (cconj (x 0%nat 0%nat)))))|reflexivity]|].
  cbn [nth].
  rewrite (dot_zero_r 3 k (fun _ => 0)) by reflexivity. rewrite Rmult_0_r, cexp_0.
  assert (S : csum (free_indices m) (fun p => cadd (cmul (cexp (2 * PI * dot 3 k (g p))) (h p 0%nat 0%nat)) (cmul (cconj (cexp (2 * PI * dot 3 k (g p)))) (cconj (h p 0%nat 0%nat)))) =
     (sum_axes (fun i => / (PI * edge a b c i) ^ 2 * csq m (2 * PI * (k i * edge a b c i))), 0)).
  { induction m as [|m IH].
    - cbn [free_indices flat_map seq csq ksum]. unfold sum_axes. apply cplx_eq; cbn; ring.
    - etransitivity; [apply (sum_free (fun n i => cadd (cmul (cexp (2 * PI * dot 3 k (axis_vec i (edge a b c i * INR n))))
        (fscale (K:=Cs) (cre (1 / (2 * PI) ^ 2)) (const1 (free_hop (edge a b c i) n)) 0%nat 0%nat))
        (cmul (cconj (cexp (2 * PI * dot 3 k (axis_vec i (edge a b c i * INR n)))))
        (cconj (fscale (K:=Cs) (cre (1 / (2 * PI) ^ 2)) (const1 (free_hop (edge a b c i) n)) 0%nat 0%nat)))))|].
      etransitivity; [apply (f_equal2 cadd); [exact IH|reflexivity]|]. rewrite !dot_axis by lia. cbn [csq]. unfold sum_axes, fscale, const1, free_hop, cexp.
      assert (N : INR (S m) <> 0) by (apply not_0_INR; lia).
      assert (P1 : forall i, 2 * PI * (k i * (edge a b c i * INR (S m))) = INR (S m) * (2 * PI * (k i * edge a b c i))) by (intros; ring).
      rewrite !P1. cbn [edge]. set (n := INR (S m)) in *. set (s := (-1) ^ S m).
      apply cplx_eq; cbn [fst snd cadd cmul cconj cre smul Cs]; field; repeat split; auto; lra. }
  rewrite S. unfold h0, fscale, const1. unfold sum_axes. cbn [edge].
  apply cplx_eq; cbn [fst snd cadd cmul cconj cre smul Cs]; field; repeat split; auto; lra.
Qed.

(** in the first Brillouin zone the energy tends to k^2 with the number of neighbors, with an error of order 1 / neighbor_count *)
Definition in_bz (a b c : R) (k : rvec) : Prop := Rabs (k 0%nat) <= / (2 * a) /\ Rabs (k 1%nat) <= / (2 * b) /\ Rabs (k 2%nat) <= / (2 * c).
Theorem C132_free_electrons : forall a b c k, 0 < a -> 0 < b -> 0 < c -> in_bz a b c k ->
  exists M, forall m, (1 <= m)%nat ->
    snd (fs_f 3 (free_series a b c m) k 0%nat 0%nat) = 0 /\
    Rabs (fst (fs_f 3 (free_series a b c m) k 0%nat 0%nat) - (k 0%nat ^ 2 + k 1%nat ^ 2 + k 2%nat ^ 2)) <= M / INR m.
Proof.
  intros a b c k Ha Hb Hc BZ. pose proof PI_RGT_0 as HP.
  assert (Ex : forall i, (i < 3)%nat -> exists M, forall m, (1 <= m)%nat ->
     Rabs (/ (PI * edge a b c i) ^ 2 * (PI ^ 2 / 12 + csq m (2 * PI * (k i * edge a b c i))) - k i ^ 2) <= M / INR m).
  { intros i Hi. assert (He : 0 < edge a b c i) by (destruct i as [|[|i]]; cbn; assumption).
    assert (Hk : Rabs (k i) <= / (2 * edge a b c i)) by (destruct BZ as (? & ? & ?), i as [|[|[|i]]]; [assumption..|lia]).
    set (e := edge a b c i) in *. set (x := 2 * PI * (k i * e)).
    assert (Hx : Rabs x <= PI).
    { unfold x. rewrite !Rabs_mult, (Rabs_right 2), (Rabs_right PI), (Rabs_right e) by lra.
      assert (Rabs (k i) * e <= / (2 * e) * e) by (apply Rmult_le_compat_r; lra).
      replace (/ (2 * e) * e) with (/ 2) in H by (field; lra). nra. }
    destruct (csq_rate x Hx) as (M & B). exists (/ (PI * e) ^ 2 * M). intros m Hm. specialize (B m Hm).
    assert (Q : 0 < / (PI * e) ^ 2) by (apply Rinv_0_lt_compat, pow_lt; nra).
    replace (/ (PI * e) ^ 2 * (PI ^ 2 / 12 + csq m x) - k i ^ 2) with (/ (PI * e) ^ 2 * (csq m x - (x ^ 2 / 4 - PI ^ 2 / 12))) by (unfold x; field; lra).
    rewrite Rabs_mult, (Rabs_right (/ (PI * e) ^ 2)) by lra. replace (/ (PI * e) ^ 2 * M / INR m) with (/ (PI * e) ^ 2 * (M / INR m)) by (unfold Rdiv; ring). apply Rmult_le_compat_l; [lra|exact B]. }
  destruct (Ex 0%nat ltac:(lia)) as (M0 & B0). destruct (Ex 1%nat ltac:(lia)) as (M1 & B1). destruct (Ex 2%nat ltac:(lia)) as (M2 & B2).
  exists (M0 + M1 + M2). intros m Hm. rewrite free_value by lra. cbn [fst snd]. split; [reflexivity|].
  specialize (B0 m Hm). specialize (B1 m Hm). specialize (B2 m Hm). unfold sum_axes.
  assert (Pm : 0 < INR m) by (apply lt_0_INR; lia).
  replace ((M0 + M1 + M2) / INR m) with (M0 / INR m + M1 / INR m + M2 / INR m) by (field; lra).
  match goal with |- Rabs (?x + ?y + ?z - (?p + ?q + ?r)) <= _ => replace (x + y + z - (p + q + r)) with ((x - p) + (y - q) + (z - r)) by ring end.
  eapply Rle_trans; [apply Rabs_triang|]. eapply Rle_trans; [apply Rplus_le_compat_r, Rabs_triang|]. lra.
Qed.

(** with one neighbor and unit cell, at k = (1/2, 0, 0): the energy 1/4 - 1/pi^2 against 1/4 *)
Example C132_ex : in_bz 1 1 1 (axis_vec 0 (/ 2)) /\
  fs_f 3 (free_series 1 1 1 1) (axis_vec 0 (/ 2)) 0%nat 0%nat = (1 / 4 - 1 / PI ^ 2, 0).
Proof.
  pose proof PI_RGT_0 as HP. split.
  - unfold in_bz, axis_vec. cbn. rewrite Rabs_R0, Rabs_right by lra. lra.
  - rewrite free_value by lra. unfold sum_axes, axis_vec. cbn [edge csq Nat.eqb INR pow].
    replace (1 * (2 * PI * (/ 2 * 1))) with PI by field. replace (1 * (2 * PI * (0 * 1))) with 0 by ring.
    rewrite cos_PI, cos_0. apply cplx_eq; cbn [fst snd]; [|reflexivity]. field. lra.
Qed.

(** "H(k) = k^2" has the constant second derivative 2; at k = 0 that of the model is 4 for an odd and 0 for an even number of neighbors,
    so it does not approach any value (the comment above the function even says 1) *)
Fixpoint alt_sum (m : nat) : R := match m with O => 0 | S j => alt_sum j + (-1) ^ S j end.
Lemma alt_sum_val : forall m, alt_sum m = if Nat.even m then 0 else -1.
Proof.
  induction m; [reflexivity|]. cbn [alt_sum]. rewrite IHm, Nat.even_succ, <- Nat.negb_even.
  destruct (Nat.even m) eqn:E; cbn [negb].
  - apply Nat.even_spec in E. destruct E as [q ->]. rewrite pow_1_odd. ring.
  - assert (O : Nat.odd m = true) by (rewrite <- Nat.negb_even, E; reflexivity). apply Nat.odd_spec in O. destruct O as [q ->].
    replace (S (2 * q + 1)) with (2 * (S q))%nat by lia. rewrite pow_1_even. ring.
Qed.
Lemma free_hess0 a b c m : a <> 0 -> b <> 0 -> c <> 0 ->
  fs_ddf 3 (free_series a b c m) (fun _ => 0) 0%nat 0%nat 0%nat 0%nat = (- 4 * alt_sum m, 0).
Proof.
  intros Ha Hb Hc. pose proof PI_RGT_0 as HP.
  unfold fs_ddf, free_series, free_neighbors, free_params. cbn [hnb hH]. rewrite herm_join. cbn [map]. rewrite map_map.
  set (g := fun p : nat * nat => axis_vec (snd p) (edge a b c (snd p) * INR (fst p))).
  set (h := fun p : nat * nat => fscale (K:=Cs) (cre (1 / (2 * PI) ^ 2)) (const1 (free_hop (edge a b c (snd p)) (fst p)))).
  set (h0 := fscale (K:=Cs) (cre (1 / (2 * PI) ^ 2)) (const1 (PI ^ 2 * (1 / a ^ 2 + 1 / b ^ 2 + 1 / c ^ 2) / 3))).
  replace (length (h0 :: map h (free_indices m)) - 1)%nat with (length (free_indices m)) by (cbn; rewrite map_length; lia).
  unfold fs_ddcoef, fs_coef, nb. cbv zeta. set (w := cmul (cmul (cre 2) (cmul ci (cre PI))) (cmul (cre 2) (cmul ci (cre PI)))).
  set (G := fun (r : rvec) (x : cmat) => cadd (cmul (cmul (cmul w (cexp (2 * PI * dot 3 (fun _ => 0) r))) (cre (r 0%nat * r 0%nat))) (x 0%nat 0%nat))
     (cmul (cconj (cmul (cmul w (cexp (2 * PI * dot 3 (fun _ => 0) r))) (cre (r 0%nat * r 0%nat)))) (cconj (x 0%nat 0%nat)))).
  etransitivity; [apply (f_equal2 cadd); [apply (sum_paired g h (fun _ => 0) h0 (free_indices m) G)|reflexivity]|].
  assert (D0 : forall r, dot 3 (fun _ => 0) r = 0) by (intros r; unfold dot; apply (nsum_zero Rs); intros; simpl; ring).
  assert (S : csum (free_indices m) (fun p => G (g p) (h p)) = (- 4 * alt_sum m, 0)).
  { induction m as [|m IH].
    - apply cplx_eq; cbn; ring.
    - etransitivity; [apply (sum_free (fun n i => G (axis_vec i (edge a b c i * INR n)) (fscale (K:=Cs) (cre (1 / (2 * PI) ^ 2)) (const1 (free_hop (edge a b c i) n)))))|].
      etransitivity; [apply (f_equal2 cadd); [exact IH|reflexivity]|].
      unfold G, axis_vec. rewrite !D0, Rmult_0_r, cexp_0. cbn [Nat.eqb edge alt_sum].
      assert (N : INR (S m) <> 0) by (apply not_0_INR; lia). unfold fscale, const1, free_hop, w, ci.
      set (n := INR (S m)) in *. set (s := (-1) ^ S m).
      apply cplx_eq; cbn [fst snd cadd cmul cconj cre smul Cs]; field; repeat split; auto; lra. }
  rewrite S. cbn [nth]. apply cplx_eq; cbn; ring.
Qed.
Theorem C132_hessian_refuted : ~ (forall a b c eps, 0 < a -> 0 < b -> 0 < c -> 0 < eps -> exists m0, forall m, (m0 <= m)%nat ->
   Rabs (fst (fs_ddf 3 (free_series a b c m) (fun _ => 0) 0%nat 0%nat 0%nat 0%nat) - 2) <= eps).
Proof.
  intros H. destruct (H 1 1 1 1 ltac:(lra) ltac:(lra) ltac:(lra) ltac:(lra)) as (m0 & B).
  specialize (B (2 * m0)%nat ltac:(lia)). rewrite free_hess0 in B by lra. rewrite alt_sum_val, Nat.even_mul in B. cbn [Nat.even orb fst] in B.
  rewrite Rabs_left in B; lra.
Qed.
(** so the effective mass from the model at the bottom of the band is infinite or half of that of the free electron *)
Theorem C132_hessian : forall a b c m, 0 < a -> 0 < b -> 0 < c ->
  fs_ddf 3 (free_series a b c m) (fun _ => 0) 0%nat 0%nat 0%nat 0%nat = (if Nat.even m then 0 else 4, 0).
Proof. intros. rewrite free_hess0, alt_sum_val by lra. destruct (Nat.even m); apply cplx_eq; cbn; ring. Qed.

Print Assumptions C131_transform.
Print Assumptions C131_gradient.
Print Assumptions C131_hessian.
Print Assumptions C131_energies.
Print Assumptions C131_crystal.
Print Assumptions C131_unit.
Print Assumptions C132_free_electrons.
Print Assumptions C132_hessian.
Print Assumptions C132_hessian_refuted.

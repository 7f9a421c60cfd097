(** * Properties of bulk_properties.py *)
From Coq Require Import Reals List ZArith Bool Lra Lia Setoid Morphisms Permutation Sorted.
From Coquelicot Require Import Coquelicot.
From Verif Require Import SRing CplxR FMat NbrModel SmearCalc SmearProps DosModel DosProps DosMore BulkModel.
Import List ListNotations.
Local Open Scope R_scope.

(** ** C51: linear response

    The currents caused by the field [E] and the temperature gradient [G]:
    j_e = L0 E - L1 G/T and j_Q = L1 E - L2 G/T; vectors are matrices with one
    column. *)
Definition inverses (n : nat) (a b : mat) : Prop :=
  feq (K:=Rs) n n (fmul n a b) fid /\ feq (K:=Rs) n n (fmul n b a) fid.
Definition veq (n : nat) (a b : mat) : Prop := feq (K:=Rs) n 1 a b.
Definition vneg (v : mat) : mat := fscale (K:=Rs) (-1) v.
Definition current (n : nat) (La Lb : mat) (T : R) (E G : mat) : mat :=
  fadd (K:=Rs) (fmul n La E) (fscale (K:=Rs) (/ T) (vneg (fmul n Lb G))).
Definition zerov : mat := fzero (K:=Rs).

Add Ring Rsring : (s_rt Rs).
Lemma neg_scale : forall n m c (a : mat), feq (K:=Rs) n m (fscale (K:=Rs) c (vneg a)) (vneg (fscale (K:=Rs) c a)).
Proof. intros n m c a i j _ _. unfold fscale, vneg, fscale. cbn. ring. Qed.

(** matrices that act equally on every vector are equal *)
Lemma vec_ext : forall n (X Y : mat), (forall v, veq n (fmul n X v) (fmul n Y v)) -> feq (K:=Rs) n n X Y.
Proof.
  intros n X Y H i j Hi Hj.
  pose proof (H (fun a _ => fid (K:=Rs) a j) i 0%nat Hi ltac:(lia)) as e.
  pose proof (fmul_id_r (K:=Rs) n n X i j Hi Hj) as ex. pose proof (fmul_id_r (K:=Rs) n n Y i j Hi Hj) as ey.
  unfold fmul in *. cbn beta in e. rewrite <- ex, <- ey. exact e.
Qed.
Lemma zero_cur : forall n (La Lb : mat) T E, veq n (current n La Lb T E zerov) (fmul n La E).
Proof.
  intros n La Lb T E. unfold veq, current, vneg, zerov. rewrite (fmul_zero_r n n 1), !fscale_0.
  intros i j _ _. unfold fadd, fzero. cbn. ring.
Qed.
(** the field that stops the current *)
Lemma stop_iff : forall n (L0 L1 V : mat) T E G, inverses n L0 V ->
  (veq n (current n L0 L1 T E G) zerov <-> veq n E (fmul n (seebeck n L1 V T) G)).
Proof.
  intros n L0 L1 V T E G [a b]. unfold veq, seebeck. split.
  - intro H.
    assert (HL : feq (K:=Rs) n 1 (fmul n L0 E) (fscale (K:=Rs) (/ T) (fmul n L1 G))).
    { intros i j Hi Hj. specialize (H i j Hi Hj). unfold current, vneg, fadd, fscale, zerov, fzero in *. cbn in *. lra. }
    rewrite <- (fmul_id_l n 1 E), <- b, <- (fmul_assoc n n n 1), HL, (fmul_scale_r n n 1), (fmul_scale_l n n 1), <- (fmul_assoc n n n 1).
    reflexivity.
  - intro H. unfold current. rewrite H, (fmul_scale_l n n 1), (fmul_scale_r n n 1), (fmul_assoc n n n 1), (fmul_assoc n n n n), a, (fmul_id_l n n).
    intros i j _ _. unfold vneg, fadd, fscale, zerov, fzero. cbn. ring.
Qed.

(** sigma is the only matrix with j_e = sigma E at constant temperature *)
Theorem C51_conductivity : forall n (L0 L1 X : mat) T,
  feq (K:=Rs) n n X (conductivity L0) <-> forall E, veq n (current n L0 L1 T E zerov) (fmul n X E).
Proof.
  intros n L0 L1 X T. unfold conductivity. split.
  - intros H E. unfold veq. rewrite H. apply zero_cur.
  - intros H. apply vec_ext. intro v. unfold veq. rewrite <- (H v). apply zero_cur.
Qed.
(** the Peltier tensor is the only matrix with j_Q = P j_e at constant temperature *)
Theorem C51_peltier : forall n (L0 L1 L2 V X : mat) T, inverses n L0 V ->
  (feq (K:=Rs) n n X (peltier n L1 V) <->
   forall E, veq n (current n L1 L2 T E zerov) (fmul n X (current n L0 L1 T E zerov))).
Proof.
  intros n L0 L1 L2 V X T [a b]. unfold peltier. split.
  - intros H E. unfold veq. pose proof (zero_cur n L0 L1 T E) as z. unfold veq in z. rewrite z, H.
    rewrite <- (fmul_assoc n n n 1), (fmul_assoc n n n 1 V), b, (fmul_id_l n 1). apply zero_cur.
  - intro H. apply vec_ext. intro v. unfold veq. pose proof (H (fmul n V v)) as h. unfold veq in h.
    pose proof (zero_cur n L0 L1 T (fmul n V v)) as z. pose proof (zero_cur n L1 L2 T (fmul n V v)) as z'. unfold veq in z, z'.
    rewrite z, z' in h. rewrite (fmul_assoc n n n 1 L0), a, (fmul_id_l n 1) in h. rewrite <- h. apply fmul_assoc.
Qed.
(** the Seebeck tensor is the only matrix with E = S grad T without current *)
Theorem C51_seebeck : forall n (L0 L1 V X : mat) T, inverses n L0 V ->
  (feq (K:=Rs) n n X (seebeck n L1 V T) <->
   forall E G, veq n (current n L0 L1 T E G) zerov -> veq n E (fmul n X G)).
Proof.
  intros n L0 L1 V X T I. split.
  - intros H E G j. unfold veq. rewrite H. apply (proj1 (stop_iff n L0 L1 V T E G I) j).
  - intro H. apply vec_ext. intro v. unfold veq. symmetry. apply H. apply (proj2 (stop_iff n L0 L1 V T _ v I)).
    unfold veq. reflexivity.
Qed.
(** kappa is the only matrix with j_Q = kappa (- grad T) without current *)
Theorem C51_thermal : forall n (L0 L1 L2 V X : mat) T, inverses n L0 V ->
  (feq (K:=Rs) n n X (thermal_conductivity n L1 L2 V T) <->
   forall E G, veq n (current n L0 L1 T E G) zerov -> veq n (current n L1 L2 T E G) (fmul n X (vneg G))).
Proof.
  intros n L0 L1 L2 V X T I.
  assert (K : forall E G, veq n (current n L0 L1 T E G) zerov ->
     veq n (current n L1 L2 T E G) (fmul n (thermal_conductivity n L1 L2 V T) (vneg G))).
  { intros E G j. apply (proj1 (stop_iff n L0 L1 V T E G I)) in j. unfold veq in *. unfold current. rewrite j.
    unfold thermal_conductivity, vneg, seebeck.
    rewrite !(fmul_scale_l n n 1), !(fmul_scale_r n n 1), (fmul_add_l n n 1), !(fmul_scale_l n n 1), (fmul_assoc n n n 1), (fmul_assoc n n n n).
    intros i c _ _. unfold fadd, fscale. cbn. ring. }
  split.
  - intros H E G j. unfold veq. rewrite H. apply K, j.
  - intro H. apply vec_ext. intro v. unfold veq.
    pose proof (proj2 (stop_iff n L0 L1 V T (fmul n (seebeck n L1 V T) v) v I) ltac:(unfold veq; reflexivity)) as z.
    pose proof (H _ _ z) as h. pose proof (K _ _ z) as k. unfold veq in h, k. rewrite h in k.
    intros i c Hi Hc. specialize (k i c Hi Hc). unfold vneg in k.
    rewrite (fmul_scale_r n n 1 _ X v i c Hi Hc), (fmul_scale_r n n 1 _ _ v i c Hi Hc) in k. unfold fscale in k. cbn in k.
    cbn. lra.
Qed.
(** Kelvin: P = T S^T for symmetric L0 and L1 *)
Theorem C51_kelvin : forall n (L0 L1 V : mat) T, T <> 0 -> inverses n L0 V ->
  feq (K:=Rs) n n (fadj L0) L0 -> feq (K:=Rs) n n (fadj L1) L1 ->
  feq (K:=Rs) n n (peltier n L1 V) (fscale (K:=Rs) T (fadj (seebeck n L1 V T))).
Proof.
  intros n L0 L1 V T HT [a b] s0 s1. unfold peltier, seebeck.
  assert (sV : feq (K:=Rs) n n (fadj V) V).
  { rewrite <- (fmul_id_l n n (fadj V)), <- b, <- (fmul_assoc n n n n).
    rewrite <- s0 at 1. rewrite <- (fadj_mul n n n V L0), b, (fadj_id n). apply fmul_id_r. }
  rewrite (fadj_scale n n), (fadj_mul n n n), sV, s1, (fscale_mul n n).
  intros i j _ _. unfold fscale. generalize (fmul n L1 V i j). intro x. change (x = T * / T * x). rewrite Rinv_r by exact HT. apply eq_sym, Rmult_1_l.
Qed.
Print Assumptions C51_conductivity.
Print Assumptions C51_peltier.
Print Assumptions C51_seebeck.
Print Assumptions C51_thermal.
Print Assumptions C51_kelvin.
(** a two dimensional example: the Seebeck tensor of L0 = [[2,1],[1,1]], L1 = [[1,0],[0,3]] at T = 2 *)
Definition m22 (a b c d : R) : mat := fun i j =>
  match i, j with 0%nat, 0%nat => a | 0%nat, _ => b | _, 0%nat => c | _, _ => d end.
Example C51_ex : inverses 2 (m22 2 1 1 1) (m22 1 (-1) (-1) 2) /\
  feq (K:=Rs) 2 2 (fadj (m22 2 1 1 1)) (m22 2 1 1 1) /\
  feq (K:=Rs) 2 2 (seebeck 2 (m22 1 0 0 3) (m22 1 (-1) (-1) 2) 2) (m22 (1 / 2) (- (3 / 2)) (- (1 / 2)) 3) /\
  feq (K:=Rs) 2 2 (peltier 2 (m22 1 0 0 3) (m22 1 (-1) (-1) 2)) (m22 1 (-1) (-3) 6).
Proof.
  repeat split; intros i j Hi Hj; destruct i as [|[|i]]; try lia; destruct j as [|[|j]]; try lia; cbn; lra.
Qed.

(** ** C56: free electrons *)
Lemma sorted_perm_eq : forall l l', StronglySorted Rle l -> StronglySorted Rle l' -> Permutation l l' -> l = l'.
Proof.
  induction l as [|x l IH]; intros l' S S' P.
  - apply Permutation_nil in P. subst. reflexivity.
  - destruct l' as [|y r]. { symmetry in P. apply Permutation_nil in P. discriminate. }
    inversion S as [|? ? Sl F]; subst. inversion S' as [|? ? Sr F']; subst.
    rewrite Forall_forall in F, F'.
    assert (x = y).
    { apply Rle_antisym.
      - assert (i : In y (x :: l)) by (apply (Permutation_in y (Permutation_sym P)); left; reflexivity).
        destruct i as [->|i]; [lra|apply F, i].
      - assert (i : In x (y :: r)) by (apply (Permutation_in x P); left; reflexivity).
        destruct i as [->|i]; [lra|apply F', i]. }
    subst. f_equal. apply IH; auto. apply Permutation_cons_inv in P. exact P.
Qed.
Lemma Rleb_f : forall x y, y < x -> Rleb x y = false.
Proof. intros x y H. unfold Rleb. destruct (Rle_dec x y); [lra|reflexivity]. Qed.
Lemma pinsert_perm {A} : forall (x : R * A) l, Permutation (x :: l) (pinsert x l).
Proof.
  induction l as [|y l IH]; cbn [pinsert]; [reflexivity|].
  destruct (Rleb (fst x) (fst y)); [reflexivity|]. rewrite perm_swap. apply perm_skip, IH.
Qed.
Lemma psort_perm {A} : forall (l : list (R * A)), Permutation l (psort l).
Proof. induction l as [|x l IH]; cbn [psort]; [constructor|]. rewrite IH at 1. apply pinsert_perm. Qed.
Lemma pinsert_fst {A} : forall (x : R * A) l, map fst (pinsert x l) = rinsert (fst x) (map fst l).
Proof.
  induction l as [|y l IH]; [reflexivity|]. cbn [pinsert map rinsert].
  destruct (Rleb (fst x) (fst y)); cbn [map]; [reflexivity|rewrite IH; reflexivity].
Qed.
Lemma psort_fst {A} : forall (l : list (R * A)), map fst (psort l) = rsort (map fst l).
Proof. induction l as [|x l IH]; [reflexivity|]. cbn [psort map rsort]. rewrite pinsert_fst, IH. reflexivity. Qed.
Lemma limit_map {A B} (f : A -> B) : forall lim l, limit_list lim (map f l) = map f (limit_list lim l).
Proof. intros [[|n]|] l; cbn [limit_list]; auto. apply firstn_map. Qed.
Lemma limit_split {A} : forall lim (l : list A), exists rest, l = limit_list lim l ++ rest.
Proof.
  intros [[|n]|] l; cbn [limit_list].
  - exists []. rewrite app_nil_r. reflexivity.
  - exists (skipn (S n) l). rewrite firstn_skipn. reflexivity.
  - exists []. rewrite app_nil_r. reflexivity.
Qed.
Lemma fe_fac_pos : 0 < fe_fac.
Proof. unfold fe_fac. pose proof PI_RGT_0. apply Rmult_lt_0_compat; [lra|]. apply pow_lt. lra. Qed.
Lemma sorted_scale : forall c l, 0 <= c -> StronglySorted Rle l -> StronglySorted Rle (map (Rmult c) l).
Proof.
  intros c l Hc S. induction S as [|x l S IH F]; cbn [map]; constructor; auto.
  rewrite Forall_forall in *. intros y H. apply in_map_iff in H. destruct H as [z [<- H]].
  apply Rmult_le_compat_l; auto.
Qed.
Lemma sorted_app : forall l r, StronglySorted Rle (l ++ r) -> StronglySorted Rle l /\ forall a b, In a l -> In b r -> a <= b.
Proof.
  induction l as [|x l IH]; intros r S; cbn [app] in *.
  - split; [constructor|]. intros a b [].
  - inversion S as [|? ? S' F]; subst. destruct (IH r S') as [Sl L]. rewrite Forall_forall in F. split.
    + constructor; auto. apply Forall_forall. intros y H. apply F, in_or_app. auto.
    + intros a b [->|H] Hb; [apply F, in_or_app; auto|apply L; auto].
Qed.
Lemma limit_length {A} : forall lim (l : list A), length (limit_list lim l) =
  match lim with None | Some O => length l | Some n => Nat.min n (length l) end.
Proof. intros [[|n]|] l; cbn [limit_list]; auto. apply firstn_length. Qed.

(** __call__ returns in ascending order the lowest of the energies fac |k-g|^2;
    all of them without limit (or with limit 0) *)
Theorem C56_energies : forall gs lim k, let r := fe_call gs lim k in
  StronglySorted Rle r /\
  length r = match lim with None | Some O => length gs | Some n => Nat.min n (length gs) end /\
  exists rest, Permutation (map (fun g => fe_fac * ((k 0%nat - g 0%nat) ^ 2 + (k 1%nat - g 1%nat) ^ 2 + (k 2%nat - g 2%nat) ^ 2)) gs) (r ++ rest) /\
    forall a b, In a r -> In b rest -> a <= b.
Proof.
  intros gs lim k r. unfold r, fe_call, fe_norm2, sum3.
  set (l := map _ gs).
  destruct (limit_split lim (rsort l)) as [rest e].
  pose proof (rsort_sorted l) as S. rewrite e in S. apply sorted_app in S. destruct S as [S L].
  split; [exact S|]. split.
  - rewrite limit_length, <- (Permutation_length (rsort_perm l)). unfold l. rewrite map_length. reflexivity.
  - exists rest. split; [|exact L]. rewrite <- e. apply rsort_perm.
Qed.
(** the energies are hbar^2 |2 pi (k - g) / Angstrom|^2 / (2 m_e) in eV, with the
    constants of CODATA 2018 and a relative error below 10^-7 *)
Theorem C56_unit : forall g k, exists E, fe_call [g] None k = [E] /\
  let hb := 1054571817 / 10 ^ 43 in
  let me := 91093837015 / 10 ^ 41 in
  let ev := 1602176634 / 10 ^ 28 in
  let q := fun i => 2 * PI * (k i - g i) * 10 ^ 10 in
  let F := hb ^ 2 * (q 0%nat ^ 2 + q 1%nat ^ 2 + q 2%nat ^ 2) / (2 * me) / ev in
  Rabs (E - F) <= / 10 ^ 7 * F.
Proof.
  intros g k. eexists. split; [reflexivity|]. cbv zeta beta.
  unfold fe_fac, fe_norm2, sum3. pose proof PI_RGT_0 as P.
  set (X := (2 * PI) ^ 2 * ((k 0%nat - g 0%nat) ^ 2 + (k 1%nat - g 1%nat) ^ 2 + (k 2%nat - g 2%nat) ^ 2)).
  assert (HX : 0 <= X) by (unfold X; apply Rmult_le_pos; [apply pow2_ge_0|]; repeat apply Rplus_le_le_0_compat; apply pow2_ge_0).
  set (c := 1054571817 ^ 2 * 10 ^ 3 / (2 * 91093837015 * 1602176634)).
  match goal with |- Rabs (?e - ?f) <= _ => assert (He : e = 380998211 / 10 ^ 8 * X) by (unfold X; ring);
    assert (Hf : f = c * X) by (unfold X, c; field) end.
  rewrite He, Hf.
  assert (Hc : Rabs (380998211 / 10 ^ 8 - c) <= / 10 ^ 7 * c) by (unfold c; apply Rabs_le; split; lra).
  replace (380998211 / 10 ^ 8 * X - c * X) with ((380998211 / 10 ^ 8 - c) * X) by ring.
  rewrite Rabs_mult, (Rabs_right X) by lra. rewrite <- Rmult_assoc. apply Rmult_le_compat_r; assumption.
Qed.
(** bands_grad returns the same energies *)
Theorem C56_same_bands : forall gs lim k, map fst (fe_bands_grad gs lim k) = fe_call gs lim k.
Proof.
  intros gs lim k. unfold fe_bands_grad, fe_call.
  rewrite map_map. cbn [fst]. rewrite <- (map_map fst (Rmult fe_fac)), <- !limit_map, psort_fst, map_map. cbn [fst].
  rewrite <- (map_map (fe_norm2 k) (Rmult fe_fac)). f_equal.
  apply sorted_perm_eq.
  - apply sorted_scale; [pose proof fe_fac_pos; lra|apply rsort_sorted].
  - apply rsort_sorted.
  - rewrite <- (rsort_perm (map (Rmult fe_fac) _)). apply Permutation_map. symmetry. apply rsort_perm.
Qed.
(** every returned band belongs to a neighbor of its own and its gradient is
    the gradient of the parabola of this neighbor *)
Definition upd (k : nat -> R) (i : nat) (t : R) : nat -> R := fun j => if Nat.eqb j i then t else k j.
Theorem C56_gradients : forall gs lim k, exists gs' rest, Permutation gs (gs' ++ rest) /\
  Forall2 (fun p g => fst p = fe_fac * fe_norm2 k g /\
     forall i, (i < 3)%nat -> is_derive (fun t : R => fe_fac * fe_norm2 (upd k i t) g) (k i) (snd p i))
    (fe_bands_grad gs lim k) gs'.
Proof.
  intros gs lim k. unfold fe_bands_grad.
  set (f := fun g : nat -> R => (fe_norm2 k g, fun i => 2 * (k i - g i))).
  destruct (Permutation_map_inv f gs (Permutation_sym (psort_perm (map f gs)))) as [gs' [e P]].
  destruct (limit_split lim gs') as [rest e'].
  exists (limit_list lim gs'), rest. split; [rewrite <- e'; exact P|].
  rewrite e, limit_map, map_map. clear. induction (limit_list lim gs') as [|g l IH]; cbn [map]; constructor; auto.
  unfold f. cbn [fst snd]. split; [reflexivity|]. intros i Hi. unfold fe_norm2, sum3, upd.
  destruct i as [|[|[|i]]]; try lia; cbn [Nat.eqb]; auto_derive; auto; ring.
Qed.
Print Assumptions C56_energies.
Print Assumptions C56_same_bands.
Print Assumptions C56_gradients.
(** at k = 0.6 the second neighbor has the lower band *)
Definition ax (x : R) : nat -> R := fun i => match i with O => x | _ => 0 end.
Print Assumptions C56_unit.
Example C56_unit_ex : exists E, fe_call [ax 0] None (ax 1) = [E] /\ 137 < E.
Proof.
  eexists. split; [reflexivity|]. unfold fe_fac, fe_norm2, sum3, ax. cbn [Nat.eqb]. pose proof PI2_3_2.
  assert (36 < (2 * PI) ^ 2) by nra. nra.
Qed.
Example C56_ex : fe_bands_grad [ax 0; ax 1] (Some 1%nat) (ax (6 / 10)) = [(fe_fac * fe_norm2 (ax (6/10)) (ax 1), fun i => fe_fac * (2 * (ax (6/10) i - ax 1 i)))]
  /\ fe_norm2 (ax (6/10)) (ax 1) = 16 / 100.
Proof.
  split; [|unfold fe_norm2, sum3, ax; field].
  unfold fe_bands_grad. cbn [map psort pinsert fst].
  rewrite (Rleb_f (fe_norm2 (ax (6 / 10)) (ax 0))) by (unfold fe_norm2, sum3, ax; lra). reflexivity.
Qed.

(** ** C75-C78: the integrals over the Fermi surface *)
Lemma lsum_ext {A} : forall (l : list A) f g, (forall x, In x l -> f x = g x) -> lsum l f = lsum l g.
Proof.
  induction l as [|x l IH]; intros f g H; [reflexivity|]. unfold lsum. cbn [fold_right]. rewrite (H x) by (left; reflexivity).
  f_equal. apply IH. intros y Hy. apply H. right. exact Hy.
Qed.
Lemma lsum_lin {A} : forall (l : list A) f g c, lsum l (fun x => f x + c * g x) = lsum l f + c * lsum l g.
Proof. induction l as [|x l IH]; intros f g c; unfold lsum in *; cbn [fold_right]; [ring|]. rewrite IH. ring. Qed.
Lemma lsum_nonneg {A} : forall (l : list A) f, (forall x, In x l -> 0 <= f x) -> 0 <= lsum l f.
Proof.
  induction l as [|x l IH]; intros f H; unfold lsum in *; cbn [fold_right]; [lra|].
  pose proof (H x (or_introl eq_refl)). assert (0 <= fold_right (fun x s => f x + s) 0 l) by (apply IH; intros; apply H; right; assumption). lra.
Qed.
Lemma lsum_map {A B} (h : A -> B) : forall l f, lsum (map h l) f = lsum l (fun x => f (h x)).
Proof. induction l as [|x l IH]; intro f; unfold lsum in *; cbn [fold_right map]; [reflexivity|]. rewrite IH. reflexivity. Qed.
Lemma idf_ext : forall sf ws mu a f g, (forall p, f p = g p) -> integrate_df sf ws mu a f = integrate_df sf ws mu a g.
Proof.
  intros sf ws mu a f g H. unfold integrate_df. apply lsum_ext. intros [[e l] w] _. cbn [fst snd]. f_equal. f_equal.
  apply lsum_ext. intros p _. rewrite H. reflexivity.
Qed.
Lemma idf_lin : forall sf ws mu a f g c,
  integrate_df sf ws mu a (fun p => f p + c * g p) = integrate_df sf ws mu a f + c * integrate_df sf ws mu a g.
Proof.
  intros sf ws mu a f g c. unfold integrate_df. rewrite <- lsum_lin. apply lsum_ext. intros [[e l] w] _. cbn [fst snd].
  rewrite (lsum_ext l _ (fun p => f p * kw p + c * (g p * kw p))) by (intros; cbv beta; ring). rewrite lsum_lin. ring.
Qed.
Lemma lsum_zero {A} : forall (l : list A), lsum l (fun _ => 0) = 0.
Proof. induction l as [|x l IH]; unfold lsum in *; cbn [fold_right]; [reflexivity|]. rewrite IH. ring. Qed.
Lemma idf_zero : forall sf ws mu a, integrate_df sf ws mu a (fun _ => 0) = 0.
Proof.
  intros. unfold integrate_df. transitivity (lsum (combine sf ws) (fun _ => 0)); [|apply lsum_zero]. apply lsum_ext. intros [[e l] w] _. cbn [fst snd].
  rewrite (lsum_ext l _ (fun _ => 0)) by (intros; cbv beta; ring). rewrite lsum_zero. ring.
Qed.
Lemma idf_scal : forall sf ws mu a g c, integrate_df sf ws mu a (fun p => c * g p) = c * integrate_df sf ws mu a g.
Proof.
  intros. rewrite (idf_ext _ _ _ _ _ (fun p => 0 + c * g p)) by (intro; cbv beta; ring). rewrite idf_lin, idf_zero. ring.
Qed.
Lemma idf_sum3 : forall sf ws mu a (f : nat -> kpoint -> R),
  integrate_df sf ws mu a (fun p => sum3 (fun i => f i p)) = sum3 (fun i => integrate_df sf ws mu a (f i)).
Proof.
  intros. unfold sum3. rewrite (idf_ext _ _ _ _ _ (fun p => (f 0%nat p + 1 * f 1%nat p) + 1 * f 2%nat p)) by (intro; cbv beta; ring).
  rewrite !idf_lin. ring.
Qed.
Lemma idf_sum9 : forall sf ws mu a (f : nat -> nat -> kpoint -> R),
  integrate_df sf ws mu a (fun p => sum3 (fun i => sum3 (fun j => f i j p)))
  = sum3 (fun i => sum3 (fun j => integrate_df sf ws mu a (f i j))).
Proof.
  intros. rewrite (idf_sum3 sf ws mu a (fun i p => sum3 (fun j => f i j p))).
  assert (E : forall i, integrate_df sf ws mu a (fun p => sum3 (fun j => f i j p)) = sum3 (fun j => integrate_df sf ws mu a (f i j)))
    by (intro i; apply idf_sum3).
  unfold sum3 at 1. rewrite !E. reflexivity.
Qed.
Lemma charge_pos : 0 < elementary_charge.
Proof. unfold elementary_charge. apply Rdiv_lt_0_compat; [lra|apply pow_lt; lra]. Qed.

(** C76: the transport coefficients are symmetric for every moment ... *)
Theorem C76_symmetric : forall sf ws mu spin V a i j, transport sf ws mu spin V a i j = transport sf ws mu spin V a j i.
Proof. intros. unfold transport. do 2 f_equal. f_equal. apply idf_ext. intro. ring. Qed.
(** ... and L^(0) (and every even moment) is positive semidefinite when the
    weights are not negative *)
Theorem C76_positive : forall sf ws mu spin V a (x : nat -> R), 0 < spin -> 0 < V -> Nat.even a = true ->
  Forall (fun w => 0 <= w) ws -> Forall (fun s => Forall (fun p => 0 <= kw p) (snd s)) sf ->
  0 <= sum3 (fun i => sum3 (fun j => x i * transport sf ws mu spin V a i j * x j)).
Proof.
  intros sf ws mu spin V a x Hs HV Ha Hw Hp.
  assert (E : sum3 (fun i => sum3 (fun j => x i * transport sf ws mu spin V a i j * x j)) =
     spin * pow_int elementary_charge (2 - Z.of_nat a) / pow_int eV (1 - Z.of_nat a) / V *
     integrate_df sf ws mu a (fun p => (sum3 (fun i => x i * kv p i)) ^ 2)).
  { rewrite (idf_ext _ _ _ _ _ (fun p => sum3 (fun i => sum3 (fun j => (x i * x j) * (kv p j * kv p i))))) by (intro p; unfold sum3; ring).
    rewrite (idf_sum9 sf ws mu a (fun i j p => (x i * x j) * (kv p j * kv p i))).
    unfold sum3. rewrite !idf_scal. unfold transport. unfold Rdiv. ring. }
  rewrite E. pose proof charge_pos as q.
  apply Rmult_le_pos.
  - apply Rlt_le. repeat apply Rdiv_lt_0_compat; auto; [apply Rmult_lt_0_compat; auto|]; apply powerRZ_lt; unfold eV; auto.
  - unfold integrate_df. apply lsum_nonneg. intros [[e l] w] H. cbn [fst snd].
    pose proof (in_combine_l _ _ _ _ H) as H1. pose proof (in_combine_r _ _ _ _ H) as H2.
    rewrite Forall_forall in Hw, Hp. specialize (Hw w H2). specialize (Hp _ H1). cbn [snd] in Hp. rewrite Forall_forall in Hp.
    apply Rmult_le_pos; [apply Rmult_le_pos; auto|].
    + apply lsum_nonneg. intros p Hl. apply Rmult_le_pos; [apply pow2_ge_0|apply Hp, Hl].
    + apply Nat.even_spec in Ha. destruct Ha as [m ->]. rewrite pow_mult. apply pow_le, pow2_ge_0.
Qed.
(** drude_factor is L^(0), and so is the rank 2 tensor of conductivity_hall_tensor *)
Theorem C76_drude : forall sf ws mu spin V i j, 0 < V ->
  drude_factor sf ws mu spin V i j = transport sf ws mu spin V 0 i j /\
  sigma2 sf ws mu spin V i j = transport sf ws mu spin V 0 i j.
Proof.
  intros. unfold drude_factor, sigma2, transport, pow_int. cbn [Z.of_nat Z.sub Z.opp Z.add].
  pose proof charge_pos. cbn [powerRZ].
  replace (Pos.to_nat 2) with 2%nat by reflexivity. replace (Pos.to_nat 1) with 1%nat by reflexivity. unfold eV. split; field; lra.
Qed.
Theorem C76_odd_moments_indefinite : exists sf ws mu x, Forall (fun s => Forall (fun p => 0 < kw p) (snd s)) sf /\
  sum3 (fun i => sum3 (fun j => x i * transport sf ws mu 2 1 1 i j * x j)) < 0.
Proof.
  exists [(-1, [mkK 1 (ax 1) (fun _ _ => 0)])], [1], 0, (ax 1). split; [repeat constructor; cbn; lra|].
  unfold transport, pow_int. change (2 - Z.of_nat 1)%Z with 1%Z. change (1 - Z.of_nat 1)%Z with 0%Z.
  unfold integrate_df, lsum, sum3, ax. cbn [combine fold_right fst snd kv kw powerRZ].
  pose proof charge_pos. replace (Pos.to_nat 1) with 1%nat by reflexivity. cbn [pow]. lra.
Qed.
(** a rotation (or reflection) [O] of the lattice vectors turns the tensors
    with it: L' = O L O^T, for every matrix [O] of vector components *)
Definition mm (A B : nat -> nat -> R) (i j : nat) : R := sum3 (fun k => A i k * B k j).
Lemma to_si_rot : forall O M p i, kv (to_si (mm O M) p) i = sum3 (fun k => O i k * kv (to_si M p) k).
Proof. intros. unfold to_si, mm, grad_transform, sum3. cbn [kv]. unfold Rdiv. ring. Qed.
Lemma idf_si : forall M sf ws mu a g, 
  integrate_df (surf_si M sf) ws mu a g = lsum (combine sf ws) (fun sw => lsum (snd (fst sw)) (fun p => g (to_si M p) * kw p) * snd sw * (fst (fst sw) - mu) ^ a).
Proof.
  intros M sf ws mu a g. revert ws. induction sf as [|s sf IH]; intros [|w ws]; try reflexivity.
  unfold integrate_df, lsum, surf_si in *. cbn [map combine fold_right fst snd].
  rewrite (IH ws). f_equal. f_equal. f_equal. apply (lsum_map (to_si M)).
Qed.
Theorem C76_rotation : forall O M sf ws mu spin V a i j,
  transport (surf_si (mm O M) sf) ws mu spin V a i j
  = sum3 (fun k => sum3 (fun l => O i k * transport (surf_si M sf) ws mu spin V a k l * O j l)).
Proof.
  intros. unfold transport.
  assert (E : integrate_df (surf_si (mm O M) sf) ws mu a (fun p => kv p j * kv p i) =
    sum3 (fun k => sum3 (fun l => O i k * O j l * integrate_df (surf_si M sf) ws mu a (fun p => kv p l * kv p k)))).
  { rewrite idf_si. transitivity (integrate_df (surf_si M sf) ws mu a (fun p => sum3 (fun k => sum3 (fun l => O i k * O j l * (kv p l * kv p k))))).
    - rewrite idf_si. apply lsum_ext. intros [[e l] w] _. cbn [fst snd]. f_equal. f_equal. apply lsum_ext. intros p _.
      rewrite !to_si_rot. unfold sum3. ring.
    - rewrite (idf_sum9 _ _ _ _ (fun k l p => O i k * O j l * (kv p l * kv p k))). unfold sum3. rewrite !idf_scal. ring. }
  rewrite E. unfold sum3, Rdiv. ring.
Qed.
Print Assumptions C76_symmetric.
Print Assumptions C76_positive.
Print Assumptions C76_drude.
Print Assumptions C76_odd_moments_indefinite.
Print Assumptions C76_rotation.

(** ** C75: the two ways to the Hall coefficient *)
Definition delta (i j : nat) : R := if Nat.eqb i j then 1 else 0.
(** six points of a sphere with isotropic mass *)
Definition octa : list kpoint :=
  map (fun v => mkK 1 v delta)
    (flat_map (fun i => [delta i; fun j => - delta i j]) [0%nat; 1%nat; 2%nat]).
(** For a surface with cubic tensors, sigma2 = s I and sigma3 = c epsilon, the
    tensor of hall_coefficients is minus the coefficient of
    hall_coefficient_metal_cubic: equal magnitude, opposite sign of R_xyz. *)
Theorem C75_partial : forall sf ws mu spin V Vi s c, 0 < spin -> 0 < V -> s <> 0 ->
  (forall i j, (i < 3)%nat -> (j < 3)%nat -> sigma2 sf ws mu spin V i j = s * delta i j) ->
  (forall a b y, (a < 3)%nat -> (b < 3)%nat -> (y < 3)%nat -> sigma3 sf ws mu spin V a b y = c * antisym a b y) ->
  (forall i j, (i < 3)%nat -> (j < 3)%nat -> sum3 (fun b => Vi i b * sigma2 sf ws mu spin V b j) = delta i j) ->
  forall i j k, (i < 3)%nat -> (j < 3)%nat -> (k < 3)%nat ->
  hall_coefficients Vi (sigma3 sf ws mu spin V) i j k = - hall_cubic sf ws mu spin V * antisym i j k.
Proof.
  intros sf ws mu spin V Vi s c Hsp HV Hs H2 H3 HI i j k Hi Hj Hk. pose proof charge_pos as q.
  set (e := elementary_charge) in *.
  assert (VI : forall i j, (i < 3)%nat -> (j < 3)%nat -> Vi i j = delta i j / s).
  { intros i' j' a b. pose proof (HI i' j' a b) as h. unfold sum3 in h. rewrite !H2 in h by lia. unfold delta in h at 1 2 3.
    destruct j' as [|[|[|j']]]; try lia; cbn [Nat.eqb] in h; rewrite <- h; field; exact Hs. }
  set (i1 := integrate_df sf ws mu 0 (fun p => sum3 (fun i => sum3 (fun j => kv p i * kh p i j * kv p j)) - sum3 (fun j => kv p j * kv p j) * sum3 (fun i => kh p i i))).
  set (i2 := integrate_df sf ws mu 0 (fun p => sum3 (fun i => kv p i ^ 2))).
  assert (E2 : e ^ 2 / e * spin / V * i2 = 3 * s).
  { transitivity (sum3 (fun i => sigma2 sf ws mu spin V i i)).
    - unfold i2. rewrite (idf_sum3 sf ws mu 0 (fun i p => kv p i ^ 2)). unfold sum3, sigma2. fold e.
      rewrite !(idf_ext sf ws mu 0 (fun p => kv p _ ^ 2) (fun p => kv p _ * kv p _)) by (intro; ring).
      unfold eV. fold e. field. split; lra.
    - unfold sum3. rewrite !H2 by lia. unfold delta. cbn [Nat.eqb]. ring. }
  assert (E1 : e ^ 3 / e * spin / V * i1 = 6 * c).
  { transitivity (sum3 (fun a => sum3 (fun b => sum3 (fun y => antisym a b y * sigma3 sf ws mu spin V a b y)))).
    - unfold i1. rewrite (idf_ext _ _ _ _ _ (fun p => sum3 (fun y => sum3 (fun a => sum3 (fun b => antisym a b y * hall_integrand a b y p)))))
        by (intro p; unfold hall_integrand, sum3, antisym; ring).
      rewrite (idf_sum3 sf ws mu 0 (fun y p => sum3 (fun a => sum3 (fun b => antisym a b y * hall_integrand a b y p)))).
      assert (E : forall y, integrate_df sf ws mu 0 (fun p => sum3 (fun a => sum3 (fun b => antisym a b y * hall_integrand a b y p)))
         = sum3 (fun a => sum3 (fun b => antisym a b y * integrate_df sf ws mu 0 (hall_integrand a b y)))).
      { intro y. rewrite (idf_sum9 sf ws mu 0 (fun a b p => antisym a b y * hall_integrand a b y p)). unfold sum3. rewrite !idf_scal. reflexivity. }
      unfold sum3 at 1. rewrite !E. unfold sum3, sigma3, antisym, eV. fold e. field. split; lra.
    - unfold sum3. rewrite !H3 by lia. unfold antisym. ring. }
  assert (HC : hall_cubic sf ws mu spin V = c / s ^ 2).
  { unfold hall_cubic. fold i1 i2. unfold eV. fold e.
    assert (a1 : i1 = 6 * c * V / (e ^ 2 * spin)) by (rewrite <- E1; field; repeat split; lra).
    assert (a2 : i2 = 3 * s * V / (e * spin)) by (rewrite <- E2; field; repeat split; lra).
    rewrite a1, a2. field. repeat split; lra. }
  rewrite HC. unfold hall_coefficients.
  assert (e1 : forall a b, (a < 3)%nat -> (b < 3)%nat -> Vi a j * sigma3 sf ws mu spin V a b k * Vi i b = c / s ^ 2 * (delta a j * antisym a b k * delta i b)).
  { intros a b Ha Hb. rewrite H3, !VI by lia. field. exact Hs. }
  unfold sum3. rewrite !e1 by lia.
  destruct i as [|[|[|i]]]; try lia; destruct j as [|[|[|j]]]; try lia; destruct k as [|[|[|k]]]; try lia; unfold delta, antisym; cbn [Nat.eqb]; ring.
Qed.
(** The full claim (equal coefficients) fails for free electrons: the scalar
    is negative, R_xyz is positive. *)
Theorem C75_refuted : exists sf ws mu spin V Vi,
  (forall i j, (i < 3)%nat -> (j < 3)%nat -> sum3 (fun b => Vi i b * sigma2 sf ws mu spin V b j) = delta i j) /\
  hall_cubic sf ws mu spin V < 0 /\
  hall_coefficients Vi (sigma3 sf ws mu spin V) 0 1 2 = - hall_cubic sf ws mu spin V.
Proof.
  pose proof charge_pos as q.
  set (s := 2 * 2 * elementary_charge).
  assert (Hs : s <> 0) by (unfold s; lra).
  assert (H2 : forall i j, (i < 3)%nat -> (j < 3)%nat -> sigma2 [(0, octa)] [1] 0 2 1 i j = s * delta i j).
  { intros i j Hi Hj. unfold s, sigma2, eV, integrate_df, lsum, octa. cbn [combine fold_right fst snd map flat_map app kv kw pow].
    destruct i as [|[|[|i]]]; try lia; destruct j as [|[|[|j]]]; try lia; unfold delta; cbn [Nat.eqb]; field; lra. }
  assert (HI : forall i j, (i < 3)%nat -> (j < 3)%nat -> sum3 (fun b => delta i b / s * sigma2 [(0, octa)] [1] 0 2 1 b j) = delta i j).
  { intros i j Hi Hj. unfold sum3. rewrite !H2 by lia.
    destruct i as [|[|[|i]]]; try lia; destruct j as [|[|[|j]]]; try lia; unfold delta; cbn [Nat.eqb]; field; exact Hs. }
  exists [(0, octa)], [1], 0, 2, 1, (fun i j => delta i j / s). split; [exact HI|].
  assert (H3 : forall a b y, (a < 3)%nat -> (b < 3)%nat -> (y < 3)%nat ->
     sigma3 [(0, octa)] [1] 0 2 1 a b y = (- (4 * elementary_charge ^ 2)) * antisym a b y).
  { intros a b y Ha Hb Hy. unfold sigma3, eV, integrate_df, lsum, octa, hall_integrand, sum3. cbn [combine fold_right fst snd map flat_map app kv kw kh pow].
    destruct a as [|[|[|a]]]; try lia; destruct b as [|[|[|b]]]; try lia; destruct y as [|[|[|y]]]; try lia; unfold delta, antisym; cbn [Nat.eqb]; field; lra. }
  assert (HC : hall_cubic [(0, octa)] [1] 0 2 1 < 0).
  { unfold hall_cubic, eV, integrate_df, lsum, octa, sum3. cbn [combine fold_right fst snd map flat_map app kv kw kh pow].
    unfold delta. cbn [Nat.eqb].
    match goal with |- ?x < 0 => replace x with (- (1 / 4)) by (field; lra) end. lra. }
  split; [exact HC|].
  rewrite (C75_partial [(0, octa)] [1] 0 2 1 (fun i j => delta i j / s) s (- (4 * elementary_charge ^ 2)) ltac:(lra) ltac:(lra) Hs H2 H3 HI 0 1 2) by lia.
  cbn [antisym]. ring.
Qed.
Print Assumptions C75_partial.
Print Assumptions C75_refuted.

(** Property C99: the Hall tensor turns with the lattice vectors.  Insulators in C79. *)
From Coq Require Import Reals Lra Lia Psatz List Bool ZArith.
From Coquelicot Require Import Coquelicot.
From Verif Require Import NbrModel SmearCalc SmearProps DosModel DosProps Basel FermiInt FermiConv BulkModel FermiMoments BulkProps BulkWeights.
Import List ListNotations.
Local Open Scope R_scope.

(** The inverse masses: H' = O H O^T *)
Theorem C99_hessian : forall O M p i j,
  kh (to_si (mm O M) p) i j = sum3 (fun a => sum3 (fun b => O i a * kh (to_si M p) a b * O j b)).
Proof. intros. unfold to_si, mm, grad_transform, sum3. cbn [kh]. unfold Rdiv. ring. Qed.
Print Assumptions C99_hessian.

(** Units and lattice vectors (chain rule): if the energy in eV is g.y + y.h.y/2 at the
    dimensionless wave vector y, then the energy in J at the wave vector x, y = M^T x c with
    c = 1/(2 pi 10^10 hbar), has the gradient and the Hessian of the converted point. *)
Definition quad3 (g : nat -> R) (h : nat -> nat -> R) (y : nat -> R) : R :=
  sum3 (fun i => g i * y i) + sum3 (fun i => sum3 (fun j => h i j * y i * y j)) / 2.
Theorem C99_chain_rule : forall M p x,
  eV * quad3 (kv p) (kh p) (fun i => sum3 (fun j => M j i * x j) * (1 / (2 * PI) * / 10 ^ 10 / hbar))
  = quad3 (kv (to_si M p)) (kh (to_si M p)) x.
Proof. intros. unfold quad3, to_si, grad_transform, sum3. cbn [kv kh]. unfold Rdiv. ring. Qed.
Print Assumptions C99_chain_rule.

Definition det3 (O : nat -> nat -> R) : R :=
  O 0%nat 0%nat * (O 1%nat 1%nat * O 2%nat 2%nat - O 1%nat 2%nat * O 2%nat 1%nat)
  - O 0%nat 1%nat * (O 1%nat 0%nat * O 2%nat 2%nat - O 1%nat 2%nat * O 2%nat 0%nat)
  + O 0%nat 2%nat * (O 1%nat 0%nat * O 2%nat 1%nat - O 1%nat 1%nat * O 2%nat 0%nat).
Definition orthogonal3 (O : nat -> nat -> R) : Prop :=
  forall i j, (i < 3)%nat -> (j < 3)%nat -> sum3 (fun k => O i k * O j k) = delta i j.

(** cross products: (O w) x (O v) = det O * O (w x v) for orthogonal O *)
Definition cross3 (w v : nat -> R) (y : nat) : R := sum3 (fun d => sum3 (fun s => antisym y d s * v s * w d)).
Lemma cross_ring : forall O w v y, (y < 3)%nat ->
  cross3 (fun d => sum3 (fun k => O d k * w k)) (fun s => sum3 (fun k => O s k * v k)) y
  = sum3 (fun k => sum3 (fun d => sum3 (fun s => antisym y d s * sum3 (fun a => sum3 (fun b => antisym k a b * O d a * O s b)) / 2)) * cross3 w v k).
Proof.
  intros O w v y Hy. unfold cross3, sum3.
  assert (y = 0 \/ y = 1 \/ y = 2)%nat as [-> | [-> | ->]] by lia; cbn [antisym]; field.
Qed.
Lemma cofactor : forall O y k, orthogonal3 O -> (y < 3)%nat -> (k < 3)%nat ->
  sum3 (fun d => sum3 (fun s => antisym y d s * sum3 (fun a => sum3 (fun b => antisym k a b * O d a * O s b)) / 2)) = det3 O * O y k.
Proof.
  intros O y k HO Hy Hk.
  set (cof := fun y k => sum3 (fun d => sum3 (fun s => antisym y d s * sum3 (fun a => sum3 (fun b => antisym k a b * O d a * O s b)) / 2))).
  change (cof y k = det3 O * O y k).
  assert (Cd : forall l, (l < 3)%nat -> sum3 (fun i => O i l * cof i k) = det3 O * delta l k).
  { intros l Hl. unfold cof, sum3, det3.
    assert (k = 0 \/ k = 1 \/ k = 2)%nat as [-> | [-> | ->]] by lia; assert (l = 0 \/ l = 1 \/ l = 2)%nat as [-> | [-> | ->]] by lia;
      unfold delta; cbn [antisym Nat.eqb]; field. }
  assert (E : cof y k = sum3 (fun i => delta y i * cof i k)).
  { unfold sum3, delta. assert (y = 0 \/ y = 1 \/ y = 2)%nat as [-> | [-> | ->]] by lia; cbn [Nat.eqb]; ring. }
  rewrite E.
  assert (E2 : sum3 (fun i => delta y i * cof i k) = sum3 (fun l => O y l * sum3 (fun i => O i l * cof i k))).
  { unfold sum3 at 1. rewrite <- (HO y 0%nat), <- (HO y 1%nat), <- (HO y 2%nat) by lia. clearbody cof. unfold sum3. ring. }
  rewrite E2. unfold sum3 at 1. rewrite !Cd by lia. unfold delta.
  assert (k = 0 \/ k = 1 \/ k = 2)%nat as [-> | [-> | ->]] by lia; cbn [Nat.eqb]; ring.
Qed.
Lemma cross_orth : forall O w v y, orthogonal3 O -> (y < 3)%nat ->
  cross3 (fun d => sum3 (fun k => O d k * w k)) (fun s => sum3 (fun k => O s k * v k)) y = det3 O * sum3 (fun k => O y k * cross3 w v k).
Proof.
  intros O w v y HO Hy. rewrite cross_ring by auto. unfold sum3 at 1. rewrite !cofactor by (auto; lia). unfold sum3. ring.
Qed.

Lemma hall_cross : forall a b y p, hall_integrand a b y p = kv p a * cross3 (fun d => kh p b d) (kv p) y.
Proof. intros. unfold hall_integrand, cross3, sum3. ring. Qed.

(** the integrand at one point *)
Lemma hall_point : forall O M p a b y, orthogonal3 O -> (y < 3)%nat ->
  hall_integrand a b y (to_si (mm O M) p)
  = det3 O * sum3 (fun a' => sum3 (fun b' => sum3 (fun y' => O a a' * O b b' * O y y' * hall_integrand a' b' y' (to_si M p)))).
Proof.
  intros O M p a b y HO Hy. rewrite hall_cross. set (q := to_si M p).
  assert (Ev : forall i, kv (to_si (mm O M) p) i = sum3 (fun k => O i k * kv q k)) by (intros; apply to_si_rot).
  assert (Eh : forall i j, kh (to_si (mm O M) p) i j = sum3 (fun k => O j k * sum3 (fun l => O i l * kh q l k))).
  { intros. rewrite C99_hessian. fold q. unfold sum3. ring. }
  assert (X : cross3 (fun d => kh (to_si (mm O M) p) b d) (kv (to_si (mm O M) p)) y
     = cross3 (fun d => sum3 (fun k => O d k * sum3 (fun l => O b l * kh q l k))) (fun s => sum3 (fun k => O s k * kv q k)) y).
  { unfold cross3, sum3 at 1 2 3 4. rewrite !Eh, !Ev. unfold sum3. ring. }
  rewrite X, (cross_orth O (fun k => sum3 (fun l => O b l * kh q l k)) (kv q) y HO Hy), Ev.
  clear X Eh Ev. clearbody q.
  assert (L : forall k, cross3 (fun k => sum3 (fun l => O b l * kh q l k)) (kv q) k = sum3 (fun l => O b l * cross3 (fun d => kh q l d) (kv q) k)).
  { intros k. unfold cross3, sum3. ring. }
  unfold sum3 at 2. rewrite !L.
  unfold sum3. rewrite !hall_cross. ring.
Qed.

(** For every orthogonal O the tensor of the Hall conductivity turns as a
    pseudotensor: every index with O, and a reflection changes the sign. *)
Theorem C99_hall_rotation : forall O M sf ws mu spin V a b y, orthogonal3 O -> (y < 3)%nat ->
  sigma3 (surf_si (mm O M) sf) ws mu spin V a b y
  = det3 O * sum3 (fun a' => sum3 (fun b' => sum3 (fun y' => O a a' * O b b' * O y y' * sigma3 (surf_si M sf) ws mu spin V a' b' y'))).
Proof.
  intros O M sf ws mu spin V a b y HO Hy. unfold sigma3.
  assert (E : integrate_df (surf_si (mm O M) sf) ws mu 0 (hall_integrand a b y)
    = det3 O * sum3 (fun a' => sum3 (fun b' => sum3 (fun y' => O a a' * O b b' * O y y' * integrate_df (surf_si M sf) ws mu 0 (hall_integrand a' b' y'))))).
  { transitivity (integrate_df (surf_si M sf) ws mu 0 (fun p => det3 O * sum3 (fun a' => sum3 (fun b' => sum3 (fun y' => O a a' * O b b' * O y y' * hall_integrand a' b' y' p))))).
    - rewrite !idf_si. apply lsum_ext. intros [[e l] w] _. cbn [fst snd]. f_equal. f_equal. apply lsum_ext. intros p _. rewrite hall_point by auto. reflexivity.
    - rewrite idf_scal. f_equal.
      rewrite (idf_sum9 _ _ _ _ (fun a' b' p => sum3 (fun y' => O a a' * O b b' * O y y' * hall_integrand a' b' y' p))).
      unfold sum3 at 1 2 4 5. rewrite !(idf_sum3 _ _ _ _ (fun y' p => O a _ * O b _ * O y y' * hall_integrand _ _ y' p)).
      unfold sum3. rewrite !idf_scal. ring. }
  rewrite E. unfold sum3. ring.
Qed.
Print Assumptions C99_hall_rotation.

(** The Hall coefficients (V is the inverse of sigma2) turn in the same way. *)
Theorem C99_hall_coefficients : forall O M sf ws mu spin V Vi i j k, orthogonal3 O -> (k < 3)%nat ->
  let O' := fun i j => O j i in
  orthogonal3 O' ->
  hall_coefficients (fun i j => sum3 (fun a => sum3 (fun b => O i a * Vi a b * O j b))) (sigma3 (surf_si (mm O M) sf) ws mu spin V) i j k
  = det3 O * sum3 (fun i' => sum3 (fun j' => sum3 (fun k' => O i i' * O j j' * O k k' * hall_coefficients Vi (sigma3 (surf_si M sf) ws mu spin V) i' j' k'))).
Proof.
  intros O M sf ws mu spin V Vi i j k HO Hk O' HO'.
  unfold hall_coefficients at 1.
  set (s := fun a b => sum3 (fun y' => O k y' * sigma3 (surf_si M sf) ws mu spin V a b y')).
  assert (S : forall a b, sigma3 (surf_si (mm O M) sf) ws mu spin V a b k = det3 O * sum3 (fun a' => sum3 (fun b' => O a a' * O b b' * s a' b'))).
  { intros a b. rewrite C99_hall_rotation by auto. unfold s, sum3. ring. }
  assert (G : forall f g : nat -> nat -> R, (forall a b, f a b = g a b) -> sum3 (fun a => sum3 (fun b => f a b)) = sum3 (fun a => sum3 (fun b => g a b))).
  { intros f g H. unfold sum3. rewrite !H. reflexivity. }
  rewrite (G _ (fun a b => det3 O * (sum3 (fun c => sum3 (fun e => O a c * Vi c e * O j e)) * sum3 (fun a' => sum3 (fun b' => O a a' * O b b' * s a' b')) * sum3 (fun c => sum3 (fun e => O i c * Vi c e * O b e))))).
  2: { intros a b. cbv beta. rewrite S. ring. }
  (* contract the pairs of O *)
  assert (P : forall x c, (x < 3)%nat -> (c < 3)%nat -> sum3 (fun a => O a x * O a c) = delta x c).
  { intros x c Hx Hc. exact (HO' x c Hx Hc). }
  transitivity (det3 O * sum3 (fun a => sum3 (fun b => (sum3 (fun e => Vi a e * O j e)) * s a b * sum3 (fun c => O i c * Vi c b)))).
  2: { unfold s, hall_coefficients, sum3. ring. }
  assert (Q : forall (w u : nat -> R) (s : nat -> nat -> R),
    sum3 (fun a => sum3 (fun b => sum3 (fun c => O a c * w c) * sum3 (fun a' => sum3 (fun b' => O a a' * O b b' * s a' b')) * sum3 (fun e => O b e * u e)))
    = sum3 (fun a => sum3 (fun b => w a * s a b * u b))).
  { intros w u t.
    transitivity (sum3 (fun c => sum3 (fun a' => sum3 (fun a => O a c * O a a') * sum3 (fun b' => sum3 (fun e => sum3 (fun b => O b b' * O b e) * (w c * t a' b' * u e)))))).
    - unfold sum3. ring.
    - unfold sum3 at 1 2 4 5. rewrite !P by lia. unfold delta, sum3. cbn [Nat.eqb]. ring. }
  rewrite <- (Q (fun c => sum3 (fun e => Vi c e * O j e)) (fun e => sum3 (fun c => O i c * Vi c e)) s).
  unfold sum3 at 1 2. unfold sum3 at 8 9. clearbody s. clear.
  unfold sum3. ring.
Qed.
Print Assumptions C99_hall_coefficients.

(** example: a quarter turn about the third axis (not the identity, determinant
    1), the exchange of two axes (determinant -1) and a tensor that is not 0 *)
Definition turn3 : nat -> nat -> R := fun i j =>
  match i, j with 0%nat, 1%nat => -1 | 1%nat, 0%nat => 1 | 2%nat, 2%nat => 1 | _, _ => 0 end.
Definition swap3 : nat -> nat -> R := fun i j =>
  match i, j with 0%nat, 1%nat => 1 | 1%nat, 0%nat => 1 | 2%nat, 2%nat => 1 | _, _ => 0 end.
Example C99_example : orthogonal3 turn3 /\ orthogonal3 (fun i j => turn3 j i) /\ det3 turn3 = 1 /\ orthogonal3 swap3 /\ det3 swap3 = -1 /\
  let p := mkK 1 (ax 1) (fun i j => if Nat.eqb i 1 && Nat.eqb j 1 then 1 else 0) in
  hall_integrand 0 1 2 p = -1 /\
  hall_integrand 1 0 2 (mkK 1 (fun i => sum3 (fun a => turn3 i a * kv p a)) (fun i j => sum3 (fun a => sum3 (fun b => turn3 i a * kh p a b * turn3 j b)))) = 1.
Proof.
  split; [|split; [|split; [|split; [|split; [|split]]]]].
  1, 2, 4: intros i j Hi Hj; assert (i = 0 \/ i = 1 \/ i = 2)%nat as [-> | [-> | ->]] by lia;
    assert (j = 0 \/ j = 1 \/ j = 2)%nat as [-> | [-> | ->]] by lia; unfold sum3, turn3, swap3, delta; cbn; ring.
  1, 2: unfold det3, turn3, swap3; cbn; ring.
  - unfold hall_integrand, sum3, ax. cbn. ring.
  - unfold hall_integrand, sum3, turn3, ax. cbn. ring.
Qed.

(** ** C79: insulators *)
(** at a positive temperature an insulator is not implemented, for every list of temperatures and odd N *)
Theorem C79_insulator_refuted : forall kB fermi mu Ts N points solve emin emax rtol,
  Forall (fun T => 0 <= T) Ts -> Exists (fun T => 0 < T) Ts -> Nat.even N = false ->
  kint_init false kB fermi mu Ts N points solve emin emax rtol = KNotImplemented.
Proof.
  intros kB fermi mu Ts N points solve emin emax rtol HF HE HN. unfold kint_init.
  assert (F : forallb (fun T => Rleb 0 T) Ts = true).
  { apply forallb_forall. intros T HT. rewrite Forall_forall in HF. apply Rleb_t. auto. }
  assert (E : existsb (fun T => Rltb 0 T) Ts = true).
  { apply existsb_exists. apply Exists_exists in HE. destruct HE as [T [i p]]. exists T. split; auto. apply Rltb_t, p. }
  rewrite F, HN, E. reflexivity.
Qed.
Print Assumptions C79_insulator_refuted.
Example C79_insulator_example : kint_init false 1 0 [0; 0] [0; 300] 11 [-1; 0; 1] solve3 (-2) 2 (/ 10 ^ 4) = KNotImplemented.
Proof.
  apply C79_insulator_refuted; auto.
  - repeat constructor; lra.
  - apply Exists_cons_tl, Exists_cons_hd. lra.
Qed.

(** Property C160: the integration points of KIntegral are the points of a Gauss quadrature. *)
From Coq Require Import Reals Lra Lia Psatz List Bool Sorted Permutation.
From Coquelicot Require Import Coquelicot.
From Verif Require Import CplxR NbrModel SmearCalc SmearProps DosModel DosMore DosProps Basel FermiInt FermiConv BulkModel FermiMoments BulkProps BulkWeights GaussPoly GaussModel.
Import List ListNotations.
Local Open Scope R_scope.

(** ** specification of the library functions *)
Definition sum0 (n : nat) (f : nat -> R) : R := lsum (seq 0 n) f.
(** scipy.linalg.qr(A)[0] for a matrix with [rows] >= [cols]: an orthogonal square matrix q with A = q r, r upper triangular *)
Definition is_qr (rows cols : nat) (A q : nat -> nat -> R) : Prop :=
  (forall a b, (a < rows)%nat -> (b < rows)%nat -> sum0 rows (fun m => q m a * q m b) = if Nat.eqb a b then 1 else 0) /\
  exists r : nat -> nat -> R, (forall i j, (i < rows)%nat -> (j < cols)%nat -> (j < i)%nat -> r i j = 0) /\
    forall m c, (m < rows)%nat -> (c < cols)%nat -> A m c = sum0 rows (fun l => q m l * r l c).
(** np.roots of a list of coefficients, highest power first, with a first coefficient that is not 0: all zeros with multiplicity *)
Definition cprod (rs : list cplx) (z : cplx) : cplx := fold_right (fun r acc => cmul (csub z r) acc) (1, 0) rs.
Definition is_roots (a : list R) (rs : list cplx) : Prop := hd 0 a <> 0 ->
  length rs = (length a - 1)%nat /\ forall z, cpeval (rev a) z = cmul (cre (hd 0 a)) (cprod rs z).
(** [p], in powers of the distance to the chemical potential, is orthogonal to all polynomials with at most K coefficients *)
Definition orthogonal (beta mu : R) (p : list R) (K : nat) : Prop :=
  forall t, (length t <= K)%nat -> is_improper (fun e => peval p (e - mu) * peval t (e - mu) * wb beta (e - mu)) 0.

(** ** sums *)
Lemma lsum_app {A} (l1 l2 : list A) f : lsum (l1 ++ l2) f = lsum l1 f + lsum l2 f.
Proof. unfold lsum. induction l1 as [|x l IH]; cbn; [ring|]. rewrite IH. ring. Qed.
Lemma lsum_scal {A} (l : list A) f c : lsum l (fun x => c * f x) = c * lsum l f.
Proof. unfold lsum. induction l as [|x l IH]; cbn; [ring|]. rewrite IH. ring. Qed.
Lemma lsum_swap {A B} (l1 : list A) (l2 : list B) f : lsum l1 (fun a => lsum l2 (fun b => f a b)) = lsum l2 (fun b => lsum l1 (fun a => f a b)).
Proof.
  induction l1 as [|x l IH]; [cbn; symmetry; apply (lsum_zero l2)|]. change (lsum l2 (f x) + lsum l (fun a => lsum l2 (fun b => f a b)) = lsum l2 (fun b => f x b + lsum l (fun a => f a b))).
  rewrite IH. transitivity (lsum l2 (fun b => f x b + 1 * lsum l (fun a => f a b))); [rewrite lsum_lin; ring|]. apply lsum_ext. intros. ring.
Qed.
Lemma sum0_S n f : sum0 (S n) f = sum0 n f + f n.
Proof. unfold sum0. rewrite seq_S, lsum_app. cbn. ring. Qed.
Lemma sum0_zero n f : (forall k, (k < n)%nat -> f k = 0) -> sum0 n f = 0.
Proof. intros H. unfold sum0. rewrite <- (lsum_zero (seq 0 n)). apply lsum_ext. intros k Hk. apply in_seq in Hk. apply H. lia. Qed.

Lemma qr_last rows cols A q c : is_qr rows cols A q -> (cols < rows)%nat -> (c < cols)%nat -> sum0 rows (fun m => q m (rows - 1)%nat * A m c) = 0.
Proof.
  intros (HO & r & HR & HA) HC Hc.
  transitivity (sum0 rows (fun m => sum0 rows (fun l => r l c * (q m (rows - 1)%nat * q m l)))).
  { apply lsum_ext. intros m Hm. apply in_seq in Hm. rewrite HA by lia. unfold sum0. rewrite <- lsum_scal. apply lsum_ext. intros. ring. }
  unfold sum0. rewrite lsum_swap. transitivity (sum0 rows (fun l => r l c * (if Nat.eqb (rows - 1) l then 1 else 0))).
  { apply lsum_ext. intros l Hl. apply in_seq in Hl. rewrite lsum_scal. f_equal. apply HO; lia. }
  apply sum0_zero. intros l Hl. destruct (Nat.eqb_spec (rows - 1) l) as [<-|]; [|ring]. rewrite HR by lia. ring.
Qed.

(** ** the matrix: moments divided by factorials *)
Definition mom (beta : R) (n : nat) : R := INR (fact n) * iw_rhs beta n.
Lemma fact_le_div a b : (a <= b)%nat -> exists k, fact b = (k * fact a)%nat.
Proof.
  induction b as [|b IH]; intros H; [exists 1%nat; replace a with 0%nat by lia; reflexivity|].
  destruct (Nat.eq_dec a (S b)) as [->|Hne]; [exists 1%nat; lia|]. destruct IH as (k & E); [lia|]. exists (S b * k)%nat. change (fact (S b)) with (S b * fact b)%nat. rewrite E. lia.
Qed.
Lemma i_f3_val m k : i_f3 m k = INR (fact (k + m)) * b_coeff (k + m) / (INR (fact (2 * k)) * INR (fact (2 * m))).
Proof.
  unfold i_f3. rewrite (Nat.add_comm m k). destruct (fact_le_div (k + m) (2 * Nat.max m k)) as (d & E); [lia|].
  pose proof (fact_neq_0 (k + m)) as F0. rewrite E at 1. rewrite Nat.div_mul by exact F0.
  assert (P : INR d * INR (fact (k + m)) * INR (fact (2 * Nat.min k m)) = INR (fact (2 * k)) * INR (fact (2 * m))).
  { rewrite <- mult_INR, <- E. destruct (Nat.le_gt_cases m k) as [L|L].
    - rewrite Nat.max_r, Nat.min_r by lia. reflexivity.
    - rewrite Nat.max_l, Nat.min_l by lia. apply Rmult_comm. }
  pose proof (INR_fact_neq_0 (k + m)). pose proof (INR_fact_neq_0 (2 * k)). pose proof (INR_fact_neq_0 (2 * m)). pose proof (INR_fact_neq_0 (2 * Nat.min k m)).
  assert (INR d <> 0). { intros Z. rewrite Z, !Rmult_0_l in P. symmetry in P. apply Rmult_integral in P. tauto. }
  rewrite mult_INR, <- P. field. auto.
Qed.
Lemma i_nj_val f b0 b1 n m j : (j < 2)%nat -> i_nj [f; f] [b0; b1] n m j = mom (nth j [b0; b1] 0) (n + m) / (INR (fact (2 * n)) * INR (fact (2 * m))).
Proof.
  intros Hj. unfold i_nj. replace (nth j [f; f] 0 - nth 0 [f; f] 0) with 0 by (destruct j as [|[|j]]; [cbn; ring|cbn; ring|lia]).
  fold (sum0 (S n) (fun k => Binomial.C n k * 0 ^ (n - k) * / nth j [b0; b1] 0 ^ (k + m) * i_f3 m k)). rewrite sum0_S, sum0_zero.
  - assert (C1 : Binomial.C n n = 1) by (unfold Binomial.C; rewrite Nat.sub_diag; cbn [fact INR]; pose proof (INR_fact_neq_0 n); field; assumption).
    rewrite C1, Nat.sub_diag, i_f3_val. unfold mom, iw_rhs, Rdiv. cbn [pow]. ring.
  - intros k Hk. rewrite pow_i by lia. ring.
Qed.

(** ** from sums of moments to integrals *)
Fixpoint momsum (beta : R) (ds : list R) (s : nat) : R := match ds with [] => 0 | d :: r => momsum beta r (S s) + d * mom beta s end.
Lemma momsum_int beta mu : 0 < beta -> forall ds s, is_improper (fun e => (e - mu) ^ s * peval ds (e - mu) * wb beta (e - mu)) (momsum beta ds s).
Proof.
  intros Hb. induction ds as [|d ds IH]; intros s; cbn [peval momsum].
  - refine (improper_ext _ _ _ _ improper_zero). intro. ring.
  - pose proof (improper_lin _ _ _ _ d (IH (S s)) (moment_beta s beta mu Hb)) as I. refine (improper_ext _ _ _ _ I). intro e. cbn [pow]. ring.
Qed.
Lemma orth_from beta mu p K : 0 < beta -> (forall n, (n < K)%nat -> momsum beta p n = 0) -> orthogonal beta mu p K.
Proof.
  intros Hb H. assert (G : forall t s, (s + length t <= K)%nat -> is_improper (fun e => (e - mu) ^ s * peval p (e - mu) * peval t (e - mu) * wb beta (e - mu)) 0).
  { induction t as [|c t IH]; intros s L; cbn [peval].
    - refine (improper_ext _ _ _ _ improper_zero). intro. ring.
    - cbn [length] in L. pose proof (momsum_int beta mu Hb p s) as M. rewrite (H s) in M by lia.
      pose proof (improper_lin _ _ _ _ c (IH (S s) ltac:(lia)) M) as I. replace (0 + c * 0) with 0 in I by ring.
      refine (improper_ext _ _ _ _ I). intro e. cbn [pow]. ring. }
  intros t L. refine (improper_ext _ _ _ _ (G t 0%nat ltac:(lia))). intro e. cbn [pow]. ring.
Qed.
Lemma momsum_sum beta : forall ds s, momsum beta ds s = sum0 (length ds) (fun m => nth m ds 0 * mom beta (s + m)).
Proof.
  induction ds as [|d ds IH]; intros s; [reflexivity|]. cbn [momsum length]. rewrite IH. unfold sum0. cbn [seq]. rewrite <- seq_shift.
  change (lsum (0%nat :: map S (seq 0 (length ds))) (fun m => nth m (d :: ds) 0 * mom beta (s + m))) with
    (d * mom beta (s + 0) + lsum (map S (seq 0 (length ds))) (fun m => nth m (d :: ds) 0 * mom beta (s + m))).
  rewrite lsum_map, Nat.add_0_r, Rplus_comm. f_equal. apply lsum_ext. intros k _. cbn [nth]. replace (s + S k)%nat with (S s + k)%nat by lia. reflexivity.
Qed.

(** the polynomial, lowest power first *)
Definition ip_low (N : nat) (q : nat -> nat -> R) : list R := map (fun m => q m N / INR (fact (2 * m))) (seq 0 (S N)).
Lemma ip_rev N q : rev (ip_poly N q) = ip_low N q.
Proof.
  apply (nth_ext _ _ 0 0); [rewrite rev_length; unfold ip_poly, ip_low; rewrite !map_length; reflexivity|]. intros i Hi. rewrite rev_length in Hi. rewrite rev_nth by exact Hi.
  unfold ip_poly, ip_low in *. rewrite map_length, seq_length in *.
  rewrite (nth_indep _ 0 (q (N - 0)%nat N / INR (fact (2 * (N - 0))))) by (rewrite map_length, seq_length; lia).
  rewrite (map_nth (fun i => q (N - i)%nat N / INR (fact (2 * (N - i))))), seq_nth by lia.
  rewrite (nth_indep _ 0 (q 0%nat N / INR (fact (2 * 0)))) by (rewrite map_length, seq_length; lia).
  rewrite (map_nth (fun m => q m N / INR (fact (2 * m)))), seq_nth by lia. replace (N - (0 + (S N - S i)))%nat with (0 + i)%nat by lia. reflexivity.
Qed.
Lemma ip_low_nth N q m : (m <= N)%nat -> nth m (ip_low N q) 0 = q m N / INR (fact (2 * m)).
Proof.
  intros H. unfold ip_low. rewrite (nth_indep _ 0 (q 0%nat N / INR (fact (2 * 0)))) by (rewrite map_length, seq_length; lia).
  rewrite (map_nth (fun m => q m N / INR (fact (2 * m)))), seq_nth by lia. reflexivity.
Qed.
Lemma ip_low_len N q : length (ip_low N q) = S N.
Proof. unfold ip_low. rewrite map_length, seq_length. reflexivity. Qed.
Lemma ip_momsum N q beta n : momsum beta (ip_low N q) n = INR (fact (2 * n)) * sum0 (S N) (fun m => q m N * (mom beta (n + m) / (INR (fact (2 * n)) * INR (fact (2 * m))))).
Proof.
  rewrite momsum_sum, ip_low_len. unfold sum0. rewrite <- lsum_scal. apply lsum_ext. intros m Hm. apply in_seq in Hm. rewrite ip_low_nth by lia.
  pose proof (INR_fact_neq_0 (2 * n)). pose proof (INR_fact_neq_0 (2 * m)). field. auto.
Qed.
Lemma ip_nonzero N A q : is_qr (S N) N A q -> Exists (fun c => c <> 0) (ip_low N q).
Proof.
  intros (HO & _). assert (S := HO N N ltac:(lia) ltac:(lia)). rewrite Nat.eqb_refl in S.
  destruct (Exists_dec (fun c => c <> 0) (ip_low N q)) as [E|E]; [intros x; destruct (Req_EM_T x 0); [right; tauto|left; assumption]|exact E|].
  exfalso. rewrite sum0_zero in S; [lra|]. intros k Hk. assert (Z : q k N = 0); [|rewrite Z; ring].
  destruct (Req_EM_T (q k N) 0) as [Z|Z]; [exact Z|]. exfalso. apply E. apply Exists_exists. exists (nth k (ip_low N q) 0). split; [apply nth_In; rewrite ip_low_len; lia|].
  rewrite ip_low_nth by lia. pose proof (INR_fact_neq_0 (2 * k)). unfold Rdiv. apply Rmult_integral_contrapositive. split; [exact Z|apply Rinv_neq_0_compat; assumption].
Qed.

(** ** the zeros *)
Definition rprod (rs : list R) (e : R) : R := fold_right (fun r acc => (e - r) * acc) 1 rs.
Lemma rprod_app l1 l2 e : rprod (l1 ++ l2) e = rprod l1 e * rprod l2 e.
Proof. unfold rprod. induction l1 as [|x l IH]; cbn; [ring|]. rewrite IH. ring. Qed.
Lemma rprod_zero rs e : rprod rs e = 0 <-> In e rs.
Proof.
  unfold rprod. induction rs as [|r rs IH]; cbn [fold_right In]; [split; [lra|tauto]|]. split.
  - intros H. apply Rmult_integral in H. destruct H as [H|H]; [left; lra|right; apply IH, H].
  - intros [->|H]; [ring|]. rewrite (proj2 IH H). ring.
Qed.
Lemma rprod_poly rs : exists g, forall e, peval g e = rprod rs e.
Proof.
  induction rs as [|r rs (g & E)]; [exists [1]; intros; cbn; ring|]. exists (padd (0 :: g) (map (Rmult (- r)) g)). intros e. rewrite padd_eval, pscale. cbn [peval].
  rewrite E. unfold rprod. cbn [fold_right]. ring.
Qed.
Lemma cprod_real rs e : (forall r, In r rs -> snd r = 0) -> cprod rs (e, 0) = (rprod (map fst rs) e, 0).
Proof.
  intros H. induction rs as [|[r i] rs IH]; [reflexivity|]. cbn [map fst rprod cprod fold_right] in *. change (fold_right _ (1, 0) rs) with (cprod rs (e, 0)).
  rewrite IH by (intros x Hx; apply H; right; exact Hx). assert (Z := H (r, i) (or_introl eq_refl)). cbn in Z. subst i. apply cplx_eq; cbn; unfold rprod; ring.
Qed.
Lemma cprod_zero rs z : In z rs -> cprod rs z = (0, 0).
Proof.
  induction rs as [|r rs IH]; [intros []|]. intros [->|H]; cbn [cprod fold_right].
  - apply cplx_eq; cbn; ring.
  - change (fold_right _ (1, 0) rs) with (cprod rs z). rewrite (IH H). apply cplx_eq; cbn; ring.
Qed.
Lemma dup_split (l : list R) : ~ NoDup l -> exists a l1 l2 l3, l = l1 ++ a :: l2 ++ a :: l3.
Proof.
  induction l as [|x l IH]; intros H; [exfalso; apply H; constructor|]. destruct (in_dec Req_EM_T x l) as [I|I].
  - apply in_split in I. destruct I as (l2 & l3 & ->). exists x, [], l2, l3. reflexivity.
  - destruct IH as (a & l1 & l2 & l3 & ->); [intros C; apply H; constructor; assumption|]. exists a, (x :: l1), l2, l3. reflexivity.
Qed.
Lemma NoDup_dec (l : list R) : NoDup l \/ ~ NoDup l.
Proof.
  induction l as [|x l [IH|IH]]; [left; constructor| |right; intros C; inversion C; auto]. destruct (in_dec Req_EM_T x l) as [I|I]; [right; intros C; inversion C; auto|left; constructor; assumption].
Qed.
Lemma sorted_strict l : StronglySorted Rle l -> NoDup l -> StronglySorted Rlt l.
Proof.
  induction 1 as [|x l S IH F]; intros N; [constructor|]. inversion N as [|y z N1 N2]; subst. constructor; [apply IH, N2|]. rewrite Forall_forall in *.
  intros y Hy. destruct (F y Hy) as [L|E]; [exact L|]. subst y. contradiction.
Qed.
Lemma sorted_shift f l : StronglySorted Rlt l -> StronglySorted Rlt (map (Rplus f) l).
Proof.
  induction 1 as [|x l S IH F]; [constructor|]. cbn [map]. constructor; [exact IH|]. rewrite Forall_forall in *. intros y Hy. apply in_map_iff in Hy. destruct Hy as (z & <- & Hz).
  specialize (F z Hz). lra.
Qed.
(** zeros of a polynomial whose zeros are real and simple, moved by [f] and sorted *)
Lemma points_of N (p : list R) rs f : length p = S N -> nth N p 0 <> 0 -> is_roots (rev p) rs ->
  (forall r, In r rs -> snd r = 0) ->
  (forall e, peval p e = nth N p 0 * rprod (map fst rs) e) /\
  length (map (Rplus f) (rsort (map fst rs))) = N /\
  forall x, In x (map (Rplus f) (rsort (map fst rs))) <-> peval p (x - f) = 0.
Proof.
  intros HL H0 HR HS. assert (HD : hd 0 (rev p) = nth N p 0).
  { rewrite <- (rev_involutive p) at 2. rewrite rev_nth by (rewrite rev_length; lia). rewrite rev_length, HL, Nat.sub_diag. destruct (rev p); reflexivity. }
  destruct HR as (LR & ER); [rewrite HD; exact H0|]. rewrite rev_length, HL in LR. rewrite HD, rev_involutive in ER.
  assert (EP : forall e, peval p e = nth N p 0 * rprod (map fst rs) e).
  { intros e. assert (X := ER (e, 0)). rewrite cpeval_real, (cprod_real rs e HS) in X. injection X as X _. lra. }
  split; [exact EP|]. split.
  - rewrite map_length, <- (Permutation_length (rsort_perm _)), map_length. etransitivity; [exact LR|lia].
  - intros x. rewrite EP. rewrite in_map_iff. split.
    + intros (y & <- & Hy). replace (f + y - f) with y by ring. rewrite (proj2 (rprod_zero _ _)); [ring|]. apply (Permutation_in y (Permutation_sym (rsort_perm _)) Hy).
    + intros H. apply Rmult_integral in H. destruct H as [H|H]; [contradiction|]. apply rprod_zero in H. exists (x - f). split; [ring|]. apply (Permutation_in _ (rsort_perm _) H).
Qed.

(** ** one temperature *)
Section One.
Variables (qr : nat -> nat -> (nat -> nat -> R) -> nat -> nat -> R) (roots : list R -> list cplx) (kB fermi : R).
Notation A tmin tmax N := (ip_mat fermi (1 / (kB * tmax)) (1 / (kB * (tmax + tmin) / 2)) (Reqb tmin tmax) N).
Notation Q tmin tmax N := (qr (S N) N (A tmin tmax N)).
(** what qr and np.roots have to satisfy in one call *)
Definition good_libs (tmin tmax : R) (N : nat) : Prop :=
  is_qr (S N) N (A tmin tmax N) (Q tmin tmax N) /\ is_roots (ip_poly N (Q tmin tmax N)) (roots (ip_poly N (Q tmin tmax N))).

Lemma one_orth T N : 0 < kB -> 0 < T -> is_qr (S N) N (A T T N) (Q T T N) -> orthogonal (1 / (kB * T)) fermi (ip_low N (Q T T N)) N.
Proof.
  intros Hk HT HQ. apply orth_from; [apply Rdiv_lt_0_compat; [lra|apply Rmult_lt_0_compat; assumption]|]. intros n Hn. rewrite ip_momsum.
  assert (X := qr_last _ _ _ _ n HQ ltac:(lia) Hn). replace (S N - 1)%nat with N in X by lia.
  replace (sum0 (S N) _) with 0; [ring|]. rewrite <- X at 1. apply lsum_ext. intros m _. f_equal.
  unfold ip_mat. replace (Reqb T T) with true by (unfold Reqb; destruct (Req_EM_T T T); [reflexivity|lra]). rewrite i_nj_val by lia. reflexivity.
Qed.

(** the points are the zeros of the polynomial of degree N that is orthogonal to all polynomials of smaller degree; they are real,
    different and ascending *)
Theorem C160_points_partial : forall T N, 0 < kB -> 0 < T -> Nat.odd N = true -> (N <> 1%nat -> good_libs T T N) ->
  exists xs p, integration_points qr roots kB fermi T T N = Some xs /\ length xs = N /\ StronglySorted Rlt xs /\
    length p = S N /\ nth N p 0 <> 0 /\ (forall x, In x xs <-> peval p (x - fermi) = 0) /\ orthogonal (1 / (kB * T)) fermi p N.
Proof.
  intros T N Hk HT HN HG. assert (Hb : 0 < 1 / (kB * T)) by (apply Rdiv_lt_0_compat; [lra|apply Rmult_lt_0_compat; assumption]).
  destruct (Nat.eq_dec N 1) as [->|N1].
  - exists [fermi], [0; 1]. split; [reflexivity|]. split; [reflexivity|]. split; [repeat constructor|]. split; [reflexivity|]. split; [cbn; lra|]. split.
    + intros x. cbn. split; [intros [->|[]]; ring|intros H; left; lra].
    + apply orth_from; [exact Hb|]. intros n Hn. replace n with 0%nat by lia. cbn [momsum]. unfold mom, iw_rhs. rewrite b1_val. ring.
  - destruct (HG N1) as (HQ & HR). assert (N0 : N <> 0%nat) by (intros ->; discriminate).
    pose proof (one_orth T N Hk HT HQ) as HO. set (q := Q T T N) in *. pose proof (ip_nonzero N _ _ HQ) as HE. fold q in HE.
    pose proof (ip_low_len N q) as HL. pose proof (orth_lead _ _ N _ Hb HL HO HE) as H0.
    rewrite <- (rev_involutive (ip_poly N q)), ip_rev in HR.
    assert (HS : forall r, In r (roots (rev (ip_low N q))) -> snd r = 0).
    { intros r Hr. apply (orth_real _ _ N _ Hb HL r HO HE).
      assert (HD : hd 0 (rev (ip_low N q)) <> 0).
      { rewrite <- (rev_involutive (ip_low N q)) in H0. rewrite rev_nth in H0 by (rewrite rev_length; lia). rewrite rev_length, HL, Nat.sub_diag in H0. destruct (rev (ip_low N q)); exact H0. }
      destruct (HR HD) as (_ & ER). rewrite rev_involutive in ER. rewrite ER, (cprod_zero _ _ Hr). apply cplx_eq; cbn; ring. }
    destruct (points_of N (ip_low N q) _ fermi HL H0 HR HS) as (EP & LX & IX).
    exists (map (Rplus fermi) (rsort (map fst (roots (rev (ip_low N q)))))), (ip_low N q). split.
    { unfold integration_points. rewrite (proj2 (Nat.eqb_neq N 0) N0), (proj2 (Nat.eqb_neq N 1) N1). unfold Rleb. destruct (Rle_dec T T); [|lra]. cbn [negb].
      rewrite <- Nat.negb_odd, HN. cbn [negb]. cbv zeta. fold q. rewrite <- (ip_rev N q), rev_involutive. reflexivity. }
    split; [exact LX|]. split; [|split; [exact HL|split; [exact H0|split; [exact IX|exact HO]]]].
    apply sorted_shift, sorted_strict; [apply rsort_sorted|]. apply (Permutation_NoDup (rsort_perm _)).
    destruct (NoDup_dec (map fst (roots (rev (ip_low N q))))) as [ND|ND]; [exact ND|]. exfalso. apply dup_split in ND. destruct ND as (a & l1 & l2 & l3 & E).
    destruct (rprod_poly (l1 ++ l2 ++ l3)) as (g & Eg). apply (orth_simple _ _ N _ Hb HL a (map (Rmult (nth N (ip_low N q) 0)) g) HO HE).
    intros e. rewrite EP, E, pscale, Eg, !rprod_app. change (rprod (a :: l2 ++ a :: l3) e) with ((e - a) * rprod (l2 ++ a :: l3) e). rewrite rprod_app.
    change (rprod (a :: l3) e) with ((e - a) * rprod l3 e). ring.
Qed.
End One.
Print Assumptions C160_points_partial.

(** ** exactness *)
Lemma qsum_ext x w f g : (forall e, In e x -> f e = g e) -> qsum x w f = qsum x w g.
Proof. intros H. unfold qsum. apply lsum_ext. intros [e v] He. cbn [fst snd]. rewrite (H e) by (eapply in_combine_l; exact He). reflexivity. Qed.
Lemma gauss_exact beta mu N p x w K : length p = S N -> nth N p 0 <> 0 -> (forall e, In e x -> peval p (e - mu) = 0) -> orthogonal beta mu p K ->
  (forall cs, (length cs <= N)%nat -> is_improper (fun e => peval cs e * wb beta (e - mu)) (qsum x w (peval cs))) ->
  forall cs, (length cs <= N + K)%nat -> is_improper (fun e => peval cs e * wb beta (e - mu)) (qsum x w (peval cs)).
Proof.
  intros HL H0 HX HO HE cs HC. destruct (recentre mu cs) as (ds & Ld & Ed). destruct (pdiv N p HL H0 ds) as (t & r & Lr & Lt & E).
  destruct (recentre (- mu) r) as (r' & Lr' & Er').
  assert (D : forall e, peval cs e = peval p (e - mu) * peval t (e - mu) + peval r' e).
  { intros e. rewrite Ed. assert (X := E (e - mu, 0)). rewrite !cpeval_real in X. injection X as X _. rewrite X. specialize (Er' (e - mu)).
    replace (e - mu - - mu) with e in Er' by ring. rewrite Er'. ring. }
  rewrite (qsum_ext x w (peval cs) (peval r')) by (intros e He; rewrite D, (HX e He); ring).
  pose proof (improper_lin _ _ _ _ 1 (HO t ltac:(lia)) (HE r' ltac:(lia))) as I. replace (0 + 1 * qsum x w (peval r')) with (qsum x w (peval r')) in I by ring.
  refine (improper_ext _ _ _ _ I). intros e. cbn beta. rewrite D. ring.
Qed.

(** the weights of all temperatures solve their systems *)
Definition good_solve (solve : list (list R) -> list R -> list R) (x : list R) (mubeta : list (R * R)) : Prop :=
  forall mu beta, In (mu, beta) mubeta -> 0 < beta <= 10 ^ 16 /\
    let N := length x in
    solves (map (iw_row x mu) (seq 0 N)) (map (iw_rhs beta) (seq 0 N)) (solve (map (iw_row x mu) (seq 0 N)) (map (iw_rhs beta) (seq 0 N))).

(** the rule for one temperature is exact for all polynomials of degree < 2 N, if no point is filtered out *)
Theorem C160_gauss_partial : forall qr roots kB fermi T N xs solve mubeta emin emax rtol x' ws j,
  0 < kB -> 0 < T -> good_libs qr roots kB fermi T T N ->
  integration_points qr roots kB fermi T T N = Some xs -> good_solve solve xs mubeta ->
  integration_weights solve xs mubeta emin emax rtol = IWPair x' ws -> length x' = length xs -> nth_error mubeta j = Some (fermi, 1 / (kB * T)) ->
  forall cs, (length cs <= 2 * N)%nat ->
  is_improper (fun e => peval cs e * wb (1 / (kB * T)) (e - fermi)) (qsum x' (nth j ws []) (peval cs)).
Proof.
  intros qr roots kB fermi T N xs solve mubeta emin emax rtol x' ws j Hk HT HG HI HS HW HL Hj cs HC.
  assert (HN : Nat.odd N = true).
  { unfold integration_points in HI. destruct (Nat.eqb_spec N 0); [discriminate|]. destruct (Nat.eqb_spec N 1); [subst N; reflexivity|].
    destruct (negb (Rleb T T)); [discriminate|]. destruct (Nat.even N) eqn:E; [discriminate|]. rewrite <- Nat.negb_even, E. reflexivity. }
  destruct (C160_points_partial qr roots kB fermi T N Hk HT HN (fun _ => HG)) as (xs' & p & E & LX & _ & LP & H0 & IX & HO).
  rewrite HI in E. injection E as <-.
  destruct (C52_partial solve xs mubeta emin emax rtol x' ws HS HW HL) as (_ & -> & EX). specialize (EX j fermi _ Hj). rewrite LX in EX.
  apply (gauss_exact _ _ N p xs _ N); auto; [intros e He; apply IX; exact He|lia].
Qed.
Print Assumptions C160_gauss_partial.

(** the weights of this rule are positive: there is no warning *)
Lemma rprod_list rs : exists g, length g = S (length rs) /\ forall e, peval g e = rprod rs e.
Proof.
  induction rs as [|r rs (g & L & E)]; [exists [1]; split; [reflexivity|]; intros; cbn; ring|]. exists (padd (0 :: g) (map (Rmult (- r)) g)). split; [rewrite padd_len, map_length; cbn [length]; lia|].
  intros e. rewrite padd_eval, pscale. cbn [peval]. rewrite E. unfold rprod. cbn [fold_right]. ring.
Qed.
Lemma rprod_above rs : exists M, forall e, M < e -> 0 < rprod rs e.
Proof.
  induction rs as [|r rs (M & H)]; [exists 0; intros; cbn; lra|]. exists (Rmax M r). intros e He. pose proof (Rmax_l M r). pose proof (Rmax_r M r).
  unfold rprod. cbn [fold_right]. change (fold_right _ 1 rs) with (rprod rs e). apply Rmult_lt_0_compat; [lra|apply H; lra].
Qed.
Lemma combine_mid {A B} (l1 l2 : list A) (w1 w2 : list B) a c : length l1 = length w1 -> combine (l1 ++ a :: l2) (w1 ++ c :: w2) = combine l1 w1 ++ (a, c) :: combine l2 w2.
Proof. revert w1. induction l1 as [|x l IH]; intros [|y w] H; try discriminate; [reflexivity|]. cbn [app combine]. f_equal. apply IH. injection H. auto. Qed.
Theorem C160_positive_partial : forall qr roots kB fermi T N xs solve mubeta emin emax rtol x' ws j,
  0 < kB -> 0 < T -> good_libs qr roots kB fermi T T N ->
  integration_points qr roots kB fermi T T N = Some xs -> good_solve solve xs mubeta ->
  integration_weights solve xs mubeta emin emax rtol = IWPair x' ws -> length x' = length xs -> nth_error mubeta j = Some (fermi, 1 / (kB * T)) ->
  length (nth j ws []) = N /\ forall i, (i < N)%nat -> 0 < nth i (nth j ws []) 0.
Proof.
  intros qr roots kB fermi T N xs solve mubeta emin emax rtol x' ws j Hk HT HG HI HS HW HL Hj.
  assert (HN : Nat.odd N = true).
  { unfold integration_points in HI. destruct (Nat.eqb_spec N 0); [discriminate|]. destruct (Nat.eqb_spec N 1); [subst N; reflexivity|].
    destruct (negb (Rleb T T)); [discriminate|]. destruct (Nat.even N) eqn:E; [discriminate|]. rewrite <- Nat.negb_even, E. reflexivity. }
  destruct (C160_points_partial qr roots kB fermi T N Hk HT HN (fun _ => HG)) as (xs' & p & E & LX & SX & _).
  rewrite HI in E. injection E as <-. pose proof (C160_gauss_partial qr roots kB fermi T N xs solve mubeta emin emax rtol x' ws j Hk HT HG HI HS HW HL Hj) as GX.
  destruct (C52_partial solve xs mubeta emin emax rtol x' ws HS HW HL) as (LW & -> & _).
  assert (Hb : 0 < 1 / (kB * T)) by (apply Rdiv_lt_0_compat; [lra|apply Rmult_lt_0_compat; assumption]).
  assert (LN : length (nth j ws []) = N).
  { unfold integration_weights in HW. destruct (Nat.even (length xs)); [discriminate|]. destruct (Nat.eqb (length xs) 1); [discriminate|].
    destruct (all_some _) as [w|] eqn:AS; [|discriminate]. injection HW as HK <-. rewrite map_length in LW. destruct (all_some_nth _ _ AS) as [Lw Nw]. rewrite map_length in Lw, Nw.
    assert (jl : (j < length mubeta)%nat) by (apply nth_error_Some; congruence). pose proof (Nw j [] jl) as n.
    rewrite (nth_indep _ None (iw_weights solve xs (fst (0, 0)) (snd (0, 0)))) in n by (rewrite map_length; exact jl).
    rewrite (map_nth (fun mb => iw_weights solve xs (fst mb) (snd mb))), (nth_error_nth mubeta j (0, 0) Hj) in n. cbn [fst snd] in n. unfold iw_weights in n.
    destruct (HS _ _ (nth_error_In _ _ Hj)) as ((_ & B2) & SL & _). rewrite Rltb_f in n by exact B2. injection n as n. rewrite map_length, seq_length in SL.
    set (sel := iw_select xs w emin emax rtol) in *. rewrite (nth_indep _ [] (keep sel [])) by (rewrite map_length; lia). rewrite map_nth.
    assert (HK' : length (keep sel xs) = length xs) by (rewrite HK; reflexivity). pose proof (keep_length_all sel xs HK') as all.
    assert (LJ : length (nth j w []) = length xs) by (rewrite <- n; exact SL).
    rewrite keep_all by (intros i Hi; apply all; lia). lia. }
  split; [exact LN|]. intros i Hi. set (w := nth j ws []) in *.
  destruct (nth_split xs 0 (n:=i) ltac:(lia)) as (l1 & l2 & EX & L1). destruct (nth_split w 0 (n:=i) ltac:(lia)) as (w1 & w2 & EW & L2).
  set (a := nth i xs 0) in *. set (c := nth i w 0) in *. set (l := l1 ++ l2). destruct (rprod_list (l ++ l)) as (g & LG & EG).
  assert (LL : length l = (N - 1)%nat). { unfold l. rewrite app_length. rewrite <- LX, EX, app_length. cbn [length]. lia. }
  assert (GI := GX g ltac:(rewrite LG, app_length, LL; lia)). rewrite EX, EW in GI. unfold qsum in GI. rewrite combine_mid in GI by lia. rewrite lsum_app in GI.
  change (lsum ((a, c) :: combine l2 w2) (fun q => peval g (fst q) * snd q)) with (peval g a * c + lsum (combine l2 w2) (fun q => peval g (fst q) * snd q)) in GI.
  assert (Z : forall u v, (forall e, In e u -> In e l) -> lsum (combine u v) (fun q => peval g (fst q) * snd q) = 0).
  { intros u v H. rewrite <- (lsum_zero (combine u v)). apply lsum_ext. intros [e k] He. cbn [fst snd]. apply in_combine_l in He. rewrite EG, rprod_app.
    rewrite (proj2 (rprod_zero l e) (H e He)). ring. }
  rewrite !Z in GI by (intros e He; unfold l; apply in_or_app; auto). rewrite EG, rprod_app in GI.
  assert (NA : rprod l a <> 0).
  { intros H. apply rprod_zero in H. assert (ND : NoDup xs). { clear -SX. induction SX as [|x m S IH F]; constructor; [|exact IH]. intros C. rewrite Forall_forall in F. specialize (F x C). lra. }
    rewrite EX in ND. apply NoDup_remove_2 in ND. apply ND. exact H. }
  destruct (rprod_above l) as (M & HM).
  apply (improper_pos _ _ (M + 1) (M + 2)) in GI.
  - assert (0 < rprod l a * rprod l a) by nra. replace (0 + (rprod l a * rprod l a * c + 0)) with (rprod l a * rprod l a * c) in GI by ring.
    apply (Rmult_lt_reg_l (rprod l a * rprod l a)); [assumption|]. rewrite Rmult_0_r. exact GI.
  - intros x. apply (continuous_mult (K:=R_AbsRing) (peval g) (fun e => wb (1 / (kB * T)) (e - fermi))); [apply peval_cont|].
    apply (continuous_comp (fun e => e - fermi) (wb (1 / (kB * T)))); [apply (continuous_minus (V:=R_NormedModule)); [apply continuous_id|apply continuous_const]|apply wb_cont].
  - intros x. rewrite EG, rprod_app. pose proof (wb_pos (1 / (kB * T)) (x - fermi) Hb). apply Rmult_le_pos; [nra|lra].
  - lra.
  - intros x Hx. rewrite EG, rprod_app. pose proof (wb_pos (1 / (kB * T)) (x - fermi) Hb). specialize (HM x ltac:(lra)). apply Rmult_lt_0_compat; [nra|lra].
Qed.
Print Assumptions C160_positive_partial.

(** ** two temperatures: N/2 - 1 conditions at T_max and the others at the mean temperature *)
Theorem C160_two_partial : forall qr roots kB fermi tmin tmax N xs solve mubeta emin emax rtol x' ws j T,
  0 < kB -> 0 < tmin < tmax -> (1 < N)%nat -> good_libs qr roots kB fermi tmin tmax N ->
  let q := qr (S N) N (ip_mat fermi (1 / (kB * tmax)) (1 / (kB * (tmax + tmin) / 2)) false N) in
  q N N <> 0 -> (forall r, In r (roots (ip_poly N q)) -> snd r = 0) ->
  integration_points qr roots kB fermi tmin tmax N = Some xs -> good_solve solve xs mubeta ->
  integration_weights solve xs mubeta emin emax rtol = IWPair x' ws -> length x' = length xs -> nth_error mubeta j = Some (fermi, 1 / (kB * T)) ->
  forall cs, T = tmax /\ (length cs <= N + (N / 2 - 1))%nat \/ T = (tmax + tmin) / 2 /\ (length cs <= N + (N - (N / 2 - 1)))%nat ->
  is_improper (fun e => peval cs e * wb (1 / (kB * T)) (e - fermi)) (qsum x' (nth j ws []) (peval cs)).
Proof.
  intros qr roots kB fermi tmin tmax N xs solve mubeta emin emax rtol x' ws j T Hk Ht HN (HQ & HR) q Hq HS HI HV HW HL Hj cs HC.
  assert (EQ : Reqb tmin tmax = false) by (unfold Reqb; destruct (Req_EM_T tmin tmax); [lra|reflexivity]). rewrite EQ in HQ, HR. fold q in HQ, HR.
  assert (N2 : (N / 2 - 1 < N)%nat) by (pose proof (Nat.div_lt N 2); lia).
  assert (HT : 0 < T) by (destruct HC as [(-> & _)|(-> & _)]; lra).
  assert (Hb : 0 < 1 / (kB * T)) by (apply Rdiv_lt_0_compat; [lra|apply Rmult_lt_0_compat; lra]).
  pose proof (ip_low_len N q) as HP. assert (H0 : nth N (ip_low N q) 0 <> 0).
  { rewrite ip_low_nth by lia. unfold Rdiv. apply Rmult_integral_contrapositive. split; [exact Hq|]. apply Rinv_neq_0_compat, INR_fact_neq_0. }
  assert (EX : xs = map (Rplus fermi) (rsort (map fst (roots (ip_poly N q))))).
  { unfold integration_points in HI. destruct (Nat.eqb_spec N 0); [lia|]. destruct (Nat.eqb_spec N 1); [lia|]. destruct (negb (Rleb tmin tmax)); [discriminate|].
    destruct (Nat.even N); [discriminate|]. cbv zeta in HI. rewrite EQ in HI. injection HI as <-. reflexivity. }
  rewrite <- (rev_involutive (ip_poly N q)), ip_rev in HR, HS, EX.
  destruct (points_of N (ip_low N q) _ fermi HP H0 HR HS) as (_ & LX & IX). rewrite <- EX in LX, IX.
  destruct (C52_partial solve xs mubeta emin emax rtol x' ws HV HW HL) as (_ & -> & EE). specialize (EE j fermi _ Hj). rewrite LX in EE.
  assert (COL : forall c, (c < N)%nat -> sum0 (S N) (fun m => q m N * ip_mat fermi (1 / (kB * tmax)) (1 / (kB * (tmax + tmin) / 2)) false N m c) = 0).
  { intros c Hc. assert (X := qr_last _ _ _ _ c HQ ltac:(lia) Hc). replace (S N - 1)%nat with N in X by lia. exact X. }
  destruct HC as [(-> & HC)|(-> & HC)].
  - apply (gauss_exact _ _ N (ip_low N q) xs _ (N / 2 - 1)); auto; [intros e He; apply IX; exact He|]. apply orth_from; [exact Hb|]. intros n Hn. rewrite ip_momsum.
    replace (sum0 (S N) _) with 0; [ring|]. rewrite <- (COL n ltac:(lia)) at 1. apply lsum_ext. intros m _. f_equal. unfold ip_mat. cbv zeta.
    rewrite (proj2 (Nat.ltb_lt _ _) Hn), i_nj_val by lia. reflexivity.
  - apply (gauss_exact _ _ N (ip_low N q) xs _ (N - (N / 2 - 1))); auto; [intros e He; apply IX; exact He|]. apply orth_from; [exact Hb|]. intros n Hn. rewrite ip_momsum.
    replace (sum0 (S N) _) with 0; [ring|]. rewrite <- (COL (n + (N / 2 - 1))%nat ltac:(lia)) at 1. apply lsum_ext. intros m _. f_equal. unfold ip_mat. cbv zeta.
    rewrite (proj2 (Nat.ltb_ge _ _)) by lia. rewrite Nat.add_sub, i_nj_val by lia. cbn [nth]. replace (1 / (kB * (tmax + tmin) / 2)) with (1 / (kB * ((tmax + tmin) / 2))) by (field; lra). reflexivity.
Qed.
Print Assumptions C160_two_partial.

(** errors *)
Theorem C160_errors : forall qr roots kB fermi tmin tmax N,
  integration_points qr roots kB fermi tmin tmax N = None <-> N = 0%nat \/ (1 < N)%nat /\ (tmax < tmin \/ Nat.even N = true).
Proof.
  intros qr roots kB fermi tmin tmax N. unfold integration_points. destruct (Nat.eqb_spec N 0); [tauto|]. destruct (Nat.eqb_spec N 1).
  - split; [discriminate|]. lia.
  - unfold Rleb. destruct (Rle_dec tmin tmax) as [L|L]; cbn [negb].
    + destruct (Nat.even N); [split; [intros _; right; split; [lia|tauto]|reflexivity]|]. split; [discriminate|]. intros [H|[_ [H|H]]]; [contradiction|lra|discriminate].
    + split; [intros _; right; split; [lia|left; lra]|reflexivity].
Qed.

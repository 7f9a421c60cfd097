(** Conjugate gradients (C39, C58), point clouds (C40), block matrices (C41). *)
From Coq Require Import List Arith ZArith Reals Bool Lra Lia Permutation.
Import ListNotations.
From Verif Require Import SRing LMat FMat CplxR FourierModel FourierProofs NbrModel NbrProps UrepProofs LossProps LinalgModel.
Local Open Scope R_scope.

(* ------------------------------------------------------------------ C39 *)
(** Specification of the operators meant by the documentation: linear maps of R^n. *)
Definition depends_on (n : nat) (A : rvec -> rvec) : Prop :=
  forall u v, (forall i, (i < n)%nat -> u i = v i) -> forall i, (i < n)%nat -> A u i = A v i.
Definition linear (n : nat) (A : rvec -> rvec) : Prop := depends_on n A /\
  forall u v c i, (i < n)%nat -> A (fun j => u j + c * v j) i = A u i + c * A v i.
Definition symmetric (n : nat) (A : rvec -> rvec) : Prop := forall u v, dot n u (A v) = dot n (A u) v.
Definition positive (n : nat) (A : rvec -> rvec) : Prop :=
  forall u, (exists i, (i < n)%nat /\ u i <> 0) -> 0 < dot n u (A u).
Definition solves (n : nat) (A : rvec -> rvec) (x b : rvec) : Prop := forall i, (i < n)%nat -> A x i = b i.

(** the loop heads met by a run *)
Inductive reaches (A : rvec -> rvec) (n : nat) (err : R) (max_i : nat) : nat -> cgst -> cgst -> Prop :=
  | reach0 s : reaches A n err max_i 0 s s
  | reachS k s s' s'' : reaches A n err max_i k s s' -> cg_pass A n err max_i s' = inr s'' -> reaches A n err max_i (S k) s s''.

Lemma linear0 n A i : linear n A -> (i < n)%nat -> A (fun _ => 0) i = 0.
Proof.
  intros [D L] Hi. pose proof (L (fun _ => 0) (fun _ => 0) 1 i Hi) as E.
  rewrite (D (fun _ : nat => 0 + 1 * 0) (fun _ => 0)) in E; [lra| |exact Hi]. intros; ring.
Qed.
Lemma linear_sub n A u v c i : linear n A -> (i < n)%nat -> A (fun j => u j - c * v j) i = A u i - c * A v i.
Proof.
  intros [D L] Hi. rewrite (D _ (fun j => u j + (- c) * v j)); [rewrite (L u v (-c) i Hi); ring| |exact Hi]. intros; ring.
Qed.

Theorem C39_residual A n b x0 err max_i k s : linear n A ->
  reaches A n err max_i k (cg_init A n b x0) s ->
  (forall i, (i < n)%nat -> cg_r s i = A (cg_x s) i - b i) /\ cg_rs s = dot n (cg_r s) (cg_r s) /\ cg_i s = k.
Proof.
  intros HL HR. remember (cg_init A n b x0) as s0. induction HR as [s|k s s' s'' HR IH HP].
  - subst s. destruct x0 as [x|]; cbn; (split; [|split; reflexivity]); intros i Hi; [reflexivity|]. rewrite (linear0 n) by assumption. ring.
  - specialize (IH Heqs0). destruct IH as (IH & _ & Ii). unfold cg_pass in HP.
    destruct (Req_EM_T _ _); [discriminate|]. destruct (Rleb _ _); [discriminate|]. destruct (Nat.ltb _ _); [discriminate|].
    injection HP as <-. cbn. split; [|split; [reflexivity|congruence]].
    intros i Hi. rewrite (linear_sub n) by assumption. rewrite IH by exact Hi. ring.
Qed.
Print Assumptions C39_residual.

(** the function always returns: within max_i + 2 passes *)
Lemma cg_loop_terminates A n err max_i m s : (max_i + 2 <= m + cg_i s)%nat -> (0 < m)%nat -> cg_loop A n err max_i m s <> None.
Proof.
  revert s. induction m as [|m IH]; intros s H Hm; [lia|]. cbn [cg_loop]. destruct (cg_pass A n err max_i s) eqn:E; [discriminate|].
  unfold cg_pass in E. destruct (Req_EM_T _ _); [discriminate|]. destruct (Rleb _ _); [discriminate|].
  destruct (Nat.ltb_spec max_i (cg_i s)); [discriminate|]. injection E as <-. apply IH; cbn; lia.
Qed.
Theorem C39_terminates A n b x0 err max_i : cg_solve A n b x0 err max_i <> None.
Proof. apply cg_loop_terminates; cbn; lia. Qed.
Print Assumptions C39_terminates.

(** The claim about the error criterion: the returned vector has residual at most err. *)
Definition err_claim (A : rvec -> rvec) (n : nat) (b : rvec) (x0 : option rvec) (err : R) (max_i : nat) : Prop :=
  forall x, cg_solve A n b x0 err max_i = Some (x, CgConverged) ->
    sqrt (dot n (fun i => A x i - b i) (fun i => A x i - b i)) <= err.

(** diag(1, 100), b = (-10, -1), err = 11 *)
Definition wA : rvec -> rvec := fun v i => match i with O => v O | _ => 100 * v i end.
Definition wbv : rvec := fun i => match i with O => -10 | _ => -1 end.
Lemma wA_linear : linear 2 wA.
Proof.
  split.
  - intros u v H i Hi. unfold wA. destruct i; rewrite H by lia; reflexivity.
  - intros u v c i Hi. unfold wA. destruct i; ring.
Qed.
Lemma dot2 u v : dot 2 u v = u 0%nat * v 0%nat + u 1%nat * v 1%nat.
Proof. unfold dot. cbn. ring. Qed.
Lemma wA_sym : symmetric 2 wA.
Proof. intros u v. rewrite !dot2. unfold wA. ring. Qed.
Lemma wA_pos : positive 2 wA.
Proof.
  intros u (i & Hi & Hu). rewrite dot2. unfold wA.
  destruct i as [|[|i]]; [| |lia].
  - assert (0 < u 0%nat * u 0%nat) by nra. nra.
  - assert (0 < u 1%nat * u 1%nat) by nra. nra.
Qed.
Theorem C39_error_criterion_refuted :
  linear 2 wA /\ symmetric 2 wA /\ positive 2 wA /\
  (exists x, cg_solve wA 2 wbv None 11 0 = Some (x, CgConverged)
     /\ 40 < sqrt (dot 2 (fun i => wA x i - wbv i) (fun i => wA x i - wbv i))) /\
  ~ err_claim wA 2 wbv None 11 0.
Proof.
  split; [apply wA_linear|]. split; [apply wA_sym|]. split; [apply wA_pos|].
  assert (S : exists x, cg_solve wA 2 wbv None 11 0 = Some (x, CgConverged)
     /\ 40 < sqrt (dot 2 (fun i => wA x i - wbv i) (fun i => wA x i - wbv i))).
  { unfold cg_solve, cg_init. cbn [Nat.add cg_loop]. unfold cg_pass. cbn [cg_d cg_x cg_rs cg_i].
    set (r := fun i : nat => - wbv i).
    assert (R : dot 2 r r = 101) by (rewrite dot2; unfold r, wbv; ring).
    assert (D : dot 2 r (wA r) = 200) by (rewrite dot2; unfold r, wbv, wA; ring).
    rewrite R, D. destruct (Req_EM_T 200 0); [lra|].
    rewrite (proj2 (Rleb_iff 101 (11 ^ 2))) by lra.
    eexists. split; [reflexivity|]. rewrite dot2. unfold wA, r, wbv.
    replace 40 with (sqrt (40 ^ 2)) by (rewrite sqrt_pow2; lra).
    apply sqrt_lt_1; [lra| |]; nra. }
  split; [exact S|]. destruct S as (x & E & H). intros C. specialize (C x E). lra.
Qed.
Print Assumptions C39_error_criterion_refuted.

(** What holds when the error criterion stops the run: the residual before the last update was at most err. *)
Lemma cg_loop_reach A n err max_i m s x w : cg_loop A n err max_i m s = Some (x, w) ->
  exists k s', (k < m)%nat /\ reaches A n err max_i k s s' /\ cg_pass A n err max_i s' = inl (x, w).
Proof.
  assert (G : forall m k s1, reaches A n err max_i k s s1 -> cg_loop A n err max_i m s1 = Some (x, w) ->
    exists k' s', (k' < k + m)%nat /\ reaches A n err max_i k' s s' /\ cg_pass A n err max_i s' = inl (x, w)).
  { clear m. induction m as [|m IH]; intros k s1 HR HL; [discriminate|]. cbn in HL.
    destruct (cg_pass A n err max_i s1) as [o|s2] eqn:E.
    - injection HL as ->. exists k, s1. repeat split; auto; lia.
    - destruct (IH (S k) s2 (reachS _ _ _ _ _ _ _ _ HR E) HL) as (k' & s' & ? & ? & ?). exists k', s'. repeat split; auto; lia. }
  intros H. exact (G m 0%nat s (reach0 _ _ _ _ s) H).
Qed.
Theorem C39_error_criterion_partial A n b x0 err max_i x : linear n A -> 0 <= err ->
  cg_solve A n b x0 err max_i = Some (x, CgConverged) ->
  exists s, cg_pass A n err max_i s = inl (x, CgConverged) /\
    (exists k, (k < max_i + 2)%nat /\ reaches A n err max_i k (cg_init A n b x0) s) /\
    sqrt (dot n (fun i => A (cg_x s) i - b i) (fun i => A (cg_x s) i - b i)) <= err.
Proof.
  intros HL He H. destruct (cg_loop_reach _ _ _ _ _ _ _ _ H) as (k & s & Hk & HR & HP).
  exists s. split; [exact HP|]. split; [exists k; auto|].
  destruct (C39_residual A n b x0 err max_i k s HL HR) as (A1 & A2 & _).
  assert (Q : cg_rs s <= err ^ 2).
  { unfold cg_pass in HP. destruct (Req_EM_T _ _); [discriminate|]. destruct (Rleb (cg_rs s) (err ^ 2)) eqn:E; [apply Rleb_iff; exact E|].
    destruct (Nat.ltb _ _); discriminate. }
  replace (dot n (fun i => A (cg_x s) i - b i) (fun i => A (cg_x s) i - b i)) with (cg_rs s).
  - apply Rle_trans with (sqrt (err ^ 2)); [apply sqrt_le_1_alt; exact Q|]. rewrite sqrt_pow2 by exact He. lra.
  - rewrite A2. unfold dot. apply (nsum_ext Rs). intros i Hi. rewrite A1 by exact Hi. reflexivity.
Qed.
Print Assumptions C39_error_criterion_partial.

(* ------------------------------------------------------------------ C58 *)
(** Bilinearity of dot *)
Lemma dot_comm n u v : dot n u v = dot n v u.
Proof. unfold dot. apply (nsum_ext Rs). intros. rg. Qed.
Lemma dot_ext n u v u' v' : (forall i, (i < n)%nat -> u i = u' i) -> (forall i, (i < n)%nat -> v i = v' i) -> dot n u v = dot n u' v'.
Proof. intros H1 H2. unfold dot. apply (nsum_ext Rs). intros i Hi. rewrite H1, H2 by exact Hi. reflexivity. Qed.
Lemma dot_lin n u v w c : dot n u (fun i => v i + c * w i) = dot n u v + c * dot n u w.
Proof.
  unfold dot. transitivity (nsum (K:=Rs) n (fun i => u i * v i + c * (u i * w i))).
  - apply (nsum_ext Rs). intros. rg.
  - rewrite (nsum_add Rs). exact (f_equal (fun z => dot n u v + z) (nsum_mul_l Rs n (fun i => u i * w i) c)).
Qed.
Lemma dot_zero n u : dot n u u = 0 -> forall i, (i < n)%nat -> u i = 0.
Proof.
  induction n as [|n IH]; intros H i Hi; [lia|]. unfold dot in H. rewrite (nsum_S Rs) in H.
  pose proof (dot_nonneg n u) as P. unfold dot in P. cbn in H, P. pose proof (Rle_0_sqr (u n)) as Q. unfold Rsqr in Q.
  destruct (Nat.eq_dec i n) as [->|]; [nra|]. apply IH; [unfold dot; cbn; lra|lia].
Qed.
Lemma dot_0_l n u v : (forall i, (i < n)%nat -> u i = 0) -> dot n u v = 0.
Proof. intros H. unfold dot. apply (nsum_zero Rs). intros i Hi. rewrite H by exact Hi. apply Rmult_0_l. Qed.

(** more than n vectors of R^n cannot be orthogonal and non-zero *)
Lemma nsum_R_le n f g : (forall i, (i < n)%nat -> f i <= g i) -> nsum (K:=Rs) n f <= nsum (K:=Rs) n g.
Proof.
  intros H. induction n as [|n IH]; [cbn; lra|]. rewrite !(nsum_S Rs). specialize (IH (fun i Hi => H i (Nat.lt_lt_succ_r _ _ Hi))).
  specialize (H n (Nat.lt_succ_diag_r n)). cbn in *. lra.
Qed.
Lemma nsum_R_const n c : nsum (K:=Rs) n (fun _ => c) = INR n * c.
Proof. induction n as [|n IH]; [cbn; ring|]. rewrite (nsum_S Rs), IH, S_INR. cbn. ring. Qed.
Lemma dot_nsum_l n m (f : nat -> rvec) c v : dot n (fun j => nsum (K:=Rs) m (fun i => c i * f i j)) v = nsum (K:=Rs) m (fun i => c i * dot n (f i) v).
Proof.
  unfold dot. transitivity (nsum (K:=Rs) n (fun j => nsum (K:=Rs) m (fun i => c i * (f i j * v j)))).
  - apply (nsum_ext Rs). intros j _. transitivity (nsum (K:=Rs) m (fun i => smul (s:=Rs) (c i * f i j) (v j))); [symmetry; apply (nsum_mul_r Rs)|]. apply (nsum_ext Rs). intros. cbn. ring.
  - rewrite (nsum_swap Rs). apply (nsum_ext Rs). intros i _. exact (nsum_mul_l Rs n (fun j => f i j * v j) (c i)).
Qed.
Lemma orthogonal_bound n m (v : nat -> rvec) : (forall i, (i < m)%nat -> dot n (v i) (v i) <> 0) ->
  (forall i j, (i < j < m)%nat -> dot n (v i) (v j) = 0) -> (m <= n)%nat.
Proof.
  intros Hn Ho.
  set (q := fun i => dot n (v i) (v i)).
  set (W := fun j => nsum (K:=Rs) m (fun i => v i j / q i * v i j)).
  assert (B : forall j, (j < n)%nat -> W j <= 1).
  { intros j Hj. set (c := fun i => v i j / q i). set (w := fun l => nsum (K:=Rs) m (fun i => c i * v i l)).
    set (e := fun l => if Nat.eqb l j then 1 else 0).
    assert (We : dot n w e = W j).
    { unfold dot. rewrite (nsum_single Rs n j); [|exact Hj|].
      - unfold e. rewrite Nat.eqb_refl. cbn. unfold w, W, c. cbn. ring.
      - intros l _ Hne. unfold e. rewrite (proj2 (Nat.eqb_neq l j)) by congruence. cbn. ring. }
    assert (Ee : dot n e e = 1).
    { unfold dot. rewrite (nsum_single Rs n j); [|exact Hj|].
      - unfold e. rewrite Nat.eqb_refl. cbn. ring.
      - intros l _ Hne. unfold e. rewrite (proj2 (Nat.eqb_neq l j)) by congruence. cbn. ring. }
    assert (Ww : dot n w w = W j).
    { unfold w at 1. rewrite dot_nsum_l. unfold W. apply (nsum_ext Rs). intros i Hi.
      rewrite dot_comm. unfold w. rewrite dot_nsum_l. rewrite (nsum_single Rs m i); [|exact Hi|].
      - unfold c. fold (q i). cbn. field. apply Hn. exact Hi.
      - intros l Hl Hne. replace (dot n (v l) (v i)) with 0; [cbn; ring|].
        destruct (Nat.lt_ge_cases l i); [symmetry; apply Ho; lia|]. rewrite dot_comm. symmetry. apply Ho. lia. }
    pose proof (dot_nonneg n (fun l => e l + -1 * w l)) as P.
    rewrite dot_lin in P. rewrite (dot_comm n _ e), (dot_comm n _ w), !dot_lin in P.
    rewrite (dot_comm n e w), We, Ee, Ww in P. lra. }
  assert (T : nsum (K:=Rs) n W = INR m).
  { unfold W. rewrite (nsum_swap Rs). rewrite <- (Rmult_1_r (INR m)), <- nsum_R_const. apply (nsum_ext Rs). intros i Hi.
    transitivity (nsum (K:=Rs) n (fun j => / q i * (v i j * v i j))); [apply (nsum_ext Rs); intros; cbn; unfold Rdiv; ring|].
    transitivity (/ q i * q i); [exact (nsum_mul_l Rs n (fun j => v i j * v i j) (/ q i))|]. apply Rinv_l. apply Hn. exact Hi. }
  apply INR_le. rewrite <- T, <- (Rmult_1_r (INR n)), <- nsum_R_const. apply nsum_R_le. exact B.
Qed.

(** The sequence of loop heads *)
Section CGseq.
Variables (A : rvec -> rvec) (n : nat) (s0 : cgst).
Hypothesis HL : linear n A.
Hypothesis HS : symmetric n A.
Hypothesis H0d : cg_d s0 = cg_r s0.
Hypothesis H0s : cg_rs s0 = dot n (cg_r s0) (cg_r s0).
Fixpoint st (k : nat) : cgst := match k with O => s0 | S k => cg_next A n (st k) end.
Let r k := cg_r (st k).
Let d k := cg_d (st k).
Let g k := dot n (r k) (r k).
Let dl k := dot n (d k) (A (d k)).
Lemma st_rs k : cg_rs (st k) = g k.
Proof. destruct k; [exact H0s|]. reflexivity. Qed.
Lemma r_S k i : r (S k) i = r k i + - (g k / dl k) * A (d k) i.
Proof. unfold r. cbn. rewrite st_rs. fold (r k) (d k) (dl k). ring. Qed.
Lemma d_S k i : d (S k) i = r (S k) i + g (S k) / g k * d k i.
Proof.
  unfold d, g, r. cbn [st cg_next cg_d cg_r]. rewrite st_rs. unfold g, r. ring.
Qed.
Lemma cg_inv k : (forall i, (i < k)%nat -> g i <> 0 /\ dl i <> 0) ->
  (forall i, (i < k)%nat -> dot n (d i) (r k) = 0) /\ dot n (d k) (r k) = g k /\
  (forall i, (i < k)%nat -> dot n (d i) (A (d k)) = 0) /\ (forall i, (i < k)%nat -> dot n (r i) (r k) = 0).
Proof.
  induction k as [|k IH]; intros Hn.
  - repeat split; try (intros i Hi; lia). unfold d, g, r. cbn. rewrite H0d. reflexivity.
  - destruct (IH (fun i Hi => Hn i (Nat.lt_lt_succ_r _ _ Hi))) as (Ia & Ib & Ic & Id).
    destruct (Hn k (Nat.lt_succ_diag_r k)) as [Hg Hd].
    assert (R : forall u, dot n u (r (S k)) = dot n u (r k) + - (g k / dl k) * dot n u (A (d k))).
    { intros u. rewrite <- dot_lin. apply dot_ext; [reflexivity|]. intros i _. apply r_S. }
    assert (Aa : forall i, (i < S k)%nat -> dot n (d i) (r (S k)) = 0).
    { intros i Hi. rewrite R. destruct (Nat.eq_dec i k) as [->|].
      - rewrite Ib. fold (dl k). field. exact Hd.
      - rewrite Ia, Ic by lia. ring. }
    assert (Ad : forall i, (i < S k)%nat -> dot n (r i) (r (S k)) = 0).
    { intros i Hi. destruct i as [|i].
      - replace (r 0%nat) with (d 0%nat) by exact H0d. apply Aa. lia.
      - rewrite dot_comm. transitivity (dot n (r (S k)) (fun l => d (S i) l + - (g (S i) / g i) * d i l)).
        + apply dot_ext; [reflexivity|]. intros l _. rewrite d_S. ring.
        + rewrite dot_lin, !(dot_comm n (r (S k))), !Aa by lia. ring. }
    split; [exact Aa|]. split; [|split; [|exact Ad]].
    + rewrite dot_comm. transitivity (dot n (r (S k)) (fun l => r (S k) l + g (S k) / g k * d k l)).
      * apply dot_ext; [reflexivity|]. intros l _. apply d_S.
      * rewrite dot_lin, (dot_comm n (r (S k)) (d k)), Aa by lia. unfold g. ring.
    + intros i Hi.
      assert (E : dot n (d i) (A (d (S k))) = dot n (A (d i)) (r (S k)) + g (S k) / g k * dot n (d i) (A (d k))).
      { transitivity (dot n (d i) (A (fun l => r (S k) l + g (S k) / g k * d k l))).
        - apply dot_ext; [reflexivity|]. apply (proj1 HL). intros l _. apply d_S.
        - rewrite <- HS, <- dot_lin. apply dot_ext; [reflexivity|]. intros l Hl. apply (proj2 HL). exact Hl. }
      destruct (Hn i Hi) as [Hgi Hdi].
      assert (F : g i / dl i * dot n (A (d i)) (r (S k)) = dot n (r i) (r (S k)) - dot n (r (S i)) (r (S k))).
      { rewrite !(dot_comm n _ (r (S k))).
        replace (dot n (r (S k)) (r (S i))) with (dot n (r (S k)) (r i) + - (g i / dl i) * dot n (r (S k)) (A (d i))); [ring|].
        rewrite <- dot_lin. apply dot_ext; [reflexivity|]. intros l _. symmetry. apply r_S. }
      rewrite Ad in F by exact Hi. rewrite E.
      destruct (Nat.eq_dec i k) as [->|].
      * fold (dl k). fold (g (S k)) in F. assert (dot n (A (d k)) (r (S k)) = - g (S k) * dl k / g k) as ->; [|field; exact Hg].
        apply (Rmult_eq_reg_l (g k / dl k)); [rewrite F; field; auto|].
        apply Rmult_integral_contrapositive_currified; [exact Hg|apply Rinv_neq_0_compat; exact Hd].
      * rewrite Ic by lia. rewrite Ad in F by lia. rewrite Rminus_diag_eq in F by reflexivity.
        apply Rmult_integral in F. destruct F as [F|F]; [|rewrite F; ring].
        exfalso. revert F. apply Rmult_integral_contrapositive_currified; [exact Hgi|apply Rinv_neq_0_compat; exact Hdi].
Qed.
End CGseq.

Lemma reaches_st A n err max_i k s s' : reaches A n err max_i k s s' ->
  s' = st A n s k /\ forall i, (i < k)%nat -> err ^ 2 < cg_rs (st A n s i) /\
     dot n (cg_d (st A n s i)) (A (cg_d (st A n s i))) <> 0 /\ (cg_i (st A n s i) <= max_i)%nat.
Proof.
  induction 1 as [s|k s s' s'' HR [IH1 IH2] HP]; [split; [reflexivity|lia]|]. subst s'.
  unfold cg_pass in HP. destruct (Req_EM_T _ _) as [|Hd]; [discriminate|]. destruct (Rleb _ _) eqn:El; [discriminate|].
  destruct (Nat.ltb_spec max_i (cg_i (st A n s k))) as [|Hi]; [discriminate|]. injection HP as <-. split; [reflexivity|].
  intros i Hlt. destruct (Nat.eq_dec i k) as [->|]; [|apply IH2; lia].
  split; [|split; [exact Hd|exact Hi]]. apply Rnot_le_lt. intros Q. apply Rleb_iff in Q. congruence.
Qed.

(** For a symmetric positive definite operator of R^n and an iteration limit of at least n, the run never meets the limit,
    makes at most n + 1 passes, and a run that is not stopped by the error criterion returns the exact solution. *)
Theorem C58_finite_termination A n b x0 err max_i x w : linear n A -> symmetric n A -> positive n A -> (n <= max_i)%nat ->
  cg_solve A n b x0 err max_i = Some (x, w) ->
  w <> CgLimit /\ (w = CgZeroDirection -> solves n A x b) /\ (err = 0 -> solves n A x b) /\
  exists k s, (k <= n)%nat /\ reaches A n err max_i k (cg_init A n b x0) s /\ cg_pass A n err max_i s = inl (x, w).
Proof.
  intros HL HS HP Hm H. destruct (cg_loop_reach _ _ _ _ _ _ _ _ H) as (k & s & Hk & HR & HE).
  destruct (C39_residual A n b x0 err max_i k s HL HR) as (Hr & Hrs & Hi).
  destruct (reaches_st _ _ _ _ _ _ _ HR) as (Es & Hn). set (s0 := cg_init A n b x0) in *.
  assert (D0 : cg_d s0 = cg_r s0) by reflexivity. assert (R0 : cg_rs s0 = dot n (cg_r s0) (cg_r s0)) by reflexivity.
  assert (Hn' : forall i, (i < k)%nat -> dot n (cg_r (st A n s0 i)) (cg_r (st A n s0 i)) <> 0 /\ dot n (cg_d (st A n s0 i)) (A (cg_d (st A n s0 i))) <> 0).
  { intros i Hlt. destruct (Hn i Hlt) as (Q1 & Q2 & _). split; [|exact Q2].
    rewrite (st_rs A n s0 R0) in Q1. pose proof (pow2_ge_0 err). lra. }
  assert (Kn : (k <= n)%nat).
  { apply (orthogonal_bound n k (fun i => cg_r (st A n s0 i))); [intros i Hlt; apply Hn'; exact Hlt|].
    intros i j Hij. apply (cg_inv A n s0 HL HS D0 R0 j); [intros l Hl; apply Hn'; lia|lia]. }
  destruct (cg_inv A n s0 HL HS D0 R0 k Hn') as (_ & Ib & _). rewrite <- Es in Ib.
  assert (Zr : dot n (cg_r s) (cg_r s) = 0 -> solves n A (cg_x s) b).
  { intros Z i Hlt. pose proof (dot_zero n _ Z i Hlt) as Q. rewrite Hr in Q by exact Hlt. lra. }
  assert (Fin : w <> CgLimit /\ (w = CgZeroDirection -> solves n A x b) /\ (err = 0 -> solves n A x b)).
  { unfold cg_pass in HE. destruct (Req_EM_T _ _) as [Hd|Hd].
    - injection HE as <- <-.
      assert (S : solves n A (cg_x s) b).
      { apply Zr. rewrite <- Ib. apply dot_0_l. intros i Hlt. destruct (Req_EM_T (cg_d s i) 0) as [|Q]; [assumption|].
        exfalso. pose proof (HP (cg_d s) (ex_intro _ i (conj Hlt Q))). lra. }
      split; [discriminate|auto].
    - destruct (Rleb (cg_rs s) (err ^ 2)) eqn:El.
      + apply Rleb_iff in El. injection HE as <- <-. split; [discriminate|]. split; [discriminate|]. intros ->.
        assert (Z : cg_rs s = 0) by (rewrite Hrs in *; pose proof (NbrProps.dot_nonneg n (cg_r s)); lra).
        intros i Hlt. rewrite Z. transitivity (A (cg_x s) i); [|apply Zr; [congruence|exact Hlt]].
        apply (proj1 HL); [|exact Hlt]. intros j _. unfold Rdiv. ring.
      + destruct (Nat.ltb_spec max_i (cg_i s)); [lia|discriminate]. }
  destruct Fin as (F1 & F2 & F3). repeat split; auto. exists k, s. auto.
Qed.
Print Assumptions C58_finite_termination.
(** The default limit is large enough, also for complex arrays (m complex entries, 2 m real components). *)
Theorem C58_default_limit A m n b x0 x w : (n <= 2 * m)%nat -> linear n A -> symmetric n A -> positive n A ->
  cg_solve A n b x0 0 (cg_default_max m) = Some (x, w) -> solves n A x b.
Proof.
  intros Hn HL HS HP H. assert (Hm : (n <= cg_default_max m)%nat).
  { unfold cg_default_max. pose proof (Nat.div_mod (5 * m) 2 ltac:(lia)). pose proof (Nat.mod_upper_bound (5 * m) 2 ltac:(lia)). lia. }
  destruct (C58_finite_termination A n b x0 0 _ x w HL HS HP Hm H) as (_ & _ & Q & _). exact (Q eq_refl).
Qed.
Print Assumptions C58_default_limit.
Example C58_ex : exists x w, cg_solve wA 2 wbv None 0 (cg_default_max 2) = Some (x, w) /\ solves 2 wA x wbv /\ x 0%nat = -10.
Proof.
  destruct (cg_solve wA 2 wbv None 0 (cg_default_max 2)) as [(x, w)|] eqn:E; [|exfalso; exact (C39_terminates _ _ _ _ _ _ E)].
  exists x, w. split; [reflexivity|].
  assert (S : solves 2 wA x wbv) by (apply (C58_default_limit wA 2 2 wbv None x w); [lia|apply wA_linear|apply wA_sym|apply wA_pos|exact E]).
  split; [exact S|]. exact (S 0%nat (Nat.lt_0_succ 1)).
Qed.

(* ------------------------------------------------------------------ C40 *)
Definition same_point (n : nat) (p q : rvec) : Prop := forall i, (i < n)%nat -> p i = q i.
(** b is a reordering of a *)
Definition reordering (n : nat) (a b : list rvec) : Prop :=
  exists b', Permutation b b' /\ Forall2 (same_point n) a b'.

Lemma fold_rmin_spec l x : In (fold_left Rmin l x) (x :: l) /\ forall y, In y (x :: l) -> fold_left Rmin l x <= y.
Proof.
  revert x. induction l as [|a l IH]; intros x; cbn.
  - split; [now left|]. intros y [<-|[]]. lra.
  - destruct (IH (Rmin x a)) as [A B]. split.
    + destruct A as [A|A]; [|right; now right]. rewrite <- A. destruct (Rle_dec x a).
      * left. symmetry. apply Rmin_left. lra.
      * right. left. symmetry. apply Rmin_right. lra.
    + intros y [<-|[<-|Hy]].
      * eapply Rle_trans; [apply B; now left|]. apply Rmin_l.
      * eapply Rle_trans; [apply B; now left|]. apply Rmin_r.
      * apply B. now right.
Qed.
Lemma vnorm_zero_iff n p q : vnorm n (vsub p q) = 0 <-> same_point n p q.
Proof.
  unfold vnorm. split.
  - intros H i Hi. pose proof (NbrProps.dot_nonneg n (vsub p q)) as P. apply sqrt_eq_0 in H; [|exact P].
    pose proof (dot_zero n _ H i Hi) as Q. unfold vsub in Q. lra.
  - intros H. rewrite <- sqrt_0. f_equal. apply dot_0_l. intros i Hi. unfold vsub. rewrite H by exact Hi. ring.
Qed.
Lemma rmin1_dist n p b : b <> [] -> exists m, rmin1 (map (fun q => vnorm n (vsub p q)) b) = Some m /\ 0 <= m /\
  (m = 0 <-> exists q, In q b /\ same_point n p q).
Proof.
  intros Hb. destruct b as [|q0 b]; [easy|]. cbn [map rmin1].
  destruct (fold_rmin_spec (map (fun q => vnorm n (vsub p q)) b) (vnorm n (vsub p q0))) as [A B].
  set (m := fold_left Rmin _ _) in *. change (vnorm n (vsub p q0) :: map (fun q => vnorm n (vsub p q)) b) with (map (fun q => vnorm n (vsub p q)) (q0 :: b)) in A, B.
  exists m. split; [reflexivity|]. apply in_map_iff in A. destruct A as (q & Eq & Iq).
  assert (Pm : 0 <= m) by (rewrite <- Eq; apply sqrt_pos). split; [exact Pm|]. split.
  - intros Z. exists q. split; [exact Iq|]. apply vnorm_zero_iff. congruence.
  - intros (q' & I' & S'). apply vnorm_zero_iff in S'. specialize (B (vnorm n (vsub p q')) (in_map (fun q => vnorm n (vsub p q)) _ _ I')). lra.
Qed.
Lemma pc_loop_spec n a b x : b <> [] -> 0 <= x -> exists v, pc_loop n a b x = Some v /\ x <= v /\
  (v = 0 <-> x = 0 /\ forall p, In p a -> exists q, In q b /\ same_point n p q).
Proof.
  intros Hb. revert x. induction a as [|p a IH]; intros x Hx.
  - exists x. cbn. split; [reflexivity|]. split; [lra|]. split; [|tauto]. intros Z. split; [exact Z|]. intros ? [].
  - cbn [pc_loop]. destruct (rmin1_dist n p b Hb) as (m & E & Pm & Zm). rewrite E.
    destruct (IH (x + m) ltac:(lra)) as (v & Ev & Hv & Zv). exists v. split; [exact Ev|]. split; [lra|]. rewrite Zv. split.
    + intros [Z H]. assert (x = 0) by lra. assert (m = 0) by lra. split; [assumption|]. intros p' [<-|Hp]; [apply Zm; assumption|auto].
    + intros [Z H]. split; [|intros p' Hp; apply H; now right]. rewrite Z, (proj2 Zm); [ring|]. apply H. now left.
Qed.

Lemma Forall2_in_l {X Y} (P : X -> Y -> Prop) a b p : Forall2 P a b -> In p a -> exists q, In q b /\ P p q.
Proof.
  induction 1 as [|x y a b H H' IH]; intros I; [destruct I|]. destruct I as [<-|I]; [exists y; split; [now left|exact H]|].
  destruct (IH I) as (q & ? & ?). exists q. split; [now right|assumption].
Qed.

(** What holds: the distance is zero exactly when every point of the first cloud occurs in the second. *)
Theorem C40_zero_iff_partial n a b : b <> [] ->
  (exists v, pointcloud_distance n a b = Some v /\ 0 <= v /\ (v = 0 <-> forall p, In p a -> exists q, In q b /\ same_point n p q)).
Proof.
  intros Hb. destruct (pc_loop_spec n a b 0 Hb ltac:(lra)) as (v & E & P & Z). exists v. repeat split; auto; [|intros H; apply Z; auto].
  intros H. apply Z. exact H.
Qed.
Print Assumptions C40_zero_iff_partial.

(** Hence the claim for clouds whose first member has no repeated point. *)
Definition no_repeats (n : nat) (a : list rvec) : Prop := ForallOrdPairs (fun p q => ~ same_point n p q) a.
Lemma reorder_incl n a : forall b, length a = length b -> no_repeats n a -> (forall p, In p a -> exists q, In q b /\ same_point n p q) ->
  reordering n a b.
Proof.
  induction a as [|p a IH]; intros b Hl Hn Hi.
  - destruct b; [|discriminate]. exists []. split; constructor.
  - inversion Hn as [|? ? H1 H2]; subst. destruct (Hi p (or_introl eq_refl)) as (q & Iq & Sq).
    apply in_split in Iq. destruct Iq as (b1 & b2 & ->).
    destruct (IH (b1 ++ b2)) as (b' & Pb & Fb).
    + rewrite app_length in *. cbn in Hl. lia.
    + exact H2.
    + intros p' Hp'. destruct (Hi p' (or_intror Hp')) as (q' & Iq' & Sq'). exists q'. split; [|exact Sq'].
      apply in_app_iff in Iq'. apply in_app_iff. destruct Iq' as [|[->|]]; auto. exfalso.
      rewrite Forall_forall in H1. apply (H1 p' Hp'). intros i Hlt. rewrite Sq, Sq' by exact Hlt. reflexivity.
    + exists (q :: b'). split; [|constructor; assumption]. rewrite <- Pb. symmetry. apply Permutation_middle.
Qed.
Theorem C40_distinct_partial n a b : length a = length b -> a <> [] -> no_repeats n a ->
  (pointcloud_distance n a b = Some 0 <-> reordering n a b).
Proof.
  intros Hl Ha Hn. assert (Hb : b <> []) by (intros ->; destruct a; [easy|discriminate]).
  destruct (C40_zero_iff_partial n a b Hb) as (v & E & _ & Z). rewrite E. split.
  - intros H. injection H as ->. apply reorder_incl; auto. apply Z. reflexivity.
  - intros (b' & Pb & Fb). f_equal. apply Z. intros p Hp. clear -Pb Fb Hp.
    destruct (Forall2_in_l _ _ _ p Fb Hp) as (q & Iq & Sq). exists q. split; [|exact Sq].
    apply (Permutation_in q (Permutation_sym Pb)). exact Iq.
Qed.
Print Assumptions C40_distinct_partial.
Lemma rv1_distinct : no_repeats 1 [(fun _ => 0); (fun _ => 1)].
Proof. repeat constructor. intros H. specialize (H 0%nat ltac:(lia)). cbn in H. lra. Qed.
Example C40_ex : pointcloud_distance 1 [(fun _ => 0); (fun _ => 1)] [(fun _ => 1); (fun _ => 0)] = Some 0.
Proof.
  apply C40_distinct_partial; [reflexivity|discriminate|apply rv1_distinct|].
  exists [(fun _ => 0); (fun _ => 1)]. split; [apply perm_swap|]. repeat constructor.
Qed.

(** A repeated point is matched twice with the same partner. *)
Theorem C40_repeated_refuted : exists a b, length a = length b /\ pointcloud_distance 1 a b = Some 0 /\ ~ reordering 1 a b
  /\ exists v, pointcloud_distance 1 b a = Some v /\ v <> 0.
Proof.
  exists [(fun _ => 0); (fun _ => 0)], [(fun _ => 0); (fun _ => 1)]. split; [reflexivity|].
  split; [|split].
  - destruct (C40_zero_iff_partial 1 [(fun _ => 0); (fun _ => 0)] [(fun _ => 0); (fun _ => 1)] ltac:(discriminate)) as (v & E & _ & Z).
    rewrite E. f_equal. apply Z. intros p Hp. exists (fun _ => 0). split; [now left|].
    destruct Hp as [<-|[<-|[]]]; intros i _; reflexivity.
  - intros (b' & P & F). assert (I : In (fun _ => 1) b') by (apply (Permutation_in _ P); right; now left).
    inversion F as [|? ? ? ? F1 F2]; subst. inversion F2 as [|? ? ? ? F3 F4]; subst. inversion F4; subst.
    destruct I as [E|[E|[]]]; subst; [specialize (F1 0%nat ltac:(lia)); cbn in F1; lra|specialize (F3 0%nat ltac:(lia)); cbn in F3; lra].
  - destruct (C40_zero_iff_partial 1 [(fun _ => 0); (fun _ => 1)] [(fun _ => 0); (fun _ => 0)] ltac:(discriminate)) as (v & E & _ & Z).
    exists v. split; [exact E|]. intros V. destruct (proj1 Z V (fun _ => 1) ltac:(cbn; auto)) as (q & Iq & Sq).
    specialize (Sq 0%nat ltac:(lia)). destruct Iq as [<-|[<-|[]]]; cbn in Sq; lra.
Qed.
Print Assumptions C40_repeated_refuted.

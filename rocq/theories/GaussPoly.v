(** Polynomials as lists of coefficients, lowest power first: division, zeros and the sign of integrals with the weight -df/dE
    (for C160). *)
From Coq Require Import Reals Lra Lia Psatz List Bool.
From Coquelicot Require Import Coquelicot.
From Verif Require Import CplxR NbrModel SmearCalc SmearProps DosModel DosProps Basel FermiInt FermiConv BulkModel FermiMoments BulkProps BulkWeights.
Import List ListNotations.
Local Open Scope R_scope.

(** value at a complex number *)
Fixpoint cpeval (cs : list R) (z : cplx) : cplx := match cs with [] => (0, 0) | c :: r => cadd (cre c) (cmul z (cpeval r z)) end.
Lemma cpeval_real cs e : cpeval cs (e, 0) = (peval cs e, 0).
Proof. induction cs as [|c cs IH]; [reflexivity|]. cbn [cpeval peval]. rewrite IH. apply cplx_eq; cbn; ring. Qed.
Lemma cpeval_add : forall a b z, cpeval (padd a b) z = cadd (cpeval a z) (cpeval b z).
Proof.
  induction a as [|x a IH]; intros [|y b] z; cbn [padd cpeval]; try (apply cplx_eq; cbn; ring). rewrite IH. apply cplx_eq; cbn; ring.
Qed.
Lemma cpeval_scale : forall c ps z, cpeval (map (Rmult c) ps) z = cmul (cre c) (cpeval ps z).
Proof. induction ps as [|p ps IH]; intro z; cbn [map cpeval]; [apply cplx_eq; cbn; ring|]. rewrite IH. apply cplx_eq; cbn; ring. Qed.
Lemma cpeval_firstn : forall N l z, (length l <= S N)%nat -> nth N l 0 = 0 -> cpeval (firstn N l) z = cpeval l z.
Proof.
  induction N as [|N IH]; intros [|c l] z L H; cbn [firstn cpeval nth length] in *; try reflexivity.
  - destruct l as [|d l]; [|cbn in L; lia]. rewrite H. cbn [cpeval]. apply cplx_eq; cbn; ring.
  - rewrite IH by (auto; lia). reflexivity.
Qed.
Lemma nth_padd : forall a b n, nth n (padd a b) 0 = nth n a 0 + nth n b 0.
Proof. induction a as [|x a IH]; intros [|y b] [|n]; cbn [padd nth]; try lra. apply IH. Qed.
Lemma nth_scale c : forall l n, nth n (map (Rmult c) l) 0 = c * nth n l 0.
Proof. induction l as [|x l IH]; intros [|n]; cbn [map nth]; try lra. apply IH. Qed.

(** division with remainder by a polynomial of degree N *)
Lemma pdiv N (D : list R) : length D = S N -> nth N D 0 <> 0 -> forall P, exists t r,
  (length r <= N)%nat /\ (length t <= length P - N)%nat /\ forall z, cpeval P z = cadd (cmul (cpeval D z) (cpeval t z)) (cpeval r z).
Proof.
  intros HD H0. induction P as [|c P IH].
  - exists [], []. repeat split; cbn; try lia. intros z. apply cplx_eq; cbn; ring.
  - destruct (Nat.le_gt_cases (length (c :: P)) N) as [L|L].
    + exists [], (c :: P). repeat split; cbn [length] in *; try lia. intros z. cbn [cpeval]. apply cplx_eq; cbn; ring.
    + destruct IH as (t & r & Lr & Lt & E). set (a := nth N (c :: r) 0 / nth N D 0).
      exists (a :: t), (firstn N (padd (c :: r) (map (Rmult (- a)) D))). repeat split.
      * rewrite firstn_length. lia.
      * cbn [length] in *. lia.
      * intros z. rewrite cpeval_firstn.
        -- rewrite cpeval_add, cpeval_scale. cbn [cpeval]. rewrite E. apply cplx_eq; cbn; ring.
        -- rewrite padd_len, map_length. cbn [length]. lia.
        -- rewrite nth_padd, nth_scale. unfold a. field. exact H0.
Qed.

(** a polynomial that is not 0 has no zeros in some interval (0, d) *)
Lemma peval_bound : forall l, exists M, 0 <= M /\ forall e, 0 <= e <= 1 -> Rabs (peval l e) <= M.
Proof.
  induction l as [|c l (M & HM & B)]; [exists 0; split; [lra|]; intros; cbn; rewrite Rabs_R0; lra|].
  exists (Rabs c + M). split; [pose proof (Rabs_pos c); lra|]. intros e He. cbn [peval]. specialize (B e He).
  apply Rle_trans with (Rabs c + Rabs (e * peval l e)); [apply Rabs_triang|]. rewrite Rabs_mult, (Rabs_right e) by lra.
  pose proof (Rabs_pos (peval l e)). nra.
Qed.
Lemma peval_nonzero : forall l, Exists (fun c => c <> 0) l -> exists d, 0 < d /\ forall e, 0 < e < d -> peval l e <> 0.
Proof.
  induction l as [|c l IH]; intros H; [inversion H|]. destruct (Req_EM_T c 0) as [->|Hc].
  - inversion H as [x y H1|x y H1]; subst; [contradiction|]. destruct (IH H1) as (d & Hd & E). exists d. split; [exact Hd|]. intros e He. cbn [peval].
    specialize (E e He). intros Z. apply E. apply (Rmult_eq_reg_l e); lra.
  - destruct (peval_bound l) as (M & HM & B). pose proof (Rabs_pos_lt c Hc) as Hp. exists (Rmin 1 (Rabs c / (M + 1))).
    assert (Hq : 0 < Rabs c / (M + 1)) by (apply Rdiv_lt_0_compat; lra). split; [apply Rmin_glb_lt; lra|]. intros e [He1 He2] Z. cbn [peval] in Z.
    pose proof (Rmin_l 1 (Rabs c / (M + 1))). pose proof (Rmin_r 1 (Rabs c / (M + 1))).
    assert (B' := B e ltac:(lra)). assert (Ec : c = - (e * peval l e)) by lra. assert (A : Rabs c = e * Rabs (peval l e)).
    { rewrite Ec, Rabs_Ropp, Rabs_mult, (Rabs_right e) by lra. reflexivity. }
    assert (e * (M + 1) < Rabs c). { apply Rlt_le_trans with (Rabs c / (M + 1) * (M + 1)); [apply Rmult_lt_compat_r; lra|]. right. field. lra. }
    pose proof (Rabs_pos (peval l e)). nra.
Qed.
Lemma peval_cont : forall l e, continuous (peval l) e.
Proof.
  induction l as [|c l IH]; intros e; [apply continuous_const|]. cbn [peval].
  apply (continuous_plus (V:=R_NormedModule) (fun _ => c) (fun e => e * peval l e)); [apply continuous_const|].
  apply (continuous_mult (K:=R_AbsRing) (fun e => e) (peval l)); [apply continuous_id|apply IH].
Qed.

(** the integral of a function that is never negative and positive on an interval *)
Lemma improper_pos f l a b : is_improper f l -> (forall x, continuous f x) -> (forall x, 0 <= f x) -> a < b -> (forall x, a < x < b -> 0 < f x) -> 0 < l.
Proof.
  intros HI HC HP Hab HB.
  assert (EX : forall u v, ex_RInt f u v) by (intros u v; apply (ex_RInt_continuous (V:=R_CompleteNormedModule)); intros; apply HC).
  assert (S : 0 < RInt f a b) by (apply RInt_gt_0; auto).
  destruct (HI (RInt f a b) S) as (M & HM).
  destruct (HM (Rmin (- M - 1) (a - 1)) (Rmax (M + 1) (b + 1))) as (v & Hv & HL).
  - pose proof (Rmin_l (- M - 1) (a - 1)). lra.
  - pose proof (Rmax_l (M + 1) (b + 1)). lra.
  - set (A := Rmin (- M - 1) (a - 1)) in *. set (B := Rmax (M + 1) (b + 1)) in *.
    assert (A <= a) by (unfold A; pose proof (Rmin_r (- M - 1) (a - 1)); lra). assert (b <= B) by (unfold B; pose proof (Rmax_r (M + 1) (b + 1)); lra).
    apply (is_RInt_unique (V:=R_CompleteNormedModule)) in Hv. assert (C1 := RInt_Chasles f A a b (EX _ _) (EX _ _)). assert (C2 := RInt_Chasles f A b B (EX _ _) (EX _ _)).
    unfold plus in C1, C2; cbn in C1, C2.
    assert (P1 : 0 <= RInt f A a) by (apply RInt_ge_0; auto). assert (P2 : 0 <= RInt f b B) by (apply RInt_ge_0; auto).
    apply Rabs_def2 in HL. change (RInt f A a + RInt f a b = RInt f A b) in C1. change (RInt f A b + RInt f b B = RInt f A B) in C2. rewrite Hv in C2. lra.
Qed.
Lemma improper_unique f l m : is_improper f l -> is_improper f m -> l = m.
Proof.
  intros H1 H2. apply Rminus_diag_uniq. destruct (Req_dec (l - m) 0) as [|Hne]; [assumption|]. exfalso. apply Rabs_pos_lt in Hne.
  destruct (H1 (Rabs (l - m) / 2) ltac:(lra)) as (M1 & K1). destruct (H2 (Rabs (l - m) / 2) ltac:(lra)) as (M2 & K2).
  set (M := Rmax M1 M2). pose proof (Rmax_l M1 M2). pose proof (Rmax_r M1 M2). fold M in H, H0.
  destruct (K1 (- M - 1) (M + 1) ltac:(lra) ltac:(lra)) as (v1 & V1 & L1). destruct (K2 (- M - 1) (M + 1) ltac:(lra) ltac:(lra)) as (v2 & V2 & L2).
  apply (is_RInt_unique (V:=R_CompleteNormedModule)) in V1. apply (is_RInt_unique (V:=R_CompleteNormedModule)) in V2. assert (v1 = v2) by congruence. subst v2.
  assert (TR : Rabs (l - m) <= Rabs (v1 - l) + Rabs (v1 - m)). { replace (l - m) with ((v1 - m) - (v1 - l)) by ring.
    apply Rle_trans with (Rabs (v1 - m) + Rabs (- (v1 - l))); [apply Rabs_triang|]. rewrite Rabs_Ropp. apply Req_le, Rplus_comm. } apply Rle_not_lt in TR. apply TR. replace (Rabs (l - m)) with (Rabs (l - m) / 2 + Rabs (l - m) / 2) by field. apply Rplus_lt_compat; [exact L1|rewrite H3; exact L2].
Qed.

(** ** a polynomial that is orthogonal to the lower powers *)
Section Orthogonal.
Variables (beta mu : R) (N : nat) (p : list R).
Hypothesis Hb : 0 < beta.
Hypothesis Hlen : length p = S N.
Notation orth K := (forall t, (length t <= K)%nat -> is_improper (fun e => peval p (e - mu) * peval t (e - mu) * wb beta (e - mu)) 0).

(** the highest coefficient is not 0 *)
Lemma orth_lead : orth N -> Exists (fun c => c <> 0) p -> nth N p 0 <> 0.
Proof.
  intros HO HE HZ. assert (F : forall e, peval (firstn N p) e = peval p e).
  { intros e. assert (Q := cpeval_firstn N p (e, 0) ltac:(lia) HZ). rewrite !cpeval_real in Q. congruence. }
  destruct (peval_nonzero p HE) as (d & Hd & NZ).
  assert (I := HO (firstn N p) ltac:(rewrite firstn_length; lia)).
  apply (improper_pos _ _ mu (mu + d)) in I; [lra| | |lra|].
  - intros x. apply (continuous_mult (K:=R_AbsRing) (fun e => peval p (e - mu) * peval (firstn N p) (e - mu)) (fun e => wb beta (e - mu))).
    + apply (continuous_mult (K:=R_AbsRing)); apply (continuous_comp (fun e => e - mu)); try apply peval_cont; apply (continuous_minus (V:=R_NormedModule)); [apply continuous_id|apply continuous_const|apply continuous_id|apply continuous_const].
    + apply (continuous_comp (fun e => e - mu) (wb beta)); [apply (continuous_minus (V:=R_NormedModule)); [apply continuous_id|apply continuous_const]|apply wb_cont].
  - intros x. rewrite F. pose proof (wb_pos beta (x - mu) Hb). nra.
  - intros x Hx. rewrite F. pose proof (wb_pos beta (x - mu) Hb). assert (NZ' := NZ (x - mu) ltac:(lra)).
    apply Rmult_lt_0_compat; [|assumption]. nra.
Qed.
(** there is no divisor (x-a)^2 + b^2 *)
Lemma orth_quad a b u : orth N -> Exists (fun c => c <> 0) p -> (length u <= N)%nat ->
  (forall e, peval p e = ((e - a) ^ 2 + b ^ 2) * peval u e) -> False.
Proof.
  intros HO HE HU F. destruct (peval_nonzero p HE) as (d & Hd & NZ). assert (I := HO u HU).
  apply (improper_pos _ _ mu (mu + d)) in I; [lra| | |lra|].
  - intros x. apply (continuous_mult (K:=R_AbsRing) (fun e => peval p (e - mu) * peval u (e - mu)) (fun e => wb beta (e - mu))).
    + apply (continuous_mult (K:=R_AbsRing)); apply (continuous_comp (fun e => e - mu)); try apply peval_cont; apply (continuous_minus (V:=R_NormedModule)); [apply continuous_id|apply continuous_const|apply continuous_id|apply continuous_const].
    + apply (continuous_comp (fun e => e - mu) (wb beta)); [apply (continuous_minus (V:=R_NormedModule)); [apply continuous_id|apply continuous_const]|apply wb_cont].
  - intros x. rewrite F. set (Q := (x - mu - a) ^ 2 + b ^ 2). set (v := peval u (x - mu)). pose proof (wb_pos beta (x - mu) Hb).
    assert (0 <= Q) by (unfold Q; apply Rplus_le_le_0_compat; apply pow2_ge_0). replace (Q * v * v * wb beta (x - mu)) with (Q * (v * v) * wb beta (x - mu)) by ring.
    apply Rmult_le_pos; [|lra]. apply Rmult_le_pos; [assumption|nra].
  - intros x Hx. assert (NZ' := NZ (x - mu) ltac:(lra)). rewrite F in *. set (Q := (x - mu - a) ^ 2 + b ^ 2) in *. set (v := peval u (x - mu)) in *.
    pose proof (wb_pos beta (x - mu) Hb). assert (0 <= Q) by (unfold Q; apply Rplus_le_le_0_compat; apply pow2_ge_0). replace (Q * v * v * wb beta (x - mu)) with (Q * (v * v) * wb beta (x - mu)) by ring.
    apply Rmult_lt_0_compat; [|lra]. assert (Q <> 0) by (intros Z; rewrite Z in NZ'; lra). assert (v <> 0) by (intros Z; rewrite Z in NZ'; lra).
    apply Rmult_lt_0_compat; [lra|nra].
Qed.
(** all zeros are real *)
Lemma orth_real z : orth N -> Exists (fun c => c <> 0) p -> cpeval p z = (0, 0) -> snd z = 0.
Proof.
  intros HO HE HZ. destruct (Req_dec (snd z) 0) as [|Hne]; [assumption|]. exfalso. destruct z as [a b]. cbn [snd] in Hne.
  destruct (pdiv 2 [a * a + b * b; -2 * a; 1] eq_refl ltac:(cbn; lra) p) as (t & r & Lr & Lt & E).
  assert (R0 : forall y, cpeval r y = (0, 0)).
  { assert (X := E (a, b)). rewrite HZ in X. destruct r as [|r0 [|r1 [|r2 r]]]; cbn [length] in Lr; [reflexivity| | |lia].
    - injection X as X1 X2. destruct (cpeval t (a, b)) as [t1 t2]. cbn in X1, X2. assert (r0 = 0) by nra. subst r0. intros y. apply cplx_eq; cbn; ring.
    - injection X as X1 X2. destruct (cpeval t (a, b)) as [t1 t2]. cbn in X1, X2.
      assert (B1 : b * r1 = 0) by nra. assert (r1 = 0) by (destruct (Rmult_integral _ _ B1); [contradiction|assumption]). subst r1.
      assert (r0 = 0) by nra. subst r0. intros y. apply cplx_eq; cbn; ring. }
  apply (orth_quad a b t HO HE); [lia|]. intros e. assert (X := E (e, 0)). rewrite R0, !cpeval_real in X. injection X as X _. rewrite X. cbn [peval]. ring.
Qed.
(** and simple *)
Lemma orth_simple a g : orth N -> Exists (fun c => c <> 0) p -> (forall e, peval p e = (e - a) ^ 2 * peval g e) -> False.
Proof.
  intros HO HE HG. destruct (pdiv 2 [a * a; -2 * a; 1] eq_refl ltac:(cbn; lra) p) as (t & r & Lr & Lt & E).
  assert (ER : forall e, peval p e = (e - a) ^ 2 * peval t e + peval r e).
  { intros e. assert (X := E (e, 0)). rewrite !cpeval_real in X. injection X as X _. rewrite X. cbn [peval]. ring. }
  assert (R1 : exists r0 r1, forall e, peval r e = r0 + r1 * (e - a)).
  { destruct r as [|x [|y [|w r]]]; cbn [length] in Lr; [exists 0, 0|exists x, 0|exists (x + y * a), y|lia]; intros; cbn; ring. }
  destruct R1 as (r0 & r1 & R1). assert (r0 = 0) by (assert (X := ER a); rewrite HG, R1 in X; lra). subst r0.
  destruct (recentre a (padd g (map (Rmult (-1)) t))) as (h & _ & Eh).
  destruct (Req_dec r1 0) as [->|Hr].
  - apply (orth_quad a 0 t HO HE); [lia|]. intros e. rewrite ER, R1. ring.
  - destruct (peval_nonzero (- r1 :: h)) as (d & Hd & NZ); [left; lra|]. apply (NZ (d / 2)); [lra|]. cbn [peval].
    assert (X := ER (a + d / 2)). rewrite HG, R1 in X. specialize (Eh (a + d / 2)). rewrite padd_eval, pscale in Eh.
    replace (a + d / 2 - a) with (d / 2) in * by ring. apply (Rmult_eq_reg_l (d / 2)); [|lra]. rewrite <- Eh. nra.
Qed.
End Orthogonal.

(** Properties C52 and C160: the linear systems of the weights are solvable. *)
From Coq Require Import Reals Lra Lia Psatz List Bool Sorted Permutation.
From Coquelicot Require Import Coquelicot.
From Verif Require Import CplxR NbrModel SmearCalc SmearProps DosModel DosMore DosProps Basel FermiInt FermiConv BulkModel FermiMoments BulkProps BulkWeights GaussPoly GaussModel GaussProps GaussEx.
Import List ListNotations.
Local Open Scope R_scope.

(** ** the systems of the weights have exactly one solution, if the points are different *)
Lemma few_zeros : forall x p, NoDup x -> (length p <= length x)%nat -> (forall e, In e x -> peval p e = 0) -> forall e, peval p e = 0.
Proof.
  induction x as [|a x IH]; intros p ND L Z e.
  - destruct p; [reflexivity|cbn in L; lia].
  - destruct p as [|c0 p0] eqn:EP; [reflexivity|]. rewrite <- EP in *. assert (LP : (1 <= length p)%nat) by (rewrite EP; cbn; lia).
    destruct (pdiv 1 [- a; 1] eq_refl ltac:(cbn; lra) p) as (t & r & Lr & Lt & E). inversion ND as [|y z N1 N2]; subst y z.
    assert (ER : forall e, peval p e = (e - a) * peval t e + peval r e).
    { intros y. assert (X := E (y, 0)). rewrite !cpeval_real in X. injection X as X _. rewrite X. cbn [peval]. ring. }
    assert (R0 : forall y, peval r y = 0).
    { assert (X := ER a). rewrite Z in X by (left; reflexivity). destruct r as [|r0 [|r1 r]]; cbn [length] in Lr; [reflexivity| |lia]. cbn [peval] in *. intros y. lra. }
    rewrite ER, R0, (IH t N2); [ring|cbn [length] in L; lia|]. intros y Hy. assert (X := ER y). rewrite Z, R0 in X by (right; exact Hy).
    assert (y - a <> 0) by (intros C; apply N1; replace a with y by lra; exact Hy). apply (Rmult_eq_reg_l (y - a)); lra.
Qed.
(** the linear functional of the moments, on polynomials around mu *)
Lemma momsum_add beta : forall a b s, momsum beta (padd a b) s = momsum beta a s + momsum beta b s.
Proof. induction a as [|x a IH]; intros [|y b] s; cbn [padd momsum]; try lra. rewrite IH. ring. Qed.
Lemma momsum_scale beta c : forall a s, momsum beta (map (Rmult c) a) s = c * momsum beta a s.
Proof. induction a as [|x a IH]; intros s; cbn [map momsum]; [ring|]. rewrite IH. ring. Qed.
Lemma momsum_zero beta : 0 < beta -> forall p, (forall e, peval p e = 0) -> momsum beta p 0 = 0.
Proof.
  intros Hb p H. apply (improper_unique (fun e => (e - 0) ^ 0 * peval p (e - 0) * wb beta (e - 0))); [apply momsum_int, Hb|].
  refine (improper_ext _ _ _ _ improper_zero). intros e. rewrite H. ring.
Qed.
(** Lagrange: for every point a polynomial that is 1 there and 0 at the other points *)
Lemma lagrange x i : NoDup x -> (i < length x)%nat -> exists g, (length g <= length x)%nat /\ forall k, (k < length x)%nat -> peval g (nth k x 0) = if Nat.eqb k i then 1 else 0.
Proof.
  intros ND Hi. destruct (nth_split x 0 Hi) as (l1 & l2 & EX & L1). set (a := nth i x 0) in *. destruct (rprod_list (l1 ++ l2)) as (g & LG & EG).
  assert (LX : length x = S (length (l1 ++ l2))) by (rewrite EX at 1; rewrite !app_length; cbn [length]; lia).
  assert (NA : ~ In a (l1 ++ l2)) by (apply NoDup_remove_2; rewrite <- EX; exact ND).
  assert (NZ : rprod (l1 ++ l2) a <> 0) by (intros C; apply NA, rprod_zero, C).
  exists (map (Rmult (/ rprod (l1 ++ l2) a)) g). split; [rewrite map_length; lia|]. intros k Hk. rewrite pscale, EG. destruct (Nat.eqb_spec k i) as [->|Hne].
  - fold a. field. exact NZ.
  - rewrite (proj2 (rprod_zero (l1 ++ l2) (nth k x 0))); [ring|]. assert (IK : In (nth k x 0) x) by (apply nth_In, Hk). rewrite EX in IK at 2. apply in_or_app. apply in_app_or in IK.
    destruct IK as [IK|[IK|IK]]; [left; exact IK| |right; exact IK]. exfalso. apply Hne. apply (NoDup_nth x 0); auto.
Qed.
Lemma lsum_seq_nth (x w : list R) f : length w = length x -> lsum (combine x w) (fun p => f (fst p) * snd p) = sum0 (length x) (fun i => f (nth i x 0) * nth i w 0).
Proof.
  revert w. induction x as [|a x IH]; intros [|c w] L; try discriminate; [reflexivity|]. unfold sum0. cbn [length seq]. rewrite <- seq_shift.
  change (lsum (combine (a :: x) (c :: w)) (fun p => f (fst p) * snd p)) with (f a * c + lsum (combine x w) (fun p => f (fst p) * snd p)).
  rewrite IH by (injection L; auto). change (lsum (0%nat :: ?l) ?g) with (g 0%nat + lsum l g).
  rewrite lsum_map. reflexivity.
Qed.
Lemma all_choice N (P : nat -> list R -> Prop) : (forall i, (i < N)%nat -> exists g, P i g) -> exists gs : nat -> list R, forall i, (i < N)%nat -> P i (gs i).
Proof.
  induction N as [|N IH]; intros H; [exists (fun _ => []); intros; lia|]. destruct IH as (gs & G); [intros; apply H; lia|]. destruct (H N ltac:(lia)) as (g & Hg).
  exists (fun i => if Nat.eqb i N then g else gs i). intros i Hi. destruct (Nat.eqb_spec i N) as [->|]; [exact Hg|apply G; lia].
Qed.
Lemma sum0_pick N i c : (i < N)%nat -> sum0 N (fun k => if Nat.eqb k i then c else 0) = c.
Proof.
  induction N as [|M IH]; intros Hi; [lia|]. rewrite sum0_S. destruct (Nat.eqb_spec M i) as [->|Hne].
  - rewrite sum0_zero; [ring|]. intros k Hk. destruct (Nat.eqb_spec k i); [lia|reflexivity].
  - rewrite IH by lia. ring.
Qed.
Theorem C52_solvable : forall x mu beta, NoDup x -> 0 < beta ->
  let N := length x in exists w, solves (map (iw_row x mu) (seq 0 N)) (map (iw_rhs beta) (seq 0 N)) w /\
    forall w', solves (map (iw_row x mu) (seq 0 N)) (map (iw_rhs beta) (seq 0 N)) w' -> w' = w.
Proof.
  intros x mu beta ND Hb N. set (y := map (fun e => e - mu) x). assert (LY : length y = N) by (unfold y; rewrite map_length; reflexivity).
  assert (NY : NoDup y). { apply FinFun.Injective_map_NoDup; [intros u v E; lra|exact ND]. }
  assert (YN : forall i, (i < N)%nat -> nth i y 0 = nth i x 0 - mu).
  { intros i Hi. unfold y. rewrite (nth_indep _ 0 (0 - mu)) by (rewrite map_length; exact Hi). apply (map_nth (fun e => e - mu)). }
  destruct (all_choice N (fun i g => (length g <= N)%nat /\ forall k, (k < N)%nat -> peval g (nth k y 0) = if Nat.eqb k i then 1 else 0)) as (gs & G).
  { intros i Hi. destruct (lagrange y i NY ltac:(lia)) as (g & H). rewrite LY in H. exists g. exact H. }
  (* the value of a solution *)
  assert (EQ : forall w, solves (map (iw_row x mu) (seq 0 N)) (map (iw_rhs beta) (seq 0 N)) w <->
    length w = N /\ forall n, (n < N)%nat -> sum0 N (fun i => nth i y 0 ^ n * nth i w 0) = mom beta n).
  { intros w. unfold solves. rewrite map_length, seq_length. split; intros (L & H); split; try exact L; intros n Hn; specialize (H n Hn);
    (rewrite (nth_indep _ [] (iw_row x mu 0)) in * by (rewrite map_length, seq_length; exact Hn)); rewrite map_nth, seq_nth in * by exact Hn;
    (rewrite (nth_indep _ 0 (iw_rhs beta 0)) in * by (rewrite map_length, seq_length; exact Hn)); rewrite map_nth, seq_nth in * by exact Hn; cbn [Nat.add] in *;
    rewrite dot_row in * by exact L; pose proof (INR_fact_neq_0 n) as F.
    - unfold mom. rewrite <- H. rewrite (lsum_seq_nth x w (fun e => (e - mu) ^ n / INR (fact n)) L). unfold sum0. rewrite <- lsum_scal. apply lsum_ext. intros i Hi. apply in_seq in Hi.
      rewrite YN by (fold N in Hi; lia). field. exact F.
    - apply (Rmult_eq_reg_l (INR (fact n))); [|exact F]. unfold mom in H. rewrite <- H. rewrite (lsum_seq_nth x w (fun e => (e - mu) ^ n / INR (fact n)) L). unfold sum0. rewrite <- lsum_scal. apply lsum_ext.
      intros i Hi. apply in_seq in Hi. rewrite YN by (fold N in Hi; lia). field. exact F. }
  (* a solution gives the moments of all short polynomials *)
  assert (FUN : forall w, (forall n, (n < N)%nat -> sum0 N (fun i => nth i y 0 ^ n * nth i w 0) = mom beta n) ->
    forall ds s, (s + length ds <= N)%nat -> sum0 N (fun i => nth i y 0 ^ s * peval ds (nth i y 0) * nth i w 0) = momsum beta ds s).
  { intros w HW. induction ds as [|d ds IH]; intros s L; cbn [peval momsum].
    - apply sum0_zero. intros. ring.
    - cbn [length] in L. rewrite <- (IH (S s)) by lia. rewrite <- (HW s) by lia. unfold sum0. rewrite <- lsum_lin. apply lsum_ext. intros. cbn [pow]. ring. }
  set (w := map (fun i => momsum beta (gs i) 0) (seq 0 N)).
  assert (WN : forall i, (i < N)%nat -> nth i w 0 = momsum beta (gs i) 0).
  { intros i Hi. unfold w. rewrite (nth_indep _ 0 (momsum beta (gs 0%nat) 0)) by (rewrite map_length, seq_length; exact Hi). rewrite (map_nth (fun i => momsum beta (gs i) 0)), seq_nth by exact Hi. reflexivity. }
  exists w. split.
  - apply EQ. split; [unfold w; rewrite map_length, seq_length; reflexivity|]. intros n Hn.
    set (mono := repeat 0 n ++ [1]). assert (ML : length mono = S n) by (unfold mono; rewrite app_length, repeat_length; cbn; lia).
    assert (ME : forall e, peval mono e = e ^ n). { intros e. unfold mono. clear. induction n as [|n IH]; cbn; [ring|]. rewrite IH. ring. }
    assert (MM : momsum beta mono 0 = mom beta n). { assert (Q : forall s, momsum beta mono s = mom beta (s + n)); [|apply (Q 0%nat)]. unfold mono. clear. induction n as [|n IH]; intros s; cbn [repeat app momsum].
      - rewrite Nat.add_0_r. ring. - rewrite IH. replace (S s + n)%nat with (s + S n)%nat by lia. ring. }
    (* the interpolating combination *)
    set (comb := fold_right (fun i acc => padd (map (Rmult (nth i y 0 ^ n)) (gs i)) acc) [] (seq 0 N)).
    assert (CE : forall e, peval comb e = sum0 N (fun i => nth i y 0 ^ n * peval (gs i) e)).
    { intros e. unfold comb, sum0. clear. induction (seq 0 N) as [|i l IH]; [reflexivity|]. cbn [fold_right]. rewrite padd_eval, pscale, IH. reflexivity. }
    assert (CM : momsum beta comb 0 = sum0 N (fun i => nth i y 0 ^ n * momsum beta (gs i) 0)).
    { unfold comb, sum0. clear. induction (seq 0 N) as [|i l IH]; [reflexivity|]. cbn [fold_right]. rewrite momsum_add, momsum_scale, IH. reflexivity. }
    assert (CL : (length comb <= N)%nat).
    { unfold comb. assert (B : forall i, In i (seq 0 N) -> (length (gs i) <= N)%nat) by (intros i Hi; apply in_seq in Hi; apply G; lia).
      revert B. clear. induction (seq 0 N) as [|i l IH]; intros B; [cbn; lia|]. cbn [fold_right]. rewrite padd_len, map_length. specialize (IH (fun k Hk => B k (or_intror Hk))). specialize (B i (or_introl eq_refl)). lia. }
    assert (Z : momsum beta (padd comb (map (Rmult (-1)) mono)) 0 = 0).
    { apply momsum_zero; [exact Hb|]. apply (few_zeros y); [exact NY|rewrite padd_len, map_length, ML, LY; lia|]. intros e He. destruct (In_nth y e 0 He) as (k & Hk & <-). rewrite LY in Hk.
      rewrite padd_eval, pscale, CE, ME. unfold sum0.
      assert (X : lsum (seq 0 N) (fun i => nth i y 0 ^ n * peval (gs i) (nth k y 0)) = lsum (seq 0 N) (fun i => if Nat.eqb k i then nth k y 0 ^ n else 0)).
      { apply lsum_ext. intros i Hi. apply in_seq in Hi. destruct (G i ltac:(lia)) as (_ & Gk). rewrite (Gk k Hk). destruct (Nat.eqb_spec k i) as [->|]; ring. }
      rewrite X. clear -Hk. assert (Y : forall c, lsum (seq 0 N) (fun i => if Nat.eqb k i then c else 0) = c).
      { intros c. fold (sum0 N (fun i => if Nat.eqb k i then c else 0)). revert Hk. induction N as [|M IH]; intros Hk; [lia|]. rewrite sum0_S. destruct (Nat.eqb_spec k M) as [->|Hne].
        - rewrite sum0_zero; [ring|]. intros i Hi. destruct (Nat.eqb_spec M i); [lia|reflexivity].
        - rewrite IH by lia. ring. }
      rewrite Y. ring. }
    rewrite momsum_add, momsum_scale, MM, CM in Z. transitivity (sum0 N (fun i => nth i y 0 ^ n * momsum beta (gs i) 0)); [|lra].
    apply lsum_ext. intros i Hi. apply in_seq in Hi. rewrite WN by lia. reflexivity.
  - intros w' H. apply EQ in H. destruct H as (L & H). apply (nth_ext _ _ 0 0); [unfold w; rewrite map_length, seq_length; exact L|]. intros i Hi. rewrite L in Hi. rewrite WN by exact Hi.
    destruct (G i Hi) as (Lg & Gk). rewrite <- (FUN w' H (gs i) 0%nat ltac:(lia)).
    transitivity (sum0 N (fun k => if Nat.eqb k i then nth i w' 0 else 0)).
    + clear -Hi. revert Hi. generalize (nth i w' 0). intros c. induction N as [|M IH]; intros Hi; [lia|]. rewrite sum0_S. destruct (Nat.eqb_spec M i) as [->|Hne].
      * rewrite sum0_zero; [ring|]. intros k Hk. destruct (Nat.eqb_spec k i); [lia|reflexivity].
      * rewrite <- IH by lia. ring.
    + apply lsum_ext. intros k Hk. apply in_seq in Hk. rewrite (Gk k) by lia. destruct (Nat.eqb_spec k i) as [->|]; cbn [pow]; ring.
Qed.
Print Assumptions C52_solvable.
(** so it is enough that np.linalg.solve solves the systems that have exactly one solution *)
Definition solve_call (solve : list (list R) -> list R -> list R) (x : list R) (mubeta : list (R * R)) : Prop :=
  forall mu beta, In (mu, beta) mubeta -> let A := map (iw_row x mu) (seq 0 (length x)) in let b := map (iw_rhs beta) (seq 0 (length x)) in
  (exists w, solves A b w /\ forall w', solves A b w' -> w' = w) -> solves A b (solve A b).
Lemma good_call solve x mubeta : NoDup x -> (forall mu beta, In (mu, beta) mubeta -> 0 < beta <= 10 ^ 16) -> solve_call solve x mubeta -> good_solve solve x mubeta.
Proof. intros ND HB H mu beta I. split; [apply (HB mu), I|]. apply (H mu beta I). apply C52_solvable; [exact ND|apply (HB mu beta I)]. Qed.
Theorem C52_distinct_partial : forall solve x mubeta emin emax rtol x' ws,
  NoDup x -> (forall mu beta, In (mu, beta) mubeta -> 0 < beta <= 10 ^ 16) -> solve_call solve x mubeta ->
  integration_weights solve x mubeta emin emax rtol = IWPair x' ws -> length x' = length x ->
  length ws = length mubeta /\ x' = x /\
  forall j mu beta, nth_error mubeta j = Some (mu, beta) -> forall cs, (length cs <= length x)%nat ->
  is_improper (fun e => peval cs e * wb beta (e - mu)) (qsum x' (nth j ws []) (peval cs)).
Proof. intros solve x mubeta emin emax rtol x' ws ND HB HC. apply C52_partial. exact (good_call solve x mubeta ND HB HC). Qed.
Print Assumptions C52_distinct_partial.
Theorem C160_rule_partial : forall qr roots kB fermi T N xs solve mubeta emin emax rtol x' ws j,
  0 < kB -> 0 < T -> good_libs qr roots kB fermi T T N -> (forall mu beta, In (mu, beta) mubeta -> 0 < beta <= 10 ^ 16) ->
  integration_points qr roots kB fermi T T N = Some xs -> solve_call solve xs mubeta ->
  integration_weights solve xs mubeta emin emax rtol = IWPair x' ws -> length x' = length xs -> nth_error mubeta j = Some (fermi, 1 / (kB * T)) ->
  (forall cs, (length cs <= 2 * N)%nat -> is_improper (fun e => peval cs e * wb (1 / (kB * T)) (e - fermi)) (qsum x' (nth j ws []) (peval cs))) /\
  length (nth j ws []) = N /\ forall i, (i < N)%nat -> 0 < nth i (nth j ws []) 0.
Proof.
  intros qr roots kB fermi T N xs solve mubeta emin emax rtol x' ws j Hk HT HG HB HI HC HW HL Hj.
  assert (HN : Nat.odd N = true).
  { unfold integration_points in HI. destruct (Nat.eqb_spec N 0); [discriminate|]. destruct (Nat.eqb_spec N 1); [subst N; reflexivity|].
    destruct (negb (Rleb T T)); [discriminate|]. destruct (Nat.even N) eqn:E; [discriminate|]. rewrite <- Nat.negb_even, E. reflexivity. }
  destruct (C160_points_partial qr roots kB fermi T N Hk HT HN (fun _ => HG)) as (xs' & p & E & LX & SX & _). rewrite HI in E. injection E as <-.
  assert (ND : NoDup xs).
  { clear -SX. induction SX as [|a l S IH F]; constructor; [|exact IH]. intros I. rewrite Forall_forall in F. specialize (F a I). lra. }
  pose proof (good_call solve xs mubeta ND HB HC) as GS. split.
  - exact (C160_gauss_partial qr roots kB fermi T N xs solve mubeta emin emax rtol x' ws j Hk HT HG HI GS HW HL Hj).
  - exact (C160_positive_partial qr roots kB fermi T N xs solve mubeta emin emax rtol x' ws j Hk HT HG HI GS HW HL Hj).
Qed.
Print Assumptions C160_rule_partial.
(** the hypotheses can be met: three points with the weights [w3] at beta = 4, and the Gauss points of C160 *)
Example C52_distinct_ex : NoDup [-1; 0; 1] /\ solve_call solve3 [-1; 0; 1] [(0, 4)] /\
  integration_weights solve3 [-1; 0; 1] [(0, 4)] (-2) 2 (/ 10 ^ 4) = IWPair [-1; 0; 1] [w3] /\
  is_improper (fun e => e ^ 2 * wb 4 (e - 0)) (b_coeff 2 / 8).
Proof.
  assert (ND : NoDup [-1; 0; 1]) by (repeat constructor; cbn [In]; lra).
  assert (SC : solve_call solve3 [-1; 0; 1] [(0, 4)]). { intros mu beta [E|[]] A b _. injection E as <- <-. exact solves3. }
  split; [exact ND|]. split; [exact SC|]. split; [exact C52_ex|].
  destruct (C52_distinct_partial solve3 [-1; 0; 1] [(0, 4)] (-2) 2 (/ 10 ^ 4) _ _ ND ltac:(intros mu beta [E|[]]; injection E as <- <-; cbn [pow]; lra) SC C52_ex eq_refl) as (_ & _ & H).
  specialize (H 0%nat 0 4 eq_refl [0; 0; 1] ltac:(cbn; lia)). replace (b_coeff 2 / 8) with (qsum [-1; 0; 1] (nth 0 [w3] []) (peval [0; 0; 1])).
  - refine (improper_ext _ _ _ _ H). intros e. cbn [peval]. ring.
  - unfold qsum, lsum, w3. cbn [nth combine fold_right fst snd peval]. field.
Qed.
Example C160_rule_ex : good_libs (qr_3 1) (roots3 1) 1 0 1 1 3 /\
  integration_points (qr_3 1) (roots3 1) 1 0 1 1 3 = Some [- xi 1; 0; xi 1] /\ solve_call (solve_3 1) [- xi 1; 0; xi 1] [(0, 1 / (1 * 1))] /\
  integration_weights (solve_3 1) [- xi 1; 0; xi 1] [(0, 1 / (1 * 1))] (-10) 10 (/ 10 ^ 4) = IWPair [- xi 1; 0; xi 1] [ww 1].
Proof.
  destruct C160_ex as (_ & G & P & S & W & _). split; [exact G|]. split; [exact P|]. split; [|exact W]. intros mu beta I A b _. exact (proj2 (S mu beta I)).
Qed.
(** ... and with a repeated point there is never exactly one solution *)
Theorem C52_repeated : forall x mu beta, ~ NoDup x ->
  let N := length x in forall w, solves (map (iw_row x mu) (seq 0 N)) (map (iw_rhs beta) (seq 0 N)) w ->
  exists w', solves (map (iw_row x mu) (seq 0 N)) (map (iw_rhs beta) (seq 0 N)) w' /\ w' <> w.
Proof.
  intros x mu beta ND N w (L & H). rewrite map_length, seq_length in L.
  assert (DUP : exists i j, (i < j < N)%nat /\ nth i x 0 = nth j x 0).
  { unfold N. clear -ND. induction x as [|a x IH]; [exfalso; apply ND; constructor|]. destruct (in_dec Req_EM_T a x) as [I|NI].
    - destruct (In_nth x a 0 I) as (k & Hk & E). exists 0%nat, (S k). cbn [length nth]. split; [lia|auto].
    - destruct IH as (i & j & Hij & E); [intros C; apply ND; constructor; assumption|]. exists (S i), (S j). cbn [length nth]. split; [lia|exact E]. }
  destruct DUP as (i & j & Hij & E).
  set (w' := map (fun k => nth k w 0 + ((if Nat.eqb k i then 1 else 0) - (if Nat.eqb k j then 1 else 0))) (seq 0 N)).
  assert (LW : length w' = N) by (unfold w'; rewrite map_length, seq_length; reflexivity).
  assert (WN : forall k, (k < N)%nat -> nth k w' 0 = nth k w 0 + ((if Nat.eqb k i then 1 else 0) - (if Nat.eqb k j then 1 else 0))).
  { intros k Hk. unfold w'. set (f := fun k : nat => _). rewrite (nth_indep _ 0 (f 0%nat)) by (rewrite map_length, seq_length; exact Hk). rewrite map_nth, seq_nth by exact Hk. reflexivity. }
  exists w'. split.
  - split; [rewrite map_length, seq_length; exact LW|]. intros n Hn. assert (Hn' := Hn). rewrite map_length, seq_length in Hn'. rewrite <- (H n) by exact Hn.
    rewrite (nth_indep _ [] (iw_row x mu 0)) by (rewrite map_length, seq_length; exact Hn'). rewrite map_nth, seq_nth by exact Hn'. cbn [Nat.add]. rewrite !dot_row by assumption.
    rewrite (lsum_seq_nth x w' (fun e => (e - mu) ^ n / INR (fact n)) LW), (lsum_seq_nth x w (fun e => (e - mu) ^ n / INR (fact n)) L). fold N. set (f := fun e => (e - mu) ^ n / INR (fact n)).
    transitivity (sum0 N (fun k => f (nth k x 0) * nth k w 0) + (sum0 N (fun k => if Nat.eqb k i then f (nth i x 0) else 0) + -1 * sum0 N (fun k => if Nat.eqb k j then f (nth j x 0) else 0))).
    + unfold sum0. rewrite <- lsum_lin. rewrite <- (Rmult_1_l (lsum _ (fun k => _ + -1 * _))), <- lsum_lin. apply lsum_ext. intros k Hk. apply in_seq in Hk. rewrite WN by lia.
      destruct (Nat.eqb_spec k i) as [E1|]; destruct (Nat.eqb_spec k j) as [E2|]; try rewrite <- E1; try rewrite <- E2; unfold f; ring.
    + rewrite !sum0_pick by lia. rewrite E. unfold f. ring.
  - intros C. assert (X := WN i ltac:(lia)). rewrite C, Nat.eqb_refl in X. destruct (Nat.eqb_spec i j); [lia|lra].
Qed.
Print Assumptions C52_repeated.

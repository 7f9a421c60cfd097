(** Analysis for the eigenvalue derivatives: limits of complex functions at 0, and the perturbation of a simple
    eigenvalue from the equations in the unperturbed eigenbasis. *)
From Coq Require Import List Arith ZArith Reals Lra Lia Bool Setoid Morphisms.
From Coquelicot Require Import Coquelicot.
Import List ListNotations.
From Verif Require Import SRing LMat FMat CplxR UrepModel UrepProofs FourierModel FourierProofs BsmProofs SpecProofs EigModel.
Local Open Scope R_scope.

(** punctured neighbourhoods of 0 *)
Notation near0 := (Rbar_locally' (Finite 0)).
Lemma near0_and P Q : near0 P -> near0 Q -> near0 (fun t => P t /\ Q t).
Proof. intros. apply filter_and; assumption. Qed.
Lemma near0_imp (P Q : R -> Prop) : (forall t, P t -> Q t) -> near0 P -> near0 Q.
Proof. intros. eapply filter_imp; eassumption. Qed.
Lemma near0_forall (n : nat) (P : nat -> R -> Prop) : (forall k, (k < n)%nat -> near0 (P k)) ->
  near0 (fun t => forall k, (k < n)%nat -> P k t).
Proof.
  induction n as [|n IH]; intro H.
  - apply filter_forall. intros t k Hk. lia.
  - apply (near0_imp (fun t => (forall k, (k < n)%nat -> P k t) /\ P n t)).
    + intros t [H1 H2] k Hk. destruct (Nat.eq_dec k n) as [-> |]; [exact H2|apply H1; lia].
    + apply near0_and; [apply IH; intros; apply H; lia|apply H; lia].
Qed.
Lemma near0_nz : near0 (fun t => t <> 0).
Proof. exists (mkposreal 1 Rlt_0_1). intros y _ Hy. exact Hy. Qed.

(** limit at 0 of a complex function of a real variable *)
Definition clim (f : R -> cplx) (l : cplx) : Prop :=
  is_lim (fun t => fst (f t)) 0 (fst l) /\ is_lim (fun t => snd (f t)) 0 (snd l).
Lemma clim_ext_near f g l : near0 (fun t => f t = g t) -> clim f l -> clim g l.
Proof.
  intros H [A B]. split; [eapply is_lim_ext_loc; [|exact A]|eapply is_lim_ext_loc; [|exact B]];
    (eapply near0_imp; [|exact H]); intros t E; cbv beta in E |- *; rewrite E; reflexivity.
Qed.
Lemma clim_const c : clim (fun _ => c) c.
Proof. split; apply is_lim_const. Qed.
Lemma clim_add f g l m : clim f l -> clim g m -> clim (fun t => cadd (f t) (g t)) (cadd l m).
Proof. intros [A B] [C D]. split; simpl; apply is_lim_plus'; assumption. Qed.
Lemma clim_sub f g l m : clim f l -> clim g m -> clim (fun t => csub (f t) (g t)) (csub l m).
Proof. intros [A B] [C D]. split; simpl; apply is_lim_minus'; assumption. Qed.
Lemma lim_mult (f g : R -> R) (l m : R) : is_lim f 0 l -> is_lim g 0 m -> is_lim (fun t => f t * g t) 0 (l * m).
Proof. intros A B. apply (is_lim_mult f g 0 l m A B). exact I. Qed.
Lemma clim_mul f g l m : clim f l -> clim g m -> clim (fun t => cmul (f t) (g t)) (cmul l m).
Proof.
  intros [A B] [C D]. split; simpl.
  - apply is_lim_minus'; apply lim_mult; assumption.
  - apply is_lim_plus'; apply lim_mult; assumption.
Qed.
Lemma clim_re f l : is_lim f 0 (Finite l) -> clim (fun t => cre (f t)) (cre l).
Proof. intro H. split; simpl; [exact H|apply is_lim_const]. Qed.
Lemma clim_nsum n (f : R -> nat -> cplx) (l : nat -> cplx) : (forall k, (k < n)%nat -> clim (fun t => f t k) (l k)) ->
  clim (fun t => nsum (K:=Cs) n (f t)) (nsum (K:=Cs) n l).
Proof.
  induction n as [|n IH]; intro H.
  - apply clim_const.
  - rewrite (nsum_S Cs). apply (clim_ext_near (fun t => cadd (nsum (K:=Cs) n (f t)) (f t n))).
    + apply filter_forall. intro t. rewrite (nsum_S Cs). reflexivity.
    + apply clim_add; [apply IH; intros; apply H; lia|apply H; lia].
Qed.
Lemma clim_eq f l m : l = m -> clim f l -> clim f m.
Proof. intros ->. exact (fun H => H). Qed.
Lemma is_lim_eps f (l : R) : is_lim f 0 l <-> forall eps, 0 < eps -> near0 (fun t => Rabs (f t - l) < eps).
Proof.
  split.
  - intros H eps He. apply is_lim_spec in H. exact (H (mkposreal eps He)).
  - intro H. apply is_lim_spec. intro eps. apply H. apply cond_pos.
Qed.

(** sum norm *)
Definition n1 (z : cplx) : R := Rabs (fst z) + Rabs (snd z).
Lemma n1_ge0 z : 0 <= n1 z. Proof. unfold n1. pose proof (Rabs_pos (fst z)). pose proof (Rabs_pos (snd z)). lra. Qed.
Lemma n1_mul x y : n1 (cmul x y) <= n1 x * n1 y.
Proof.
  unfold n1, cmul; simpl. destruct x as [a b], y as [c d]; simpl.
  pose proof (Rabs_triang (a * c) (- (b * d))) as H1. pose proof (Rabs_triang (a * d) (b * c)) as H2.
  rewrite Rabs_Ropp, !Rabs_mult in H1. rewrite !Rabs_mult in H2. unfold Rminus. nra.
Qed.
Lemma n1_add x y : n1 (cadd x y) <= n1 x + n1 y.
Proof.
  unfold n1, cadd; simpl. pose proof (Rabs_triang (fst x) (fst y)). pose proof (Rabs_triang (snd x) (snd y)). lra.
Qed.
Lemma n1_scal r z : n1 (cmul (cre r) z) = Rabs r * n1 z.
Proof.
  unfold n1, cmul, cre; simpl. rewrite !Rmult_0_l, Rminus_0_r, Rplus_0_r, !Rabs_mult. ring.
Qed.
Lemma n1_pos z : z <> (0,0) -> 0 < n1 z.
Proof.
  intro H. destruct z as [a b]. unfold n1; simpl. pose proof (Rabs_pos a). pose proof (Rabs_pos b).
  destruct (Req_dec a 0) as [-> |Ha]; [destruct (Req_dec b 0) as [-> |Hb]; [congruence|]|].
  - pose proof (Rabs_pos_lt b Hb). lra.
  - pose proof (Rabs_pos_lt a Ha). lra.
Qed.
Lemma n1_zero : n1 (0,0) = 0. Proof. unfold n1; simpl. rewrite Rabs_R0. ring. Qed.
Lemma n1_inv z : z <> (0,0) -> n1 (cinv z) <= 2 / n1 z.
Proof.
  intro H. pose proof (n1_pos z H) as P. destruct z as [a b]. unfold n1, cinv in *; simpl in *.
  set (q := a * a + b * b). assert (Hq : 0 < q).
  { unfold q. destruct (Req_dec a 0) as [-> |Ha]; [destruct (Req_dec b 0) as [-> |Hb]; [congruence|]|].
    - pose proof (Rsqr_pos_lt b Hb). unfold Rsqr in *. lra.
    - pose proof (Rsqr_pos_lt a Ha). unfold Rsqr in *. pose proof (Rle_0_sqr b). unfold Rsqr in *. lra. }
  unfold Rdiv. rewrite !Rabs_mult, Rabs_Ropp, (Rabs_pos_eq (/ q)) by (left; apply Rinv_0_lt_compat; exact Hq).
  set (x := Rabs a) in *. set (y := Rabs b) in *.
  assert (Hxy : q = x * x + y * y). { unfold q, x, y. rewrite <- !Rabs_mult, !Rabs_pos_eq by nra. reflexivity. }
  assert (M : 0 < q * (x + y)) by (apply Rmult_lt_0_compat; assumption).
  apply (Rmult_le_reg_r (q * (x + y))); [exact M|].
  replace ((x * / q + y * / q) * (q * (x + y))) with ((x + y) * (x + y)) by (field; lra).
  replace (2 * / (x + y) * (q * (x + y))) with (2 * q) by (field; lra).
  rewrite Hxy. pose proof (Rle_0_sqr (x - y)) as Q. unfold Rsqr in Q. lra.
Qed.
Lemma n1_nsum n f : n1 (nsum (K:=Cs) n f) <= nsum (K:=Rs) n (fun k => n1 (f k)).
Proof.
  induction n as [|n IH]; [change (n1 (0,0) <= 0); rewrite n1_zero; apply Rle_refl|].
  rewrite (nsum_S Cs), (nsum_S Rs). eapply Rle_trans; [apply n1_add|]. apply Rplus_le_compat_r. exact IH.
Qed.
Lemma rsum_le n (f g : nat -> R) : (forall i, (i < n)%nat -> f i <= g i) -> nsum (K:=Rs) n f <= nsum (K:=Rs) n g.
Proof.
  induction n as [|n IH]; intro H; [apply Rle_refl|]. rewrite !(nsum_S Rs). apply Rplus_le_compat; [apply IH; intros; apply H; lia|apply H; lia].
Qed.
Lemma rsum_ge0 n (f : nat -> R) : (forall i, (i < n)%nat -> 0 <= f i) -> 0 <= nsum (K:=Rs) n f.
Proof.
  intro H. replace 0 with (nsum (K:=Rs) n (fun _ => 0)); [apply rsum_le; exact H|]. apply (nsum_zero Rs). reflexivity.
Qed.
Lemma rsum_ge_one n (f : nat -> R) k : (k < n)%nat -> (forall i, (i < n)%nat -> 0 <= f i) -> f k <= nsum (K:=Rs) n f.
Proof.
  intros Hk H. replace (f k) with (nsum (K:=Rs) n (fun i => if Nat.eqb i k then f i else 0)).
  - apply rsum_le. intros i Hi. destruct (Nat.eqb i k); [apply Rle_refl|apply H; exact Hi].
  - exact (nsum_delta Rs n k f Hk).
Qed.
Lemma clim0_n1 f : clim f (0,0) <-> forall eps, 0 < eps -> near0 (fun t => n1 (f t) < eps).
Proof.
  unfold clim. simpl. rewrite !is_lim_eps. split.
  - intros [A B] eps He. assert (He2 : 0 < eps / 2) by lra.
    generalize (near0_and _ _ (A _ He2) (B _ He2)). apply near0_imp. intros t [H1 H2]. rewrite Rminus_0_r in H1, H2.
    unfold n1. lra.
  - intro H. split; intros eps He; generalize (H eps He); apply near0_imp; intros t Ht; rewrite Rminus_0_r; unfold n1 in Ht;
      pose proof (Rabs_pos (fst (f t))); pose proof (Rabs_pos (snd (f t))); lra.
Qed.

(* ------------------------------------------------------------------ *)
Section Branch.
Variables (n i : nat) (la : nat -> R) (e : R -> R) (A : R -> nat -> nat -> cplx) (c : R -> nat -> cplx).
Hypothesis Hi : (i < n)%nat.
Hypothesis Hgap : forall k, (k < n)%nat -> k <> i -> la k <> la i.
Hypothesis He : is_lim e 0 (la i).
Hypothesis HA : forall k l, (k < n)%nat -> (l < n)%nat -> clim (fun t => A t k l) (0,0).
Hypothesis Hsys : near0 (fun t => (exists k, (k < n)%nat /\ c t k <> (0,0)) /\
  forall k, (k < n)%nat -> cmul (cre (e t - la k)) (c t k) = nsum (K:=Cs) n (fun l => cmul (A t k l) (c t l))).

Let C t := nsum (K:=Rs) n (fun k => n1 (c t k)).
Lemma br_C_ge0 t : 0 <= C t.
Proof. apply rsum_ge0. intros. apply n1_ge0. Qed.
Lemma br_small k eps : (k < n)%nat -> k <> i -> 0 < eps -> near0 (fun t => n1 (c t k) <= eps * C t).
Proof.
  intros Hk Hne Hep. set (g := Rabs (la i - la k) / 2).
  assert (Hg : 0 < g). { unfold g. pose proof (Rabs_pos_lt (la i - la k)). assert (la i - la k <> 0) by (pose proof (Hgap k Hk Hne); lra). lra. }
  assert (Hn : 0 < eps * g) by (apply Rmult_lt_0_compat; assumption).
  assert (E1 : near0 (fun t => forall l, (l < n)%nat -> n1 (A t k l) < eps * g)).
  { apply near0_forall. intros l Hl. exact (proj1 (clim0_n1 _) (HA k l Hk Hl) _ Hn). }
  generalize (near0_and _ _ (near0_and _ _ E1 (proj1 (is_lim_eps e (la i)) He g Hg)) Hsys). apply near0_imp.
  intros t [[H1 H2] [_ H3]]. specialize (H3 k Hk). apply (f_equal n1) in H3. rewrite n1_scal in H3.
  assert (B : nsum (K:=Rs) n (fun l => n1 (cmul (A t k l) (c t l))) <= eps * g * C t).
  { unfold C. change (eps * g * nsum (K:=Rs) n (fun l => n1 (c t l))) with (@smul Rs (eps * g) (nsum (K:=Rs) n (fun l => n1 (c t l)))).
    rewrite <- (nsum_mul_l Rs). apply rsum_le. intros l Hl. eapply Rle_trans; [apply n1_mul|].
    apply Rmult_le_compat_r; [apply n1_ge0|]. left. apply H1. exact Hl. }
  pose proof (n1_nsum n (fun l => cmul (A t k l) (c t l))) as B2. rewrite <- H3 in B2.
  assert (G : g <= Rabs (e t - la k)).
  { unfold g in *. pose proof (Rabs_triang (e t - la k) (la i - e t)) as T. replace (e t - la k + (la i - e t)) with (la i - la k) in T by ring.
    rewrite <- (Rabs_Ropp (la i - e t)) in T. replace (- (la i - e t)) with (e t - la i) in T by ring. lra. }
  apply (Rmult_le_reg_l g); [exact Hg|]. pose proof (n1_ge0 (c t k)).
  apply Rle_trans with (Rabs (e t - la k) * n1 (c t k)); [apply Rmult_le_compat_r; assumption|].
  replace (g * (eps * C t)) with (eps * g * C t) by ring. lra.
Qed.
Lemma rsum_split n' j (f : nat -> R) b : (j < n')%nat -> 0 <= b -> (forall k, (k < n')%nat -> k <> j -> f k <= b) ->
  nsum (K:=Rs) n' f <= f j + INR n' * b.
Proof.
  intros Hj Hb H.
  apply Rle_trans with (nsum (K:=Rs) n' (fun k => (if Nat.eqb k j then f k else 0) + b)).
  - apply rsum_le. intros k Hk. destruct (Nat.eqb_spec k j) as [-> |Hne]; [lra|]. pose proof (H k Hk Hne). lra.
  - change (nsum (K:=Rs) n' (fun k => @sadd Rs (if Nat.eqb k j then f k else 0) b) <= f j + INR n' * b).
    rewrite (nsum_add Rs). pose proof (nsum_delta Rs n' j f Hj) as D.
    change (nsum (K:=Rs) n' (fun k => if Nat.eqb k j then f k else 0) = f j) in D. rewrite D. apply Rplus_le_compat_l.
    clear. induction n' as [|m IH]; [rewrite (nsum_0 Rs); simpl; lra|]. rewrite (nsum_S Rs), S_INR.
    change (nsum (K:=Rs) m (fun _ => b) + b <= (INR m + 1) * b). lra.
Qed.
Lemma br_dominant eps : 0 < eps -> near0 (fun t => c t i <> (0,0) /\ forall k, (k < n)%nat -> k <> i -> n1 (c t k) <= eps * n1 (c t i)).
Proof.
  intro Hep. set (d := Rmin (eps / 2) (/ (2 * INR n))).
  assert (Hn : 0 < INR n) by (apply lt_0_INR; lia).
  assert (Hd : 0 < d). { unfold d. apply Rmin_pos; [lra|]. apply Rinv_0_lt_compat. lra. }
  assert (E1 : near0 (fun t => forall k, (k < n)%nat -> k <> i -> n1 (c t k) <= d * C t)).
  { apply near0_forall. intros k Hk. destruct (Nat.eq_dec k i) as [-> |Hne].
    - apply filter_forall. intros t F. congruence.
    - generalize (br_small k d Hk Hne Hd). apply near0_imp. intros t H _. exact H. }
  generalize (near0_and _ _ E1 Hsys). apply near0_imp. intros t [H1 [(m & Hm & Hcm) _]].
  pose proof (br_C_ge0 t) as C0.
  assert (B : C t <= n1 (c t i) + INR n * (d * C t)).
  { apply (rsum_split n i (fun k => n1 (c t k))); [exact Hi|apply Rmult_le_pos; lra|exact H1]. }
  assert (D1 : INR n * d <= / 2).
  { apply Rle_trans with (INR n * / (2 * INR n)); [apply Rmult_le_compat_l; [lra|apply Rmin_r]|]. right. field. lra. }
  assert (D2 : C t <= 2 * n1 (c t i)). { assert (INR n * (d * C t) <= / 2 * C t) by (rewrite <- Rmult_assoc; apply Rmult_le_compat_r; lra). lra. }
  assert (CP : 0 < C t). { apply Rlt_le_trans with (n1 (c t m)); [apply n1_pos; exact Hcm|].
    apply (rsum_ge_one n (fun k => n1 (c t k))); [exact Hm|intros; apply n1_ge0]. }
  split.
  - intro E. rewrite E, n1_zero in D2. lra.
  - intros k Hk Hne. apply Rle_trans with (d * C t); [apply H1; assumption|].
    apply Rle_trans with (eps / 2 * C t); [apply Rmult_le_compat_r; [lra|apply Rmin_l]|].
    replace (eps * n1 (c t i)) with (eps / 2 * (2 * n1 (c t i))) by field. apply Rmult_le_compat_l; lra.
Qed.
(** coefficients normalised by the dominant one *)
Definition br_x t k := cmul (c t k) (cinv (c t i)).
Lemma br_xi : near0 (fun t => br_x t i = (1,0)).
Proof.
  generalize (br_dominant 1 Rlt_0_1). apply near0_imp. intros t [H _]. unfold br_x.
  transitivity (cmul (cinv (c t i)) (c t i)); [rg|apply cinv_l; exact H].
Qed.
Lemma br_x0 k : (k < n)%nat -> k <> i -> clim (fun t => br_x t k) (0,0).
Proof.
  intros Hk Hne. apply clim0_n1. intros eps Hep. assert (H4 : 0 < eps / 4) by lra.
  generalize (br_dominant _ H4). apply near0_imp. intros t [H1 H2]. specialize (H2 k Hk Hne).
  pose proof (n1_pos _ H1) as P. unfold br_x. eapply Rle_lt_trans; [apply n1_mul|].
  apply Rle_lt_trans with (eps / 4 * n1 (c t i) * (2 / n1 (c t i))).
  - apply Rmult_le_compat; [apply n1_ge0|apply n1_ge0|exact H2|apply n1_inv; exact H1].
  - replace (eps / 4 * n1 (c t i) * (2 / n1 (c t i))) with (eps / 2) by (field; lra). lra.
Qed.
Lemma br_xlim k : (k < n)%nat -> clim (fun t => br_x t k) (if Nat.eqb k i then (1,0) else (0,0)).
Proof.
  intro Hk. destruct (Nat.eqb_spec k i) as [-> |Hne]; [|apply br_x0; assumption].
  apply (clim_ext_near (fun _ => (1,0))); [|apply clim_const]. generalize br_xi. apply near0_imp. intros t H. symmetry. exact H.
Qed.
Lemma br_xeq : near0 (fun t => forall k, (k < n)%nat -> cmul (cre (e t - la k)) (br_x t k) = nsum (K:=Cs) n (fun l => cmul (A t k l) (br_x t l))).
Proof.
  generalize Hsys. apply near0_imp. intros t [_ H] k Hk. unfold br_x.
  transitivity (cmul (cmul (cre (e t - la k)) (c t k)) (cinv (c t i))); [rg|]. rewrite (H k Hk).
  change cmul with (@smul Cs). rewrite <- (nsum_mul_r Cs). apply (nsum_ext Cs). intros l _. simpl. rg.
Qed.

(** first order *)
Variable A1 : nat -> nat -> cplx.
Hypothesis HA1 : forall k l, (k < n)%nat -> (l < n)%nat -> clim (fun t => cmul (cre (/ t)) (A t k l)) (A1 k l).
Lemma sum_pick k : nsum (K:=Cs) n (fun l => cmul (A1 k l) (if Nat.eqb l i then (1,0) else (0,0))) = A1 k i.
Proof.
  rewrite (nsum_single Cs n i); [rewrite Nat.eqb_refl; csolve|exact Hi|].
  intros l _ Hne. rewrite (proj2 (Nat.eqb_neq l i)) by exact Hne. csolve.
Qed.
Lemma br_rhs1 k : (k < n)%nat -> clim (fun t => cmul (cre (/ t)) (nsum (K:=Cs) n (fun l => cmul (A t k l) (br_x t l)))) (A1 k i).
Proof.
  intro Hk. rewrite <- sum_pick.
  apply (clim_ext_near (fun t => nsum (K:=Cs) n (fun l => cmul (cmul (cre (/ t)) (A t k l)) (br_x t l)))).
  - apply filter_forall. intro t. change cmul with (@smul Cs). rewrite <- (nsum_mul_l Cs). apply (nsum_ext Cs). intros; simpl; rg.
  - apply (clim_nsum n (fun t l => cmul (cmul (cre (/ t)) (A t k l)) (br_x t l))). intros l Hl. apply clim_mul; [apply HA1; assumption|apply br_xlim; exact Hl].
Qed.
Lemma br_first : clim (fun t => cre ((e t - la i) / t)) (A1 i i).
Proof.
  apply (clim_ext_near (fun t => cmul (cre (/ t)) (nsum (K:=Cs) n (fun l => cmul (A t i l) (br_x t l))))); [|apply br_rhs1; exact Hi].
  generalize (near0_and _ _ br_xi br_xeq). apply near0_imp. intros t [H1 H2]. rewrite <- (H2 i Hi), H1. unfold Rdiv. apply cplx_eq; simpl; ring.
Qed.
Lemma br_x1 k : (k < n)%nat -> k <> i -> clim (fun t => cmul (cre (/ t)) (br_x t k)) (cmul (cre (/ (la i - la k))) (A1 k i)).
Proof.
  intros Hk Hne. assert (G : la i - la k <> 0) by (pose proof (Hgap k Hk Hne); lra).
  apply (clim_ext_near (fun t => cmul (cre (/ (e t - la k))) (cmul (cre (/ t)) (nsum (K:=Cs) n (fun l => cmul (A t k l) (br_x t l)))))).
  - assert (E : near0 (fun t => e t - la k <> 0)).
    { generalize (proj1 (is_lim_eps e (la i)) He (Rabs (la i - la k)) (Rabs_pos_lt _ G)). apply near0_imp. intros t H F.
      replace (e t - la i) with (- (la i - la k)) in H by lra. rewrite Rabs_Ropp in H. lra. }
    generalize (near0_and _ _ E br_xeq). apply near0_imp. intros t [H1 H2]. rewrite <- (H2 k Hk).
    transitivity (cmul (cmul (cre (/ (e t - la k))) (cre (e t - la k))) (cmul (cre (/ t)) (br_x t k))); [rg|].
    replace (cmul (cre (/ (e t - la k))) (cre (e t - la k))) with ((1,0) : cplx); [rg|]. apply cplx_eq; simpl; [field; exact H1|ring].
  - apply clim_mul; [|apply br_rhs1; exact Hk]. apply clim_re.
    apply (is_lim_inv (fun t => e t - la k) 0 (Finite (la i - la k))); [apply is_lim_minus'; [exact He|apply is_lim_const]|].
    intro F. injection F. exact G.
Qed.
(** second order *)
Variable A2 : cplx.
Hypothesis HA2 : clim (fun t => cmul (cre (/ (t * t))) (csub (A t i i) (cmul (cre t) (A1 i i)))) A2.
Lemma br_second : clim (fun t => cmul (cre (/ (t * t))) (csub (cre (e t - la i)) (cmul (cre t) (A1 i i))))
  (cadd A2 (nsum (K:=Cs) n (fun l => if Nat.eqb l i then (0,0) else cmul (A1 i l) (cmul (cre (/ (la i - la l))) (A1 l i))))).
Proof.
  apply (clim_ext_near (fun t => cadd (cmul (cre (/ (t * t))) (csub (A t i i) (cmul (cre t) (A1 i i))))
    (nsum (K:=Cs) n (fun l => if Nat.eqb l i then (0,0) else cmul (cmul (cre (/ t)) (A t i l)) (cmul (cre (/ t)) (br_x t l)))))).
  - generalize (near0_and _ _ near0_nz (near0_and _ _ br_xi br_xeq)). apply near0_imp. intros t [H0 [H1 H2]].
    specialize (H2 i Hi). rewrite H1 in H2.
    assert (S0 : nsum (K:=Cs) n (fun l => cmul (A t i l) (br_x t l)) =
      cadd (A t i i) (nsum (K:=Cs) n (fun l => if Nat.eqb l i then (0,0) else cmul (A t i l) (br_x t l)))).
    { transitivity (nsum (K:=Cs) n (fun l => @sadd Cs (if Nat.eqb l i then A t i l else (0,0)) (if Nat.eqb l i then (0,0) else cmul (A t i l) (br_x t l)))).
      - apply (nsum_ext Cs). intros l _. destruct (Nat.eqb_spec l i) as [-> |]; [rewrite H1|generalize (br_x t l); intro]; apply cplx_eq; simpl; ring.
      - etransitivity; [exact (nsum_add Cs n (fun l => if Nat.eqb l i then A t i l else (0,0)) (fun l => if Nat.eqb l i then (0,0) else cmul (A t i l) (br_x t l)))|].
        apply (f_equal (fun z => cadd z _)). exact (nsum_delta Cs n i (fun l => A t i l) Hi). }
    rewrite S0 in H2. replace (cre (e t - la i)) with (cmul (cre (e t - la i)) (1,0)) by csolve. rewrite H2.
    transitivity (cadd (cmul (cre (/ (t * t))) (csub (A t i i) (cmul (cre t) (A1 i i))))
      (cmul (cre (/ (t * t))) (nsum (K:=Cs) n (fun l => if Nat.eqb l i then (0,0) else cmul (A t i l) (br_x t l))))); [|rg].
    f_equal. etransitivity; [|exact (nsum_mul_l Cs n (fun l => if Nat.eqb l i then (0,0) else cmul (A t i l) (br_x t l)) (cre (/ (t * t))))].
    apply (nsum_ext Cs). intros l _. cbn beta.
    destruct (Nat.eqb l i); [apply cplx_eq; simpl; ring|]. generalize (br_x t l); intro z. rewrite Rinv_mult. apply cplx_eq; simpl; ring.
  - apply clim_add; [exact HA2|].
    apply (clim_nsum n (fun t l => if Nat.eqb l i then (0,0) else cmul (cmul (cre (/ t)) (A t i l)) (cmul (cre (/ t)) (br_x t l)))).
    intros l Hl. destruct (Nat.eqb_spec l i) as [-> |Hne]; [apply clim_const|].
    apply clim_mul; [apply HA1; assumption|apply br_x1; assumption].
Qed.
End Branch.

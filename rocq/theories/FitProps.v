(** Properties C111-C114: the fits of BandStructureModel and AsymTightBindingModel (optimize, optimize_cg). *)
From Coq Require Import List Arith ZArith Reals Lra Lia Bool Setoid Morphisms.
From Coquelicot Require Import Coquelicot.
Import List ListNotations.
From Verif Require Import SRing LMat FMat CplxR UrepModel UrepProofs FourierModel FourierProofs BsmProofs SpecProofs FourierProps EigModel EigProofs EigBase EigProps EigHess EigBad TbmModel TbmProps FitModel FitBase.
Local Open Scope R_scope.

(** N samples: values of the coefficient functions, weights, reference bands *)
Definition samples (N : nat) (c : nat -> nat -> cplx) (kw : nat -> R) (ref : nat -> nat -> R) := map (fun b => (c b, kw b, ref b)) (seq 0 N).
Lemma combine_seq_map {A} N (g : nat -> A) : combine (seq 0 N) (map g (seq 0 N)) = map (fun b => (b, g b)) (seq 0 N).
Proof. generalize 0%nat. induction N as [|N IH]; intro a; [reflexivity|]. cbn [seq map combine]. rewrite IH. reflexivity. Qed.
Definition bsm_anti (np N : nat) (C : option (nat -> nat -> cplx)) (c : nat -> nat -> cplx) (b i : nat) : cplx :=
  match C with None => cconj (half0 (c b) i) | Some C => cmul (cmul (C b i) (cre (sq_sum np (half0 (c b))))) (cre (INR N)) end.
Lemma bsm_prep_seq np N C c kw ref : bsm_prep np C (samples N c kw ref) = map (fun b => MkSmp (half0 (c b)) (bsm_anti np N C c b) (kw b) (ref b)) (seq 0 N).
Proof.
  unfold bsm_prep, samples. rewrite map_length, seq_length, combine_seq_map, map_map. apply map_ext. intro b. cbn [fst snd]. f_equal. unfold bsm_anti. destruct C; reflexivity.
Qed.
(** the weight of the band j at the sample b in the step *)
Definition fit_q (np N ne : nat) (bw : nat -> R) (c : nat -> nat -> cplx) (kw : nat -> R) (b j : nat) : R :=
  bw j / mean ne bw * (kw b / mean N kw) * (1 / 2 / INR N / sq_sum np (half0 (c b))).
Lemma prep_mean np N C c kw ref : sum_list (map sw (bsm_prep np C (samples N c kw ref))) / INR (length (bsm_prep np C (samples N c kw ref))) = mean N kw.
Proof.
  rewrite bsm_prep_seq, map_map, map_length, seq_length. cbn [sw]. unfold mean. f_equal. unfold nsum. induction (seq 0 N) as [|a l IH]; [reflexivity|]. simpl. rewrite IH. reflexivity.
Qed.
Lemma prep_add eigh np off ne bw N C c kw ref P i : bsm_add eigh np off ne bw (bsm_prep np C (samples N c kw ref)) P i =
  fsum (K:=Cs) (map (fun b => MkSmp (half0 (c b)) (bsm_anti np N C c b) (kw b) (ref b)) (seq 0 N)) (fun s => fscale (K:=Cs) (sc s i) (bsm_win eigh np off ne bw (bsm_prep np C (samples N c kw ref)) P s)).
Proof. unfold bsm_add. rewrite <- bsm_prep_seq. reflexivity. Qed.
Lemma prep_add_entry eigh np off ne bw N C c kw ref P i x y : bsm_add eigh np off ne bw (bsm_prep np C (samples N c kw ref)) P i x y =
  nsum (K:=Cs) N (fun b => cmul (bsm_anti np N C c b i) (win_mat (snd (eigh (fit_H np (half0 (c b)) P))) off ne
    (fun j => cre ((ref b j - fst (eigh (fit_H np (half0 (c b)) P)) (off + j)%nat) * fit_q np N ne bw c kw b j)) x y)).
Proof.
  rewrite prep_add. unfold fsum. rewrite (ksum_map Cs). apply (ksum_ext Cs). intros b _. cbn [sc]. unfold fscale. refine (f_equal2 cmul eq_refl _).
  unfold bsm_win. cbn [sf sref sw]. destruct (eigh (fit_H np (half0 (c b)) P)) as [la V]. cbn [fst snd]. apply win_ext. intros j _. unfold cre. f_equal.
  rewrite prep_mean. replace (length (bsm_prep np C (samples N c kw ref))) with N by (rewrite bsm_prep_seq, map_length, seq_length; reflexivity).
  unfold fit_q. ring.
Qed.

(** ** C111: the gradient step *)
(** the loss whose gradient is used: q_bj (ref_bj - E_j(k_b))^2 with the weights of the step *)
Definition fit_wloss (np N ne : nat) (bw : nat -> R) (c : nat -> nat -> cplx) (kw : nat -> R) (ref : nat -> nat -> R) (e : nat -> nat -> R) : R :=
  rsum N (fun b => rsum ne (fun j => fit_q np N ne bw c kw b j * ((ref b j - e b j) * (ref b j - e b j)))).
Lemma is_derive_rsum n (f : nat -> R -> R) x (l : nat -> R) : (forall a, (a < n)%nat -> is_derive (f a) x (l a)) -> is_derive (fun t => rsum n (fun a => f a t)) x (rsum n l).
Proof.
  intro H. induction n as [|n IH]; [exact (is_derive_const (K:=R_AbsRing) (V:=R_NormedModule) 0 x)|].
  apply (is_derive_ext (fun t => rsum n (fun a => f a t) + f n t)); [intro t; rewrite (nsum_S Rs); reflexivity|]. rewrite (nsum_S Rs).
  change (is_derive (fun t => plus (rsum n (fun a => f a t)) (f n t)) x (plus (rsum n l) (l n))). apply (is_derive_plus (fun t => rsum n (fun a => f a t)) (f n)).
  - apply IH. intros a Ha. apply H. lia.
  - apply H. lia.
Qed.
Lemma is_derive_sq q r (e : R -> R) l : is_derive e 0 l -> is_derive (fun t => q * ((r - e t) * (r - e t))) 0 (- 2 * (q * (r - e 0) * l)).
Proof. intro H. auto_derive; [repeat split; exists l; exact H|]. replace (Derive (fun x => e x) 0) with l by (symmetry; exact (is_derive_unique _ _ _ H)). ring. Qed.
Theorem C111_gradient : forall eigh d np off ne bw N c kw ref P Q (e : nat -> nat -> R -> R), (off + ne <= d)%nat ->
  (forall b, (b < N)%nat -> let r := eigh (fit_H np (half0 (c b)) P) in eigenbasis d (fit_H np (half0 (c b)) P) (fid (K:=Cs)) r /\
    forall j, (j < ne)%nat -> simple d (fst r) (off + j) /\ e b j 0 = fst r (off + j)%nat /\
      band d (fun t => fit_H np (half0 (c b)) (shift_pars P Q t)) (fun _ => fid (K:=Cs)) (e b j)) ->
  is_derive (fun t => fit_wloss np N ne bw c kw ref (fun b j => e b j t)) 0
    (- 4 * inner d np (bsm_add eigh np off ne bw (bsm_prep np None (samples N c kw ref)) P) Q).
Proof.
  intros eigh d np off ne bw N c kw ref P Q e Hw H.
  set (V := fun b => snd (eigh (fit_H np (half0 (c b)) P))). set (la := fun b => fst (eigh (fit_H np (half0 (c b)) P))).
  set (g := fun b j => (ref b j - la b (off + j)%nat) * fit_q np N ne bw c kw b j).
  assert (E : inner d np (bsm_add eigh np off ne bw (bsm_prep np None (samples N c kw ref)) P) Q =
    rsum N (fun b => rsum ne (fun j => g b j * (eig_diag d (V b) (fit_H np (half0 (c b)) Q) (off + j) / 2)))).
  { transitivity (inner d np (fun k => fsum (K:=Cs) (seq 0 N) (fun b => fscale (K:=Cs) (bsm_anti np N None c b k) (win_mat (V b) off ne (fun a => cre (g b a))))) Q).
    - unfold inner. do 3 (apply (nsum_ext Rs); intros ? _). rewrite prep_add_entry. reflexivity.
    - rewrite (inner_updates d np off ne (seq 0 N) (bsm_anti np N None c) V g Q). apply (ksum_ext Rs). intros b _. apply (nsum_ext Rs). intros j _.
      rewrite eig_el_fit. set (z := nsum (K:=Cs) np (fun k => cmul (cconj (bsm_anti np N None c b k)) (eig_el d (V b) (Q k) (off + j)%nat (off + j)%nat))).
      assert (Z : z = nsum (K:=Cs) np (fun l => cmul (half0 (c b) l) (eig_el d (V b) (Q l) (off + j)%nat (off + j)%nat))).
      { apply (nsum_ext Cs). intros k _. refine (f_equal2 cmul _ eq_refl). unfold bsm_anti. apply cplx_eq; simpl; ring. }
      rewrite <- Z. simpl. field. }
  rewrite E.
  replace (- 4 * _) with (rsum N (fun b => rsum ne (fun j => - 2 * (fit_q np N ne bw c kw b j * (ref b j - la b (off + j)%nat) * eig_diag d (V b) (fit_H np (half0 (c b)) Q) (off + j))))).
  2:{ symmetry. etransitivity; [symmetry; apply (nsum_mul_l Rs)|]. apply (nsum_ext Rs). intros b _. etransitivity; [symmetry; apply (nsum_mul_l Rs)|]. apply (nsum_ext Rs). intros j _. unfold g. simpl. field. }
  unfold fit_wloss. apply (is_derive_rsum N (fun b t => rsum ne (fun j => fit_q np N ne bw c kw b j * ((ref b j - e b j t) * (ref b j - e b j t))))). intros b Hb.
  apply (is_derive_rsum ne (fun j t => fit_q np N ne bw c kw b j * ((ref b j - e b j t) * (ref b j - e b j t)))). intros j Hj.
  destruct (H b Hb) as [B HB]. destruct (HB j Hj) as (Hs & He & Hband). cbv zeta in *. fold (la b) in *. rewrite <- He. apply is_derive_sq.
  apply (fit_first_order d np (half0 (c b)) P Q (la b) (V b) (off + j) (e b j)); try assumption. lia.
Qed.
Print Assumptions C111_gradient.
(** the square of the reported loss (times the number of samples) *)
Definition rep_loss (N ne : nat) (bw : nat -> R) (ref e : nat -> nat -> R) : R :=
  rsum N (fun b => rsum ne (fun j => (ref b j - e b j) * bw j * ((ref b j - e b j) * bw j))).
Lemma mean_const n u : (0 < n)%nat -> mean n (fun _ => u) = u.
Proof.
  intro H. unfold mean. assert (E : rsum n (fun _ => u) = INR n * u).
  { clear H. induction n as [|n IH]; [unfold nsum; simpl; ring|]. rewrite (nsum_S Rs), IH, S_INR. simpl. ring. }
  rewrite E. field. apply not_0_INR. lia.
Qed.
Lemma mean_ext n f g : (forall a, (a < n)%nat -> f a = g a) -> mean n f = mean n g.
Proof. intro H. unfold mean. rewrite (nsum_ext Rs n f g H). reflexivity. Qed.
(** with equal weights and coefficients of equal size the step is a descent direction of the reported loss *)
Theorem C111_descent : forall eigh d np off ne N c kw ref P w u s (e : nat -> nat -> R -> R), (off + ne <= d)%nat -> (0 < N)%nat -> (0 < ne)%nat ->
  w <> 0 -> u <> 0 -> (forall b, (b < N)%nat -> kw b = u /\ sq_sum np (half0 (c b)) = s) -> 0 < s ->
  let add := bsm_add eigh np off ne (fun _ => w) (bsm_prep np None (samples N c kw ref)) P in
  (forall b, (b < N)%nat -> let r := eigh (fit_H np (half0 (c b)) P) in eigenbasis d (fit_H np (half0 (c b)) P) (fid (K:=Cs)) r /\
    forall j, (j < ne)%nat -> simple d (fst r) (off + j) /\ e b j 0 = fst r (off + j)%nat /\
      band d (fun t => fit_H np (half0 (c b)) (shift_pars P add t)) (fun _ => fid (K:=Cs)) (e b j)) ->
  is_derive (fun t => rep_loss N ne (fun _ => w) ref (fun b j => e b j t)) 0 (- (8 * w * w * INR N * s * inner d np add add)) /\
  - (8 * w * w * INR N * s * inner d np add add) <= 0.
Proof.
  intros eigh d np off ne N c kw ref P w u s e Hw HN Hne W U HS Hs add H.
  pose proof (lt_INR 0 N HN) as HN'. simpl in HN'. split.
  - pose proof (C111_gradient eigh d np off ne (fun _ => w) N c kw ref P add e Hw H) as G. fold add in G.
    apply (is_derive_ext (fun t => (2 * w * w * INR N * s) * fit_wloss np N ne (fun _ => w) c kw ref (fun b j => e b j t))).
    + intro t. unfold fit_wloss, rep_loss. etransitivity; [symmetry; apply (nsum_mul_l Rs)|]. apply (nsum_ext Rs). intros b Hb. etransitivity; [symmetry; apply (nsum_mul_l Rs)|].
      apply (nsum_ext Rs). intros j _. destruct (HS b Hb) as [E1 E2]. unfold fit_q. rewrite E1, E2, (mean_const ne w Hne).
      rewrite (mean_ext N kw (fun _ => u)) by (intros a Ha; apply HS; exact Ha). rewrite (mean_const N u HN).
      change (@smul Rs) with Rmult. toR. field. repeat split; try lra.
    + replace (- (8 * w * w * INR N * s * inner d np add add)) with ((2 * w * w * INR N * s) * (-4 * inner d np add add)) by ring.
      apply (is_derive_scal (fun t => fit_wloss np N ne (fun _ => w) c kw ref (fun b j => e b j t)) 0 (2 * w * w * INR N * s)). exact G.
  - pose proof (inner_nonneg d np add). assert (0 <= w * w) by nra. assert (0 <= INR N * s) by nra. assert (0 <= w * w * (INR N * s)) by nra. nra.
Qed.
Print Assumptions C111_descent.

(** solver for one band *)
Definition eg1 (H : cmat) : eigsys := (fun _ => fst (H 0%nat 0%nat), fid (K:=Cs)).
Lemma eg1_basis H : hermitian 1 H -> eigenbasis 1 H (fid (K:=Cs)) (eg1 H).
Proof.
  intro HH. specialize (HH 0%nat 0%nat Nat.lt_0_1 Nat.lt_0_1). assert (E : snd (H 0%nat 0%nat) = 0) by (apply (f_equal snd) in HH; simpl in HH; lra).
  split; [|split]; intros j k Hj Hk; destruct j, k; try lia.
  - rewrite !csum_nsum, !nsum1. cbn [fst snd eg1]. apply cplx_eq; simpl; rewrite ?E; ring.
  - unfold fmul. rewrite nsum1, nsum1. unfold fadj. cbn [snd]. apply cplx_eq; simpl; ring.
  - unfold fmul. rewrite nsum1, nsum1. unfold fadj. cbn [snd]. apply cplx_eq; simpl; ring.
Qed.
Lemma eg1_band np f P Q : band 1 (fun t => fit_H np f (shift_pars P Q t)) (fun _ => fid (K:=Cs)) (fun t => fst (fit_H np f (shift_pars P Q t) 0%nat 0%nat)).
Proof.
  split.
  - apply derivable_continuous_pt. destruct (fit_H_deriv 1 np f P Q 0%nat 0%nat Nat.lt_0_1 Nat.lt_0_1) as [D _].
    exists (fst (fit_H np f Q 0%nat 0%nat)). apply is_derive_Reals. exact D.
  - exists (fun _ _ => (1, 0)), 1. split; [lra|]. intros t _. split.
    + exists 0%nat. split; [lia|]. intro E. apply (f_equal fst) in E. simpl in E. lra.
    + intros j Hj. destruct j; [|lia]. rewrite !csum_nsum, !nsum1. pose proof (fit_H_herm np f (shift_pars P Q t) 1 0%nat 0%nat Nat.lt_0_1 Nat.lt_0_1) as E.
      apply (f_equal snd) in E. simpl in E. set (z := fit_H np f (shift_pars P Q t) 0%nat 0%nat) in *. apply cplx_eq; simpl; [ring|].  lra.
Qed.
(** one constant band, references 1 and -1 with the weights 3 and 1 *)
Definition two_smp := samples 2 (fun _ _ => (1, 0)) (fun b => if Nat.eqb b 0 then 3 else 1) (fun b _ => if Nat.eqb b 0 then 1 else -1).
Definition pz : pars := fun _ _ _ => (0, 0).
Definition p1 : pars := fun _ _ _ => (1, 0).
Lemma two_add : bsm_add eg1 1 0 1 (fun _ => 1) (bsm_prep 1 None two_smp) pz 0%nat 0%nat 0%nat = (1 / 2, 0).
Proof.
  unfold two_smp. rewrite prep_add_entry. unfold nsum at 1. cbn [seq ksum]. unfold eg1, win_mat. rewrite !nsum1. cbn [fst snd Nat.eqb].
  unfold fit_q, mean, bsm_anti, sq_sum, half0. rewrite !rsum1. rewrite !(nsum_S Rs), !(nsum_0 Rs). cbn [Nat.eqb]. rewrite fit_H_entry, nsum1. unfold pz, chalf, cabs2, fid.
  cbn [Nat.add Nat.eqb]. apply cplx_eq; simpl; field.
Qed.
Example C111_ex : is_derive (fun t => 3 / 2 * ((1 - t) * (1 - t)) + 1 / 2 * ((-1 - t) * (-1 - t))) 0 (- 4 * (1 / 2)).
Proof.
  pose proof (C111_gradient eg1 1 1 0 1 (fun _ => 1) 2 (fun _ _ => (1, 0)) (fun b => if Nat.eqb b 0 then 3 else 1) (fun b _ => if Nat.eqb b 0 then 1 else -1) pz p1
    (fun _ _ t => fst (fit_H 1 (half0 (fun _ => (1, 0))) (shift_pars pz p1 t) 0%nat 0%nat)) (le_n 1)) as G.
  assert (HH : forall b, (b < 2)%nat -> let r := eg1 (fit_H 1 (half0 (fun _ => (1, 0))) pz) in
    eigenbasis 1 (fit_H 1 (half0 (fun _ => (1, 0))) pz) (fid (K:=Cs)) r /\ forall j, (j < 1)%nat -> simple 1 (fst r) (0 + j) /\
     fst (fit_H 1 (half0 (fun _ => (1, 0))) (shift_pars pz p1 0) 0%nat 0%nat) = fst r (0 + j)%nat /\
     band 1 (fun t => fit_H 1 (half0 (fun _ => (1, 0))) (shift_pars pz p1 t)) (fun _ => fid (K:=Cs)) (fun t => fst (fit_H 1 (half0 (fun _ => (1, 0))) (shift_pars pz p1 t) 0%nat 0%nat))).
  { intros b _. split; [apply eg1_basis, fit_H_herm|]. intros j Hj. split; [intros k Hk1 Hk2; lia|]. split; [|apply eg1_band].
    cbn [eg1 fst]. rewrite fit_H_shift. simpl. ring. }
  specialize (G HH). clear HH.
  replace (- 4 * (1 / 2)) with (- 4 * inner 1 1 (bsm_add eg1 1 0 1 (fun _ => 1) (bsm_prep 1 None two_smp) pz) p1).
  2:{ unfold inner. rewrite !rsum1, two_add. unfold p1. simpl. ring. }
  revert G. apply is_derive_ext. intro t. unfold fit_wloss. rewrite !(nsum_S Rs), !(nsum_0 Rs). cbn [Nat.eqb].
  unfold fit_q, mean, sq_sum, half0. rewrite !rsum1. rewrite !(nsum_S Rs), !(nsum_0 Rs). cbn [Nat.eqb]. rewrite fit_H_shift, !fit_H_entry, !nsum1. unfold pz, p1, chalf, cabs2.
  cbn [Nat.eqb]. simpl. field.
Qed.
(** the reported loss does not contain the weights of the samples: with unequal weights every step away from the best fit is uphill *)
Theorem C111_sample_weights_refuted : exists eigh d np off ne bw ss P, (forall H, hermitian d H -> eigenbasis d H (fid (K:=Cs)) (eigh H)) /\
  forall lr acc, 0 < lr -> let bs := bsm_prep np None ss in
    fit_loss eigh np off ne bw bs P < fit_loss eigh np off ne bw bs (fst (bsm_step eigh np off ne bw lr acc true false None 1 bs P pz)).
Proof.
  exists eg1, 1%nat, 1%nat, 0%nat, 1%nat, (fun _ => 1), two_smp, pz. split; [intros H HH; apply eg1_basis; exact HH|].
  intros lr acc Hlr bs.
  assert (E : forall P, fit_loss eg1 1 0 1 (fun _ => 1) bs P = (1 - fst (P 0%nat 0%nat 0%nat)) * (1 - fst (P 0%nat 0%nat 0%nat)) + (-1 - fst (P 0%nat 0%nat 0%nat)) * (-1 - fst (P 0%nat 0%nat 0%nat))).
  { intro P. unfold fit_loss, bs, two_smp. rewrite bsm_prep_seq. cbn [map seq sum_list fold_right sf sref eg1 fst]. rewrite !rsum1, !fit_H_entry, !nsum1. cbn [Nat.eqb half0]. unfold chalf. simpl. field. }
  rewrite !E. set (x := fst (fst (bsm_step eg1 1 0 1 (fun _ => 1) lr acc true false None 1 bs pz pz) 0%nat 0%nat 0%nat)).
  assert (X : x = lr / 2).
  { unfold x, bsm_step. cbn [fst negb andb]. unfold fadd, fscale.
    assert (B : bsm_add eg1 1 0 1 (fun _ => 1) bs (bsm_reg 1 pz) 0%nat 0%nat 0%nat = (1 / 2, 0)).
    { rewrite <- two_add. unfold bs, two_smp. rewrite !prep_add_entry. apply (nsum_ext Cs). intros b _. refine (f_equal2 cmul eq_refl _).
      unfold eg1. cbn [fst snd]. rewrite (fit_H_ext _ _ (bsm_reg 1 pz) pz); [reflexivity|]. intros l Hl. destruct l; [split; reflexivity|lia]. }
    rewrite B. generalize (1 - 1 / acc). intro z. unfold bsm_reg, pz. cbn [Nat.eqb]. simpl. field. }
  rewrite X. unfold pz. simpl. nra.
Qed.
Print Assumptions C111_sample_weights_refuted.

(** ** C112: the pseudoinverse *)
Lemma fit_H_update np f P N lr (cc : nat -> nat -> cplx) (D : nat -> cmat) x y : (forall b, (b < N)%nat -> D b x y = cconj (D b y x)) ->
  fit_H np f (fun i a b => cadd (P i a b) (cmul (cre lr) (nsum (K:=Cs) N (fun s => cmul (cc s i) (D s a b))))) x y =
  cadd (fit_H np f P x y) (cmul (cre lr) (nsum (K:=Cs) N (fun s => cmul (cre (2 * fst (nsum (K:=Cs) np (fun i => cmul (f i) (cc s i))))) (D s x y)))).
Proof.
  intro HD.
  transitivity (fit_H np f (shift_pars P (fun i a b => nsum (K:=Cs) N (fun s => cmul (cc s i) (D s a b))) lr) x y); [reflexivity|]. rewrite fit_H_shift. f_equal. f_equal.
  rewrite fit_H_entry.
  transitivity (nsum (K:=Cs) np (fun l => nsum (K:=Cs) N (fun s => cmul (cre (2 * fst (cmul (f l) (cc s l)))) (D s x y)))).
  - apply (nsum_ext Cs). intros l _. change cconj with (@sconj Cs) at 2. rewrite (nsum_conj Cs). change cmul with (@smul Cs) at 1 3. rewrite <- !(nsum_mul_l Cs).
    change cadd with (@sadd Cs). rewrite <- (nsum_add Cs). apply (nsum_ext Cs). intros s Hs. pose proof (HD s Hs) as E.
    assert (E2 : D s y x = cconj (D s x y)) by (rewrite E; apply cplx_eq; simpl; ring). rewrite E2. simpl. apply cplx_eq; simpl; ring.
  - etransitivity; [apply (nsum_swap Cs)|]. apply (nsum_ext Cs). intros s _. etransitivity; [apply (nsum_mul_r Cs)|]. refine (f_equal2 cmul _ eq_refl).
    rewrite fst_nsum. rewrite <- (nsum_mul_l Rs). symmetry. apply cre_ksum.
Qed.
(** the matrix C is a left inverse of the transposed coefficients (what pinv returns for linearly independent samples) *)
Definition left_inverse (np N : nat) (C : nat -> nat -> cplx) (c : nat -> nat -> cplx) : Prop :=
  forall a b, (a < N)%nat -> (b < N)%nat -> nsum (K:=Cs) np (fun i => cmul (C b i) (half0 (c a) i)) = if Nat.eqb a b then (1, 0) else (0, 0).
Lemma left_inverse_sq np N C c b : left_inverse np N C c -> (b < N)%nat -> sq_sum np (half0 (c b)) <> 0.
Proof.
  intros L Hb E. specialize (L b b Hb Hb). rewrite Nat.eqb_refl in L.
  assert (Z : forall i, (i < np)%nat -> half0 (c b) i = (0, 0)).
  { clear L. unfold sq_sum in E. revert E. generalize (half0 (c b)) as f. intros f. induction np as [|n IH]; [intros; lia|]. rewrite (nsum_S Rs). change (@sadd Rs) with Rplus. intros E i Hi.
    assert (N1 : 0 <= rsum n (fun i => cabs2 (f i))).
    { clear. induction n as [|n IH]; [unfold nsum; simpl; lra|]. rewrite (nsum_S Rs). unfold cabs2 at 2. simpl in *. nra. }
    assert (N2 : 0 <= cabs2 (f n)) by (unfold cabs2; nra).
    destruct (Nat.eq_dec i n) as [-> | Hne].
    - assert (E0 : cabs2 (f n) = 0) by lra. unfold cabs2 in E0. apply cplx_eq; simpl; nra.
    - apply IH; [lra|lia]. }
  assert (Q : nsum (K:=Cs) np (fun i => cmul (C b i) (half0 (c b) i)) = (0, 0)).
  { apply (nsum_zero Cs). intros i Hi. rewrite (Z i Hi). apply cplx_eq; simpl; ring. }
  rewrite Q in L. apply (f_equal fst) in L. simpl in L. lra.
Qed.
(** the parameters after one iteration of optimize with use_pinv, no symmetrizer, no regularization *)
Definition bsm_pinv_step eigh np off ne bw lr C N c kw ref P last : pars :=
  fst (bsm_step eigh np off ne bw lr 1 true false None 1 (bsm_prep np (Some C) (samples N c kw ref)) P last).
Lemma bsm_reg_1 P i x y : bsm_reg 1 P i x y = P i x y.
Proof. unfold bsm_reg. destruct (Nat.eqb i 0); [reflexivity|]. unfold fscale. apply cplx_eq; simpl; ring. Qed.
(** [eigh] is a function of the entries of the matrix *)
Definition reads (d : nat) (eigh : cmat -> eigsys) : Prop := forall H H', feq (K:=Cs) d d H H' -> eigh H = eigh H'.
Theorem C112_pinv_step : forall eigh d np off ne bw lr C N c kw ref P last a, reads d eigh -> (off + ne <= d)%nat -> (a < N)%nat -> left_inverse np N C c ->
  let r := eigh (fit_H np (half0 (c a)) P) in eigenbasis d (fit_H np (half0 (c a)) P) (fid (K:=Cs)) r ->
  eigenbasis d (fit_H np (half0 (c a)) (bsm_pinv_step eigh np off ne bw lr C N c kw ref P last)) (fid (K:=Cs))
    (fun j => fst r j + (if in_win off ne j then lr * (bw (j - off)%nat / mean ne bw) * (kw a / mean N kw) * (ref a (j - off)%nat - fst r j) else 0), snd r).
Proof.
  intros eigh d np off ne bw lr C N c kw ref P last a Hr Hw Ha L r B.
  set (D := fun b => win_mat (snd (eigh (fit_H np (half0 (c b)) P))) off ne
    (fun j => cre ((ref b j - fst (eigh (fit_H np (half0 (c b)) P)) (off + j)%nat) * fit_q np N ne bw c kw b j))).
  assert (HN : INR N <> 0) by (apply not_0_INR; lia).
  assert (HS : forall b, (b < N)%nat -> sq_sum np (half0 (c b)) <> 0) by (intros b Hb; exact (left_inverse_sq np N C c b L Hb)).
  assert (E : forall x y, (x < d)%nat -> (y < d)%nat -> fit_H np (half0 (c a)) (bsm_pinv_step eigh np off ne bw lr C N c kw ref P last) x y =
    cadd (fit_H np (half0 (c a)) P x y) (cmul (cre lr) (nsum (K:=Cs) N (fun s => cmul (cre (2 * fst (nsum (K:=Cs) np (fun i => cmul (half0 (c a) i) (bsm_anti np N (Some C) c s i))))) (D s x y))))).
  { intros x y Hx Hy. rewrite <- fit_H_update by (intros b _; apply win_herm). apply fit_H_ext. intros l _.
    assert (Q : forall x y, bsm_pinv_step eigh np off ne bw lr C N c kw ref P last l x y = cadd (P l x y) (cmul (cre lr) (nsum (K:=Cs) N (fun s => cmul (bsm_anti np N (Some C) c s l) (D s x y))))).
    { intros x' y'. unfold bsm_pinv_step, bsm_step. cbn [fst negb andb]. unfold fadd at 1, fadd, fscale at 1 2. rewrite bsm_reg_1, prep_add_entry.
      assert (Z : forall b, eigh (fit_H np (half0 (c b)) (bsm_reg 1 P)) = eigh (fit_H np (half0 (c b)) P)).
      { intro b. apply Hr. intros i j _ _. apply fit_H_ext. intros m _. rewrite !bsm_reg_1. split; reflexivity. }
      rewrite (nsum_ext Cs N _ (fun s => cmul (bsm_anti np N (Some C) c s l) (D s x' y'))) by (intros b _; rewrite !Z; reflexivity).
      apply cplx_eq; simpl; field. }
    split; apply Q. }
  assert (F : forall x y, (x < d)%nat -> (y < d)%nat -> fit_H np (half0 (c a)) (bsm_pinv_step eigh np off ne bw lr C N c kw ref P last) x y =
    cadd (fit_H np (half0 (c a)) P x y) (win_mat (snd r) off ne (fun j => cre (lr * (bw j / mean ne bw) * (kw a / mean N kw) * (ref a j - fst r (off + j)%nat))) x y)).
  { intros x y Hx Hy. rewrite E by assumption. f_equal.
    rewrite (nsum_single Cs N a) by (try exact Ha; intros b Hb Hne; unfold bsm_anti;
      rewrite (nsum_ext Cs np _ (fun i => @smul Cs (cmul (C b i) (half0 (c a) i)) (cmul (cre (sq_sum np (half0 (c b)))) (cre (INR N))))) by (intros; simpl; apply cplx_eq; simpl; ring);
      rewrite (nsum_mul_r Cs), (L a b Ha Hb), (proj2 (Nat.eqb_neq a b)) by (intro; subst; congruence); apply cplx_eq; simpl; ring).
    unfold bsm_anti. rewrite (nsum_ext Cs np _ (fun i => @smul Cs (cmul (C a i) (half0 (c a) i)) (cmul (cre (sq_sum np (half0 (c a)))) (cre (INR N))))) by (intros; simpl; apply cplx_eq; simpl; ring).
    rewrite (nsum_mul_r Cs), (L a a Ha Ha), Nat.eqb_refl. unfold D. fold r.
    etransitivity; [refine (f_equal2 cmul eq_refl _); symmetry; apply win_scale|]. etransitivity; [symmetry; apply win_scale|]. apply win_ext. intros j _. unfold fit_q. apply cplx_eq; simpl; [|reflexivity].
    generalize (bw j / mean ne bw) (kw a / mean N kw). intros u v. specialize (HS a Ha). field. split; assumption. }
  destruct r as [la V]. cbn [fst snd] in *.
  pose proof (win_eigenbasis d _ _ la V off ne _ B Hw F) as G. cbn [fst snd] in G.
  destruct G as (G1 & G2). split; [|exact G2]. cbn [fst snd] in *. intros j k Hj Hk. rewrite (G1 j k Hj Hk). refine (f_equal2 cmul _ eq_refl). f_equal. f_equal.
  unfold in_win. destruct (Nat.leb off k) eqn:E1; [|reflexivity]. apply Nat.leb_le in E1. cbn [andb]. replace (off + (k - off))%nat with k by lia. reflexivity.
Qed.
Print Assumptions C112_pinv_step.
(** equal weights and learning rate 1: the references are the energies at all samples after a single iteration *)
Theorem C112_exact : forall eigh d np off ne bw C N c kw ref P last a w u, reads d eigh -> (off + ne <= d)%nat -> (a < N)%nat -> left_inverse np N C c ->
  w <> 0 -> u <> 0 -> (forall j, (j < ne)%nat -> bw j = w) -> (forall b, (b < N)%nat -> kw b = u) ->
  let r := eigh (fit_H np (half0 (c a)) P) in eigenbasis d (fit_H np (half0 (c a)) P) (fid (K:=Cs)) r ->
  eigenbasis d (fit_H np (half0 (c a)) (bsm_pinv_step eigh np off ne bw 1 C N c kw ref P last)) (fid (K:=Cs))
    (fun j => if in_win off ne j then ref a (j - off)%nat else fst r j, snd r).
Proof.
  intros eigh d np off ne bw C N c kw ref P last a w u Hr Hw Ha L W U HW HU r B.
  destruct (C112_pinv_step eigh d np off ne bw 1 C N c kw ref P last a Hr Hw Ha L B) as [G1 G2]. split; [|exact G2]. cbn [fst snd] in *. fold r in G1.
  intros j k Hj Hk. rewrite (G1 j k Hj Hk). refine (f_equal2 cmul _ eq_refl). f_equal. unfold in_win. destruct (Nat.leb off k && Nat.ltb k (off + ne)) eqn:E; [|ring].
  apply andb_true_iff in E. destruct E as [E1 E2]. apply Nat.leb_le in E1. apply Nat.ltb_lt in E2.
  rewrite (mean_ext ne bw (fun _ => w) HW), (mean_ext N kw (fun _ => u) HU), !mean_const by lia. rewrite HW by lia. rewrite HU by exact Ha. field. split; assumption.
Qed.
Print Assumptions C112_exact.
Lemma eg1_reads : reads 1 eg1.
Proof. intros H H' E. unfold eg1. rewrite (E 0%nat 0%nat) by lia. reflexivity. Qed.
(** chain with k = 0 and k = 1/2, starting at zero, references 3 and -1 *)
Definition ch2 (b i : nat) : cplx := if Nat.eqb b 0 then (1, 0) else if Nat.eqb i 0 then (1, 0) else (-1, 0).
Definition ch2_inv (b i : nat) : cplx := if Nat.eqb i 0 then (1, 0) else if Nat.eqb b 0 then (1 / 2, 0) else (- (1 / 2), 0).
Lemma ch2_left : left_inverse 2 2 ch2_inv ch2.
Proof.
  intros a b Ha Hb. destruct a as [|[|a]]; [| |lia]; destruct b as [|[|b]]; try lia; unfold nsum; cbn [seq ksum]; unfold half0, ch2, ch2_inv, chalf; cbn [Nat.eqb]; apply cplx_eq; simpl; field.
Qed.
Example C112_ex : let P := bsm_pinv_step eg1 2 0 1 (fun _ => 7) 1 ch2_inv 2 ch2 (fun _ => 5) (fun b _ => if Nat.eqb b 0 then 3 else -1) pz pz in
  fit_H 2 (half0 (ch2 0)) P 0%nat 0%nat = (3, 0) /\ fit_H 2 (half0 (ch2 1)) P 0%nat 0%nat = (-1, 0).
Proof.
  intro P. assert (G : forall a, (a < 2)%nat -> fit_H 2 (half0 (ch2 a)) P 0%nat 0%nat = (if Nat.eqb a 0 then 3 else -1, 0)).
  { intros a Ha. destruct (C112_exact eg1 1 2 0 1 (fun _ => 7) ch2_inv 2 ch2 (fun _ => 5) (fun b _ => if Nat.eqb b 0 then 3 else -1) pz pz a 7 5 eg1_reads (le_n 1) Ha ch2_left
      ltac:(lra) ltac:(lra) (fun _ _ => eq_refl) (fun _ _ => eq_refl) (eg1_basis _ (fit_H_herm _ _ _ _))) as [G _].
    specialize (G 0%nat 0%nat Nat.lt_0_1 Nat.lt_0_1). rewrite !csum_nsum, !nsum1 in G. fold P in G. cbn [snd eg1 fst] in G. unfold fid in G.
    set (z := fit_H 2 (half0 (ch2 a)) P 0%nat 0%nat) in *. clearbody z. destruct z as [x y]. change (in_win 0 1 0) with true in G. cbn [Nat.eqb] in G.
    pose proof (f_equal fst G) as G1. pose proof (f_equal snd G) as G2. simpl in G1, G2. apply cplx_eq; simpl; lra. }
  split; [exact (G 0%nat ltac:(lia))|exact (G 1%nat ltac:(lia))].
Qed.
(** unequal band weights: the normalised weight of a band may exceed 2, and the step overshoots by more than the error. Three levels at
    zero, references 0, 0, 1 with the weights 1, 1, 10 *)
Definition egd (H : cmat) : eigsys := (fun i => fst (H i i), fid (K:=Cs)).
Definition w3 (j : nat) : R := if Nat.eqb j 2 then 10 else 1.
Definition r3 (_ j : nat) : R := if Nat.eqb j 2 then 1 else 0.
Lemma w3_step i j : let P := bsm_pinv_step egd 1 0 3 w3 1 (fun _ _ => (2, 0)) 1 (fun _ _ => (1, 0)) (fun _ => 1) r3 pz pz in
  P 0%nat i j = if Nat.eqb i 2 && Nat.eqb j 2 then (5 / 2, 0) else (0, 0).
Proof.
  intro P. unfold P, bsm_pinv_step, bsm_step. cbn [fst negb andb]. unfold fadd, fscale. rewrite prep_add_entry, nsum1. unfold win_mat. rewrite !(nsum_S Cs), !(nsum_0 Cs).
  assert (Z : forall a b, fit_H 1 (half0 (fun _ : nat => (1, 0))) (bsm_reg 1 pz) a b = (0, 0)).
  { intros a b. rewrite fit_H_entry, nsum1, !bsm_reg_1. unfold pz. apply cplx_eq; simpl; ring. }
  cbn [egd fst snd]. rewrite !Z. unfold bsm_anti, fit_q, mean, sq_sum, half0. rewrite !rsum1, !(nsum_S Rs), !(nsum_0 Rs). unfold bsm_reg, pz, chalf, cabs2, w3, r3, fid. cbn [Nat.eqb Nat.add].
  destruct (Nat.eqb i 0), (Nat.eqb i 1), (Nat.eqb i 2), (Nat.eqb j 0), (Nat.eqb j 1), (Nat.eqb j 2); apply cplx_eq; simpl; field.
Qed.
Lemma egd_basis d H : (forall i j, (i < d)%nat -> (j < d)%nat -> i <> j -> H i j = (0, 0)) -> hermitian d H -> eigenbasis d H (fid (K:=Cs)) (egd H).
Proof.
  intros HD HH. split; [|split]; cbn [fst snd egd].
  - intros j k Hj Hk. rewrite !csum_nsum. rewrite (nsum_single Cs d k) by (try exact Hk; intros m Hm Hne; unfold fid; rewrite (proj2 (Nat.eqb_neq m k) Hne); apply cplx_eq; simpl; ring).
    rewrite (nsum_single Cs d k) by (try exact Hk; intros m Hm Hne; unfold fid; rewrite (proj2 (Nat.eqb_neq m k) Hne); apply cplx_eq; simpl; ring).
    unfold fid. rewrite Nat.eqb_refl. destruct (Nat.eq_dec j k) as [-> | Hne].
    + rewrite Nat.eqb_refl. pose proof (HH k k Hk Hk) as E. apply (f_equal snd) in E. simpl in E. apply cplx_eq; simpl; [ring|]. lra.
    + rewrite (proj2 (Nat.eqb_neq j k) Hne), HD by assumption. apply cplx_eq; simpl; ring.
  - rewrite (fmul_id_r (K:=Cs)), (fmul_id_r (K:=Cs)). intros i j _ _. unfold fadj, fid. rewrite Nat.eqb_sym. destruct (Nat.eqb i j); apply cplx_eq; simpl; ring.
  - rewrite (fmul_id_l (K:=Cs)), (fmul_id_r (K:=Cs)). intros i j _ _. unfold fadj, fid. rewrite Nat.eqb_sym. destruct (Nat.eqb i j); apply cplx_eq; simpl; ring.
Qed.
Theorem C112_band_weights_refuted : exists eigh d np off ne bw C N c kw ref P, (off + ne <= d)%nat /\ left_inverse np N C c /\ (forall j, 0 < bw j) /\ (forall b, kw b = 1) /\
  let P' := bsm_pinv_step eigh np off ne bw 1 C N c kw ref P pz in let bs := bsm_prep np (Some C) (samples N c kw ref) in
  (forall b, (b < N)%nat -> eigenbasis d (fit_H np (half0 (c b)) P) (fid (K:=Cs)) (eigh (fit_H np (half0 (c b)) P)) /\
     eigenbasis d (fit_H np (half0 (c b)) P') (fid (K:=Cs)) (eigh (fit_H np (half0 (c b)) P'))) /\
  fit_loss eigh np off ne bw bs P < fit_loss eigh np off ne bw bs P'.
Proof.
  exists egd, 3%nat, 1%nat, 0%nat, 3%nat, w3, (fun _ _ => (2, 0)), 1%nat, (fun _ _ => (1, 0)), (fun _ => 1), r3, pz.
  split; [lia|]. split.
  { intros a b Ha Hb. destruct a, b; try lia. rewrite nsum1. unfold half0, chalf. cbn [Nat.eqb]. apply cplx_eq; simpl; field. }
  split; [intro j; unfold w3; destruct (Nat.eqb j 2); lra|]. split; [reflexivity|]. intros P' bs.
  assert (Z : forall a b, fit_H 1 (half0 (fun _ : nat => (1, 0))) pz a b = (0, 0)) by (intros a b; rewrite fit_H_entry, nsum1; unfold pz; apply cplx_eq; simpl; ring).
  assert (Y : forall a b, fit_H 1 (half0 (fun _ : nat => (1, 0))) P' a b = if Nat.eqb a 2 && Nat.eqb b 2 then (5 / 2, 0) else (0, 0)).
  { intros a b. rewrite fit_H_entry, nsum1. unfold P'. rewrite !w3_step. unfold half0, chalf. cbn [Nat.eqb]. destruct (Nat.eqb a 2), (Nat.eqb b 2); apply cplx_eq; simpl; field. }
  split.
  - intros b _. split; apply egd_basis; try apply fit_H_herm.
    + intros i j _ _ _. apply Z.
    + intros i j _ _ Hne. rewrite Y. destruct (Nat.eqb i 2) eqn:E1, (Nat.eqb j 2) eqn:E2; try reflexivity. apply Nat.eqb_eq in E1, E2. congruence.
  - unfold fit_loss, bs. rewrite bsm_prep_seq. cbn [map seq sum_list fold_right sf sref egd fst]. rewrite !(nsum_S Rs), !(nsum_0 Rs), !Z, !Y. unfold r3, w3. cbn [Nat.eqb Nat.add andb]. simpl. lra.
Qed.
Print Assumptions C112_band_weights_refuted.

(** ** C113: AsymTightBindingModel.optimize *)
Definition asym_anti (np N : nat) (C : option (nat -> nat -> cplx)) (c : nat -> nat -> cplx) (b i : nat) : cplx :=
  match C with None => cconj (half0 (c b) i) | Some C => cmul (cre ((if Nat.eqb i 0 then 2 else 1) * asym_norm np * INR N)) (C b i) end.
Lemma asym_prep_seq np N C c kw ref : asym_prep np C (samples N c kw ref) = map (fun b => MkSmp (half0 (c b)) (asym_anti np N C c b) (kw b) (ref b)) (seq 0 N).
Proof.
  unfold asym_prep, samples. rewrite map_length, seq_length, combine_seq_map, map_map. apply map_ext. intro b. cbn [fst snd]. f_equal. unfold asym_anti. destruct C; reflexivity.
Qed.
(** the samples with their overlap matrices *)
Definition asym_batch np C N c kw ref (S : nat -> cmat) : list (smp * cmat) := combine (asym_prep np C (samples N c kw ref)) (map S (seq 0 N)).
Lemma combine_map_map {A B C} (f : A -> B) (g : A -> C) l : combine (map f l) (map g l) = map (fun a => (f a, g a)) l.
Proof. induction l as [|a l IH]; [reflexivity|]. simpl. rewrite IH. reflexivity. Qed.
Lemma asym_batch_seq np C N c kw ref S : asym_batch np C N c kw ref S = map (fun b => (MkSmp (half0 (c b)) (asym_anti np N C c b) (kw b) (ref b), S b)) (seq 0 N).
Proof. unfold asym_batch. rewrite asym_prep_seq. apply combine_map_map. Qed.
(** the parameters after one iteration without keep_zeros, regularization and acceleration *)
Definition asym_next geigh np off ne bw lr C N c kw ref S P last : pars :=
  fst (asym_step geigh np off ne bw lr 1 1 None (asym_batch np C N c kw ref S) P last).
Definition asym_D geigh np off ne bw (c : nat -> nat -> cplx) (ref : nat -> nat -> R) (S : nat -> cmat) (P : pars) (b : nat) : cmat :=
  win_mat (snd (geigh (fit_H np (half0 (c b)) P) (S b))) off ne
    (fun j => cre ((ref b j - fst (geigh (fit_H np (half0 (c b)) P) (S b)) (off + j)%nat) * bw j * bw j / asym_norm np)).
Definition asym_anti' np N C c (b i : nat) : cplx := if Nat.eqb i 0 then cmul chalf (asym_anti np N C c b i) else asym_anti np N C c b i.
Lemma asym_update geigh d np off ne bw lr C N c kw ref S0 P last a x y : (forall b, (b < N)%nat -> reads d (fun H => geigh H (S0 b))) -> c a 0%nat = (1, 0) ->
  fit_H np (half0 (c a)) (asym_next geigh np off ne bw lr C N c kw ref S0 P last) x y =
  cadd (fit_H np (half0 (c a)) P x y) (cmul (cre (lr * (1 / 2 / INR N / (rmax ne bw * rmax ne bw))))
    (nsum (K:=Cs) N (fun s => cmul (cre (2 * fst (nsum (K:=Cs) np (fun i => cmul (half0 (c a) i) (asym_anti' np N C c s i))))) (asym_D geigh np off ne bw c ref S0 P s x y)))).
Proof.
  intros Hr Hc. set (al := 1 / 2 / INR N / (rmax ne bw * rmax ne bw)).
  rewrite <- fit_H_update by (intros b _; apply win_herm). rewrite !fit_H_entry. apply (nsum_ext Cs). intros l _.
  assert (Q : forall x y, fsum (K:=Cs) (asym_batch np C N c kw ref S0) (fun s => fscale (K:=Cs) (sc (fst s) l) (asym_win geigh np off ne bw (bsm_reg 1 P) (fst s) (snd s))) x y =
    nsum (K:=Cs) N (fun s => cmul (asym_anti np N C c s l) (asym_D geigh np off ne bw c ref S0 P s x y))).
  { intros x' y'. rewrite asym_batch_seq. unfold fsum. rewrite (ksum_map Cs). apply (ksum_ext Cs). intros b Hb. apply in_seq in Hb. cbn [fst snd sc]. unfold fscale. refine (f_equal2 cmul eq_refl _).
    unfold asym_win. cbn [sf sref].
    assert (Z : geigh (fit_H np (half0 (c b)) (bsm_reg 1 P)) (S0 b) = geigh (fit_H np (half0 (c b)) P) (S0 b)).
    { apply (Hr b ltac:(lia)). intros i j _ _. apply fit_H_ext. intros m _. rewrite !bsm_reg_1. split; reflexivity. }
    unfold asym_D. rewrite Z. destruct (geigh (fit_H np (half0 (c b)) P) (S0 b)) as [la V]. reflexivity. }
  assert (Q' : forall x y, nsum (K:=Cs) N (fun s => cmul (asym_anti' np N C c s l) (asym_D geigh np off ne bw c ref S0 P s x y)) =
    cmul (if Nat.eqb l 0 then chalf else (1, 0)) (nsum (K:=Cs) N (fun s => cmul (asym_anti np N C c s l) (asym_D geigh np off ne bw c ref S0 P s x y)))).
  { intros x' y'. symmetry. etransitivity; [symmetry; apply (nsum_mul_l Cs)|]. apply (nsum_ext Cs). intros s _. unfold asym_anti'. destruct (Nat.eqb l 0); simpl; apply cplx_eq; simpl; ring. }
  rewrite !Q'. unfold asym_next, asym_step. cbn [fst]. replace (length (asym_batch np C N c kw ref S0)) with N by (rewrite asym_batch_seq, map_length, seq_length; reflexivity). fold al.
  unfold asym_add. unfold fadd at 1 2 3 4, fscale at 1 2 3 4. rewrite !bsm_reg_1. destruct l as [|l]; cbn [Nat.eqb].
  - unfold fscale, fadd, fadj. rewrite !Q. set (A := nsum (K:=Cs) N (fun s => cmul (asym_anti np N C c s 0%nat) (asym_D geigh np off ne bw c ref S0 P s x y))).
    set (A' := nsum (K:=Cs) N (fun s => cmul (asym_anti np N C c s 0%nat) (asym_D geigh np off ne bw c ref S0 P s y x))).
    unfold half0. cbn [Nat.eqb]. rewrite Hc. unfold chalf. generalize (last 0%nat x y) (last 0%nat y x). intros u v. apply cplx_eq; simpl; field.
  - pose proof (Q x y) as Q1. pose proof (Q y x) as Q2. unfold fsum, fscale in Q1, Q2. unfold fadd, fsum, fscale. rewrite Q1, Q2. clear Q1 Q2. set (A := nsum (K:=Cs) N (fun s => cmul (asym_anti np N C c s (S l)) (asym_D geigh np off ne bw c ref S0 P s x y))).
    set (A' := nsum (K:=Cs) N (fun s => cmul (asym_anti np N C c s (S l)) (asym_D geigh np off ne bw c ref S0 P s y x))).
    generalize (last (S l) x y) (last (S l) y x) (P (S l) x y) (P (S l) y x). clearbody A A' al. intros u v p q. apply cplx_eq; simpl; toR; field.
Qed.
Lemma np_pos np N C c a : left_inverse np N C c -> (a < N)%nat -> (0 < np)%nat.
Proof.
  intros L Ha. destruct np; [|lia]. specialize (L a a Ha Ha). rewrite Nat.eqb_refl in L. apply (f_equal fst) in L. unfold nsum in L. simpl in L. lra.
Qed.
Lemma asym_norm_pos np : (0 < np)%nat -> 0 < asym_norm np.
Proof. intro H. unfold asym_norm. apply (le_INR 1) in H. simpl in H. lra. Qed.
(** the energies after the step: the fraction lr (w_j / w_max)^2 of the way to the reference *)
Definition asym_moved (off ne : nat) (bw : nat -> R) (lr : R) (ref la : nat -> R) (j : nat) : R :=
  la j + (if in_win off ne j then lr * (bw (j - off)%nat / rmax ne bw * (bw (j - off)%nat / rmax ne bw)) * (ref (j - off)%nat - la j) else 0).
Lemma asym_moved_basis d H H' off ne bw lr ref r : rmax ne bw <> 0 -> (off + ne <= d)%nat -> eigenbasis d H (fid (K:=Cs)) r ->
  (forall x y, (x < d)%nat -> (y < d)%nat -> H' x y = cadd (H x y) (win_mat (snd r) off ne (fun j => cre (lr / (rmax ne bw * rmax ne bw) * ((ref j - fst r (off + j)%nat) * bw j * bw j))) x y)) ->
  eigenbasis d H' (fid (K:=Cs)) (asym_moved off ne bw lr ref (fst r), snd r).
Proof.
  intros M Hw B F. destruct r as [la V]. cbn [fst snd] in *. destruct (win_eigenbasis d _ _ la V off ne _ B Hw F) as (G1 & G2). split; [|exact G2].
  cbn [fst snd] in *. intros j k Hj Hk. rewrite (G1 j k Hj Hk). refine (f_equal2 cmul _ eq_refl). unfold asym_moved. f_equal. f_equal.
  unfold in_win. destruct (Nat.leb off k) eqn:E1; [|reflexivity]. apply Nat.leb_le in E1. cbn [andb]. replace (off + (k - off))%nat with k by lia.
  destruct (Nat.ltb k (off + ne)); [field; exact M|reflexivity].
Qed.
Theorem C113_pinv_step : forall geigh d np off ne bw lr C N c kw ref P last a, reads d (fun H => geigh H (fid (K:=Cs))) -> (off + ne <= d)%nat -> (a < N)%nat ->
  left_inverse np N C c -> c a 0%nat = (1, 0) -> rmax ne bw <> 0 ->
  let r := geigh (fit_H np (half0 (c a)) P) (fid (K:=Cs)) in eigenbasis d (fit_H np (half0 (c a)) P) (fid (K:=Cs)) r ->
  eigenbasis d (fit_H np (half0 (c a)) (asym_next geigh np off ne bw lr (Some C) N c kw ref (fun _ => fid (K:=Cs)) P last)) (fid (K:=Cs))
    (asym_moved off ne bw lr (ref a) (fst r), snd r).
Proof.
  intros geigh d np off ne bw lr C N c kw ref P last a Hr Hw Ha L Hc M r B.
  assert (HN : INR N <> 0) by (apply not_0_INR; lia). pose proof (asym_norm_pos np (np_pos np N C c a L Ha)) as Hn.
  apply (asym_moved_basis d _ _ off ne bw lr (ref a) r M Hw B). intros x y _ _.
  rewrite (asym_update geigh d) by (try exact Hc; intros; exact Hr). f_equal.
  assert (X : forall b, (b < N)%nat -> nsum (K:=Cs) np (fun i => cmul (half0 (c a) i) (asym_anti' np N (Some C) c b i)) = cmul (cre (asym_norm np * INR N)) (if Nat.eqb a b then (1, 0) else (0, 0))).
  { intros b Hb. symmetry. etransitivity; [refine (f_equal2 cmul eq_refl _); exact (eq_sym (L a b Ha Hb))|]. etransitivity; [symmetry; apply (nsum_mul_l Cs)|]. apply (nsum_ext Cs). intros i _. unfold asym_anti', asym_anti, chalf.
    destruct (Nat.eqb i 0); simpl; apply cplx_eq; simpl; field. }
  rewrite (nsum_single Cs N a) by (try exact Ha; intros b Hb Hne; rewrite (X b Hb), (proj2 (Nat.eqb_neq a b)) by (intro; subst; congruence); apply cplx_eq; simpl; ring).
  rewrite (X a Ha), Nat.eqb_refl. unfold asym_D. fold r.
  etransitivity; [refine (f_equal2 cmul eq_refl _); symmetry; apply win_scale|]. etransitivity; [symmetry; apply win_scale|]. apply win_ext. intros j _. apply cplx_eq; simpl; [|reflexivity].
  field. repeat split; try assumption. lra.
Qed.
Print Assumptions C113_pinv_step.
(** the comment of l.460: one sample, plain waves (|c_i| = 1), the gradient mode; the same step *)
Theorem C113_one_sample : forall geigh d np off ne bw lr c kw ref P last, reads d (fun H => geigh H (fid (K:=Cs))) -> (off + ne <= d)%nat -> (0 < np)%nat ->
  c 0%nat 0%nat = (1, 0) -> (forall i, (i < np)%nat -> cabs2 (c 0%nat i) = 1) -> rmax ne bw <> 0 ->
  let r := geigh (fit_H np (half0 (c 0%nat)) P) (fid (K:=Cs)) in eigenbasis d (fit_H np (half0 (c 0%nat)) P) (fid (K:=Cs)) r ->
  eigenbasis d (fit_H np (half0 (c 0%nat)) (asym_next geigh np off ne bw lr None 1 c kw ref (fun _ => fid (K:=Cs)) P last)) (fid (K:=Cs))
    (asym_moved off ne bw lr (ref 0%nat) (fst r), snd r).
Proof.
  intros geigh d np off ne bw lr c kw ref P last Hr Hw Hp Hc Hu M r B. pose proof (asym_norm_pos np Hp) as Hn.
  apply (asym_moved_basis d _ _ off ne bw lr (ref 0%nat) r M Hw B). intros x y _ _.
  rewrite (asym_update geigh d) by (try exact Hc; intros; exact Hr). f_equal. rewrite nsum1.
  assert (X : nsum (K:=Cs) np (fun i => cmul (half0 (c 0%nat) i) (asym_anti' np 1 None c 0 i)) = cre (asym_norm np)).
  { transitivity (nsum (K:=Cs) np (fun i => cre (if Nat.eqb i 0 then 1 / 8 else 1))).
    - apply (nsum_ext Cs). intros i Hi. specialize (Hu i Hi). unfold asym_anti', asym_anti, half0, chalf, cabs2 in *. destruct (Nat.eqb_spec i 0) as [-> | Hne].
      + rewrite Hc in *. apply cplx_eq; simpl; field.
      + apply cplx_eq; simpl; [lra|ring].
    - rewrite <- cre_ksum. f_equal. unfold asym_norm. clear -Hp. destruct np as [|n]; [lia|]. clear Hp. induction n as [|n IH]; [unfold nsum; simpl; lra|].
      rewrite (nsum_S Rs). etransitivity; [apply f_equal2; [exact IH|reflexivity]|]. rewrite (S_INR (S n)). cbn [Nat.eqb]. change (@sadd Rs) with Rplus. toR. ring. }
  rewrite X. unfold asym_D. fold r.
  etransitivity; [refine (f_equal2 cmul eq_refl _); symmetry; apply win_scale|]. etransitivity; [symmetry; apply win_scale|]. apply win_ext. intros j _. apply cplx_eq; simpl; [|reflexivity].
  field. split; [exact M|lra].
Qed.
Print Assumptions C113_one_sample.
Lemma rmax_ge n w j : (j < n)%nat -> w j <= rmax n w.
Proof.
  induction n as [|n IH]; [lia|]. intro H. destruct n as [|n]; [replace j with 0%nat by lia; simpl; lra|].
  change (rmax (S (S n)) w) with (Rmax (rmax (S n) w) (w (S n))). destruct (Nat.eq_dec j (S n)) as [-> | Hne]; [apply Rmax_r|].
  eapply Rle_trans; [apply IH; lia|apply Rmax_l].
Qed.
(** for a learning rate between 0 and 1 no error grows; a band with the largest weight is exact after the step with rate 1 *)
Theorem C113_contracts : forall off ne bw lr ref la j, 0 <= lr <= 1 -> (forall i, (i < ne)%nat -> 0 <= bw i) -> 0 < rmax ne bw -> (off <= j < off + ne)%nat ->
  Rabs (ref (j - off)%nat - asym_moved off ne bw lr ref la j) <= Rabs (ref (j - off)%nat - la j) /\
  (lr = 1 -> bw (j - off)%nat = rmax ne bw -> asym_moved off ne bw lr ref la j = ref (j - off)%nat).
Proof.
  intros off ne bw lr ref la j Hl Hb M Hj. unfold asym_moved, in_win. rewrite (proj2 (Nat.leb_le off j)), (proj2 (Nat.ltb_lt j (off + ne))) by lia. cbn [andb].
  set (x := bw (j - off)%nat) in *. assert (Hx : 0 <= x <= rmax ne bw) by (split; [apply Hb; lia|apply rmax_ge; lia]). split.
  - set (q := x / rmax ne bw). assert (Hq : 0 <= q <= 1). { unfold q. split; [apply Rmult_le_pos; [lra|left; apply Rinv_0_lt_compat; exact M]|]. apply (Rmult_le_reg_r (rmax ne bw)); [exact M|]. unfold Rdiv. rewrite Rmult_assoc, Rinv_l by lra. lra. }
    replace (ref (j - off)%nat - (la j + lr * (q * q) * (ref (j - off)%nat - la j))) with ((1 - lr * (q * q)) * (ref (j - off)%nat - la j)) by ring. rewrite Rabs_mult.
    assert (0 <= q * q <= 1) by nra. assert (0 <= lr * (q * q) <= 1) by nra. rewrite (Rabs_right (1 - lr * (q * q))) by lra. pose proof (Rabs_pos (ref (j - off)%nat - la j)). nra.
  - intros -> E. rewrite E. field. lra.
Qed.
Print Assumptions C113_contracts.
(** the solver of one band with overlap *)
Definition geg1 (H S : cmat) : eigsys := (fun _ => fst (H 0%nat 0%nat) / fst (S 0%nat 0%nat), fun _ _ => cre (/ sqrt (fst (S 0%nat 0%nat)))).
Lemma geg1_basis H S : hermitian 1 H -> hermitian 1 S -> 0 < fst (S 0%nat 0%nat) -> eigenbasis 1 H S (geg1 H S).
Proof.
  intros HH HS Hp. pose proof (HH 0%nat 0%nat Nat.lt_0_1 Nat.lt_0_1) as E1. pose proof (HS 0%nat 0%nat Nat.lt_0_1 Nat.lt_0_1) as E2.
  apply (f_equal snd) in E1, E2. simpl in E1, E2. pose proof (sqrt_lt_R0 _ Hp) as Q. pose proof (sqrt_sqrt _ (Rlt_le _ _ Hp)) as R1.
  unfold geg1. set (h := H 0%nat 0%nat) in *. set (s := S 0%nat 0%nat) in *. assert (Z1 : snd h = 0) by lra. assert (Z2 : snd s = 0) by lra. set (q := sqrt (fst s)) in *.
  assert (F : / q * (/ q * fst s) = 1) by (rewrite <- R1; field; lra).
  split; [|split]; intros j k Hj Hk; destruct j, k; try lia.
  - rewrite !csum_nsum, !nsum1. cbn [fst snd]. fold h s. apply cplx_eq; simpl; rewrite ?Z1, ?Z2; field; lra.
  - unfold fmul. rewrite nsum1, nsum1. unfold fadj. cbn [snd]. fold s. apply cplx_eq; simpl; rewrite ?Z2; lra.
  - unfold fmul. rewrite nsum1, nsum1. unfold fadj. cbn [snd]. fold s. apply cplx_eq; simpl; rewrite ?Z2; lra.
Qed.
Example C113_ex : let P := asym_next geg1 2 0 1 (fun _ => 7) 1 (Some ch2_inv) 2 ch2 (fun _ => 1) (fun b _ => if Nat.eqb b 0 then 3 else -1) (fun _ => fid (K:=Cs)) pz pz in
  fit_H 2 (half0 (ch2 0)) P 0%nat 0%nat = (3, 0) /\ fit_H 2 (half0 (ch2 1)) P 0%nat 0%nat = (-1, 0).
Proof.
  intro P. assert (G : forall a, (a < 2)%nat -> fit_H 2 (half0 (ch2 a)) P 0%nat 0%nat = (if Nat.eqb a 0 then 3 else -1, 0)).
  { intros a Ha.
    assert (RD : reads 1 (fun H => geg1 H (fid (K:=Cs)))) by (intros H H' E; unfold geg1; rewrite (E 0%nat 0%nat) by lia; reflexivity).
    assert (C0 : ch2 a 0%nat = (1, 0)) by (unfold ch2; destruct (Nat.eqb a 0); reflexivity).
    assert (M : rmax 1 (fun _ : nat => 7) <> 0) by (simpl; lra).
    assert (B : eigenbasis 1 (fit_H 2 (half0 (ch2 a)) pz) (fid (K:=Cs)) (geg1 (fit_H 2 (half0 (ch2 a)) pz) (fid (K:=Cs)))).
    { apply geg1_basis; [apply fit_H_herm|apply hermitian_id|unfold fid; simpl; lra]. }
    destruct (C113_pinv_step geg1 1 2 0 1 (fun _ => 7) 1 ch2_inv 2 ch2 (fun _ => 1) (fun b _ => if Nat.eqb b 0 then 3 else -1) pz pz a RD (le_n 1) Ha ch2_left C0 M B) as [G _].
    destruct (C113_contracts 0 1 (fun _ => 7) 1 (fun _ => if Nat.eqb a 0 then 3 else -1) (fst (geg1 (fit_H 2 (half0 (ch2 a)) pz) (fid (K:=Cs)))) 0%nat) as [_ K]; try (simpl; lra); [intros; lra|lia|].
    cbv beta in *. specialize (G 0%nat 0%nat Nat.lt_0_1 Nat.lt_0_1). rewrite !csum_nsum, !nsum1 in G. fold P in G. cbn [snd fst] in G. rewrite (K eq_refl eq_refl) in G.
    set (z := fit_H 2 (half0 (ch2 a)) P 0%nat 0%nat) in *. clearbody z. unfold geg1, fid in G. cbn [Nat.eqb snd fst] in G.
    change (@s1 Cs) with ((1, 0) : cplx) in G. cbn [fst] in G. rewrite sqrt_1, Rinv_1 in G.
    destruct z as [x y]. pose proof (f_equal fst G) as G1. pose proof (f_equal snd G) as G2. simpl in G1, G2. apply cplx_eq; simpl; lra. }
  split; [exact (G 0%nat ltac:(lia))|exact (G 1%nat ltac:(lia))].
Qed.
(** with an overlap matrix the step is not normalised: one band, one sample, S = 1/4, reference 1, energy 0: the energy becomes 16 *)
Theorem C113_overlap_refuted : exists geigh d np c kw ref S P, hermitian d S /\ 0 < fst (S 0%nat 0%nat) /\ c 0%nat 0%nat = (1, 0) /\
  (forall Q, eigenbasis d (fit_H np (half0 (c 0%nat)) Q) S (geigh (fit_H np (half0 (c 0%nat)) Q) S)) /\
  fst (geigh (fit_H np (half0 (c 0%nat)) P) S) 0%nat = 0 /\ ref 0%nat 0%nat = 1 /\
  fst (geigh (fit_H np (half0 (c 0%nat)) (asym_next geigh np 0 1 (fun _ => 1) 1 None 1 c kw ref (fun _ => S) P pz)) S) 0%nat = 16.
Proof.
  assert (HS : hermitian 1 (cm (1 / 4, 0))) by (intros i j _ _; unfold cm; apply cplx_eq; simpl; ring).
  exists geg1, 1%nat, 1%nat, (fun _ _ => (1, 0)), (fun _ => 1), (fun _ _ => 1), (cm (1 / 4, 0)), pz.
  assert (Z : fit_H 1 (half0 (fun _ : nat => (1, 0))) pz 0%nat 0%nat = (0, 0)) by (rewrite fit_H_entry, nsum1; unfold pz; apply cplx_eq; simpl; ring).
  split; [exact HS|]. split; [unfold cm; simpl; lra|]. split; [reflexivity|]. split.
  { intro Q. apply geg1_basis; [apply fit_H_herm|exact HS|unfold cm; simpl; lra]. }
  split; [unfold geg1; cbn [fst]; rewrite Z; simpl; lra|]. split; [reflexivity|].
  assert (Hh : sqrt (1 / 4) = 1 / 2). { replace (1 / 4) with (1 / 2 * (1 / 2)) by field. apply sqrt_square. lra. }
  assert (RD : forall b, (b < 1)%nat -> reads 1 (fun H => geg1 H ((fun _ => cm (1 / 4, 0)) b))) by (intros b _ H H' E; unfold geg1; rewrite (E 0%nat 0%nat) by lia; reflexivity).
  pose proof (asym_update geg1 1 1 0 1 (fun _ => 1) 1 None 1 (fun _ _ => (1, 0)) (fun _ => 1) (fun _ _ => 1) (fun _ => cm (1 / 4, 0)) pz pz 0 0 0 RD eq_refl) as U. cbv beta in U.
  unfold geg1 at 1. cbn [fst]. etransitivity; [refine (f_equal2 Rdiv (f_equal fst U) eq_refl)|].
  rewrite Z. rewrite !nsum1. unfold asym_D, win_mat. rewrite nsum1. cbn [geg1 fst snd]. rewrite Z. unfold cm. cbn [fst]. rewrite Hh.
  unfold asym_anti', asym_anti, half0, chalf, asym_norm. cbn [Nat.eqb rmax]. simpl. field.
Qed.
Print Assumptions C113_overlap_refuted.

(** the masked entries are only rescaled by the regularization, the on-site matrix and its change stay hermitian, and a mask
    that lets everything pass has no effect *)
Theorem C113_mask_and_origin : forall geigh np off ne bw lr acc reg bs (P last : pars),
  (forall m i x y, m i x y = false -> (i = 0%nat -> m 0%nat y x = false) -> last i x y = (0, 0) ->
     fst (asym_step geigh np off ne bw lr acc reg (Some m) bs P last) i x y = (if Nat.eqb i 0 then P 0%nat x y else cmul (cre reg) (P i x y)) /\
     snd (asym_step geigh np off ne bw lr acc reg (Some m) bs P last) i x y = (0, 0)) /\
  (forall mask, (forall x y, P 0%nat y x = cconj (P 0%nat x y)) -> (forall x y, last 0%nat y x = cconj (last 0%nat x y)) ->
     forall x y, fst (asym_step geigh np off ne bw lr acc reg mask bs P last) 0%nat y x = cconj (fst (asym_step geigh np off ne bw lr acc reg mask bs P last) 0%nat x y) /\
       snd (asym_step geigh np off ne bw lr acc reg mask bs P last) 0%nat y x = cconj (snd (asym_step geigh np off ne bw lr acc reg mask bs P last) 0%nat x y)) /\
  (forall i x y, fst (asym_step geigh np off ne bw lr acc reg (Some (fun _ _ _ => true)) bs P last) i x y = fst (asym_step geigh np off ne bw lr acc reg None bs P last) i x y).
Proof.
  intros geigh np off ne bw lr acc reg bs P last. split; [|split].
  - intros m i x y Hm H0 Hl. unfold asym_step. cbn [fst snd]. unfold fadd at 1 2, fadd, fscale, asym_add.
    assert (Z : (if Nat.eqb i 0 then fscale (K:=Cs) (cre (1 / 4)) (fadd (K:=Cs) (fun x y => if m 0%nat x y then fsum (K:=Cs) bs (fun s => fscale (K:=Cs) (sc (fst s) 0%nat) (asym_win geigh np off ne bw (bsm_reg reg P) (fst s) (snd s))) x y else (0, 0))
        (fadj (K:=Cs) (fun x y => if m 0%nat x y then fsum (K:=Cs) bs (fun s => fscale (K:=Cs) (sc (fst s) 0%nat) (asym_win geigh np off ne bw (bsm_reg reg P) (fst s) (snd s))) x y else (0, 0))))
      else (fun x y => if m i x y then fsum (K:=Cs) bs (fun s => fscale (K:=Cs) (sc (fst s) i) (asym_win geigh np off ne bw (bsm_reg reg P) (fst s) (snd s))) x y else (0, 0))) x y = (0, 0)).
    { destruct i as [|i]; cbn [Nat.eqb]; [|rewrite Hm; reflexivity]. unfold fscale, fadd, fadj. rewrite Hm, (H0 eq_refl). apply cplx_eq; simpl; ring. }
    split.
    + etransitivity; [apply (f_equal2 cadd); [reflexivity|apply (f_equal2 cadd); [apply (f_equal2 cmul); [reflexivity|exact Z]|apply (f_equal2 cmul); [reflexivity|exact Hl]]]|].
      unfold bsm_reg. destruct (Nat.eqb i 0) eqn:E; [apply Nat.eqb_eq in E; subst i|]; unfold fscale; apply cplx_eq; simpl; ring.
    + etransitivity; [apply (f_equal2 cadd); [apply (f_equal2 cmul); [reflexivity|exact Z]|apply (f_equal2 cmul); [reflexivity|exact Hl]]|]. apply cplx_eq; simpl; ring.
  - intros mask HP HL x y.
    assert (A : forall x y, asym_add geigh np off ne bw mask bs (bsm_reg reg P) 0%nat y x = cconj (asym_add geigh np off ne bw mask bs (bsm_reg reg P) 0%nat x y)).
    { intros x' y'. unfold asym_add. cbn [Nat.eqb]. unfold fscale, fadd, fadj.
      match goal with |- context [sadd (?A y' x') (sconj (?A x' y'))] => set (u := A y' x'); set (v := A x' y') end. clearbody u v. apply cplx_eq; simpl; ring. }
    unfold asym_step. cbn [fst snd]. unfold fadd, fscale. rewrite (A x y).
    set (u := asym_add geigh np off ne bw mask bs (bsm_reg reg P) 0%nat x y). clearbody u. unfold bsm_reg. cbn [Nat.eqb]. rewrite (HP x y), (HL x y).
    generalize (P 0%nat x y) (last 0%nat x y). intros p q. split; apply cplx_eq; simpl; ring.
  - intros i x y. unfold asym_step. cbn [fst]. unfold fadd, fscale, asym_add. destruct (Nat.eqb i 0); reflexivity.
Qed.
Example C113_mask_ex : let P : pars := fun i x y => if Nat.eqb x y then (3, 0) else if Nat.eqb i 0 then (0, 0) else (8, 2) in
  let P' := fst (asym_step geg1 2 0 1 (fun _ => 7) 1 1 (1 / 2) (Some (fun _ x y => Nat.eqb x y)) [({| sc := ch2 0; sf := half0 (ch2 0); sref := fun _ => 3; sw := 1 |}, fid (K:=Cs))] P pz) in
  P' 1%nat 0%nat 1%nat = (4, 1) /\ P' 0%nat 1%nat 0%nat = (0, 0).
Proof.
  intros P P'. subst P'.
  match goal with |- context [asym_step ?g ?np ?off ?ne ?bw ?lr ?acc ?reg _ ?bs _ _] => destruct (C113_mask_and_origin g np off ne bw lr acc reg bs P pz) as [H _] end.
  split; (etransitivity; [refine (proj1 (H _ _ _ _ eq_refl _ eq_refl)); intro; first [discriminate|reflexivity]|]); [|reflexivity].
  unfold P. cbn [Nat.eqb]. apply cplx_eq; simpl; field.
Qed.
Print Assumptions C113_mask_and_origin.

(** ** C114: optimize_cg *)
(** first order change of the band j under the change Q of the parameters *)
Definition Jac (d np : nat) (s : cgsmp) (Q : pars) (j : nat) : R := eig_diag d (gV s) (fit_H np (gf s) Q) j.
(** for a simple band this is its derivative in the direction Q (the overlap matrix S does not depend on the parameters of H) *)
Theorem C114_linearised : forall d np f S P Q la V i e, (i < d)%nat -> hermitian d S -> eigenbasis d (fit_H np f P) S (la, V) -> simple d la i ->
  band d (fun t => fit_H np f (shift_pars P Q t)) (fun _ => S) e -> e 0 = la i -> forall ref, is_derive e 0 (Jac d np (MkCg f la V ref) Q i).
Proof.
  intros d np f S P Q la V i e Hi HS B Hs Hb He ref. unfold Jac. cbn [gV gf].
  pose proof (first_order d i (fun t => fit_H np f (shift_pars P Q t)) (fun _ => S) (fit_H np f Q) (fun _ _ => (0,0)) la V e Hi (fit_H_herm _ _ _ _) HS) as F.
  assert (Z : eig_diag d V (fun _ _ => (0, 0)) i = 0) by (unfold eig_diag; rewrite eig_el_zero; reflexivity).
  rewrite Z in F. replace (eig_diag d V (fit_H np f Q) i) with (eig_diag d V (fit_H np f Q) i - 0 * la i) by ring.
  apply F; try assumption.
  - apply (eigenbasis_extH d (fit_H np f P)); [|exact B]. symmetry. apply shift_pars_0.
  - apply fit_H_deriv.
  - apply const_deriv.
Qed.
Print Assumptions C114_linearised.
Lemma cg_hx_fit np f x i j : cg_hx np f x i j = fit_H np f x i j.
Proof.
  unfold cg_hx, fit_H. cbv zeta. unfold fadd. refine (f_equal2 cadd eq_refl _). rewrite fit_sum_entry. unfold fadj at 2. rewrite fit_sum_entry.
  rewrite (nsum_conj Cs). apply (nsum_ext Cs). intros l _. unfold fadj. simpl. apply cplx_eq; simpl; ring.
Qed.
Lemma eig_el_real d V np f x j : eig_el d V (cg_hx np f x) j j = cre (eig_diag d V (fit_H np f x) j).
Proof.
  rewrite (eig_el_ext d V _ (fit_H np f x)) by (intros a b _ _; apply cg_hx_fit). pose proof (eig_el_herm d V _ j j (fit_H_herm np f x d)) as E.
  unfold eig_diag. apply (f_equal snd) in E. simpl in E. apply cplx_eq; simpl; [reflexivity|lra].
Qed.
Lemma Jac_shift d np s P Q t j : Jac d np s (shift_pars P Q t) j = Jac d np s P j + t * Jac d np s Q j.
Proof.
  unfold Jac, eig_diag. rewrite (eig_el_ext d (gV s) _ (fun a b => cadd (fit_H np (gf s) P a b) (cmul (cre t) (fit_H np (gf s) Q a b)))) by (intros a b _ _; apply fit_H_shift).
  rewrite (eig_el_add d (gV s) (fit_H np (gf s) P) (fun a b => cmul (cre t) (fit_H np (gf s) Q a b))), eig_el_scale. simpl. ring.
Qed.
Lemma Jac_ext d np s P Q j : (forall l x y, (l < np)%nat -> (x < d)%nat -> (y < d)%nat -> P l x y = Q l x y) -> Jac d np s P j = Jac d np s Q j.
Proof. intro H. unfold Jac, eig_diag. f_equal. apply eig_el_ext. intros a b Ha Hb. apply fit_H_ext. intros l Hl. split; apply H; assumption. Qed.
Lemma pre_shift np E P Q t l x y : cg_pre np E (shift_pars P Q t) l x y = shift_pars (cg_pre np E P) (cg_pre np E Q) t l x y.
Proof.
  unfold cg_pre, shift_pars, fsum, fscale. change (cmul (cre t)) with (@smul Cs (cre t)). rewrite <- (ksum_mul_l Cs). change cadd with (@sadd Cs). rewrite <- (ksum_add Cs).
  apply (ksum_ext Cs). intros k _. simpl. apply cplx_eq; simpl; ring.
Qed.
Lemma left_pre d np E s z j : fst (nsum (K:=Cs) np (fun k => cmul (cconj (cg_left np E (gf s) k)) (eig_el d (gV s) (z k) j j))) = Jac d np s (cg_pre np E z) j / 2.
Proof.
  unfold Jac. rewrite eig_el_fit.
  set (u := nsum (K:=Cs) np (fun k => cmul (cconj (cg_left np E (gf s) k)) (eig_el d (gV s) (z k) j j))).
  assert (X : u = nsum (K:=Cs) np (fun l => cmul (gf s l) (eig_el d (gV s) (cg_pre np E z l) j j))).
  { unfold u. transitivity (nsum (K:=Cs) np (fun k => nsum (K:=Cs) np (fun l => cmul (gf s l) (cmul (E l k) (eig_el d (gV s) (z k) j j))))).
    - apply (nsum_ext Cs). intros k _. unfold cg_left. change cconj with (@sconj Cs) at 1. rewrite (nsum_conj Cs). etransitivity; [symmetry; apply (nsum_mul_r Cs)|]. apply (nsum_ext Cs). intros l _. simpl. apply cplx_eq; simpl; ring.
    - etransitivity; [apply (nsum_swap Cs)|]. apply (nsum_ext Cs). intros l _. etransitivity; [apply (nsum_mul_l Cs)|]. refine (f_equal2 cmul eq_refl _).
      rewrite (eig_el_ext d (gV s) (cg_pre np E z l) (fun a b => nsum (K:=Cs) np (fun k => cmul (E l k) (z k a b)))) by (intros a b _ _; reflexivity).
      rewrite (eig_el_nsum d (gV s) np (fun k a b => cmul (E l k) (z k a b))). apply (nsum_ext Cs). intros k _. rewrite !eig_el_entry.
      etransitivity; [symmetry; apply (nsum_mul_l Cs)|]. apply (nsum_ext Cs). intros m _. etransitivity; [symmetry; apply (nsum_mul_l Cs)|]. apply (nsum_ext Cs). intros q _. simpl. apply cplx_eq; simpl; ring. }
  rewrite X. field.
Qed.
(** the operator A of the normal equations *)
Theorem C114_operator : forall d np off ne w E ss x z, (0 < length ss)%nat ->
  inner d np (cg_A d np off ne w E ss x) z =
  / (2 * INR (length ss)) * ksum (K:=Rs) ss (fun s => rsum ne (fun a => w a * Jac d np s (cg_pre np E x) (off + a)%nat * Jac d np s (cg_pre np E z) (off + a)%nat)).
Proof.
  intros d np off ne w E ss x z HN. assert (N0 : INR (length ss) <> 0) by (apply not_0_INR; lia). set (N := INR (length ss)) in *.
  transitivity (inner d np (fun k => fsum (K:=Cs) ss (fun s => fscale (K:=Cs) (cg_left np E (gf s) k) (win_mat (gV s) off ne (fun a => cre (w a * (/ N * Jac d np s (cg_pre np E x) (off + a)%nat)))))) z).
  - unfold inner. apply (nsum_ext Rs). intros k _. apply (nsum_ext Rs). intros i _. apply (nsum_ext Rs). intros j _.
    assert (Q : cg_A d np off ne w E ss x k i j = fsum (K:=Cs) ss (fun s => fscale (K:=Cs) (cg_left np E (gf s) k) (win_mat (gV s) off ne (fun a => cre (w a * (/ N * Jac d np s (cg_pre np E x) (off + a)%nat))))) i j).
    { unfold cg_A. cbv zeta. fold N. unfold fsum, fscale at 1. apply (ksum_ext Cs). intros s _. refine (f_equal2 cmul eq_refl _). apply win_ext. intros a _. rewrite eig_el_real.
      change (eig_diag d (gV s) (fit_H np (gf s) ?y) ?q) with (Jac d np s y q).
      set (X := Jac d np s (cg_pre np E (fun k0 => fscale (K:=Cs) (cre (/ N)) (x k0))) (off + a)%nat).
      assert (XE : X = / N * Jac d np s (cg_pre np E x) (off + a)%nat).
      { transitivity (Jac d np s (shift_pars (cg_pre np E pz) (cg_pre np E x) (/ N)) (off + a)%nat).
        - apply Jac_ext. intros l p q _ _ _. rewrite <- pre_shift. unfold cg_pre, fsum, fscale. apply (ksum_ext Cs). intros k0 _. unfold shift_pars, pz. simpl. apply cplx_eq; simpl; ring.
        - rewrite Jac_shift. assert (Z : Jac d np s (cg_pre np E pz) (off + a)%nat = 0); [|rewrite Z; ring].
          unfold Jac, eig_diag. rewrite (eig_el_ext d (gV s) _ (fun _ _ => (0, 0))); [rewrite eig_el_zero; reflexivity|]. intros p q _ _. rewrite fit_H_entry. apply (nsum_zero Cs). intros l _.
          assert (Y : forall p q, cg_pre np E pz l p q = (0, 0)) by (intros; unfold cg_pre, fsum; apply (ksum_zero Cs); intros; unfold fscale, pz; apply cplx_eq; simpl; ring).
          rewrite !Y. apply cplx_eq; simpl; ring. }
      rewrite XE. apply cplx_eq; simpl; ring. }
    rewrite Q. reflexivity.
  - rewrite (inner_updates d np off ne ss (fun s => cg_left np E (gf s)) gV (fun s a => w a * (/ N * Jac d np s (cg_pre np E x) (off + a)%nat)) z).
    rewrite <- (ksum_mul_l Rs). apply (ksum_ext Rs). intros s _. rewrite <- (nsum_mul_l Rs). apply (nsum_ext Rs). intros a _. rewrite left_pre. change (@smul Rs) with Rmult. toR. field. exact N0.
Qed.
Print Assumptions C114_operator.
Theorem C114_right_side : forall d np off ne w E ss z, inner d np (cg_b np off ne w E ss) z =
  1 / 2 * ksum (K:=Rs) ss (fun s => rsum ne (fun a => w a * (gla s (off + a)%nat - gref s a) * Jac d np s (cg_pre np E z) (off + a)%nat)).
Proof.
  intros. unfold cg_b. rewrite (inner_updates d np off ne ss (fun s => cg_left np E (gf s)) gV (fun s a => (gla s (off + a)%nat - gref s a) * w a) z).
  rewrite <- (ksum_mul_l Rs). apply (ksum_ext Rs). intros s _. rewrite <- (nsum_mul_l Rs). apply (nsum_ext Rs). intros a _. rewrite left_pre. change (@smul Rs) with Rmult. toR. field.
Qed.
Print Assumptions C114_right_side.
Lemma ksum_nonneg {A} (l : list A) (f : A -> R) : (forall a, In a l -> 0 <= f a) -> 0 <= ksum (K:=Rs) l f.
Proof.
  induction l as [|a l IH]; intro H; [simpl; lra|]. cbn [ksum]. pose proof (H a (or_introl eq_refl)). assert (0 <= ksum (K:=Rs) l f) by (apply IH; intros; apply H; right; assumption). simpl in *. lra.
Qed.
(** what the conjugate gradient method needs: A is symmetric and not negative *)
Theorem C114_symmetric : forall d np off ne w E ss, (0 < length ss)%nat ->
  (forall x y, inner d np (cg_A d np off ne w E ss x) y = inner d np x (cg_A d np off ne w E ss y)) /\
  ((forall a, (a < ne)%nat -> 0 <= w a) -> forall x, 0 <= inner d np (cg_A d np off ne w E ss x) x).
Proof.
  intros d np off ne w E ss HN. split.
  - intros x y. rewrite (inner_sym d np x), !C114_operator by exact HN. f_equal. apply (ksum_ext Rs). intros s _. apply (nsum_ext Rs). intros a _. simpl. ring.
  - intros W x. rewrite C114_operator by exact HN. apply Rmult_le_pos.
    + left. apply Rinv_0_lt_compat. apply lt_INR in HN. simpl in HN. lra.
    + apply ksum_nonneg. intros s _. apply ksum_nonneg. intros a Ha. apply in_seq in Ha. specialize (W a ltac:(lia)). rewrite Rmult_assoc. apply Rmult_le_pos; [exact W|]. apply Rle_0_sqr.
Qed.
Print Assumptions C114_symmetric.
(** the loss with the bands replaced by the expectation values in the eigenvectors of the linearisation: the band energies to first order *)
Definition lin_loss (d np off ne : nat) (w : nat -> R) (ss : list cgsmp) (Q : pars) : R :=
  ksum (K:=Rs) ss (fun s => rsum ne (fun a => w a * ((Jac d np s Q (off + a)%nat - gref s a) * (Jac d np s Q (off + a)%nat - gref s a)))).
Lemma basis_diag d H S la V j : (j < d)%nat -> eigenbasis d H S (la, V) -> eig_diag d V H j = la j.
Proof.
  intros Hj (B1 & B2 & _). cbn [fst snd] in *. unfold eig_diag. assert (E : eig_el d V H j j = cre (la j)); [|rewrite E; reflexivity].
  specialize (B2 j j Hj Hj). unfold fid in B2 at 1. rewrite Nat.eqb_refl in B2. change (eig_el d V S j j = (1, 0)) in B2.
  assert (X : forall Y, eig_el d V Y j j = nsum (K:=Cs) d (fun q => cmul (cconj (V q j)) (nsum (K:=Cs) d (fun m => cmul (Y q m) (V m j))))).
  { intro Y. rewrite eig_el_entry. etransitivity; [apply (nsum_swap Cs)|]. apply (nsum_ext Cs). intros q _. etransitivity; [|apply (nsum_mul_l Cs)]. apply (nsum_ext Cs). intros m _. simpl. apply cplx_eq; simpl; ring. }
  rewrite X in *. transitivity (nsum (K:=Cs) d (fun q => cmul (cre (la j)) (cmul (cconj (V q j)) (nsum (K:=Cs) d (fun m => cmul (S q m) (V m j)))))).
  - apply (nsum_ext Cs). intros q Hq. specialize (B1 q j Hq Hj). rewrite !csum_nsum in B1. rewrite B1. simpl. apply cplx_eq; simpl; ring.
  - etransitivity; [apply (nsum_mul_l Cs)|]. change (@smul Cs) with cmul. etransitivity; [refine (f_equal2 cmul eq_refl _); exact B2|]. apply cplx_eq; simpl; ring.
Qed.
Lemma Jac_update d np s E N x P j : snd (gf s 0%nat) = 0 -> Jac d np s (cg_update np N E x P) j = Jac d np s P j - 1 / INR N * Jac d np s (cg_pre np E x) j.
Proof.
  intro H0. replace (Jac d np s P j - 1 / INR N * Jac d np s (cg_pre np E x) j) with (Jac d np s P j + (- (1 / INR N)) * Jac d np s (cg_pre np E x) j) by ring. rewrite <- Jac_shift.
  unfold Jac, eig_diag. f_equal. apply eig_el_ext. intros a b _ _. rewrite !fit_H_entry. apply (nsum_ext Cs). intros l _. unfold cg_update, shift_pars. destruct l as [|l]; cbn [Nat.eqb].
  - unfold herm_mat, fscale, fadd, fadj, chalf. set (u := cg_pre np E x 0%nat a b). set (v := cg_pre np E x 0%nat b a). generalize (- (1 / INR N)). intro r.
    apply cplx_eq; simpl; rewrite H0; field.
  - reflexivity.
Qed.
(** if the linear system is solved, the updated parameters minimise the linearised loss: the Gauss-Newton step *)
Theorem C114_gauss_newton : forall d np off ne w E F ss P x, (0 < length ss)%nat -> (off + ne <= d)%nat -> (forall a, (a < ne)%nat -> 0 <= w a) ->
  (forall s, In s ss -> snd (gf s 0%nat) = 0 /\ exists S, eigenbasis d (fit_H np (gf s) P) S (gla s, gV s)) ->
  (forall l k, (l < np)%nat -> (k < np)%nat -> nsum (K:=Cs) np (fun m => cmul (E l m) (F m k)) = if Nat.eqb l k then (1, 0) else (0, 0)) ->
  (forall k i j, (k < np)%nat -> (i < d)%nat -> (j < d)%nat -> cg_A d np off ne w E ss x k i j = cg_b np off ne w E ss k i j) ->
  forall Q, lin_loss d np off ne w ss (cg_update np (length ss) E x P) <= lin_loss d np off ne w ss Q.
Proof.
  intros d np off ne w E F ss P x HN Hw W HB HF HA Q. assert (N0 : INR (length ss) <> 0) by (apply not_0_INR; lia). set (N := INR (length ss)) in *.
  set (y := cg_pre np F (shift_pars Q P (-1))). set (z := shift_pars y x (/ N)).
  assert (Ey : forall l i j, (l < np)%nat -> cg_pre np E y l i j = cadd (Q l i j) (cmul (cre (-1)) (P l i j))).
  { intros l i j Hl. unfold y, cg_pre at 1, fsum, fscale at 1.
    transitivity (nsum (K:=Cs) np (fun m => nsum (K:=Cs) np (fun k => cmul (cmul (E l m) (F m k)) (shift_pars Q P (-1) k i j)))).
    - apply (nsum_ext Cs). intros m _. unfold cg_pre, fsum, fscale. etransitivity; [symmetry; apply (nsum_mul_l Cs)|]. apply (nsum_ext Cs). intros k _. simpl. apply cplx_eq; simpl; ring.
    - etransitivity; [apply (nsum_swap Cs)|].
      transitivity (nsum (K:=Cs) np (fun k => if Nat.eqb k l then shift_pars Q P (-1) k i j else (0, 0))); [|exact (nsum_delta Cs np l (fun k => shift_pars Q P (-1) k i j) Hl)].
      apply (nsum_ext Cs). intros k Hk. etransitivity; [apply (nsum_mul_r Cs)|]. etransitivity; [refine (f_equal2 cmul _ eq_refl); exact (HF l k Hl Hk)|].
      rewrite (Nat.eqb_sym k l). destruct (Nat.eqb l k); apply cplx_eq; simpl; ring. }
  assert (JQ : forall s j, Jac d np s Q j = Jac d np s P j + Jac d np s (cg_pre np E y) j).
  { intros s j. rewrite (Jac_ext d np s (cg_pre np E y) (shift_pars Q P (-1))) by (intros; apply Ey; assumption). rewrite Jac_shift. ring. }
  assert (JZ : forall s j, Jac d np s (cg_pre np E z) j = Jac d np s (cg_pre np E y) j + / N * Jac d np s (cg_pre np E x) j).
  { intros s j. rewrite <- Jac_shift. apply Jac_ext. intros. apply pre_shift. }
  assert (OR : ksum (K:=Rs) ss (fun s => rsum ne (fun a => w a * (Jac d np s (cg_update np (length ss) E x P) (off + a)%nat - gref s a) * Jac d np s (cg_pre np E z) (off + a)%nat)) = 0).
  { assert (I : inner d np (cg_b np off ne w E ss) z - inner d np (cg_A d np off ne w E ss x) z = 0).
    { assert (Z : inner d np (cg_b np off ne w E ss) z = inner d np (cg_A d np off ne w E ss x) z).
      { unfold inner. apply (nsum_ext Rs). intros k Hk. apply (nsum_ext Rs). intros i Hi. apply (nsum_ext Rs). intros j Hj. rewrite HA by assumption. reflexivity. }
      rewrite Z. ring. }
    rewrite C114_right_side, C114_operator in I by exact HN. fold N in I.
    assert (G : ksum (K:=Rs) ss (fun s => rsum ne (fun a => w a * (Jac d np s (cg_update np (length ss) E x P) (off + a)%nat - gref s a) * Jac d np s (cg_pre np E z) (off + a)%nat)) =
      ksum (K:=Rs) ss (fun s => rsum ne (fun a => w a * (gla s (off + a)%nat - gref s a) * Jac d np s (cg_pre np E z) (off + a)%nat)) -
      / N * ksum (K:=Rs) ss (fun s => rsum ne (fun a => w a * Jac d np s (cg_pre np E x) (off + a)%nat * Jac d np s (cg_pre np E z) (off + a)%nat))).
    { symmetry. etransitivity; [apply f_equal2; [reflexivity|symmetry; apply (ksum_mul_l Rs)]|]. etransitivity; [symmetry; apply (ksum_sub Rs)|]. apply (ksum_ext Rs). intros s Hs.
      etransitivity; [apply f_equal2; [reflexivity|symmetry; apply (nsum_mul_l Rs)]|]. etransitivity; [symmetry; apply (nsum_sub Rs)|]. apply (nsum_ext Rs). intros a Ha.
      destruct (HB s Hs) as [H0 [S B]]. rewrite (Jac_update d np s E (length ss) x P _ H0). fold N.
      replace (Jac d np s P (off + a)%nat) with (gla s (off + a)%nat) by (symmetry; exact (basis_diag d (fit_H np (gf s) P) S (gla s) (gV s) (off + a)%nat ltac:(lia) B)).
      change (@ssub Rs) with Rminus. change (@smul Rs) with Rmult. toR. field. exact N0. }
    rewrite G. set (X1 := ksum (K:=Rs) ss _) in I at 1. set (X2 := ksum (K:=Rs) ss _) in I at 1. fold X1 X2.
    replace (1 / 2 * X1 - / (2 * N) * X2) with (1 / 2 * (X1 - / N * X2)) in I by (field; exact N0). change (@s0 Rs) with 0. lra. }
  unfold lin_loss. apply Rminus_le.
  set (g := fun s a => w a * (Jac d np s (cg_pre np E z) (off + a)%nat * Jac d np s (cg_pre np E z) (off + a)%nat)).
  match goal with |- ?l - ?r <= 0 => assert (X : r = l + (2 * 0 + ksum (K:=Rs) ss (fun s => rsum ne (g s)))) end.
  { change (@s0 Rs) with 0 in OR. etransitivity; [|apply f_equal2; [reflexivity|apply f_equal2; [refine (f_equal2 Rmult eq_refl _); exact OR|reflexivity]]].
    symmetry. etransitivity; [apply f_equal2; [reflexivity|apply f_equal2; [symmetry; apply (ksum_mul_l Rs)|reflexivity]]|]. etransitivity; [apply f_equal2; [reflexivity|symmetry; apply (ksum_add Rs)]|].
    etransitivity; [symmetry; apply (ksum_add Rs)|]. apply (ksum_ext Rs). intros s Hs.
    etransitivity; [apply f_equal2; [reflexivity|apply f_equal2; [symmetry; apply (nsum_mul_l Rs)|reflexivity]]|]. etransitivity; [apply f_equal2; [reflexivity|symmetry; apply (nsum_add Rs)]|].
    etransitivity; [symmetry; apply (nsum_add Rs)|]. apply (nsum_ext Rs). intros a Ha. unfold g.
    destruct (HB s Hs) as [H0 _]. rewrite (Jac_update d np s E (length ss) x P _ H0). fold N. rewrite JQ, JZ. change (@sadd Rs) with Rplus. change (@smul Rs) with Rmult. toR. field. exact N0. }
  rewrite X. assert (0 <= ksum (K:=Rs) ss (fun s => rsum ne (g s))).
  { apply ksum_nonneg. intros s _. apply ksum_nonneg. intros a Ha. apply in_seq in Ha. unfold g. apply Rmult_le_pos; [apply W; lia|apply Rle_0_sqr]. }
  lra.
Qed.
Print Assumptions C114_gauss_newton.
(** two samples of one constant band with the references 1 and 3, H = P + P^+: the step from 0 goes to P = 1, the least squares solution *)
Definition cg_two : list cgsmp :=
  [{| gf := fun _ => (1, 0); gla := fun _ => 0; gV := fid (K:=Cs); gref := fun _ => 1 |}; {| gf := fun _ => (1, 0); gla := fun _ => 0; gV := fid (K:=Cs); gref := fun _ => 3 |}].
Definition cg_sol : pars := fun _ _ _ => (-2, 0).
Example C114_ex : cg_update 1 2 (fun _ _ => (1, 0)) cg_sol pz 0%nat 0%nat 0%nat = (1, 0) /\
  forall Q, lin_loss 1 1 0 1 (fun _ => 1) cg_two (cg_update 1 2 (fun _ _ => (1, 0)) cg_sol pz) <= lin_loss 1 1 0 1 (fun _ => 1) cg_two Q.
Proof.
  split.
  - unfold cg_update. cbn [Nat.eqb]. unfold herm_mat, fscale, fadd, fadj, cg_pre, fsum, fscale, cg_sol, pz, chalf. cbn [seq ksum INR]. apply cplx_eq; simpl; field.
  - apply (C114_gauss_newton 1 1 0 1 (fun _ => 1) (fun _ _ => (1, 0)) (fun _ _ => (1, 0)) cg_two pz cg_sol).
    + cbn; lia.
    + lia.
    + intros; lra.
    + intros s Hs. assert (Z : forall f : nat -> cplx, f = (fun _ => (1, 0)) -> eigenbasis 1 (fit_H 1 f pz) (fid (K:=Cs)) (fun _ => 0, fid (K:=Cs))).
      { intros f ->. assert (HH : forall a b, fit_H 1 (fun _ => (1, 0)) pz a b = (0, 0)).
        { intros a b. rewrite fit_H_entry, nsum1. unfold pz. apply cplx_eq; simpl; ring. }
        pose proof (eg1_basis (fit_H 1 (fun _ => (1, 0)) pz)) as B. unfold eg1 in B. rewrite HH in B. apply B. intros a b _ _. unfold fadj. rewrite !HH. apply cplx_eq; simpl; ring. }
      destruct Hs as [<-|[<-|[]]]; (split; [reflexivity|exists (fid (K:=Cs)); apply Z; reflexivity]).
    + intros l k Hl Hk. destruct l, k; try lia. rewrite nsum1. apply cplx_eq; simpl; ring.
    + intros k i j Hk Hi Hj. destruct k, i, j; try lia. unfold cg_A, cg_b, fsum. cbn [ksum cg_two seq map length]. unfold fscale, win_mat, cg_left, csum. cbn [seq ksum gf gla gV gref].
      change Nat.add with Init.Nat.add. unfold eig_el, fmul, nsum. cbn [seq ksum]. unfold cg_hx, fit_sum, fsum, fadd, fscale, fadj, cg_pre, fsum, fscale, fid, cg_sol, chalf. cbn [seq ksum Nat.add Nat.eqb INR]. apply cplx_eq; simpl; field.
Qed.

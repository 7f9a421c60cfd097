(** Property C130: lattice_in_sphere returns the lattice points in the sphere. *)
From Coq Require Import List Arith ZArith Reals Bool Lia Lra Psatz.
From Verif Require Import SRing FMat CplxR LMat SymModel SupercellModel SupercellProofs SphereModel LinalgProps.
Import ListNotations.
Local Open Scope R_scope.
Notation rsum := (nsum (K:=Rs)).
Notation zsum := (nsum (K:=Zs)).

(** ** What numpy guarantees *)
(** the R of a QR decomposition of a regular matrix *)
Definition qr_ok (n : nat) (A : rmat) (r : rmat * rmat) : Prop :=
  feq (K:=Rs) n n (fmul (K:=Rs) n (fst r) (snd r)) A /\
  (forall i j, (j < i)%nat -> (i < n)%nat -> snd r i j = 0) /\ (forall i, (i < n)%nat -> snd r i i <> 0).
Definition svd_ok (n : nat) (A : rmat) (s : svd_result) : Prop :=
  (forall i, (i < n)%nat -> 0 < svS s i) /\
  feq (K:=Rs) n n (fmul (K:=Rs) n (fadj (K:=Rs) (svU s)) (svU s)) (fid (K:=Rs)) /\
  feq (K:=Rs) n n (fmul (K:=Rs) n (fadj (K:=Rs) (svVh s)) (svVh s)) (fid (K:=Rs)) /\
  feq (K:=Rs) n n (fmul (K:=Rs) n (svU s) (fun i j => svS s i * svVh s i j)) A.
Definition nearest (round : R -> Z) : Prop := forall x, Rabs (IZR (round x) - x) <= 1 / 2.

(** ** The lattice *)
Definition lpoint (n : nat) (A : rmat) (z : zvec) (i : nat) : R := rsum n (fun j => A i j * IZR (nth j z 0%Z)).

(** same lattice: an integer change of basis that is one to one and onto *)
Definition same_lattice (n : nat) (A B : rmat) : Prop := exists f : zvec -> zvec,
  (forall z, length z = n -> length (f z) = n) /\
  (forall z i, length z = n -> (i < n)%nat -> lpoint n A (f z) i = lpoint n B z i) /\
  (forall z z', length z = n -> length z' = n -> f z = f z' -> z = z') /\
  (forall z, length z = n -> exists z', length z' = n /\ f z' = z).
Lemma same_refl n A : same_lattice n A A.
Proof. exists (fun z => z). repeat split; auto. intros z Hz. exists z. auto. Qed.
Lemma same_trans n A B C : same_lattice n A B -> same_lattice n B C -> same_lattice n A C.
Proof.
  intros (f & F1 & F2 & F3 & F4) (g & G1 & G2 & G3 & G4). exists (fun z => f (g z)). split; [|split; [|split]].
  - auto.
  - intros z i Hz Hi. rewrite F2 by auto. apply G2; assumption.
  - intros z z' Hz Hz' E. apply G3; auto.
  - intros z Hz. destruct (F4 z Hz) as (y & Hy & <-). destruct (G4 y Hy) as (x & Hx & <-). exists x. auto.
Qed.

(** unit upper triangular integer matrices are one to one and onto *)
Definition uut (n : nat) (M : nat -> nat -> Z) : Prop :=
  (forall i, (i < n)%nat -> M i i = 1%Z) /\ forall i j, (j < i)%nat -> (i < n)%nat -> M i j = 0%Z.
Lemma uut_onto n : forall M (y : nat -> Z), uut n M -> exists x : nat -> Z, forall i, (i < n)%nat -> zsum n (fun j => (M i j * x j)%Z) = y i.
Proof.
  induction n as [|n IH]; intros M y (H1 & H2); [exists y; lia|].
  destruct (IH M (fun i => (y i - M i n * y n)%Z)) as (x & Hx); [split; [intros i Hi; apply H1; lia|intros i j Hj Hi; apply H2; lia]|].
  exists (fun j => if Nat.eqb j n then y n else x j). intros i Hi. rewrite (nsum_S Zs), Nat.eqb_refl.
  assert (E : zsum n (fun j => (M i j * (if Nat.eqb j n then y n else x j))%Z) = zsum n (fun j => (M i j * x j)%Z)).
  { apply (nsum_ext Zs). intros j Hj. destruct (Nat.eqb_spec j n); [lia|reflexivity]. }
  rewrite E. change (sadd (s:=Zs)) with Z.add. destruct (Nat.eq_dec i n) as [->|Ne].
  - rewrite (nsum_zero Zs) by (intros j Hj; rewrite H2 by lia; reflexivity). rewrite H1 by lia. cbn -[Z.add Z.mul] in *. lia.
  - rewrite Hx by lia. lia.
Qed.
Lemma uut_inj n : forall M (x x' : nat -> Z), uut n M -> (forall i, (i < n)%nat -> zsum n (fun j => (M i j * x j)%Z) = zsum n (fun j => (M i j * x' j)%Z)) ->
  forall i, (i < n)%nat -> x i = x' i.
Proof.
  induction n as [|n IH]; intros M x x' (H1 & H2) E; [lia|].
  assert (En : x n = x' n).
  { specialize (E n ltac:(lia)). rewrite !(nsum_S Zs) in E. rewrite !(nsum_zero Zs) in E by (intros j Hj; rewrite H2 by lia; reflexivity).
    rewrite H1 in E by lia. change (sadd (s:=Zs)) with Z.add in E. cbn -[Z.add Z.mul] in *. lia. }
  intros i Hi. destruct (Nat.eq_dec i n) as [->|Ne]; [exact En|]. apply (IH M); [split; [intros; apply H1; lia|intros; apply H2; lia]| |lia].
  intros k Hk. specialize (E k ltac:(lia)). rewrite !(nsum_S Zs), En in E. change (sadd (s:=Zs)) with Z.add in E. lia.
Qed.
Definition zapp (n : nat) (M : nat -> nat -> Z) (z : zvec) : zvec := map (fun i => zsum n (fun j => (M i j * nth j z 0)%Z)) (seq 0 n).
Lemma zapp_nth n M z i : (i < n)%nat -> nth i (zapp n M z) 0%Z = zsum n (fun j => (M i j * nth j z 0)%Z).
Proof.
  intros Hi. unfold zapp. exact (nth_map_seq (fun i => zsum n (fun j => (M i j * nth j z 0)%Z)) n i 0%Z Hi).
Qed.
Lemma IZR_zsum n f : IZR (zsum n f) = rsum n (fun i => IZR (f i)).
Proof.
  induction n as [|n IH]; [reflexivity|]. rewrite (nsum_S Zs), (nsum_S Rs). change (sadd (s:=Zs)) with Z.add. rewrite plus_IZR, IH. reflexivity.
Qed.
Lemma list_ext (a b : zvec) n : length a = n -> length b = n -> (forall i, (i < n)%nat -> nth i a 0%Z = nth i b 0%Z) -> a = b.
Proof. intros Ha Hb H. apply (nth_ext _ _ 0%Z 0%Z); [exact (eq_trans Ha (eq_sym Hb))|]. intros i Hi. apply H. exact (eq_ind _ (fun m => (i < m)%nat) Hi _ Ha). Qed.
Lemma uut_same n A M : uut n M -> same_lattice n A (fmul (K:=Rs) n A (fun i j => IZR (M i j))).
Proof.
  intros U. exists (zapp n M). split; [|split; [|split]].
  - intros z _. unfold zapp. rewrite map_length, seq_length. reflexivity.
  - intros z i Hz Hi. unfold lpoint, fmul.
    transitivity (rsum n (fun l => rsum n (fun j => A i l * (IZR (M l j) * IZR (nth j z 0%Z))))).
    { apply (nsum_ext Rs). intros l Hl. rewrite zapp_nth, IZR_zsum by exact Hl. rewrite (nsum_mul_l Rs). apply Rmult_eq_compat_l, (nsum_ext Rs).
      intros j _. apply mult_IZR. }
    rewrite (nsum_swap Rs). apply (nsum_ext Rs). intros j Hj. rewrite <- (nsum_mul_r Rs). apply (nsum_ext Rs). intros l _. cbn [smul Rs car]. ring.
  - intros z z' Hz Hz' E. apply (list_ext z z' n Hz Hz'). apply (uut_inj n M _ _ U). intros i Hi. rewrite <- !zapp_nth by exact Hi. rewrite E. reflexivity.
  - intros z Hz. destruct (uut_onto n M (fun i => nth i z 0%Z) U) as (x & Hx). exists (map x (seq 0 n)). split; [rewrite map_length, seq_length; reflexivity|].
    apply (list_ext _ _ n); [unfold zapp; rewrite map_length, seq_length; reflexivity|exact Hz|]. intros i Hi. rewrite zapp_nth, <- Hx by exact Hi. apply (nsum_ext Zs). intros j Hj.
    rewrite nth_map_seq by exact Hj. reflexivity.
Qed.
Lemma nearest_int round z : nearest round -> round (IZR z) = z.
Proof.
  intros H. specialize (H (IZR z)). rewrite <- minus_IZR in H. destruct (Z.eq_dec (round (IZR z)) z) as [|N]; [assumption|].
  assert (1 <= Z.abs (round (IZR z) - z))%Z by lia. apply IZR_le in H0. rewrite abs_IZR in H0. lra.
Qed.
Lemma reduce_same qr round n A : nearest round -> forall k, (forall m, (m < k)%nat -> qr_ok n (reduce qr round m n A) (qr n (reduce qr round m n A))) ->
  same_lattice n A (reduce qr round k n A).
Proof.
  intros HR. induction k as [|k IH]; intros HQ; [apply same_refl|]. apply same_trans with (reduce qr round k n A); [apply IH; intros; apply HQ; lia|].
  cbn [reduce]. apply uut_same. destruct (HQ k ltac:(lia)) as (_ & Z0 & Z1). split.
  - intros i Hi. unfold shear. unfold Rdiv. rewrite Rinv_r by (apply Z1; exact Hi). apply (nearest_int round 1 HR).
  - intros i j Hj Hi. unfold shear. rewrite Z0 by assumption. unfold Rdiv. rewrite Rmult_0_l. apply (nearest_int round 0 HR).
Qed.

(** ** The bounding box *)
Lemma signs_abs n (c : nat -> R) : exists e, In e (signs n) /\ rsum n (fun j => c j * nth j e 0) = rsum n (fun j => Rabs (c j)).
Proof.
  revert c. induction n as [|n IH]; intros c; [exists []; split; [left; reflexivity|reflexivity]|].
  destruct (IH (fun j => c (S j))) as (e & He & Es).
  assert (P : forall f, rsum (S n) f = f 0%nat + rsum n (fun j => f (S j))).
  { intros f. change (S n) with (1 + n)%nat. rewrite (nsum_plus Rs). f_equal. rewrite (nsum_S Rs), (nsum_0 Rs). cbn. ring. }
  exists ((if Rlt_dec (c 0%nat) 0 then -1 else 1) :: e). split.
  - cbn [signs]. apply in_flat_map. exists e. split; [exact He|]. destruct (Rlt_dec (c 0%nat) 0); [left|right; left]; reflexivity.
  - rewrite !P. cbn [nth]. rewrite Es. f_equal. destruct (Rlt_dec (c 0%nat) 0) as [L|L]; [rewrite Rabs_left by exact L|rewrite Rabs_right by lra]; ring.
Qed.
Lemma fold_max_ge l x : In x l -> x <= fold_right Rmax 0 l.
Proof. induction l as [|a l IH]; [intros []|]. cbn [fold_right]. intros [->|H]; [apply Rmax_l|]. apply Rle_trans with (fold_right Rmax 0 l); [apply IH, H|apply Rmax_r]. Qed.
Lemma fold_max_0 l : 0 <= fold_right Rmax 0 l.
Proof. induction l as [|a l IH]; [apply Rle_refl|]. cbn [fold_right]. apply Rle_trans with (fold_right Rmax 0 l); [exact IH|apply Rmax_r]. Qed.
Lemma max_corner_ge n s i : (forall j, (j < n)%nat -> 0 < svS s j) -> rsum n (fun j => Rabs (svVh s j i) / svS s j) <= max_corner n s i.
Proof.
  intros HS. destruct (signs_abs n (fun j => svVh s j i / svS s j)) as (e & He & Es).
  apply Rle_trans with (corner n s e i).
  - right. unfold corner. etransitivity; [|etransitivity; [symmetry; exact Es|]].
    + apply (nsum_ext Rs). intros j Hj. unfold Rdiv. rewrite Rabs_mult, (Rabs_right (/ svS s j)); [reflexivity|]. apply Rle_ge, Rlt_le, Rinv_0_lt_compat, HS, Hj.
    + apply (nsum_ext Rs). intros j Hj. cbn. unfold Rdiv. ring.
  - apply fold_max_ge. apply in_map_iff. exists e. auto.
Qed.
Lemma rsum_abs n f : Rabs (rsum n f) <= rsum n (fun i => Rabs (f i)).
Proof.
  induction n as [|n IH]; [rewrite !(nsum_0 Rs); cbn; rewrite Rabs_R0; lra|]. rewrite !(nsum_S Rs). cbn [sadd Rs car].
  apply Rle_trans with (Rabs (rsum n f) + Rabs (f n)); [apply Rabs_triang|]. apply Rplus_le_compat_r, IH.
Qed.
Lemma rsum_sq_ge n f i : (i < n)%nat -> f i * f i <= rsum n (fun j => f j * f j).
Proof.
  induction n as [|n IH]; [lia|]. intros Hi. rewrite (nsum_S Rs). cbn [sadd Rs car].
  assert (P : forall m, 0 <= rsum m (fun j => f j * f j)) by (intros m; apply Rle_trans with (rsum m (fun _ => 0)); [right; symmetry; apply (nsum_zero Rs); reflexivity|apply nsum_R_le; intros; nra]).
  destruct (Nat.eq_dec i n) as [->|N]; [specialize (P n); nra|]. specialize (IH ltac:(lia)). nra.
Qed.
Lemma abs_le_norm n v i : (i < n)%nat -> Rabs (v i) <= rnorm n v.
Proof. intros Hi. unfold rnorm. rewrite <- sqrt_Rsqr_abs. apply sqrt_le_1_alt. unfold Rsqr. apply (rsum_sq_ge n v i Hi). Qed.

(** Uy has the length of y *)
Lemma norm_iso n U y : feq (K:=Rs) n n (fmul (K:=Rs) n (fadj (K:=Rs) U) U) (fid (K:=Rs)) ->
  rnorm n (fun i => rsum n (fun j => U i j * y j)) = rnorm n y.
Proof.
  intros H. unfold rnorm. f_equal.
  transitivity (rsum n (fun i => rsum n (fun j => rsum n (fun k => U i j * U i k * (y j * y k))))).
  { apply (nsum_ext Rs). intros i Hi. rewrite <- (nsum_mul_r Rs). apply (nsum_ext Rs). intros j Hj. rewrite <- (nsum_mul_l Rs). apply (nsum_ext Rs). intros k Hk. cbn [smul Rs car]. ring. }
  rewrite (nsum_swap Rs). apply (nsum_ext Rs). intros j Hj. rewrite (nsum_swap Rs).
  transitivity (rsum n (fun k => fid (K:=Rs) j k * (y j * y k))).
  { apply (nsum_ext Rs). intros k Hk. rewrite <- (H j k Hj Hk). unfold fmul, fadj. rewrite <- (nsum_mul_r Rs). apply (nsum_ext Rs). intros i Hi. cbn. ring. }
  rewrite (nsum_single Rs n j); [unfold fid; rewrite Nat.eqb_refl; cbn; ring|exact Hj|]. intros k Hk N. unfold fid. destruct (Nat.eqb_spec j k); [congruence|]. cbn. ring.
Qed.

Lemma svd_point n A s (z : zvec) i : svd_ok n A s -> (i < n)%nat -> rsum n (fun j => svU s i j * pos_of n s z j) = lpoint n A z i.
Proof.
  intros (_ & _ & _ & H) Hi. unfold lpoint, pos_of.
  transitivity (rsum n (fun j => rsum n (fun l => svU s i j * (svS s j * svVh s j l) * IZR (nth l z 0%Z)))).
  { apply (nsum_ext Rs). intros j Hj. rewrite <- Rmult_assoc, <- (nsum_mul_l Rs). apply (nsum_ext Rs). intros l Hl. cbn [smul Rs car]. ring. }
  rewrite (nsum_swap Rs). apply (nsum_ext Rs). intros l Hl. rewrite <- (H i l Hi Hl). unfold fmul. rewrite <- (nsum_mul_r Rs). reflexivity.
Qed.
Lemma svd_norm n A s z : svd_ok n A s -> rnorm n (pos_of n s z) = rnorm n (lpoint n A z).
Proof.
  intros H. rewrite <- (norm_iso n (svU s) (pos_of n s z)) by apply H. unfold rnorm. f_equal. apply (nsum_ext Rs). intros i Hi. rewrite !(svd_point n A s z i H Hi). reflexivity.
Qed.
Lemma back_id (a b c d : R) : d <> 0 -> a * b * c = a / d * d * (b * c).
Proof. intros; field; assumption. Qed.
Lemma svd_back n A s (z : zvec) i : svd_ok n A s -> (i < n)%nat -> IZR (nth i z 0%Z) = rsum n (fun j => svVh s j i / svS s j * pos_of n s z j).
Proof.
  intros (HS & _ & HV & _) Hi. unfold pos_of.
  transitivity (rsum n (fun j => rsum n (fun l => svVh s j i * svVh s j l * IZR (nth l z 0%Z)))).
  - rewrite (nsum_swap Rs). rewrite (nsum_single Rs n i); [|exact Hi|].
    + rewrite (nsum_mul_r Rs n (fun j => svVh s j i * svVh s j i)). assert (E := HV i i Hi Hi). unfold fmul, fadj, fid in E. rewrite Nat.eqb_refl in E. cbn [sconj Rs car] in E. 
      etransitivity; [|apply Rmult_eq_compat_r; symmetry; exact E]. cbn. ring.
    + intros k Hk N. rewrite (nsum_mul_r Rs n (fun j => svVh s j i * svVh s j k)). assert (E := HV i k Hi Hk). unfold fmul, fadj, fid in E. destruct (Nat.eqb_spec i k); [congruence|].
      etransitivity; [apply Rmult_eq_compat_r; exact E|]. cbn. ring.
  - apply (nsum_ext Rs). intros j Hj. rewrite <- Rmult_assoc, <- (nsum_mul_l Rs). apply (nsum_ext Rs). intros l Hl. assert (svS s j <> 0) by (specialize (HS j Hj); lra).
    apply back_id. assumption.
Qed.
Lemma box_bound n A s (z : zvec) dist i : svd_ok n A s -> (i < n)%nat -> rnorm n (lpoint n A z) < dist -> Rabs (IZR (nth i z 0%Z)) <= dist * max_corner n s i.
Proof.
  intros H Hi Hd. rewrite <- (svd_norm n A s z H) in Hd. rewrite (svd_back n A s z i H Hi). destruct H as (HS & _).
  apply Rle_trans with (1 := rsum_abs _ _). apply Rle_trans with (dist * rsum n (fun j => Rabs (svVh s j i) / svS s j)).
  - rewrite <- (nsum_mul_l Rs). apply nsum_R_le. intros j Hj. cbn [smul Rs car]. assert (Hp := abs_le_norm n (pos_of n s z) j Hj).
    unfold Rdiv. rewrite !Rabs_mult, (Rabs_right (/ svS s j)) by (apply Rle_ge, Rlt_le, Rinv_0_lt_compat, HS, Hj).
    assert (0 <= Rabs (svVh s j i) * / svS s j) by (apply Rmult_le_pos; [apply Rabs_pos|apply Rlt_le, Rinv_0_lt_compat, HS, Hj]). nra.
  - apply Rmult_le_compat_l; [|apply max_corner_ge, HS]. assert (0 <= rnorm n (pos_of n s z)) by (unfold rnorm; apply sqrt_pos). lra.
Qed.
Lemma trunc_bound z x : Rabs (IZR z) <= x -> (- trunc x <= z < 1 + trunc x)%Z.
Proof.
  intros H. assert (Hp := Rabs_pos (IZR z)). unfold trunc. destruct (Rlt_dec x 0); [lra|]. destruct (base_Int_part x) as (B1 & B2).
  assert (Z.abs z < Int_part x + 1)%Z by (apply lt_IZR; rewrite abs_IZR, plus_IZR; lra). lia.
Qed.
Lemma in_candidates n A s z dist : svd_ok n A s -> length z = n -> rnorm n (lpoint n A z) < dist -> In z (candidates n s dist).
Proof.
  intros H Hz Hd. unfold candidates. apply in_grid. rewrite map_length, seq_length. split; [exact Hz|]. intros i Hi.
  rewrite nth_map_seq by exact Hi. apply in_zrange, trunc_bound. apply (box_bound n A s z dist i H Hi Hd).
Qed.
Lemma candidates_length n s z dist : In z (candidates n s dist) -> length z = n.
Proof. intros H. apply in_grid in H. rewrite map_length, seq_length in H. apply H. Qed.
Lemma candidates_nodup n s dist : NoDup (candidates n s dist).
Proof. unfold candidates. apply nodup_grid. intros a Ha. apply in_map_iff in Ha. destruct Ha as (i & <- & _). apply nodup_zrange. Qed.
Lemma nodup_map_in {A B} (f : A -> B) l : (forall x y, In x l -> In y l -> f x = f y -> x = y) -> NoDup l -> NoDup (map f l).
Proof.
  induction l as [|a l IH]; intros Hf Hn; [constructor|]. inversion Hn; subst. cbn [map]. constructor.
  - intros C. apply in_map_iff in C. destruct C as (b & E & Hb). apply Hf in E; [congruence|right; exact Hb|left; reflexivity].
  - apply IH; [|assumption]. intros x y Hx Hy. apply Hf; right; assumption.
Qed.

(** Every lattice point with |A z| < dist appears exactly once, and no other. *)
Theorem C130_sphere : forall qr svd round n A dist, nearest round ->
  (forall m, (m < 3)%nat -> qr_ok n (reduce qr round m n A) (qr n (reduce qr round m n A))) ->
  svd_ok n (reduce qr round 3 n A) (svd n (reduce qr round 3 n A)) ->
  exists L : list zvec, NoDup L /\
    lattice_in_sphere qr svd round n A dist = map (fun z => map (lpoint n A z) (seq 0 n)) L /\
    forall z, In z L <-> length z = n /\ sqrt (rsum n (fun i => lpoint n A z i * lpoint n A z i)) < dist.
Proof.
  intros qr svd round n A dist HR HQ HS. destruct (reduce_same qr round n A HR 3 HQ) as (f & F1 & F2 & F3 & F4).
  unfold lattice_in_sphere. set (B := reduce qr round 3 n A) in *. set (s := svd n B) in *. clearbody s. clear HQ.
  set (C := filter (fun z => if Rlt_dec (rnorm n (pos_of n s z)) dist then true else false) (candidates n s dist)).
  assert (HC : forall z, In z C <-> length z = n /\ rnorm n (lpoint n B z) < dist).
  { intros z. unfold C. rewrite filter_In, (svd_norm n B s z HS). destruct (Rlt_dec _ dist) as [L|L]; split.
    - intros (H & _). split; [apply (candidates_length n s z dist H)|exact L].
    - intros (H & _). split; [apply (in_candidates n B s z dist HS H L)|reflexivity].
    - intros (_ & H). discriminate.
    - intros (_ & H). contradiction. }
  assert (EN : forall z, length z = n -> rnorm n (lpoint n A (f z)) = rnorm n (lpoint n B z)).
  { intros z Hz. unfold rnorm. f_equal. apply (nsum_ext Rs). intros i Hi. rewrite !F2 by assumption. reflexivity. }
  exists (map f C). split; [|split].
  - apply nodup_map_in; [|apply NoDup_filter, candidates_nodup]. intros x y Hx Hy. apply HC in Hx, Hy. apply F3; tauto.
  - rewrite map_map. apply map_ext_in. intros z Hz. apply HC in Hz. apply map_ext_in. intros i Hi. apply in_seq in Hi.
    rewrite (svd_point n B s z i HS) by lia. rewrite F2 by (lia || apply Hz). reflexivity.
  - intros z. split.
    + intros H. apply in_map_iff in H. destruct H as (y & <- & Hy). apply HC in Hy. split; [apply F1, Hy|]. change (rnorm n (lpoint n A (f y)) < dist). rewrite EN by apply Hy. apply Hy.
    + intros (Hz & Hn). destruct (F4 z Hz) as (y & Hy & <-). apply in_map. apply HC. split; [exact Hy|]. rewrite <- EN by exact Hy. exact Hn.
Qed.
Print Assumptions C130_sphere.

Definition rnd (x : R) : Z := Int_part (x + 1 / 2).
Lemma rnd_nearest : nearest rnd.
Proof. intros x. unfold rnd. destruct (base_Int_part (x + 1 / 2)). apply Rabs_le. lra. Qed.
Definition m2 (a b c d : R) : rmat := fun i j => match i, j with O, O => a | O, _ => b | _, O => c | _, _ => d end.
Lemma rsum2 f : rsum 2 f = f 0%nat + f 1%nat.
Proof. rewrite !(nsum_S Rs), (nsum_0 Rs). cbn. ring. Qed.
Ltac idx2 i := destruct i as [|[|i]]; [| |exfalso; lia].
(** rectangular cell with the long side along x *)
Example C130_ex : let A := m2 0 2 1 0 in let qr := fun (_ : nat) (_ : rmat) => (m2 0 1 1 0, m2 1 0 0 2) in
  let svd := fun (_ : nat) (_ : rmat) => mkSvd (m2 1 0 0 1) (fun i => match i with O => 2 | _ => 1 end) (m2 0 1 1 0) in
  nearest rnd /\ (forall m, (m < 3)%nat -> qr_ok 2 (reduce qr rnd m 2 A) (qr 2%nat (reduce qr rnd m 2 A))) /\
  svd_ok 2 (reduce qr rnd 3 2 A) (svd 2%nat (reduce qr rnd 3 2 A)).
Proof.
  intros A qr svd.
  assert (E : forall m, feq (K:=Rs) 2 2 (reduce qr rnd m 2 A) A).
  { induction m as [|m IH]; [reflexivity|]. intros i j Hi Hj. cbn [reduce]. unfold reduce1, fmul. rewrite rsum2.
    rewrite !IH by lia. unfold shear. cbn [qr snd].
    assert (R0 : rnd (0 / 1) = 0%Z) by (replace (0 / 1) with (IZR 0) by field; apply (nearest_int rnd 0 rnd_nearest)).
    assert (R2 : rnd (0 / 2) = 0%Z) by (replace (0 / 2) with (IZR 0) by field; apply (nearest_int rnd 0 rnd_nearest)).
    assert (R1 : rnd (1 / 1) = 1%Z) by (replace (1 / 1) with (IZR 1) by field; apply (nearest_int rnd 1 rnd_nearest)).
    assert (R3 : rnd (2 / 2) = 1%Z) by (replace (2 / 2) with (IZR 1) by field; apply (nearest_int rnd 1 rnd_nearest)).
    idx2 i; idx2 j; cbn [m2 A]; rewrite ?R0, ?R1, ?R2, ?R3; cbn; ring. }
  split; [apply rnd_nearest|]. split.
  - intros m _. split; [|split].
    + intros i j Hi Hj. rewrite E by lia. unfold fmul. rewrite rsum2. cbn [qr fst snd A]. idx2 i; idx2 j; cbn; ring.
    + intros i j Hj Hi. idx2 i; idx2 j; try lia. reflexivity.
    + intros i Hi. cbn [qr snd]. idx2 i; cbn; lra.
  - split; [|split; [|split]].
    + intros i Hi. cbn [svd svS]. idx2 i; lra.
    + intros i j Hi Hj. unfold fmul, fadj, fid. rewrite rsum2. cbn [svd svU]. idx2 i; idx2 j; cbn; ring.
    + intros i j Hi Hj. unfold fmul, fadj, fid. rewrite rsum2. cbn [svd svVh]. idx2 i; idx2 j; cbn; ring.
    + intros i j Hi Hj. rewrite E by lia. unfold fmul. rewrite rsum2. cbn [svd svU svS svVh A]. idx2 i; idx2 j; cbn; ring.
Qed.

(** "first make A as orthogonal as possible" (l.206): the rounded R is multiplied instead of its inverse, which
    doubles the shear in each of the three steps *)
Theorem C130_reduction_refuted : let A := m2 1 1 0 1 in let qr := fun (_ : nat) (B : rmat) => (fid (K:=Rs), B) in
  (forall m, (m < 3)%nat -> qr_ok 2 (reduce qr rnd m 2 A) (qr 2%nat (reduce qr rnd m 2 A))) /\
  reduce qr rnd 3 2 A 0%nat 1%nat = 8 /\ same_lattice 2 A (m2 1 0 0 1).
Proof.
  intros A qr. assert (I : forall z, rnd (IZR z / 1) = z) by (intros z; replace (IZR z / 1) with (IZR z) by field; apply nearest_int, rnd_nearest).
  assert (E : forall m, feq (K:=Rs) 2 2 (reduce qr rnd m 2 A) (m2 1 (IZR (2 ^ Z.of_nat m)) 0 1)).
  { induction m as [|m IH]; [reflexivity|]. intros i j Hi Hj. cbn [reduce]. unfold reduce1, fmul. rewrite rsum2.
    unfold shear. cbn [qr snd]. rewrite !IH by lia. rewrite Nat2Z.inj_succ, Z.pow_succ_r, mult_IZR by lia.
    assert (J0 := I 0%Z). assert (J1 := I 1%Z). idx2 i; idx2 j; cbn [m2]; rewrite ?J0, ?J1, ?I; cbn; ring. }
  split; [|split].
  - intros m _. cbn [qr]. split; [apply fmul_id_l|]. split; cbn [snd].
    + intros i j Hj Hi. etransitivity; [apply E; lia|]. idx2 i; idx2 j; try lia. reflexivity.
    + intros i Hi C. assert (D := eq_trans (eq_sym (E m i i Hi Hi)) C). clear C. idx2 i; cbn in D; lra.
  - rewrite E by lia. cbn. lra.
  - destruct (uut_same 2 A (fun i j => match i, j with O, O => 1 | O, _ => -1 | _, O => 0 | _, _ => 1 end)%Z) as (f & F1 & F2 & F3 & F4).
    { split; [intros i Hi; idx2 i; reflexivity|intros i j Hj Hi; idx2 i; idx2 j; try lia; reflexivity]. }
    exists f. split; [exact F1|]. split; [|split; assumption]. intros z i Hz Hi. rewrite F2 by assumption. unfold lpoint. rewrite !rsum2. unfold fmul. rewrite !rsum2. idx2 i; cbn; ring.
Qed.
Print Assumptions C130_reduction_refuted.

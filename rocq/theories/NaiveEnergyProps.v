(** Property C155: naive_energy of density_of_states.py (l.186-191, modelled in DosModel.v). *)
From Coq Require Import Reals Lra Lia Psatz List Arith.
From Coquelicot Require Import Coquelicot.
From Verif Require Import NbrModel SmearModel DosModel FermiInt FermiConv DosTight.
Import List ListNotations.
Local Open Scope R_scope.

(** ** Specification: a double sum over points and bands with an occupation *)
Fixpoint row_sum (g : R -> R) (l : list R) : R := match l with [] => 0 | e :: r => g e + row_sum g r end.
Fixpoint pts_sum (g : R -> R) (l : list (list R)) : R := match l with [] => 0 | r :: l' => row_sum g r + pts_sum g l' end.
(** the mean over the points of the sum over the bands *)
Definition per_cell (g : R -> R) (bands : list (list R)) : R := pts_sum g bands / INR (length bands).
(** occupation of a state at temperature T: Fermi function, or 1 up to mu *)
Definition occ (mu T e : R) : R := if Rlt_dec 0 T then fermi ((e - mu) / (k_B * T)) else if Rle_dec e mu then 1 else 0.
(** a table of bands: at least one point, nb > 0 bands at every point *)
Definition table (nb : nat) (bands : list (list R)) : Prop := bands <> [] /\ (0 < nb)%nat /\ forall r, In r bands -> length r = nb.

Lemma row_app g a b : row_sum g (a ++ b) = row_sum g a + row_sum g b.
Proof. induction a as [|x a IH]; cbn; [ring|]. rewrite IH. ring. Qed.
Lemma row_concat g l : row_sum g (concat l) = pts_sum g l.
Proof. induction l as [|r l IH]; cbn; [reflexivity|]. rewrite row_app, IH. reflexivity. Qed.
Lemma rsum_map g l : rsum (map g l) = row_sum g l.
Proof. unfold rsum. induction l as [|x l IH]; cbn; [reflexivity|]. rewrite IH. reflexivity. Qed.
Lemma rsum_filter mu l : rsum (filter (fun e => Rleb e mu) l) = row_sum (fun e => e * (if Rle_dec e mu then 1 else 0)) l.
Proof.
  unfold rsum. induction l as [|x l IH]; cbn [filter row_sum fold_right]; [reflexivity|]. rewrite <- IH. unfold Rleb at 1.
  destruct (Rle_dec x mu); cbn [fold_right]; ring.
Qed.
Lemma row_ext g h l : (forall e, In e l -> g e = h e) -> row_sum g l = row_sum h l.
Proof. induction l as [|x l IH]; cbn; intros H; [reflexivity|]. rewrite H, IH; auto. Qed.
Lemma row_le g h l : (forall e, In e l -> g e <= h e) -> row_sum g l <= row_sum h l.
Proof. induction l as [|x l IH]; cbn; intros H; [lra|]. apply Rplus_le_compat; auto. Qed.
Lemma row_lin c d g h l : row_sum (fun e => c * g e + d * h e) l = c * row_sum g l + d * row_sum h l.
Proof. induction l as [|x l IH]; cbn; [ring|]. rewrite IH. ring. Qed.
Lemma table_len nb bands : table nb bands -> length (concat bands) = (length bands * nb)%nat.
Proof.
  intros (_ & _ & H). induction bands as [|r l IH]; cbn; [reflexivity|]. rewrite app_length, IH, (H r); [lia|left; reflexivity|].
  intros; apply H; right; assumption.
Qed.

Theorem C155_sum : forall nb bands mu T spin, table nb bands ->
  naive_energy bands nb mu T spin = spin * per_cell (fun e => e * occ mu T e) bands.
Proof.
  intros nb bands mu T spin HT. pose proof (table_len nb bands HT) as L. destruct HT as (H0 & Hn & _).
  assert (P : 0 < INR (length bands)) by (apply lt_0_INR; destruct bands; [contradiction|cbn; lia]). assert (Q : 0 < INR nb) by (apply lt_0_INR; lia).
  unfold naive_energy, rmean, per_cell. rewrite <- row_concat, map_length, L, mult_INR. unfold Rltb, occ. destruct (Rlt_dec 0 T) as [h|h].
  - rewrite rsum_map. rewrite (row_ext _ (fun e => e * fermi ((e - mu) / (k_B * T)))); [field; lra|].
    intros e _. f_equal. unfold expit, fermi. replace (- (- (e - mu) / (k_B * T))) with ((e - mu) / (k_B * T)) by (unfold Rdiv; ring). unfold Rdiv; ring.
  - rewrite rsum_filter. field. lra.
Qed.
Print Assumptions C155_sum.

(** bands and chemical potential shifted by c: the energy rises by c for every electron *)
Theorem C155_shift : forall nb bands mu T spin c, table nb bands ->
  naive_energy (map (map (fun e => e + c)) bands) nb (mu + c) T spin =
  naive_energy bands nb mu T spin + c * (spin * per_cell (occ mu T) bands).
Proof.
  intros nb bands mu T spin c HT. rewrite (C155_sum nb bands) by exact HT. rewrite C155_sum.
  - unfold per_cell. rewrite map_length. set (N := INR (length bands)). rewrite <- !row_concat, <- concat_map.
    assert (E : forall l, row_sum (fun e => e * occ (mu + c) T e) (map (fun e => e + c) l) = row_sum (fun e => e * occ mu T e) l + c * row_sum (occ mu T) l).
    { intros l. induction l as [|x l IH]; cbn [map row_sum]; [ring|]. rewrite IH. replace (occ (mu + c) T (x + c)) with (occ mu T x); [ring|].
      unfold occ. replace (x + c - (mu + c)) with (x - mu) by ring. destruct (Rlt_dec 0 T); [reflexivity|].
      destruct (Rle_dec x mu), (Rle_dec (x + c) (mu + c)); lra. }
    rewrite E. unfold Rdiv. ring.
  - destruct HT as (H0 & Hn & H). split; [destruct bands; [contradiction|discriminate]|]. split; [exact Hn|]. intros r Hr. apply in_map_iff in Hr.
    destruct Hr as (r' & <- & Hr). rewrite map_length. auto.
Qed.
Print Assumptions C155_shift.

(** the energy above mu N never falls with the temperature *)
Lemma occ_grand mu T T' e : T <= T' -> (e - mu) * occ mu T e <= (e - mu) * occ mu T' e.
Proof.
  intros HT. pose proof k_B_pos as K. unfold occ.
  destruct (Rlt_dec 0 T) as [h|h], (Rlt_dec 0 T') as [h'|h']; try lra.
  - set (x := e - mu). assert (P : 0 < k_B * T) by nra. assert (P' : 0 < k_B * T') by nra.
    assert (I : / (k_B * T') <= / (k_B * T)) by (apply Rinv_le_contravar; nra).
    assert (D : forall a b, a <= b -> fermi b <= fermi a) by (intros a b [Hab| ->]; [left; apply fermi_decr; exact Hab|lra]).
    destruct (Rle_dec 0 x) as [hx|hx].
    + apply Rmult_le_compat_l; [exact hx|]. apply D. unfold Rdiv. apply Rmult_le_compat_l; assumption.
    + apply Rmult_le_compat_neg_l; [lra|]. apply D. unfold Rdiv. apply Rmult_le_compat_neg_l; [lra|assumption].
  - pose proof (fermi_range ((e - mu) / (k_B * T'))). destruct (Rle_dec e mu); nra.
Qed.
Theorem C155_monotone : forall nb bands mu T T' spin, table nb bands -> 0 <= spin -> T <= T' ->
  naive_energy bands nb mu T spin - mu * (spin * per_cell (occ mu T) bands) <=
  naive_energy bands nb mu T' spin - mu * (spin * per_cell (occ mu T') bands).
Proof.
  intros nb bands mu T T' spin HT Hs HTT. rewrite !C155_sum by exact HT. destruct HT as (H0 & _ & _).
  assert (P : 0 < INR (length bands)) by (apply lt_0_INR; destruct bands; [contradiction|cbn; lia]).
  unfold per_cell. rewrite <- !row_concat. set (l := concat bands).
  assert (E : forall T, spin * (row_sum (fun e => e * occ mu T e) l / INR (length bands)) - mu * (spin * (row_sum (occ mu T) l / INR (length bands)))
     = spin / INR (length bands) * row_sum (fun e => (e - mu) * occ mu T e) l).
  { intros t. rewrite (row_ext (fun e => (e - mu) * occ mu t e) (fun e => 1 * (e * occ mu t e) + (- mu) * occ mu t e)) by (intros; ring).
    rewrite row_lin. field. lra. }
  rewrite !E. apply Rmult_le_compat_l; [apply Rmult_le_pos; [exact Hs|left; apply Rinv_0_lt_compat; exact P]|].
  apply row_le. intros e _. apply occ_grand. exact HTT.
Qed.
Print Assumptions C155_monotone.

(** ** T -> 0 *)
(** the limit of the occupation: one half at e = mu *)
Definition step (mu e : R) : R := if Rlt_dec e mu then 1 else if Rlt_dec mu e then 0 else 1 / 2.
Definition tends_to (h : R -> R) (l : R) : Prop := forall eps, 0 < eps -> exists t, 0 < t /\ forall T, 0 < T < t -> Rabs (h T - l) < eps.
Lemma fermi_small eps : 0 < eps -> exists x, 0 < x /\ forall y, x < y -> 0 < fermi y < eps.
Proof.
  intros He. exists (Rmax 1 (/ eps)). split; [pose proof (Rmax_l 1 (/ eps)); lra|]. intros y Hy. split; [apply fermi_range|].
  pose proof (Rmax_l 1 (/ eps)). pose proof (Rmax_r 1 (/ eps)). unfold fermi. pose proof (exp_ineq1 y ltac:(lra)) as X.
  unfold Rdiv. rewrite Rmult_1_l. rewrite <- (Rinv_inv eps). apply Rinv_lt_contravar; [|lra].
  apply Rmult_lt_0_compat; [apply Rinv_0_lt_compat; exact He|lra].
Qed.
Lemma occ_limit mu e : tends_to (fun T => occ mu T e) (step mu e).
Proof.
  intros eps He. pose proof k_B_pos as K. destruct (fermi_small eps He) as (x & Hx & X).
  destruct (Req_dec e mu) as [->|Hne].
  - exists 1. split; [lra|]. intros T HT. unfold occ, step. destruct (Rlt_dec 0 T); [|lra]. destruct (Rlt_dec mu mu); [lra|].
    replace ((mu - mu) / (k_B * T)) with 0 by (field; nra). unfold fermi. rewrite exp_0. replace (1 / (1 + 1) - 1 / 2) with 0 by field. rewrite Rabs_R0. exact He.
  - assert (A : 0 < Rabs (e - mu)) by (apply Rabs_pos_lt; lra).
    exists (Rabs (e - mu) / (k_B * x)). split; [apply Rdiv_lt_0_compat; nra|]. intros T [T0 T1].
    assert (Y : x < Rabs (e - mu) / (k_B * T)).
    { apply (Rmult_lt_reg_r (k_B * T)); [nra|]. unfold Rdiv. rewrite Rmult_assoc, Rinv_l by nra.
      apply (Rmult_lt_compat_r (k_B * x)) in T1; [|nra]. unfold Rdiv in T1. rewrite Rmult_assoc, Rinv_l in T1 by nra. nra. }
    unfold occ, step. destruct (Rlt_dec 0 T); [|lra]. destruct (Rlt_dec e mu) as [h|h].
    + rewrite Rabs_left in Y by lra. specialize (X _ Y). replace ((e - mu) / (k_B * T)) with (- (- (e - mu) / (k_B * T))) by (unfold Rdiv; ring).
      rewrite fermi_opp. rewrite Rabs_left; lra.
    + destruct (Rlt_dec mu e); [|lra]. rewrite Rabs_right in Y by lra. specialize (X _ Y). rewrite Rabs_right; lra.
Qed.
Lemma tends_ext h h' l : (forall T, 0 < T -> h T = h' T) -> tends_to h l -> tends_to h' l.
Proof. intros E H eps He. destruct (H eps He) as (t & Ht & X). exists t. split; [exact Ht|]. intros T HT. rewrite <- E by lra. auto. Qed.
Lemma tends_scale c h l : tends_to h l -> tends_to (fun T => c * h T) (c * l).
Proof.
  intros H eps He. assert (P : 0 < Rabs c + 1) by (pose proof (Rabs_pos c); lra).
  destruct (H (eps / (Rabs c + 1))) as (t & Ht & X); [apply Rdiv_lt_0_compat; lra|]. exists t. split; [exact Ht|]. intros T HT. specialize (X T HT).
  replace (c * h T - c * l) with (c * (h T - l)) by ring. rewrite Rabs_mult. pose proof (Rabs_pos c). pose proof (Rabs_pos (h T - l)).
  apply (Rmult_lt_compat_l (Rabs c + 1)) in X; [|exact P]. replace ((Rabs c + 1) * (eps / (Rabs c + 1))) with eps in X by (field; lra). nra.
Qed.
Lemma tends_plus h h' l l' : tends_to h l -> tends_to h' l' -> tends_to (fun T => h T + h' T) (l + l').
Proof.
  intros H H' eps He. destruct (H (eps / 2) ltac:(lra)) as (t & Ht & X). destruct (H' (eps / 2) ltac:(lra)) as (t' & Ht' & X').
  exists (Rmin t t'). split; [apply Rmin_glb_lt; assumption|]. intros T HT. pose proof (Rmin_l t t'). pose proof (Rmin_r t t').
  specialize (X T ltac:(lra)). specialize (X' T ltac:(lra)). replace (h T + h' T - (l + l')) with ((h T - l) + (h' T - l')) by ring.
  pose proof (Rabs_triang (h T - l) (h' T - l')). lra.
Qed.
Theorem C155_limit : forall nb bands mu spin, table nb bands ->
  tends_to (fun T => naive_energy bands nb mu T spin) (spin * per_cell (fun e => e * step mu e) bands).
Proof.
  intros nb bands mu spin HT. apply (tends_ext (fun T => spin * per_cell (fun e => e * occ mu T e) bands)); [intros; symmetry; apply C155_sum; exact HT|].
  apply tends_scale. unfold per_cell.
  apply (tends_ext (fun T => / INR (length bands) * pts_sum (fun e => e * occ mu T e) bands)); [intros; unfold Rdiv; ring|].
  replace (pts_sum (fun e => e * step mu e) bands / INR (length bands)) with (/ INR (length bands) * pts_sum (fun e => e * step mu e) bands) by (unfold Rdiv; ring).
  apply tends_scale. apply (tends_ext (fun T => row_sum (fun e => e * occ mu T e) (concat bands))); [intros; apply row_concat|]. rewrite <- row_concat.
  generalize (concat bands). intros l. induction l as [|e l IH]; cbn [row_sum].
  - intros eps He. exists 1. split; [lra|]. intros T _. rewrite Rminus_0_r, Rabs_R0. exact He.
  - apply tends_plus; [|exact IH]. apply tends_scale, occ_limit.
Qed.
Print Assumptions C155_limit.
(** without a state at mu, T = 0 is the limit of small temperatures *)
Theorem C155_continuous_partial : forall nb bands mu spin, table nb bands -> (forall r e, In r bands -> In e r -> e <> mu) ->
  tends_to (fun T => naive_energy bands nb mu T spin) (naive_energy bands nb mu 0 spin).
Proof.
  intros nb bands mu spin HT HN. rewrite (C155_sum nb bands mu 0 spin HT).
  replace (per_cell (fun e => e * occ mu 0 e) bands) with (per_cell (fun e => e * step mu e) bands); [apply C155_limit; exact HT|].
  unfold per_cell. f_equal. rewrite <- !row_concat. apply row_ext. intros e He. apply in_concat in He. destruct He as (r & Hr & He). specialize (HN r e Hr He).
  f_equal. unfold step, occ. destruct (Rlt_dec 0 0); [lra|]. destruct (Rlt_dec e mu), (Rle_dec e mu), (Rlt_dec mu e); lra.
Qed.
Theorem C155_continuous_refuted : ~ forall nb bands mu spin, table nb bands ->
  tends_to (fun T => naive_energy bands nb mu T spin) (naive_energy bands nb mu 0 spin).
Proof.
  intros C. assert (HT : table 1 [[1]; [2]]) by (split; [discriminate|split; [lia|intros r [<-|[<-|[]]]; reflexivity]]).
  specialize (C 1%nat [[1]; [2]] 1 2 HT). pose proof (C155_limit 1 [[1]; [2]] 1 2 HT) as L.
  rewrite C155_sum in C by exact HT. unfold per_cell in C, L. cbn [pts_sum row_sum length INR] in C, L. unfold occ in C. unfold step in L.
  destruct (Rlt_dec 0 0) as [|_] in C; [lra|]. destruct (Rle_dec 1 1) as [_|] in C; [|lra]. destruct (Rle_dec 2 1) as [|_] in C; [lra|].
  destruct (Rlt_dec 1 1) as [|_] in L; [lra|]. destruct (Rlt_dec 2 1) as [|_] in L; [lra|]. destruct (Rlt_dec 1 2) as [_|] in L; [|lra].
  destruct (C (1/4) ltac:(lra)) as (t & Ht & X). destruct (L (1/4) ltac:(lra)) as (t' & Ht' & X').
  set (T := Rmin t t' / 2). assert (HTT : 0 < T < t /\ 0 < T < t') by (unfold T; pose proof (Rmin_l t t'); pose proof (Rmin_r t t'); pose proof (Rmin_glb_lt t t' 0 Ht Ht'); lra).
  specialize (X T (proj1 HTT)). specialize (X' T (proj2 HTT)). revert X X'. generalize (naive_energy [[1]; [2]] 1 1 T 2). intros v X X'.
  apply Rabs_def2 in X. apply Rabs_def2 in X'. lra.
Qed.
Print Assumptions C155_continuous_refuted.

(** two points with two bands: at T = 0 the three states up to mu = 1 count *)
Example C155_ex : table 2 [[-1; 1]; [0; 2]] /\ naive_energy [[-1; 1]; [0; 2]] 2 (3/2) 0 2 = 0 /\ naive_energy [[-1; 1]; [0; 2]] 2 0 0 2 = -1 /\
  (forall r e, In r [[-1; 1]; [0; 2]] -> In e r -> e <> 3/2).
Proof.
  assert (HT : table 2 [[-1; 1]; [0; 2]]) by (split; [discriminate|split; [lia|intros r [<-|[<-|[]]]; reflexivity]]).
  split; [exact HT|]. rewrite !C155_sum by exact HT. unfold per_cell, occ. cbn [pts_sum row_sum length INR].
  destruct (Rlt_dec 0 0); [lra|]. split; [|split].
  - repeat (destruct (Rle_dec _ _); try lra).
  - repeat (destruct (Rle_dec _ _); try lra).
  - intros r e [<-|[<-|[]]] [<-|[<-|[]]]; lra.
Qed.

(** Property C50: counting states, Fermi energy and band gap. *)
From Coq Require Import Reals Lra Lia Psatz List ZArith Bool Arith.
From Coquelicot Require Import Coquelicot.
From Verif Require Import NbrModel SmearModel SmearCalc SmearProps CellProps DosModel.
Import List ListNotations.
Local Open Scope R_scope.

(** ** Specification: what a smearing method has to provide *)
Definition good_band (b : band) : Prop :=
  b_lo b <= b_hi b /\ (forall E, 0 <= b_vol b E <= 1) /\ (forall E E', E <= E' -> b_vol b E <= b_vol b E').
(** the ranges of bands that are sorted at every k point *)
Definition sorted_ranges (d : dos) : Prop :=
  forall i j, (i < j < length d)%nat ->
    b_lo (nth i d no_band) <= b_lo (nth j d no_band) /\ b_hi (nth i d no_band) <= b_hi (nth j d no_band).

Lemma rsum_le : forall {A} (f g : A -> R) l, (forall x, In x l -> f x <= g x) -> rsum (map f l) <= rsum (map g l).
Proof.
  induction l as [|a l IH]; intros H; simpl; [lra|]. pose proof (H a (or_introl eq_refl)). specialize (IH (fun x Hx => H x (or_intror Hx))).
  unfold rsum in *. lra.
Qed.
Lemma rsum_const : forall {A} (f : A -> R) c l, (forall x, In x l -> f x = c) -> rsum (map f l) = c * INR (length l).
Proof.
  induction l as [|a l IH]; intros H; [simpl; ring|]. cbn [map length]. rewrite S_INR. change (rsum (f a :: map f l)) with (f a + rsum (map f l)).
  rewrite (H a (or_introl eq_refl)), IH by (intros; apply H; right; auto). ring.
Qed.

Ltac dos_cases := unfold states_below_band, density_band, Rltb, Rleb;
  repeat match goal with |- context [Rlt_dec ?a ?b] => destruct (Rlt_dec a b) | |- context [Rle_dec ?a ?b] => destruct (Rle_dec a b) end; cbn [andb].
Lemma sbb_range : forall b E, good_band b -> 0 <= states_below_band E b <= 1.
Proof. intros b E (H1 & H2 & H3). specialize (H2 E). dos_cases; lra. Qed.
Lemma sbb_mono : forall b E E', good_band b -> E <= E' -> states_below_band E b <= states_below_band E' b.
Proof.
  intros b E E' (H1 & H2 & H3) HE. pose proof (H3 E E' HE). pose proof (H2 E). pose proof (H2 E'). dos_cases; lra.
Qed.
Theorem C50_monotone : forall d E E', Forall good_band d -> E <= E' -> states_below E d <= states_below E' d.
Proof.
  intros d E E' H HE. unfold states_below. apply rsum_le. intros b Hb. apply sbb_mono; auto. rewrite Forall_forall in H; auto.
Qed.
Print Assumptions C50_monotone.
Theorem C50_bounds : forall d E, Forall good_band d -> 0 <= states_below E d <= INR (length d).
Proof.
  intros d E H. unfold states_below. rewrite Forall_forall in H. split.
  - rewrite <- (Rmult_0_l (INR (length d))), <- (rsum_const (fun _ : band => 0) 0 d) by auto. apply rsum_le. intros b Hb. apply sbb_range; auto.
  - rewrite <- (Rmult_1_l (INR (length d))), <- (rsum_const (fun _ : band => 1) 1 d) by auto. apply rsum_le. intros b Hb. apply sbb_range; auto.
Qed.
Print Assumptions C50_bounds.
Theorem C50_extremes : forall d E,
  (Forall (fun b => E < b_lo b <= b_hi b) d -> states_below E d = 0) /\
  (Forall (fun b => b_hi b <= E) d -> states_below E d = INR (length d)).
Proof.
  intros d E. split; intros H; rewrite Forall_forall in H; unfold states_below.
  - rewrite (rsum_const _ 0); [ring|]. intros b Hb. specialize (H b Hb). dos_cases; lra.
  - rewrite (rsum_const _ 1); [ring|]. intros b Hb. specialize (H b Hb). dos_cases; lra.
Qed.
Print Assumptions C50_extremes.

(** states_density returns both numbers, and the density is the derivative away from the band edges *)
Theorem C50_states_density : forall d E, states_density E d = (states_below E d, density E d).
Proof.
  intros d E. unfold states_density, states_below, density.
  match goal with |- fold_left ?f d _ = _ => set (F := f) end.
  assert (G : forall s r, fold_left F d (s, r) = (s + rsum (map (states_below_band E) d), r + rsum (map (density_band E) d))).
  { induction d as [|b d IH]; intros s r; cbn [fold_left map].
    - simpl. f_equal; ring.
    - assert (HF : F (s, r) b = (s + states_below_band E b, r + density_band E b)).
      { unfold F, states_below_band, density_band. cbn [fst snd]. destruct (Rltb (b_lo b) E && Rltb E (b_hi b)); auto. destruct (Rleb (b_hi b) E); f_equal; ring. }
      rewrite HF, IH. simpl. f_equal; ring. }
  rewrite G. f_equal; ring.
Qed.
Print Assumptions C50_states_density.
Lemma locally_lt : forall x y : R, x < y -> locally x (fun t => t < y).
Proof. intros x y H. apply (open_lt y). auto. Qed.
Lemma locally_gt : forall x y : R, y < x -> locally x (fun t => y < t).
Proof. intros x y H. apply (open_gt y). auto. Qed.
Lemma sbb_derive : forall b E, b_lo b <= b_hi b -> E <> b_lo b -> E <> b_hi b ->
  (b_lo b < E < b_hi b -> is_derive (b_vol b) E (b_dvol b E)) ->
  is_derive (fun E => states_below_band E b) E (density_band E b).
Proof.
  intros b E Hb H1 H2 HD. destruct (Rlt_dec E (b_lo b)) as [L|L]; [|destruct (Rlt_dec (b_hi b) E) as [G|G]].
  - replace (density_band E b) with 0 by (dos_cases; lra).
    apply (is_derive_ext_loc (fun _ => 0)).
    + apply (filter_imp (fun t => t < b_lo b)); [|apply locally_lt; auto]. intros t Ht. dos_cases; lra.
    + exact (is_derive_const (V:=R_NormedModule) 0 E).
  - replace (density_band E b) with 0 by (dos_cases; lra).
    apply (is_derive_ext_loc (fun _ => 1)).
    + apply (filter_imp (fun t => b_hi b < t)); [|apply locally_gt; auto]. intros t Ht. dos_cases; lra.
    + exact (is_derive_const (V:=R_NormedModule) 1 E).
  - replace (density_band E b) with (b_dvol b E) by (dos_cases; lra).
    apply (is_derive_ext_loc (b_vol b)); [|apply HD; lra].
    apply (filter_imp (fun t => b_lo b < t /\ t < b_hi b)).
    + intros t Ht. dos_cases; lra.
    + apply filter_and; [apply locally_gt|apply locally_lt]; lra.
Qed.
Theorem C50_density : forall d E,
  Forall (fun b => b_lo b <= b_hi b /\ E <> b_lo b /\ E <> b_hi b /\
    (b_lo b < E < b_hi b -> is_derive (b_vol b) E (b_dvol b E))) d ->
  is_derive (fun E => states_below E d) E (density E d).
Proof.
  intros d E H. unfold states_below, density. induction H as [|b d (H1 & H2 & H3 & H4) HF IH]; cbn [map].
  - exact (is_derive_const (V:=R_NormedModule) 0 E).
  - change (is_derive (fun E => states_below_band E b + rsum (map (states_below_band E) d)) E (density_band E b + rsum (map (density_band E) d))).
    apply (is_derive_plus (V:=R_NormedModule) (fun E => states_below_band E b) (fun E => rsum (map (states_below_band E) d))); auto.
    apply sbb_derive; auto.
Qed.
Print Assumptions C50_density.

(** ** the bands made by smearing="cubes" *)
Lemma flatten_in : forall N g x, In x (flatten N g) <-> exists i j k, (i < N)%nat /\ (j < N)%nat /\ (k < N)%nat /\ x = g i j k.
Proof.
  intros N g x. unfold flatten. rewrite in_concat. split.
  - intros (l & Hl & Hx). apply in_map_iff in Hl. destruct Hl as (i & <- & Hi). apply in_concat in Hx. destruct Hx as (l & Hl & Hx).
    apply in_map_iff in Hl. destruct Hl as (j & <- & Hj). apply in_map_iff in Hx. destruct Hx as (k & <- & Hk).
    apply in_seq in Hi, Hj, Hk. exists i, j, k. repeat split; auto; lia.
  - intros (i & j & k & Hi & Hj & Hk & ->). eexists. split; [apply in_map_iff; exists i; split; [reflexivity|apply in_seq; lia]|].
    apply in_concat. eexists. split; [apply in_map_iff; exists j; split; [reflexivity|apply in_seq; lia]|].
    apply in_map_iff. exists k. split; auto. apply in_seq; lia.
Qed.
Lemma flatten_map : forall N g h, flatten N (fun i j k => h (g i j k)) = map h (flatten N g).
Proof.
  intros. unfold flatten. rewrite concat_map, map_map. f_equal. apply map_ext. intros i. rewrite concat_map, map_map. f_equal.
  apply map_ext. intros j. rewrite map_map. reflexivity.
Qed.
Definition cells (N : nat) : list (nat * nat * nat) :=
  concat (map (fun i => concat (map (fun j => map (fun k => (i, j, k)) (seq 0 N)) (seq 0 N))) (seq 0 N)).
Lemma flatten_cells : forall N g, flatten N g = map (fun c => g (fst (fst c)) (snd (fst c)) (snd c)) (cells N).
Proof.
  intros. unfold flatten, cells. rewrite concat_map, map_map. f_equal. apply map_ext. intros i. rewrite concat_map, map_map. f_equal.
  apply map_ext. intros j. rewrite map_map. reflexivity.
Qed.
Lemma cells_ne : forall N, (0 < N)%nat -> cells N <> [].
Proof.
  intros [|N] H; [lia|]. assert (In (0, 0, 0)%nat (cells (S N))).
  { unfold cells. apply in_concat. eexists. split; [apply in_map_iff; exists 0%nat; split; [reflexivity|apply in_seq; lia]|].
    apply in_concat. eexists. split; [apply in_map_iff; exists 0%nat; split; [reflexivity|apply in_seq; lia]|].
    apply in_map_iff. exists 0%nat. split; auto. apply in_seq; lia. }
  intros E. rewrite E in H0. destruct H0.
Qed.
Lemma rmean_map_le : forall {A} (f g : A -> R) l, l <> [] -> (forall x, In x l -> f x <= g x) -> rmean (map f l) <= rmean (map g l).
Proof.
  intros A f g l Hl H. unfold rmean. rewrite !map_length. apply Rmult_le_compat_r; [|apply rsum_le; auto].
  apply Rlt_le, Rinv_0_lt_compat, lt_0_INR. destruct l; [congruence|simpl; lia].
Qed.
Lemma rmean_const : forall {A} (f : A -> R) c l, l <> [] -> (forall x, In x l -> f x = c) -> rmean (map f l) = c.
Proof.
  intros A f c l Hl H. unfold rmean. rewrite map_length, (rsum_const f c) by auto. field.
  apply not_0_INR. destruct l; [congruence|simpl; lia].
Qed.
Lemma lmin_spec : forall l, l <> [] -> In (lmin l) l /\ forall x, In x l -> lmin l <= x.
Proof.
  intros [|a l] H; [congruence|]. clear H. unfold lmin. induction l as [|b l [I1 I2]]; cbn [fold_right].
  - split; [left; auto|]. intros x [->|[]]; lra.
  - split.
    + unfold Rmin. destruct Rle_dec; [right; left; auto|]. destruct I1 as [E|E]; [left; auto|right; right; auto].
    + intros x [->|[->|Hx]]; [|apply Rmin_l|].
      * eapply Rle_trans; [apply Rmin_r|]. apply I2; left; auto.
      * eapply Rle_trans; [apply Rmin_r|]. apply I2; right; auto.
Qed.
Lemma lmax_spec : forall l, l <> [] -> In (lmax l) l /\ forall x, In x l -> x <= lmax l.
Proof.
  intros [|a l] H; [congruence|]. clear H. unfold lmax. induction l as [|b l [I1 I2]]; cbn [fold_right].
  - split; [left; auto|]. intros x [->|[]]; lra.
  - split.
    + unfold Rmax. destruct Rle_dec; [|right; left; auto]. destruct I1 as [E|E]; [left; auto|right; right; auto].
    + intros x [->|[->|Hx]]; [|apply Rmax_l|].
      * eapply Rle_trans; [|apply Rmax_r]. apply I2; left; auto.
      * eapply Rle_trans; [|apply Rmax_r]. apply I2; right; auto.
Qed.
Lemma flatten_ne : forall N g, (0 < N)%nat -> flatten N g <> [].
Proof. intros N g H. rewrite flatten_cells. pose proof (cells_ne N H). destruct (cells N); [congruence|discriminate]. Qed.
Theorem C50_cubes : forall N gs, (0 < N)%nat -> Forall good_band (dos_cubes N gs).
Proof.
  intros N gs HN. unfold dos_cubes. apply Forall_map, Forall_forall. intros g _. unfold good_band, cubes_band. cbn [b_lo b_hi b_vol].
  pose proof (flatten_ne N g HN) as Hf. pose proof (cells_ne N HN) as Hc. split; [|split].
  - destruct (lmin_spec _ Hf) as [I1 I2]. destruct (lmax_spec _ Hf) as [J1 J2]. apply J2; auto.
  - intros E. rewrite flatten_cells. split.
    + rewrite <- (rmean_const (fun _ : nat * nat * nat => 0) 0 (cells N)) by auto. apply rmean_map_le; auto. intros c _. unfold cubes_volume. apply C46_range.
    + rewrite <- (rmean_const (fun _ : nat * nat * nat => 1) 1 (cells N)) by auto. apply rmean_map_le; auto. intros c _. unfold cubes_volume. apply C46_range.
  - intros E E' HE. rewrite !flatten_cells. apply rmean_map_le; auto. intros c _. unfold cubes_volume. apply C46_monotone. lra.
Qed.
Print Assumptions C50_cubes.
(** the range of the band is the range of its sampled values, and the derivative needed by C50_density is the right one *)
Theorem C50_cubes_range : forall N g i j k, (i < N)%nat -> (j < N)%nat -> (k < N)%nat ->
  b_lo (cubes_band N g) <= g i j k <= b_hi (cubes_band N g).
Proof.
  intros N g i j k Hi Hj Hk. unfold cubes_band; cbn [b_lo b_hi].
  assert (I : In (g i j k) (flatten N g)) by (apply flatten_in; exists i, j, k; auto).
  assert (Hf : flatten N g <> []) by (intros E; rewrite E in I; destruct I).
  split; [apply lmin_spec|apply lmax_spec]; auto.
Qed.
Print Assumptions C50_cubes_range.
Theorem C50_cubes_density : forall N g E, (0 < N)%nat -> is_derive (b_vol (cubes_band N g)) E (b_dvol (cubes_band N g) E).
Proof.
  intros N g E HN. unfold cubes_band; cbn [b_vol b_dvol]. 
  apply is_derive_ext with (fun E => rsum (map (fun c => cubes_volume N g E (fst (fst c)) (snd (fst c)) (snd c)) (cells N)) * / INR (length (cells N))).
  { intros t. rewrite flatten_cells. unfold rmean. rewrite map_length. reflexivity. }
  rewrite flatten_cells. unfold rmean. rewrite map_length. set (q := / INR (length (cells N))).
  apply is_derive_ext with (fun E => q * rsum (map (fun c => cubes_volume N g E (fst (fst c)) (snd (fst c)) (snd c)) (cells N))); [intros; apply Rmult_comm|].
  unfold Rdiv. fold q. rewrite Rmult_comm.
  apply (is_derive_scal (fun E => rsum (map (fun c => cubes_volume N g E (fst (fst c)) (snd (fst c)) (snd c)) (cells N)))).
  generalize (cells N). induction l as [|c l IH]; cbn [map].
  - exact (is_derive_const (V:=R_NormedModule) 0 E).
  - apply (is_derive_plus (V:=R_NormedModule) (fun E => cubes_volume N g E (fst (fst c)) (snd (fst c)) (snd c)) (fun E => rsum (map (fun c => cubes_volume N g E (fst (fst c)) (snd (fst c)) (snd c)) l))); auto.
    apply C62_dvolume.
Qed.
Print Assumptions C50_cubes_density.
(** bands that are sorted at every k point have sorted ranges *)
Theorem C50_cubes_sorted : forall N (gs : list grid), (0 < N)%nat ->
  (forall a b i j k, (a < b < length gs)%nat -> (i < N)%nat -> (j < N)%nat -> (k < N)%nat ->
     nth a gs (fun _ _ _ => 0) i j k <= nth b gs (fun _ _ _ => 0) i j k) ->
  sorted_ranges (dos_cubes N gs).
Proof.
  intros N gs HN H a b Hab. unfold dos_cubes in *. rewrite map_length in Hab.
  assert (E : forall m, (m < length gs)%nat -> nth m (map (cubes_band N) gs) no_band = cubes_band N (nth m gs (fun _ _ _ => 0))).
  { intros m Hm. rewrite (nth_indep _ no_band (cubes_band N (fun _ _ _ => 0))) by (rewrite map_length; auto). apply map_nth. }
  rewrite (E a), (E b) by lia. set (ga := nth a gs _). set (gb := nth b gs _). unfold cubes_band; cbn [b_lo b_hi].
  pose proof (flatten_ne N ga HN) as Fa. pose proof (flatten_ne N gb HN) as Fb.
  destruct (lmin_spec _ Fa) as [a1 a2]. destruct (lmin_spec _ Fb) as [b1 b2]. destruct (lmax_spec _ Fa) as [a3 a4]. destruct (lmax_spec _ Fb) as [b3 b4]. split.
  - apply flatten_in in b1. destruct b1 as (i & j & k & Hi & Hj & Hk & ->). apply Rle_trans with (ga i j k).
    + apply a2. apply flatten_in. exists i, j, k; auto.
    + unfold ga, gb. apply H; auto.
  - apply flatten_in in a3. destruct a3 as (i & j & k & Hi & Hj & Hk & ->). apply Rle_trans with (gb i j k).
    + unfold ga, gb. apply H; auto.
    + apply b4. apply flatten_in. exists i, j, k; auto.
Qed.
Print Assumptions C50_cubes_sorted.

(** ** which bands are cut *)
Theorem C50_cut_indices : forall d E i,
  In i (cut_band_indices E d) <-> (i < length d)%nat /\ b_lo (nth i d no_band) < E < b_hi (nth i d no_band).
Proof.
  intros d E i. unfold cut_band_indices. rewrite in_map_iff.
  assert (G : forall s d i b, In (i, b) (combine (seq s (length d)) d) <-> (s <= i < s + length d)%nat /\ b = nth (i - s) d no_band).
  { clear. intros s d. revert s. induction d as [|a d IH]; intros s i b; cbn [length seq combine In].
    - split; [tauto|intros [H _]; lia].
    - rewrite IH. split.
      + intros [H|[H1 H2]].
        * injection H as <- <-. split; [lia|]. rewrite Nat.sub_diag. reflexivity.
        * split; [lia|]. replace (i - s)%nat with (S (i - S s)) by lia. exact H2.
      + intros [H1 H2]. destruct (Nat.eq_dec i s) as [->|Ne].
        * left. rewrite Nat.sub_diag in H2. cbn in H2. congruence.
        * right. split; [lia|]. replace (i - s)%nat with (S (i - S s)) in H2 by lia. exact H2. }
  split.
  - intros ((i' & b) & <- & H). apply filter_In in H. destruct H as [H1 H2]. apply G in H1. destruct H1 as [H1 ->]. rewrite Nat.sub_0_r in *. cbn [fst snd] in *.
    apply andb_prop in H2. destruct H2 as [A B]. apply Rltb_true in A, B. split; [lia|]. auto.
  - intros (H1 & H2 & H3). exists (i, nth i d no_band). split; auto. apply filter_In. split.
    + apply G. split; [lia|]. rewrite Nat.sub_0_r. reflexivity.
    + cbn [snd]. rewrite !Rltb_t by auto. reflexivity.
Qed.
Print Assumptions C50_cut_indices.

(** ** insulators *)
Lemma in_nth_band : forall (d : dos) b, In b d -> exists i, (i < length d)%nat /\ b = nth i d no_band.
Proof. intros d b H. destruct (In_nth d b no_band H) as (i & Hi & E). exists i; auto. Qed.
Lemma gap_states : forall d n E, (0 < n < length d)%nat -> sorted_ranges d -> Forall good_band d ->
  b_hi (nth (n - 1) d no_band) <= E < b_lo (nth n d no_band) -> states_below E d = INR n.
Proof.
  intros d n E Hn Hs Hg HE. unfold states_below.
  rewrite <- (firstn_skipn n d) at 1. rewrite map_app. unfold rsum. rewrite fold_right_app.
  assert (A : fold_right Rplus 0 (map (states_below_band E) (skipn n d)) = 0).
  { change (rsum (map (states_below_band E) (skipn n d)) = 0). rewrite (rsum_const _ 0); [ring|]. intros b Hb.
    destruct (In_nth _ _ no_band Hb) as (i & Hi & <-). rewrite skipn_length in Hi.
    assert (X : nth i (skipn n d) no_band = nth (n + i) d no_band).
    { rewrite <- (firstn_skipn n d) at 2. rewrite app_nth2; rewrite firstn_length_le by lia; [f_equal; lia|lia]. }
    rewrite X. assert (L : b_lo (nth n d no_band) <= b_lo (nth (n + i) d no_band)).
    { destruct i; [rewrite Nat.add_0_r; lra|]. apply Hs. lia. }
    rewrite Forall_forall in Hg. destruct (Hg (nth (n + i) d no_band)) as [G _]; [apply nth_In; lia|].
    dos_cases; lra. }
  rewrite A. change (rsum (map (states_below_band E) (firstn n d)) = INR n).
  rewrite (rsum_const _ 1).
  - rewrite firstn_length_le by lia. ring.
  - intros b Hb. destruct (In_nth _ _ no_band Hb) as (i & Hi & <-). rewrite firstn_length_le in Hi by lia.
    assert (X : nth i (firstn n d) no_band = nth i d no_band).
    { rewrite <- (firstn_skipn n d) at 2. rewrite app_nth1; auto. rewrite firstn_length_le; lia. }
    rewrite X. assert (L : b_hi (nth i d no_band) <= b_hi (nth (n - 1) d no_band)).
    { destruct (Nat.eq_dec i (n - 1)) as [->|]; [lra|]. apply Hs. lia. }
    dos_cases; lra.
Qed.
Lemma Reqb_refl : forall x, Reqb x x = true.
Proof. intros. unfold Reqb. destruct Req_EM_T; congruence. Qed.
Lemma Reqb_true : forall x y, Reqb x y = true -> x = y.
Proof. intros x y. unfold Reqb. destruct Req_EM_T; congruence. Qed.
Lemma is_int_INR : forall n, is_int (INR n) = true.
Proof. intros n. unfold is_int. rewrite Int_part_INR, <- INR_IZR_INZ. apply Reqb_refl. Qed.
Lemma Rleb_t : forall x y, x <= y -> Rleb x y = true.
Proof. intros. unfold Rleb. destruct Rle_dec; auto; lra. Qed.
Lemma Rleb_true : forall x y, Rleb x y = true -> x <= y.
Proof. intros x y. unfold Rleb. destruct Rle_dec; auto; discriminate. Qed.
(** with a gap above n filled bands the Fermi energy is in the middle of it and exactly n states are below; the band gap is
    the length of the interval of such energies *)
Theorem C50_fermi_insulator : forall d n tol steps, (0 < n < length d)%nat -> sorted_ranges d -> Forall good_band d ->
  let hi := b_hi (nth (n - 1) d no_band) in let lo := b_lo (nth n d no_band) in hi < lo ->
  fermi_energy (INR n) d tol steps = Ok ((hi + lo) / 2) /\ bandgap (INR n) d = Ok (lo - hi) /\
  forall E, hi <= E < lo -> states_below E d = INR n.
Proof.
  intros d n tol steps Hn Hs Hg hi lo Hl.
  assert (A : Rleb 0 (INR n) && Rleb (INR n) (INR (length d)) = true) by (rewrite !Rleb_t; auto; [apply le_INR; lia|apply pos_INR]).
  assert (B : Nat.ltb 0 n && Nat.ltb n (length d) = true) by (apply andb_true_intro; split; apply Nat.ltb_lt; lia).
  split; [|split].
  - unfold fermi_energy. rewrite A, is_int_INR, Int_part_INR, Nat2Z.id, B. fold hi lo. rewrite Rltb_t by auto. reflexivity.
  - unfold bandgap. rewrite A, is_int_INR, Int_part_INR, Nat2Z.id, B. fold hi lo. rewrite Rltb_t by auto. reflexivity.
  - intros E HE. apply gap_states; auto.
Qed.
Print Assumptions C50_fermi_insulator.
(** no gap: the band gap is zero *)
Theorem C50_no_gap : forall d n, (0 < n < length d)%nat -> b_lo (nth n d no_band) <= b_hi (nth (n - 1) d no_band) ->
  bandgap (INR n) d = Ok 0.
Proof.
  intros d n Hn Hl.
  assert (A : Rleb 0 (INR n) && Rleb (INR n) (INR (length d)) = true) by (rewrite !Rleb_t; auto; [apply le_INR; lia|apply pos_INR]).
  assert (B : Nat.ltb 0 n && Nat.ltb n (length d) = true) by (apply andb_true_intro; split; apply Nat.ltb_lt; lia).
  unfold bandgap. rewrite A, is_int_INR, Int_part_INR, Nat2Z.id, B. rewrite Rltb_f by lra. reflexivity.
Qed.
Print Assumptions C50_no_gap.

(** ** metals: what the Newton search guarantees *)
Lemma newton_step : forall el d tol steps E, fermi_newton el d tol (S steps) E =
  let s := fst (states_density E d) in let rho := snd (states_density E d) in
  if Reqb rho 0 then EDiv else
  if Rleb (Rabs ((s - el) / rho)) tol then Ok (E - (s - el) / rho) else fermi_newton el d tol steps (E - (s - el) / rho).
Proof. reflexivity. Qed.
Lemma newton_ok : forall el d tol steps E E', fermi_newton el d tol steps E = Ok E' ->
  exists E0, Rabs (E' - E0) <= tol /\ density E0 d <> 0 /\ states_below E0 d - el = density E0 d * (E0 - E').
Proof.
  induction steps as [|steps IH]; intros E E'; cbn [fermi_newton]; [discriminate|].
  rewrite C50_states_density. cbn [fst snd]. destruct (Reqb (density E d) 0) eqn:Q; [discriminate|].
  assert (Nz : density E d <> 0) by (intros Z; rewrite Z, Reqb_refl in Q; discriminate).
  destruct (Rleb _ tol) eqn:T.
  - intros H. injection H as <-. apply Rleb_true in T. exists E. split; [|split]; auto.
    + rewrite <- Rabs_Ropp. replace (- (E - (states_below E d - el) / density E d - E)) with ((states_below E d - el) / density E d) by ring. auto.
    + field. auto.
  - apply IH.
Qed.
(** Full statement: fermi_energy(N) returns an energy at which states_below equals N up to the tolerance.  Proved: an energy
    within [tol] of one where the linearised number of states is exactly N; if the number of states changes by at most
    [L tol] on the interval of length [tol] around the result and the density there is at most [L], the number of states at
    the result differs from N by at most 2 L tol.  Missing: such an [L] need not exist at a band edge, where states_below
    jumps because the cells are not full yet. *)
Theorem C50_fermi_metal_partial : forall el d tol steps E', fermi_search el d tol steps = Ok E' ->
  (exists E0, Rabs (E' - E0) <= tol /\ density E0 d <> 0 /\ states_below E0 d - el = density E0 d * (E0 - E')) /\
  forall L, (forall E, Rabs (E' - E) <= tol -> Rabs (density E d) <= L /\ Rabs (states_below E' d - states_below E d) <= L * tol) ->
    Rabs (states_below E' d - el) <= 2 * L * tol.
Proof.
  intros el d tol steps E' H. unfold fermi_search in H. destruct (fermi_start el d) as [E1|]; [|discriminate].
  apply newton_ok in H. split; auto. destruct H as (E0 & H1 & H2 & H3). intros L HL. destruct (HL E0 H1) as [D S].
  replace (states_below E' d - el) with ((states_below E' d - states_below E0 d) + density E0 d * (E0 - E')) by lra.
  eapply Rle_trans; [apply Rabs_triang|]. rewrite Rabs_mult, (Rabs_minus_sym E0 E').
  assert (Rabs (density E0 d) * Rabs (E' - E0) <= L * tol) by (apply Rmult_le_compat; auto; apply Rabs_pos). lra.
Qed.
Print Assumptions C50_fermi_metal_partial.
(** example: one band with uniform density between 0 and 1; half filling gives 1/2 *)
Definition uniform_band : band := mkBand 0 1 (fun E => Rmin 1 (Rmax 0 E)) (fun _ => 1).
Lemma uniform_states : forall E, 0 < E < 1 -> states_density E [uniform_band] = (E, 1).
Proof.
  intros E H. rewrite C50_states_density. unfold states_below, density, states_below_band, density_band, uniform_band. cbn [map b_lo b_hi b_vol b_dvol].
  rewrite !Rltb_t by lra. cbn [andb rsum fold_right]. rewrite Rmax_right, Rmin_right by lra. f_equal; ring.
Qed.
Example C50_fermi_example : fermi_energy (1/2) [uniform_band] (/ 10 ^ 8) 30 = Ok (1/2) /\ Forall good_band [uniform_band].
Proof.
  split.
  - unfold fermi_energy. cbn [length]. change (INR 1) with 1. rewrite !Rleb_t by lra. cbn [andb].
    assert (Z : is_int (1/2) = false).
    { unfold is_int, Reqb. destruct Req_EM_T as [e|]; auto. exfalso. set (z := Int_part (1/2)) in *.
      assert (IZR z = IZR z) by reflexivity. assert (IZR (2 * z) = IZR 1) by (rewrite mult_IZR; lra). apply eq_IZR in H0. lia. }
    assert (S0 : states_density 0 [uniform_band] = (0, 0)).
    { rewrite C50_states_density. unfold states_below, states_below_band, density, density_band, uniform_band. cbn [map b_lo b_hi b_vol b_dvol]. rewrite (Rltb_f 0 0) by lra. cbn [andb]. unfold Rleb. destruct Rle_dec; [lra|]. simpl. f_equal; ring. }
    assert (S1 : states_density 1 [uniform_band] = (1, 0)).
    { rewrite C50_states_density. unfold states_below, states_below_band, density, density_band, uniform_band. cbn [map b_lo b_hi b_vol b_dvol]. rewrite (Rltb_f 1 1) by lra. rewrite andb_false_r, Rleb_t by lra. simpl. f_equal; ring. }
    assert (FC : full_curve 2 [uniform_band] = [(0, (0, 0)); (1, (1, 0))]).
    { unfold full_curve. cbn [map concat app linspace_end seq uniform_band b_lo b_hi]. unfold linspace_end. cbn [seq map app]. change (2 - 1)%nat with 1%nat. change (INR 0) with 0. change (INR 1) with 1.
      replace (0 + 0 * ((1 - 0) / 1)) with 0 by field. replace (0 + 1 * ((1 - 0) / 1)) with 1 by field.
      cbn [rsort rinsert]. rewrite Rleb_t by lra. cbn [rdedup]. unfold Reqb. destruct Req_EM_T; [lra|]. cbn [map]. rewrite S0, S1. reflexivity. }
    rewrite Z. unfold fermi_search, fermi_start. rewrite FC. cbn [map fst snd first_above]. rewrite (Rltb_f (1/2) 0) by lra. rewrite (Rltb_t (1/2) 1) by lra. cbn [nth fst snd].
    replace ((1 / 2 - 0) / (1 - 0) * (1 - 0) + 0) with (1/2) by field.
    rewrite newton_step. rewrite (uniform_states (1/2)) by lra. cbn [fst snd]. unfold Reqb. destruct Req_EM_T; [lra|].
    replace ((1 / 2 - 1 / 2) / 1) with 0 by field. rewrite Rabs_R0, Rleb_t; [f_equal; ring|]. apply Rlt_le, Rinv_0_lt_compat, pow_lt; lra.
  - constructor; auto. unfold good_band, uniform_band. cbn. split; [lra|]. split.
    + intros E. split; [apply Rmin_glb; [lra|apply Rmax_l]|apply Rmin_l].
    + intros E E' H. apply Rle_min_compat_l. apply Rle_max_compat_l. auto.
Qed.

(** ** what is false *)
(** a flat band: fermi_energy(0) is the energy of the band, below which it counts as filled *)
Definition flat_band (e : R) : band := mkBand e e (fun _ => 0) (fun _ => 0).
Theorem C50_fermi_zero_refuted : exists d E, Forall good_band d /\ sorted_ranges d /\
  fermi_energy 0 d (/ 10 ^ 8) 30 = Ok E /\ states_below E d = 1.
Proof.
  exists [flat_band 3], 3. split; [|split; [|split]].
  - constructor; auto. unfold good_band, flat_band. cbn. split; [lra|]. split; intros; lra.
  - intros i j H. cbn [length] in H. lia.
  - unfold fermi_energy. cbn [length]. change (INR 1) with 1. rewrite !Rleb_t by lra. cbn [andb].
    assert (Z : is_int 0 = true) by (change 0 with (INR 0); apply is_int_INR). rewrite Z.
    replace (Int_part 0) with 0%Z by (change 0 with (INR 0) at 1; rewrite Int_part_INR; reflexivity). cbn. reflexivity.
  - unfold states_below, states_below_band, flat_band. cbn [map b_lo b_hi]. rewrite (Rltb_f 3 3), Rleb_t by lra. simpl. ring.
Qed.
Print Assumptions C50_fermi_zero_refuted.
(** smearing="cubes+": more states than bands inside the band, so the count decreases again *)
Theorem C50_extra_refuted : states_below 9 [extra_band 2 peak_grid] = 4 / 3 /\ states_below 10 [extra_band 2 peak_grid] = 1.
Proof.
  assert (Lo : b_lo (extra_band 2 peak_grid) = 0).
  { unfold extra_band; cbn [b_lo]. assert (H : flatten 2 peak_grid <> []) by (apply flatten_ne; lia).
    destruct (lmin_spec _ H) as [A B]. assert (In 0 (flatten 2 peak_grid)) by (apply flatten_in; exists 1%nat, 0%nat, 0%nat; repeat split; auto).
    apply B in H0. apply flatten_in in A. destruct A as (i & j & k & _ & _ & _ & E). rewrite E in *. destruct i, j, k; cbn in *; lra. }
  assert (Hi : b_hi (extra_band 2 peak_grid) = 10).
  { unfold extra_band; cbn [b_hi]. assert (H : flatten 2 peak_grid <> []) by (apply flatten_ne; lia).
    destruct (lmax_spec _ H) as [A B]. assert (In 10 (flatten 2 peak_grid)) by (apply flatten_in; exists 0%nat, 0%nat, 0%nat; repeat split; auto).
    apply B in H0. apply flatten_in in A. destruct A as (i & j & k & _ & _ & _ & E). rewrite E in *. destruct i, j, k; cbn in *; lra. }
  split.
  - unfold states_below, states_below_band. cbn [map]. rewrite Lo, Hi. rewrite !Rltb_t by lra. cbn [andb].
    cbn [extra_band b_vol]. change (Nat.div 2 2) with 1%nat. unfold flatten. cbn [seq map concat app]. rewrite C64_range_refuted. unfold rmean. simpl. field.
  - unfold states_below, states_below_band. cbn [map]. rewrite Lo, Hi. rewrite (Rltb_f 10 10), Rleb_t by lra. rewrite andb_false_r. simpl. ring.
Qed.
Print Assumptions C50_extra_refuted.
(** example: two uniform bands with a gap between 1 and 2 *)
Definition upper_band : band := mkBand 2 3 (fun E => Rmin 1 (Rmax 0 (E - 2))) (fun _ => 1).
Example C50_insulator_example :
  Forall good_band [uniform_band; upper_band] /\ sorted_ranges [uniform_band; upper_band] /\
  fermi_energy 1 [uniform_band; upper_band] (/ 10 ^ 8) 30 = Ok (3/2) /\ bandgap 1 [uniform_band; upper_band] = Ok 1 /\
  states_below (3/2) [uniform_band; upper_band] = 1 /\
  is_derive (fun E => states_below E [uniform_band; upper_band]) (1/2) 1.
Proof.
  assert (G : Forall good_band [uniform_band; upper_band]).
  { assert (X : forall x, 0 <= Rmin 1 (Rmax 0 x) <= 1) by (intros; split; [apply Rmin_glb; [lra|apply Rmax_l]|apply Rmin_l]).
    apply Forall_cons; [|apply Forall_cons; [|apply Forall_nil]]; unfold good_band, uniform_band, upper_band; cbn; (split; [lra|]); split; auto;
      intros; apply Rle_min_compat_l, Rle_max_compat_l; lra. }
  assert (S : sorted_ranges [uniform_band; upper_band]).
  { intros i j H. cbn [length] in H. assert (i = 0 /\ j = 1)%nat as [-> ->] by lia. cbn. lra. }
  destruct (C50_fermi_insulator [uniform_band; upper_band] 1 (/ 10 ^ 8) 30 ltac:(cbn; lia) S G) as (A & B & C); [cbn; lra|].
  cbn [nth Nat.sub uniform_band upper_band b_lo b_hi] in A, B, C. change (INR 1) with 1 in *.
  split; [auto|]. split; [auto|]. split; [rewrite A; f_equal; field|]. split; [rewrite B; f_equal; ring|]. split; [apply C; lra|].
  assert (Z : density (1/2) [uniform_band; upper_band] = 1).
  { unfold density, density_band, uniform_band, upper_band. cbn [map b_lo b_hi b_dvol]. rewrite (Rltb_t 0 (1/2)), (Rltb_t (1/2) 1), (Rltb_f 2 (1/2)) by lra. simpl. ring. }
  refine (eq_rect _ (fun r => is_derive (fun E => states_below E [uniform_band; upper_band]) (1/2) r) (C50_density _ _ _) _ Z). apply Forall_cons; [|apply Forall_cons; [|apply Forall_nil]]; unfold uniform_band, upper_band; cbn [b_lo b_hi b_vol b_dvol].
  - split; [lra|]. split; [lra|]. split; [lra|]. intros _. apply (is_derive_ext_loc (fun E => E)).
    + apply (filter_imp (fun t => 0 < t /\ t < 1)); [|apply filter_and; [apply locally_gt|apply locally_lt]; lra].
      intros t Ht. rewrite Rmax_right, Rmin_right; lra.
    + exact (is_derive_id (K:=R_AbsRing) (1/2)).
  - split; [lra|]. split; [lra|]. split; [lra|]. intros Q. lra.
Qed.

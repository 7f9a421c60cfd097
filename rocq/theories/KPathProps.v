(** KPath (C42, C59, C60) and the point tables (C43). *)
From Coq Require Import List Arith ZArith Reals Bool String Lra Lia Sorted.
Import ListNotations.
From Verif Require Import NbrModel LossProps KPathModel.
Local Open Scope R_scope.
Notation length := List.length.

(** Specification on the calls. A segment from p to q of N samples: the points p + (i+1)/N (q - p). *)
Definition coord (p : pt) (a : nat) : R := nth a p 0.
Definition on_segment (p q : pt) (N i : nat) (x : pt) : Prop :=
  length x = length p /\ forall a, (a < length p)%nat -> coord x a = coord p a + INR (S i) / INR N * (coord q a - coord p a).

Section Props.
Variable tab : ptable.
Variables (fmt0 fmt : pt -> string).
(** the point meant by an argument, and its label *)
Definition point_of (e : elem) : option pt :=
  match e with EStr key => option_map fst (tab_find key tab) | EVec p => Some p | ENum x => Some [x] end.

Record call := MkC { c_point : elem; c_name : option string; c_N : Z }.
Definition kto' (k : kpath) (c : call) := kto tab fmt k (c_point c) (c_name c) (c_N c).
(** a chain of calls none of which raises *)
Inductive chain : kpath -> list call -> kpath -> Prop :=
  | chain0 k : chain k [] k
  | chainS k c k' cs k'' : kto' k c = (k', None) -> chain k' cs k'' -> chain k (c :: cs) k''.

Lemma ts_length N : length (ts N) = N.
Proof. unfold ts. now rewrite map_length, seq_length. Qed.
Lemma lerp_length p q t : length p = length q -> length (lerp p q t) = length p.
Proof. intros H. unfold lerp. rewrite map_length, combine_length. lia. Qed.
Lemma lerp_coord p q t a : length p = length q -> (a < length p)%nat -> coord (lerp p q t) a = coord p a + t * (coord q a - coord p a).
Proof.
  intros H Ha. unfold lerp, coord.
  rewrite (nth_indep _ 0 ((fun ab : R * R => fst ab + t * (snd ab - fst ab)) (0, 0))) by (rewrite map_length, combine_length; lia).
  rewrite (map_nth (fun ab : R * R => fst ab + t * (snd ab - fst ab)) (combine p q) (0, 0)), combine_nth by exact H. reflexivity.
Qed.
Lemma pt_ext (p q : pt) : length p = length q -> (forall a, (a < length p)%nat -> coord p a = coord q a) -> p = q.
Proof. intros H E. apply (nth_ext p q 0 0 H). exact E. Qed.
Lemma lerp_1 p q : length p = length q -> lerp p q 1 = q.
Proof.
  intros H. apply pt_ext; [rewrite lerp_length; assumption|]. intros a Ha. rewrite lerp_length in Ha by exact H.
  rewrite lerp_coord by assumption. ring.
Qed.

(** the state after a successful call *)
Lemma kto_ok k c k' : kto' k c = (k', None) -> exists q s N, point_of (c_point c) = Some q /\ c_N c = Z.of_nat N /\ (0 < N)%nat /\
  length q = length (hd [] (kp_path k)) /\
  k' = MkK (kp_path k ++ map (lerp (last (kp_path k) []) q) (ts N)) (kp_names k ++ [s])
        (kp_idx k ++ [(length (kp_path k) + N - 1)%nat]) /\
  (forall s', c_name c = Some s' -> s = s') /\
  (c_name c = None -> forall key p d, c_point c = EStr key -> tab_find key tab = Some (p, d) -> s = d).
Proof.
  destruct c as [e name N]. unfold kto', kto. cbn [c_point c_name c_N].
  assert (G : forall names q, (if negb (Nat.eqb (length q) (length (hd [] (kp_path k)))) then (MkK (kp_path k) names (kp_idx k), Some KAssertionError)
     else if Z.ltb N 0 then (MkK (kp_path k) names (kp_idx k), Some KValueError)
     else if Z.eqb N 0 then (MkK (kp_path k) names (kp_idx k), Some KZeroDivisionError)
     else (MkK (kp_path k ++ map (lerp (last (kp_path k) []) q) (ts (Z.to_nat N))) names
             (kp_idx k ++ [(length (kp_path k ++ map (lerp (last (kp_path k) []) q) (ts (Z.to_nat N))) - 1)%nat]), None)) = (k', None) ->
     exists M, N = Z.of_nat M /\ (0 < M)%nat /\ length q = length (hd [] (kp_path k)) /\
       k' = MkK (kp_path k ++ map (lerp (last (kp_path k) []) q) (ts M)) names (kp_idx k ++ [(length (kp_path k) + M - 1)%nat])).
  { intros names q. destruct (Nat.eqb_spec (length q) (length (hd [] (kp_path k)))); cbn [negb]; [|discriminate].
    destruct (Z.ltb_spec N 0); [discriminate|]. destruct (Z.eqb_spec N 0); [discriminate|]. intros E. injection E as <-.
    exists (Z.to_nat N). split; [lia|]. split; [lia|]. split; [assumption|]. f_equal. rewrite app_length, map_length, ts_length. reflexivity. }
  destruct e as [key|p|x]; cbn [point_of].
  - destruct name as [s|]; destruct (tab_find key tab) as [(p, d)|] eqn:Et; try discriminate; cbn [kp_path kp_names kp_idx]; intros E;
      apply G in E; destruct E as (M & -> & HM & Hq & ->).
    + exists p, s, M. repeat split; auto; intros; congruence.
    + exists p, d, M. repeat split; auto; intros; congruence.
  - cbn [kp_path kp_names kp_idx]. intros E. apply G in E; destruct E as (M & -> & HM & Hq & ->).
    exists p, (opt_name name (fmt p)), M. repeat split; auto; intros; try discriminate. subst name. reflexivity.
  - destruct name as [s|]; [|discriminate]. cbn [kp_path kp_names kp_idx]. intros E. apply G in E; destruct E as (M & -> & HM & Hq & ->).
    exists [x], s, M. repeat split; auto; intros; congruence.
Qed.

(** waypoints of a chain: the start point and the requested points, with the sample counts *)
Definition waypoints (p0 : pt) (cs : list call) (pts : list pt) (Ns : list nat) : Prop :=
  exists qs, pts = p0 :: qs /\ Forall2 (fun c q => point_of (c_point c) = Some q) cs qs
    /\ Forall2 (fun c N => c_N c = Z.of_nat N) cs Ns /\ Forall (fun N => (0 < N)%nat) Ns.
(** index of waypoint j *)
Definition wp_index (Ns : list nat) (j : nat) : nat := list_sum (firstn j Ns).

(** the consistency of the whole object *)
Record consistent (k : kpath) (pts : list pt) (Ns : list nat) : Prop := {
  co_count : length pts = S (length Ns);
  co_len : length (kp_path k) = S (list_sum Ns);
  co_names : length (kp_names k) = length pts;
  co_idx : kp_idx k = map (wp_index Ns) (seq 0 (length pts));
  co_at : forall j, (j < length pts)%nat -> nth (wp_index Ns j) (kp_path k) [] = nth j pts [];
  co_dim : forall j, (j < length pts)%nat -> length (nth j pts []) = length (nth 0 pts []);
  co_seg : forall j i, (j < length Ns)%nat -> (i < nth j Ns 0)%nat ->
     on_segment (nth j pts []) (nth (S j) pts []) (nth j Ns 0%nat) i (nth (wp_index Ns j + S i) (kp_path k) []) }.

Lemma wp_index_snoc Ns N j : (j <= length Ns)%nat -> wp_index (Ns ++ [N]) j = wp_index Ns j.
Proof. intros H. unfold wp_index. rewrite firstn_app. replace (j - length Ns)%nat with 0%nat by lia. cbn. now rewrite app_nil_r. Qed.
Lemma wp_index_all Ns : wp_index Ns (length Ns) = list_sum Ns.
Proof. unfold wp_index. now rewrite firstn_all. Qed.
Lemma wp_index_le Ns j : (wp_index Ns j <= list_sum Ns)%nat.
Proof. unfold wp_index. rewrite <- (firstn_skipn j Ns) at 2. rewrite list_sum_app. lia. Qed.
Lemma wp_index_step Ns j : (j < length Ns)%nat -> wp_index Ns (S j) = (wp_index Ns j + nth j Ns 0)%nat.
Proof.
  unfold wp_index. revert j. induction Ns as [|a Ns IH]; intros j Hj; cbn in Hj; [lia|]. destruct j as [|j]; [cbn; lia|].
  specialize (IH j ltac:(lia)). unfold list_sum in *. cbn [firstn fold_right nth] in *. lia.
Qed.
Lemma last_nth {A} (l : list A) d : l <> [] -> last l d = nth (length l - 1) l d.
Proof.
  intros H. destruct l as [|a l]; [easy|]. clear H. revert a. induction l as [|b l IH]; intros a; [reflexivity|].
  cbn [last length Nat.sub nth] in *. rewrite Nat.sub_0_r in *. rewrite IH. destruct l; reflexivity.
Qed.
Lemma ts_nth N i : (i < N)%nat -> nth i (ts N) 0 = INR (S i) / INR N.
Proof.
  intros H. unfold ts. rewrite (nth_indep _ 0 ((fun i => INR i * (1 / INR N) + 1 / INR N) 0%nat)) by (rewrite map_length, seq_length; lia).
  rewrite (map_nth (fun i => INR i * (1 / INR N) + 1 / INR N)), seq_nth by exact H. rewrite S_INR. cbn [Nat.add]. field.
  apply not_0_INR. lia.
Qed.

Lemma consistent_step k pts Ns c k' q : consistent k pts Ns -> kto' k c = (k', None) -> point_of (c_point c) = Some q ->
  exists N, c_N c = Z.of_nat N /\ (0 < N)%nat /\ consistent k' (pts ++ [q]) (Ns ++ [N]).
Proof.
  intros [C0 C1 C2 C3 C4 C5 C6] E Hq. destruct (kto_ok k c k' E) as (q' & s & N & Hq' & HN & PN & Hd & -> & _).
  rewrite Hq in Hq'. injection Hq' as <-. exists N. split; [exact HN|]. split; [exact PN|].
  assert (Pne : kp_path k <> []) by (intros Z; rewrite Z in C1; cbn in C1; lia).
  assert (Hlast : last (kp_path k) [] = nth (length Ns) pts []).
  { rewrite last_nth by exact Pne. rewrite <- C4 by lia. rewrite wp_index_all. f_equal. lia. }
  assert (Hhd : hd [] (kp_path k) = nth 0 pts []).
  { rewrite <- (C4 0%nat) by lia. unfold wp_index. cbn. destruct (kp_path k); reflexivity. }
  assert (Hlq : length (last (kp_path k) []) = length q) by (rewrite Hlast, C5 by lia; rewrite Hd, Hhd; reflexivity).
  assert (Hts : forall i, (i < N)%nat -> nth (length (kp_path k) + i) (kp_path k ++ map (lerp (last (kp_path k) []) q) (ts N)) []
      = lerp (last (kp_path k) []) q (INR (S i) / INR N)).
  { intros i Hi. rewrite app_nth2 by lia. replace (length (kp_path k) + i - length (kp_path k))%nat with i by lia.
    rewrite (nth_indep _ [] (lerp (last (kp_path k) []) q 0)) by (rewrite map_length, ts_length; exact Hi).
    rewrite map_nth, ts_nth by exact Hi. reflexivity. }
  constructor; cbn [kp_path kp_names kp_idx].
  - rewrite !app_length. cbn. lia.
  - rewrite app_length, map_length, ts_length, list_sum_app, C1. cbn. lia.
  - rewrite !app_length. cbn. lia.
  - rewrite app_length. cbn [length]. rewrite Nat.add_1_r, seq_S, map_app, C3. f_equal.
    + apply map_ext_in. intros j Hj. apply in_seq in Hj. symmetry. apply wp_index_snoc. lia.
    + cbn [map Nat.add]. f_equal. rewrite C0. replace (S (length Ns)) with (length (Ns ++ [N])) by (rewrite app_length; cbn; lia).
      rewrite wp_index_all, list_sum_app. cbn. lia.
  - intros j Hj. rewrite app_length in Hj. cbn in Hj. destruct (Nat.eq_dec j (length pts)) as [->|].
    + rewrite (app_nth2 pts) by lia. rewrite Nat.sub_diag. cbn [nth]. rewrite C0.
      replace (S (length Ns)) with (length (Ns ++ [N])) by (rewrite app_length; cbn; lia).
      rewrite wp_index_all, list_sum_app. cbn [list_sum fold_right]. rewrite Nat.add_0_r.
      replace (list_sum Ns + N)%nat with (length (kp_path k) + (N - 1))%nat by lia.
      rewrite Hts by lia. replace (S (N - 1)) with N by lia. unfold Rdiv. rewrite Rinv_r by (apply not_0_INR; lia). apply lerp_1. exact Hlq.
    + rewrite wp_index_snoc by lia. rewrite !app_nth1; [apply C4; lia|lia|]. pose proof (wp_index_le Ns j). lia.
  - intros j Hj. rewrite app_length in Hj. cbn in Hj. rewrite (app_nth1 pts [q] [] (n:=0)) by lia.
    destruct (Nat.eq_dec j (length pts)) as [->|]; [|rewrite app_nth1 by lia; apply C5; lia].
    rewrite app_nth2, Nat.sub_diag by lia. cbn [nth]. rewrite Hd, Hhd. reflexivity.
  - intros j i Hj Hi. rewrite app_length in Hj. cbn in Hj. destruct (Nat.eq_dec j (length Ns)) as [->|].
    + rewrite (app_nth2 Ns) in Hi |- * by lia. rewrite Nat.sub_diag in *. cbn [nth] in *.
      rewrite wp_index_snoc, wp_index_all by lia.
      rewrite (app_nth1 pts) by lia. rewrite (app_nth2 pts) by lia. replace (S (length Ns) - length pts)%nat with 0%nat by lia. cbn [nth].
      replace (list_sum Ns + S i)%nat with (length (kp_path k) + i)%nat by lia. rewrite Hts by exact Hi.
      split; [rewrite lerp_length by exact Hlq; congruence|]. intros a Ha. rewrite <- Hlast in Ha |- *. apply lerp_coord; assumption.
    + rewrite (app_nth1 Ns) in Hi |- * by lia. rewrite wp_index_snoc by lia. rewrite !(app_nth1 pts) by lia.
      rewrite app_nth1; [apply C6; [lia|exact Hi]|].
      pose proof (wp_index_step Ns j ltac:(lia)). pose proof (wp_index_le Ns (S j)). lia.
Qed.

Theorem C42_consistent p0 n0 cs k : chain (MkK [p0] [n0] [0%nat]) cs k ->
  exists pts Ns, waypoints p0 cs pts Ns /\ consistent k pts Ns.
Proof.
  assert (G : forall k0 cs k, chain k0 cs k -> forall pts Ns, consistent k0 pts Ns ->
     exists qs Ms, Forall2 (fun c q => point_of (c_point c) = Some q) cs qs /\ Forall2 (fun c N => c_N c = Z.of_nat N) cs Ms
       /\ Forall (fun N => (0 < N)%nat) Ms /\ consistent k (pts ++ qs) (Ns ++ Ms)).
  { clear. induction 1 as [k|k c k' cs k'' E H IH]; intros pts Ns C.
    - exists [], []. rewrite !app_nil_r. split; [constructor|]. split; [constructor|]. split; [constructor|]. exact C.
    - destruct (kto_ok k c k' E) as (q & s & N & Hq & _).
      destruct (consistent_step k pts Ns c k' q C E Hq) as (N' & HN & PN & C').
      destruct (IH _ _ C') as (qs & Ms & F1 & F2 & F3 & C''). exists (q :: qs), (N' :: Ms). rewrite <- !app_assoc in C''.
      split; [constructor; assumption|]. split; [constructor; assumption|]. split; [constructor; assumption|]. exact C''. }
  intros H. destruct (G _ _ _ H [p0] []) as (qs & Ms & F1 & F2 & F3 & C).
  - constructor; cbn; auto; try (intros; lia); intros j Hj; assert (j = 0)%nat as -> by lia; reflexivity.
  - exists (p0 :: qs), Ms. split; [|exact C]. exists qs. auto.
Qed.

(** names: the label given, or the label of the table *)
Theorem C42_names k c k' : kto' k c = (k', None) -> exists s, kp_names k' = kp_names k ++ [s] /\
  (forall s', c_name c = Some s' -> s = s') /\
  (c_name c = None -> forall key p d, c_point c = EStr key -> tab_find key tab = Some (p, d) -> s = d).
Proof. intros E. destruct (kto_ok k c k' E) as (q & s & N & _ & _ & _ & _ & -> & H1 & H2). exists s. auto. Qed.
End Props.
Print Assumptions C42_consistent.
Print Assumptions C42_names.

(** the example: three named points in the plane, one of them by an explicit array *)
Local Open Scope string_scope.
Local Open Scope list_scope.
Definition ex_tab : ptable := [("G", ([0; 0], "Gamma")); ("X", ([0; 1/2], "X"))].
Definition ex_fmt (p : pt) : string := "p".
Definition ex_chain : list call := [MkC (EStr "X") None 4; MkC (EVec [1/2; 1/2]) (Some "M") 1; MkC (EStr "G") (Some "end") 2].
Example C42_ex : exists k, chain ex_tab ex_fmt (MkK [[0; 0]] ["Gamma"] [0%nat]) ex_chain k
  /\ kp_names k = ["Gamma"; "X"; "M"; "end"] /\ kp_idx k = [0; 4; 5; 7]%nat /\ length (kp_path k) = 8%nat.
Proof.
  eexists. split.
  - eapply chainS; [reflexivity|]. eapply chainS; [reflexivity|]. eapply chainS; [reflexivity|]. apply chain0.
  - split; [reflexivity|]. split; reflexivity.
Qed.

(* ---- the path parameter ---- *)
Definition sq_dist (p q : pt) : R := fold_right Rplus 0 (map (fun ab => (fst ab - snd ab) * (fst ab - snd ab)) (combine p q)).
Lemma sum_scale c l : fold_right Rplus 0 (map (fun z => c * z) l) = c * fold_right Rplus 0 l.
Proof. induction l; cbn; [ring|]. rewrite IHl. ring. Qed.
Lemma sq_dist_nonneg p q : 0 <= sq_dist p q.
Proof. unfold sq_dist. induction (combine p q) as [|[a b] l IH]; cbn; [lra|]. pose proof (Rle_0_sqr (a - b)). unfold Rsqr in *. lra. Qed.
Lemma ldist_scale x y p q c : 0 <= c -> length x = length p -> length y = length p -> length q = length p ->
  (forall a, (a < length p)%nat -> coord x a - coord y a = c * (coord q a - coord p a)) -> ldist x y = c * ldist q p.
Proof.
  intros Hc Lx Ly Lq H. change (sqrt (sq_dist x y) = c * sqrt (sq_dist q p)).
  assert (E : sq_dist x y = (c * c) * sq_dist q p).
  { unfold sq_dist. rewrite <- sum_scale, map_map. f_equal.
    apply (nth_ext _ _ 0 0); [rewrite !map_length, !combine_length; lia|]. rewrite map_length, combine_length. intros a Ha.
    set (f := fun ab : R * R => (fst ab - snd ab) * (fst ab - snd ab)).
    rewrite (nth_indep _ 0 (f (0, 0))) by (rewrite map_length, combine_length; lia). rewrite map_nth, combine_nth by lia.
    rewrite (nth_indep (map _ (combine q p)) 0 ((fun x => c * c * f x) (0, 0))) by (rewrite map_length, combine_length; lia).
    rewrite (map_nth (fun x => c * c * f x)), combine_nth by lia. unfold f. cbn [fst snd].
    fold (coord x a) (coord y a) (coord q a) (coord p a). rewrite H by lia. ring. }
  rewrite E, sqrt_mult; [|nra|apply sq_dist_nonneg]. rewrite sqrt_square by exact Hc. reflexivity.
Qed.
Lemma ldist_nonneg p q : 0 <= ldist p q. Proof. apply sqrt_pos. Qed.

Lemma xs_length acc p l : length (xs_from acc p l) = length l.
Proof. revert acc p. induction l; intros; cbn; auto. Qed.
Lemma xs_nth l : forall acc p m, (m < length l)%nat ->
  nth (S m) (acc :: xs_from acc p l) 0 = nth m (acc :: xs_from acc p l) 0 + ldist (nth (S m) (p :: l) []) (nth m (p :: l) []).
Proof.
  induction l as [|q l IH]; intros acc p m Hm; cbn in Hm; [lia|]. destruct m as [|m]; [reflexivity|].
  specialize (IH (acc + ldist q p) q m ltac:(lia)). exact IH.
Qed.
Lemma kp_x_step k m : (S m < length (kp_path k))%nat ->
  nth (S m) (kp_x k) 0 = nth m (kp_x k) 0 + ldist (nth (S m) (kp_path k) []) (nth m (kp_path k) []).
Proof.
  unfold kp_x. destruct (kp_path k) as [|p l]; cbn [length]; intros H; [lia|]. apply xs_nth. lia.
Qed.
Lemma kp_x_0 k : nth 0 (kp_x k) 0 = 0. Proof. reflexivity. Qed.

(** x starts at 0, has one value per sample, never decreases, and increases by the straight distance inside a segment:
    the value at a sample is the length of the polygon up to it. *)
Fixpoint poly_length (pts : list pt) (j : nat) : R :=
  match j with O => 0 | S j' => poly_length pts j' + ldist (nth j pts []) (nth j' pts []) end.
Theorem C42_x k pts Ns : consistent k pts Ns -> Forall (fun N => (0 < N)%nat) Ns ->
  length (kp_x k) = length (kp_path k)
  /\ (forall i j, (i <= j)%nat -> (j < length (kp_path k))%nat -> nth i (kp_x k) 0 <= nth j (kp_x k) 0)
  /\ (forall j, (j < length pts)%nat -> nth (wp_index Ns j) (kp_x k) 0 = poly_length pts j)
  /\ (forall j i, (j < length Ns)%nat -> (i < nth j Ns 0)%nat ->
        nth (wp_index Ns j + S i) (kp_x k) 0 = poly_length pts j + INR (S i) / INR (nth j Ns 0%nat) * ldist (nth (S j) pts []) (nth j pts [])).
Proof.
  intros [C0 C1 C2 C3 C4 C5 C6] HN. split; [|split].
  - unfold kp_x. destruct (kp_path k); cbn in *; [lia|]. now rewrite xs_length.
  - intros i j Hij. induction Hij as [|j Hij IH]; intros Hj; [lra|]. rewrite kp_x_step by exact Hj. specialize (IH ltac:(lia)).
    pose proof (ldist_nonneg (nth (S j) (kp_path k) []) (nth j (kp_path k) [])). lra.
  - assert (S1 : forall j i, (j < length Ns)%nat -> nth (wp_index Ns j) (kp_x k) 0 = poly_length pts j -> (i < nth j Ns 0)%nat ->
        nth (wp_index Ns j + S i) (kp_x k) 0 = poly_length pts j + INR (S i) / INR (nth j Ns 0%nat) * ldist (nth (S j) pts []) (nth j pts [])).
    { intros j i Hj Hx Hi.
      pose proof (wp_index_step Ns j Hj) as W. pose proof (wp_index_le Ns (S j)) as W'.
      assert (PN : INR (nth j Ns 0%nat) <> 0) by (apply not_0_INR; lia).
      assert (PN' : 0 <= / INR (nth j Ns 0%nat)) by (left; apply Rinv_0_lt_compat; apply lt_0_INR; lia).
      assert (Lq : length (nth (S j) pts []) = length (nth j pts [])) by (rewrite (C5 (S j)), (C5 j) by lia; reflexivity).
      induction i as [|i IH].
      - replace (wp_index Ns j + 1)%nat with (S (wp_index Ns j)) by lia. rewrite kp_x_step by lia. rewrite Hx, C4 by lia. f_equal.
        destruct (C6 j 0%nat Hj Hi) as [L E]. replace (wp_index Ns j + 1)%nat with (S (wp_index Ns j)) in * by lia.
        apply ldist_scale; auto. + cbn. unfold Rdiv. rewrite Rmult_1_l. exact PN'. + intros a Ha. rewrite E by exact Ha. ring.
      - replace (wp_index Ns j + S (S i))%nat with (S (wp_index Ns j + S i)) by lia. rewrite kp_x_step by lia. rewrite IH by lia.
        destruct (C6 j i Hj ltac:(lia)) as [L E]. destruct (C6 j (S i) Hj Hi) as [L' E'].
        replace (wp_index Ns j + S (S i))%nat with (S (wp_index Ns j + S i)) in * by lia.
        rewrite (ldist_scale (nth (S (wp_index Ns j + S i)) (kp_path k) []) (nth (wp_index Ns j + S i) (kp_path k) []) (nth j pts []) (nth (S j) pts []) (/ INR (nth j Ns 0%nat))); auto.
        + rewrite (S_INR (S i)). unfold Rdiv. ring.
        + intros a Ha. rewrite E, E' by exact Ha. rewrite (S_INR (S i)). unfold Rdiv. ring. }
    assert (S2 : forall j, (j < length pts)%nat -> nth (wp_index Ns j) (kp_x k) 0 = poly_length pts j).
    { induction j as [|j IH]; intros Hj; [reflexivity|]. rewrite wp_index_step by lia.
      assert (HNj : (0 < nth j Ns 0)%nat) by (rewrite Forall_forall in HN; apply HN; apply nth_In; lia).
      replace (wp_index Ns j + nth j Ns 0)%nat with (wp_index Ns j + S (nth j Ns 0 - 1))%nat by lia.
      rewrite S1; [|lia|apply IH; lia|lia]. replace (S (nth j Ns 0 - 1))%nat with (nth j Ns 0%nat) by lia.
      cbn [poly_length]. unfold Rdiv. rewrite Rinv_r by (apply not_0_INR; lia). ring. }
    split; [exact S2|]. intros j i Hj Hi. apply S1; auto. apply S2. lia.
Qed.
Print Assumptions C42_x.

(** sym_x is the value of x at the waypoints, one per name *)
Lemma filter_mem_seq m : forall idx a, StronglySorted lt idx -> (forall i, In i idx -> (a <= i < a + m)%nat) ->
  filter (fun i => memn i idx) (seq a m) = idx.
Proof.
  assert (memn_in : forall i l, memn i l = true <-> In i l).
  { intros i l. unfold memn. rewrite existsb_exists. split; [intros (x & I & E); apply Nat.eqb_eq in E; congruence|intros I; exists i; rewrite Nat.eqb_refl; auto]. }
  induction m as [|m IH]; intros idx a HS HB.
  - destruct idx as [|i l]; [reflexivity|]. specialize (HB i (or_introl eq_refl)). lia.
  - cbn [seq filter]. destruct (memn a idx) eqn:E.
    + apply memn_in in E. destruct idx as [|i l]; [destruct E|]. inversion HS as [|? ? HS' HF]; subst. rewrite Forall_forall in HF.
      assert (i = a) as ->. { destruct E as [->|E]; [reflexivity|]. specialize (HF a E). specialize (HB i (or_introl eq_refl)). lia. }
      f_equal. transitivity (filter (fun i => memn i l) (seq (S a) m)); [|apply IH].
      * apply filter_ext_in. intros x Hx. apply in_seq in Hx. unfold memn. cbn [existsb].
        destruct (Nat.eqb_spec x a); [lia|reflexivity].
      * exact HS'.
      * intros x Hx. specialize (HF x Hx). specialize (HB x (or_intror Hx)). lia.
    + apply IH; [exact HS|]. intros x Hx. specialize (HB x Hx). assert (x <> a); [|lia]. intros ->. apply memn_in in Hx. congruence.
Qed.
Lemma sym_from_spec idx l : forall i acc p, sym_from idx i acc p l =
  map (fun m => nth (m - i) (xs_from acc p l) 0) (filter (fun m => memn m idx) (seq i (length l))).
Proof.
  induction l as [|q l IH]; intros i acc p; [reflexivity|]. cbn [sym_from length seq filter]. rewrite IH.
  assert (E : map (fun m => nth (m - S i) (xs_from (acc + ldist q p) q l) 0) (filter (fun m => memn m idx) (seq (S i) (length l)))
    = map (fun m => nth (m - i) (xs_from acc p (q :: l)) 0) (filter (fun m => memn m idx) (seq (S i) (length l)))).
  { apply map_ext_in. intros m Hm. apply filter_In in Hm. destruct Hm as [Hm _]. apply in_seq in Hm.
    replace (m - i)%nat with (S (m - S i)) by lia. reflexivity. }
  rewrite E. destruct (memn i idx); cbn [map app]; [|reflexivity]. rewrite Nat.sub_diag. reflexivity.
Qed.
Lemma wp_index_lt Ns i j : Forall (fun N => (0 < N)%nat) Ns -> (i < j)%nat -> (j <= length Ns)%nat -> (wp_index Ns i < wp_index Ns j)%nat.
Proof.
  intros HN Hij Hj. induction Hij as [|j Hij IH].
  - rewrite wp_index_step by lia. rewrite Forall_forall in HN. specialize (HN (nth i Ns 0%nat) (nth_In _ _ Hj)). lia.
  - rewrite wp_index_step by lia. specialize (IH ltac:(lia)). lia.
Qed.
Lemma map_sorted f a m : (forall i j, (a <= i < j)%nat -> (j < a + m)%nat -> (f i < f j)%nat) -> StronglySorted lt (map f (seq a m)).
Proof.
  revert a. induction m as [|m IH]; intros a H; cbn; constructor.
  - apply IH. intros i j ? ?. apply H; lia.
  - apply Forall_forall. intros y Hy. apply in_map_iff in Hy. destruct Hy as (x & <- & Hx). apply in_seq in Hx. apply H; lia.
Qed.
Theorem C42_sym_x k pts Ns : consistent k pts Ns -> Forall (fun N => (0 < N)%nat) Ns ->
  kp_sym_x k = map (poly_length pts) (seq 0 (length pts)) /\ length (kp_sym_x k) = length (kp_names k).
Proof.
  intros C HN. destruct (C42_x k pts Ns C HN) as (XL & _ & XW & _). destruct C as [C0 C1 C2 C3 C4 C5 C6].
  assert (E : kp_sym_x k = map (fun m => nth m (kp_x k) 0) (filter (fun m => memn m (kp_idx k)) (seq 0 (length (kp_path k))))).
  { unfold kp_sym_x, kp_x. destruct (kp_path k) as [|p l]; cbn [length] in *; [lia|]. rewrite sym_from_spec. cbn [seq filter].
    assert (E : map (fun m => nth (m - 1) (xs_from 0 p l) 0) (filter (fun m => memn m (kp_idx k)) (seq 1 (length l)))
      = map (fun m => nth m (0 :: xs_from 0 p l) 0) (filter (fun m => memn m (kp_idx k)) (seq 1 (length l)))).
    { apply map_ext_in. intros m Hm. apply filter_In in Hm. destruct Hm as [Hm _]. apply in_seq in Hm.
      destruct m as [|m]; [lia|]. cbn. rewrite Nat.sub_0_r. reflexivity. }
    rewrite E. destruct (memn 0 (kp_idx k)); reflexivity. }
  assert (F : kp_sym_x k = map (poly_length pts) (seq 0 (length pts))).
  { rewrite E, filter_mem_seq.
    - rewrite C3, map_map. apply map_ext_in. intros j Hj. apply in_seq in Hj. apply XW. lia.
    - rewrite C3. apply map_sorted. intros i j Hij Hj. apply wp_index_lt; auto; lia.
    - intros i Hi. rewrite C3 in Hi. apply in_map_iff in Hi. destruct Hi as (j & <- & Hj). pose proof (wp_index_le Ns j). lia. }
  split; [exact F|]. rewrite F, map_length, seq_length. symmetry. exact C2.
Qed.
Print Assumptions C42_sym_x.

(* ------------------------------------------------------------------ C59 *)
(** A call that raises leaves the path as it was. *)
Definition failed_unchanged (tab : ptable) (fmt : pt -> string) (k : kpath) (c : call) : Prop :=
  forall k' e, kto' tab fmt k c = (k', Some e) -> k' = k.
(** It does not: the label stays in names, which then no longer matches sym_x. *)
Definition ex_k : kpath := MkK [[0; 0]] ["Gamma"] [0%nat].
Theorem C59_failed_to_refuted :
  (exists c k', kto' ex_tab ex_fmt ex_k c = (k', Some KAssertionError) /\ length (kp_names k') = 2%nat /\ length (kp_sym_x k') = 1%nat)
  /\ (exists c k', kto' ex_tab ex_fmt ex_k c = (k', Some KZeroDivisionError) /\ length (kp_names k') = 2%nat /\ length (kp_sym_x k') = 1%nat)
  /\ (exists c k', kto' ex_tab ex_fmt ex_k c = (k', Some KKeyError) /\ length (kp_names k') = 2%nat /\ length (kp_sym_x k') = 1%nat)
  /\ exists c, ~ failed_unchanged ex_tab ex_fmt ex_k c.
Proof.
  split; [exists (MkC (EVec [1; 0; 0]) None 32); eexists; split; [reflexivity|split; reflexivity]|].
  split; [exists (MkC (EStr "X") None 0); eexists; split; [reflexivity|split; reflexivity]|].
  split; [exists (MkC (EStr "nothing") (Some "N") 32); eexists; split; [reflexivity|split; reflexivity]|].
  exists (MkC (EStr "X") None 0). intros H. specialize (H _ _ eq_refl). discriminate.
Qed.
Print Assumptions C59_failed_to_refuted.
(** What holds: samples and waypoint indices are never touched, at most one name is appended, and an unknown key without
    a label, or a bare number, changes nothing. *)
Theorem C59_failed_to_partial tab fmt k c k' e : kto' tab fmt k c = (k', Some e) ->
  kp_path k' = kp_path k /\ kp_idx k' = kp_idx k /\ (kp_names k' = kp_names k \/ exists s, kp_names k' = kp_names k ++ [s])
  /\ (c_name c = None -> e = KKeyError \/ e = KTypeError -> k' = k).
Proof.
  destruct c as [el name N]. unfold kto', kto. cbn [c_point c_name c_N].
  assert (G : forall k1 q, (if negb (Nat.eqb (length q) (length (hd [] (kp_path k1)))) then (k1, Some KAssertionError)
     else if Z.ltb N 0 then (k1, Some KValueError) else if Z.eqb N 0 then (k1, Some KZeroDivisionError)
     else (MkK (kp_path k1 ++ map (lerp (last (kp_path k1) []) q) (ts (Z.to_nat N))) (kp_names k1)
             (kp_idx k1 ++ [(length (kp_path k1 ++ map (lerp (last (kp_path k1) []) q) (ts (Z.to_nat N))) - 1)%nat]), None)) = (k', Some e) ->
     k' = k1 /\ e <> KKeyError /\ e <> KTypeError).
  { intros k1 q. destruct (negb _); [intros H; injection H as <- <-; repeat split; discriminate|].
    destruct (Z.ltb N 0); [intros H; injection H as <- <-; repeat split; discriminate|].
    destruct (Z.eqb N 0); [intros H; injection H as <- <-; repeat split; discriminate|]. discriminate. }
  destruct el as [key|p|x].
  - destruct name as [s|]; destruct (tab_find key tab) as [(p, d)|]; intros H.
    + apply G in H. destruct H as (-> & H1 & H2). cbn. repeat split; eauto. discriminate.
    + injection H as <- <-. cbn. repeat split; eauto. discriminate.
    + apply G in H. destruct H as (-> & H1 & H2). cbn. repeat split; eauto. intros _ [Q|Q]; contradiction.
    + injection H as <- <-. cbn. repeat split; eauto.
  - intros H. apply G in H. destruct H as (-> & H1 & H2). cbn. repeat split; eauto. intros _ [Q|Q]; contradiction.
  - destruct name as [s|]; intros H.
    + apply G in H. destruct H as (-> & H1 & H2). cbn. repeat split; eauto. discriminate.
    + injection H as <- <-. cbn. repeat split; eauto.
Qed.
Print Assumptions C59_failed_to_partial.

(* ------------------------------------------------------------------ C60 *)
(** The documented start (0, 0, 0): a tuple of numbers is a point. *)
Definition accepts_point (tab : ptable) (fmt0 fmt : pt -> string) (start : startarg) (p : pt) : Prop :=
  exists k, knew tab fmt0 fmt start None = inl k /\ kp_path k = [p].
(** An array is accepted, but a tuple or list of two or more numbers raises TypeError, whatever the table. *)
Theorem C60_tuple_start_refuted tab fmt0 fmt x y r :
  knew tab fmt0 fmt (TSeq (ENum x :: ENum y :: r)) None = inr KTypeError
  /\ ~ accepts_point tab fmt0 fmt (TSeq [ENum 0; ENum 0; ENum 0]) [0; 0; 0]
  /\ accepts_point tab fmt0 fmt (TElem (EVec [0; 0; 0])) [0; 0; 0].
Proof.
  split; [reflexivity|]. split.
  - intros (k & E & _). discriminate.
  - eexists. split; reflexivity.
Qed.
Print Assumptions C60_tuple_start_refuted.
(** A list of keys or arrays of equal dimension gives the path through these points with 32 samples per segment. *)
Theorem C60_list_start_partial tab fmt0 fmt e es name k :
  knew tab fmt0 fmt (TSeq (e :: es)) name = inl k ->
  exists k0, knew tab fmt0 fmt (TElem e) name = inl k0 /\ chain tab fmt k0 (map (fun e => MkC e None 32) es) k.
Proof.
  cbn [knew]. destruct (knew1 tab fmt0 e name) as [k0|]; [|discriminate]. intros H. exists k0. split; [reflexivity|].
  revert k0 H. induction es as [|e' es IH]; intros k0 H; cbn in H; [injection H as ->; constructor|].
  cbn [map]. destruct (kto tab fmt k0 e' None 32) as [k1 [err|]] eqn:E; [discriminate|].
  econstructor; [exact E|]. apply IH. exact H.
Qed.
Print Assumptions C60_list_start_partial.
Example C60_ex : exists k, knew ex_tab ex_fmt ex_fmt (TSeq [EStr "G"; EStr "X"; EVec [1/2; 1/2]]) None = inl k /\ kp_idx k = [0; 32; 64]%nat.
Proof. eexists. split; reflexivity. Qed.

(* ------------------------------------------------------------------ C43 *)
(** a history of calls, starting from the table of the module *)
Definition call_table (bct : R -> ptable) (glob : ptable) (c : R) : ptable := fst (tetragonal_bc_points bct c glob).
Definition after_calls (bct : R -> ptable) (hist : list R) (glob : ptable) : ptable :=
  fold_left (fun g c => snd (tetragonal_bc_points bct c g)) hist glob.
(** independence of the history *)
Definition history_free (bct : R -> ptable) (glob : ptable) : Prop :=
  forall hist c, call_table bct (after_calls bct hist glob) c = call_table bct glob c.
Theorem C43_history_refuted bct glob c : c <> 1 -> bct c <> glob ->
  call_table bct glob 1 = glob /\ call_table bct (after_calls bct [c] glob) 1 = bct c /\ ~ history_free bct glob.
Proof.
  intros Hc Hb. assert (A : call_table bct glob 1 = glob) by (unfold call_table, tetragonal_bc_points; destruct (Req_EM_T 1 1); [reflexivity|congruence]).
  assert (B : call_table bct (after_calls bct [c] glob) 1 = bct c).
  { unfold call_table, after_calls, tetragonal_bc_points. cbn. destruct (Req_EM_T 1 1); [|congruence]. destruct (Req_EM_T c 1); [congruence|reflexivity]. }
  split; [exact A|]. split; [exact B|]. intros H. specialize (H [c] 1). congruence.
Qed.
Print Assumptions C43_history_refuted.
(** What holds: the other calls do not depend on the history. *)
Theorem C43_history_partial bct glob hist c : c <> 1 -> call_table bct (after_calls bct hist glob) c = call_table bct glob c.
Proof. intros Hc. unfold call_table, tetragonal_bc_points. destruct (Req_EM_T c 1); [congruence|reflexivity]. Qed.
Print Assumptions C43_history_partial.
(** an instance with the actual entry 'M' of l.415 and l.423 and the module entry l.16 *)
Definition ex_bct (c : R) : ptable := if Rltb c 1 then [("M", ([1; 0; 0], "M"))] else [("M", ([0; 0; 1 / c], "M"))].
Definition ex_glob : ptable := [("M", ([1/2; 1/2; 0], "M"))].
Example C43_ex : tab_find "M" (call_table ex_bct ex_glob 1) = Some ([1/2; 1/2; 0], "M")
  /\ tab_find "M" (call_table ex_bct (after_calls ex_bct [1/2] ex_glob) 1) = Some ([1; 0; 0], "M").
Proof.
  assert (E : ex_bct (1/2) = [("M", ([1; 0; 0], "M"))]) by (unfold ex_bct; rewrite (proj2 (Rltb_iff _ _)) by lra; reflexivity).
  destruct (C43_history_refuted ex_bct ex_glob (1/2)) as (A & B & _).
  - lra.
  - rewrite E. intros Q. injection Q. lra.
  - rewrite A, B, E. split; reflexivity.
Qed.

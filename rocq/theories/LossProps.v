(** Band comparison (C37) and the optimisation logger (C38). *)
From Coq Require Import List Arith ZArith Reals Bool Lra Lia.
Import ListNotations.
From Verif Require Import SRing LMat CplxR FourierProofs NbrModel NbrProps LossModel.
Local Open Scope R_scope.

Lemma Rleb_iff x y : Rleb x y = true <-> x <= y.
Proof. destruct (Rleb_spec x y); split; intros; auto; try discriminate; contradiction. Qed.
Lemma Rltb_iff x y : Rltb x y = true <-> x < y.
Proof. destruct (Rltb_spec x y); split; intros; auto; try discriminate; contradiction. Qed.

(* ------------------------------------------------------------------ C37 *)
(** Specification, independent of the loop. Band set a (na bands) is placed inside band set b (nb bands, na <= nb)
    at offset o when o + na <= nb. *)
Definition fits (na nb o : nat) : Prop := (o + na <= nb)%nat.
(** the error of one placement of the reference against the model *)
Definition in_window (lo hi x : R) : Prop := lo <= x <= hi.
(** [mismatch nk nb nr bands ref P o v]: v is the root of the summed squares of reference minus model over the placement o,
    over the entries whose reference energy satisfies P *)
Definition wsq (P : R -> bool) (r x : R) : R := if P r then (r - x) ^ 2 else 0.
Definition mismatch (nk nb nr : nat) (bands ref : barr) (P : R -> bool) (o : nat) : R :=
  sqrt (nsum (K:=Rs) nk (fun k => nsum (K:=Rs) (Nat.min nb nr) (fun j =>
    if Nat.ltb nb nr then wsq P (ref k (o + j)%nat) (bands k j) else wsq P (ref k j) (bands k (o + j)%nat)))).
(** every placement of the smaller band set inside the larger one *)
Definition placement (nb nr o : nat) : Prop := fits (Nat.min nb nr) (Nat.max nb nr) o.
(** v is the best value over the placements satisfying D *)
Definition best_over (D : nat -> Prop) (f : nat -> R) (v : R) : Prop :=
  (exists o, D o /\ f o = v) /\ forall o, D o -> v <= f o.

Definition winb (lo hi : R) (x : R) : bool := (Rleb lo x && Rleb x hi)%bool.

Lemma offset_diff_mismatch nk nb nr bands ref lo hi i :
  norm2 nk (compare_bands nb nr) (offset_diff nb nr bands ref (window lo hi ref) i)
  = mismatch nk nb nr bands ref (winb lo hi) i.
Proof.
  unfold norm2, sqsum, mismatch, compare_bands. f_equal.
  apply (nsum_ext Rs). intros k _. apply (nsum_ext Rs). intros j _.
  unfold offset_diff, window, wsq, winb. destruct (Nat.ltb nb nr);
  match goal with |- context[(Rleb lo ?x && Rleb ?x hi)%bool] => destruct (Rleb lo x && Rleb x hi)%bool end; cbn; ring.
Qed.
Lemma offset_diff_all nk nb nr bands ref i :
  norm2 nk (compare_bands nb nr) (offset_diff nb nr bands ref (fun _ _ => 1) i)
  = mismatch nk nb nr bands ref (fun _ => true) i.
Proof.
  unfold norm2, sqsum, mismatch, compare_bands. f_equal.
  apply (nsum_ext Rs). intros k _. apply (nsum_ext Rs). intros j _.
  unfold offset_diff, wsq. destruct (Nat.ltb nb nr); cbn; ring.
Qed.

Lemma fold_omin_some (f : nat -> R) l v : exists w, fold_left (fun c i => omin c (f i)) l (Some v) = Some w /\
  (w = v \/ exists i, In i l /\ f i = w) /\ w <= v /\ (forall i, In i l -> w <= f i).
Proof.
  revert v. induction l as [|a l IH]; intros v; cbn.
  - exists v. repeat split; auto; [lra | intros i []].
  - destruct (IH (Rmin v (f a))) as (w & E & A & B & C). exists w. split; [exact E|].
    pose proof (Rmin_l v (f a)). pose proof (Rmin_r v (f a)).
    repeat split; [|lra|].
    + destruct A as [->|(i & I & Ei)].
      * destruct (Rle_dec v (f a)).
        -- left. apply Rmin_left. lra.
        -- right. exists a. split; [now left|]. symmetry. apply Rmin_right. lra.
      * right. exists i. auto.
    + intros i [->|I]; [lra| auto].
Qed.
Lemma fold_omin_best (f : nat -> R) n : (n <> 0)%nat -> exists w,
  fold_left (fun c i => omin c (f i)) (seq 0 n) None = Some w /\ best_over (fun o => (o < n)%nat) f w.
Proof.
  intros Hn. destruct n as [|n]; [easy|]. cbn [seq fold_left omin].
  destruct (fold_omin_some f (seq 1 n) (f 0%nat)) as (w & E & A & B & C). exists w. split; [exact E|]. split.
  - destruct A as [->|(i & I & Ei)]; [exists 0%nat; split; [lia|reflexivity]|].
    exists i. apply in_seq in I. split; [lia| exact Ei].
  - intros o Ho. destruct (Nat.eq_dec o 0) as [->|]; [exact B|]. apply C. apply in_seq. lia.
Qed.

(** The full claim: whatever the band counts, the returned value is the mean deviation of the best placement. *)
Definition windowed_claim (nk nb nr : nat) (bands ref : barr) (lo hi : R) : Prop :=
  exists c, best_over (placement nb nr) (mismatch nk nb nr bands ref (winb lo hi)) c
    /\ model_windowed_loss nk nb nr bands ref lo hi = Some (c / sqrt (INR nk)).

(** What holds: the best over all placements except the last one. *)
Theorem C37_windowed_partial nk nb nr bands ref lo hi : nb <> nr ->
  exists c, best_over (fun o => placement nb nr (S o)) (mismatch nk nb nr bands ref (winb lo hi)) c
    /\ model_windowed_loss nk nb nr bands ref lo hi = Some (c / sqrt (INR nk)).
Proof.
  intros Hne. unfold model_windowed_loss, best_cost.
  assert (Hm : max_offset nb nr <> 0%nat) by (unfold max_offset, compare_bands; lia).
  destruct (fold_omin_best (fun i => norm2 nk (compare_bands nb nr) (offset_diff nb nr bands ref (window lo hi ref) i)) _ Hm)
    as (w & E & (o & Ho & Eo) & B).
  exists w. rewrite E. split; [|reflexivity]. split.
  - exists o. split.
    + unfold placement, fits, max_offset, compare_bands in *. lia.
    + rewrite <- (offset_diff_mismatch nk nb nr bands ref lo hi). exact Eo.
  - intros p Hp. rewrite <- offset_diff_mismatch. apply B.
    unfold placement, fits, max_offset, compare_bands in *. lia.
Qed.
Print Assumptions C37_windowed_partial.

(** Identical band sets have loss 0 by the claim, but the function returns inf. *)
Lemma mismatch_self nk nb bands P : mismatch nk nb nb bands bands P 0 = 0.
Proof.
  unfold mismatch. rewrite Nat.ltb_irrefl. transitivity (sqrt 0); [|apply sqrt_0]. f_equal.
  apply (nsum_zero Rs). intros k _. apply (nsum_zero Rs). intros j _.
  unfold wsq. cbn [Nat.add]. destruct (P (bands k j)); cbn; ring.
Qed.
Theorem C37_equal_counts_refuted nk nb bands ref lo hi :
  model_windowed_loss nk nb nb bands ref lo hi = None /\ ~ windowed_claim nk nb nb bands ref lo hi.
Proof.
  assert (E : model_windowed_loss nk nb nb bands ref lo hi = None).
  { unfold model_windowed_loss, best_cost, max_offset, compare_bands.
    rewrite Nat.max_id, Nat.min_id, Nat.sub_diag. reflexivity. }
  split; [exact E|]. intros (c & _ & E'). rewrite E in E'. discriminate.
Qed.
Print Assumptions C37_equal_counts_refuted.
Example C37_equal_counts_ex : model_windowed_loss 2 3 3 (fun k j => INR (k + j)) (fun k j => INR (k + j)) 0 10 = None
  /\ mismatch 2 3 3 (fun k j => INR (k + j)) (fun k j => INR (k + j)) (winb 0 10) 0 = 0.
Proof. split; [apply (proj1 (C37_equal_counts_refuted 2 3 _ _ 0 10))|apply mismatch_self]. Qed.

(** One band more in the model than in the reference, and the reference is exactly the upper band. *)
Definition wb : barr := fun _ j => INR j.
Definition wr : barr := fun _ _ => 1.
Theorem C37_last_offset_refuted :
  model_windowed_loss 1 2 1 wb wr 0 2 = Some 1
  /\ placement 2 1 1 /\ mismatch 1 2 1 wb wr (winb 0 2) 1 = 0
  /\ ~ windowed_claim 1 2 1 wb wr 0 2.
Proof.
  assert (W : winb 0 2 1 = true) by (unfold winb; rewrite !(proj2 (Rleb_iff _ _)) by lra; reflexivity).
  assert (M0 : mismatch 1 2 1 wb wr (winb 0 2) 0 = 1).
  { unfold mismatch, wsq, wr, wb. cbn -[winb pow]. rewrite W. replace (0 + (0 + (1 - 0) ^ 2) ) with (1) by ring.
    match goal with |- sqrt ?x = 1 => replace x with 1 by (cbn; ring) end. apply sqrt_1. }
  assert (M1 : mismatch 1 2 1 wb wr (winb 0 2) 1 = 0).
  { unfold mismatch, wsq, wr, wb. cbn -[winb pow]. rewrite W.
    match goal with |- sqrt ?x = 0 => replace x with 0 by (cbn; ring) end. apply sqrt_0. }
  assert (E : model_windowed_loss 1 2 1 wb wr 0 2 = Some 1).
  { destruct (C37_windowed_partial 1 2 1 wb wr 0 2 ltac:(discriminate)) as (c & ((o & Ho & Eo) & B) & E).
    rewrite E. f_equal. assert (o = 0)%nat as -> by (unfold placement, fits in Ho; cbn in Ho; lia).
    rewrite M0 in Eo. subst c. cbn. rewrite sqrt_1. field. }
  split; [exact E|]. split; [unfold placement, fits; cbn; lia|]. split; [exact M1|].
  intros (c & (_ & B) & E'). rewrite E in E'. injection E' as E'.
  cbn in E'. rewrite sqrt_1 in E'. assert (c = 1) by (unfold Rdiv in E'; rewrite Rinv_1 in E'; lra). subst c.
  assert (F : placement 2 1 1) by (unfold placement, fits; cbn; lia).
  specialize (B 1%nat F). rewrite M1 in B. lra.
Qed.
Print Assumptions C37_last_offset_refuted.

(** model_error_hist keeps the error of the best placement except the last one. *)
Lemma hist_fold nk nb nr bands ref l w j :
  w = norm2 nk (compare_bands nb nr) (offset_diff nb nr bands ref (fun _ _ => 1) j) ->
  exists w' j', fold_left (hist_step nk nb nr bands ref) l (Some (w, j)) = Some (w', j')
    /\ w' = norm2 nk (compare_bands nb nr) (offset_diff nb nr bands ref (fun _ _ => 1) j')
    /\ (j' = j \/ In j' l) /\ w' <= w
    /\ forall i, In i l -> w' <= norm2 nk (compare_bands nb nr) (offset_diff nb nr bands ref (fun _ _ => 1) i).
Proof.
  revert w j. induction l as [|a l IH]; intros w j Hw.
  - exists w, j. cbn. repeat split; auto; [lra|intros i []].
  - cbn [fold_left]. unfold hist_step at 2.
    set (v := norm2 nk (compare_bands nb nr) (offset_diff nb nr bands ref (fun _ _ => 1) a)) in *.
    destruct (Rltb v w) eqn:C.
    + apply Rltb_iff in C. destruct (IH v a eq_refl) as (w' & j' & E & F & G & H & I).
      exists w', j'. split; [exact E|]. split; [exact F|]. split; [right; destruct G as [->|G]; [now left|now right]|].
      split; [lra|]. intros i [<-|Hi]; [exact H|auto].
    + assert (w <= v). { apply Rnot_lt_le. intros Q. apply Rltb_iff in Q. congruence. }
      destruct (IH w j Hw) as (w' & j' & E & F & G & H' & I).
      exists w', j'. split; [exact E|]. split; [exact F|]. split; [destruct G as [->|G]; [now left|right; now right]|].
      split; [lra|]. intros i [<-|Hi]; [fold v; lra|auto].
Qed.

(** the largest deviation among the entries whose reference energy lies in the bin, at placement o *)
Definition bin_entry (nk nb nr : nat) (bands ref : barr) (e h : R) (o : nat) (v : R) : Prop :=
  exists k j, (k < nk)%nat /\ (j < Nat.min nb nr)%nat /\
    if Nat.ltb nb nr then Rabs (ref k (o + j)%nat - e) <= h / 2 /\ v = Rabs (ref k (o + j)%nat - bands k j)
    else Rabs (ref k j - e) <= h / 2 /\ v = Rabs (ref k j - bands k (o + j)%nat).
Definition bin_max (nk nb nr : nat) (bands ref : barr) (e h : R) (o : nat) (m : R) : Prop :=
  (m = 0 \/ bin_entry nk nb nr bands ref e h o m) /\ 0 <= m /\ forall v, bin_entry nk nb nr bands ref e h o v -> v <= m.

Lemma rmaxl_spec l : (rmaxl l = 0 \/ In (rmaxl l) l) /\ 0 <= rmaxl l /\ forall x, In x l -> x <= rmaxl l.
Proof.
  induction l as [|a l (A & B & C)]; cbn.
  - repeat split; auto; [lra|intros x []].
  - pose proof (Rmax_l a (rmaxl l)). pose proof (Rmax_r a (rmaxl l)). unfold rmaxl in *. cbn in *. repeat split.
    + destruct (Rle_dec a (fold_right Rmax 0 l)).
      * rewrite Rmax_right by lra. destruct A; auto.
      * rewrite Rmax_left by lra. auto.
    + lra.
    + intros x [<-|I]; [lra|]. specialize (C x I). lra.
Qed.

Theorem C37_hist_partial nk nb nr bands ref e h : nb <> nr ->
  exists o m, hist_bin nk nb nr bands ref e h = Some m /\ bin_max nk nb nr bands ref e h o m
    /\ placement nb nr (S o)
    /\ forall p, placement nb nr (S p) -> mismatch nk nb nr bands ref (fun _ => true) o <= mismatch nk nb nr bands ref (fun _ => true) p.
Proof.
  intros Hne. assert (Hm : max_offset nb nr <> 0%nat) by (unfold max_offset, compare_bands; lia).
  unfold hist_bin, hist_offset. destruct (max_offset nb nr) as [|n] eqn:En; [easy|].
  cbn [seq fold_left]. unfold hist_step at 2.
  destruct (hist_fold nk nb nr bands ref (seq 1 n) _ 0%nat eq_refl) as (w' & j' & E & F & G & H & I).
  rewrite E. eexists j', _. split; [reflexivity|]. split; [|split].
  - set (o := j'). match goal with |- bin_max _ _ _ _ _ _ _ _ (rmaxl ?l) => destruct (rmaxl_spec l) as (A & B & C); set (L := l) in * end.
    assert (EQ : forall v, In v L <-> bin_entry nk nb nr bands ref e h o v).
    { intros v. unfold L, bin_entry, cells, offset_diff, compare_bands. rewrite in_map_iff. split.
      - intros ((k, j) & Ev & Hin). apply filter_In in Hin. destruct Hin as [Hin Hb]. apply in_prod_iff in Hin.
        destruct Hin as [Hk Hj]. apply in_seq in Hk. apply in_seq in Hj. cbn [fst snd] in Ev, Hb. apply Rleb_iff in Hb.
        exists k, j. split; [lia|]. split; [lia|]. destruct (Nat.ltb nb nr); (split; [exact Hb|]); rewrite <- Ev; f_equal; ring.
      - intros (k & j & Hk & Hj & Hv). exists (k, j). cbn [fst snd]. split.
        + destruct (Nat.ltb nb nr); destruct Hv as [_ ->]; f_equal; ring.
        + apply filter_In. split; [apply in_prod_iff; split; apply in_seq; lia|]. cbn [fst snd]. apply Rleb_iff.
          destruct (Nat.ltb nb nr); apply Hv. }
    split; [|split; [exact B|]].
    + destruct A as [A|A]; [now left|right]. apply EQ. exact A.
    + intros v Hv. apply C. apply EQ. exact Hv.
  - destruct G as [->|G]; [|apply in_seq in G]; unfold placement, fits, max_offset, compare_bands in *; lia.
  - intros p Hp. rewrite <- !offset_diff_all, <- F.
    assert (Hp' : (p <= n)%nat) by (unfold placement, fits, max_offset, compare_bands in *; lia).
    destruct (Nat.eq_dec p 0) as [->|]; [exact H|]. apply I. apply in_seq. lia.
Qed.
Print Assumptions C37_hist_partial.
Example C37_hist_ex : exists o m, hist_bin 1 2 1 wb wr 1 1 = Some m /\ bin_max 1 2 1 wb wr 1 1 o m /\ placement 2 1 (S o)
    /\ forall p, placement 2 1 (S p) -> mismatch 1 2 1 wb wr (fun _ => true) o <= mismatch 1 2 1 wb wr (fun _ => true) p.
Proof. apply C37_hist_partial. discriminate. Qed.

Theorem C37_hist_equal_counts_refuted nk nb bands ref e h : hist_bin nk nb nb bands ref e h = None.
Proof. unfold hist_bin, hist_offset, max_offset, compare_bands. rewrite Nat.max_id, Nat.min_id, Nat.sub_diag. reflexivity. Qed.
Print Assumptions C37_hist_equal_counts_refuted.

(* ------------------------------------------------------------------ C38 *)
Section LoggerProps.
Variables (L E M : Type).
Notation call := (call L E M).
Notation lstate := (lstate L E M).

(** Specification on the list of calls alone. *)
Fixpoint losses (cs : list call) : list L :=
  match cs with
  | [] => []
  | CData _ l _ :: r => l :: losses r
  | _ :: r => losses r
  end.
(** the iteration numbers: the given ones, or one more than the previous (starting at 0) in count mode *)
Fixpoint iters (count : bool) (last : Z) (cs : list call) : list Z :=
  match cs with
  | [] => []
  | CData it _ _ :: r => let x := if count then (last + 1)%Z else it in x :: iters count x r
  | CCount b :: r => iters b last r
  | _ :: r => iters count last r
  end.
Fixpoint stream_of (aborted : bool) (cs : list call) : list (entry L E M) :=
  match cs with
  | [] => []
  | CMsg m :: r => Msg m :: stream_of aborted r
  | CAbort :: r => if aborted then stream_of true r else Aborted :: stream_of true r
  | CData it l e :: r => Data it l e :: stream_of aborted r
  | CCount _ :: r => stream_of aborted r
  end.
Definition is_abort (c : call) : Prop := c = CAbort.

Lemma run_gen cs (s : lstate) :
  let s' := fold_left (@run1 L E M) cs s in
  l_loss s' = l_loss s ++ losses cs
  /\ l_iter s' = l_iter s ++ iters (l_count s) (iteration_count s) cs
  /\ l_stream s' = l_stream s ++ stream_of (l_aborted s) cs
  /\ (l_aborted s' = true <-> l_aborted s = true \/ In CAbort cs).
Proof.
  revert s. induction cs as [|c cs IH]; intros s; cbn [fold_left].
  - rewrite !app_nil_r. cbn. intuition.
  - destruct (IH (run1 s c)) as (A & B & C & D). cbn zeta in *. rewrite A, B, C, D. clear IH A B C D.
    destruct c as [m| |it l e|b]; cbn [run1].
    + cbn. rewrite <- app_assoc. repeat split; try reflexivity; intros [H|H]; auto.
      destruct H as [H|H]; [discriminate|auto].
    + unfold log_abort. destruct (l_aborted s) eqn:Ea; cbn; rewrite ?Ea, <- ?app_assoc; repeat split; auto.
    + unfold add_data. cbn. rewrite <- !app_assoc. repeat split; try reflexivity.
      * f_equal. cbn. f_equal. f_equal. unfold iteration_count. cbn. rewrite rev_app_distr. reflexivity.
      * intros [H|H]; auto.
      * intros [H|[H|H]]; [auto|discriminate|auto].
    + unfold set_count. cbn. repeat split; try reflexivity.
      * intros [H|H]; auto.
      * intros [H|[H|H]]; [auto|discriminate|auto].
Qed.

Theorem C38_history (cs : list call) :
  l_loss (run cs) = losses cs
  /\ l_iter (run cs) = iters false (-1) cs
  /\ l_stream (run cs) = stream_of false cs
  /\ length (l_iter (run cs)) = length (l_loss (run cs)).
Proof.
  destruct (run_gen cs log_new) as (A & B & C & _). cbn in A, B, C. unfold run. rewrite A, B, C.
  repeat split; try reflexivity.
  clear. generalize false as c, (-1)%Z as z. induction cs as [|[m| |it l e|b] cs IH]; intros c z; cbn; auto.
Qed.

(** abort raises exactly when it was called before, and a raising abort changes nothing *)
Theorem C38_abort_once (cs : list call) :
  (log_abort (run cs) = None <-> In CAbort cs)
  /\ (In CAbort cs -> run (cs ++ [CAbort]) = run cs).
Proof.
  destruct (run_gen cs log_new) as (_ & _ & _ & D). cbn zeta in D. fold (run cs) in D. cbn in D.
  assert (A : l_aborted (run cs) = true <-> In CAbort cs) by (rewrite D; intuition; discriminate).
  split.
  - rewrite <- A. unfold log_abort. destruct (l_aborted (run cs)); split; intros H; congruence.
  - intros H. apply A in H. unfold run. rewrite fold_left_app. cbn. fold (run cs). unfold log_abort. rewrite H. reflexivity.
Qed.

(** the accessors: the last recorded number and loss *)
Theorem C38_last (cs : list call) it l e :
  last_loss (run (cs ++ [CData it l e])) = Some l
  /\ (l_count (run cs) = false -> iteration_count (run (cs ++ [CData it l e])) = it)
  /\ (l_count (run cs) = true -> iteration_count (run (cs ++ [CData it l e])) = (iteration_count (run cs) + 1)%Z).
Proof.
  unfold run. rewrite fold_left_app. fold (run cs). cbn [fold_left run1].
  unfold last_loss, iteration_count at 1 2, add_data. cbn. rewrite !rev_app_distr. cbn.
  repeat split; intros ->; reflexivity.
Qed.
(** a log without data has no last loss: the accessor raises IndexError *)
Theorem C38_last_empty (cs : list call) : (forall it l e, ~ In (CData it l e) cs) ->
  last_loss (run cs) = None /\ iteration_count (run cs) = (-1)%Z.
Proof.
  intros H. destruct (C38_history cs) as (A & B & _ & Len).
  assert (Z : losses cs = []).
  { clear -H. induction cs as [|[m| |it l e|b] cs IH]; cbn; auto; try (apply IH; intros; intro; eapply H; right; eassumption).
    exfalso. apply (H it l e). now left. }
  rewrite A, Z in Len. cbn in Len. unfold last_loss, iteration_count. rewrite A, Z.
  destruct (l_iter (run cs)); [split; reflexivity|discriminate].
Qed.
End LoggerProps.
Print Assumptions C38_history.
Print Assumptions C38_abort_once.
Print Assumptions C38_last.
Print Assumptions C38_last_empty.

Definition ex_calls : list (call nat nat nat) :=
  [CData 0 7%nat 1%nat; CMsg 5%nat; CAbort; CCount true; CData 9 6%nat 1%nat; CAbort; CData 9 5%nat 2%nat].
Example C38_ex : l_iter (run ex_calls) = [0; 1; 2]%Z /\ l_loss (run ex_calls) = [7; 6; 5]%nat
  /\ log_abort (run ex_calls) = None /\ log_abort (run (firstn 2 ex_calls)) <> None
  /\ length (l_stream (run ex_calls)) = 5%nat.
Proof. repeat split; discriminate. Qed.

(* ------------------------------------------------------------------ C57 *)
(** Specification: a bar character shows a height of 0 (space) to 8 (U+2588) eighths. *)
Definition bar_height (c : Z) : option Z :=
  if Z.eqb c 32 then Some 0%Z
  else if (Z.leb 9601 c && Z.leb c 9608)%bool then Some (c - 9600)%Z else None.
(** the height is the error in units of an eighth of the largest error, rounded to a nearest integer *)
Definition shows (scale e : R) (c : Z) : Prop :=
  exists h, bar_height c = Some h /\ Rabs (8 * (e / scale) - IZR h) <= 1 / 2.
Definition is_max (l : list R) (m : R) : Prop := In m l /\ forall x, In x l -> x <= m.

Lemma fold_rmax_spec l x : is_max (x :: l) (fold_left Rmax l x).
Proof.
  revert x. induction l as [|a l IH]; intros x; cbn.
  - split; [now left|]. intros y [<-|[]]. lra.
  - destruct (IH (Rmax x a)) as [A B]. split.
    + destruct A as [A|A]; [|right; now right]. rewrite <- A. destruct (Rle_dec x a).
      * right. left. symmetry. apply Rmax_right. lra.
      * left. symmetry. apply Rmax_left. lra.
    + intros y [<-|[<-|Hy]].
      * eapply Rle_trans; [apply Rmax_l|]. apply B. now left.
      * eapply Rle_trans; [apply Rmax_r|]. apply B. now left.
      * apply B. now right.
Qed.
Lemma pyround_near x : Rabs (x - IZR (pyround x)) <= 1 / 2.
Proof.
  unfold pyround. destruct (base_Int_part x) as [A B].
  destruct (Rltb_spec (x - IZR (Int_part x)) (1/2)); [unfold Rabs; destruct (Rcase_abs _); lra|].
  destruct (Rltb_spec (1/2) (x - IZR (Int_part x))).
  - rewrite plus_IZR. unfold Rabs; destruct (Rcase_abs _); lra.
  - destruct (Z.even (Int_part x)); rewrite ?plus_IZR; unfold Rabs; destruct (Rcase_abs _); lra.
Qed.
Lemma bar_char_shows scale e : 0 < scale -> 0 <= e -> e <= scale ->
  exists c, bar_char scale e = Some c /\ shows scale e c.
Proof.
  intros Hs H0 H1. unfold bar_char. destruct (Req_EM_T scale 0) as [->|_]; [lra|].
  assert (T0 : 0 <= e / scale) by (apply Rmult_le_pos; [lra|]; left; apply Rinv_0_lt_compat; lra).
  assert (T1 : e / scale <= 1).
  { apply (Rmult_le_reg_r scale); [lra|]. unfold Rdiv. rewrite Rmult_assoc, Rinv_l by lra. lra. }
  set (t := e / scale) in *. eexists. split; [reflexivity|]. unfold shows. fold t.
  destruct (Rleb_spec t (1/16)) as [L|L].
  - exists 0%Z. split; [reflexivity|]. rewrite Rminus_0_r, Rabs_right; lra.
  - apply Rnot_le_lt in L. pose proof (pyround_near (t * 8 - 1)) as N. set (z := pyround (t * 8 - 1)) in *.
    assert (Z0 : (0 <= z)%Z).
    { destruct (Z_lt_le_dec z 0) as [Q|Q]; [|exact Q]. exfalso.
      assert (z <= -1)%Z as Q' by lia. apply IZR_le in Q'. unfold Rabs in N; destruct (Rcase_abs _) in N; lra. }
    assert (Z7 : (z <= 7)%Z).
    { destruct (Z_lt_le_dec 7 z) as [Q|Q]; [|exact Q]. exfalso.
      assert (8 <= z)%Z as Q' by lia. apply IZR_le in Q'. unfold Rabs in N; destruct (Rcase_abs _) in N; lra. }
    exists (z + 1)%Z. split.
    + unfold bar_height. destruct (Z.eqb_spec (9601 + z) 32); [lia|].
      replace (Z.leb 9601 (9601 + z)) with true by (symmetry; apply Z.leb_le; lia).
      replace (Z.leb (9601 + z) 9608) with true by (symmetry; apply Z.leb_le; lia). cbn [andb]. f_equal. lia.
    + rewrite plus_IZR. replace (8 * t - (IZR z + 1)) with (t * 8 - 1 - IZR z) by ring. exact N.
Qed.

(** When some error is positive, the printed bar has one character per error, each showing its error. *)
Theorem C57_bar errs : (forall e, In e errs -> 0 <= e) -> (exists e, In e errs /\ 0 < e) ->
  exists scale cs, is_max errs scale /\ error_vis errs = Some cs /\ Forall2 (shows scale) errs cs.
Proof.
  intros Hn (e0 & I0 & P0). unfold error_vis. destruct errs as [|x l]; [destruct I0|]. cbn [rmax1].
  destruct (fold_rmax_spec l x) as [A B]. set (m := fold_left Rmax l x) in *.
  assert (P : 0 < m) by (specialize (B e0 I0); lra).
  destruct (Req_EM_T m 0) as [Z|_]; [lra|]. eexists m, _. split; [split; assumption|]. split; [reflexivity|].
  set (L := x :: l) in *. clearbody L m. clear I0 A. induction L as [|y L IH]; cbn; constructor.
  - destruct (bar_char_shows m y P) as (c & E & S); [apply Hn; now left|apply B; now left|]. rewrite E. exact S.
  - apply IH; intros; [apply Hn|apply B]; now right.
Qed.
Print Assumptions C57_bar.
Example C57_ex : exists scale cs, is_max [0; 1; 2] scale /\ error_vis [0; 1; 2] = Some cs /\ Forall2 (shows scale) [0; 1; 2] cs.
Proof. apply C57_bar; [intros e; cbn; lra|exists 1; cbn; split; [tauto|lra]]. Qed.

(** A perfect fit, all errors 0, makes the printing raise. *)
Theorem C57_perfect_fit_refuted n : error_vis (repeat 0 (S n)) = None.
Proof.
  unfold error_vis. cbn [repeat rmax1]. assert (E : fold_left Rmax (repeat 0 n) 0 = 0).
  { induction n; cbn; [reflexivity|]. rewrite Rmax_left by lra. exact IHn. }
  rewrite E. destruct (Req_EM_T 0 0); [reflexivity|congruence].
Qed.
Print Assumptions C57_perfect_fit_refuted.

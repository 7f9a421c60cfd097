(** Property C166: the checkpoints of autofit_asym. *)
From Coq Require Import Reals Lra Lia List Arith Bool.
From Verif Require Import NbrModel AutofitModel.
Import ListNotations.
Local Open Scope R_scope.

(** ** the best restart *)
Lemma rltb_lt x y : Rltb x y = true -> x < y.
Proof. unfold Rltb. destruct (Rlt_dec x y); [auto|discriminate]. Qed.
Lemma best_spec {V P} (F : fitter V P) nb : forall todo i best err,
  (exists j r p, (i <= j < i + todo)%nat /\ f_start F j nb = (p, LNum r) /\ best_restart F nb i todo best err = Some p /\ loss_lt (LNum r) err = true /\
     (forall j' r' p', (i <= j' < i + todo)%nat -> f_start F j' nb = (p', LNum r') -> r <= r' /\ (r' = r -> (j <= j')%nat))) \/
  (best_restart F nb i todo best err = best /\ forall j, (i <= j < i + todo)%nat -> loss_lt (snd (f_start F j nb)) err = false).
Proof.
  induction todo as [|t IH]; intros i best err; [right; split; [reflexivity|lia]|]. cbn [best_restart]. destruct (f_start F i nb) as [p l] eqn:E. destruct (loss_lt l err) eqn:LL.
  - left. destruct l as [| |r]; [destruct err; discriminate|destruct err; discriminate|]. destruct (IH (S i) (Some p) (LNum r)) as [(j & r1 & p1 & Hj & E1 & B & L1 & M)|(B & M)].
    + exists j, r1, p1. cbn in L1. apply rltb_lt in L1. split; [lia|]. split; [exact E1|]. split; [exact B|]. split.
      * destruct err as [| |re]; [discriminate|reflexivity|]. cbn in LL |- *. apply rltb_lt in LL. unfold Rltb. destruct (Rlt_dec r1 re); [reflexivity|lra].
      * intros j' r' p' Hj' E'. destruct (Nat.eq_dec j' i) as [->|]; [rewrite E in E'; injection E' as <- <-; split; [lra|intros; lra]|]. apply (M j' r' p'); [lia|exact E'].
    + exists i, r, p. split; [lia|]. split; [exact E|]. split; [exact B|]. split; [exact LL|].
      intros j' r' p' Hj' E'. destruct (Nat.eq_dec j' i) as [->|]; [rewrite E in E'; injection E' as <- <-; split; [lra|intros; lia]|].
      specialize (M j' ltac:(lia)). rewrite E' in M. cbn in M. unfold Rltb in M. destruct (Rlt_dec r' r); [discriminate|]. split; [lra|intros; lia].
  - destruct (IH (S i) best err) as [(j & r1 & p1 & Hj & E1 & B & L1 & M)|(B & M)].
    + left. exists j, r1, p1. split; [lia|]. split; [exact E1|]. split; [exact B|]. split; [exact L1|]. intros j' r' p' Hj' E'. destruct (Nat.eq_dec j' i) as [->|]; [|apply (M j' r' p'); [lia|exact E']].
      rewrite E in E'. injection E' as <- ->. destruct err as [| |re]; [discriminate L1|discriminate LL|]. cbn in L1, LL. apply rltb_lt in L1. unfold Rltb in LL. destruct (Rlt_dec r' re); [discriminate|]. split; [lra|intros; lra].
    + right. split; [exact B|]. intros j Hj. destruct (Nat.eq_dec j i) as [->|]; [rewrite E; exact LL|apply M; lia].
Qed.

(** ** the checkpoints *)
Lemma rounds_files {V P} (F : fitter V P) n nb : forall k c p, map fst (fst (rounds F n nb k c p)) = repeat (LCount n, nb) k /\
  ((0 < k)%nat -> exists fs c', fst (rounds F n nb k c p) = fs ++ [(LCount n, nb, snd (rounds F n nb k c p))] /\ exists q, snd (rounds F n nb k c p) = f_fit F c' q).
Proof.
  induction k as [|k IH]; intros c p; [split; [reflexivity|lia]|]. cbn [rounds]. specialize (IH (S c) (f_fit F c p)). destruct (rounds F n nb k (S c) (f_fit F c p)) as [fs r] eqn:E. cbn [fst snd map repeat] in *. destruct IH as (A & B).
  split; [rewrite A; reflexivity|]. intros _. destruct k as [|k].
  - cbn in E. injection E as <- <-. exists [], c. split; [reflexivity|]. exists p. reflexivity.
  - destruct (B ltac:(lia)) as (gs & c' & G1 & G2). exists ((LCount n, nb, f_fit F c p) :: gs), c'. split; [rewrite G1; reflexivity|exact G2].
Qed.
(** the neighbors after the first [n] sources, [s] of which are completed together *)
Definition nbrs_at {V P} (F : fitter V P) (src : list V) (s n : nat) : list V :=
  f_complete F (firstn s src) ++ concat (map (fun x => f_complete F [x]) (firstn (n - s) (skipn s src))).
Lemma nbrs_step {V P} (F : fitter V P) src s n x : (s <= n)%nat -> nth_error src n = Some x -> nbrs_at F src s (S n) = nbrs_at F src s n ++ f_complete F [x].
Proof.
  intros H E. unfold nbrs_at. rewrite <- app_assoc. f_equal. replace (S n - s)%nat with (S (n - s)) by lia.
  assert (Q : forall (l : list V) m x, nth_error l m = Some x -> firstn (S m) l = firstn m l ++ [x]).
  { induction l as [|a l IH]; intros m y Hm; destruct m; try discriminate; [injection Hm as ->; reflexivity|]. cbn [firstn app]. f_equal. apply IH, Hm. }
  rewrite (Q (skipn s src) (n - s)%nat x).
  - rewrite map_app, concat_app. cbn [map concat]. rewrite app_nil_r. reflexivity.
  - assert (G : forall (l : list V) a b, nth_error (skipn a l) b = nth_error l (a + b)) by (induction l as [|y l IHl]; intros [|a] b; cbn; try reflexivity; [destruct b; reflexivity|apply IHl]).
    rewrite G. replace (s + (n - s))%nat with n by lia. exact E.
Qed.
Lemma loop_spec {V P} (F : fitter V P) src k s : forall fuel count c p files, (length src - count < fuel)%nat -> (s <= count <= length src)%nat -> (0 < k)%nat ->
  (forall n x y, (count <= n)%nat -> nth_error src n = Some x -> In y (f_complete F [x]) -> f_dup F (nbrs_at F src s n) y = false) ->
  exists fs q, fit_loop F src k fuel false count c (nbrs_at F src s count) p files = FOk (files ++ fs) (nbrs_at F src s (length src)) q /\
    map fst fs = concat (map (fun n => repeat (LCount n, nbrs_at F src s n) k) (seq (S count) (length src - count))) /\
    (forall z, (count < length src)%nat -> last fs z = (LCount (length src), nbrs_at F src s (length src), q)) /\ ((count = length src)%nat -> q = p).
Proof.
  induction fuel as [|fuel IH]; intros count c p files Hf Hc Hk HD; [lia|]. cbn [fit_loop]. destruct (Nat.ltb_spec count (length src)) as [L|L].
  - destruct (nth_error src count) as [x|] eqn:E; [|apply nth_error_None in E; lia].
    assert (X : existsb (f_dup F (nbrs_at F src s count)) (f_complete F [x]) = false).
    { destruct (existsb _ _) eqn:EX; [|reflexivity]. apply existsb_exists in EX. destruct EX as (y & Iy & Hy). rewrite (HD count x y ltac:(lia) E Iy) in Hy. discriminate. }
    rewrite X. rewrite <- (nbrs_step F src s count x ltac:(lia) E). set (p' := f_extend F (length (f_complete F [x])) p).
    destruct (rounds F (S count) (nbrs_at F src s (S count)) k c p') as [gs q] eqn:ER.
    destruct (rounds_files F (S count) (nbrs_at F src s (S count)) k c p') as (R1 & R2). rewrite ER in R1, R2. cbn [fst snd] in R1, R2. destruct (R2 Hk) as (hs & c' & R3 & _).
    destruct (IH (S count) (c + k)%nat q (files ++ gs) ltac:(lia) ltac:(lia) Hk) as (fs & q' & G1 & G2 & G3 & G4); [intros n x' y Hn; apply HD; lia|].
    exists (gs ++ fs), q'. split; [rewrite G1, app_assoc; reflexivity|]. split; [|split; [|lia]].
    + rewrite map_app, R1, G2. replace (length src - count)%nat with (S (length src - S count)) by lia. reflexivity.
    + intros z _. destruct (Nat.eq_dec (S count) (length src)) as [Q|Q].
      * specialize (G4 Q). subst q'. replace (length src - S count)%nat with 0%nat in G2 by lia. cbn in G2. apply map_eq_nil in G2. subst fs. rewrite app_nil_r, R3, last_last, Q. reflexivity.
      * specialize (G3 z ltac:(lia)). destruct fs as [|f fs]; [cbn in G3; destruct (length src - S count)%nat as [|m] eqn:EM; [lia|]; cbn in G2; destruct k; [lia|discriminate G2]|].
        rewrite <- G3. clear. induction gs as [|g gs IHg]; [reflexivity|]. cbn [app]. destruct (gs ++ f :: fs) eqn:EE; [destruct gs; discriminate|exact IHg].
  - exists [], p. assert (count = length src) by lia. subst count. split; [rewrite app_nil_r; reflexivity|]. split; [rewrite Nat.sub_diag; reflexivity|]. split; [lia|reflexivity].
Qed.
(** which files are written with which neighbors, and what they contain, if the number of bands is the one of the reference and no
    neighbor is listed twice *)
Theorem C166_checkpoints_partial : forall V P (F : fitter V P) src bands start restarts (randomize : bool),
  let s := S start in let k := if randomize then 10%nat else 1%nat in
  (s < length src)%nat -> f_complete F (firstn s src) <> [] ->
  (exists j p r, (j < restarts)%nat /\ f_start F j (f_complete F (firstn s src)) = (p, LNum r)) ->
  (forall n x y, (s <= n)%nat -> nth_error src n = Some x -> In y (f_complete F [x]) ->
     f_dup F (f_complete F (firstn s src) ++ concat (map (fun x => f_complete F [x]) (firstn (n - s) (skipn s src)))) y = false) ->
  exists files p q j r, autofit F src bands start 0 0 restarts randomize = FOk files (nbrs_at F src s (length src)) q /\ (* the best restart *)
    (j < restarts)%nat /\ f_start F j (f_complete F (firstn s src)) = (p, LNum r) /\
    (forall j' p' r', (j' < restarts)%nat -> f_start F j' (f_complete F (firstn s src)) = (p', LNum r') -> r <= r' /\ (r' = r -> (j <= j')%nat)) /\ (* the files *)
    hd_error files = Some (LStart, f_complete F (firstn s src), p) /\
    map fst (tl files) = concat (map (fun n => repeat (LCount n, nbrs_at F src s n) k) (seq s (S (length src) - s))) /\
    last files (LStart, [], p) = (LCount (length src), nbrs_at F src s (length src), q).
Proof.
  intros V P F src bands start restarts randomize s k HL HN (j0 & p0 & r0 & Hj0 & E0) HD. unfold autofit. fold s. fold k.
  destruct (Nat.eqb_spec restarts 0) as [|NR]; [lia|]. assert (EB : Nat.eqb bands (0 + bands + 0) = true) by (apply Nat.eqb_eq; lia). rewrite EB. cbn [orb].
  assert (Hk : (0 < k)%nat) by (unfold k; destruct randomize; lia).
  destruct (best_spec F (f_complete F (firstn s src)) restarts 0 None LInf) as [(j & r & p & Hj & E & B & _ & M)|(_ & M)].
  2:{ specialize (M j0 ltac:(lia)). rewrite E0 in M. discriminate M. }
  rewrite B. set (nb := f_complete F (firstn s src)) in *. assert (NB0 : nbrs_at F src s s = nb) by (unfold nbrs_at; rewrite Nat.sub_diag; cbn; apply app_nil_r).
  destruct nb as [|b0 nb0] eqn:EN; [congruence|]. rewrite <- EN in *. clear EN b0 nb0.
  remember (S (length src)) as fu eqn:EF. cbn [fit_loop]. destruct (Nat.ltb_spec s (length src)) as [_|]; [|lia].
  destruct (rounds F s nb k 0 p) as [gs q] eqn:ER. destruct (rounds_files F s nb k 0 p) as (R1 & R2). rewrite ER in R1, R2. cbn [fst snd] in R1, R2.
  destruct (loop_spec F src k s fu s (0 + k) q ([(LStart, nb, p)] ++ gs) ltac:(lia) ltac:(lia) Hk) as (fs & q' & G1 & G2 & G3 & _); [exact HD|]. rewrite NB0 in G1.
  exists (([(LStart, nb, p)] ++ gs) ++ fs), p, q', j, r. split; [exact G1|]. split; [lia|]. split; [exact E|]. split; [intros j' p' r' Hj' E'; apply (M j' r' p'); [lia|exact E']|].
  split; [reflexivity|]. split.
  - cbn [app tl]. rewrite map_app, R1, G2. rewrite EF. replace (S (length src) - s)%nat with (S (length src - s)) by lia. cbn [seq map concat]. rewrite NB0. reflexivity.
  - specialize (G3 (LStart, [], p) HL). rewrite <- G3.
    destruct fs as [|f fs]; [cbn in G3; destruct (length src - s)%nat as [|m] eqn:EM; [lia|]; cbn in G2; destruct k; [lia|discriminate G2]|].
    generalize ([(LStart, nb, p)] ++ gs). clear. induction l as [|g l IHg]; [reflexivity|]. cbn [app]. destruct (l ++ f :: fs) eqn:EE; [destruct l; discriminate|exact IHg].
Qed.
Print Assumptions C166_checkpoints_partial.

(** ** what is false *)
(** additional bands: the assignment of the reference energies raises *)
Theorem C166_bands_refuted : forall V P (F : fitter V P) src bands start below above restarts randomize,
  (2 <= bands)%nat -> (1 <= below + above)%nat -> (1 <= restarts)%nat -> f_complete F (firstn (S start) src) <> [] ->
  autofit F src bands start below above restarts randomize = FErr [] FValueError.
Proof.
  intros V P F src bands start below above restarts randomize HB HA HR HN. unfold autofit. destruct (Nat.eqb_spec restarts 0); [lia|]. destruct (f_complete F (firstn (S start) src)); [congruence|].
  destruct (Nat.eqb_spec bands (below + bands + above)); [lia|]. destruct (Nat.eqb_spec bands 1); [lia|]. reflexivity.
Qed.
(** all neighbors from the beginning: the fit over all neighbors is left out, the result is the best restart *)
Theorem C166_all_refuted : forall V P (F : fitter V P) src bands start restarts randomize, (length src <= S start)%nat -> f_complete F (firstn (S start) src) <> [] ->
  forall files nb q, autofit F src bands start 0 0 restarts randomize = FOk files nb q ->
  files = [(LStart, nb, q)] /\ exists j r, (j < restarts)%nat /\ f_start F j nb = (q, LNum r).
Proof.
  intros V P F src bands start restarts randomize HL HN files nb q. unfold autofit. destruct (Nat.eqb_spec restarts 0); [discriminate|].
  destruct (best_spec F (f_complete F (firstn (S start) src)) restarts 0 None LInf) as [(j & r & p & Hj & E & B & _ & _)|(B & _)]; rewrite B.
  2:{ destruct (f_complete F (firstn (S start) src)); [congruence|]. destruct (_ || _); discriminate. }
  set (nb0 := f_complete F (firstn (S start) src)) in *. destruct nb0 as [|b0 r0] eqn:EN; [congruence|]. rewrite <- EN in *. assert (EB : Nat.eqb bands (0 + bands + 0) = true) by (apply Nat.eqb_eq; lia). rewrite EB. cbn [orb].
  remember (S (length src)) as fu. cbn [fit_loop]. destruct (Nat.ltb_spec (S start) (length src)); [lia|]. intros HH. injection HH as <- <- <-. split; [reflexivity|]. exists j, r. split; [lia|exact E].
Qed.
(** a neighbor whose images are there already: the first files are written, then add_neighbors raises *)
Definition pair_fit : fitter nat nat := MkFitter nat nat (fun l => l ++ map (fun x => 10 + x)%nat l) (fun l x => existsb (Nat.eqb x) l) (fun _ _ => (0%nat, LNum 1)) (fun _ p => p) (fun _ p => S p).
Theorem C166_duplicate_refuted : exists files, autofit pair_fit [0; 1; 2; 2]%nat 1 1 0 0 1 false = FErr files FValueError /\ map (fun f => fst (fst f)) files = [LStart; LCount 2; LCount 3].
Proof. eexists. split; [|]. - unfold autofit. cbn -[loss_lt]. reflexivity. - reflexivity. Qed.
Example C166_ex : exists files q, autofit pair_fit [0; 1; 2; 3]%nat 1 1 0 0 1 false = FOk files [0; 1; 10; 11; 2; 12; 3; 13]%nat q /\ map (fun f => fst (fst f)) files = [LStart; LCount 2; LCount 3; LCount 4].
Proof.
  destruct (C166_checkpoints_partial nat nat pair_fit [0; 1; 2; 3]%nat 1 1 1 false) as (files & p & q & j & r & A & _ & _ & _ & B & C & _).
  - cbn. lia.
  - discriminate.
  - exists 0%nat, 0%nat, 1. split; [lia|reflexivity].
  - intros n x y Hn E I. destruct n as [|[|[|[|n]]]]; try lia; cbn in E; [| |destruct n; discriminate]; injection E as <-; cbn in I; destruct I as [<-|[<-|[]]]; reflexivity.
  - exists files, q. split; [exact A|]. destruct files as [|f fs]; [discriminate|]. cbn [hd_error] in B. injection B as ->. cbn [tl] in C. cbn in C.
    cbn [map fst]. f_equal. rewrite <- (map_map fst fst). rewrite C. reflexivity.
Qed.
Example C166_bands_ex : autofit pair_fit [0; 1; 2]%nat 2 1 1 0 4 true = FErr [] FValueError.
Proof. apply C166_bands_refuted; [lia|lia|lia|discriminate]. Qed.
Example C166_all_ex : autofit pair_fit [0; 1]%nat 1 1 0 0 1 true = FOk [(LStart, [0; 1; 10; 11]%nat, 0%nat)] [0; 1; 10; 11]%nat 0%nat.
Proof. reflexivity. Qed.

(** ** the coefficients *)
(** every file continues the one before: zero matrices for the new neighbors, then one round of the fit *)
Fixpoint chain {V P} (F : fitter V P) (c : nat) (files : list (label * list V * P)) : Prop :=
  match files with
  | f1 :: ((f2 :: _) as r) =>
      (exists new, snd (fst f2) = snd (fst f1) ++ new /\ snd f2 = f_fit F c (f_extend F (length new) (snd f1))) /\ chain F (S c) r
  | _ => True
  end.
Lemma chain_snoc {V P} (F : fitter V P) : forall l c a b, chain F c (l ++ [a]) ->
  (exists new, snd (fst b) = snd (fst a) ++ new /\ snd b = f_fit F (c + length l) (f_extend F (length new) (snd a))) -> chain F c ((l ++ [a]) ++ [b]).
Proof.
  induction l as [|x l IH]; intros c a b H E.
  - cbn [app chain length] in *. rewrite Nat.add_0_r in E. split; [exact E|exact I].
  - cbn [length] in E. replace (c + S (length l))%nat with (S c + length l)%nat in E by lia. destruct l as [|y l].
    + cbn [app] in *. cbn [chain] in H |- *. destruct H as [H1 H2]. split; [exact H1|]. apply (IH (S c) a b I E).
    + cbn [app] in *. cbn [chain] in H |- *. destruct H as [H1 H2]. split; [exact H1|]. apply (IH (S c) a b H2 E).
Qed.
Lemma rounds_chain {V P} (F : fitter V P) n nb : (forall p, f_extend F 0 p = p) -> forall k l lab nb0 p0 new, chain F 0 (l ++ [(lab, nb0, p0)]) -> nb = nb0 ++ new -> (0 < k)%nat ->
  exists l' lab', (l ++ [(lab, nb0, p0)]) ++ fst (rounds F n nb k (length l) (f_extend F (length new) p0)) = l' ++ [(lab', nb, snd (rounds F n nb k (length l) (f_extend F (length new) p0)))] /\
    length l' = (length l + k)%nat /\ chain F 0 (l' ++ [(lab', nb, snd (rounds F n nb k (length l) (f_extend F (length new) p0)))]).
Proof.
  intros F0. induction k as [|k IH]; intros l lab nb0 p0 new HC EN Hk; [lia|]. cbn [rounds]. set (q := f_fit F (length l) (f_extend F (length new) p0)).
  assert (C1 : chain F 0 ((l ++ [(lab, nb0, p0)]) ++ [(LCount n, nb, q)])) by (apply chain_snoc; [exact HC|exists new; split; [exact EN|reflexivity]]).
  destruct k as [|k].
  - cbn [rounds fst snd]. exists (l ++ [(lab, nb0, p0)]), (LCount n). split; [reflexivity|]. split; [rewrite app_length; cbn; lia|exact C1].
  - destruct (IH (l ++ [(lab, nb0, p0)]) (LCount n) nb q [] C1 ltac:(rewrite app_nil_r; reflexivity) ltac:(lia)) as (l' & lab' & G1 & G2 & G3). cbn [length] in G1, G3. rewrite F0 in G1, G3.
    replace (length (l ++ [(lab, nb0, p0)])) with (S (length l)) in * by (rewrite app_length; cbn; lia).
    destruct (rounds F n nb (S k) (S (length l)) q) as [fs r]. cbn [fst snd] in *. exists l', lab'. split; [rewrite <- G1, <- (app_assoc (l ++ [(lab, nb0, p0)])); reflexivity|]. split; [lia|exact G3].
Qed.
Definition files_of {V P} (r : fit_res V P) : list (label * list V * P) := match r with FOk f _ _ => f | FErr f _ => f end.
Lemma loop_chain {V P} (F : fitter V P) src k : (forall p, f_extend F 0 p = p) -> (0 < k)%nat -> forall fuel first count l lab nb p, chain F 0 (l ++ [(lab, nb, p)]) ->
  chain F 0 (files_of (fit_loop F src k fuel first count (length l) nb p (l ++ [(lab, nb, p)]))) /\
  forall files nb' q, fit_loop F src k fuel first count (length l) nb p (l ++ [(lab, nb, p)]) = FOk files nb' q -> exists l' lab', files = l' ++ [(lab', nb', q)].
Proof.
  intros F0 Hk. induction fuel as [|fuel IH]; intros first count l lab nb p HC; [split; [exact HC|discriminate]|]. cbn [fit_loop].
  assert (ST : forall n nb2 new first' count', nb2 = nb ++ new ->
    chain F 0 (files_of (let '(fs, q) := rounds F n nb2 k (length l) (f_extend F (length new) p) in fit_loop F src k fuel first' count' (length l + k) nb2 q ((l ++ [(lab, nb, p)]) ++ fs))) /\
    forall files nb' q', (let '(fs, q) := rounds F n nb2 k (length l) (f_extend F (length new) p) in fit_loop F src k fuel first' count' (length l + k) nb2 q ((l ++ [(lab, nb, p)]) ++ fs)) = FOk files nb' q' ->
      exists l' lab', files = l' ++ [(lab', nb', q')]).
  { intros n nb2 new first' count' E. destruct (rounds_chain F n nb2 F0 k l lab nb p new HC E Hk) as (l' & lab' & G1 & G2 & G3). destruct (rounds F n nb2 k (length l) (f_extend F (length new) p)) as [fs q]. cbn [fst snd] in *.
    rewrite G1, <- G2. apply IH, G3. }
  destruct (Nat.ltb count (length src)); [|split; [exact HC|intros files nb' q H; injection H as <- <- <-; exists l, lab; reflexivity]]. destruct first.
  - specialize (ST count nb [] false count ltac:(rewrite app_nil_r; reflexivity)). cbn [length] in ST. rewrite F0 in ST. exact ST.
  - destruct (nth_error src count) as [x|]; [|split; [exact HC|discriminate]]. destruct (existsb _ _).
    + destruct (Nat.eqb _ 1); [|split; [exact HC|discriminate]]. specialize (ST (S count) nb [] false (S count) ltac:(rewrite app_nil_r; reflexivity)). cbn [length] in ST. rewrite F0 in ST. exact ST.
    + apply (ST (S count) (nb ++ f_complete F [x]) (f_complete F [x])). reflexivity.
Qed.
(** also if an exception ends the fit; the result is the last file *)
Theorem C166_coefficients : forall V P (F : fitter V P) src bands start below above restarts randomize, (forall p, f_extend F 0 p = p) ->
  chain F 0 (files_of (autofit F src bands start below above restarts randomize)) /\
  forall files nb q, autofit F src bands start below above restarts randomize = FOk files nb q -> exists fs lab, files = fs ++ [(lab, nb, q)].
Proof.
  intros V P F src bands start below above restarts randomize F0. unfold autofit. destruct (Nat.eqb restarts 0); [split; [exact I|discriminate]|]. set (nb := f_complete F (firstn (S start) src)). destruct nb as [|b0 r0] eqn:EN; [split; [exact I|discriminate]|]. rewrite <- EN.
  destruct (_ || _); [|split; [exact I|discriminate]]. destruct (best_restart _ _ _ _ _ _) as [p|]; [|split; [exact I|discriminate]].
  apply (loop_chain F src (if randomize then 10 else 1) F0 ltac:(destruct randomize; lia) (S (S (length src))) true (S start) [] LStart nb p). exact I.
Qed.
Print Assumptions C166_coefficients.
Example C166_coefficients_ex : files_of (autofit pair_fit [0; 1; 2; 3]%nat 1 1 0 0 1 false) =
  [(LStart, [0; 1; 10; 11], 0); (LCount 2, [0; 1; 10; 11], 1); (LCount 3, [0; 1; 10; 11; 2; 12], 2); (LCount 4, [0; 1; 10; 11; 2; 12; 3; 13], 3)]%nat.
Proof. reflexivity. Qed.
(** the assertion: no restart, or none with a finite loss *)
Theorem C166_no_model : forall V P (F : fitter V P) src bands start restarts randomize, f_complete F (firstn (S start) src) <> [] ->
  (autofit F src bands start 0 0 restarts randomize = FErr [] FAssertionError <->
   forall j p r, (j < restarts)%nat -> f_start F j (f_complete F (firstn (S start) src)) <> (p, LNum r)).
Proof.
  intros V P F src bands start restarts randomize HN. unfold autofit. destruct (Nat.eqb_spec restarts 0) as [->|NR]; [split; [intros _ j p r Hj; lia|reflexivity]|].
  assert (EB : Nat.eqb bands (0 + bands + 0) = true) by (apply Nat.eqb_eq; lia). rewrite EB. cbn [orb]. set (nb := f_complete F (firstn (S start) src)) in *.
  destruct (best_spec F nb restarts 0 None LInf) as [(j & r & p & Hj & E & B & _ & _)|(B & M)]; rewrite B; (destruct nb as [|b0 r0] eqn:EN; [congruence|]; rewrite <- EN in *).
  - split; [|intros H; exfalso; exact (H j p r ltac:(lia) E)]. intros H. exfalso. revert H. generalize (if randomize then 10 else 1)%nat. intros k. generalize (S (S (length src))), true, (S start), 0%nat, p, [(LStart, nb, p)]. clear.
    intros fuel. generalize nb. induction fuel as [|fuel IH]; intros nb' first count c p files; [discriminate|]. cbn [fit_loop]. destruct (Nat.ltb count (length src)); [|discriminate].
    destruct first; [destruct (rounds _ _ _ _ _ _); apply IH|]. destruct (nth_error src count); [|discriminate]. destruct (existsb _ _); [destruct (Nat.eqb _ 1); [|discriminate]|]; destruct (rounds _ _ _ _ _ _); apply IH.
  - split; [|reflexivity]. intros _ j p r Hj E. specialize (M j ltac:(lia)). rewrite E in M. discriminate M.
Qed.
Print Assumptions C166_no_model.
Example C166_no_model_ex : autofit (MkFitter nat nat (fun l => l) (fun _ _ => false) (fun _ _ => (0%nat, LNan)) (fun _ p => p) (fun _ p => p)) [0; 1; 2]%nat 3 1 0 0 4 true = FErr [] FAssertionError.
Proof. apply C166_no_model; [discriminate|]. intros j p r _ H. discriminate H. Qed.

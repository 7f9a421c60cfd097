(** Proofs about [from_generator] (symmetry.py l.235-283), generic in the operation type. *)
From Coq Require Import List Arith ZArith Lia Bool Permutation.
Import ListNotations.
From Verif Require Import SRing LMat SymModel FinGroup.

Section Gen.
Context {T : Type} (eqb : T -> T -> bool) (mul : T -> T -> T) (one : T) (detok : T -> bool) (P : T -> Prop).
Hypothesis eqb_spec : forall a b, eqb a b = true <-> a = b.

Lemma memb_In x l : memb eqb x l = true <-> In x l.
Proof.
  unfold memb. rewrite existsb_exists. split.
  - intros [y [Hy E]]. apply eqb_spec in E; subst; exact Hy.
  - intros H; exists x; split; [exact H|apply eqb_spec; reflexivity].
Qed.

Lemma memb_notIn x l : memb eqb x l = false <-> ~ In x l.
Proof using eqb_spec.
  clear - eqb_spec. rewrite <- memb_In. destruct (memb eqb x l); intuition congruence.
Qed.

(** [fold_left add_new] appends exactly the new elements *)
Lemma fold_add_new l : forall S, exists ext,
  fold_left (add_new eqb) l S = S ++ ext /\
  (forall x, In x ext -> In x l) /\ (forall x, In x l -> In x (S ++ ext)) /\
  (NoDup S -> NoDup (S ++ ext)).
Proof.
  induction l as [|a l IH]; intros S; simpl.
  - exists []; rewrite app_nil_r; repeat split; auto; contradiction.
  - unfold add_new at 2. destruct (memb eqb a S) eqn:E.
    + destruct (IH S) as (ext & H1 & H2 & H3 & H4). exists ext; repeat split; auto.
      intros x [<-|Hx]; auto. apply memb_In in E. apply in_or_app; auto.
    + destruct (IH (S ++ [a])) as (ext & H1 & H2 & H3 & H4).
      exists (a :: ext). rewrite <- app_assoc in *. simpl in *. repeat split; auto.
      * intros x [<-|Hx]; auto.
      * intros x [<-|Hx]; auto. apply in_or_app; right; left; reflexivity.
      * intros Hnd. apply H4. apply memb_notIn in E.
        assert (Hp : Permutation (a :: S) (S ++ [a])) by (apply Permutation_cons_append).
        eapply Permutation_NoDup; [exact Hp|]. constructor; assumption.
Qed.

Lemma products_In S x : In x (products mul S) <-> exists a b, In a S /\ In b S /\ x = mul a b.
Proof.
  unfold products. rewrite in_flat_map. split.
  - intros [a [Ha Hx]]. apply in_map_iff in Hx. destruct Hx as [b [<- Hb]]. exists a, b; auto.
  - intros (a & b & Ha & Hb & ->). exists a; split; [exact Ha|]. apply in_map; exact Hb.
Qed.

(** one round: extends the list with exactly the missing products *)
Lemma gen_round_spec S : exists ext,
  gen_round eqb mul S = S ++ ext /\
  (forall x, In x ext -> exists a b, In a S /\ In b S /\ x = mul a b) /\
  (forall a b, In a S -> In b S -> In (mul a b) (S ++ ext)) /\
  (NoDup S -> NoDup (S ++ ext)).
Proof.
  unfold gen_round. destruct (fold_add_new (products mul S) S) as (ext & H1 & H2 & H3 & H4).
  exists ext; repeat split; auto.
  - intros x Hx. apply products_In; auto.
  - intros a b Ha Hb. apply H3. apply products_In. exists a, b; auto.
Qed.

(** the loop stops only in a closed state; running out of rounds is impossible *)
Lemma gen_loop_ok f : forall S0 R,
  f + length S0 >= 200 -> (f = 0 -> length S0 < 200) ->
  gen_loop eqb mul f S0 = GenOk R ->
  (exists ext, R = S0 ++ ext) /\ length R < 200 /\ closed mul R /\ (NoDup S0 -> NoDup R) /\
  (forall Q : T -> Prop, (forall x, In x S0 -> Q x) ->
     (forall a b, Q a -> Q b -> Q (mul a b)) -> forall x, In x R -> Q x).
Proof.
  induction f as [|f IH]; intros S0 R Hlen Hf HR.
  - specialize (Hf eq_refl). lia.
  - cbn [gen_loop] in HR. cbv zeta in HR. destruct (gen_round_spec S0) as (ext & E & H2 & H3 & H4).
    rewrite E in HR.
    destruct (Nat.leb_spec 200 (length (S0 ++ ext))) as [|Hlt]; [discriminate|].
    destruct (Nat.leb_spec (length (S0 ++ ext)) (length S0)) as [Hle|Hgt].
    + injection HR as <-. rewrite app_length in Hle.
      assert (ext = []) by (destruct ext; [reflexivity|simpl in Hle; lia]). subst ext.
      rewrite app_nil_r in *. repeat split; auto.
      exists []; rewrite app_nil_r; reflexivity.
    + assert (Hr := IH (S0 ++ ext) R). destruct Hr as ([ext2 Hx] & Hl & Hc & Hnd & HQ); auto.
      { lia. }
      repeat split; auto.
      * exists (ext ++ ext2). rewrite Hx, app_assoc. reflexivity.
      * intros Q H0 Hm x Hx2. apply (HQ Q); auto.
        intros y Hy. apply in_app_or in Hy. destruct Hy as [Hy|Hy]; auto.
        destruct (H2 y Hy) as (a & b & Ha & Hb & ->). auto.
Qed.

Lemma gen_loop_size f : forall S0,
  gen_loop eqb mul f S0 = GenSize -> NoDup S0 ->
  exists R, 200 <= length R /\ NoDup R /\
  (forall Q : T -> Prop, (forall x, In x S0 -> Q x) ->
     (forall a b, Q a -> Q b -> Q (mul a b)) -> forall x, In x R -> Q x).
Proof.
  induction f as [|f IH]; intros S0 HR Hnd; [discriminate|].
  cbn [gen_loop] in HR. cbv zeta in HR. destruct (gen_round_spec S0) as (ext & E & H2 & H3 & H4).
  rewrite E in HR.
  assert (HQ1 : forall Q : T -> Prop, (forall x, In x S0 -> Q x) ->
     (forall a b, Q a -> Q b -> Q (mul a b)) -> forall x, In x (S0 ++ ext) -> Q x).
  { intros Q H0 Hm x Hx. apply in_app_or in Hx. destruct Hx as [Hy|Hy]; auto.
    destruct (H2 x Hy) as (a & b & Ha & Hb & ->). auto. }
  destruct (Nat.leb_spec 200 (length (S0 ++ ext))) as [Hge|Hlt].
  - exists (S0 ++ ext); repeat split; auto.
  - destruct (Nat.leb_spec (length (S0 ++ ext)) (length S0)) as [Hle|Hgt]; [discriminate|].
    destruct (IH (S0 ++ ext) HR (H4 Hnd)) as (R & H5 & H6 & H7).
    exists R; repeat split; auto.
    intros Q HQ0 Hm x Hx. apply (H7 Q); [apply (HQ1 Q); assumption|assumption|assumption].
Qed.

Lemma gen_loop_total f S0 : (exists R, gen_loop eqb mul f S0 = GenOk R) \/ gen_loop eqb mul f S0 = GenSize.
Proof.
  revert S0; induction f as [|f IH]; intros S0; cbn [gen_loop]; [left; eauto|].
  destruct (Nat.leb _ _); [right; reflexivity|]. destruct (Nat.leb _ _); [left; eauto|]. apply IH.
Qed.

Hypothesis P_one : P one.
Hypothesis P_mul : forall a b, P (mul a b).
Hypothesis assoc : forall a b c, mul a (mul b c) = mul (mul a b) c.
Hypothesis one_l : forall a, P a -> mul one a = a.
Hypothesis one_r : forall a, P a -> mul a one = a.

Lemma eqb_neq a b : eqb a b = false <-> a <> b.
Proof using eqb_spec.
  clear - eqb_spec. rewrite <- eqb_spec. destruct (eqb a b); intuition congruence.
Qed.

(** the start list of the loop, l.255-267 *)
Lemma start_list G g0 G' : filter (fun s => negb (eqb s one)) G = g0 :: G' ->
  NoDup (one :: fold_left (add_new eqb) G' [g0]) /\
  (forall x, In x (one :: fold_left (add_new eqb) G' [g0]) <-> x = one \/ In x G).
Proof.
  intros HF.
  destruct (fold_add_new G' [g0]) as (ext & H1 & H2 & H3 & H4). rewrite H1.
  assert (Hf : forall x, In x (g0 :: G') <-> In x G /\ x <> one).
  { intros x. rewrite <- HF, filter_In, negb_true_iff, eqb_neq. reflexivity. }
  assert (Hin : forall x, In x ([g0] ++ ext) <-> In x (g0 :: G')).
  { intros x; split.
    - intros Hx. apply in_app_or in Hx. destruct Hx as [[<-|[]]|Hx]; [left; reflexivity|right; auto].
    - intros [<-|Hx]; [left; reflexivity|auto]. }
  split.
  - constructor.
    + rewrite Hin, Hf. tauto.
    + apply H4. constructor; [intros []|constructor].
  - intros x. change (In x (one :: [g0] ++ ext)) with (one = x \/ In x ([g0] ++ ext)).
    rewrite Hin, Hf. split.
    + intros [<-|[H _]]; auto.
    + intros [->|H]; [left; reflexivity|].
      destruct (eqb x one) eqn:E; [apply eqb_spec in E; auto|apply eqb_neq in E; auto].
Qed.

Lemma from_generator_ok G R : (forall g, In g G -> P g) ->
  from_generator eqb mul one detok G = GenOk R ->
  hd_error R = Some one /\ (forall g, In g G -> In g R) /\ NoDup R /\ closed mul R /\
  length R < 200 /\ (forall x, In x R <-> generated mul one G x).
Proof.
  intros HP H.
  assert (Hkey : hd_error R = Some one /\ (forall g, In g G -> In g R) /\ NoDup R /\ closed mul R /\
     length R < 200 /\ (forall x, In x R -> generated mul one G x)).
  { unfold from_generator in H. destruct G as [|g1 G1]; [discriminate|].
    set (G := g1 :: G1) in *.
    destruct (filter (fun s => negb (eqb s one)) G) as [|g0 G'] eqn:HF.
    - injection H as <-. repeat split; auto.
      + intros g Hg. destruct (eqb g one) eqn:E; [apply eqb_spec in E; left; auto|].
        assert (In g []); [rewrite <- HF; apply filter_In; rewrite E; auto|contradiction].
      + constructor; [intros []|constructor].
      + intros a b [<-|[]] [<-|[]]. left. symmetry; apply one_l, P_one.
      + simpl; lia.
      + intros x [<-|[]]. apply generated_one.
    - destruct (existsb (fun s => negb (detok s)) (g0 :: G')); [discriminate|].
      destruct (start_list G g0 G' HF) as [Hnd Hin].
      apply gen_loop_ok in H; [|lia|lia].
      destruct H as ([ext Hx] & Hl & Hc & Hn & HQ). repeat split; auto.
      + rewrite Hx; reflexivity.
      + intros g Hg. rewrite Hx. apply in_or_app; left. apply Hin; auto.
      + apply (HQ (generated mul one G)).
        * intros x Hx2. apply Hin in Hx2. destruct Hx2 as [->|Hx2]; [apply generated_one|].
          apply (generated_in mul one P one_r); auto.
        * intros a b. apply (generated_mul mul one P P_one P_mul assoc one_l); auto. }
  destruct Hkey as (H1 & H2 & H3 & H4 & H5 & H6). repeat split; auto.
  apply generated_least; auto. destruct R; [discriminate|injection H1 as ->; left; reflexivity].
Qed.

Lemma from_generator_size G : (forall g, In g G -> P g) ->
  from_generator eqb mul one detok G = GenSize ->
  exists R, 200 <= length R /\ NoDup R /\ forall x, In x R -> generated mul one G x.
Proof.
  intros HP H. unfold from_generator in H. destruct G as [|g1 G1]; [discriminate|].
  set (G := g1 :: G1) in *.
  destruct (filter (fun s => negb (eqb s one)) G) as [|g0 G'] eqn:HF; [discriminate|].
  destruct (existsb (fun s => negb (detok s)) (g0 :: G')); [discriminate|].
  destruct (start_list G g0 G' HF) as [Hnd Hin].
  apply gen_loop_size in H; [|exact Hnd]. destruct H as (R & H1 & H2 & HQ).
  exists R; repeat split; auto. apply (HQ (generated mul one G)).
  - intros x Hx2. apply Hin in Hx2. destruct Hx2 as [->|Hx2]; [apply generated_one|].
    apply (generated_in mul one P one_r); auto.
  - intros a b. apply (generated_mul mul one P P_one P_mul assoc one_l); auto.
Qed.

Lemma from_generator_total G : G <> [] -> (forall g, In g G -> detok g = true) ->
  (exists R, from_generator eqb mul one detok G = GenOk R) \/
  from_generator eqb mul one detok G = GenSize.
Proof.
  intros Hne Hd. unfold from_generator. destruct G as [|g1 G1]; [congruence|].
  set (G := g1 :: G1) in *.
  destruct (filter (fun s => negb (eqb s one)) G) as [|g0 G'] eqn:HF; [left; eauto|].
  destruct (existsb (fun s => negb (detok s)) (g0 :: G')) eqn:E.
  - apply existsb_exists in E. destruct E as [x [Hx E]]. rewrite <- HF in Hx.
    apply filter_In in Hx. destruct Hx as [Hx _]. rewrite (Hd x Hx) in E. discriminate.
  - apply gen_loop_total.
Qed.

(** exact characterisation: success iff fewer than 200 distinct products exist *)
Lemma from_generator_exact G : G <> [] -> (forall g, In g G -> P g) -> (forall g, In g G -> detok g = true) ->
  ((exists R, NoDup R /\ length R < 200 /\ forall x, In x R <-> generated mul one G x) <->
   exists R, from_generator eqb mul one detok G = GenOk R) /\
  ((exists R, NoDup R /\ length R = 200 /\ forall x, In x R -> generated mul one G x) <->
   from_generator eqb mul one detok G = GenSize).
Proof.
  intros Hne HP Hd.
  assert (Hexcl : forall R R', NoDup R -> length R < 200 -> (forall x, In x R <-> generated mul one G x) ->
     NoDup R' -> 200 <= length R' -> (forall x, In x R' -> generated mul one G x) -> False).
  { intros R R' H1 H2 H3 H4 H5 H6.
    assert (length R' <= length R); [|lia]. apply NoDup_incl_length; [exact H4|].
    intros x Hx. apply H3, H6, Hx. }
  destruct (from_generator_total G Hne Hd) as [[R0 HR]|HS].
  - pose proof (from_generator_ok G R0 HP HR) as (H1 & H2 & H3 & H4 & H5 & H6).
    split; split; intros H.
    + eauto.
    + exists R0; auto.
    + destruct H as (R' & Ha & Hb & Hc). exfalso. eapply (Hexcl R0 R'); eauto; lia.
    + congruence.
  - pose proof (from_generator_size G HP HS) as (R' & Ha & Hb & Hc).
    split; split; intros H.
    + destruct H as (R & H1 & H2 & H3). exfalso. eapply (Hexcl R R'); eauto.
    + destruct H as [R H]; congruence.
    + exact HS.
    + exists (firstn 200 R'). repeat split.
      * rewrite <- (firstn_skipn 200 R') in Hb. apply NoDup_app_iff in Hb. apply Hb.
      * rewrite firstn_length; lia.
      * intros x Hx. apply Hc. rewrite <- (firstn_skipn 200 R'). apply in_or_app; left; exact Hx.
Qed.
End Gen.

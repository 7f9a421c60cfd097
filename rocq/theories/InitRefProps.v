(** Properties C156 and C157: the energies at k = 0 in TightBindingModel.init_from_ref and the subspaces of a representation. *)
From Coq Require Import List Arith ZArith Reals Lra Lia Bool Permutation Sorted.
Import ListNotations.
From Verif Require Import SRing LMat FMat CplxR UrepModel SymModel SymPointProofs FourierModel EigModel TbmModel TbmProps InitRefModel.
Local Open Scope nat_scope.

(** ** C157: specification. The groups are a partition of 0..n-1 *)
Definition partition (n : nat) (groups : list (list nat)) : Prop :=
  Permutation (concat groups) (seq 0 n) /\ Forall (fun g => g <> []) groups.
Definition same_group (groups : list (list nat)) (i j : nat) : Prop := exists g, In g groups /\ In i g /\ In j g.

Lemma cnz_spec z : cnz z = true <-> z <> (0, 0)%R.
Proof.
  unfold cnz. destruct z as [x y]. cbn [fst snd]. destruct (Req_EM_T x 0) as [->|H], (Req_EM_T y 0) as [->|H']; split; intros E; try reflexivity; try discriminate; try congruence.
Qed.
Lemma occ_spec U i j : occ U i j = true <-> exists u, In u U /\ u i j <> (0, 0)%R.
Proof. unfold occ. rewrite existsb_exists. split; intros (u & Hu & H); exists u; (split; [exact Hu|]); apply cnz_spec; exact H. Qed.
Lemma nleqb_spec a b : nleqb a b = true <-> a = b.
Proof. unfold nleqb. destruct (list_eq_dec Nat.eq_dec a b); split; congruence. Qed.
Lemma ins_row_in a l x : In x (ins_row a l) <-> x = a \/ In x l.
Proof.
  induction l as [|b r IH]; cbn [ins_row]; [cbn; firstorder|]. destruct (nleqb a b) eqn:E; [apply nleqb_spec in E; subst; cbn; firstorder|].
  destruct (row_ltb a b); cbn [In]; [|rewrite IH]; firstorder.
Qed.
Lemma uniq_in l x : In x (uniq_rows l) <-> In x l.
Proof. induction l as [|a l IH]; cbn [uniq_rows fold_right]; [reflexivity|]. fold (uniq_rows l). rewrite ins_row_in, IH. cbn. firstorder. Qed.
Lemma row_in n o i j : In j (row_of n o i) <-> j < n /\ o i j = true.
Proof. unfold row_of. rewrite filter_In, in_seq. intuition lia. Qed.
Lemma mem_spec j g : existsb (Nat.eqb j) g = true <-> In j g.
Proof. rewrite existsb_exists. split; [intros (x & Hx & E); apply Nat.eqb_eq in E; subst; exact Hx|intros H; exists j; split; [exact H|apply Nat.eqb_refl]]. Qed.
(** exactly one group contains j *)
Lemma one_group j groups : length (filter (fun g => existsb (Nat.eqb j) g) groups) = 1 <->
  exists l1 g l2, groups = l1 ++ g :: l2 /\ In j g /\ (forall h, In h (l1 ++ l2) -> ~ In j h).
Proof.
  split.
  - induction groups as [|a gs IH]; [discriminate|]. cbn [filter]. destruct (existsb (Nat.eqb j) a) eqn:E.
    + cbn [length]. intros H. injection H as H. exists [], a, gs. split; [reflexivity|]. split; [apply mem_spec; exact E|]. intros h Hh C. cbn [app] in Hh.
      assert (In h (filter (fun g => existsb (Nat.eqb j) g) gs)) by (apply filter_In; split; [exact Hh|apply mem_spec; exact C]). destruct (filter _ gs); [contradiction|discriminate].
    + intros H. destruct (IH H) as (l1 & g & l2 & -> & H1 & H2). exists (a :: l1), g, l2. split; [reflexivity|]. split; [exact H1|].
      intros h [<-|Hh]; [intros C; apply mem_spec in C; congruence|auto].
  - intros (l1 & g & l2 & -> & H1 & H2). rewrite filter_app. cbn [filter]. rewrite (proj2 (mem_spec j g) H1).
    assert (Z : forall l, (forall h, In h l -> ~ In j h) -> filter (fun g => existsb (Nat.eqb j) g) l = []).
    { induction l as [|a l IH]; intros H; cbn [filter]; [reflexivity|]. destruct (existsb (Nat.eqb j) a) eqn:E; [apply mem_spec in E; exfalso; apply (H a); [left; reflexivity|exact E]|].
      apply IH. intros h Hh. apply H. right. exact Hh. }
    rewrite !Z; [reflexivity| |]; intros h Hh; apply H2; apply in_or_app; auto.
Qed.
Lemma nodup_concat groups n : Forall (@NoDup nat) groups -> (forall g j, In g groups -> In j g -> j < n) ->
  (forall j, j < n -> length (filter (fun g => existsb (Nat.eqb j) g) groups) = 1) -> Permutation (concat groups) (seq 0 n).
Proof.
  intros HN HB H1. apply NoDup_Permutation; [|apply seq_NoDup|].
  - assert (A : forall j, In j (concat groups) -> length (filter (fun g => existsb (Nat.eqb j) g) groups) <= 1).
    { intros j Hj. apply in_concat in Hj. destruct Hj as (g & Hg & Hj). rewrite H1; [lia|eapply HB; eauto]. }
    clear H1 HB. induction groups as [|a gs IH]; [constructor|]. cbn [concat]. inversion HN as [|x y N1 N2]; subst x y.
    assert (D : forall x, In x a -> ~ In x (concat gs)).
    { intros x Hx C. specialize (A x (in_or_app _ _ _ (or_introl Hx))). cbn [filter] in A. rewrite (proj2 (mem_spec x a) Hx) in A. cbn [length] in A.
      apply in_concat in C. destruct C as (g & Hg & C). assert (In g (filter (fun g => existsb (Nat.eqb x) g) gs)) by (apply filter_In; split; [exact Hg|apply mem_spec; exact C]).
      destruct (filter _ gs); [contradiction|cbn in A; lia]. }
    assert (NG : NoDup (concat gs)).
    { apply IH; [exact N2|]. intros j Hj. specialize (A j (in_or_app _ _ _ (or_intror Hj))). cbn [filter] in A. destruct (existsb (Nat.eqb j) a); cbn [length] in A; lia. }
    clear -N1 D NG. induction N1 as [|x a Hx N1 IH]; cbn [app]; [exact NG|]. constructor.
    + intros C. apply in_app_or in C. destruct C as [C|C]; [auto|]. apply (D x); [left; reflexivity|exact C].
    + apply IH. intros y Hy. apply D. right. exact Hy.
  - intros j. rewrite in_seq. split.
    + intros H. apply in_concat in H. destruct H as (g & Hg & H). split; [lia|]. cbn. eapply HB; eauto.
    + intros [_ H]. cbn in H. specialize (H1 j H). apply one_group in H1. destruct H1 as (l1 & g & l2 & -> & Hj & _). apply in_concat. exists g.
      split; [apply in_or_app; right; left; reflexivity|exact Hj].
Qed.

(** the groups are a partition, and two indices are in one group exactly if some operation connects them *)
Theorem C157_partition : forall n U groups, subspaces n U = Some groups -> (forall i, i < n -> exists u, In u U /\ u i i <> (0, 0)%R) ->
  partition n groups /\
  forall i j, i < n -> j < n -> (same_group groups i j <-> exists u, In u U /\ u i j <> (0, 0)%R).
Proof.
  intros n U groups H HD. unfold subspaces in H. set (rows := map (row_of n (occ U)) (seq 0 n)) in *. cbv zeta in H.
  destruct (forallb _ _ && forallb _ _) eqn:E in H; [|discriminate]. injection H as <-. apply andb_true_iff in E. destruct E as [E1 E2].
  rewrite forallb_forall in E1, E2.
  assert (ROW : forall g, In g (uniq_rows rows) <-> exists i, i < n /\ g = row_of n (occ U) i).
  { intros g. rewrite uniq_in. unfold rows. rewrite in_map_iff. split; [intros (i & <- & Hi); apply in_seq in Hi; exists i; split; [lia|reflexivity]|].
    intros (i & Hi & ->). exists i. split; [reflexivity|]. apply in_seq. lia. }
  assert (SELF : forall i, i < n -> In i (row_of n (occ U) i)) by (intros i Hi; apply row_in; split; [exact Hi|apply occ_spec, HD; exact Hi]).
  assert (ONE : forall j, j < n -> length (filter (fun g => existsb (Nat.eqb j) g) (uniq_rows rows)) = 1).
  { intros j Hj. apply Nat.eqb_eq. apply E2. apply in_seq. lia. }
  split; [split|].
  - apply nodup_concat; [| |exact ONE].
    + apply Forall_forall. intros g Hg. apply ROW in Hg. destruct Hg as (i & _ & ->). apply NoDup_filter, seq_NoDup.
    + intros g j Hg Hj. apply ROW in Hg. destruct Hg as (i & _ & ->). apply row_in in Hj. apply Hj.
  - apply Forall_forall. intros g Hg. apply ROW in Hg. destruct Hg as (i & Hi & ->). specialize (SELF i Hi). intros C. rewrite C in SELF. contradiction.
  - assert (OWN : forall g i, i < n -> In g (uniq_rows rows) -> In i g -> g = row_of n (occ U) i).
    { intros g i Hi Hg Hig. specialize (ONE i Hi). apply one_group in ONE. destruct ONE as (l1 & h & l2 & EQ & Hih & Hno).
      assert (UN : forall x, In x (uniq_rows rows) -> In i x -> x = h).
      { intros x Hx Hix. rewrite EQ in Hx. apply in_app_or in Hx. destruct Hx as [Hx|[Hx|Hx]]; [|symmetry; exact Hx|]; exfalso; apply (Hno x); auto; apply in_or_app; auto. }
      rewrite (UN g Hg Hig). symmetry. apply UN; [apply ROW; exists i; auto|apply SELF; exact Hi]. }
    intros i j Hi Hj. rewrite <- occ_spec. split.
    + intros (g & Hg & Hig & Hjg). rewrite (OWN g i Hi Hg Hig) in Hjg. apply row_in in Hjg. apply Hjg.
    + intros O. exists (row_of n (occ U) i). split; [apply ROW; exists i; auto|]. split; [apply SELF; exact Hi|]. apply row_in. auto.
Qed.
Print Assumptions C157_partition.
(** ... so a diagonal matrix that is constant on the groups commutes with every operation *)
Theorem C157_commutes : forall n U groups u (b : nat -> cplx), subspaces n U = Some groups -> (forall i, i < n -> exists u, In u U /\ u i i <> (0, 0)%R) ->
  In u U -> (forall i j, same_group groups i j -> b i = b j) ->
  feq (K:=Cs) n n (fmul (K:=Cs) n u (fun i j => if Nat.eqb i j then b i else (0, 0)%R)) (fmul (K:=Cs) n (fun i j => if Nat.eqb i j then b i else (0, 0)%R) u).
Proof.
  intros n U groups u b HS HD Hu HB i j Hi Hj. destruct (C157_partition n U groups HS HD) as (_ & HG). unfold fmul.
  etransitivity; [apply (nsum_single Cs n j); [exact Hj|]|symmetry; etransitivity; [apply (nsum_single Cs n i); [exact Hi|]|]].
  - intros k Hk Hne. rewrite (proj2 (Nat.eqb_neq k j) Hne). change (cmul (u i k) (0, 0)%R = (0, 0)%R). apply cplx_eq; simpl; ring.
  - intros k Hk Hne. rewrite (proj2 (Nat.eqb_neq i k) (not_eq_sym Hne)). change (cmul (0, 0)%R (u k j) = (0, 0)%R). apply cplx_eq; simpl; ring.
  - rewrite !Nat.eqb_refl. destruct (cnz (u i j)) eqn:E.
    + assert (S : same_group groups i j) by (apply HG; [exact Hi|exact Hj|]; exists u; split; [exact Hu|apply cnz_spec; exact E]).
      rewrite (HB i j S). change (cmul (b j) (u i j) = cmul (u i j) (b j)). apply cplx_eq; simpl; ring.
    + assert (Z : u i j = (0, 0)%R). { destruct (u i j) as [x y]. unfold cnz in E. cbn [fst snd] in E. destruct (Req_EM_T x 0); [|discriminate]. destruct (Req_EM_T y 0); [|discriminate]. congruence. }
      rewrite Z. apply cplx_eq; simpl; ring.
Qed.
Print Assumptions C157_commutes.

Lemma row_ltb_irrefl a : row_ltb a a = false.
Proof. induction a as [|x a IH]; cbn; [reflexivity|]. rewrite Nat.eqb_refl. exact IH. Qed.
Lemma row_ltb_trans a : forall b c, row_ltb a b = true -> row_ltb b c = true -> row_ltb a c = true.
Proof.
  induction a as [|x a IH]; intros [|y b] [|z c]; cbn; try discriminate; auto. destruct (Nat.eqb_spec x y) as [->|N].
  - destruct (Nat.eqb_spec y z) as [->|N']; [apply IH|auto].
  - destruct (Nat.eqb_spec y z) as [->|N']; [rewrite (proj2 (Nat.eqb_neq x z) N); auto|]. intros H1 H2. apply Nat.ltb_lt in H1, H2.
    destruct (Nat.eqb_spec x z); [lia|]. apply Nat.ltb_lt. lia.
Qed.
Lemma row_ltb_total a : forall b, a <> b -> row_ltb a b = true \/ row_ltb b a = true.
Proof.
  induction a as [|x a IH]; intros [|y b] H; cbn; auto. destruct (Nat.eqb_spec x y) as [->|N].
  - rewrite Nat.eqb_refl. apply IH. congruence.
  - rewrite (proj2 (Nat.eqb_neq y x) (not_eq_sym N)). destruct (Nat.lt_ge_cases y x); [left|right]; apply Nat.ltb_lt; lia.
Qed.
Lemma ins_sorted a l : StronglySorted (fun x y => row_ltb x y = true) l -> StronglySorted (fun x y => row_ltb x y = true) (ins_row a l).
Proof.
  induction 1 as [|b r Hs IH Hb]; cbn [ins_row]; [repeat constructor|]. destruct (nleqb a b) eqn:E; [constructor; assumption|].
  destruct (row_ltb a b) eqn:L.
  - constructor; [constructor; assumption|]. constructor; [exact L|]. eapply Forall_impl; [|exact Hb]. intros c Hc. eapply row_ltb_trans; eassumption.
  - constructor; [exact IH|]. apply Forall_forall. intros x Hx. apply ins_row_in in Hx. destruct Hx as [->|Hx].
    + destruct (row_ltb_total a b) as [C|C]; [intros ->; rewrite (proj2 (nleqb_spec b b) eq_refl) in E; discriminate|congruence|exact C].
    + rewrite Forall_forall in Hb. auto.
Qed.
Lemma uniq_nodup l : NoDup (uniq_rows l).
Proof.
  assert (S : StronglySorted (fun x y => row_ltb x y = true) (uniq_rows l)) by (induction l as [|a l IH]; [constructor|apply ins_sorted; exact IH]).
  induction S as [|b r Hs IH Hb]; constructor; [|exact IH]. intros C. rewrite Forall_forall in Hb. specialize (Hb b C). rewrite row_ltb_irrefl in Hb. discriminate.
Qed.
(** subspaces succeeds if the operations connect the indices like an equivalence relation *)
Theorem C157_complete : forall n U, let R := fun i j => exists u, In u U /\ u i j <> (0, 0)%R in
  (forall i, i < n -> R i i) -> (forall i j, i < n -> j < n -> R i j -> R j i) -> (forall i j k, i < n -> j < n -> k < n -> R i j -> R j k -> R i k) ->
  exists groups, subspaces n U = Some groups.
Proof.
  intros n U R HR HS HT. unfold subspaces. set (rows := map (row_of n (occ U)) (seq 0 n)). cbv zeta.
  assert (ROW : forall g, In g (uniq_rows rows) <-> exists i, i < n /\ g = row_of n (occ U) i).
  { intros g. rewrite uniq_in. unfold rows. rewrite in_map_iff. split; [intros (i & <- & Hi); apply in_seq in Hi; exists i; split; [lia|reflexivity]|].
    intros (i & Hi & ->). exists i. split; [reflexivity|]. apply in_seq. lia. }
  assert (EQ : forall i j, i < n -> j < n -> occ U i j = true -> row_of n (occ U) i = row_of n (occ U) j).
  { intros i j Hi Hj O. apply occ_spec in O. unfold row_of. apply filter_ext_in. intros k Hk. apply in_seq in Hk.
    destruct (occ U i k) eqn:A, (occ U j k) eqn:B; try reflexivity; exfalso.
    - apply occ_spec in A. assert (X : R j k) by (apply (HT j i k); auto; lia). apply occ_spec in X. congruence.
    - apply occ_spec in B. assert (X : R i k) by (apply (HT i j k); auto; lia). apply occ_spec in X. congruence. }
  replace (forallb _ _ && forallb _ _) with true; [eauto|]. symmetry. apply andb_true_iff. split; apply forallb_forall.
  - intros g Hg. apply ROW in Hg. destruct Hg as (i & Hi & ->). apply Nat.eqb_eq. unfold count_row, rows.
    assert (M : forall l, (forall k, In k l -> k < n) -> length (filter (occ U i) l) = length (filter (nleqb (row_of n (occ U) i)) (map (row_of n (occ U)) l))).
    { induction l as [|k l IH]; intros Hl; [reflexivity|]. cbn [map filter]. assert (Hk : k < n) by (apply Hl; left; reflexivity).
      replace (nleqb (row_of n (occ U) i) (row_of n (occ U) k)) with (occ U i k).
      - destruct (occ U i k); cbn [length]; rewrite IH; auto; intros; apply Hl; right; assumption.
      - destruct (occ U i k) eqn:O; symmetry; [apply nleqb_spec, EQ; auto|]. destruct (nleqb _ _) eqn:C; [|reflexivity]. exfalso. apply nleqb_spec in C.
        assert (X : In k (row_of n (occ U) i)) by (rewrite C; apply row_in; split; [exact Hk|apply occ_spec, HR; exact Hk]). apply row_in in X. destruct X. congruence. }
    apply M. intros k Hk. apply in_seq in Hk. lia.
  - intros j Hj. apply in_seq in Hj. assert (J : j < n) by lia. apply Nat.eqb_eq. apply one_group.
    assert (I : In (row_of n (occ U) j) (uniq_rows rows)) by (apply ROW; exists j; auto). apply in_split in I. destruct I as (l1 & l2 & E).
    exists l1, (row_of n (occ U) j), l2. split; [exact E|]. split; [apply row_in; split; [exact J|apply occ_spec, HR; exact J]|].
    intros h Hh C. assert (N := uniq_nodup rows). rewrite E in N. apply NoDup_remove_2 in N. apply N.
    assert (Hin : In h (uniq_rows rows)) by (rewrite E; apply in_app_or in Hh; apply in_or_app; destruct Hh; [left|right; right]; assumption).
    apply ROW in Hin. destruct Hin as (i & Hi & ->). apply row_in in C. destruct C as [_ C]. rewrite <- (EQ i j Hi J C). exact Hh.
Qed.
Print Assumptions C157_complete.
(** s and p orbital of the square with C2 and the mirror x <-> y: the groups {0} and {1, 2} *)
Definition swap_u : fmat Cs := fun i j => match i, j with 0, 0 | 1, 2 | 2, 1 => (1, 0)%R | _, _ => (0, 0)%R end.
Example C157_ex : exists groups, subspaces 3 [fid (K:=Cs); swap_u] = Some groups /\ same_group groups 1 2 /\ ~ same_group groups 0 1 /\
  subspaces 2 [fun i j => if Nat.ltb i j then (0, 0)%R else (1, 0)%R] = None.
Proof.
  assert (C1 : cnz (1, 0)%R = true) by (apply cnz_spec; intros C; injection C; lra).
  assert (C0 : cnz (0, 0)%R = false) by (destruct (cnz (0, 0)%R) eqn:E; [apply cnz_spec in E; congruence|reflexivity]).
  assert (O : forall i j, i < 3 -> j < 3 -> occ [fid (K:=Cs); swap_u] i j = match i, j with 0, 0 | 1, 1 | 1, 2 | 2, 1 | 2, 2 => true | _, _ => false end).
  { intros i j Hi Hj. destruct i as [|[|[|i]]]; try lia; destruct j as [|[|[|j]]]; try lia; unfold occ, fid, swap_u; cbn [existsb Nat.eqb];
    change (@s1 Cs) with (1, 0)%R; change (@s0 Cs) with (0, 0)%R; rewrite ?C1, ?C0; reflexivity. }
  exists [[1;2];[0]]. split.
  - unfold subspaces. replace (map (row_of 3 (occ [fid (K:=Cs); swap_u])) (seq 0 3)) with [[0];[1;2];[1;2]]; [reflexivity|].
    cbn [seq map]. unfold row_of. cbn [seq filter]. rewrite !O by lia. reflexivity.
  - split; [exists [1;2]; cbn; auto|]. split; [intros (g & [<-|[<-|[]]] & H1 & H2); cbn in *; lia|].
    unfold subspaces. replace (map (row_of 2 (occ [fun i j => if Nat.ltb i j then (0, 0)%R else (1, 0)%R])) (seq 0 2)) with [[0];[0;1]]; [reflexivity|].
    cbn [seq map]. unfold row_of, occ. cbn [seq filter existsb Nat.ltb Nat.leb]. rewrite C1, C0. reflexivity.
Qed.

(* ------------------------------------------------------------------ *)
(** ** C156: the energies at k = 0 *)
(** the list of all model bands *)
Definition bands_list (N : nat) (b : nat -> Z) : list Z := map b (seq 0 N).
(** set(k0_bands) in any order; np.random.shuffle is a permutation *)
Definition is_set (k0 unique : list Z) : Prop := NoDup unique /\ forall e, In e unique <-> In e k0.
Definition is_shuffle (shuffle : nat -> list (list nat) -> list (list nat)) : Prop := forall i l, Permutation (shuffle i l) l.

Lemma write_in f w i : In i (fst w) -> write f w i = snd w.
Proof. intros H. unfold write. rewrite (proj2 (mem_spec i (fst w)) H). reflexivity. Qed.
Lemma write_out f w i : ~ In i (fst w) -> write f w i = f i.
Proof. intros H. unfold write. destruct (existsb (Nat.eqb i) (fst w)) eqn:E; [apply mem_spec in E; contradiction|reflexivity]. Qed.
Lemma writes_out ws : forall f i, ~ In i (concat (map fst ws)) -> fold_left write ws f i = f i.
Proof.
  induction ws as [|w ws IH]; intros f i H; [reflexivity|]. cbn [fold_left map concat] in *. rewrite IH; [apply write_out|]; intros C; apply H; apply in_or_app; auto.
Qed.
Lemma nodup_app_r {A} (l l' : list A) : NoDup (l ++ l') -> NoDup l'.
Proof. induction l as [|a l IH]; cbn; [auto|]. intros H. inversion H; auto. Qed.
Lemma nodup_app_no {A} (l l' : list A) x : NoDup (l ++ l') -> In x l -> ~ In x l'.
Proof.
  induction l as [|a l IH]; cbn; [intros _ []|]. intros H [<-|Hx]; inversion H as [|y z N1 N2]; subst; [intros C; apply N1; apply in_or_app; auto|auto].
Qed.
Lemma writes_in ws : forall f g s i, NoDup (concat (map fst ws)) -> In (g, s) ws -> In i g -> fold_left write ws f i = s.
Proof.
  induction ws as [|w ws IH]; intros f g s i HN HI Hi; [contradiction|]. cbn [fold_left map concat] in *. destruct HI as [->|HI].
  - rewrite writes_out; [apply write_in; exact Hi|]. apply (nodup_app_no _ _ i HN). exact Hi.
  - apply (IH _ g); auto. eapply nodup_app_r; exact HN.
Qed.

Lemma place_perm i left : forall gs j x gs' j', place i left j gs = Some (x, gs', j') -> Permutation (concat gs) (x :: concat gs').
Proof.
  induction gs as [|g gs IH]; intros j x gs' j' H; cbn [place] in H; [discriminate|]. destruct (Z.ltb _ _); [discriminate|]. destruct g as [|y r].
  - destruct (place i left (S j) gs) as [[[x0 gs0] j0]|] eqn:E; [|discriminate]. injection H as <- <- <-. cbn [concat app]. eapply IH; exact E.
  - injection H as <- <- <-. reflexivity.
Qed.
Lemma assign_perm : forall todo left gs l, assign todo left gs = Some l ->
  map snd l = map snd todo /\ exists rest, Permutation (concat gs) (map fst l ++ rest).
Proof.
  induction todo as [|[i s] todo IH]; intros left gs l H; cbn [assign] in H.
  - injection H as <-. split; [reflexivity|]. exists (concat gs). reflexivity.
  - destruct (place i left 0 gs) as [[[x gs'] j]|] eqn:E; [|discriminate].
    destruct (assign todo _ gs') as [l'|] eqn:A; [|discriminate]. injection H as <-. destruct (IH _ _ _ A) as (E1 & rest & P).
    split; [cbn; f_equal; exact E1|]. exists rest. cbn [map app]. rewrite (place_perm _ _ _ _ _ _ _ E). constructor. exact P.
Qed.

(** the groups up to size dim, by size *)
Definition small (dim : nat) (g : list nat) : bool := Nat.leb 1 (length g) && Nat.leb (length g) dim.
Lemma groups2_perm dim shuffle groups : is_shuffle shuffle -> Permutation (concat (groups2 dim shuffle groups)) (filter (small dim) groups).
Proof.
  intros HS. unfold groups2. induction dim as [|d IH].
  - cbn. replace (filter (small 0) groups) with (@nil (list nat)); [reflexivity|]. induction groups as [|g gs IHg]; [reflexivity|]. cbn [filter].
    unfold small at 1. destruct (length g); cbn; exact IHg.
  - rewrite seq_S, map_app, concat_app, IH. cbn [map concat plus]. rewrite app_nil_r, (HS d). clear IH.
    induction groups as [|g gs IHg]; [reflexivity|]. cbn [filter].
    destruct (small d g) eqn:A, (Nat.eqb (length g) (S d)) eqn:B, (small (S d) g) eqn:C; unfold small in A, C;
      rewrite ?andb_true_iff, ?andb_false_iff, ?Nat.leb_le, ?Nat.leb_gt, ?Nat.eqb_eq, ?Nat.eqb_neq in *; try lia.
    + cbn [app]. constructor. exact IHg.
    + rewrite <- Permutation_middle. constructor. exact IHg.
    + exact IHg.
Qed.

Lemma todo_nodup k0 unique : NoDup unique -> forall dims, NoDup dims ->
  NoDup (map snd (flat_map (fun i => map (pair i) (filter (fun b => Nat.eqb (degen k0 b) (S i)) unique)) dims)).
Proof.
  intros HU. induction dims as [|i dims IH]; intros Hd; [constructor|]. inversion Hd as [|y z N1 N2]; subst. cbn [flat_map]. rewrite map_app, map_map. cbn [snd]. rewrite map_id.
      assert (NF : NoDup (filter (fun b => Nat.eqb (degen k0 b) (S i)) unique)) by (apply NoDup_filter; exact HU).
      assert (DJ : forall e, In e (filter (fun b => Nat.eqb (degen k0 b) (S i)) unique) -> ~ In e (map snd (flat_map (fun i => map (pair i) (filter (fun b => Nat.eqb (degen k0 b) (S i)) unique)) dims))).
      { intros e He C. apply filter_In in He. destruct He as [_ He]. apply Nat.eqb_eq in He. apply in_map_iff in C. destruct C as ([i' e'] & Ee & C). cbn in Ee. subst e'.
        apply in_flat_map in C. destruct C as (i'' & Hi & C). apply in_map_iff in C. destruct C as (e'' & E'' & C). injection E'' as -> ->. apply filter_In in C. destruct C as [_ C].
        apply Nat.eqb_eq in C. apply N1. replace i with i' by lia. exact Hi. }
      specialize (IH N2). clear -NF DJ IH. induction NF as [|e m Hn NF IHm]; [exact IH|]. cbn [app]. constructor.
      - intros C. apply in_app_or in C. destruct C as [C|C]; [auto|]. apply (DJ e); [left; reflexivity|exact C].
      - apply IHm. intros x Hx. apply DJ. right. exact Hx.
Qed.
(** the bands of the groups beyond the degeneracies of their energies *)
Fixpoint extra_bands (k0 : list Z) (l : list (list nat * Z)) : Z :=
  match l with
  | [] => 0%Z
  | (g, e) :: r => (Z.max 0 (Z.of_nat (length g) - Z.of_nat (count_occ Z.eq_dec k0 e)) + extra_bands k0 r)%Z
  end.
Definition sized (j : nat) (gs : list (list (list nat))) : Prop := forall k g, In g (nth k gs []) -> length g = S (j + k).
Lemma place_sized i left : forall gs j x gs' j', sized j gs -> place i left j gs = Some (x, gs', j') ->
  length x = S j' /\ sized j gs' /\ (Z.of_nat j' - Z.of_nat i <= left)%Z.
Proof.
  induction gs as [|g gs IH]; intros j x gs' j' HZ H; cbn [place] in H; [discriminate|]. destruct (Z.ltb_spec left (Z.of_nat j - Z.of_nat i)) as [_|L]; [discriminate|]. destruct g as [|y r].
  - destruct (place i left (S j) gs) as [[[x0 gs0] j0]|] eqn:E; [|discriminate]. injection H as <- <- <-.
    destruct (IH (S j) x0 gs0 j0) as (H1 & H2 & H3); [intros k g Hg; rewrite (HZ (S k) g Hg); lia|exact E|]. split; [exact H1|]. split; [|exact H3].
    intros [|k] g Hg; cbn [nth] in Hg; [contradiction|]. rewrite (H2 k g Hg). lia.
  - injection H as <- <- <-. split; [rewrite (HZ 0 y (or_introl eq_refl)); lia|]. split; [|exact L].
    intros [|k] g Hg; [apply (HZ 0 g); right; exact Hg|apply (HZ (S k) g Hg)].
Qed.
Lemma assign_extra k0 : forall todo left gs l, (forall i e, In (i, e) todo -> degen k0 e = S i) -> sized 0 gs -> assign todo left gs = Some l ->
  (extra_bands k0 l <= Z.max 0 left)%Z.
Proof.
  induction todo as [|[i s] todo IH]; intros left gs l HT HZ H; cbn [assign] in H; [injection H as <-; cbn [extra_bands]; lia|].
  destruct (place i left 0 gs) as [[[x gs'] j]|] eqn:E; [|discriminate]. destruct (assign todo _ gs') as [l'|] eqn:A; [|discriminate]. injection H as <-.
  destruct (place_sized _ _ _ _ _ _ _ HZ E) as (H1 & H2 & H3). apply (IH _ _ _ (fun i e H => HT i e (or_intror H)) H2) in A.
  cbn [extra_bands]. rewrite H1. change (count_occ Z.eq_dec k0 s) with (degen k0 s). rewrite (HT i s (or_introl eq_refl)). lia.
Qed.
Lemma groups2_sized dim shuffle groups : is_shuffle shuffle -> sized 0 (groups2 dim shuffle groups).
Proof.
  intros HS k g Hg. unfold groups2 in Hg. destruct (Nat.lt_ge_cases k dim) as [L|L].
  - rewrite (nth_indep _ _ (shuffle 0 (filter (fun g => Nat.eqb (length g) 1) groups))) in Hg by (rewrite map_length, seq_length; exact L).
    rewrite (map_nth (fun i => shuffle i (filter (fun g => Nat.eqb (length g) (S i)) groups)) (seq 0 dim) 0 k), seq_nth in Hg by exact L.
    apply (Permutation_in _ (HS _ _)) in Hg. apply filter_In in Hg. destruct Hg as [_ Hg]. apply Nat.eqb_eq in Hg. exact Hg.
  - rewrite nth_overflow in Hg by (rewrite map_length, seq_length; exact L). contradiction.
Qed.
(** every energy of the data up to the degeneracy dim is the value of one whole group, different energies have different
    groups, and the other bands are 0.01 below the lowest energy. The groups have at most as many bands beyond the
    degeneracies as the model has beyond the data *)
Theorem C156_assigned : forall dim N shuffle groups k0 unique b, is_shuffle shuffle -> partition N groups -> is_set k0 unique ->
  match_bands dim N shuffle groups k0 unique = Some b ->
  exists l rest, Permutation groups (map fst l ++ rest) /\
    (forall e, In e (map snd l) <-> (1 <= count_occ Z.eq_dec k0 e <= dim)) /\ NoDup (map snd l) /\
    (forall g s i, In (g, s) l -> In i g -> b i = s) /\
    (forall g i, In g rest -> In i g -> b i = (zmin k0 - 1000)%Z) /\
    (extra_bands k0 l <= Z.max 0 (Z.of_nat N - Z.of_nat (length k0)))%Z.
Proof.
  intros dim N shuffle groups k0 unique b HS (HP & HNE) (HU & HIN) H. unfold match_bands in H. destruct (Nat.ltb _ _); [discriminate|].
  destruct (assign _ _ _) as [l|] eqn:A; [|discriminate]. injection H as <-. destruct (assign_perm _ _ _ _ A) as (E & rest & P).
  rewrite groups2_perm in P by exact HS. exists l, (rest ++ filter (fun g => negb (small dim g)) groups).
  assert (PG : Permutation groups (map fst l ++ rest ++ filter (fun g => negb (small dim g)) groups)).
  { rewrite app_assoc, <- P. clear. induction groups as [|g gs IH]; [reflexivity|]. cbn [filter]. destruct (small dim g); cbn [negb app]; [constructor; exact IH|].
    rewrite <- Permutation_middle. constructor. exact IH. }
  split; [exact PG|].
  assert (TD : forall e i, In (i, e) (todo_list dim k0 unique) <-> i < dim /\ In e unique /\ degen k0 e = S i).
  { intros e i. unfold todo_list. rewrite in_flat_map. split.
    - intros (i' & Hi & H). apply in_map_iff in H. destruct H as (e' & E' & H). injection E' as -> ->. apply filter_In in H. destruct H as [H1 H2].
      apply Nat.eqb_eq in H2. apply in_seq in Hi. repeat split; auto; lia.
    - intros (Hi & Hu & Hd). exists i. split; [apply in_seq; lia|]. apply in_map_iff. exists e. split; [reflexivity|]. apply filter_In. split; [exact Hu|apply Nat.eqb_eq; exact Hd]. }
  assert (ND : NoDup (concat (map fst l))).
  { assert (D : NoDup (concat groups)) by (eapply Permutation_NoDup; [apply Permutation_sym; exact HP|apply seq_NoDup]).
    assert (PC : Permutation (concat groups) (concat (map fst l) ++ concat (rest ++ filter (fun g => negb (small dim g)) groups))).
    { rewrite <- concat_app. clear -PG. induction PG; cbn [concat]; [reflexivity|apply Permutation_app_head; assumption| |etransitivity; eassumption].
      rewrite !app_assoc. apply Permutation_app_tail, Permutation_app_comm. }
    apply (Permutation_NoDup PC) in D. clear -D. induction (concat (map fst l)) as [|x m IH]; [constructor|]. cbn in D. inversion D as [|y z N1 N2]; subst.
    constructor; [intros C; apply N1; apply in_or_app; auto|auto]. }
  split; [|split; [|split; [|split]]].
  5:{ apply (assign_extra k0 (todo_list dim k0 unique) _ (groups2 dim shuffle groups)); [|apply groups2_sized; exact HS|exact A]. intros i e Hi. apply TD in Hi. tauto. }
  - intros e. rewrite E, in_map_iff. split.
    + intros ([i e'] & <- & H). cbn [snd]. apply TD in H. unfold degen in H. lia.
    + intros H. exists (count_occ Z.eq_dec k0 e - 1, e). split; [reflexivity|]. apply TD. split; [lia|]. split; [apply HIN, (count_occ_In Z.eq_dec); lia|unfold degen; lia].
  - rewrite E. apply todo_nodup; [exact HU|apply seq_NoDup].
  - intros g s i Hin Hi. apply (writes_in l _ g); auto.
  - intros g i Hg Hi. unfold replay. rewrite writes_out; [reflexivity|].
    assert (D : NoDup (concat groups)) by (eapply Permutation_NoDup; [apply Permutation_sym; exact HP|apply seq_NoDup]).
    intros C. assert (PC : Permutation (concat groups) (concat (map fst l) ++ concat (rest ++ filter (fun g => negb (small dim g)) groups))).
    { rewrite <- concat_app. clear -PG. induction PG; cbn [concat]; [reflexivity|apply Permutation_app_head; assumption| |etransitivity; eassumption].
      rewrite !app_assoc. apply Permutation_app_tail, Permutation_app_comm. }
    apply (Permutation_NoDup PC) in D. apply (nodup_app_no _ _ i D C). apply in_concat. exists g. auto.
Qed.
Print Assumptions C156_assigned.

(** ** a representation that matches the degeneracies *)
Lemma place_exact i : forall gs j, (forall k, j + k < i -> nth k gs [] = []) -> j <= i -> i - j < length gs -> nth (i - j) gs [] <> [] ->
  exists x r, nth (i - j) gs [] = x :: r /\ exists gs', place i 0 j gs = Some (x, gs', i) /\ length gs' = length gs /\
    forall k, nth k gs' [] = if Nat.eqb k (i - j) then r else nth k gs [].
Proof.
  induction gs as [|g gs IH]; intros j HE Hj HL HN; [cbn in HL; lia|]. cbn [place].
  destruct (Z.ltb_spec 0 (Z.of_nat j - Z.of_nat i)) as [C|_]; [lia|]. destruct (Nat.eq_dec j i) as [->|Hne].
  - rewrite Nat.sub_diag in *. cbn [nth] in *. destruct g as [|x r]; [contradiction|]. exists x, r. split; [reflexivity|]. exists (r :: gs). split; [reflexivity|].
    split; [reflexivity|]. intros [|k]; reflexivity.
  - assert (Hg : g = []) by (apply (HE 0); lia). subst g. replace (i - j) with (S (i - S j)) in * by lia. cbn [nth length] in *.
    destruct (IH (S j)) as (x & r & En & gs' & P & L & K); [intros k Hk; apply (HE (S k)); lia|lia|lia|exact HN|].
    exists x, r. split; [exact En|]. rewrite P. exists ([] :: gs'). split; [reflexivity|]. split; [cbn; lia|].
    intros [|k]; cbn [nth Nat.eqb]; [reflexivity|apply K].
Qed.
Lemma assign_exact : forall todo gs, StronglySorted (fun p q : nat * Z => fst p <= fst q) todo -> (forall p, In p todo -> fst p < length gs) ->
  (forall j, length (nth j gs []) = count_occ Nat.eq_dec (map fst todo) j) -> (forall j g, In g (nth j gs []) -> length g = S j) ->
  exists l, assign todo 0 gs = Some l /\ Forall2 (fun p q => length (fst p) = S (fst q)) l todo.
Proof.
  induction todo as [|[i s] todo IH]; intros gs Hs Hb Hc Hl; [exists []; split; [reflexivity|constructor]|].
  inversion Hs as [|y z Hs' Hmin]; subst. rewrite Forall_forall in Hmin. assert (Ci := Hc i). cbn [map fst count_occ] in Ci. destruct (Nat.eq_dec i i) as [_|]; [|contradiction].
  destruct (place_exact i gs 0) as (x & r & En & gs' & P & L & K).
  - intros k Hk. cbn in Hk. specialize (Hc k). cbn [map fst count_occ] in Hc. destruct (Nat.eq_dec i k) as [|_]; [lia|].
    destruct (nth k gs []); [reflexivity|]. exfalso. cbn [length] in Hc. assert (C : In k (map fst todo)) by (apply (count_occ_In Nat.eq_dec); lia).
    apply in_map_iff in C. destruct C as ([k' s'] & <- & C). specialize (Hmin _ C). cbn in *. lia.
  - lia.
  - rewrite Nat.sub_0_r. apply (Hb (i, s)). left. reflexivity.
  - rewrite Nat.sub_0_r. intros C. rewrite C in Ci. discriminate.
  - rewrite Nat.sub_0_r in En, K. cbn [assign]. rewrite P. replace (0 - Z.max 0 (Z.of_nat i - Z.of_nat i))%Z with 0%Z by lia.
    destruct (IH gs') as (l & A & F).
    + exact Hs'.
    + intros p Hp. rewrite L. apply Hb. right. exact Hp.
    + intros j. rewrite K. specialize (Hc j). cbn [map fst count_occ] in Hc. destruct (Nat.eqb_spec j i) as [->|N].
      * destruct (Nat.eq_dec i i); [|contradiction]. rewrite En in Hc. cbn [length] in Hc. lia.
      * destruct (Nat.eq_dec i j); [congruence|exact Hc].
    + intros j g Hg. rewrite K in Hg. destruct (Nat.eqb_spec j i) as [->|N]; [|auto]. apply Hl. rewrite En. right. exact Hg.
    + exists ((x, s) :: l). rewrite A. split; [reflexivity|]. constructor; [|exact F]. cbn [fst]. apply Hl. rewrite En. left. reflexivity.
Qed.
Lemma todo_sorted k0 unique : forall n s, StronglySorted (fun p q : nat * Z => fst p <= fst q)
  (flat_map (fun i => map (pair i) (filter (fun b => Nat.eqb (degen k0 b) (S i)) unique)) (seq s n)).
Proof.
  induction n as [|n IH]; intros s; [constructor|]. cbn [seq flat_map].
  assert (B : forall p, In p (flat_map (fun i => map (pair i) (filter (fun b => Nat.eqb (degen k0 b) (S i)) unique)) (seq (S s) n)) -> s <= fst p).
  { intros p H. apply in_flat_map in H. destruct H as (i & Hi & H). apply in_map_iff in H. destruct H as (e & <- & _). apply in_seq in Hi. cbn. lia. }
  generalize (IH (S s)) B. generalize (flat_map (fun i => map (pair i) (filter (fun b => Nat.eqb (degen k0 b) (S i)) unique)) (seq (S s) n)). intros r Hr Hb.
  induction (filter (fun b => Nat.eqb (degen k0 b) (S s)) unique) as [|e m IHm]; [exact Hr|]. cbn [map app]. constructor; [exact IHm|].
  apply Forall_forall. intros p Hp. apply in_app_or in Hp. destruct Hp as [Hp|Hp]; [apply in_map_iff in Hp; destruct Hp as (e' & <- & _); reflexivity|apply Hb; exact Hp].
Qed.
Lemma todo_count k0 unique j : forall n s, count_occ Nat.eq_dec (map fst (flat_map (fun i => map (pair i) (filter (fun b => Nat.eqb (degen k0 b) (S i)) unique)) (seq s n))) j =
  if Nat.leb s j && Nat.ltb j (s + n) then length (filter (fun b => Nat.eqb (degen k0 b) (S j)) unique) else 0.
Proof.
  induction n as [|n IH]; intros s.
  - cbn [seq flat_map map count_occ]. destruct (Nat.leb_spec s j), (Nat.ltb_spec j (s + 0)); cbn [andb]; try lia.
  - cbn [seq flat_map]. rewrite map_app, count_occ_app, IH, map_map. cbn [fst].
    assert (C : forall m : list Z, count_occ Nat.eq_dec (map (fun _ => s) m) j = if Nat.eqb s j then length m else 0).
    { induction m as [|e m IHm]; [cbn; destruct (Nat.eqb s j); reflexivity|]. cbn [map count_occ length]. rewrite IHm. destruct (Nat.eq_dec s j), (Nat.eqb_spec s j); try contradiction; lia. }
    rewrite C. destruct (Nat.eqb_spec s j) as [Esj|N]; destruct (Nat.leb_spec (S s) j), (Nat.ltb_spec j (S s + n)), (Nat.leb_spec s j), (Nat.ltb_spec j (s + S n)); try lia; cbn [andb]; try lia.
    all: subst s; lia.
Qed.
Lemma count_flat (k0 : list Z) e : forall unique, NoDup unique -> count_occ Z.eq_dec (flat_map (fun s => repeat s (degen k0 s)) unique) e =
  if in_dec Z.eq_dec e unique then degen k0 e else 0.
Proof.
  assert (RP : forall s n, count_occ Z.eq_dec (repeat s n) e = if Z.eq_dec s e then n else 0).
  { intros s n. induction n as [|n IH]; [cbn; destruct (Z.eq_dec s e); reflexivity|]. cbn [repeat count_occ]. rewrite IH. destruct (Z.eq_dec s e); reflexivity. }
  induction 1 as [|s m Hn _ IH]; [reflexivity|]. cbn [flat_map]. rewrite count_occ_app, RP, IH.
  destruct (in_dec Z.eq_dec e (s :: m)) as [I|I], (in_dec Z.eq_dec e m) as [I'|I'], (Z.eq_dec s e) as [->|D]; try contradiction; try lia; exfalso.
  all: cbn [In] in *; tauto.
Qed.
Lemma data_perm k0 unique : is_set k0 unique -> Permutation (flat_map (fun s => repeat s (degen k0 s)) unique) k0.
Proof.
  intros (HU & HI). apply (Permutation_count_occ Z.eq_dec). intros e. rewrite count_flat by exact HU. destruct (in_dec Z.eq_dec e unique) as [I|I]; [reflexivity|].
  symmetry. apply count_occ_not_In. intros C. apply I, HI. exact C.
Qed.
(** the values of the writes to disjoint groups *)
Lemma writes_values f ws : NoDup (concat (map fst ws)) ->
  map (fold_left write ws f) (concat (map fst ws)) = flat_map (fun w => repeat (snd w) (length (fst w))) ws.
Proof.
  intros HN. assert (G : forall ws', incl ws' ws -> map (fold_left write ws f) (concat (map fst ws')) = flat_map (fun w => repeat (snd w) (length (fst w))) ws').
  { induction ws' as [|[g s] ws' IH]; intros HI; [reflexivity|]. cbn [map concat flat_map fst snd]. rewrite map_app, IH by (intros x Hx; apply HI; right; exact Hx). f_equal.
    assert (V : forall i, In i g -> fold_left write ws f i = s) by (intros i Hi; apply (writes_in ws f g); auto; apply HI; left; reflexivity).
    clear -V. induction g as [|i g IHg]; [reflexivity|]. cbn [map length repeat]. rewrite V by (left; reflexivity). f_equal. apply IHg. intros; apply V; right; assumption. }
  apply G. apply incl_refl.
Qed.
Lemma perm_concat {A} (l l' : list (list A)) : Permutation l l' -> Permutation (concat l) (concat l').
Proof.
  induction 1; cbn [concat]; [reflexivity|apply Permutation_app_head; assumption| |etransitivity; eassumption].
  rewrite !app_assoc. apply Permutation_app_tail, Permutation_app_comm.
Qed.
(** when every group gets one energy of its own size, the bands at k = 0 are the data *)
Lemma writes_data N groups k0 unique base ws : partition N groups -> is_set k0 unique -> Permutation groups (map fst ws) -> Permutation unique (map snd ws) ->
  Forall (fun w => length (fst w) = degen k0 (snd w)) ws -> Permutation (bands_list N (replay base ws)) k0.
Proof.
  intros (HP & _) HS PG PU HL. unfold bands_list, replay.
  assert (ND : NoDup (concat (map fst ws))).
  { eapply Permutation_NoDup; [apply perm_concat; exact PG|]. eapply Permutation_NoDup; [apply Permutation_sym; exact HP|apply seq_NoDup]. }
  transitivity (map (fold_left write ws (fun _ => base)) (concat (map fst ws))).
  { apply Permutation_map. rewrite <- HP. apply perm_concat. exact PG. }
  rewrite writes_values by exact ND. rewrite <- (data_perm k0 unique HS). symmetry.
  transitivity (flat_map (fun s => repeat s (degen k0 s)) (map snd ws)); [apply Permutation_flat_map; exact PU|].
  clear -HL. induction HL as [|w ws H HL IH]; [reflexivity|]. cbn [map flat_map]. rewrite H. apply Permutation_app_head. exact IH.
Qed.

Theorem C156_exact_partial : forall dim N shuffle groups k0 unique, is_shuffle shuffle -> partition N groups -> is_set k0 unique -> N = length k0 ->
  (forall g, In g groups -> length g <= dim) -> (forall e, count_occ Z.eq_dec k0 e <= dim) ->
  (forall j, 1 <= j <= dim -> length (filter (fun g => Nat.eqb (length g) j) groups) = length (filter (fun e => Nat.eqb (count_occ Z.eq_dec k0 e) j) unique)) ->
  exists b, match_bands dim N shuffle groups k0 unique = Some b /\ Permutation (bands_list N b) k0.
Proof.
  intros dim N shuffle groups k0 unique HS HP HU HN HG HD HC.
  assert (SH : forall i l, length (shuffle i l) = length l) by (intros i l; apply Permutation_length, HS).
  assert (NG : forall j, nth j (groups2 dim shuffle groups) [] = if Nat.ltb j dim then shuffle j (filter (fun g => Nat.eqb (length g) (S j)) groups) else []).
  { intros j. unfold groups2. destruct (Nat.ltb_spec j dim) as [L|L].
    - rewrite (nth_indep _ _ (shuffle 0 (filter (fun g => Nat.eqb (length g) 1) groups))) by (rewrite map_length, seq_length; exact L).
      rewrite (map_nth (fun i => shuffle i (filter (fun g => Nat.eqb (length g) (S i)) groups)) (seq 0 dim) 0 j), seq_nth by exact L. reflexivity.
    - apply nth_overflow. rewrite map_length, seq_length. exact L. }
  destruct (assign_exact (todo_list dim k0 unique) (groups2 dim shuffle groups)) as (l & A & F).
  - apply todo_sorted.
  - intros p H. unfold groups2. rewrite map_length, seq_length. unfold todo_list in H. apply in_flat_map in H. destruct H as (i & Hi & H). apply in_map_iff in H.
    destruct H as (e & <- & _). apply in_seq in Hi. cbn. lia.
  - intros j. rewrite NG. unfold todo_list. rewrite todo_count. cbn [Nat.leb andb plus]. destruct (Nat.ltb_spec j dim) as [L|L]; [|reflexivity].
    rewrite SH. apply (HC (S j)). lia.
  - intros j g Hg. rewrite NG in Hg. destruct (Nat.ltb j dim); [|contradiction]. eapply Permutation_in in Hg; [|apply HS]. apply filter_In in Hg. apply Nat.eqb_eq, Hg.
  - destruct (assign_perm _ _ _ _ A) as (E & rest & P). rewrite groups2_perm in P by exact HS.
    assert (FG : filter (small dim) groups = groups).
    { destruct HP as (_ & HNE). rewrite Forall_forall in HNE. clear -HG HNE. induction groups as [|g gs IH]; [reflexivity|]. cbn [filter].
      replace (small dim g) with true; [f_equal; apply IH; intros; [apply HNE|apply HG]; right; assumption|].
      symmetry. unfold small. apply andb_true_iff. split; apply Nat.leb_le; [|apply HG; left; reflexivity].
      specialize (HNE g (or_introl eq_refl)). destruct g; [contradiction|cbn; lia]. }
    rewrite FG in P.
    assert (PT : Permutation unique (map snd l)).
    { rewrite E. pose proof HU as (HN1 & HIN). apply NoDup_Permutation; [exact HN1|apply todo_nodup; [exact HN1|apply seq_NoDup]|].
      intros e. rewrite in_map_iff. split.
      - intros He. exists (count_occ Z.eq_dec k0 e - 1, e). split; [reflexivity|]. assert (1 <= count_occ Z.eq_dec k0 e) by (apply HIN, (count_occ_In Z.eq_dec) in He; lia).
        specialize (HD e). unfold todo_list. apply in_flat_map. exists (count_occ Z.eq_dec k0 e - 1). split; [apply in_seq; lia|].
        apply in_map. apply filter_In. split; [exact He|]. apply Nat.eqb_eq. unfold degen. lia.
      - intros ([i e'] & <- & H). unfold todo_list in H. apply in_flat_map in H. destruct H as (i' & _ & H). apply in_map_iff in H. destruct H as (e & Ee & H).
        injection Ee as -> ->. apply filter_In in H. apply H. }
    assert (FL : Forall (fun w => length (fst w) = degen k0 (snd w)) l).
    { assert (TD : forall p, In p (todo_list dim k0 unique) -> degen k0 (snd p) = S (fst p)).
      { intros p H. unfold todo_list in H. apply in_flat_map in H. destruct H as (i & _ & H). apply in_map_iff in H. destruct H as (e & <- & H). apply filter_In in H. apply Nat.eqb_eq, H. }
      clear -F E TD. revert E TD. induction F as [|w q l todo H F IH]; intros E TD; constructor.
      - cbn [map] in E. injection E as E1 E2. rewrite H, E1. symmetry. apply TD. left. reflexivity.
      - cbn [map] in E. injection E as E1 E2. apply IH; [exact E2|]. intros p Hp. apply TD. right. exact Hp. }
    assert (LE : length (concat (map fst l)) = length k0).
    { rewrite <- (Permutation_length (data_perm k0 unique HU)).
      rewrite (Permutation_length (Permutation_flat_map (fun s => repeat s (degen k0 s)) PT)).
      clear -FL. induction FL as [|w l H FL IH]; [reflexivity|]. cbn [map concat flat_map]. rewrite !app_length, repeat_length, H, IH. reflexivity. }
    assert (R0 : rest = []).
    { destruct HP as (HP & HNE). assert (L2 := Permutation_length HP). rewrite (Permutation_length (perm_concat _ _ P)), concat_app, app_length, LE, seq_length, <- HN in L2.
      destruct rest as [|g rest]; [reflexivity|]. exfalso. assert (Hg : In g groups) by (apply (Permutation_in _ (Permutation_sym P)), in_or_app; right; left; reflexivity).
      rewrite Forall_forall in HNE. specialize (HNE g Hg). cbn [concat] in L2. rewrite app_length in L2. destruct g; [contradiction|cbn [length] in L2; lia]. }
    subst rest. rewrite app_nil_r in P. exists (replay (start_value k0) l). split.
    + unfold match_bands. replace (Nat.ltb (length groups) (length unique)) with false; [subst N; rewrite Z.sub_diag, A; reflexivity|].
      symmetry. apply Nat.ltb_ge. rewrite (Permutation_length PT), (Permutation_length P), !map_length. lia.
    + apply (writes_data N groups k0 unique); assumption.
Qed.
Print Assumptions C156_exact_partial.

(** ** the order of the representation *)
Lemma ordered_exact k0 last : forall l i, Forall (fun p => degen k0 (fst p) = length (snd p)) l -> ordered k0 last i 0 l = Some (map (fun p => (snd p, fst p)) l).
Proof.
  induction l as [|[s g] l IH]; intros i H; [reflexivity|]. inversion H as [|x y H1 H2]; subst. cbn [ordered map fst snd] in *. rewrite H1, Z.sub_diag, Nat.eqb_refl.
  cbn [negb]. change (0 - Z.max 0 0)%Z with 0%Z. rewrite !(IH (S i) H2). destruct (Nat.eqb i 0 || Nat.eqb i last)%bool; reflexivity.
Qed.
Theorem C156_ordered_partial : forall N groups k0 unique, partition N groups -> is_set k0 unique -> N = length k0 ->
  map (count_occ Z.eq_dec k0) (sort_by (fun z => z) unique) = map (@length nat) (sort_by (fun g => Z.of_nat (hd 0 g)) groups) ->
  exists b, match_ordered N groups k0 unique = Some b /\ Permutation (bands_list N b) k0.
Proof.
  intros N groups k0 unique HP HU HN HE. set (us := sort_by (fun z => z) unique) in *. set (gs := sort_by (fun g => Z.of_nat (hd 0 g)) groups) in *.
  assert (PU : Permutation us unique) by apply sort_by_perm. assert (PG : Permutation gs groups) by apply sort_by_perm.
  assert (L : length us = length gs) by (apply (f_equal (@length nat)) in HE; rewrite !map_length in HE; exact HE).
  assert (HF : Forall (fun p : Z * list nat => degen k0 (fst p) = length (snd p)) (combine us gs)).
  { clearbody us gs. clear -HE. revert gs HE. induction us as [|u us IH]; intros [|g gs] HE; try discriminate; [constructor|]. cbn [map combine] in *. injection HE as E1 E2. constructor; auto. }
  assert (M1 : map fst (combine us gs) = us) by (clearbody us gs; clear -L; revert gs L; induction us as [|u us IH]; intros [|g gs] L; try discriminate; [reflexivity|]; cbn; f_equal; apply IH; injection L; auto).
  assert (M2 : map snd (combine us gs) = gs) by (clearbody us gs; clear -L; revert gs L; induction us as [|u us IH]; intros [|g gs] L; try discriminate; [reflexivity|]; cbn; f_equal; apply IH; injection L; auto).
  unfold match_ordered. fold us gs. replace (Nat.ltb (length groups) (length unique)) with false.
  - rewrite HN, Z.sub_diag, (ordered_exact k0 _ _ _ HF). cbn [option_map]. eexists. split; [reflexivity|].
    rewrite <- HN. apply (writes_data N groups k0 unique); [exact HP|exact HU| | |].
    + rewrite map_map. cbn [fst]. change (map (fun x : Z * list nat => snd x)) with (map (@snd Z (list nat))). rewrite M2. symmetry. exact PG.
    + rewrite map_map. cbn [snd]. change (map (fun x : Z * list nat => fst x)) with (map (@fst Z (list nat))). rewrite M1. symmetry. exact PU.
    + apply Forall_map. cbn [fst snd]. eapply Forall_impl; [|exact HF]. intros p H. symmetry. exact H.
  - symmetry. apply Nat.ltb_ge. rewrite <- (Permutation_length PU), <- (Permutation_length PG), L. lia.
Qed.
Print Assumptions C156_ordered_partial.

(** a degenerate energy of the data gets one small group: here three bands without symmetry and the data 0, 1, 1 *)
Theorem C156_degenerate_refuted : ~ forall dim N shuffle groups k0 unique b e, is_shuffle shuffle -> partition N groups -> is_set k0 unique -> N = length k0 ->
  match_bands dim N shuffle groups k0 unique = Some b \/ match_ordered N groups k0 unique = Some b ->
  count_occ Z.eq_dec k0 e <= count_occ Z.eq_dec (bands_list N b) e.
Proof.
  intros C. specialize (C 3 3 (fun _ l => l) [[0];[1];[2]] [0;1;1]%Z [0;1]%Z (replay (-1000)%Z [([0], 0%Z); ([1], 1%Z)]) 1%Z).
  assert (H : count_occ Z.eq_dec [0;1;1]%Z 1%Z <= count_occ Z.eq_dec (bands_list 3 (replay (-1000)%Z [([0], 0%Z); ([1], 1%Z)])) 1%Z).
  { apply C; [intros i l; reflexivity|split; [reflexivity|repeat constructor; discriminate]| |reflexivity|left; reflexivity].
    split; [constructor; [intros [H|[]]; discriminate|constructor; [intros []|constructor]]|]. intros e. cbn. tauto. }
  vm_compute in H. lia.
Qed.
Print Assumptions C156_degenerate_refuted.
(** the same with use_repr_order=True *)
Theorem C156_ordered_refuted : exists b, partition 3 [[0];[1];[2]] /\ is_set [0;1;1]%Z [0;1]%Z /\ match_ordered 3 [[0];[1];[2]] [0;1;1]%Z [0;1]%Z = Some b /\
  bands_list 3 b = [0; 1; -1000]%Z.
Proof.
  eexists. split; [split; [reflexivity|repeat constructor; discriminate]|]. split; [|split; reflexivity].
  split; [constructor; [intros [H|[]]; discriminate|constructor; [intros []|constructor]]|]. intros e. cbn. tauto.
Qed.
(** an energy with a degeneracy above dim is not represented at all *)
Theorem C156_dropped_refuted : exists b, partition 3 [[0];[1];[2]] /\ is_set [0;1;1]%Z [0;1]%Z /\ match_bands 1 3 (fun _ l => l) [[0];[1];[2]] [0;1;1]%Z [0;1]%Z = Some b /\
  bands_list 3 b = [0; -1000; -1000]%Z.
Proof.
  eexists. split; [split; [reflexivity|repeat constructor; discriminate]|]. split; [|split; reflexivity].
  split; [constructor; [intros [H|[]]; discriminate|constructor; [intros []|constructor]]|]. intros e. cbn. tauto.
Qed.
(** the model that is returned has the assigned energies as its bands at k = 0 *)
Theorem C156_gamma : forall dv q (r : urep Cs) ns N b P m f P' n k, tbm_new dv q r ns (Some (N, diag_mat b :: P)) = TbOk m ->
  UrepModel2.urep_symmetrizer (K:=Cs) dv r ns = UrepModel2.TOk f -> f (tparams m) = Some P' -> (forall a, a < n -> k a = 0%R) ->
  forall i j, tbm_f n (MkTbm (tnb m) P') k i j = (if Nat.eqb i j then (IZR (b i) / 100000, 0) else (0, 0))%R.
Proof.
  intros dv q r ns N b P m f P' n k HM HF HP Hk i j. rewrite (C106_symmetrizer_trivial dv q r ns _ m f (tparams m) HM HF) in HP. injection HP as <-.
  rewrite C107_gamma by exact Hk. cbn [tparams]. apply C106_constructor in HM. destruct HM as (_ & _ & _ & _ & _ & _ & ->). reflexivity.
Qed.
Print Assumptions C156_gamma.
(** an s and a p orbital with the energies 0 (once) and 500 (three times) *)
Example C156_ex : partition 4 [[1;2;3];[0]] /\ is_set [500;0;500;500]%Z [500;0]%Z /\
  (exists b, match_bands 3 4 (fun _ l => l) [[1;2;3];[0]] [500;0;500;500]%Z [500;0]%Z = Some b /\ bands_list 4 b = [0;500;500;500]%Z) /\
  (exists b, match_ordered 4 [[1;2;3];[0]] [500;0;500;500]%Z [500;0]%Z = Some b /\ bands_list 4 b = [0;500;500;500]%Z) /\
  match_bands 3 4 (fun _ l => l) [[1;2;3];[0]] [500;0;500;1]%Z [500;0;1]%Z = None.
Proof.
  split; [split; [exact (perm_trans (Permutation_app_comm [1;2;3] [0]) (Permutation_refl _))|repeat constructor; discriminate]|].
  split; [split; [constructor; [intros [H|[]]; discriminate|constructor; [intros []|constructor]]|intros e; cbn; tauto]|].
  split; [eexists; split; reflexivity|]. split; [eexists; split; reflexivity|reflexivity].
Qed.

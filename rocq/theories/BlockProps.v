(** Block algebra of direct_sum and kron (C41). *)
From Coq Require Import List Arith Bool Lia ZArith.
Import ListNotations.
From Verif Require Import SRing LMat FMat FourierModel UrepProofs LinalgModel.

Local Arguments Nat.ltb : simpl never.
Local Arguments Nat.eqb : simpl never.
Local Arguments Nat.div : simpl never.
Local Arguments Nat.modulo : simpl never.
Local Arguments nsum : simpl never.
Local Arguments fmul : simpl never.
Local Arguments fid : simpl never.
Local Arguments fadj : simpl never.
Section Blocks.
Context {K : sring}.
Open Scope sring_scope.
Add Ring Kring_blocks : (s_rt K).
Notation smat := (smat K).

(** Specification. Equality of shaped matrices, product, adjoint, identity. *)
Definition sequiv (a b : smat) : Prop := sr a = sr b /\ sc a = sc b /\ feq (sr a) (sc a) (sf a) (sf b).
Definition sprod (a b : smat) : smat := MkS (sr a) (sc b) (fmul (sc a) (sf a) (sf b)).
Definition sadj (a : smat) : smat := MkS (sc a) (sr a) (fadj (sf a)).
Definition sid (n : nat) : smat := MkS n n fid.
Definition composable (a b : smat) : Prop := sc a = sr b.
(** the row (column) where the p-th block starts *)
Definition row_off (l : list smat) (p : nat) : nat := list_sum (map sr (firstn p l)).
Definition col_off (l : list smat) (p : nat) : nat := list_sum (map sc (firstn p l)).
Definition smat0 : smat := MkS 0 0 (fun _ _ => 0).
(** s is the block diagonal matrix with the given blocks *)
Definition block_diag (l : list smat) (s : smat) : Prop :=
  sr s = list_sum (map sr l) /\ sc s = list_sum (map sc l) /\
  forall p q i j, (p < length l)%nat -> (q < length l)%nat -> (i < sr (nth p l smat0))%nat -> (j < sc (nth q l smat0))%nat ->
    sf s (row_off l p + i)%nat (col_off l q + j)%nat = if Nat.eqb p q then sf (nth p l smat0) i j else 0.
(** eigenvalue equation M v = lambda v *)
Definition eigen (m : smat) (v : nat -> K) (la : K) : Prop :=
  sr m = sc m /\ forall i, (i < sr m)%nat -> nsum (sc m) (fun j => sf m i j * v j) = la * v i.

Lemma row_off_snoc l b p : (p <= length l)%nat -> row_off (l ++ [b]) p = row_off l p.
Proof. intros H. unfold row_off. rewrite firstn_app. replace (p - length l)%nat with 0%nat by lia. cbn. now rewrite app_nil_r. Qed.
Lemma col_off_snoc l b p : (p <= length l)%nat -> col_off (l ++ [b]) p = col_off l p.
Proof. intros H. unfold col_off. rewrite firstn_app. replace (p - length l)%nat with 0%nat by lia. cbn. now rewrite app_nil_r. Qed.
Lemma off_in (f : smat -> nat) l p : (p < length l)%nat -> (list_sum (map f (firstn p l)) + f (nth p l smat0) <= list_sum (map f l))%nat.
Proof.
  unfold list_sum. revert p. induction l as [|a l IH]; intros p Hp; cbn in Hp; [lia|]. destruct p as [|p]; cbn; [lia|]. specialize (IH p ltac:(lia)). lia.
Qed.
Lemma block_diag_snoc l s b : block_diag l s -> block_diag (l ++ [b]) (ds2 s b).
Proof.
  intros (R & C & E). split; [|split].
  - cbn. rewrite map_app, list_sum_app, R. cbn. lia.
  - cbn. rewrite map_app, list_sum_app, C. cbn. lia.
  - intros p q i j Hp Hq Hi Hj. rewrite app_length in Hp, Hq. cbn in Hp, Hq.
    rewrite row_off_snoc, col_off_snoc by lia. cbn [ds2 sf].
    destruct (Nat.eq_dec p (length l)) as [->|Np].
    + rewrite (app_nth2 l [b]) in Hi |- * by lia. rewrite Nat.sub_diag in *. cbn [nth] in *.
      assert (Ro : row_off l (length l) = sr s) by (unfold row_off; rewrite firstn_all; auto).
      rewrite Ro. destruct (Nat.ltb_spec (sr s + i) (sr s)); [lia|].
      destruct (Nat.eq_dec q (length l)) as [->|Nq].
      * assert (Co : col_off l (length l) = sc s) by (unfold col_off; rewrite firstn_all; auto).
        rewrite Co, Nat.eqb_refl. destruct (Nat.ltb_spec (sc s + j) (sc s)); [lia|]. f_equal; lia.
      * rewrite app_nth1 in Hj by lia. pose proof (off_in sc l q ltac:(lia)) as O. unfold col_off.
        rewrite <- C in O. destruct (Nat.ltb_spec (list_sum (map sc (firstn q l)) + j) (sc s)); [|lia].
        destruct (Nat.eqb_spec (length l) q); [lia|reflexivity].
    + rewrite (app_nth1 l [b]) in Hi |- * by lia. pose proof (off_in sr l p ltac:(lia)) as O. rewrite <- R in O. fold (row_off l p) in O.
      destruct (Nat.ltb_spec (row_off l p + i) (sr s)); [|lia].
      destruct (Nat.eq_dec q (length l)) as [->|Nq].
      * assert (Co : col_off l (length l) = sc s) by (unfold col_off; rewrite firstn_all; auto).
        rewrite Co. destruct (Nat.ltb_spec (sc s + j) (sc s)); [lia|]. destruct (Nat.eqb_spec p (length l)); [lia|reflexivity].
      * rewrite app_nth1 in Hj by lia. pose proof (off_in sc l q ltac:(lia)) as O'. rewrite <- C in O'. fold (col_off l q) in O'.
        destruct (Nat.ltb_spec (col_off l q + j) (sc s)); [|lia]. apply E; lia.
Qed.
Lemma block_diag_one a : block_diag [a] a.
Proof.
  split; [cbn; lia|]. split; [cbn; lia|]. intros p q i j Hp Hq Hi Hj. cbn in Hp, Hq.
  assert (p = 0)%nat as -> by lia. assert (q = 0)%nat as -> by lia. reflexivity.
Qed.
Theorem C41_blocks (l : list smat) s : direct_sum l = Some s -> block_diag l s.
Proof.
  destruct l as [|a l]; [discriminate|]. cbn [direct_sum]. intros H. injection H as <-.
  induction l as [|b l IH] using rev_ind; [apply block_diag_one|].
  rewrite fold_left_app. cbn [fold_left]. change (a :: l ++ [b]) with ((a :: l) ++ [b]). apply block_diag_snoc. exact IH.
Qed.

(** equality *)
Lemma sequiv_refl a : sequiv a a. Proof. repeat split. Qed.
Lemma sequiv_trans a b c : sequiv a b -> sequiv b c -> sequiv a c.
Proof.
  intros (R & C & E) (R' & C' & E'). split; [congruence|]. split; [congruence|]. intros i j Hi Hj.
  rewrite E by assumption. apply E'; congruence.
Qed.
Lemma ds2_proper a a' b b' : sequiv a a' -> sequiv b b' -> sequiv (ds2 a b) (ds2 a' b').
Proof.
  intros (R & C & E) (R' & C' & E'). split; [cbn; congruence|]. split; [cbn; congruence|]. intros i j Hi Hj. cbn in *.
  rewrite <- R, <- C. destruct (Nat.ltb_spec i (sr a)), (Nat.ltb_spec j (sc a)); try reflexivity; solve [apply E; lia | apply E'; lia].
Qed.
(** products *)
Lemma ds2_mul a b a' b' : composable a a' -> composable b b' -> sequiv (sprod (ds2 a b) (ds2 a' b')) (ds2 (sprod a a') (sprod b b')).
Proof.
  unfold composable. intros Ha Hb. split; [reflexivity|]. split; [reflexivity|]. intros i j Hi Hj. cbn in *. unfold fmul.
  rewrite nsum_plus.
  assert (L1 : forall l, (l < sc a)%nat -> sf (ds2 a b) i l * sf (ds2 a' b') l j =
     if Nat.ltb i (sr a) then (if Nat.ltb j (sc a') then sf a i l * sf a' l j else 0) else 0).
  { intros l Hl. cbn. rewrite (proj2 (Nat.ltb_lt l (sc a)) Hl), <- Ha, (proj2 (Nat.ltb_lt l (sc a)) Hl).
    destruct (Nat.ltb i (sr a)), (Nat.ltb j (sc a')); ring. }
  assert (L2 : forall l, (l < sc b)%nat -> sf (ds2 a b) i (sc a + l)%nat * sf (ds2 a' b') (sc a + l)%nat j =
     if Nat.ltb i (sr a) then 0 else (if Nat.ltb j (sc a') then 0 else sf b (i - sr a)%nat l * sf b' l (j - sc a')%nat)).
  { intros l Hl. cbn. rewrite <- Ha. rewrite (proj2 (Nat.ltb_ge (sc a + l)%nat (sc a))) by lia.
    replace (sc a + l - sc a)%nat with l by lia.
    destruct (Nat.ltb i (sr a)), (Nat.ltb j (sc a')); ring. }
  cbn in L1, L2. rewrite (nsum_ext K (sc a) _ _ L1), (nsum_ext K (sc b) _ _ L2).
  destruct (Nat.ltb i (sr a)), (Nat.ltb j (sc a')).
  - rewrite (nsum_zero K (sc b)) by reflexivity. ring.
  - rewrite !(nsum_zero K) by reflexivity. ring.
  - rewrite !(nsum_zero K) by reflexivity. ring.
  - rewrite (nsum_zero K (sc a)) by reflexivity. ring.
Qed.
Lemma fold_ds2_proper l l' : Forall2 sequiv l l' -> forall a a', sequiv a a' -> sequiv (fold_left ds2 l a) (fold_left ds2 l' a').
Proof. induction 1; intros a a' H'; cbn; [exact H'|]. apply IHForall2. apply ds2_proper; assumption. Qed.
Fixpoint zip_prod (l l' : list smat) : list smat :=
  match l, l' with a :: r, b :: r' => sprod a b :: zip_prod r r' | _, _ => [] end.
Lemma fold_ds2_composable l l' : Forall2 composable l l' -> forall a a', composable a a' -> composable (fold_left ds2 l a) (fold_left ds2 l' a').
Proof. induction 1; intros a a' H'; cbn; [exact H'|]. apply IHForall2. unfold composable in *. cbn. lia. Qed.
Lemma fold_ds2_mul l l' : Forall2 composable l l' -> forall a a', composable a a' ->
  sequiv (sprod (fold_left ds2 l a) (fold_left ds2 l' a')) (fold_left ds2 (zip_prod l l') (sprod a a')).
Proof.
  induction 1 as [|b b' l l' Hb HF IH]; intros a a' Ha; cbn [fold_left zip_prod]; [apply sequiv_refl|].
  eapply sequiv_trans; [apply IH; unfold composable in *; cbn; lia|].
  apply fold_ds2_proper; [|apply ds2_mul; assumption]. clear. induction (zip_prod l l'); constructor; auto using sequiv_refl.
Qed.
Theorem C41_direct_sum_mul (l l' : list smat) s s' : Forall2 composable l l' -> direct_sum l = Some s -> direct_sum l' = Some s' ->
  exists t, direct_sum (zip_prod l l') = Some t /\ composable s s' /\ sequiv (sprod s s') t.
Proof.
  intros HF. destruct HF as [|a a' l l' Ha HF]; [discriminate|]. cbn. intros E E'. injection E as <-. injection E' as <-.
  eexists. split; [reflexivity|]. split; [apply fold_ds2_composable; assumption|apply fold_ds2_mul; assumption].
Qed.
(** adjoint and identity *)
Lemma ds2_adj a b : sequiv (sadj (ds2 a b)) (ds2 (sadj a) (sadj b)).
Proof.
  split; [reflexivity|]. split; [reflexivity|]. intros i j Hi Hj. cbn. unfold fadj. cbn.
  destruct (Nat.ltb j (sr a)), (Nat.ltb i (sc a)); auto; apply conj_0.
Qed.
Theorem C41_direct_sum_adj (l : list smat) s : direct_sum l = Some s ->
  exists t, direct_sum (map sadj l) = Some t /\ sequiv (sadj s) t.
Proof.
  destruct l as [|a l]; [discriminate|]. cbn. intros E. injection E as <-. eexists. split; [reflexivity|].
  revert a. induction l as [|b l IH]; intros a; cbn [fold_left map]; [apply sequiv_refl|].
  eapply sequiv_trans; [apply IH|]. apply fold_ds2_proper; [clear; induction (map sadj l); constructor; auto using sequiv_refl|apply ds2_adj].
Qed.
Lemma ds2_id n m : sequiv (ds2 (sid n) (sid m)) (sid (n + m)).
Proof.
  split; [reflexivity|]. split; [reflexivity|]. intros i j Hi Hj. cbn in *. unfold fid.
  destruct (Nat.ltb_spec i n), (Nat.ltb_spec j n); auto.
  - destruct (Nat.eqb_spec i j); [lia|reflexivity].
  - destruct (Nat.eqb_spec i j); [lia|reflexivity].
  - destruct (Nat.eqb_spec (i - n) (j - n)), (Nat.eqb_spec i j); auto; lia.
Qed.
Theorem C41_direct_sum_id (ns : list nat) s : direct_sum (map sid ns) = Some s -> sequiv s (sid (list_sum ns)).
Proof.
  destruct ns as [|n ns]; [discriminate|]. cbn. intros E. injection E as <-.
  assert (G : forall ns n a, sequiv a (sid n) -> sequiv (fold_left ds2 (map sid ns) a) (sid (n + list_sum ns))).
  { clear. induction ns as [|m ns IH]; intros n a H; cbn [map fold_left]; [rewrite Nat.add_0_r; exact H|].
    cbn [list_sum fold_right]. replace (n + (m + fold_right Nat.add 0 ns))%nat with (n + m + list_sum ns)%nat by (unfold list_sum; lia).
    apply IH. eapply sequiv_trans; [apply ds2_proper; [exact H|apply sequiv_refl]|apply ds2_id]. }
  apply G. apply sequiv_refl.
Qed.
(** eigenvectors *)
Lemma eigen_ds2 a b v la : sr a = sc a -> sr b = sc b ->
  (eigen (ds2 a b) v la <-> eigen a v la /\ eigen b (fun j => v (sr a + j)%nat) la).
Proof.
  intros Sa Sb.
  assert (X : forall i, (i < sr a)%nat -> nsum (sc a + sc b) (fun j => sf (ds2 a b) i j * v j) = nsum (sc a) (fun j => sf a i j * v j)).
  { intros i Hi. rewrite nsum_plus. cbn. rewrite (proj2 (Nat.ltb_lt i (sr a)) Hi).
    rewrite (nsum_zero K (sc b)).
    - transitivity (nsum (sc a) (fun j => sf a i j * v j) + 0); [|ring]. f_equal. apply nsum_ext. intros j Hj.
      rewrite (proj2 (Nat.ltb_lt j (sc a)) Hj). reflexivity.
    - intros j Hj. rewrite (proj2 (Nat.ltb_ge (sc a + j)%nat (sc a))) by lia. ring. }
  assert (Y : forall i, nsum (sc a + sc b) (fun j => sf (ds2 a b) (sr a + i)%nat j * v j) = nsum (sc b) (fun j => sf b i j * v (sr a + j)%nat)).
  { intros i. rewrite nsum_plus. cbn. rewrite (proj2 (Nat.ltb_ge (sr a + i)%nat (sr a))) by lia.
    rewrite (nsum_zero K (sc a)).
    - transitivity (0 + nsum (sc b) (fun j => sf b i j * v (sr a + j)%nat)); [|ring]. f_equal. apply nsum_ext. intros j Hj.
      rewrite (proj2 (Nat.ltb_ge (sc a + j)%nat (sc a))) by lia. rewrite Sa. repeat (f_equal; try lia).
    - intros j Hj. rewrite (proj2 (Nat.ltb_lt j (sc a))) by exact Hj. ring. }
  split.
  - intros [_ H]. cbn [sr sc ds2] in H. split; (split; [assumption|]); intros i Hi.
    + rewrite <- X by exact Hi. apply H. lia.
    + rewrite <- Y. apply H. lia.
  - intros [[_ H1] [_ H2]]. split; [cbn; lia|]. intros i Hi. cbn [sr sc ds2] in Hi |- *.
    destruct (Nat.lt_ge_cases i (sr a)) as [L|L]; [rewrite X by exact L; apply H1; exact L|].
    replace i with (sr a + (i - sr a))%nat by lia. rewrite Y. rewrite (H2 (i - sr a)%nat) by lia. reflexivity.
Qed.
Theorem C41_eigenpairs (l : list smat) s v la : Forall (fun m => sr m = sc m) l -> direct_sum l = Some s ->
  (eigen s v la <-> forall p, (p < length l)%nat -> eigen (nth p l smat0) (fun j => v (row_off l p + j)%nat) la).
Proof.
  destruct l as [|a l]; [discriminate|]. intros HF E. cbn in E. injection E as <-.
  induction l as [|b l IH] using rev_ind.
  - cbn. split.
    + intros H p Hp. destruct p; [|lia]. exact H.
    + intros H. exact (H 0%nat ltac:(lia)).
  - change (a :: l ++ [b]) with ((a :: l) ++ [b]) in *. apply Forall_app in HF. destruct HF as [HF Hb]. inversion Hb as [|? ? Sb _]; subst.
    rewrite fold_left_app. cbn [fold_left].
    pose proof (C41_blocks (a :: l) _ eq_refl) as (R & C & _). set (s := fold_left ds2 l a) in *.
    assert (Ss : sr s = sc s).
    { rewrite R, C. clear -HF. f_equal. apply map_ext_in. intros m Hm. rewrite Forall_forall in HF. auto. }
    rewrite (eigen_ds2 s b v la Ss Sb), (IH HF). clear IH. rewrite app_length. cbn [length]. split.
    + intros [H1 H2] p Hp. rewrite row_off_snoc by (cbn; lia). destruct (Nat.eq_dec p (S (length l))) as [->|].
      * rewrite app_nth2 by (cbn; lia). replace (S (length l) - length (a :: l))%nat with 0%nat by (cbn; lia). cbn [nth].
        replace (row_off (a :: l) (S (length l))) with (sr s); [exact H2|]. rewrite R. unfold row_off.
        change (S (length l)) with (length (a :: l)). now rewrite firstn_all.
      * rewrite app_nth1 by (cbn; lia). apply H1. lia.
    + intros H. split.
      * intros p Hp. specialize (H p ltac:(lia)). rewrite row_off_snoc, app_nth1 in H by (cbn; lia). exact H.
      * specialize (H (S (length l)) ltac:(lia)). rewrite row_off_snoc in H by (cbn; lia). rewrite app_nth2 in H by (cbn; lia).
        replace (S (length l) - length (a :: l))%nat with 0%nat in H by (cbn; lia). cbn [nth] in H.
        replace (row_off (a :: l) (S (length l))) with (sr s) in H; [exact H|]. rewrite R. unfold row_off.
        change (S (length l)) with (length (a :: l)). now rewrite firstn_all.
Qed.

(** kron: the entry at ((i1, i2), (j1, j2)) is the product of the entries *)
Definition kron_of (a b s : smat) : Prop :=
  sr s = (sr a * sr b)%nat /\ sc s = (sc a * sc b)%nat /\
  forall i1 i2 j1 j2, (i1 < sr a)%nat -> (i2 < sr b)%nat -> (j1 < sc a)%nat -> (j2 < sc b)%nat ->
    sf s (i1 * sr b + i2)%nat (j1 * sc b + j2)%nat = sf a i1 j1 * sf b i2 j2.
Lemma kr2_entries a b : kron_of a b (kr2 a b).
Proof.
  split; [reflexivity|]. split; [reflexivity|]. intros i1 i2 j1 j2 H1 H2 H3 H4. cbn.
  rewrite !Nat.div_add_l, !Nat.div_small by lia. rewrite !(Nat.add_comm (_ * _) _), !Nat.mod_add, !Nat.mod_small by lia.
  rewrite !Nat.add_0_r. reflexivity.
Qed.
Theorem C41_kron2 (a b : smat) : exists s, kron [a; b] = Some s /\ kron_of a b s.
Proof. eexists. split; [reflexivity|apply kr2_entries]. Qed.
Lemma kr2_proper a a' b b' : sequiv a a' -> sequiv b b' -> sequiv (kr2 a b) (kr2 a' b').
Proof.
  intros (R & C & E) (R' & C' & E'). split; [cbn; congruence|]. split; [cbn; congruence|]. intros i j Hi Hj. cbn in *.
  rewrite <- R', <- C'. assert (sr b <> 0 /\ sc b <> 0)%nat as [Nb Mb] by (split; intros Z; rewrite Z in *; lia).
  rewrite E, E'; auto using Nat.mod_upper_bound; apply Nat.div_lt_upper_bound; lia.
Qed.
Lemma kr2_mul a b a' b' : composable a a' -> composable b b' -> sequiv (sprod (kr2 a b) (kr2 a' b')) (kr2 (sprod a a') (sprod b b')).
Proof.
  unfold composable. intros Ha Hb. split; [reflexivity|]. split; [reflexivity|]. intros i j Hi Hj. cbn in *. unfold fmul.
  rewrite nsum_prod, <- Hb. rewrite <- nsum_mul_r. apply nsum_ext. intros q Hq.
  rewrite <- nsum_mul_l. apply nsum_ext. intros t Ht.
  rewrite Nat.div_add_l, (Nat.div_small t), Nat.add_0_r by lia. rewrite (Nat.add_comm (_ * _) t), Nat.mod_add, (Nat.mod_small t) by lia. ring.
Qed.
Lemma fold_kr2_proper l l' : Forall2 sequiv l l' -> forall a a', sequiv a a' -> sequiv (fold_left kr2 l a) (fold_left kr2 l' a').
Proof. induction 1; intros a a' H'; cbn; [exact H'|]. apply IHForall2. apply kr2_proper; assumption. Qed.
Theorem C41_kron_mul (l l' : list smat) s s' : Forall2 composable l l' -> kron l = Some s -> kron l' = Some s' ->
  exists t, kron (zip_prod l l') = Some t /\ composable s s' /\ sequiv (sprod s s') t.
Proof.
  intros HF. destruct HF as [|a a' l l' Ha HF]; [discriminate|]. cbn. intros E E'. injection E as <-. injection E' as <-.
  eexists. split; [reflexivity|]. revert a a' Ha. induction HF as [|b b' l l' Hb HF IH]; intros a a' Ha; cbn [fold_left zip_prod].
  - split; [exact Ha|apply sequiv_refl].
  - destruct (IH (kr2 a b) (kr2 a' b')) as [I1 I2]; [unfold composable in *; cbn; congruence|]. split; [exact I1|].
    eapply sequiv_trans; [exact I2|].
    apply fold_kr2_proper; [|apply kr2_mul; assumption]. clear. induction (zip_prod l l'); constructor; auto using sequiv_refl.
Qed.
Lemma kr2_adj a b : sequiv (sadj (kr2 a b)) (kr2 (sadj a) (sadj b)).
Proof. split; [reflexivity|]. split; [reflexivity|]. intros i j Hi Hj. cbn. unfold fadj. cbn. apply s_conj_mul. Qed.
Theorem C41_kron_adj (l : list smat) s : kron l = Some s -> exists t, kron (map sadj l) = Some t /\ sequiv (sadj s) t.
Proof.
  destruct l as [|a l]; [discriminate|]. cbn. intros E. injection E as <-. eexists. split; [reflexivity|].
  revert a. induction l as [|b l IH]; intros a; cbn [fold_left map]; [apply sequiv_refl|].
  eapply sequiv_trans; [apply IH|]. apply fold_kr2_proper; [clear; induction (map sadj l); constructor; auto using sequiv_refl|apply kr2_adj].
Qed.
End Blocks.
Print Assumptions C41_blocks.
Print Assumptions C41_direct_sum_mul.
Print Assumptions C41_direct_sum_adj.
Print Assumptions C41_direct_sum_id.
Print Assumptions C41_eigenpairs.
Print Assumptions C41_kron2.
Print Assumptions C41_kron_mul.
Print Assumptions C41_kron_adj.

Definition exA : smat Zs := MkS (K:=Zs) 1 2 (fun _ j => Z.of_nat (j + 1)).
Definition exB : smat Zs := MkS (K:=Zs) 2 1 (fun i _ => Z.of_nat (i + 3)).
Definition show (o : option (smat Zs)) : list (list Z) :=
  match o with None => [] | Some s => map (fun i => map (fun j => sf s i j) (seq 0 (sc s))) (seq 0 (sr s)) end.
Example C41_ex : show (direct_sum [exA; exB; exA]) = [[1;2;0;0;0]; [0;0;3;0;0]; [0;0;4;0;0]; [0;0;0;1;2]]%Z
  /\ show (kron [exA; exB]) = [[3; 6]; [4; 8]]%Z
  /\ Forall2 composable [exA; exB] [exB; exA] /\ show (direct_sum (zip_prod [exA; exB] [exB; exA])) = [[11; 0; 0]; [0; 3; 6]; [0; 4; 8]]%Z.
Proof. split; [reflexivity|]. split; [reflexivity|]. split; [repeat constructor|reflexivity]. Qed.

(** Property C150: Hamiltonians on all symmetric points (hamiltonian_symmetry.py, realize_symmetric). *)
From Coq Require Import List Arith ZArith Lia Bool Permutation Sorting.Sorted Reals Lra.
Import ListNotations.
From Verif Require Import SRing LMat FMat FinGroup SymModel SymGenProofs DetMC SymInitProofs SymEqProofs SymPointProofs
  CplxR FourierModel SymNamedProofs SymProps HamModel HamProofs HamProps HamOrbModel HamOrbProps HamApply HamRealModel.
Local Close Scope R_scope.
Local Open Scope nat_scope.

Lemma map_snd_combine_eq {A} (l : list A) : map snd (combine l (seq 0 (length l))) = seq 0 (length l).
Proof.
  generalize 0. induction l as [|a l IH]; intros n; cbn [length seq combine map snd]; [reflexivity|]. rewrite IH. reflexivity.
Qed.

Section Real.
Context {H : Type}.
Variable apply : zvec -> H -> nat -> bool -> H.

(** one of the operations: index, inversion and matrix *)
Definition op_of (g : sym) (j : nat) (b : bool) (s : zmat) : Prop := nth_error (sops g) j = Some s /\ (b = true -> sinv g = true).
Lemma indexed_spec g j b s : In (j, (b, s)) (indexed_ops g) <-> op_of g j b s.
Proof.
  unfold indexed_ops, op_of. rewrite in_app_iff.
  assert (G : forall c, In (j, (b, s)) (combine (seq 0 (length (sops g))) (map (pair c) (sops g))) <-> nth_error (sops g) j = Some s /\ b = c).
  { intros c. replace (length (sops g)) with (length (map (pair c) (sops g))) by apply map_length. rewrite in_combine_seq'.
    rewrite nth_error_map. destruct (nth_error (sops g) j) as [t|]; cbn [option_map]; split.
    - intros E. injection E as E1 E2. subst. auto.
    - intros [E1 E2]. injection E1 as E1. subst. reflexivity.
    - discriminate.
    - intros [E1 _]. discriminate. }
  destruct (sinv g).
  - rewrite !G. destruct b; intuition congruence.
  - rewrite G. cbn [In]. destruct b; intuition congruence.
Qed.

(** the orbit of one point *)
Lemma fold_orbit g k Hk ops used out : used = k :: map fst out -> NoDup used ->
  (forall x h, In (x, h) out -> exists j b s, op_of g j b s /\ x = app_signed (sdim g) (b, s) k /\ h = apply k Hk j b) ->
  (forall o, In o ops -> op_of g (fst o) (fst (snd o)) (snd (snd o))) ->
  let r := fold_left (ham_step apply g k Hk) ops (used, out) in
  fst r = k :: map fst (snd r) /\ NoDup (fst r) /\
  (forall x h, In (x, h) (snd r) -> exists j b s, op_of g j b s /\ x = app_signed (sdim g) (b, s) k /\ h = apply k Hk j b) /\
  (forall x, In x used -> In x (fst r)) /\
  (forall o, In o ops -> In (app_signed (sdim g) (snd o) k) (fst r)).
Proof.
  revert used out. induction ops as [|o ops IH]; intros used out E N A B; cbn [fold_left].
  - split; [exact E|]. split; [exact N|]. split; [exact A|]. split; [auto|]. intros o [].
  - assert (B' : forall o, In o ops -> op_of g (fst o) (fst (snd o)) (snd (snd o))) by (intros; apply B; right; assumption).
    assert (ST : ham_step apply g k Hk (used, out) o = if memb zveqb (app_signed (sdim g) (snd o) k) used then (used, out)
      else (used ++ [app_signed (sdim g) (snd o) k], out ++ [(app_signed (sdim g) (snd o) k, apply k Hk (fst o) (fst (snd o)))])) by reflexivity.
    rewrite ST. clear ST. destruct (memb zveqb (app_signed (sdim g) (snd o) k) used) eqn:M.
    + apply (memb_In _ zveqb_spec) in M. destruct (IH used out E N A B') as (C1 & C2 & C3 & C4 & C5).
      split; [exact C1|]. split; [exact C2|]. split; [exact C3|]. split; [exact C4|]. intros o' [<-|Ho]; [apply C4, M|apply C5, Ho].
    + apply (memb_notIn _ zveqb_spec) in M.
      destruct (IH (used ++ [app_signed (sdim g) (snd o) k]) (out ++ [(app_signed (sdim g) (snd o) k, apply k Hk (fst o) (fst (snd o)))])) as (C1 & C2 & C3 & C4 & C5).
      * rewrite E, map_app. reflexivity.
      * apply NoDup_app_iff. split; [exact N|]. split; [repeat constructor; simpl; tauto|]. intros x Hx [<-|[]]. exact (M Hx).
      * intros x h Hx. apply in_app_or in Hx. destruct Hx as [Hx|[Hx|[]]]; [exact (A x h Hx)|]. injection Hx as <- <-.
        exists (fst o), (fst (snd o)), (snd (snd o)). split; [apply B; left; reflexivity|]. split; [destruct o as [j [b s]]; reflexivity|reflexivity].
      * exact B'.
      * split; [exact C1|]. split; [exact C2|]. split; [exact C3|].
        split; [intros x Hx; apply C4, in_or_app; left; exact Hx|].
        intros o' [<-|Ho]; [apply C4, in_or_app; right; left; reflexivity|apply C5, Ho].
Qed.
Lemma orbit_spec g k Hk :
  NoDup (k :: map fst (ham_orbit apply g k Hk)) /\
  (forall x h, In (x, h) (ham_orbit apply g k Hk) -> exists j b s, op_of g j b s /\ x = app_signed (sdim g) (b, s) k /\ h = apply k Hk j b) /\
  (forall j b s, op_of g j b s -> app_signed (sdim g) (b, s) k = k \/ In (app_signed (sdim g) (b, s) k) (map fst (ham_orbit apply g k Hk))).
Proof.
  unfold ham_orbit.
  destruct (fold_orbit g k Hk (indexed_ops g) [k] [] eq_refl) as (A & B & C & D & E).
  - repeat constructor; simpl; tauto.
  - intros x h [].
  - intros [j [b s]] Ho. apply indexed_spec, Ho.
  - split; [rewrite <- A; exact B|]. split; [exact C|]. intros j b s Ho.
    assert (F := E (j, (b, s)) (proj2 (indexed_spec g j b s) Ho)). cbn [snd] in F. rewrite A in F. destruct F as [F|F]; [left; auto|right; exact F].
Qed.

Lemma ham_sort_perm {D} m (l : list (zvec * D)) : Permutation (ham_sort m l) l.
Proof.
  unfold ham_sort. generalize (seq 0 m). intros s. revert l.
  induction s as [|i s IH]; intros l; cbn [fold_left]; [reflexivity|]. rewrite IH. apply sort_by_perm.
Qed.
Lemma ham_sort_sorted {D} m (l : list (zvec * D)) : StronglySorted (fun p q => lexr m (fst p) (fst q)) (ham_sort m l).
Proof.
  unfold ham_sort. induction m as [|m IH]; [apply StronglySorted_True|].
  rewrite seq_S, fold_left_app. cbn [fold_left plus]. exact (sort_by_lex (fun p : zvec * D => nth m (fst p) 0%Z) _ _ IH).
Qed.
Lemma app_signed_zero n b s k : wfv n k -> znorm2 k = 0%Z -> app_signed n (b, s) k = k.
Proof. intros W Z. rewrite app_signed_all. cbn [fst snd]. apply zmv_zero; assumption. Qed.
Lemma NoDup_flat {A B C} (f : A -> list B) (key : B -> C) (src : A -> C -> Prop) l : NoDup l ->
  (forall a, In a l -> NoDup (map key (f a))) ->
  (forall a b x, In a l -> In b l -> In x (map key (f a)) -> In x (map key (f b)) -> a = b) -> NoDup (map key (flat_map f l)).
Proof.
  intros N. induction N as [|a l Ha N IH]; intros D I; cbn [flat_map map]; [constructor|]. rewrite map_app. apply NoDup_app_iff.
  split; [apply D; left; reflexivity|]. split; [apply IH; [intros; apply D; right; assumption|intros b c x Hb Hc; apply I; right; assumption]|].
  intros x Hx Hy. apply in_map_iff in Hy. destruct Hy as (y & <- & Hy). apply in_flat_map in Hy. destruct Hy as (b & Hb & Hy).
  apply Ha. rewrite (I a b (key y) (or_introl eq_refl) (or_intror Hb) Hx ltac:(apply in_map; exact Hy)). exact Hb.
Qed.

(** *** what the method returns: sorted by the coordinates (the last one first), every image of every sample once, with the
    matrix of the sample or the one that [apply] gives for an operation that leads to the image *)
Theorem C150_orbits : forall g kh l, (forall k h, In (k, h) kh -> length k = sdim g) -> In (zeye (sdim g)) (sops g) ->
  ham_realize apply g kh = Some l ->
  StronglySorted (fun p q => lexr (sdim g) (fst p) (fst q)) l /\
  (forall x h i, In (x, (h, i)) l -> exists k Hk, nth_error kh i = Some (k, Hk) /\
     ((x = k /\ h = Hk) \/ (x <> k /\ exists j b s, op_of g j b s /\ x = app_signed (sdim g) (b, s) k /\ h = apply k Hk j b))) /\
  (forall i k Hk j b s, nth_error kh i = Some (k, Hk) -> op_of g j b s -> exists h, In (app_signed (sdim g) (b, s) k, (h, i)) l) /\
  NoDup (map (fun p => (fst p, snd (snd p))) l).
Proof.
  intros g kh l HW He Hr. assert (El : l = ham_sort (sdim g) (ham_collect apply g kh)).
  { unfold ham_realize in Hr. destruct kh as [|[k0 h0] kh']; [discriminate|]. injection Hr as <-.
    apply (f_equal (fun m => ham_sort m _)). apply (HW k0 h0). left. reflexivity. }
  subst l. clear Hr. set (c := ham_collect apply g kh).
  assert (P := ham_sort_perm (sdim g) c).
  assert (ND : NoDup (combine kh (seq 0 (length kh)))).
  { apply (NoDup_map_nodup (@snd (zvec * H) nat)). assert (Q := map_snd_combine_eq kh). refine (eq_ind_r (fun l => NoDup l) _ Q). apply seq_NoDup. }
  assert (Hc : forall x h i, In (x, (h, i)) c <-> exists k Hk, nth_error kh i = Some (k, Hk) /\
     ((x = k /\ h = Hk) \/ (znorm2 k <> 0%Z /\ In (x, h) (ham_orbit apply g k Hk)))).
  { intros x h i. unfold c, ham_collect. rewrite in_app_iff, in_map_iff, in_flat_map. split.
    - intros [([[k Hk] j] & E & Hp)|([[k Hk] j] & Hp & E)]; apply in_combine_seq in Hp.
      + cbn [fst snd] in E. injection E as <- <- <-. exists k, Hk. auto.
      + destruct (Z.eqb_spec (znorm2 k) 0) as [|Hz]; [contradiction|]. apply in_map_iff in E. destruct E as ([y h'] & E & Ho).
        cbn [fst snd] in E. injection E as <- <- <-. exists k, Hk. auto.
    - intros (k & Hk & E & [[-> ->]|[Hz Ho]]).
      + left. exists ((k, Hk), i). split; [reflexivity|]. apply in_combine_seq, E.
      + right. exists ((k, Hk), i). split; [apply in_combine_seq, E|]. destruct (Z.eqb_spec (znorm2 k) 0); [contradiction|].
        apply in_map_iff. exists (x, h). auto. }
  split; [apply ham_sort_sorted|]. split; [|split].
  - intros x h i Hx. apply (Permutation_in _ P) in Hx. apply Hc in Hx. destruct Hx as (k & Hk & E & [D|[Hz D]]); exists k, Hk; (split; [exact E|]).
    + left. exact D.
    + right. destruct (orbit_spec g k Hk) as (O1 & O2 & O3). split; [|exact (O2 x h D)]. intros ->. inversion O1 as [|? ? N _]; subst.
      apply N. apply in_map_iff. exists (k, h). auto.
  - intros i k Hk j b s E Ho. assert (W := HW k Hk (nth_error_In _ _ E)).
    destruct (Z.eqb_spec (znorm2 k) 0) as [Hz|Hz].
    + exists Hk. apply (Permutation_in _ (Permutation_sym P)), Hc. exists k, Hk. split; [exact E|]. left. split; [apply app_signed_zero; assumption|reflexivity].
    + destruct (orbit_spec g k Hk) as (O1 & O2 & O3). destruct (O3 j b s Ho) as [F|F].
      * exists Hk. apply (Permutation_in _ (Permutation_sym P)), Hc. exists k, Hk. split; [exact E|]. left. auto.
      * apply in_map_iff in F. destruct F as ([y h] & F1 & F2). cbn [fst] in F1. subst y. exists h.
        apply (Permutation_in _ (Permutation_sym P)), Hc. exists k, Hk. split; [exact E|]. right. auto.
  - apply (Permutation_NoDup (Permutation_map _ (Permutation_sym P))). unfold c, ham_collect. rewrite map_app. apply NoDup_app_iff. split; [|split].
    + rewrite map_map. cbn [fst snd]. apply NoDup_map_inj.
      * intros [[a1 a2] a3] [[b1 b2] b3] Ha Hb E. cbn [fst snd] in E. injection E as <- <-.
        apply in_combine_seq in Ha. apply in_combine_seq in Hb. rewrite Ha in Hb. injection Hb as <-. reflexivity.
      * exact ND.
    + apply (NoDup_flat _ _ (fun _ _ => True)).
      * exact ND.
      * intros [[k Hk] i] _. destruct (Z.eqb (znorm2 k) 0); [constructor|]. rewrite map_map. cbn [fst snd].
        destruct (orbit_spec g k Hk) as (O1 & _ & _). inversion O1 as [|? ? _ N]; subst.
        rewrite <- (map_map fst (fun x => (x, i))). apply NoDup_map_inj; [|exact N]. intros a b _ _ E. injection E as E. exact E.
      * intros [[k Hk] i] [[k' Hk'] i'] [x m] Ha Hb Hx Hy. apply in_combine_seq in Ha. apply in_combine_seq in Hb.
        assert (G : forall k Hk i, In (x, m) (map (fun p : zvec * (H * nat) => (fst p, snd (snd p)))
          (if Z.eqb (znorm2 k) 0 then [] else map (fun q => (fst q, (snd q, i))) (ham_orbit apply g k Hk))) -> m = i).
        { intros k1 Hk1 i1. destruct (Z.eqb (znorm2 k1) 0); [intros []|]. rewrite map_map. intros G. apply in_map_iff in G.
          destruct G as (q & Eq & _). cbn [fst snd] in Eq. injection Eq as _ <-. reflexivity. }
        apply G in Hx. apply G in Hy. subst i i'. rewrite Ha in Hb. injection Hb as <- <-. reflexivity.
    + intros [x i] Hx Hy. apply in_map_iff in Hx. destruct Hx as ([x' [h i']] & E & Hx). cbn [fst snd] in E. injection E as -> ->.
      apply in_map_iff in Hx. destruct Hx as ([[k Hk] j] & E & Hp). cbn [fst snd] in E. injection E as -> _ ->. apply in_combine_seq in Hp.
      apply in_map_iff in Hy. destruct Hy as ([x' [h' i']] & E & Hy). cbn [fst snd] in E. injection E as -> ->.
      apply in_flat_map in Hy. destruct Hy as ([[k' Hk'] j] & Hp' & Hy). apply in_combine_seq in Hp'.
      destruct (Z.eqb (znorm2 k') 0); [contradiction|]. apply in_map_iff in Hy. destruct Hy as ([y h2] & E & Hy). cbn [fst snd] in E.
      injection E as -> -> ->. rewrite Hp in Hp'. injection Hp' as <- <-. destruct (orbit_spec g x Hk) as (O1 & _ & _).
      inversion O1 as [|? ? N _]; subst. apply N. apply in_map_iff. exists (x, h'). auto.
Qed.

(** it raises for an empty list only *)
Theorem C150_defined : forall g kh, (exists l, ham_realize apply g kh = Some l) <-> kh <> [].
Proof.
  intros g [|[k h] kh]; cbn [ham_realize]; split.
  - intros [l E]. discriminate.
  - intros E. contradiction.
  - discriminate.
  - intros _. eexists. reflexivity.
Qed.

(** samples that are not images of each other: no point occurs twice *)
Theorem C150_distinct : forall g kh l, (forall k h, In (k, h) kh -> length k = sdim g) ->
  is_group (zmul (sdim g)) (zeye (sdim g)) (sym_all g) -> In (zeye (sdim g)) (sops g) ->
  (forall i j k k' h h' s, nth_error kh i = Some (k, h) -> nth_error kh j = Some (k', h') -> In s (sym_all g) ->
     zmv (sdim g) s k = k' -> i = j) ->
  ham_realize apply g kh = Some l -> NoDup (map fst l).
Proof.
  intros g kh l HW HG He Hd Hr. destruct (C150_orbits g kh l HW He Hr) as (_ & A & _ & B).
  assert (Q : forall x h i, In (x, (h, i)) l -> exists k Hk s, nth_error kh i = Some (k, Hk) /\ In s (sym_all g) /\ x = zmv (sdim g) s k).
  { intros x h i Hx. destruct (A x h i Hx) as (k & Hk & E & [[-> _]|(_ & j & b & s & Ho & -> & _)]); exists k, Hk.
    - exists (zeye (sdim g)). split; [exact E|]. split; [exact (proj1 HG)|]. symmetry. apply (lmv_1 Zs), (HW k Hk), (nth_error_In _ _ E).
    - exists (if b then zneg (sdim g) s else s). split; [exact E|]. split; [|rewrite app_signed_all; reflexivity].
      unfold sym_all. destruct Ho as [Ho1 Ho2]. apply in_or_app. destruct b.
      + right. rewrite (Ho2 eq_refl). apply in_map, (nth_error_In _ _ Ho1).
      + left. apply (nth_error_In _ _ Ho1). }
  assert (G : forall x h i h' i', In (x, (h, i)) l -> In (x, (h', i')) l -> i = i').
  { intros x h i h' i' H1 H2. destruct (Q _ _ _ H1) as (k & Hk & s & E1 & S1 & X1). destruct (Q _ _ _ H2) as (k' & Hk' & s' & E2 & S2 & X2).
    destruct HG as (_ & _ & G3 & G4). destruct (G4 s' S2) as (t & Ht & _ & Et).
    apply (Hd i i' k k' Hk Hk' (zmul (sdim g) t s) E1 E2 (G3 t s Ht S1)).
    transitivity (zmv (sdim g) t (zmv (sdim g) s k)); [apply (lmv_mul Zs)|]. rewrite <- X1, X2.
    transitivity (zmv (sdim g) (zmul (sdim g) t s') k'); [symmetry; apply (lmv_mul Zs)|]. rewrite Et. apply (lmv_1 Zs), (HW k' Hk'), (nth_error_In _ _ E2). }
  assert (B' : NoDup (map (fun p : zvec * (H * nat) => (fst p, snd (snd p))) l)) by exact B. clear -B' G.
  induction l as [|[x [h i]] l IH]; cbn [map fst snd] in *; [constructor|]. inversion B' as [|? ? N B2]; subst. constructor.
  - intros Hx. apply in_map_iff in Hx. destruct Hx as ([y [h' i']] & E & Hx). cbn [fst] in E. subst y. apply N.
    apply in_map_iff. exists (x, (h', i')). split; [|exact Hx]. cbn [fst snd]. f_equal. symmetry. apply (G x h i h' i'); [left; reflexivity|right; exact Hx].
  - apply IH; [|exact B2]. intros y h1 i1 h2 i2 H1 H2. apply (G y h1 i1 h2 i2); right; assumption.
Qed.
End Real.
Print Assumptions C150_orbits.
Print Assumptions C150_defined.
Print Assumptions C150_distinct.

(** *** covariance of the returned matrices *)
(** R is M turned with operation number j: R = U_j M U_j^+ in all blocks *)
Definition rotated (h : hsym Cs) (j : nat) (M R : fmat Cs) : Prop :=
  forall ob1 ob2 a b, In ob1 (boffs 0 (hblocks h)) -> In ob2 (boffs 0 (hblocks h)) -> a < bdim (snd ob1) -> b < bdim (snd ob2) ->
  R (fst ob1 + a) (fst ob2 + b) =
  conj_block (bdim (snd ob1)) (bdim (snd ob2)) (nth j (bU (snd ob1)) fzero) (fun x y => M (fst ob1 + x) (fst ob2 + y)) (nth j (bU (snd ob2)) fzero) a b.
(** the matrix of a sample respects the operations that keep its point *)
Definition little (h : hsym Cs) (k : zvec) (M : fmat Cs) : Prop :=
  forall j b s, op_of (hs h) j b s -> app_signed (sdim (hs h)) (b, s) k = k -> rotated h j M M.
(** H(g k) = U_g H(k) U_g^+ for all returned points of the same sample *)
Definition covariant (h : hsym Cs) (l : list (zvec * (fmat Cs * nat))) : Prop :=
  forall x R y R' i j b s, In (x, (R, i)) l -> In (y, (R', i)) l -> op_of (hs h) j b s -> y = app_signed (sdim (hs h)) (b, s) x -> rotated h j R R'.
(** apply of the class, points in the unit v and positions in the unit u *)
Definition ham_ap (u v : R) (h : hsym Cs) : zvec -> fmat Cs -> nat -> bool -> fmat Cs := fun k M j _ => ham_apply u h (rpos v k) M j.

Lemma conj_fmul d1 d2 (u1 M u2 : fmat Cs) a b : conj_block d1 d2 u1 M u2 a b = fmul (K:=Cs) d2 (fmul (K:=Cs) d1 u1 M) (fadj u2) a b.
Proof.
  unfold fmul, fadj, conj_block. etransitivity; [apply (nsum_swap Cs)|]. apply (nsum_ext Cs). intros j _. rewrite <- (nsum_mul_r Cs). reflexivity.
Qed.
Lemma rotated_mul h j1 j2 j3 s1 s2 M R R' : ham_rep h ->
  nth_error (sops (hs h)) j1 = Some s1 -> nth_error (sops (hs h)) j2 = Some s2 -> nth_error (sops (hs h)) j3 = Some (zmul (sdim (hs h)) s1 s2) ->
  rotated h j2 M R -> rotated h j1 R R' -> rotated h j3 M R'.
Proof.
  intros Hrep E1 E2 E3 A B ob1 ob2 a b I1 I2 Ha Hb. rewrite (B ob1 ob2 a b I1 I2 Ha Hb), !conj_fmul.
  assert (U1 := rep_hom h Hrep ob1 I1 j1 j2 j3 s1 s2 E1 E2 E3). assert (U2 := rep_hom h Hrep ob2 I2 j1 j2 j3 s1 s2 E1 E2 E3).
  set (d1 := bdim (snd ob1)) in *. set (d2 := bdim (snd ob2)) in *.
  set (Rb := fun x y => R (fst ob1 + x) (fst ob2 + y)). set (Mb := fun x y => M (fst ob1 + x) (fst ob2 + y)).
  assert (Eb : feq d1 d2 Rb (fmul (K:=Cs) d2 (fmul (K:=Cs) d1 (nth j2 (bU (snd ob1)) fzero) Mb) (fadj (nth j2 (bU (snd ob2)) fzero)))).
  { intros x y Hx Hy. rewrite <- conj_fmul. exact (A ob1 ob2 x y I1 I2 Hx Hy). }
  revert a b Ha Hb. change (feq d1 d2 (fmul (K:=Cs) d2 (fmul (K:=Cs) d1 (nth j1 (bU (snd ob1)) fzero) Rb) (fadj (nth j1 (bU (snd ob2)) fzero)))
    (fmul (K:=Cs) d2 (fmul (K:=Cs) d1 (nth j3 (bU (snd ob1)) fzero) Mb) (fadj (nth j3 (bU (snd ob2)) fzero)))).
  rewrite U1, U2, Eb, (fadj_mul d2 d2 d2), !fmul_assoc. reflexivity.
Qed.
Lemma rotated_feq h j M R R' : (forall ob1 ob2 a b, In ob1 (boffs 0 (hblocks h)) -> In ob2 (boffs 0 (hblocks h)) -> a < bdim (snd ob1) -> b < bdim (snd ob2) ->
  R (fst ob1 + a) (fst ob2 + b) = R' (fst ob1 + a) (fst ob2 + b)) -> rotated h j M R -> rotated h j M R'.
Proof. intros E A ob1 ob2 a b I1 I2 Ha Hb. rewrite <- E by assumption. apply A; assumption. Qed.
Lemma boffs_mem {K : sring} : forall o (bs : list (hblock K)) ob, In ob (boffs o bs) -> In (snd ob) bs.
Proof. intros o bs. revert o. induction bs as [|b bs IH]; intros o ob H; [destruct H|]. destruct H as [<- | H]; [left; reflexivity|right; eapply IH; exact H]. Qed.
Lemma rotated_apply u h k j pos M : (forall b, In b (hblocks h) -> beven b = true) -> (forall b, In b (hblocks h) -> bpos b = pos) ->
  rotated h j M (ham_apply u h k M j).
Proof.
  intros He Hp ob1 ob2 a b I1 I2 Ha Hb. rewrite (C135_formula_partial u h k j He M ob1 ob2) by assumption.
  rewrite (Hp _ (boffs_mem _ _ _ I1)), (Hp _ (boffs_mem _ _ _ I2)).
  assert (DP : doc_phase (sdim (hs h)) k (nth j (sops (hs h)) []) (rpos u pos) (rpos u pos) = (1, 0)%R).
  { unfold doc_phase. replace (dot _ k _) with 0%R; [rewrite Rmult_0_r; apply cexp_0|]. symmetry. unfold dot. apply (nsum_zero Rs). intros c _.
    rewrite smv_sub. cbn. ring. }
  rewrite DP. match goal with |- cmul _ ?z = _ => destruct z end. unfold cmul; cbn; f_equal; ring.
Qed.
Lemma app_signed_mul n b1 s1 b2 s2 k :
  app_signed n (b1, s1) (app_signed n (b2, s2) k) = app_signed n (xorb b1 b2, zmul n s1 s2) k.
Proof.
  assert (N : forall v, zmv n s1 (zvneg n v) = zvneg n (zmv n s1 v)).
  { intros v. apply (vec_ext Zs n); [apply lmv_wf|apply zvneg_wf|]. intros i Hi. rewrite vent_zvneg by exact Hi.
    apply zmv_opp; [|exact Hi]. intros c Hc. apply vent_zvneg, Hc. }
  assert (L : zmv n (zmul n s1 s2) k = zmv n s1 (zmv n s2 k)) by apply (lmv_mul Zs).
  unfold app_signed. cbn [fst snd]. rewrite L. destruct b1, b2; cbn [xorb]; rewrite ?N; try reflexivity.
  apply zvneg_invol. apply lmv_wf.
Qed.
Lemma op_mul g j1 b1 s1 j2 b2 s2 : is_group (zmul (sdim g)) (zeye (sdim g)) (sops g) -> op_of g j1 b1 s1 -> op_of g j2 b2 s2 ->
  exists j3, op_of g j3 (xorb b1 b2) (zmul (sdim g) s1 s2).
Proof.
  intros (_ & _ & G & _) [E1 I1] [E2 I2]. destruct (In_nth_error _ _ (G s1 s2 (nth_error_In _ _ E1) (nth_error_In _ _ E2))) as [j3 E3].
  exists j3. split; [exact E3|]. destruct b1, b2; cbn [xorb]; auto; discriminate.
Qed.

(** even blocks at one position, samples that respect the operations keeping their points *)
Theorem C150_covariant_partial : forall u v (h : hsym Cs) kh l pos, ham_rep h ->
  (forall b, In b (hblocks h) -> beven b = true) -> (forall b, In b (hblocks h) -> bpos b = pos) ->
  (forall k M, In (k, M) kh -> length k = sdim (hs h) /\ little h k M) ->
  ham_realize (ham_ap u v h) (hs h) kh = Some l -> covariant h l.
Proof.
  intros u v h kh l pos Hrep He Hp Hk Hr.
  assert (HG : is_group (zmul (sdim (hs h))) (zeye (sdim (hs h))) (sops (hs h))) by apply Hrep.
  assert (HI := proj1 HG).
  destruct (C150_orbits (ham_ap u v h) (hs h) kh l (fun k M H => proj1 (Hk k M H)) HI Hr) as (_ & A & _ & _).
  destruct (In_nth_error _ _ HI) as [j0 E0].
  assert (WF : forall s, In s (sops (hs h)) -> wfz (sdim (hs h)) s) by apply Hrep.
  (* an entry is the sample turned with any operation that leads to its point *)
  assert (S1 : forall x R i j b s, In (x, (R, i)) l -> op_of (hs h) j b s ->
    forall k M, nth_error kh i = Some (k, M) -> x = app_signed (sdim (hs h)) (b, s) k -> rotated h j M R).
  { intros x R i j b s Hx Ho k M E Ex. destruct (A x R i Hx) as (k' & M' & E' & D). rewrite E in E'. injection E' as <- <-.
    destruct (Hk k M (nth_error_In _ _ E)) as [W Hl]. destruct D as [[-> ->]|(_ & j1 & b1 & s1 & Ho1 & Ex1 & ->)].
    - apply (Hl j b s Ho). symmetry. exact Ex.
    - destruct HG as (_ & G2 & G3 & G4). destruct (G4 s (nth_error_In _ _ (proj1 Ho))) as (t & Ht & T1 & T2).
      destruct (In_nth_error _ _ Ht) as [jt Et].
      assert (Hot : op_of (hs h) jt b t) by (split; [exact Et|apply Ho]).
      destruct (op_mul (hs h) jt b t j1 b1 s1 (proj1 Hrep) Hot Ho1) as [j3 Ho3].
      assert (F : app_signed (sdim (hs h)) (xorb b b1, zmul (sdim (hs h)) t s1) k = k).
      { rewrite <- app_signed_mul, <- Ex1, Ex, app_signed_mul, xorb_nilpotent, T2. unfold app_signed. cbn [fst snd]. apply (lmv_1 Zs), W. }
      assert (P := Hl j3 _ _ Ho3 F).
      assert (Q := rotated_apply u h (rpos v k) j pos M He Hp).
      assert (ES : nth_error (sops (hs h)) j1 = Some (zmul (sdim (hs h)) s (zmul (sdim (hs h)) t s1))).
      { rewrite (proj1 Ho1). f_equal. symmetry. unfold zmul in *. rewrite (lmul_assoc Zs), T1. apply (lmul_1_l Zs).
        apply (WF s1), (nth_error_In _ _ (proj1 Ho1)). }
      assert (Z := rotated_mul h j j3 j1 s _ M M _ Hrep (proj1 Ho) (proj1 Ho3) ES P Q).
      assert (Y := rotated_apply u h (rpos v k) j1 pos M He Hp).
      refine (rotated_feq h j M _ _ _ Q). intros ob1 ob2 c d I1 I2 Hc Hd. unfold ham_ap.
      rewrite (Z ob1 ob2 c d I1 I2 Hc Hd), (Y ob1 ob2 c d I1 I2 Hc Hd). reflexivity. }
  intros x R y R' i j b s Hx Hy Ho Ey.
  assert (X : exists k M j1 b1 s1, nth_error kh i = Some (k, M) /\ op_of (hs h) j1 b1 s1 /\ x = app_signed (sdim (hs h)) (b1, s1) k).
  { destruct (A x R i Hx) as (k & M & E & [[-> _]|(_ & j1 & b1 & s1 & Ho1 & Ex1 & _)]); exists k, M.
    - exists j0, false, (zeye (sdim (hs h))). split; [exact E|]. split; [split; [exact E0|discriminate]|].
      unfold app_signed. cbn [fst snd]. symmetry. apply (lmv_1 Zs), (Hk k M), (nth_error_In _ _ E).
    - exists j1, b1, s1. auto. }
  destruct X as (k & M & j1 & b1 & s1 & E & Ho1 & Ex).
  destruct (op_mul (hs h) j b s j1 b1 s1 (proj1 Hrep) Ho Ho1) as [j3 Ho3].
  assert (P1 := S1 x R i j1 b1 s1 Hx Ho1 k M E Ex).
  assert (P3 := S1 y R' i j3 _ _ Hy Ho3 k M E ltac:(rewrite Ey, Ex; apply app_signed_mul)).
  assert (Q := rotated_apply u h (rpos v k) j pos R He Hp).
  assert (Z := rotated_mul h j j1 j3 s s1 M R _ Hrep (proj1 Ho) (proj1 Ho1) (proj1 Ho3) P1 Q).
  refine (rotated_feq h j R _ _ _ Q). intros ob1 ob2 c d I1 I2 Hc Hd.
  rewrite (Z ob1 ob2 c d I1 I2 Hc Hd), (P3 ob1 ob2 c d I1 I2 Hc Hd). reflexivity.
Qed.
Print Assumptions C150_covariant_partial.

(** *** a mirror in the plane, an s orbital and an orbital that changes its sign: d_xy (even) or p_y (odd) *)
Definition my2 : zmat := [[1;0];[0;-1]]%Z.
Definition mirror : sym := MkSym 2 [zeye 2; my2] false false.
Definition m_neg : fmat Cs := fun _ _ => ((-1)%R, 0%R).
Definition mirror_h (e : bool) : hsym Cs := MkHsym mirror [MkBlock 1 [fid; fid] true [0;0]%Z; MkBlock 1 [fid; m_neg] e [0;0]%Z].
Definition m_M : fmat Cs := fun a b => if Nat.eqb a b then (0, 0)%R else (1, 0)%R.
Definition m_kh : list (zvec * fmat Cs) := [([1;1]%Z, m_M)].
Lemma mirror_rep e : ham_rep (mirror_h e).
Proof.
  split; [apply is_group_b_spec; vm_compute; reflexivity|]. split; [apply wfz_b_spec; vm_compute; reflexivity|].
  assert (C2 : forall k, k < length (sops mirror) -> k = 0 \/ k = 1) by (cbn; intros; lia).
  assert (CE : forall k s, nth_error (sops mirror) k = Some s -> (k = 0 /\ s = zeye 2) \/ (k = 1 /\ s = my2)).
  { intros [|[|k]] s E; [left|right|destruct k; discriminate]; injection E as <-; auto. }
  assert (F : forall A B : fmat Cs, A 0 0 = B 0 0 -> feq 1 1 A B).
  { intros A B E a b Ha Hb. replace a with 0 by lia. replace b with 0 by lia. exact E. }
  assert (G : forall w : fmat Cs, w 0 0 = (1, 0)%R \/ w 0 0 = (-1, 0)%R ->
    (forall k1 k2 k3 s1 s2, nth_error (sops mirror) k1 = Some s1 -> nth_error (sops mirror) k2 = Some s2 -> nth_error (sops mirror) k3 = Some (zmul 2 s1 s2) ->
       feq 1 1 (nth k3 [fid; w] fzero) (fmul 1 (nth k1 [fid; w] fzero) (nth k2 [fid; w] fzero))) /\
    (forall k, k < length (sops mirror) -> feq 1 1 (fmul 1 (nth k [fid; w] fzero) (fadj (nth k [fid; w] fzero))) fid /\
       feq 1 1 (fmul 1 (fadj (nth k [fid; w] fzero)) (nth k [fid; w] fzero)) fid)).
  { intros w Hw. split.
    - intros k1 k2 k3 s1 s2 E1 E2 E3. apply F. apply CE in E1. apply CE in E2. apply CE in E3.
      destruct E1 as [[-> ->]|[-> ->]], E2 as [[-> ->]|[-> ->]], E3 as [[-> E3]|[-> E3]]; try (vm_compute in E3; discriminate);
        unfold fmul; cbn [nth nsum fid Nat.eqb]; destruct Hw as [Hw | Hw]; apply injective_projections; cbn; rewrite ?Hw; cbn; ring.
    - intros k Hk. split; apply F; destruct (C2 k Hk) as [-> | ->]; unfold fmul, fadj; cbn [nth nsum fid Nat.eqb]; destruct Hw as [Hw | Hw]; apply injective_projections; cbn; rewrite ?Hw; cbn; ring. }
  intros b [<-|[<-|[]]].
  - apply G. left. reflexivity.
  - apply G. right. reflexivity.
Qed.
Lemma mirror_little e : forall k M, In (k, M) m_kh -> length k = 2 /\ little (mirror_h e) k M.
Proof.
  intros k M [E|[]]. injection E as <- <-. split; [reflexivity|]. intros j b s [Es _] Ek.
  destruct j as [|[|j]]; [|injection Es as <-; destruct b; vm_compute in Ek; discriminate|destruct j; discriminate].
  intros ob1 ob2 x y I1 I2 Hx Hy. symmetry.
  refine (conj_block_id _ _ _ _ (fun c d => m_M (fst ob1 + c) (fst ob2 + d)) x y _ _ Hx Hy).
  - destruct I1 as [<-|[<-|[]]]; cbn [snd bU bdim nth]; reflexivity.
  - destruct I2 as [<-|[<-|[]]]; cbn [snd bU bdim nth]; reflexivity.
Qed.
Lemma mirror_real u v e : ham_realize (ham_ap u v (mirror_h e)) mirror m_kh =
  Some [([1;-1]%Z, (ham_apply u (mirror_h e) (rpos v [1;1]%Z) m_M 1, 0)); ([1;1]%Z, (m_M, 0))].
Proof. reflexivity. Qed.
(** with d_xy the matrix at (1,-1) is the mirror image: the entry between the orbitals changes its sign *)
Example C150_covariant_example : covariant (mirror_h true)
  [([1;-1]%Z, (ham_apply 1 (mirror_h true) (rpos 1 [1;1]%Z) m_M 1, 0)); ([1;1]%Z, (m_M, 0))] /\
  ham_apply 1 (mirror_h true) (rpos 1 [1;1]%Z) m_M 1 0 1 = ((-1)%R, 0%R).
Proof.
  assert (C : covariant (mirror_h true) [([1;-1]%Z, (ham_apply 1 (mirror_h true) (rpos 1 [1;1]%Z) m_M 1, 0)); ([1;1]%Z, (m_M, 0))]).
  { apply (C150_covariant_partial 1 1 (mirror_h true) m_kh _ [0;0]%Z (mirror_rep true)).
    - intros b [<-|[<-|[]]]; reflexivity.
    - intros b [<-|[<-|[]]]; reflexivity.
    - exact (mirror_little true).
    - apply mirror_real. }
  split; [exact C|].
  etransitivity; [refine (C [1;1]%Z m_M [1;-1]%Z _ 0 1 false my2 _ _ _ _ (0, MkBlock 1 [fid; fid] true [0;0]%Z) (1, MkBlock 1 [fid; m_neg] true [0;0]%Z) 0 0 _ _ _ _)|].
  - right. left. reflexivity.
  - left. reflexivity.
  - split; [reflexivity|discriminate].
  - reflexivity.
  - left. reflexivity.
  - right. left. reflexivity.
  - cbn; lia.
  - cbn; lia.
  - unfold conj_block. cbn. unfold cmul, cconj, cadd, m_M. cbn. f_equal; ring.
Qed.

(** *** with an odd orbital (p_y) [apply] turns the sign once more, although the operation is no inversion *)
Theorem C150_parity_refuted : ~ forall u v (h : hsym Cs) kh l pos, ham_rep h -> sinv (hs h) = false ->
  (forall b, In b (hblocks h) -> bpos b = pos) -> (forall k M, In (k, M) kh -> length k = sdim (hs h) /\ little h k M) ->
  ham_realize (ham_ap u v h) (hs h) kh = Some l -> covariant h l.
Proof.
  intros C. specialize (C 1%R 1%R (mirror_h false) m_kh _ [0;0]%Z (mirror_rep false) eq_refl ltac:(intros b [<-|[<-|[]]]; reflexivity) (mirror_little false) (mirror_real 1 1 false)).
  assert (Ho : op_of mirror 1 false my2) by (split; [reflexivity|discriminate]).
  assert (Z := C [1;1]%Z m_M [1;-1]%Z _ 0 1 false my2 (or_intror (or_introl eq_refl)) (or_introl eq_refl)
    Ho eq_refl
    (0, MkBlock 1 [fid; fid] true [0;0]%Z) (1, MkBlock 1 [fid; m_neg] false [0;0]%Z) 0 0 (or_introl eq_refl) (or_intror (or_introl eq_refl)) Nat.lt_0_1 Nat.lt_0_1).
  rewrite (apply_slice 1 (mirror_h false) (rpos 1 [1;1]%Z) 1 m_M (0, MkBlock 1 [fid; fid] true [0;0]%Z) (1, MkBlock 1 [fid; m_neg] false [0;0]%Z) 0 0
    (or_introl eq_refl) (or_intror (or_introl eq_refl)) Nat.lt_0_1 Nat.lt_0_1) in Z.
  rewrite apply_fac_doc in Z. cbn [snd bpos bdim bU nth] in Z.
  assert (DP : forall s, doc_phase 2 (rpos 1 [1;1]%Z) s (rpos 1 [0;0]%Z) (rpos 1 [0;0]%Z) = (1, 0)%R).
  { intros s. unfold doc_phase. replace (dot _ _ _) with 0%R; [rewrite Rmult_0_r; apply cexp_0|]. symmetry. unfold dot. apply (nsum_zero Rs). intros c _.
    rewrite smv_sub. cbn. ring. }
  cbn [hs mirror_h mirror sdim] in Z. rewrite DP in Z. apply (f_equal fst) in Z. unfold conj_block, slice, apply_inv, flip_lead in Z. cbn in Z. unfold cmul, cconj, cadd, copp, m_M in Z. cbn in Z. lra.
Qed.
Print Assumptions C150_parity_refuted.

(** *** the mirror with inversion: seven images of three samples, each with the first operation that leads to it *)
Definition mirror_i : sym := MkSym 2 [zeye 2; my2] true false.
Definition tag (k : zvec) (h : list (nat * bool)) (j : nat) (b : bool) : list (nat * bool) := h ++ [(j, b)].
Definition tag_kh : list (zvec * list (nat * bool)) := [([1;1]%Z, []); ([0;2]%Z, []); ([0;0]%Z, [])].
Example C150_orbits_example :
  exists l, ham_realize tag mirror_i tag_kh = Some l /\
  l = [([0;-2]%Z, ([(1, false)], 1)); ([-1;-1]%Z, ([(0, true)], 0)); ([1;-1]%Z, ([(1, false)], 0)); ([0;0]%Z, ([], 2));
       ([-1;1]%Z, ([(1, true)], 0)); ([1;1]%Z, ([], 0)); ([0;2]%Z, ([], 1))] /\
  StronglySorted (fun p q => lexr 2 (fst p) (fst q)) l /\ NoDup (map fst l).
Proof.
  eexists. split; [reflexivity|]. split; [vm_compute; reflexivity|].
  assert (W : forall k h, In (k, h) tag_kh -> length k = sdim mirror_i).
  { intros k h [E|[E|[E|[]]]]; injection E as <- <-; reflexivity. }
  assert (HI : In (zeye (sdim mirror_i)) (sops mirror_i)) by (left; reflexivity).
  split; [exact (proj1 (C150_orbits tag mirror_i tag_kh _ W HI eq_refl))|].
  refine (C150_distinct tag mirror_i tag_kh _ W _ HI _ eq_refl).
  - apply is_group_b_spec. vm_compute. reflexivity.
  - assert (Q : forallb (fun i => forallb (fun j => forallb (fun s => orb (Nat.eqb i j)
      (negb (zveqb (zmv 2 s (fst (nth i tag_kh ([], [])))) (fst (nth j tag_kh ([], [])))))) (sym_all mirror_i)) (seq 0 3)) (seq 0 3) = true)
      by (vm_compute; reflexivity).
    intros i j k k' h h' s Ei Ej Hs E. rewrite forallb_forall in Q.
    assert (L : forall m p, nth_error tag_kh m = Some p -> m < 3) by (intros m p E'; change 3 with (length tag_kh); apply nth_error_Some; rewrite E'; discriminate).
    assert (Li := L _ _ Ei). assert (Lj := L _ _ Ej).
    specialize (Q i ltac:(apply in_seq; lia)). rewrite forallb_forall in Q. specialize (Q j ltac:(apply in_seq; lia)). rewrite forallb_forall in Q.
    specialize (Q s Hs). rewrite (nth_error_nth _ _ _ Ei), (nth_error_nth _ _ _ Ej) in Q. cbn [fst] in Q.
    apply orb_true_iff in Q. destruct Q as [Q|Q]; [apply Nat.eqb_eq, Q|]. change (zmv 2 s k = k') in E. rewrite (proj2 (zveqb_spec _ _) E) in Q. discriminate.
Qed.

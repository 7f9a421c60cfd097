(** Property C05, second part: the named crystal groups are exactly the matrices their documentation describes. *)
From Coq Require Import List Arith ZArith Lia Bool.
Import ListNotations.
From Verif Require Import SRing LMat SymModel FinGroup SymGenProofs DetMC SymInitProofs SymNamedProofs SymProps.

(** integer orthogonal matrices: the symmetries of the cube (n = 3) and of the square (n = 2) *)
Definition ortho (n : nat) (s : zmat) : Prop := wfz n s /\ zmul n s (ltr (K:=Zs) n s) = zeye n.

Local Open Scope Z_scope.
Definition units3 : list zvec := [[1;0;0];[-1;0;0];[0;1;0];[0;-1;0];[0;0;1];[0;0;-1]].
Definition units2 : list zvec := [[1;0];[-1;0];[0;1];[0;-1]].
Lemma sq_le1 a b : 0 <= b -> a * a + b = 1 -> a = 0 \/ a = 1 \/ a = -1.
Proof. intros Hb E. assert (-1 <= a <= 1) by nia. lia. Qed.
Lemma unit3 a b c : a * a + (b * b + c * c) = 1 -> In [a;b;c] units3.
Proof.
  intros E. destruct (sq_le1 a (b * b + c * c)) as [-> | [-> | ->]]; [nia|exact E| | |].
  - destruct (sq_le1 b (c * c)) as [-> | [-> | ->]]; [nia|lia| | |].
    + destruct (sq_le1 c 0) as [-> | [-> | ->]]; [lia|lia| | |]; [discriminate| |]; cbn; tauto.
    + assert (c = 0) by nia. subst. cbn; tauto.
    + assert (c = 0) by nia. subst. cbn; tauto.
  - assert (b = 0) by nia. assert (c = 0) by nia. subst. cbn; tauto.
  - assert (b = 0) by nia. assert (c = 0) by nia. subst. cbn; tauto.
Qed.
Lemma unit2 a b : a * a + b * b = 1 -> In [a;b] units2.
Proof.
  intros E. destruct (sq_le1 a (b * b)) as [-> | [-> | ->]]; [nia|exact E| | |].
  - destruct (sq_le1 b 0) as [-> | [-> | ->]]; [lia|lia| | |]; [discriminate| |]; cbn; tauto.
  - assert (b = 0) by nia. subst. cbn; tauto.
  - assert (b = 0) by nia. subst. cbn; tauto.
Qed.
Local Close Scope Z_scope.

Definition cand3 : list zmat := flat_map (fun a => flat_map (fun b => map (fun c => [a; b; c]) units3) units3) units3.
Definition cand2 : list zmat := flat_map (fun a => map (fun b => [a; b]) units2) units2.

Lemma ortho_cand3 s : ortho 3 s -> In s cand3.
Proof.
  intros [[Hl Hr] E]. destruct s as [|r0 [|r1 [|r2 [|? ?]]]]; try discriminate.
  assert (L0 := Hr r0 (or_introl eq_refl)). assert (L1 := Hr r1 (or_intror (or_introl eq_refl))).
  assert (L2 := Hr r2 (or_intror (or_intror (or_introl eq_refl)))). clear Hr Hl.
  destruct r0 as [|a [|b [|c [|? ?]]]]; try discriminate. destruct r1 as [|d [|e [|f [|? ?]]]]; try discriminate.
  destruct r2 as [|g [|h [|i [|? ?]]]]; try discriminate. clear L0 L1 L2.
  unfold zmul, lmul, ltr, zeye, leye, mk, ent in E. cbn in E.
  injection E as E0 _ _ _ E1 _ _ _ E2.
  unfold cand3. apply in_flat_map. exists [a;b;c]. split; [apply unit3; lia|].
  apply in_flat_map. exists [d;e;f]. split; [apply unit3; lia|].
  apply in_map_iff. exists [g;h;i]. split; [reflexivity|apply unit3; lia].
Qed.
Lemma ortho_cand2 s : ortho 2 s -> In s cand2.
Proof.
  intros [[Hl Hr] E]. destruct s as [|r0 [|r1 [|? ?]]]; try discriminate.
  assert (L0 := Hr r0 (or_introl eq_refl)). assert (L1 := Hr r1 (or_intror (or_introl eq_refl))). clear Hr Hl.
  destruct r0 as [|a [|b [|? ?]]]; try discriminate. destruct r1 as [|d [|e [|? ?]]]; try discriminate. clear L0 L1.
  unfold zmul, lmul, ltr, zeye, leye, mk, ent in E. cbn in E. injection E as E0 _ _ E1.
  unfold cand2. apply in_flat_map. exists [a;b]. split; [apply unit2; lia|].
  apply in_map_iff. exists [d;e]. split; [reflexivity|apply unit2; lia].
Qed.

Definition ortho_b (n : nat) (s : zmat) : bool := wfz_b n s && zmeqb (zmul n s (ltr (K:=Zs) n s)) (zeye n).
Lemma ortho_b_spec n s : ortho_b n s = true -> ortho n s.
Proof.
  unfold ortho_b. rewrite andb_true_iff. intros [A B]. apply zmeqb_spec in B. split; [|exact B].
  apply (wfz_b_spec n [s]); [cbn; rewrite A; reflexivity|left; reflexivity].
Qed.

(** complete check: the listed matrices are those candidates that satisfy the description *)
Definition exactly_b (n : nat) (cand l : list zmat) (p : zmat -> bool) : bool :=
  forallb (fun s => ortho_b n s && p s) l && forallb (fun s => implb (ortho_b n s && p s) (memb zmeqb s l)) cand.
Lemma exactly n cand l p : (forall s, ortho n s -> In s cand) -> (forall s, ortho n s -> ortho_b n s = true) ->
  exactly_b n cand l p = true -> forall s, In s l <-> ortho n s /\ p s = true.
Proof.
  intros Hc Hb E s. unfold exactly_b in E. apply andb_true_iff in E. destruct E as [E1 E2].
  rewrite forallb_forall in E1, E2. split.
  - intros Hs. specialize (E1 s Hs). apply andb_true_iff in E1. destruct E1 as [A B]. split; [apply ortho_b_spec, A|exact B].
  - intros [Ho Hp]. specialize (E2 s (Hc s Ho)). rewrite (Hb s Ho), Hp in E2. apply zmemb_In, E2.
Qed.
Lemma ortho_b_complete n s : ortho n s -> ortho_b n s = true.
Proof.
  intros [[W1 W2] E]. unfold ortho_b. rewrite andb_true_iff. split; [|apply zmeqb_spec, E].
  unfold wfz_b. rewrite andb_true_iff, Nat.eqb_eq, forallb_forall. split; [exact W1|]. intros r Hr. apply Nat.eqb_eq, W2, Hr.
Qed.
Definition exactly3 := fun l p => exactly 3 cand3 l p ortho_cand3 (ortho_b_complete 3).
Definition exactly2 := fun l p => exactly 2 cand2 l p ortho_cand2 (ortho_b_complete 2).

Definition all_ents (p : Z -> bool) (s : zmat) : bool := forallb (forallb p) s.
Definition diag3 (s : zmat) : bool :=
  forallb (fun i => forallb (fun j => Nat.eqb i j || Z.eqb (ent (K:=Zs) s i j) 0) (seq 0 3)) (seq 0 3).
Definition det_is (n : nat) (d : Z) (s : zmat) : bool := Z.eqb (zdet n s) d.

Theorem C05_members : exists c1 c0 t1 t0 p0 p1 m0 m1 q,
  sym_cubic true = Some c1 /\ sym_cubic false = Some c0 /\
  sym_tetrahedral true = Some t1 /\ sym_tetrahedral false = Some t0 /\
  sym_perm3 false = Some p0 /\ sym_perm3 true = Some p1 /\ sym_mirror3 false = Some m0 /\ sym_mirror3 true = Some m1 /\
  sym_square = Some q /\
  (** cubic: all integer orthogonal matrices, without inversion those of determinant 1 (the group O);
      the full tetrahedral group is O as documented *)
  (forall s, In s (sym_all c1) <-> ortho 3 s) /\
  (forall s, In s (sym_all c0) <-> ortho 3 s /\ zdet 3 s = 1%Z) /\
  (forall s, In s (sym_all t1) <-> ortho 3 s /\ zdet 3 s = 1%Z) /\
  (** tetrahedral: in addition an even permutation of the axes *)
  (forall s, In s (sym_all t0) <-> ortho 3 s /\ zdet 3 s = 1%Z /\ zdet 3 (map (map Z.abs) s) = 1%Z) /\
  (** perm3: permutation matrices, with inversion also their negatives *)
  (forall s, In s (sym_all p0) <-> ortho 3 s /\ forall r x, In r s -> In x r -> (0 <= x)%Z) /\
  (forall s, In s (sym_all p1) <-> ortho 3 s /\
     ((forall r x, In r s -> In x r -> (0 <= x)%Z) \/ (forall r x, In r s -> In x r -> (x <= 0)%Z))) /\
  (** mirror3: diagonal matrices *)
  (forall s, In s (sym_all m1) <-> ortho 3 s /\ forall i j, i < 3 -> j < 3 -> i <> j -> ent (K:=Zs) s i j = 0%Z) /\
  (forall s, In s (sym_all m0) <-> ortho 3 s /\ (forall i j, i < 3 -> j < 3 -> i <> j -> ent (K:=Zs) s i j = 0%Z) /\ zdet 3 s = 1%Z) /\
  (** square: all integer orthogonal matrices of the plane *)
  (forall s, In s (sym_all q) <-> ortho 2 s).
Proof.
  assert (Hd : forall s, diag3 s = true <-> forall i j, i < 3 -> j < 3 -> i <> j -> ent (K:=Zs) s i j = 0%Z).
  { intros s. unfold diag3. rewrite forallb_forall. split.
    - intros A i j Hi Hj Hne. specialize (A i (proj2 (in_seq 3 0 i) (conj (Nat.le_0_l i) Hi))). rewrite forallb_forall in A.
      specialize (A j (proj2 (in_seq 3 0 j) (conj (Nat.le_0_l j) Hj))). apply orb_true_iff in A. destruct A as [A|A].
      + apply Nat.eqb_eq in A. contradiction.
      + apply Z.eqb_eq in A. exact A.
    - intros A i Hi. apply forallb_forall. intros j Hj. apply in_seq in Hi, Hj. apply orb_true_iff.
      destruct (Nat.eqb_spec i j); [auto|right]. apply Z.eqb_eq, A; lia. }
  assert (Ha : forall p s, all_ents p s = true <-> forall r x, In r s -> In x r -> p x = true).
  { intros p s. unfold all_ents. rewrite forallb_forall. split.
    - intros A r x Hr Hx. specialize (A r Hr). rewrite forallb_forall in A. apply A, Hx.
    - intros A r Hr. apply forallb_forall. intros x Hx. exact (A r x Hr Hx). }
  do 9 eexists. do 9 (split; [vm_compute; reflexivity|]).
  split; [|split; [|split; [|split; [|split; [|split; [|split; [|split]]]]]]]; intros s.
  - rewrite (exactly3 _ (fun _ => true)); [intuition|vm_compute; reflexivity].
  - rewrite (exactly3 _ (det_is 3 1)); [unfold det_is; rewrite Z.eqb_eq; reflexivity|vm_compute; reflexivity].
  - rewrite (exactly3 _ (det_is 3 1)); [unfold det_is; rewrite Z.eqb_eq; reflexivity|vm_compute; reflexivity].
  - rewrite (exactly3 _ (fun s => det_is 3 1 s && det_is 3 1 (map (map Z.abs) s)));
      [unfold det_is; rewrite andb_true_iff, !Z.eqb_eq; reflexivity|vm_compute; reflexivity].
  - rewrite (exactly3 _ (all_ents (Z.leb 0))); [|vm_compute; reflexivity]. rewrite Ha.
    split; (intros [A B]; split; [exact A|]); intros r x Hr Hx; apply Z.leb_le; eauto.
  - rewrite (exactly3 _ (fun s => all_ents (Z.leb 0) s || all_ents (Z.geb 0) s)); [|vm_compute; reflexivity].
    rewrite orb_true_iff, !Ha. split; (intros [A [B|B]]; split; [exact A|left|exact A|right]); intros r x Hr Hx.
    + apply Z.leb_le; eauto.
    + specialize (B r x Hr Hx). rewrite Z.geb_leb in B. apply Z.leb_le in B. exact B.
    + apply Z.leb_le; eauto.
    + rewrite Z.geb_leb. apply Z.leb_le; eauto.
  - rewrite (exactly3 _ diag3); [|vm_compute; reflexivity]. rewrite Hd. reflexivity.
  - rewrite (exactly3 _ (fun s => diag3 s && det_is 3 1 s)); [|vm_compute; reflexivity].
    unfold det_is. rewrite andb_true_iff, Hd, Z.eqb_eq. reflexivity.
  - rewrite (exactly2 _ (fun _ => true)); [intuition|vm_compute; reflexivity].
Qed.
Print Assumptions C05_members.

(** even_perm3 is the group generated by the two documented matrices *)
Theorem C05_even_perm3 : exists g, sym_even_perm3 false = Some g /\
  forall s, In s (sym_all g) <->
    exists w, (forall x, In x w -> In x [ [[0;0;1];[0;-1;0];[1;0;0]]; [[-1;0;0];[0;0;1];[0;1;0]] ]%Z) /\
              s = fold_right (zmul 3) (zeye 3) w.
Proof.
  set (G := [ [[0;0;1];[0;-1;0];[1;0;0]]; [[-1;0;0];[0;0;1];[0;1;0]] ]%Z).
  eexists. split; [vm_compute; reflexivity|]. intros s.
  assert (HW : forall x, In x G -> wfz 3 x) by (apply wfz_b_spec; reflexivity).
  destruct (from_generator zmeqb (zmul 3) (zeye 3) (det_ok 3) G) as [R| | |] eqn:E; try (vm_compute in E; discriminate).
  pose proof (from_generator_ok_z 3 G R HW E) as (_ & _ & _ & _ & _ & A). unfold generated, wprod in A. rewrite <- A.
  assert (ER : R = match from_generator zmeqb (zmul 3) (zeye 3) (det_ok 3) G with GenOk R => R | _ => [] end) by (rewrite E; reflexivity).
  vm_compute in ER. rewrite ER. unfold sym_all; cbn [sops sinv sdim app]. cbn [In]. tauto.
Qed.
Print Assumptions C05_even_perm3.

(** the group O contains a rotation by 90 degrees and the tetrahedral group does not *)
Example C05_members_example : ortho 3 [[0;-1;0];[1;0;0];[0;0;1]]%Z /\ zdet 3 [[0;-1;0];[1;0;0];[0;0;1]]%Z = 1%Z /\
  zdet 3 (map (map Z.abs) [[0;-1;0];[1;0;0];[0;0;1]]%Z) = (-1)%Z.
Proof. split; [apply ortho_b_spec; reflexivity|]. split; reflexivity. Qed.

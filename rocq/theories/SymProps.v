(** Properties C01-C19: symmetry groups (symmetry.py). Each theorem is followed by an example that
    meets its hypotheses and by [Print Assumptions]. The notions used in the statements ([generated],
    [is_group], [closed], [is_orbit]) are defined in FinGroup.v / SymEqProofs.v without reference to
    the modelled functions. *)
From Coq Require Import List Arith ZArith Lia Bool Permutation Sorted QArith Qcanon.
Local Close Scope Q_scope.
Local Close Scope Qc_scope.
Import ListNotations.
From Verif Require Import SRing LMat CplxR SymModel FinGroup SymGenProofs DetMC SymInitProofs SymEqProofs
  SymPointProofs SymModel2 SymTensorProofs SymReduceProofs SymNamedProofs.

(** *** helpers for the examples *)
Definition wfz_b (n : nat) (a : zmat) : bool :=
  Nat.eqb (length a) n && forallb (fun r => Nat.eqb (length r) n) a.
Lemma wfz_b_spec n l : forallb (wfz_b n) l = true -> forall s, In s l -> wfz n s.
Proof.
  intros H s Hs. rewrite forallb_forall in H. specialize (H s Hs). unfold wfz_b in H.
  apply andb_true_iff in H. destruct H as [H1 H2]. split; [apply Nat.eqb_eq; exact H1|].
  intros r Hr. rewrite forallb_forall in H2. apply Nat.eqb_eq, H2, Hr.
Qed.

Lemma repeat_vzero n : repeat 0%Z n = vzero (K:=Zs) n.
Proof.
  unfold vzero, vmk. generalize 0%nat. induction n as [|n IH]; intros m; [reflexivity|].
  simpl. rewrite <- IH. reflexivity.
Qed.

Local Open Scope Z_scope.
Definition rot4 : zmat := [[0;1];[-1;0]].
Definition mirr : zmat := [[1;0];[0;-1]].
Definition gen3 : list zmat := [ [[0;1;0];[0;0;1];[1;0;0]]; [[0;1;0];[-1;0;0];[0;0;1]] ].
Local Close Scope Z_scope.

(* ------------------------------------------------------------------ *)
(** ** C01 *)
Theorem C01_from_generator_closed : forall n (G R : list zmat),
  (forall s, In s G -> wfz n s) ->
  from_generator zmeqb (zmul n) (zeye n) (det_ok n) G = GenOk R ->
  hd_error R = Some (zeye n) /\ (forall s, In s G -> In s R) /\ NoDup R /\
  (forall a b, In a R -> In b R -> In (zmul n a b) R).
Proof.
  intros n G R H1 H2. pose proof (from_generator_ok_z n G R H1 H2) as (A & B & C & D & _).
  auto.
Qed.
Print Assumptions C01_from_generator_closed.

Example C01_example : exists R, from_generator zmeqb (zmul 3) (zeye 3) (det_ok 3) gen3 = GenOk R /\
  length R = 24 /\ (forall s, In s gen3 -> wfz 3 s).
Proof. eexists; split; [vm_compute; reflexivity|split; [reflexivity|apply wfz_b_spec; reflexivity]]. Qed.

(** ** C02: the result is exactly the set of finite products of generators *)
Theorem C02_from_generator_generated : forall n (G R : list zmat),
  (forall s, In s G -> wfz n s) ->
  from_generator zmeqb (zmul n) (zeye n) (det_ok n) G = GenOk R ->
  forall x, In x R <-> exists w, (forall s, In s w -> In s G) /\ x = fold_right (zmul n) (zeye n) w.
Proof.
  intros n G R H1 H2. pose proof (from_generator_ok_z n G R H1 H2) as (_ & _ & _ & _ & _ & H). exact H.
Qed.
Print Assumptions C02_from_generator_generated.

Example C02_example : exists R, from_generator zmeqb (zmul 2) (zeye 2) (det_ok 2) [rot4; mirr] = GenOk R /\
  length R = 8 /\ In (zmul 2 rot4 (zmul 2 rot4 mirr)) R /\ (forall s, In s [rot4; mirr] -> wfz 2 s).
Proof.
  eexists; split; [vm_compute; reflexivity|]. split; [reflexivity|]. split; [vm_compute; tauto|].
  apply wfz_b_spec; reflexivity.
Qed.

(** ** C03: with unimodular generators the call returns iff fewer than 200 products exist, and raises
    the size error iff there are at least 200 distinct products *)
Theorem C03_from_generator_total : forall n (G : list zmat), G <> [] ->
  (forall s, In s G -> wfz n s) -> (forall s, In s G -> Z.abs (zdet n s) = 1%Z) ->
  let prod x := exists w, (forall s, In s w -> In s G) /\ x = fold_right (zmul n) (zeye n) w in
  let r := from_generator zmeqb (zmul n) (zeye n) (det_ok n) G in
  ((exists L, NoDup L /\ length L < 200 /\ forall x, In x L <-> prod x) <-> exists R, r = GenOk R) /\
  ((exists L, NoDup L /\ length L = 200 /\ forall x, In x L -> prod x) <-> r = GenSize) /\
  ((exists R, r = GenOk R) \/ r = GenSize).
Proof.
  intros n G Hne HW HU. cbv zeta.
  assert (Hd : forall s, In s G -> det_ok n s = true) by (intros s Hs; apply Z.eqb_eq, HU, Hs).
  destruct (from_generator_exact zmeqb (zmul n) (zeye n) (det_ok n) (wfz n) zmeqb_spec (wfz_eye n)
    (wfz_mul n) (zmul_assoc n) (zmul_1_l n) (zmul_1_r n) G Hne HW Hd) as [A B].
  split; [exact A|]. split; [exact B|]. apply from_generator_total; assumption.
Qed.
Print Assumptions C03_from_generator_total.

(** a shear generates an infinite group, the call raises the size error *)
Example C03_example : let shear : zmat := [[1;1];[0;1]]%Z in
  Z.abs (zdet 2 shear) = 1%Z /\ wfz 2 shear /\
  from_generator zmeqb (zmul 2) (zeye 2) (det_ok 2) [shear] = GenSize.
Proof.
  cbv zeta. split; [reflexivity|]. split; [|vm_compute; reflexivity].
  apply (wfz_b_spec 2 [ [[1;1];[0;1]]%Z ]); [reflexivity|left; reflexivity].
Qed.

(** ** C04: every operation has its inverse in the result, in every dimension *)
Theorem C04_from_generator_inverses : forall n (G R : list zmat),
  (forall s, In s G -> wfz n s) ->
  from_generator zmeqb (zmul n) (zeye n) (det_ok n) G = GenOk R ->
  forall s, In s R -> exists t, In t R /\ zmul n s t = zeye n /\ zmul n t s = zeye n.
Proof. intros n G R H1 H2. apply (from_generator_group n G R H1 H2). Qed.
Print Assumptions C04_from_generator_inverses.

Example C04_example : exists R, from_generator zmeqb (zmul 4) (zeye 4) (det_ok 4)
    [ [[0;1;0;0];[0;0;1;0];[0;0;0;1];[-1;0;0;0]]%Z ] = GenOk R /\ length R = 8 /\
  (forall s, In s [ [[0;1;0;0];[0;0;1;0];[0;0;0;1];[-1;0;0;0]]%Z ] -> wfz 4 s).
Proof. eexists; split; [vm_compute; reflexivity|split; [reflexivity|apply wfz_b_spec; reflexivity]]. Qed.

(** the same for the returned object, with inversion: it represents a group, and contains exactly the
    products of the generators and (if requested) -1 *)
Theorem C04_sym_from_generator_group : forall n (G : list zmat) inv g,
  (forall s, In s G -> wfz n s) ->
  (Nat.odd n = true \/ inv = false \/
   ~ exists w, (forall s, In s w -> In s G) /\ zneg n (zeye n) = fold_right (zmul n) (zeye n) w) ->
  sym_from_generator n G inv = Some g ->
  sdim g = n /\ is_group (zmul n) (zeye n) (sym_all g) /\
  forall x, In x (sym_all g) <->
    exists w, (forall s, In s w -> In s (G ++ (if inv then [zneg n (zeye n)] else []))) /\
              x = fold_right (zmul n) (zeye n) w.
Proof.
  intros n G inv g HW Hs H. destruct (sym_from_generator_group n G inv g HW Hs H) as (A & B & _).
  pose proof (sym_from_generator_ops n G inv g HW H) as (_ & _ & C & _).
  split; [exact A|]. split; [exact B|]. intros x. rewrite C. unfold generated, wprod, inv_gen. reflexivity.
Qed.
Print Assumptions C04_sym_from_generator_group.

Example C04_sym_example : exists g, sym_from_generator 3 gen3 true = Some g /\ sym_len g = 48 /\ Nat.odd 3 = true.
Proof. eexists; split; [vm_compute; reflexivity|split; reflexivity]. Qed.

(* ------------------------------------------------------------------ *)
(** ** C05: orders of the named groups. [builds_group o n k]: the constructor returned an object of
    dimension n whose operations form a group of k elements, and len() is k. *)
Theorem C05_named_groups :
  builds_group (sym_o1 false) 1 1 /\ builds_group (sym_o1 true) 1 2 /\
  builds_group (sym_perm3 false) 3 6 /\ builds_group (sym_perm3 true) 3 12 /\
  builds_group (sym_even_perm3 false) 3 6 /\ builds_group (sym_even_perm3 true) 3 12 /\
  builds_group (sym_mirror3 false) 3 4 /\ builds_group (sym_mirror3 true) 3 8 /\
  builds_group sym_square 2 8 /\
  builds_group (sym_tetrahedral false) 3 12 /\ builds_group (sym_tetrahedral true) 3 24 /\
  builds_group (sym_cubic false) 3 24 /\ builds_group (sym_cubic true) 3 48.
Proof. exact named_groups. Qed.
Print Assumptions C05_named_groups.

(** none, inv, mirror_x, mirror_xy in every dimension *)
Theorem C05_mirror_groups_partial : forall n inv,
  (exists g, sym_none n = Some g /\ sdim g = n /\ sym_all g = [zeye n] /\ sym_len g = 1) /\
  (0 < n -> exists g, sym_inv n = Some g /\ sdim g = n /\
    is_group (zmul n) (zeye n) (sym_all g) /\ sym_len g = 2 /\
    (forall s, In s (sym_all g) <-> s = zeye n \/ s = zneg n (zeye n))) /\
  (1 < n -> exists g, sym_mirror_x inv n = Some g /\ sdim g = n /\
    is_group (zmul n) (zeye n) (sym_all g) /\ sym_len g = (if inv then 4 else 2) /\
    (forall s, In s (sym_all g) <-> In s [zeye n; zflip n 1] \/ inv = true /\ In s [zneg n (zeye n); zneg n (zflip n 1)])) /\
  (2 < n -> exists g, sym_mirror_xy inv n = Some g /\ sdim g = n /\
    is_group (zmul n) (zeye n) (sym_all g) /\ sym_len g = (if inv then 4 else 2) /\
    (forall s, In s (sym_all g) <-> In s [zeye n; zflip n 2] \/ inv = true /\ In s [zneg n (zeye n); zneg n (zflip n 2)])).
Proof.
  intros n inv. split; [apply none_sym|]. split; [apply inv_sym|]. split; intros H; apply mirror_sym; lia.
Qed.
Print Assumptions C05_mirror_groups_partial.

Example C05_example : option_map sym_len (sym_mirror_x true 5) = Some 4 /\ option_map sym_len (sym_mirror_xy true 4) = Some 4.
Proof. vm_compute. auto. Qed.

(** the full claim (all constructor arguments) fails: mirror_xy(True, dim=2) has two distinct operations
    but length 4, and its operation list is not a duplicate-free group *)
Theorem C05_named_groups_refuted : exists g, sym_mirror_xy true 2 = Some g /\
  sym_len g = 4 /\ length (nodup (list_eq_dec (list_eq_dec Z.eq_dec)) (sym_all g)) = 2 /\
  ~ is_group (zmul 2) (zeye 2) (sym_all g).
Proof.
  eexists. split; [vm_compute; reflexivity|]. split; [reflexivity|]. split; [reflexivity|].
  intros (_ & Hnd & _). vm_compute in Hnd. inversion Hnd as [|? ? Hn _]. subst. apply Hn. simpl. auto.
Qed.
Print Assumptions C05_named_groups_refuted.

(* ------------------------------------------------------------------ *)
(** ** C06 *)
Theorem C06_operations_partial : forall n (S : list zmat) inv proj g,
  (forall s, In s S -> wfz n s) -> NoDup S ->
  ((forall s, In s S -> In (zneg n s) S) \/ (forall s, In s S -> ~ In (zneg n s) S)) ->
  (* missing: even dimension, -1 contained in S and inversion=True (refuted below) *)
  (Nat.odd n = true \/ inv = false \/ ~ (forall s, In s S -> In (zneg n s) S)) ->
  sym_init n S inv proj = Some g ->
  (forall x, In x (sym_all g) <-> In x S \/ inv = true /\ exists s, In s S /\ x = zneg n s) /\
  NoDup (sym_all g) /\ sym_len g = length (sym_all g).
Proof.
  intros n S inv proj g HW Hnd Halt Hside H. split; [apply (sym_init_ops n S inv proj g HW H)|].
  split; [eapply sym_init_nodup; eauto|apply sym_len_all].
Qed.
Print Assumptions C06_operations_partial.

Example C06_example : exists g, sym_init 2 [zeye 2; rot4] true false = Some g /\ sym_len g = 4 /\ NoDup [zeye 2; rot4] /\
  (forall s, In s [zeye 2; rot4] -> ~ In (zneg 2 s) [zeye 2; rot4]).
Proof.
  eexists; split; [vm_compute; reflexivity|]. split; [reflexivity|]. split.
  - apply nodup_b_spec; reflexivity.
  - intros s [<-|[<-|[]]]; vm_compute; intros [E|[E|[]]]; discriminate E.
Qed.

Theorem C06_operations_refuted : exists n (S : list zmat) g,
  NoDup S /\ (forall s, In s S -> In (zneg n s) S) /\ (forall s, In s S -> wfz n s) /\
  sym_init n S true false = Some g /\ ~ NoDup (sym_all g) /\ sym_len g = 2 * length S.
Proof.
  exists 2, [zeye 2; zneg 2 (zeye 2)]. eexists. split; [apply nodup_b_spec; reflexivity|].
  split; [intros s [<-|[<-|[]]]; vm_compute; auto|].
  split; [apply wfz_b_spec; reflexivity|].
  split; [vm_compute; reflexivity|]. split; [|reflexivity].
  vm_compute. intros Hnd. inversion Hnd as [|? ? Hn _]. subst. apply Hn. simpl; auto.
Qed.
Print Assumptions C06_operations_refuted.

(* ------------------------------------------------------------------ *)
(** ** C07 *)
(** soundness: equal objects describe the same operations *)
Theorem C07_eq_sound_partial : forall g h, NoDup (sops g) -> sym_eq g h = true ->
  sdim g = sdim h /\ (forall x, In x (sym_all g) <-> In x (sym_all h)).
Proof. exact sym_eq_sound_all. Qed.
Print Assumptions C07_eq_sound_partial.

Example C07_sound_example : match sym_cubic true with
  | Some g => nodup_b (sops g) && sym_eq g (MkSym 3 (rev (sops g)) true false) = true | None => False end.
Proof. vm_compute. reflexivity. Qed.

(** completeness in odd dimensions, for objects that only store rotations (as the constructor produces
    them when -1 is present): missing are mirrors stored beside inversion, and duplicate entries *)
Theorem C07_eq_complete_partial : forall g h, sdim g = sdim h -> Nat.odd (sdim g) = true ->
  (forall s, In s (sops g) -> (0 < zdet (sdim g) s)%Z) -> (forall s, In s (sops h) -> (0 < zdet (sdim h) s)%Z) ->
  NoDup (sops g) -> NoDup (sops h) ->
  (forall s, In s (sops g) -> wfz (sdim g) s) -> (forall s, In s (sops h) -> wfz (sdim h) s) ->
  In (zeye (sdim g)) (sops g) -> In (zeye (sdim h)) (sops h) ->
  sym_eq g h = true <-> (forall x, In x (sym_all g) <-> In x (sym_all h)).
Proof. exact sym_eq_proper. Qed.
Print Assumptions C07_eq_complete_partial.

Example C07_complete_example : exists g h, sym_mirror3 true = Some g /\
  sym_init 3 [zeye 3; zneg 3 (zeye 3); zflip 3 2; zneg 3 (zflip 3 2)] false false = Some h /\
  Nat.odd (sdim g) = true /\
  forallb (fun s => Z.ltb 0 (zdet 3 s) && wfz_b 3 s) (sops g ++ sops h) = true /\
  nodup_b (sops g) = true /\ nodup_b (sops h) = true /\ sym_eq g h = false.
Proof. do 2 eexists. split; [vm_compute; reflexivity|]. split; [vm_compute; reflexivity|]. vm_compute. auto 10. Qed.

(** the stated equivalence fails in both directions: (1) with a repeated operation, a == b holds although
    the operation sets differ (and b == a does not); (2) mirror_x(True,3) and the same operations written
    with the rotation instead of the mirror are unequal although both describe the same set *)
Theorem C07_eq_refuted :
  (exists a b, sym_init 3 [zeye 3; zeye 3] false false = Some a /\ sym_init 3 [zeye 3; zflip 3 1] false false = Some b /\
     sym_eq a b = true /\ sym_eq b a = false /\ In (zflip 3 1) (sym_all b) /\ ~ In (zflip 3 1) (sym_all a)) /\
  (exists a b, sym_mirror_x true 3 = Some a /\ sym_init 3 [zeye 3; zneg 3 (zflip 3 1)] true false = Some b /\
     sym_eq a b = false /\ forall x, In x (sym_all a) <-> In x (sym_all b)).
Proof.
  split.
  - do 2 eexists. split; [vm_compute; reflexivity|]. split; [vm_compute; reflexivity|].
    split; [reflexivity|]. split; [reflexivity|]. split; [vm_compute; auto|].
    vm_compute. intros [E|[E|[]]]; discriminate E.
  - do 2 eexists. split; [vm_compute; reflexivity|]. split; [vm_compute; reflexivity|].
    split; [reflexivity|]. intros x. vm_compute. intuition.
Qed.
Print Assumptions C07_eq_refuted.

(* ------------------------------------------------------------------ *)
(** ** C08 *)
Theorem C08_neighbor_lookup : forall n (ns : list zvec) (r : zvec),
  match try_neighbor zveqb (zvneg n) ns r with
  | Some (j, false) => nth_error ns j = Some r
  | Some (j, true) => nth_error ns j = Some (zvneg n r) /\ ~ In r ns
  | None => ~ In r ns /\ ~ In (zvneg n r) ns
  end.
Proof. intros n ns r. apply try_neighbor_spec. exact zveqb_spec. Qed.
Print Assumptions C08_neighbor_lookup.

Example C08_example : let ns : list zvec := [[0;0];[1;0];[1;1]]%Z in
  try_neighbor zveqb (zvneg 2) ns [1;1]%Z = Some (2, false) /\
  try_neighbor zveqb (zvneg 2) ns [-1;0]%Z = Some (1, true) /\
  try_neighbor zveqb (zvneg 2) ns [0;1]%Z = None.
Proof. vm_compute. auto. Qed.

(* ------------------------------------------------------------------ *)
(** ** C09 *)
(** all four parts, if the group contains inversion or the list is closed under negation.
    Missing: symmetries without inversion on half-space lists (refuted below). *)
Theorem C09_complete_neighbors_partial : forall g (ns : list zvec) l,
  (forall s, In s (sops g) -> wfz (sdim g) s) -> (forall r, In r ns -> length r = sdim g) ->
  In (zeye (sdim g)) (sym_all g) ->
  ((forall s, In s (sym_all g) -> In (zneg (sdim g) s) (sym_all g)) \/
   (forall r, In r ns -> In (zvneg (sdim g) r) ns)) ->
  complete_neighbors g ns = Some l ->
  let image x := exists r s, In r ns /\ In s (sym_all g) /\ x = zmv (sdim g) (ltr (sdim g) s) r in
  (forall x, image x -> In x (map fst l) \/ In (zvneg (sdim g) x) (map fst l)) /\
  (NoDup (map fst l) /\
   forall x, In x (map fst l) -> In (zvneg (sdim g) x) (map fst l) -> x = repeat 0%Z (sdim g)) /\
  (forall x i, In (x, i) l -> exists r s, nth_error ns i = Some r /\ In s (sym_all g) /\
     x = zmv (sdim g) (ltr (sdim g) s) r) /\
  StronglySorted (fun p q => (znorm2 (fst p) <= znorm2 (fst q))%Z) l /\
  (In (repeat 0%Z (sdim g)) ns -> exists i l', l = (repeat 0%Z (sdim g), i) :: l').
Proof.
  intros g ns l HW Hr Ho Hneg H. cbv zeta.
  pose proof (complete_neighbors_spec g ns l HW Hr Ho H) as (A & B & C & D).
  assert (Ez : repeat 0%Z (sdim g) = vzero (K:=Zs) (sdim g)).
  { apply repeat_vzero. }
  split; [|split; [split|split; [|split]]].
  - intros x (r & s & H1 & H2 & ->). exact (complete_neighbors_cover g ns l HW Hr Ho Hneg H r s H1 H2).
  - exact C.
  - intros x. rewrite Ez. exact (complete_neighbors_half g ns l x HW Hr Ho H).
  - exact B.
  - exact D.
  - rewrite Ez. exact (complete_neighbors_zero_first g ns l HW Hr Ho H).
Qed.
Print Assumptions C09_complete_neighbors_partial.

Example C09_example : match sym_square with
  | Some g => option_map (map fst) (complete_neighbors g [[0;0];[2;1]]%Z) =
              Some [[0;0];[1;-2];[2;-1];[2;1];[1;2]]%Z /\
              forallb (wfz_b 2) (sops g) = true /\
              forallb (fun s => memb zmeqb (zneg 2 s) (sym_all g)) (sym_all g) = true
  | None => False end.
Proof. vm_compute. auto. Qed.

Theorem C09_complete_neighbors_refuted : exists g, sym_none 3 = Some g /\
  complete_neighbors g [[0;0;0];[-1;0;0]]%Z = Some [([0;0;0]%Z, 0)].
Proof. eexists. split; vm_compute; reflexivity. Qed.
Print Assumptions C09_complete_neighbors_refuted.

(* ------------------------------------------------------------------ *)
(** ** C10 *)
Theorem C10_r_class_size : forall g (k : zvec) (L : list zvec),
  (forall s, In s (sops g) -> wfz (sdim g) s) -> is_group (zmul (sdim g)) (zeye (sdim g)) (sym_all g) ->
  length k = sdim g ->
  NoDup L -> (forall y, In y L <-> exists s, In s (sym_all g) /\ y = zmv (sdim g) s k) ->
  let (num, den) := r_class_size g k in (0 < den)%Z /\ num = (Z.of_nat (length L) * den)%Z.
Proof.
  intros g k L HW HG Hk Hnd HL. unfold r_class_size.
  pose proof (r_class_size_orbit g k L HW HG Hk (conj Hnd HL)) as E.
  pose proof (fix_count_pos g k Hk (proj1 HG)) as P. split; lia.
Qed.
Print Assumptions C10_r_class_size.

Example C10_example : match sym_cubic true with
  | Some g => is_group_b 3 (sym_all g) = true /\ forallb (wfz_b 3) (sops g) = true /\
              r_class_size g [1;1;0]%Z = (48, 4)%Z
  | None => False end.
Proof. vm_compute. auto. Qed.

(** ** C11 *)
Theorem C11_k_weight : forall g (D : Z) (k : zvec), (0 < D)%Z ->
  (forall s, In s (sops g) -> wfz (sdim g) s) -> is_group (zmul (sdim g)) (zeye (sdim g)) (sym_all g) ->
  length k = sdim g ->
  (* number of images modulo integer translations *)
  (forall L, NoDup L ->
     (forall y, In y L <-> exists s, In s (sym_all g) /\ y = map (fun x => x mod D)%Z (zmv (sdim g) s (map (fun x => x mod D)%Z k))) ->
     sym_len g = length L * k_fix_count g D k) /\
  0 < k_fix_count g D k /\
  k_fix_count g D (repeat 0%Z (sdim g)) = sym_len g /\
  (forall t, In t (sym_all g) -> k_fix_count g D (zmv (sdim g) t k) = k_fix_count g D k) /\
  (forall k', length k' = sdim g -> map (fun x => x mod D)%Z k' = map (fun x => x mod D)%Z k ->
     k_fix_count g D k' = k_fix_count g D k).
Proof.
  intros g D k HD HW HG Hk.
  assert (Ez : repeat 0%Z (sdim g) = vzero (K:=Zs) (sdim g)).
  { apply repeat_vzero. }
  split; [|split; [|split; [|split]]].
  - intros L Hnd HL. apply (k_weight_orbit g D k L HD HW HG Hk). split; [exact Hnd|exact HL].
  - apply (k_fix_count_pos g D k HD Hk), HG.
  - rewrite Ez. apply k_fix_count_zero; exact HD.
  - intros t Ht. exact (k_fix_count_orbit g D k t HD HW HG Hk Ht).
  - intros k' Hk' E. exact (k_fix_count_periodic g D k' k HD Hk' Hk E).
Qed.
Print Assumptions C11_k_weight.

Example C11_example : match sym_cubic true with
  | Some g => is_group_b 3 (sym_all g) = true /\ k_fix_count g 2 [1;0;0]%Z = 16 /\ k_fix_count g 4 [1;1;0]%Z = 4
  | None => False end.
Proof. vm_compute. auto. Qed.

(* ------------------------------------------------------------------ *)
(** ** C12 *)
Theorem C12_equivalence_classes : forall (T : Type) (rel : T -> T -> bool) (l : list T),
  Permutation (concat (equivalence_classes rel l)) l /\
  (forall c, In c (equivalence_classes rel l) -> c <> []) /\
  ((forall a, In a l -> rel a a = true) ->
   (forall a b, In a l -> In b l -> rel a b = true -> rel b a = true) ->
   (forall a b c, In a l -> In b l -> In c l -> rel a b = true -> rel b c = true -> rel a c = true) ->
   forall i j ci cj a b, nth_error (equivalence_classes rel l) i = Some ci ->
     nth_error (equivalence_classes rel l) j = Some cj -> In a ci -> In b cj -> (rel a b = true <-> i = j)).
Proof.
  intros T rel l. split; [apply equivalence_classes_perm|].
  split; [intros c; apply classes_loop_nonempty|apply equivalence_classes_rel].
Qed.
Print Assumptions C12_equivalence_classes.

(** conjugacy classes: a and b are in the same class iff some s of the group has s a = b s *)
Theorem C12_conjugacy_classes : forall g, is_group (zmul (sdim g)) (zeye (sdim g)) (sops g) ->
  (forall s, In s (sops g) -> wfz (sdim g) s) ->
  Permutation (concat (conjugacy_classes g)) (sym_all g) /\
  (forall i j ci cj a b, nth_error (conjugacy_classes g) i = Some ci ->
     nth_error (conjugacy_classes g) j = Some cj -> In a ci -> In b cj ->
     ((exists s, In s (sops g) /\ zmul (sdim g) s a = zmul (sdim g) b s) <-> i = j)).
Proof.
  intros g HG HW. unfold conjugacy_classes. split; [apply equivalence_classes_perm|].
  destruct (conjugated_equiv (sdim g) (sops g) HG) as (R1 & R2 & R3).
  pose proof (sym_all_wf g HW) as HWa.
  intros i j ci cj a b Hi Hj Ha Hb. rewrite <- conjugated_spec.
  refine (equivalence_classes_rel (conjugated (sdim g) (sops g)) (sym_all g) _ _ _ i j ci cj a b Hi Hj Ha Hb).
  - intros x Hx. apply R1, HWa, Hx.
  - intros x y Hx Hy. apply R2; apply HWa; assumption.
  - intros x y z _ _ _. apply R3.
Qed.
Print Assumptions C12_conjugacy_classes.

Example C12_example : match sym_cubic false with
  | Some g => is_group_b 3 (sops g) = true /\ map (@length zmat) (conjugacy_classes g) = [6; 6; 8; 3; 1]
  | None => False end.
Proof. vm_compute. auto. Qed.

(* ------------------------------------------------------------------ *)
(** ** C13: projection, for every rank (p,q), true and pseudo tensors *)
Theorem C13_tensor_projection : forall (K : sring) (n p q : nat) (inv : lmat K -> lmat K)
    (sgn : lmat K -> K) (dv : K) (pseudo : bool) (S : list (lmat K)),
  is_group (lmul n) (leye n) S -> (forall s, In s S -> wfm n n s) ->
  (forall s, In s S -> wfm n n (inv s) /\ lmul n s (inv s) = leye n /\ lmul n (inv s) s = leye n) ->
  (pseudo = true -> sgn (leye n) = 1%K /\
     (forall s u, In s S -> In u S -> sgn (lmul n s u) = (sgn s * sgn u)%K)) ->
  (dv * ksum S (fun _ => 1))%K = 1%K ->
  let sym := tsymmetrize n p q inv sgn dv pseudo S in
  (* linear *)
  (forall t t' c b, idx_ok n (p + q) b -> sym (fun a => (t a + c * t' a)%K) b = (sym t b + c * sym t' b)%K) /\
  (* invariant *)
  (forall u t b, In u S -> idx_ok n (p + q) b -> tterm n p q inv sgn pseudo u (sym t) b = sym t b) /\
  (* invariant tensors are unchanged *)
  (forall t b, (forall u a, In u S -> idx_ok n (p + q) a -> tterm n p q inv sgn pseudo u t a = t a) ->
     idx_ok n (p + q) b -> sym t b = t b) /\
  (* projection *)
  (forall t b, idx_ok n (p + q) b -> sym (sym t) b = sym t b).
Proof.
  intros K n p q inv sgn dv pseudo S H1 H2 H3 H4 H5. cbv zeta. split; [|split; [|split]].
  - intros; apply tsym_lin; assumption.
  - intros; apply tsym_invariant; assumption.
  - intros; apply tsym_fixes; assumption.
  - intros; apply tsym_idem; assumption.
Qed.
Print Assumptions C13_tensor_projection.

(** for rank (1,1) the operation is t -> s^-1 t s *)
Theorem C13_rank11 : forall (K : sring) (n : nat) (inv : lmat K -> lmat K) (sgn : lmat K -> K) s (t : tensor K) i j,
  i < n -> j < n ->
  tterm n 1 1 inv sgn false s t [i; j] =
  ent (lmul n (lmul n (inv s) (mk n n (fun a b => t [a; b]))) s) i j.
Proof. exact @tterm_11. Qed.
Print Assumptions C13_rank11.

(** the group {1, diag(1,-1)} over the rationals: hypotheses hold, and off-diagonal elements vanish *)
Definition qm (a b c d : Z) : lmat Qs := [[Q2Qc (inject_Z a); Q2Qc (inject_Z b)]; [Q2Qc (inject_Z c); Q2Qc (inject_Z d)]].
Definition qmirr : list (lmat Qs) := [qm 1 0 0 1; qm 1 0 0 (-1)].
Definition qhalf : Qc := Q2Qc (1 # 2).
Example C13_example :
  is_group (lmul 2) (leye 2) qmirr /\ (forall s, In s qmirr -> wfm (K:=Qs) 2 2 s) /\
  (forall s, In s qmirr -> lmul 2 s s = leye (K:=Qs) 2) /\
  smul (s:=Qs) qhalf (ksum qmirr (fun _ => s1)) = s1 /\
  let t : tensor Qs := fun b => Q2Qc (inject_Z (Z.of_nat (1 + nth 0 b 0 + 2 * nth 1 b 0))) in
  map (fun b => this (tsymmetrize 2 1 1 (fun s => s) (fun _ => @s1 Qs) qhalf false qmirr t b)) [[0;0]; [0;1]; [1;0]; [1;1]]
  = [1; 0; 0; 4]%Q.
Proof.
  assert (E1 : lmul 2 (qm 1 0 0 1) (qm 1 0 0 1) = qm 1 0 0 1) by (vm_compute; reflexivity).
  assert (E2 : lmul 2 (qm 1 0 0 1) (qm 1 0 0 (-1)) = qm 1 0 0 (-1)) by (vm_compute; reflexivity).
  assert (E3 : lmul 2 (qm 1 0 0 (-1)) (qm 1 0 0 1) = qm 1 0 0 (-1)) by (vm_compute; reflexivity).
  assert (E4 : lmul 2 (qm 1 0 0 (-1)) (qm 1 0 0 (-1)) = qm 1 0 0 1) by (vm_compute; reflexivity).
  assert (E0 : leye (K:=Qs) 2 = qm 1 0 0 1) by (vm_compute; reflexivity).
  rewrite E0. split; [|split; [|split; [|split]]].
  - split; [left; reflexivity|]. split; [|split].
    + repeat constructor; simpl; [|tauto]. intros [E|[]]. discriminate E.
    + intros a b [<-|[<-|[]]] [<-|[<-|[]]]; rewrite ?E1, ?E2, ?E3, ?E4; simpl; auto.
    + intros a [<-|[<-|[]]]; [exists (qm 1 0 0 1)|exists (qm 1 0 0 (-1))]; rewrite ?E1, ?E4; simpl; auto.
  - intros s [<-|[<-|[]]]; (split; [reflexivity|]); intros r [<-|[<-|[]]]; reflexivity.
  - intros s [<-|[<-|[]]]; assumption.
  - apply Qc_is_canon. vm_compute; reflexivity.
  - vm_compute; reflexivity.
Qed.

(** ** C14: fails. The symmetry {1,-1} of the line (sops = [1], inversion = True): the vector 1 stays 1. *)
Theorem C14_inversion_refuted : exists g, sym_inv 1 = Some g /\ sinv g = true /\
  let t : tensor Zs := fun _ => 1%Z in
  let r := tsymmetrize (K:=Zs) 1 1 0 (fun s => s) (fun _ => 1%Z) 1%Z false (sops g) t in
  r [0] = 1%Z /\ tterm (K:=Zs) 1 1 0 (fun s => s) (fun _ => 1%Z) false (zneg 1 (zeye 1)) r [0] = (-1)%Z /\
  Z.of_nat (length (sops g)) = 1%Z.
Proof. eexists. split; [vm_compute; reflexivity|]. vm_compute. auto. Qed.
Print Assumptions C14_inversion_refuted.

(* ------------------------------------------------------------------ *)
(** ** C15 *)
Theorem C15_realize_symmetric : forall g (ks : list zvec) l,
  (forall k, In k ks -> length k = sdim g) -> In (zeye (sdim g)) (sym_all g) ->
  realize_symmetric g ks = Some l ->
  (forall x i, In (x, i) l -> exists k s, nth_error ks i = Some k /\ In s (sym_all g) /\ x = zmv (sdim g) s k) /\
  (forall k s, In k ks -> In s (sym_all g) -> In (zmv (sdim g) s k) (map fst l)) /\
  NoDup (map fst l).
Proof. exact realize_symmetric_spec. Qed.
Print Assumptions C15_realize_symmetric.

Example C15_example : match sym_square with
  | Some g => realize_symmetric g [[0;0];[2;1]]%Z =
     Some [([-1;-2]%Z,1);([1;-2]%Z,1);([-2;-1]%Z,1);([2;-1]%Z,1);([0;0]%Z,0);([-2;1]%Z,1);([2;1]%Z,1);([-1;2]%Z,1);([1;2]%Z,1)]
  | None => False end.
Proof. vm_compute. reflexivity. Qed.

(* ------------------------------------------------------------------ *)
(** ** C16: holds for lattice points (spacing 1) of length up to 10^6. Missing: finer spacing, refuted. *)
Theorem C16_reduce_partial : forall (D : Type) (differ : D -> D -> bool) checked g (l : list (zvec * D)) r,
  (forall s, In s (sops g) -> wfz (sdim g) s /\ Z.abs (zdet (sdim g) s) = 1%Z) ->
  is_group (zmul (sdim g)) (zeye (sdim g)) (sym_all g) ->
  (forall x d, In (x, d) l -> length x = sdim g /\ (znorm2 x <= 10 ^ 12)%Z) ->
  reduce_symmetric_data differ 1 checked g l = RedOk r ->
  (forall x d, In (x, d) r -> In (x, d) l) /\
  (forall x d, In (x, d) l -> exists y e s, In (y, e) r /\ In s (sym_all g) /\ x = zmv (sdim g) s y /\
     (checked = true -> e = d \/ differ d e = false)) /\
  (forall x d y e s, In (x, d) r -> In (y, e) r -> In s (sym_all g) -> y = zmv (sdim g) s x -> x = y).
Proof. exact @reduce_symmetric_data_spec. Qed.
Print Assumptions C16_reduce_partial.

Example C16_example : match sym_square with
  | Some g => is_group_b 2 (sym_all g) = true /\ is_orthogonal g = true /\
      reduce_symmetric_data Nat.ltb 1 true g [([1;2]%Z,7);([0;1]%Z,5);([2;1]%Z,7);([0;-1]%Z,5);([0;0]%Z,1)]
      = RedOk [([0;0]%Z,1);([0;-1]%Z,5);([2;1]%Z,7)]
  | None => False end.
Proof. vm_compute. auto. Qed.

Theorem C16_reduce_refuted : exists g l r, sym_inv 3 = Some g /\ is_orthogonal g = true /\
  (* coordinates in units of 1/100 *)
  l = [([0;0;-1],tt);([5;0;0],tt);([0;0;1],tt)]%Z /\
  reduce_symmetric_data (fun _ _ => false) 100 true g l = RedOk r /\
  In ([0;0;-1]%Z, tt) r /\ In ([0;0;1]%Z, tt) r /\
  In (zneg 3 (zeye 3)) (sym_all g) /\ [0;0;1]%Z = zmv 3 (zneg 3 (zeye 3)) [0;0;-1]%Z.
Proof.
  do 3 eexists. split; [vm_compute; reflexivity|]. split; [reflexivity|]. split; [reflexivity|].
  split; [vm_compute; reflexivity|]. vm_compute. auto 10.
Qed.
Print Assumptions C16_reduce_refuted.

(* ------------------------------------------------------------------ *)
(** ** C17: every non-empty list is rejected, also symmetric ones *)
Theorem C17_check_neighbors_refuted :
  (forall g (ns : list zvec), sdim g = 3 -> sops g <> [] -> ns <> [] -> (forall r, In r ns -> length r = 3) ->
     check_neighbors g ns = CnValueError) /\
  exists g, sym_cubic true = Some g /\
    let ns : list zvec := [[0;0;0];[1;0;0];[0;1;0];[0;0;1]]%Z in
    (forall r s, In r ns -> In s (sym_all g) ->
       In (zmv 3 (ltr 3 s) r) ns \/ In (zvneg 3 (zmv 3 (ltr 3 s) r)) ns) /\
    check_neighbors g ns = CnValueError.
Proof.
  split; [exact check_neighbors_rejects|].
  eexists. split; [vm_compute; reflexivity|]. cbv zeta. split; [|vm_compute; reflexivity].
  intros r s Hr Hs.
  assert (H : forallb (fun r => forallb (fun s =>
      memb zveqb (zmv 3 (ltr 3 s) r) [[0;0;0];[1;0;0];[0;1;0];[0;0;1]]%Z ||
      memb zveqb (zvneg 3 (zmv 3 (ltr 3 s) r)) [[0;0;0];[1;0;0];[0;1;0];[0;0;1]]%Z)
      (match sym_cubic true with Some g => sym_all g | None => [] end))
      [[0;0;0];[1;0;0];[0;1;0];[0;0;1]]%Z = true) by (vm_compute; reflexivity).
  rewrite forallb_forall in H. specialize (H r Hr). rewrite forallb_forall in H.
  specialize (H s). apply orb_true_iff in H.
  - destruct H as [H|H]; [left|right]; apply existsb_exists in H; destruct H as [y [Hy E]];
      apply zveqb_spec in E; rewrite E; exact Hy.
  - replace (match sym_cubic true with Some g => sym_all g | None => [] end) with
      (sym_all match sym_cubic true with Some g => g | None => MkSym 0 [] false false end) by (vm_compute; reflexivity).
    vm_compute. vm_compute in Hs. exact Hs.
Qed.
Print Assumptions C17_check_neighbors_refuted.

(* ------------------------------------------------------------------ *)
(** ** C18: classes of the group formed by the stored operations. Missing: the inversion flag. *)
Theorem C18_find_classes_partial : forall g (points : list zvec),
  is_group (zmul (sdim g)) (zeye (sdim g)) (sops g) ->
  (forall p, In p points -> length p = sdim g) -> NoDup points ->
  Permutation (concat (map snd (find_classes g points))) (seq 0 (length points)) /\
  (forall i c, In (i, c) (find_classes g points) -> In i c /\
     forall j k, In j c -> (In k c <-> exists s p q, In s (sops g) /\ nth_error points j = Some p /\
        nth_error points k = Some q /\ q = zmv (sdim g) s p)).
Proof.
  intros g points HG Hp Hnd. exact (find_classes_spec (sdim g) (sops g) points HG Hp Hnd g eq_refl eq_refl).
Qed.
Print Assumptions C18_find_classes_partial.

Example C18_example : match sym_square with
  | Some g => is_group_b 2 (sops g) = true /\
     find_classes g [[1;0];[0;1];[1;1];[-1;0];[0;-1]]%Z = [(0, [0;4;3;1]); (2, [2])]
  | None => False end.
Proof. vm_compute. auto. Qed.

Theorem C18_find_classes_refuted : exists g, sym_inv 3 = Some g /\
  In (zneg 3 (zeye 3)) (sym_all g) /\
  zmv 3 (zneg 3 (zeye 3)) [1;0;0]%Z = [-1;0;0]%Z /\
  find_classes g [[1;0;0];[-1;0;0]]%Z = [(0, [0]); (1, [1])].
Proof. eexists. split; [vm_compute; reflexivity|]. vm_compute. auto. Qed.
Print Assumptions C18_find_classes_refuted.

(* ------------------------------------------------------------------ *)
(** ** C19 *)
Theorem C19_contains_sound_partial : forall g h, sdim g = sdim h -> sym_contains g h = true ->
  forall x, In x (sym_all h) -> In x (sym_all g).
Proof. exact sym_contains_sound. Qed.
Print Assumptions C19_contains_sound_partial.

Example C19_sound_example : match sym_cubic true, sym_perm3 true with
  | Some g, Some h => sym_contains g h = false /\
      match sym_mirror3 true with Some h' => sym_contains g h' = true | None => False end
  | _, _ => False end.
Proof. vm_compute. auto. Qed.

(** completeness for objects storing only rotations. Missing: mirrors stored beside inversion, and even
    dimensions. *)
Theorem C19_contains_complete_partial : forall g h, sdim g = sdim h -> Nat.odd (sdim g) = true ->
  (forall s, In s (sops g) -> (0 < zdet (sdim g) s)%Z) -> (forall s, In s (sops h) -> (0 < zdet (sdim h) s)%Z) ->
  (forall s, In s (sops g) -> wfz (sdim g) s) -> (forall s, In s (sops h) -> wfz (sdim h) s) ->
  is_group (zmul (sdim g)) (zeye (sdim g)) (sym_all g) -> is_group (zmul (sdim h)) (zeye (sdim h)) (sym_all h) ->
  In (zeye (sdim g)) (sops g) -> In (zeye (sdim h)) (sops h) ->
  sym_contains g h = true <-> (forall x, In x (sym_all h) -> In x (sym_all g)).
Proof. exact sym_contains_complete. Qed.
Print Assumptions C19_contains_complete_partial.

Example C19_complete_example : match sym_cubic true, sym_mirror3 true with
  | Some g, Some h => forallb (fun s => Z.ltb 0 (zdet 3 s) && wfz_b 3 s) (sops g ++ sops h) = true /\
      is_group_b 3 (sym_all g) = true /\ is_group_b 3 (sym_all h) = true /\ sym_contains g h = true
  | _, _ => False end.
Proof. vm_compute. auto. Qed.

(** perm3(True) (mirrors stored beside inversion) is contained in cubic(True), the test denies it *)
Theorem C19_contains_refuted : exists g h, sym_cubic true = Some g /\ sym_perm3 true = Some h /\
  sdim g = sdim h /\ sym_contains g h = false /\ (forall x, In x (sym_all h) -> In x (sym_all g)).
Proof.
  do 2 eexists. split; [vm_compute; reflexivity|]. split; [vm_compute; reflexivity|]. split; [reflexivity|].
  split; [reflexivity|]. intros x Hx. apply zmemb_In. vm_compute in Hx.
  repeat (destruct Hx as [<-|Hx]; [vm_compute; reflexivity|]). destruct Hx.
Qed.
Print Assumptions C19_contains_refuted.

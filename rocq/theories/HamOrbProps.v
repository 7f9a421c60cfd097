(** C133, C134, C135: orbitals appended to a symmetry, pairs of orbitals of the diamond lattice, apply *)
From Coq Require Import List Arith ZArith Lia Bool Setoid Morphisms.
Import ListNotations.
From Verif Require Import SRing LMat FMat FinGroup SymModel SymInitProofs SymNamedProofs SymProps SymMembers HamModel HamProofs
  UrepModel UrepProofs UrepProps UrepModel2 Urep2Proofs HamProps Urep2Props UrepNamed CplxR FourierModel HamOrbModel.
From Coq Require Import Reals Lra.
Local Close Scope R_scope. Local Open Scope nat_scope.

(** ** Specification *)
Section Spec.
Context {K : sring}.
Local Open Scope sring_scope.
(** the vector of the operation applied to v *)
Definition kmv (n : nat) (s : zmat) (v : nat -> K) : nat -> K := fun a => nsum n (fun b => kz (ent (K:=Zs) s a b) * v b).
(** the functions f 0, ..., f (d-1) of the position are transformed by the matrix u when the position is transformed by s *)
Definition transforms (n d : nat) (f : (nat -> K) -> nat -> K) (s : zmat) (u : fmat K) : Prop :=
  forall v i, (i < d)%nat -> f (kmv n s v) i = nsum d (fun j => u i j * f v j).
(** a block of a symmetry describes the functions f: all operations and the inversion act on f as the block says *)
Definition describes (g : sym) (b : hblock K) (d : nat) (f : (nat -> K) -> nat -> K) : Prop :=
  bdim b = d /\
  (forall k s, nth_error (sops g) k = Some s -> transforms (sdim g) d f s (nth k (bU b) fzero)) /\
  forall v i, (i < d)%nat -> f (fun a => - v a) i = if beven b then f v i else - f v i.
(** h' is h with one more block b at the position pos *)
Definition extended (h h' : hsym K) (pos : zvec) (b : hblock K) : Prop :=
  hs h' = hs h /\ hblocks h' = hblocks h ++ [b] /\ bpos b = pos.

Definition s_fun (v : nat -> K) (i : nat) : K := 1.
Definition p_fun (v : nat -> K) (i : nat) : K := v i.
(** 2z^2 - x^2 - y^2 and q (x^2 - y^2) *)
Definition d2_fun (q : K) (v : nat -> K) (i : nat) : K :=
  match i with
  | O => (1 + 1) * (v 2%nat * v 2%nat) - v 0%nat * v 0%nat - v 1%nat * v 1%nat
  | _ => q * (v 0%nat * v 0%nat - v 1%nat * v 1%nat)
  end.
(** yz, xz, xy *)
Definition d3_yz (v : nat -> K) (i : nat) : K :=
  match i with O => v 1%nat * v 2%nat | 1%nat => v 0%nat * v 2%nat | _ => v 0%nat * v 1%nat end.
End Spec.

(** ** C133 *)
Section C133.
Context {K : sring}.
Local Open Scope sring_scope.
Add Ring Kring_orb : (s_rt K).

Lemma append_inv (h : hsym K) r pos h' : length (uU r) = length (sops (usym r)) -> ham_append h r pos = Some h' ->
  length pos = sdim (hs h) /\ (usplit r = 0 \/ usplit r = udim r)%nat /\ sdim (hs h) = sdim (usym r) /\ sinv (hs h) = sinv (usym r) /\
  (forall s, In s (sops (hs h)) -> In s (sops (usym r))) /\
  exists b, extended h h' pos b /\ bdim b = udim r /\ beven b = Nat.ltb 0 (usplit r) /\
  forall k s, nth_error (sops (hs h)) k = Some s -> assigns r s (nth k (bU b) fzero).
Proof.
  intros HL. unfold ham_append. destruct (Nat.eqb_spec (length pos) (sdim (hs h))) as [E1|]; [|discriminate]. cbn [negb].
  destruct (Nat.eqb (usplit r) 0 || Nat.eqb (usplit r) (udim r)) eqn:E2; [|discriminate]. cbn [negb].
  destruct (urep_match r (hs h)) as [r'|] eqn:E3; [|discriminate]. intros H. injection H as <-.
  apply orb_true_iff in E2. rewrite !Nat.eqb_eq in E2. split; [exact E1|]. split; [exact E2|].
  unfold urep_match in E3.
  destruct (Nat.eqb (length (sops (hs h))) (length (sops (usym r)))) eqn:E4; [|discriminate]. cbn [negb] in E3.
  destruct (Nat.eqb_spec (sdim (hs h)) (sdim (usym r))) as [E5|]; [|discriminate]. cbn [negb] in E3.
  destruct (Bool.eqb (sinv (hs h)) (sinv (usym r))) eqn:E6; [|discriminate]. cbn [negb] in E3. apply eqb_prop in E6.
  destruct (match_order (sops (hs h)) (sops (usym r))) as [o|] eqn:E7; [|discriminate].
  destruct (nodup_nat o); [|discriminate]. injection E3 as <-. cbn [udim uU usplit].
  split; [exact E5|]. split; [exact E6|].
  destruct (match_order_spec _ _ _ E7) as [L1 L2].
  assert (AS : forall k s, nth_error (sops (hs h)) k = Some s -> assigns r s (nth k (map (fun j => nth j (uU r) fzero) o) fzero)).
  { intros k s Hk. destruct (L2 k s Hk) as (j & J1 & J2 & _). exists j. split; [exact J2|].
    assert (Hj : (j < length (uU r))%nat) by (rewrite HL; apply nth_error_Some; congruence).
    rewrite (nth_error_nth' _ fzero Hj). f_equal. symmetry.
    erewrite nth_error_nth; [reflexivity|]. rewrite nth_error_map, J1. reflexivity. }
  split.
  - intros s Hs. apply In_nth_error in Hs. destruct Hs as [k Hk]. destruct (AS k s Hk) as (j & J & _). eapply nth_error_In; exact J.
  - eexists. split; [split; [reflexivity|split; [reflexivity|reflexivity]]|]. split; [reflexivity|]. split; [reflexivity|]. exact AS.
Qed.

(** append keeps the blocks and adds one whose matrices are those of the representation, in the order of the operations of
    the symmetry; positions of another dimension and mixed parities are refused *)
Theorem C133_append : forall (h : hsym K) (r : urep K) pos, length (uU r) = length (sops (usym r)) ->
  (length pos <> sdim (hs h) -> ham_append h r pos = None) /\
  ((0 < usplit r < udim r)%nat -> ham_append h r pos = None) /\
  forall h', ham_append h r pos = Some h' ->
  exists b, extended h h' pos b /\ bdim b = udim r /\ (beven b = true <-> (0 < usplit r)%nat) /\
  forall k s, nth_error (sops (hs h)) k = Some s -> assigns r s (nth k (bU b) fzero).
Proof.
  intros h r pos HL. split; [|split].
  - intros Hp. unfold ham_append. apply Nat.eqb_neq in Hp. rewrite Hp. reflexivity.
  - intros Hp. unfold ham_append. destruct (negb _); [reflexivity|].
    replace (Nat.eqb (usplit r) 0) with false by (symmetry; apply Nat.eqb_neq; lia).
    replace (Nat.eqb (usplit r) (udim r)) with false by (symmetry; apply Nat.eqb_neq; lia). reflexivity.
  - intros h' H. destruct (append_inv h r pos h' HL H) as (_ & _ & _ & _ & _ & b & B1 & B2 & B3 & B4).
    exists b. split; [exact B1|]. split; [exact B2|]. split; [rewrite B3; apply Nat.ltb_lt|exact B4].
Qed.

Lemma map_assigns (r : urep K) (rho : zmat -> fmat K) s u : uU r = map rho (sops (usym r)) -> assigns r s u -> u = rho s.
Proof. intros E (k & H1 & H2). rewrite E, nth_error_map, H1 in H2. injection H2 as <-. reflexivity. Qed.

(** every symmetry with distinct operations takes the orbitals *)
Lemma append_some (h : hsym K) (r : urep K) pos : usym r = hs h -> length pos = sdim (hs h) -> NoDup (sops (hs h)) ->
  (usplit r = 0 \/ usplit r = udim r)%nat -> exists h', ham_append h r pos = Some h'.
Proof.
  intros E HP HN HS. unfold ham_append. rewrite (proj2 (Nat.eqb_eq _ _) HP). cbn [negb].
  replace (Nat.eqb (usplit r) 0 || Nat.eqb (usplit r) (udim r)) with true
    by (symmetry; apply orb_true_iff; rewrite !Nat.eqb_eq; exact HS). cbn [negb].
  destruct (proj2 (C23_match_sym_succeeds_iff r (hs h))) as [r' ->]; [|eauto].
  rewrite E. repeat split; auto.
Qed.

(** s: one even function that does not change; p: the coordinates, odd. For every group of integer matrices, in lattice coordinates too *)
Theorem C133_s_and_p : forall (h h' : hsym K) pos,
  (append_s h pos = Some h' -> exists b, extended h h' pos b /\ describes (hs h) b 1 s_fun) /\
  (append_p h pos = Some h' -> exists b, extended h h' pos b /\ describes (hs h) b (sdim (hs h)) p_fun).
Proof.
  intros h h' pos. split; intros H; unfold append_s, append_p in H;
    (apply append_inv in H; [|cbn [uU usym rep_unit rep_mat]; apply map_length]);
    destruct H as (_ & _ & _ & _ & _ & b & B1 & B2 & B3 & B4); exists b; (split; [exact B1|]);
    cbn [udim rep_unit rep_mat usplit] in B2, B3; (split; [exact B2|]); rewrite B3; cbn [Nat.ltb Nat.leb].
  - split; [|intros v i _; reflexivity].
    intros k s Hk v i Hi. rewrite (map_assigns (rep_unit (hs h) 1) (fun _ => fid) s _ eq_refl (B4 k s Hk)).
    replace i with 0%nat by lia. rewrite nsum_S, nsum_0. unfold s_fun, fid. cbn [Nat.eqb]. ring.
  - split; [|intros v i _; reflexivity].
    intros k s Hk v i Hi. rewrite (map_assigns (rep_mat (hs h) 0) of_zmat s _ eq_refl (B4 k s Hk)). reflexivity.
Qed.

Lemma p_unique (s : zmat) (u : fmat K) : transforms 3 3 p_fun s u -> feq 3 3 u (of_zmat s).
Proof.
  intros H i j Hi Hj. specialize (H (fun a => if Nat.eqb a j then 1 else 0) i Hi). unfold p_fun, kmv in H. rewrite !nsum_S, !nsum_0 in H. unfold of_zmat.
  match type of H with ?L = ?R => transitivity R; [|rewrite <- H] end; destruct j as [|[|[|j]]]; try lia; cbn [Nat.eqb]; ring.
Qed.
(** signed permutations of the axes *)
Definition oh48 : list zmat := filter (ortho_b 3) cand3.
Lemma oh48_in s : ortho 3 s -> In s oh48.
Proof. intros H. unfold oh48. apply filter_In. split; [apply ortho_cand3, H|apply ortho_b_complete, H]. Qed.
Definition lo (i : nat) : nat := match i with O => 1%nat | _ => 0%nat end.
Definition hi (i : nat) : nat := match i with 2%nat => 1%nat | _ => 2%nat end.
Definition d3_minor_b : bool := forallb (fun s => forallb (fun i =>
    forallb (fun j =>
      let e a b := ent (K:=Zs) s a b in
      Z.eqb (e (lo i) (lo j) * e (hi i) (hi j) + e (lo i) (hi j) * e (hi i) (lo j)) (axis_sign s * zdet 3 s * e i j) &&
      Z.eqb (e (lo i) j * e (hi i) j) 0) (seq 0 3)) (seq 0 3)) oh48.
Lemma d3_minor_ok : d3_minor_b = true. Proof. vm_compute. reflexivity. Qed.

(** the products of coordinates change by the operation and the product of its signs *)
Lemma d3_law (s : zmat) : ortho 3 s -> transforms (K:=K) 3 3 d3_yz s (fscale (kz (axis_sign s * zdet 3 s)) (of_zmat s)).
Proof.
  intros Hs v i Hi. pose proof d3_minor_ok as B. unfold d3_minor_b in B. rewrite forallb_forall in B. specialize (B s (oh48_in s Hs)).
  rewrite forallb_forall in B. specialize (B i). rewrite forallb_forall in B.
  assert (Bi : In i (seq 0 3)) by (apply in_seq; lia).
  assert (C : forall j, (j < 3)%nat ->
     kz (K:=K) (axis_sign s * zdet 3 s) * kz (ent (K:=Zs) s i j) =
       kz (ent (K:=Zs) s (lo i) (lo j)) * kz (ent (K:=Zs) s (hi i) (hi j)) + kz (ent (K:=Zs) s (lo i) (hi j)) * kz (ent (K:=Zs) s (hi i) (lo j)) /\
     kz (K:=K) (ent (K:=Zs) s (lo i) j) * kz (ent (K:=Zs) s (hi i) j) = 0).
  { intros j Hj. assert (Bj : In j (seq 0 3)) by (apply in_seq; lia). specialize (B Bi j Bj). cbv zeta in B. apply andb_true_iff in B. rewrite !Z.eqb_eq in B.
    destruct B as [B1 B2]. split.
    - rewrite <- !kz_mul, <- kz_add. f_equal. symmetry. exact B1.
    - rewrite <- kz_mul, B2. reflexivity. }
  clear B Bi.
  destruct (C 0%nat) as [C0 D0]; [lia|]. destruct (C 1%nat) as [C1 D1]; [lia|]. destruct (C 2%nat) as [C2 D2]; [lia|]. clear C.
  unfold fscale, of_zmat. rewrite !nsum_S, nsum_0. rewrite C0, C1, C2. cbn [lo hi].
  destruct i as [|[|[|i]]]; try lia; cbn [lo hi] in *; unfold d3_yz, kmv; rewrite !nsum_S, !nsum_0; ring [D0 D1 D2].
Qed.
End C133.

Print Assumptions C133_append.
Print Assumptions C133_s_and_p.

Section D3.
Local Open Scope R_scope.
Lemma kz_IZR z : kz (K:=Rs) z = IZR z.
Proof.
  revert z. apply Z.peano_ind; [reflexivity| |]; intros z IH.
  - rewrite kz_succ, IH, succ_IZR. cbn. ring.
  - rewrite kz_pred, IH. unfold Z.pred. rewrite plus_IZR. cbn. ring.
Qed.
Definition d3_unit_b : bool := forallb (fun s => Z.eqb (axis_sign s * axis_sign s) 1 && Z.eqb (zdet 3 s * zdet 3 s) 1 &&
  existsb (fun j => negb (Z.eqb (ent (K:=Zs) s 0 j) 0)) (seq 0 3)) oh48.
Lemma d3_unit_ok : d3_unit_b = true. Proof. vm_compute. reflexivity. Qed.
Lemma d3_unique (s : zmat) (u u' : fmat Rs) : transforms 3 3 d3_yz s u -> transforms 3 3 d3_yz s u' -> feq 3 3 u u'.
Proof.
  intros A B i j Hi Hj.
  pose (v := fun a : nat => if Nat.eqb a j then 0 else 1 : Rs). specialize (A v i Hi). specialize (B v i Hi). rewrite A in B.
  rewrite !nsum_S, !nsum_0 in B. unfold d3_yz, v in B.
  destruct j as [|[|[|j]]]; try lia; cbn [Nat.eqb] in B; cbn in B |- *; lra.
Qed.

(** d3: right exactly for the operations that permute the axes evenly. The class comment claims it for any group. *)
Theorem C133_d3_iff : forall (h h' : hsym Rs) pos, sdim (hs h) = 3%nat -> (forall s, In s (sops (hs h)) -> ortho 3 s) ->
  append_d3 h pos = Some h' ->
  exists b, extended h h' pos b /\ bdim b = 3%nat /\ beven b = true /\
  (describes (hs h) b 3 d3_yz <-> forall s, In s (sops (hs h)) -> axis_sign s = 1%Z).
Proof.
  intros h h' pos Hd Ho H. unfold append_d3 in H. apply append_inv in H; [|cbn [uU usym rep_d3]; apply map_length].
  destruct H as (_ & _ & _ & _ & _ & b & B1 & B2 & B3 & B4). exists b. cbn [udim rep_d3 usplit] in B2, B3. rewrite Hd in B2, B3.
  split; [exact B1|]. split; [exact B2|]. split; [exact B3|].
  assert (BU : forall k s, nth_error (sops (hs h)) k = Some s -> nth k (bU b) fzero = fscale (kz (zdet 3 s)) (of_zmat s)).
  { intros k s Hk. rewrite (map_assigns (rep_d3 (hs h)) (fun s => fscale (kz (zdet 3 s)) (of_zmat s)) s _); [reflexivity| |exact (B4 k s Hk)].
    cbn [uU usym rep_d3]. rewrite Hd. reflexivity. }
  split.
  - intros (_ & D & _) s Hs. pose proof (Ho s Hs) as Hos. apply In_nth_error in Hs. destruct Hs as [k Hk].
    specialize (D k s Hk). rewrite (BU k s Hk), Hd in D. pose proof (d3_unique s _ _ D (d3_law s Hos)) as E.
    pose proof d3_unit_ok as U. unfold d3_unit_b in U. rewrite forallb_forall in U. specialize (U s (oh48_in s Hos)).
    rewrite !andb_true_iff, !Z.eqb_eq in U. destruct U as [[U1 U2] U3]. apply existsb_exists in U3. destruct U3 as (j & Hj & U3).
    apply in_seq in Hj. apply negb_true_iff, Z.eqb_neq in U3.
    specialize (E 0%nat j). assert (E' := E ltac:(lia) ltac:(lia)). clear E. unfold fscale, of_zmat in E'. rewrite !kz_IZR in E'.
    change (IZR (zdet 3 s) * IZR (ent (K:=Zs) s 0 j) = IZR (axis_sign s * zdet 3 s) * IZR (ent (K:=Zs) s 0 j))%R in E'.
    rewrite <- !mult_IZR in E'. apply eq_IZR in E'.
    assert (zdet 3 s = axis_sign s * zdet 3 s)%Z by (apply (Z.mul_reg_r _ _ (ent (K:=Zs) s 0 j)); [exact U3|exact E']). nia.
  - intros HA. split; [exact B2|]. split.
    + intros k s Hk. rewrite (BU k s Hk), Hd. assert (Hs : In s (sops (hs h))) by (eapply nth_error_In; exact Hk).
      pose proof (d3_law (K:=Rs) s (Ho s Hs)) as L. rewrite (HA s Hs), Z.mul_1_l in L. exact L.
    + intros v i Hi. rewrite B3. cbn [Nat.ltb Nat.leb]. destruct i as [|[|[|i]]]; try lia; cbn; lra.
Qed.
Definition empty_h {K} (g : sym) : hsym K := MkHsym g [].
Lemma cubic_g_sound inv : exists g, sym_cubic inv = Some g /\ sdim g = 3%nat /\ sinv g = inv /\ NoDup (sops g) /\ (forall s, In s (sops g) -> ortho 3 s) /\
  (forall s, ortho 3 s -> zdet 3 s = 1%Z -> In s (sops g)).
Proof.
  assert (EX : forall g, sym_cubic inv = Some g -> sdim g = 3%nat -> sinv g = inv -> nodup_b (sops g) = true ->
     exactly_b 3 cand3 (sops g) (det_is 3 1) = true -> exists g, sym_cubic inv = Some g /\ sdim g = 3%nat /\ sinv g = inv /\ NoDup (sops g) /\
     (forall s, In s (sops g) -> ortho 3 s) /\ (forall s, ortho 3 s -> zdet 3 s = 1%Z -> In s (sops g))).
  { intros g A B C D E. exists g. split; [exact A|]. split; [exact B|]. split; [exact C|]. split; [apply nodup_b_spec, D|].
    pose proof (exactly3 _ _ E) as F. split.
    - intros s Hs. apply F, Hs.
    - intros s Hs Hd. apply F. split; [exact Hs|]. unfold det_is. apply Z.eqb_eq, Hd. }
  destruct inv; eapply EX; vm_compute; reflexivity.
Qed.

(** the claim "works for any symmetry group" is false: the 24 rotations of the cube *)
Theorem C133_d3_refuted : ~ forall (h h' : hsym Rs) pos, sdim (hs h) = 3%nat -> (forall s, In s (sops (hs h)) -> ortho 3 s) ->
  append_d3 h pos = Some h' -> exists b, extended h h' pos b /\ describes (hs h) b 3 d3_yz.
Proof.
  intros C. destruct (cubic_g_sound true) as (g & _ & G1 & _ & G3 & G4 & G5).
  destruct (append_some (empty_h (K:=Rs) g) (rep_d3 g) [0;0;0]%Z) as [h' E]; [reflexivity|exact (eq_sym G1)|exact G3|right; reflexivity|].
  destruct (C (empty_h g) h' [0;0;0]%Z G1 G4 E) as (b & B1 & B2).
  destruct (C133_d3_iff (empty_h g) h' [0;0;0]%Z G1 G4 E) as (b' & B1' & _ & _ & D).
  assert (EB : b = b').
  { destruct B1 as (_ & X & _), B1' as (_ & Y & _). rewrite X in Y. apply app_inj_tail in Y. apply Y. }
  subst b'. pose proof (proj1 D B2 Rz) as F. cbn [hs empty_h] in F.
  assert (In Rz (sops g)) by (apply G5; apply Rz_rot). specialize (F H). vm_compute in F. discriminate F.
Qed.

(** d2: the two functions of the second kind, for the symmetries whose operations are the rotations of the cube *)
Definition sq_off_b : bool := forallb (fun s => forallb (fun a => forallb (fun b => forallb (fun c =>
   Nat.eqb b c || Z.eqb (ent (K:=Zs) s a b * ent (K:=Zs) s a c) 0) (seq 0 3)) (seq 0 3)) (seq 0 3)) oh48.
Lemma sq_off_ok : sq_off_b = true. Proof. vm_compute. reflexivity. Qed.
Lemma kmv_sq (s : zmat) (v : nat -> Rs) a : ortho 3 s -> (a < 3)%nat ->
  kmv 3 s v a * kmv 3 s v a = nsum (K:=Rs) 3 (fun b => sq_of (K:=Rs) s a b * (v b * v b)).
Proof.
  intros Hs Ha. pose proof sq_off_ok as B. unfold sq_off_b in B. rewrite forallb_forall in B. specialize (B s (oh48_in s Hs)).
  rewrite forallb_forall in B. specialize (B a ltac:(apply in_seq; lia)). rewrite forallb_forall in B.
  assert (O : forall b c, (b < 3)%nat -> (c < 3)%nat -> b <> c -> IZR (ent (K:=Zs) s a b) * IZR (ent (K:=Zs) s a c) = 0).
  { intros b c Hb Hc Hne. specialize (B b ltac:(apply in_seq; lia)). rewrite forallb_forall in B. specialize (B c ltac:(apply in_seq; lia)).
    apply orb_true_iff in B. destruct B as [B|B]; [apply Nat.eqb_eq in B; contradiction|]. apply Z.eqb_eq in B. rewrite <- mult_IZR, B. reflexivity. }
  unfold kmv, sq_of. rewrite !nsum_S, !nsum_0, !kz_IZR, !mult_IZR.
  pose proof (O 0%nat 1%nat ltac:(lia) ltac:(lia) ltac:(lia)) as O1. pose proof (O 0%nat 2%nat ltac:(lia) ltac:(lia) ltac:(lia)) as O2.
  pose proof (O 1%nat 2%nat ltac:(lia) ltac:(lia) ltac:(lia)) as O3.
  cbn. set (x := IZR (ent (K:=Zs) s a 0)) in *. set (y := IZR (ent (K:=Zs) s a 1)) in *. set (z := IZR (ent (K:=Zs) s a 2)) in *.
  ring [O1 O2 O3].
Qed.
Definition sq_tr_b : bool := forallb (fun s => forallb (fun b => forallb (fun c =>
   Z.eqb (nsum (K:=Zs) 3 (fun a => ent (K:=Zs) s a b * ent (K:=Zs) s a b * (ent (K:=Zs) s a c * ent (K:=Zs) s a c))%Z) (if Nat.eqb b c then 1 else 0)%Z) (seq 0 3)) (seq 0 3)) oh48.
Lemma sq_tr_ok : sq_tr_b = true. Proof. vm_compute. reflexivity. Qed.
Lemma sq_inv (s : zmat) : ortho 3 s -> feq 3 3 (fmul 3 (fadj (sq_of (K:=Rs) s)) (sq_of s)) fid.
Proof.
  intros Hs b c Hb Hc. pose proof sq_tr_ok as B. unfold sq_tr_b in B. rewrite forallb_forall in B. specialize (B s (oh48_in s Hs)).
  rewrite forallb_forall in B. specialize (B b ltac:(apply in_seq; lia)). rewrite forallb_forall in B. specialize (B c ltac:(apply in_seq; lia)).
  apply Z.eqb_eq in B. unfold fmul, fadj, fid.
  transitivity (kz (K:=Rs) (if Nat.eqb b c then 1 else 0)); [rewrite <- B, kz_nsum; apply nsum_ext; intros a _|destruct (Nat.eqb b c); rewrite kz_IZR; reflexivity].
  unfold sq_of. rewrite kz_conj, <- kz_mul. reflexivity.
Qed.
Lemma d2_fun_F (q : R) (v : nat -> Rs) i : (i < 2)%nat -> d2_fun (K:=Rs) q v i = nsum (K:=Rs) 3 (fun a => d3_fun (K:=Rs) q a i * (v a * v a)).
Proof. intros Hi. rewrite !nsum_S, nsum_0. destruct i as [|[|i]]; try lia; cbn; ring. Qed.
Theorem C133_d2 : forall (q : R) (h h' : hsym Rs) pos, q * q = 3 -> append_d2 rd (1/2) q h pos = Some h' ->
  exists b, extended h h' pos b /\ describes (hs h) b 2 (d2_fun (K:=Rs) q).
Proof.
  intros q h h' pos Hq H. unfold append_d2 in H.
  destruct (C98_d3 rd rd_spec (1/2 : car Rs) (q : car Rs) false (sinv (hs h))) as (r & E1 & E2 & E3 & E4 & E5 & E6 & E7).
  - cbn. lra.
  - cbn. lra.
  - reflexivity.
  - reflexivity.
  - rewrite E1 in H. destruct E2 as (_ & HW & (L & _) & _ & HU & _). rewrite E3 in HU.
    apply append_inv in H; [|exact L]. destruct H as (_ & _ & Hd & _ & HI & b & B1 & B2 & B3 & B4). exists b. split; [exact B1|].
    split; [rewrite B2; exact E3|]. rewrite B3, E4. cbn [Nat.ltb Nat.leb]. split.
    + intros k s Hk v i Hi. specialize (B4 k s Hk). set (u := nth k (bU b) fzero) in *.
      destruct B4 as (j & J1 & J2). assert (Hs : In s (sops (usym r))) by (eapply nth_error_In; exact J1). apply E6 in Hs.
      pose proof (HU s u (ex_intro _ j (conj J1 J2))) as [U1 _]. specialize (E7 s u (ex_intro _ j (conj J1 J2))).
      assert (D3 : sdim (hs h) = 3%nat).
      { rewrite Hd. transitivity (length s); [symmetry; apply (HW s); eapply nth_error_In; exact J1|apply Hs]. }
      rewrite D3. destruct Hs as [Hs _].
      assert (G : feq 3 2 (fmul 3 (fadj (sq_of (K:=Rs) s)) (d3_fun (K:=Rs) q)) (fmul 2 (d3_fun (K:=Rs) q) (fadj u))).
      { transitivity (fmul 3 (fadj (sq_of (K:=Rs) s)) (fmul 2 (d3_fun (K:=Rs) q) (fmul 2 u (fadj u)))).
        - rewrite U1, (fmul_id_r (K:=Rs) 3 2). reflexivity.
        - rewrite (fmul_assoc (K:=Rs) 3 2 2 2), <- E7, !(fmul_assoc (K:=Rs)), (sq_inv s Hs), (fmul_id_l (K:=Rs)). reflexivity. }
      rewrite (d2_fun_F q _ i Hi).
      transitivity (nsum (K:=Rs) 3 (fun b => fmul (K:=Rs) 3 (fadj (sq_of (K:=Rs) s)) (d3_fun (K:=Rs) q) b i * (v b * v b))).
      * transitivity (nsum (K:=Rs) 3 (fun a => d3_fun (K:=Rs) q a i * nsum (K:=Rs) 3 (fun b => sq_of (K:=Rs) s a b * (v b * v b)))).
        { apply nsum_ext. intros a Ha. f_equal. apply kmv_sq; assumption. }
        unfold fmul, fadj. rewrite !nsum_S, !nsum_0. cbn. ring.
      * transitivity (nsum (K:=Rs) 3 (fun b => fmul (K:=Rs) 2 (d3_fun (K:=Rs) q) (fadj u) b i * (v b * v b))).
        { apply nsum_ext. intros a Ha. f_equal. apply G; assumption. }
        unfold fmul, fadj. rewrite !nsum_S, !nsum_0, !d2_fun_F, !nsum_S, !nsum_0 by lia. cbn. ring.
    + intros v i Hi. destruct i as [|[|i]]; try lia; cbn; ring.
Qed.
Print Assumptions C133_d2.
End D3.

(** ** C134: two sites that are exchanged *)
Section Sites.
Context {K : sring}.
Local Open Scope sring_scope.
Add Ring Kring_sites : (s_rt K).
(** the four neighbors of a site of the first kind; an operation keeps the two kinds of sites or exchanges them *)
Definition tetra : list zvec := [[1;1;1];[1;-1;-1];[-1;1;-1];[-1;-1;1]]%Z.
Definition keeps (R : zmat) : bool := existsb (zveqb (zmv 3 R [1;1;1]%Z)) tetra.
(** basis: the d orbitals of the first site, then those of the second *)
Definition site (d x : nat) : bool := Nat.ltb x d.
Definition orbi (d x : nat) : nat := if Nat.ltb x d then x else (x - d)%nat.
(** the orbitals are transformed by O and change the site or not *)
Definition site_act (d : nat) (O : fmat K) (keep : bool) : fmat K := fun x y =>
  if Bool.eqb (site d x) (if keep then site d y else negb (site d y)) then O (orbi d x) (orbi d y) else 0.
(** action of a list of blocks: operation number k, followed by the inversion if [inv] *)
Fixpoint block_act (bs : list (hblock K)) (k : nat) (inv : bool) : fmat K :=
  match bs with
  | [] => fzero
  | b :: bs' => fun x y =>
    if Nat.ltb x (bdim b) && Nat.ltb y (bdim b)
    then (if inv && negb (beven b) then - nth k (bU b) fzero x y else nth k (bU b) fzero x y)
    else if Nat.ltb x (bdim b) || Nat.ltb y (bdim b) then 0
    else block_act bs' k inv (x - bdim b)%nat (y - bdim b)%nat
  end.
(** the blocks are, in some basis, the orbitals f on the two sites *)
Definition site_orbitals (g : sym) (bs : list (hblock K)) (d : nat) (f : (nat -> K) -> nat -> K) : Prop :=
  exists (T T' : fmat K) (O : zmat -> fmat K),
  feq (d + d) (d + d) (fmul (d + d) T T') fid /\ feq (d + d) (d + d) (fmul (d + d) T' T) fid /\
  forall k s, nth_error (sops g) k = Some s ->
    (transforms 3 d f s (O s) /\
     feq (d + d) (d + d) (fmul (d + d) T (block_act bs k false)) (fmul (d + d) (site_act d (O s) (keeps s)) T)) /\
    (sinv g = true -> transforms 3 d f (zneg 3 s) (O (zneg 3 s)) /\
     feq (d + d) (d + d) (fmul (d + d) T (block_act bs k true)) (fmul (d + d) (site_act d (O (zneg 3 s)) (keeps (zneg 3 s))) T)).
Definition extended_by (h h' : hsym K) (pos : zvec) (bs : list (hblock K)) : Prop :=
  hs h' = hs h /\ hblocks h' = hblocks h ++ bs /\ forall b, In b bs -> bpos b = pos.

(** finite facts on the 48 signed permutations *)
Definition gs (s : zmat) : Z := (axis_sign s * zdet 3 s)%Z.
Definition keeps_b : bool := forallb (fun s => Bool.eqb (dswap 3 s) (negb (keeps s)) && Bool.eqb (keeps (zneg 3 s)) (negb (keeps s)) &&
  ortho_b 3 (zneg 3 s) && Z.eqb (gs s) (if keeps s then 1 else -1) && forallb (fun i => forallb (fun j =>
   Z.eqb (ent (K:=Zs) (zneg 3 s) i j) (- ent (K:=Zs) s i j)) (seq 0 3)) (seq 0 3)) oh48.
Lemma keeps_b_ok : keeps_b = true. Proof. vm_compute. reflexivity. Qed.
Lemma keeps_facts s : ortho 3 s -> dswap 3 s = negb (keeps s) /\ keeps (zneg 3 s) = negb (keeps s) /\ ortho 3 (zneg 3 s) /\
  kz (K:=K) (gs s) = (if keeps s then 1 else - (1)) /\
  forall i j, (i < 3)%nat -> (j < 3)%nat -> of_zmat (K:=K) (zneg 3 s) i j = - of_zmat s i j.
Proof.
  intros Hs. pose proof keeps_b_ok as B. unfold keeps_b in B. rewrite forallb_forall in B. specialize (B s (oh48_in s Hs)).
  rewrite !andb_true_iff in B. destruct B as ((((B1 & B2) & B3) & B4) & B5). apply eqb_prop in B1, B2. apply Z.eqb_eq in B4.
  split; [exact B1|]. split; [exact B2|]. split; [apply ortho_b_spec, B3|]. split.
  - rewrite B4. destruct (keeps s); [change (1 + 0 = 1 :> K)|change (- (1 + 0) = - (1) :> K)]; ring.
  - intros i j Hi Hj. rewrite forallb_forall in B5. specialize (B5 i ltac:(apply in_seq; lia)). rewrite forallb_forall in B5.
    specialize (B5 j ltac:(apply in_seq; lia)). apply Z.eqb_eq in B5. unfold of_zmat. rewrite B5.
    change (- ent (K:=Zs) s i j)%Z with (0 - ent (K:=Zs) s i j)%Z.
    transitivity (kz (K:=K) (-1 * ent (K:=Zs) s i j)); [f_equal; lia|]. rewrite kz_mul. change (kz (K:=K) (-1)) with (- (1 + 0) : K). ring.
Qed.
Lemma transforms_proper d f s u u' : feq d d u u' -> transforms (K:=K) 3 d f s u -> transforms 3 d f s u'.
Proof.
  intros E H v i Hi. rewrite (H v i Hi). apply nsum_ext. intros j Hj. rewrite (E i j Hi Hj). reflexivity.
Qed.

(** ** the basis of even and odd combinations *)
Variable half : K.
Hypothesis half_2 : half + half = 1.
Definition Tpm (d : nat) : fmat K := fun x y =>
  if Nat.eqb (orbi d x) (orbi d y) then (if site d x then 1 else if site d y then - (1) else 1) else 0.
Definition Tpm' (d : nat) : fmat K := fun x y =>
  if Nat.eqb (orbi d x) (orbi d y) then (if site d y then half else if site d x then - half else half) else 0.
Definition diag2 (d : nat) (p0 p1 : K) (A : fmat K) : fmat K := fun x y =>
  if Bool.eqb (site d x) (site d y) then (if site d x then p0 else p1) * A (orbi d x) (orbi d y) else 0.
Ltac ent6 x y := destruct x as [|[|[|[|[|[|x]]]]]]; try lia; destruct y as [|[|[|[|[|[|y]]]]]]; try lia.
Lemma Tpm_inv d : d = 1%nat \/ d = 3%nat -> feq (d + d) (d + d) (fmul (d + d) (Tpm d) (Tpm' d)) fid /\ feq (d + d) (d + d) (fmul (d + d) (Tpm' d) (Tpm d)) fid.
Proof.
  intros [-> | ->]; cbn [Nat.add]; split; intros x y Hx Hy; unfold fmul; rewrite !nsum_S, nsum_0; unfold Tpm, Tpm', fid, orbi, site;
    ent6 x y; cbn [Nat.ltb Nat.leb Nat.sub Nat.eqb]; try ring [half_2]; try (rewrite <- half_2; ring).
Qed.
Lemma Tpm_law d (A O : fmat K) (p0 p1 o : K) keep : d = 1%nat \/ d = 3%nat -> feq d d O (fscale o A) -> p1 = o -> p0 = (if keep : bool then o else - o) ->
  feq (d + d) (d + d) (fmul (d + d) (Tpm d) (diag2 d p0 p1 A)) (fmul (d + d) (site_act d O keep) (Tpm d)).
Proof.
  intros Hd EO -> ->. 
  assert (E : forall x y, (x < d + d)%nat -> (y < d + d)%nat -> site_act d O keep x y = site_act d (fscale o A) keep x y).
  { intros x y Hx Hy. unfold site_act. destruct (Bool.eqb _ _); [|reflexivity]. apply EO; unfold orbi.
    - destruct (Nat.ltb_spec x d); lia.
    - destruct (Nat.ltb_spec y d); lia. }
  intros x y Hx Hy. transitivity (fmul (d + d) (site_act d (fscale o A) keep) (Tpm d) x y);
    [|unfold fmul; apply nsum_ext; intros l Hl; rewrite (E x l Hx Hl); reflexivity]. clear E EO.
  destruct Hd as [-> | ->]; cbn [Nat.add] in *; unfold fmul; rewrite !nsum_S, !nsum_0; unfold Tpm, diag2, site_act, fscale, orbi, site; destruct keep;
    ent6 x y; cbn [Nat.ltb Nat.leb Nat.sub Nat.eqb negb Bool.eqb]; ring.
Qed.

Definition csg (b : bool) : K := if b then 1 else - (1).
Lemma block_act_2 b0 b1 k inv d (A : fmat K) (p0 p1 : K) : bdim b0 = d -> bdim b1 = d ->
  feq d d (nth k (bU b0) fzero) (fscale (csg (negb (inv && negb (beven b0))) * p0) A) ->
  feq d d (nth k (bU b1) fzero) (fscale (csg (negb (inv && negb (beven b1))) * p1) A) ->
  feq (d + d) (d + d) (block_act [b0; b1] k inv) (diag2 d p0 p1 A).
Proof.
  intros D0 D1 E0 E1 x y Hx Hy. cbn [block_act]. unfold diag2, site, orbi. rewrite D0, D1.
  destruct (Nat.ltb_spec x d), (Nat.ltb_spec y d); cbn [andb orb Bool.eqb]; try reflexivity.
  - rewrite (E0 x y) by assumption. unfold fscale, csg. destruct (inv && negb (beven b0)); cbn [negb]; ring.
  - rewrite (proj2 (Nat.ltb_lt (x - d) d)), (proj2 (Nat.ltb_lt (y - d) d)) by lia. cbn [andb].
    rewrite (E1 (x - d)%nat (y - d)%nat) by lia. unfold fscale, csg. destruct (inv && negb (beven b1)); cbn [negb]; ring.
Qed.
Lemma pm_site (g : sym) b0 b1 d f (A O : zmat -> fmat K) : d = 1%nat \/ d = 3%nat -> bdim b0 = d -> bdim b1 = d -> beven b1 = negb (beven b0) ->
  (forall s, In s (sops g) -> ortho 3 s) ->
  (forall k s, nth_error (sops g) k = Some s -> nth k (bU b0) fzero = A s /\
     nth k (bU b1) fzero = if dswap 3 s then fscale (- (1)) (A s) else A s) ->
  (forall s, In s (sops g) -> transforms 3 d f s (O s) /\ feq d d (O s) (fscale (csg (keeps s)) (A s)) /\
     (sinv g = true -> transforms 3 d f (zneg 3 s) (O (zneg 3 s)) /\
       feq d d (O (zneg 3 s)) (fscale (if beven b0 then - csg (keeps s) else csg (keeps s)) (A s)))) ->
  site_orbitals g [b0; b1] d f.
Proof.
  intros Hd D0 D1 EV HO HA HT. exists (Tpm d), (Tpm' d), O. destruct (Tpm_inv d Hd) as [I1 I2]. split; [exact I1|]. split; [exact I2|].
  intros k s Hk. assert (Hs : In s (sops g)) by (eapply nth_error_In; exact Hk). destruct (HA k s Hk) as [A0 A1].
  destruct (keeps_facts s (HO s Hs)) as (K1 & K2 & _). destruct (HT s Hs) as (T1 & T2 & T3). rewrite K1 in A1.
  split; [split; [exact T1|]|intros Hi; destruct (T3 Hi) as [T4 T5]; split; [exact T4|]].
  - rewrite (block_act_2 b0 b1 k false d (A s) 1 (csg (keeps s)) D0 D1).
    + apply (Tpm_law d (A s) (O s) _ _ (csg (keeps s)) (keeps s) Hd T2); [reflexivity|]. unfold csg. destruct (keeps s); ring.
    + rewrite A0. cbn [andb negb csg]. intros x y _ _. unfold fscale. ring.
    + rewrite A1. cbn [andb negb csg]. intros x y _ _. unfold fscale. destruct (keeps s); cbn [negb csg]; ring.
  - rewrite K2. rewrite (block_act_2 b0 b1 k true d (A s) (csg (beven b0)) (csg (negb (beven b0)) * csg (keeps s)) D0 D1).
    + apply (Tpm_law d (A s) (O (zneg 3 s)) _ _ _ (negb (keeps s)) Hd T5); destruct (beven b0), (keeps s); cbn [negb csg]; ring.
    + rewrite A0. cbn [andb negb csg]. intros x y _ _. unfold fscale. destruct (beven b0); cbn [negb csg]; ring.
    + rewrite A1, EV. cbn [andb negb csg]. intros x y _ _. destruct (beven b0), (keeps s); cbn [negb csg]; unfold fscale; ring.
Qed.

Lemma combine_map {A B} (f : A -> B) l : combine l (map f l) = map (fun s => (s, f s)) l.
Proof. induction l as [|a l IH]; cbn; [reflexivity|rewrite IH; reflexivity]. Qed.
Lemma append2_inv (h : hsym K) r0 r1 pos h' (A0 A1 : zmat -> fmat K) : usym r0 = hs h -> usym r1 = hs h ->
  uU r0 = map A0 (sops (hs h)) -> uU r1 = map A1 (sops (hs h)) -> append2 h r0 r1 pos = Some h' ->
  exists b0 b1, extended_by h h' pos [b0; b1] /\ bdim b0 = udim r0 /\ bdim b1 = udim r1 /\ beven b0 = Nat.ltb 0 (usplit r0) /\ beven b1 = Nat.ltb 0 (usplit r1) /\
  forall k s, nth_error (sops (hs h)) k = Some s -> nth k (bU b0) fzero = A0 s /\ nth k (bU b1) fzero = A1 s.
Proof.
  intros S0 S1 E0 E1 H. unfold append2 in H. destruct (ham_append h r0 pos) as [h0|] eqn:H0; [|discriminate].
  apply append_inv in H0; [|rewrite E0, S0; apply map_length]. destruct H0 as (_ & _ & _ & _ & _ & b0 & (X1 & X2 & X3) & B2 & B3 & B4).
  apply append_inv in H; [|rewrite E1, S1; apply map_length]. destruct H as (_ & _ & _ & _ & _ & b1 & (Y1 & Y2 & Y3) & C2 & C3 & C4).
  exists b0, b1. split; [|split; [exact B2|split; [exact C2|split; [exact B3|split; [exact C3|]]]]].
  - split; [congruence|]. split; [rewrite Y2, X2, <- app_assoc; reflexivity|]. intros b [<- | [<- | []]]; assumption.
  - intros k s Hk. split.
    + apply (map_assigns r0 A0 s); [rewrite S0; exact E0|exact (B4 k s Hk)].
    + apply (map_assigns r1 A1 s); [rewrite S1; exact E1|]. apply C4. rewrite X1. exact Hk.
Qed.

(** with inversion: d3 is right *)
Theorem C134_d3_with_inversion : forall (h h' : hsym K) pos, sdim (hs h) = 3%nat -> (forall s, In s (sops (hs h)) -> ortho 3 s) ->
  sinv (hs h) = true -> diamond_d3 h pos = Some h' -> exists bs, extended_by h h' pos bs /\ site_orbitals (hs h) bs 3 d3_yz.
Proof.
  intros h h' pos Hd Ho Hi H. unfold diamond_d3 in H. rewrite Hd, Hi in H. cbn [Nat.eqb negb] in H.
  apply (append2_inv h _ _ pos h' of_zmat (fun s => if dswap 3 s then fscale (- (1)) (of_zmat s) else of_zmat s)) in H; try reflexivity;
    [|cbn [neg_swap set_split rep_mat uU usym]; rewrite Hd, combine_map, map_map; reflexivity].
  destruct H as (b0 & b1 & X & D0 & D1 & P0 & P1 & BU). cbn [udim set_split rep_mat neg_swap usplit] in D0, D1, P0, P1. rewrite Hd in D0, D1.
  exists [b0; b1]. split; [exact X|].
  apply (pm_site (hs h) b0 b1 3 d3_yz of_zmat (fun R => fscale (kz (gs R)) (of_zmat R)) (or_intror eq_refl) D0 D1); [rewrite P0, P1; reflexivity|exact Ho|exact BU|].
  intros s Hs. destruct (keeps_facts s (Ho s Hs)) as (K1 & K2 & K3 & K4 & K5). destruct (keeps_facts (zneg 3 s) K3) as (_ & _ & _ & L4 & _).
  split; [apply d3_law, Ho, Hs|]. split; [intros i j _ _; unfold fscale; rewrite K4; reflexivity|].
  intros _. split; [apply d3_law, K3|]. rewrite P0. cbn [Nat.ltb Nat.leb]. intros i j Hi' Hj'. unfold fscale. rewrite L4, K2, (K5 i j Hi' Hj').
  destruct (keeps s); cbn [negb csg]; ring.
Qed.

(** s and p: right as long as no listed operation exchanges the sites *)
Theorem C134_s_and_p_with_inversion_partial : forall (h h' : hsym K) pos, sdim (hs h) = 3%nat -> (forall s, In s (sops (hs h)) -> ortho 3 s) ->
  sinv (hs h) = true -> (forall s, In s (sops (hs h)) -> keeps s = true) ->
  (diamond_s h pos = Some h' -> exists bs, extended_by h h' pos bs /\ site_orbitals (hs h) bs 1 s_fun) /\
  (diamond_p h pos = Some h' -> exists bs, extended_by h h' pos bs /\ site_orbitals (hs h) bs 3 p_fun).
Proof.
  intros h h' pos Hd Ho Hi HK. split; intros H; unfold diamond_s, diamond_p in H; rewrite Hd, Hi in H; cbn [Nat.eqb negb] in H.
  - apply (append2_inv h _ _ pos h' (fun _ => fid) (fun s => if dswap 3 s then fscale (- (1)) fid else fid)) in H; try reflexivity;
      [|cbn [neg_swap set_split rep_unit uU usym]; rewrite Hd, combine_map, map_map; reflexivity].
    destruct H as (b0 & b1 & X & D0 & D1 & P0 & P1 & BU). cbn [udim set_split rep_unit neg_swap usplit] in D0, D1, P0, P1.
    exists [b0; b1]. split; [exact X|].
    apply (pm_site (hs h) b0 b1 1 s_fun (fun _ => fid) (fun _ => fid) (or_introl eq_refl) D0 D1); [rewrite P0, P1; reflexivity|exact Ho|exact BU|].
    intros s Hs. rewrite P0, (HK s Hs).
    assert (TR : forall R, transforms (K:=K) 3 1 s_fun R fid).
    { intros R v i Hi'. replace i with 0%nat by lia. rewrite nsum_S, nsum_0. unfold s_fun, fid. cbn [Nat.eqb]. ring. }
    split; [apply TR|]. split; [|intros _; split; [apply TR|]]; intros i j _ _; unfold fscale; cbn; ring.
  - apply (append2_inv h _ _ pos h' of_zmat (fun s => if dswap 3 s then fscale (- (1)) (of_zmat s) else of_zmat s)) in H; try reflexivity;
      [|cbn [neg_swap set_split rep_mat uU usym]; rewrite Hd, combine_map, map_map; reflexivity].
    destruct H as (b0 & b1 & X & D0 & D1 & P0 & P1 & BU). cbn [udim set_split rep_mat neg_swap usplit] in D0, D1, P0, P1. rewrite Hd in D0, D1.
    exists [b0; b1]. split; [exact X|].
    apply (pm_site (hs h) b0 b1 3 p_fun of_zmat of_zmat (or_intror eq_refl) D0 D1); [rewrite P0, P1; reflexivity|exact Ho|exact BU|].
    intros s Hs. rewrite P0, (HK s Hs). destruct (keeps_facts s (Ho s Hs)) as (K1 & K2 & K3 & K4 & K5).
    assert (TR : forall R, transforms (K:=K) 3 3 p_fun R (of_zmat R)) by (intros R v i Hi'; reflexivity).
    split; [apply TR|]. split; [|intros _; split; [apply TR|]]; intros i j Hi' Hj'; unfold fscale; cbn [csg Nat.ltb Nat.leb]; rewrite ?(K5 i j Hi' Hj'); ring.
Qed.

Lemma append1_inv (h : hsym K) r pos h' (A : zmat -> fmat K) : usym r = hs h -> uU r = map A (sops (hs h)) -> ham_append h r pos = Some h' ->
  exists b, extended_by h h' pos [b] /\ bdim b = udim r /\ forall k s, nth_error (sops (hs h)) k = Some s -> nth k (bU b) fzero = A s.
Proof.
  intros S0 E0 H. apply append_inv in H; [|rewrite E0, S0; apply map_length]. destruct H as (_ & _ & _ & _ & _ & b & (X1 & X2 & X3) & B2 & B3 & B4).
  exists b. split; [|split; [exact B2|]].
  - split; [exact X1|]. split; [exact X2|]. intros b' [<- | []]. exact X3.
  - intros k s Hk. apply (map_assigns r A s); [rewrite S0; exact E0|exact (B4 k s Hk)].
Qed.
(** one block of both sites, in the basis T (diagonal with entries 1 and e) *)
Definition Te (d : nat) (e : K) : fmat K := fun x y => if Nat.eqb x y then (if site d x then 1 else e) else 0.
Lemma one_site (g : sym) b d f e (O A : zmat -> fmat K) : sinv g = false -> (d = 1%nat \/ d = 3%nat) -> bdim b = (d + d)%nat -> e * e = 1 ->
  (forall k s, nth_error (sops g) k = Some s -> nth k (bU b) fzero = A s) ->
  (forall s, In s (sops g) -> transforms 3 d f s (O s) /\
     forall x y, (x < d + d)%nat -> (y < d + d)%nat -> A s x y = (if site d x then 1 else e) * (if site d y then 1 else e) * site_act d (O s) (keeps s) x y) ->
  site_orbitals g [b] d f.
Proof.
  intros Hi Hd D He HA HT. exists (Te d e), (Te d e), O.
  assert (TT : feq (d + d) (d + d) (fmul (d + d) (Te d e) (Te d e)) fid).
  { destruct Hd as [-> | ->]; cbn [Nat.add]; intros x y Hx Hy; unfold fmul; rewrite !nsum_S, nsum_0; unfold Te, fid, site;
      ent6 x y; cbn [Nat.ltb Nat.leb Nat.eqb]; ring [He]. }
  split; [exact TT|]. split; [exact TT|]. intros k s Hk. assert (Hs : In s (sops g)) by (eapply nth_error_In; exact Hk).
  destruct (HT s Hs) as [T1 T2]. split; [split; [exact T1|]|intros Hi'; congruence].
  specialize (HA k s Hk).
  assert (BA : feq (d + d) (d + d) (block_act [b] k false) (A s)).
  { intros x y Hx Hy. cbn [block_act andb]. rewrite D, (proj2 (Nat.ltb_lt _ _) Hx), (proj2 (Nat.ltb_lt _ _) Hy), HA. reflexivity. }
  rewrite BA. intros x y Hx Hy. unfold fmul.
  assert (S1 : nsum (d + d) (fun l => Te d e x l * A s l y) = (if site d x then 1 else e) * A s x y).
  { etransitivity; [apply (nsum_single K (d + d) x _ Hx); intros l _ Hl; unfold Te; rewrite (proj2 (Nat.eqb_neq _ _) (not_eq_sym Hl)); ring|].
    unfold Te. rewrite Nat.eqb_refl. reflexivity. }
  assert (S2 : nsum (d + d) (fun l => site_act d (O s) (keeps s) x l * Te d e l y) = site_act d (O s) (keeps s) x y * (if site d y then 1 else e)).
  { etransitivity; [apply (nsum_single K (d + d) y _ Hy); intros l _ Hl; unfold Te; rewrite (proj2 (Nat.eqb_neq _ _) Hl); ring|].
    unfold Te. rewrite Nat.eqb_refl. reflexivity. }
  rewrite S1, S2, (T2 x y Hx Hy). destruct (site d x), (site d y); ring [He].
Qed.
Definition dbl_mat (s : zmat) : fmat K :=
  let m : fmat K := fun i j => kron_eye 2 (of_zmat s) (nth i [0;2;4;1;3;5]%nat 0%nat) (nth j [0;2;4;1;3;5]%nat 0%nat) in
  if dswap 3 s then (fun i j => m (nth i [3;4;5;0;1;2]%nat 0%nat) j) else m.
Lemma dbl_ent (s : zmat) x y : ortho 3 s -> (x < 3 + 3)%nat -> (y < 3 + 3)%nat -> dbl_mat s x y = site_act 3 (of_zmat s) (keeps s) x y.
Proof.
  intros Hs Hx Hy. destruct (keeps_facts s Hs) as (K1 & _). unfold dbl_mat, site_act, site, orbi. rewrite K1. cbn [Nat.add] in *.
  destruct (keeps s); cbn [negb]; cbv zeta; ent6 x y; reflexivity.
Qed.
Lemma doubled_inv (h : hsym K) split pos h' : sdim (hs h) = 3%nat -> (split = 0 \/ split = 3)%nat -> append_opt h (doubled (rep_mat (hs h) split)) pos = Some h' ->
  exists b, extended_by h h' pos [b] /\ bdim b = 6%nat /\ forall k s, nth_error (sops (hs h)) k = Some s -> nth k (bU b) fzero = dbl_mat s.
Proof.
  intros Hd Hsp H. unfold doubled, urep_permute, urep_mul in H. cbn [udim rep_mat usplit usym uU] in H. rewrite Hd in H.
  cbn [length Nat.mul Nat.add Nat.eqb andb] in H.
  replace (forallb _ _) with true in H by (destruct Hsp as [-> | ->]; reflexivity). cbn [option_map append_opt] in H.
  apply (append1_inv h _ pos h' dbl_mat) in H; [exact H|reflexivity|]. cbn [swap_rows uU usym udim]. rewrite Hd, !map_map, combine_map, map_map. reflexivity.
Qed.

(** without inversion all three are right, for all groups of signed permutations of the axes *)
Theorem C134_without_inversion : forall (h h' : hsym K) pos, sdim (hs h) = 3%nat -> (forall s, In s (sops (hs h)) -> ortho 3 s) ->
  sinv (hs h) = false ->
  (diamond_s h pos = Some h' -> exists bs, extended_by h h' pos bs /\ site_orbitals (hs h) bs 1 s_fun) /\
  (diamond_p h pos = Some h' -> exists bs, extended_by h h' pos bs /\ site_orbitals (hs h) bs 3 p_fun) /\
  (diamond_d3 h pos = Some h' -> exists bs, extended_by h h' pos bs /\ site_orbitals (hs h) bs 3 d3_yz).
Proof.
  intros h h' pos Hd Ho Hi. split; [|split]; intros H; unfold diamond_s, diamond_p, diamond_d3 in H; rewrite Hd, Hi in H; cbn [Nat.eqb negb] in H.
  - apply (append1_inv h _ pos h' (fun s => if dswap 3 s then (fun i j => fid (nth i [1;0]%nat 0%nat) j) else fid)) in H; try reflexivity;
      [|cbn [swap_rows rep_unit uU usym]; rewrite Hd, combine_map, map_map; reflexivity].
    destruct H as (b & X & D & BU). exists [b]. split; [exact X|].
    apply (one_site (hs h) b 1 s_fun 1 (fun _ => fid) _ Hi (or_introl eq_refl) D ltac:(ring) BU). intros s Hs.
    destruct (keeps_facts s (Ho s Hs)) as (K1 & _). split.
    + intros v i Hi'. replace i with 0%nat by lia. rewrite nsum_S, nsum_0. unfold s_fun, fid. cbn [Nat.eqb]. ring.
    + intros x y Hx Hy. rewrite K1. unfold site_act, site, orbi, fid. cbn [Nat.add] in *.
      destruct (keeps s); destruct x as [|[|x]]; try lia; destruct y as [|[|y]]; try lia; cbn; ring.
  - apply doubled_inv in H; [|exact Hd|left; reflexivity]. destruct H as (b & X & D & BU). exists [b]. split; [exact X|].
    apply (one_site (hs h) b 3 p_fun 1 of_zmat _ Hi (or_intror eq_refl) D ltac:(ring) BU). intros s Hs. split.
    + intros v i Hi'. reflexivity.
    + intros x y Hx Hy. rewrite (dbl_ent s x y (Ho s Hs) Hx Hy). destruct (site 3 x), (site 3 y); ring.
  - apply doubled_inv in H; [|exact Hd|right; reflexivity]. destruct H as (b & X & D & BU). exists [b]. split; [exact X|].
    apply (one_site (hs h) b 3 d3_yz (- (1)) (fun s => fscale (kz (gs s)) (of_zmat s)) _ Hi (or_intror eq_refl) D ltac:(ring) BU). intros s Hs. split.
    + apply d3_law, Ho, Hs.
    + intros x y Hx Hy. rewrite (dbl_ent s x y (Ho s Hs) Hx Hy). destruct (keeps_facts s (Ho s Hs)) as (_ & _ & _ & K4 & _).
      unfold site_act, fscale. rewrite K4. destruct (keeps s), (site 3 x), (site 3 y); cbn [negb Bool.eqb]; ring.
Qed.
End Sites.
Print Assumptions C134_d3_with_inversion.
Print Assumptions C134_s_and_p_with_inversion_partial.
Print Assumptions C134_without_inversion.

Section Wrong.
Local Open Scope sring_scope.
Definition trace {K : sring} (n : nat) (a : fmat K) : K := nsum n (fun i => a i i).
Lemma trace_mul {K : sring} n (a b : fmat K) : trace n (fmul n a b) = trace n (fmul n b a).
Proof.
  unfold trace, fmul. rewrite (nsum_swap K). apply nsum_ext. intros i _. apply nsum_ext. intros j _. apply (Rmul_comm (s_rt K)).
Qed.
Lemma trace_proper {K : sring} n (a b : fmat K) : feq n n a b -> trace n a = trace n b.
Proof. intros H. unfold trace. apply nsum_ext. intros i Hi. apply H; assumption. Qed.
Lemma trace_similar {K : sring} n (T T' B M : fmat K) : feq n n (fmul n T T') fid -> feq n n (fmul n T' T) fid ->
  feq n n (fmul n T B) (fmul n M T) -> trace n B = trace n M.
Proof.
  intros I1 I2 H. transitivity (trace n (fmul n (fmul n T' T) B)).
  - apply trace_proper. rewrite I2, (fmul_id_l (K:=K)). reflexivity.
  - transitivity (trace n (fmul n T' (fmul n M T))).
    + apply trace_proper. rewrite <- H, (fmul_assoc (K:=K)). reflexivity.
    + rewrite trace_mul. apply trace_proper. rewrite <- (fmul_assoc (K:=K)), I1, (fmul_id_r (K:=K)). reflexivity.
Qed.
Lemma kz_C z : kz (K:=Cs) z = (IZR z, 0%R).
Proof.
  revert z. apply Z.peano_ind; [reflexivity| |]; intros z IH.
  - rewrite kz_succ, IH, succ_IZR. cbn. unfold cadd. cbn. f_equal; ring.
  - rewrite kz_pred, IH. unfold Z.pred. rewrite plus_IZR. cbn. unfold csub. cbn. f_equal; ring.
Qed.

Definition chalf : Cs := ((/ 2)%R, 0%R).
Lemma chalf_2 : chalf + chalf = 1. Proof. cbn. unfold cadd. cbn. f_equal; lra. Qed.
(** s with inversion: right exactly when no listed operation exchanges the sites *)
Theorem C134_s_with_inversion_iff : forall (h h' : hsym Cs) pos, sdim (hs h) = 3%nat -> (forall s, In s (sops (hs h)) -> ortho 3 s) ->
  sinv (hs h) = true -> diamond_s h pos = Some h' ->
  exists bs, extended_by h h' pos bs /\ (site_orbitals (hs h) bs 1 s_fun <-> forall s, In s (sops (hs h)) -> keeps s = true).
Proof.
  intros h h' pos Hd Ho Hi H. pose proof H as H0. unfold diamond_s in H. rewrite Hd, Hi in H. cbn [Nat.eqb negb] in H.
  apply (append2_inv h _ _ pos h' (fun _ => fid) (fun s => if dswap 3 s then fscale (- (1)) fid else fid)) in H; try reflexivity;
    [|cbn [neg_swap set_split rep_unit uU usym]; rewrite Hd, combine_map, map_map; reflexivity].
  destruct H as (b0 & b1 & X & D0 & D1 & P0 & P1 & BU). cbn [udim set_split rep_unit neg_swap usplit] in D0, D1, P0, P1.
  exists [b0; b1]. split; [exact X|]. split.
  - intros (T & T' & O & I1 & I2 & L) s Hs. destruct (keeps_facts (K:=Cs) s (Ho s Hs)) as (K1 & K2 & _).
    apply In_nth_error in Hs. destruct Hs as [k Hk]. destruct (L k s Hk) as [_ L2]. destruct (L2 Hi) as [L3 L4]. clear L L2.
    destruct (keeps s) eqn:Ek; [reflexivity|exfalso]. destruct (BU k s Hk) as [B0 B1]. rewrite K1 in B1. rewrite K2 in L4. cbn [negb] in L4, B1.
    pose proof (trace_similar _ T T' _ _ I1 I2 L4) as E. cbn [Nat.add] in E. unfold trace in E. rewrite !nsum_S, !nsum_0 in E.
    cbn [block_act] in E. rewrite D0, D1, B0, B1, P0, P1 in E.
    specialize (L3 (fun _ => 0) 0%nat ltac:(lia)). rewrite nsum_S, nsum_0 in L3. unfold s_fun in L3.
    unfold site_act, site, orbi in E. cbn [Nat.ltb Nat.leb Nat.sub andb orb negb Bool.eqb] in E. 
    set (o := O (zneg 3 s) 0%nat 0%nat) in *. unfold fid, fscale in E. cbn [Nat.eqb] in E. destruct o as [p q].
    cbn in E, L3. unfold cadd, cmul, copp in E, L3. cbn in E, L3. injection E as E1 E2. injection L3 as L3 L5. lra.
  - intros HK.
    destruct (proj1 (C134_s_and_p_with_inversion_partial (K:=Cs) chalf chalf_2 h h' pos Hd Ho Hi HK) H0) as (bs & X' & S).
    assert (EB : bs = [b0; b1]).
    { destruct X as (_ & X & _), X' as (_ & Y & _). rewrite X in Y. apply app_inv_head in Y. congruence. }
    rewrite <- EB. exact S.
Qed.

(** p with inversion: wrong as soon as a listed operation of non-zero trace exchanges the sites *)
Theorem C134_p_with_inversion_wrong : forall (h h' : hsym Cs) pos s, sdim (hs h) = 3%nat -> (forall s, In s (sops (hs h)) -> ortho 3 s) ->
  sinv (hs h) = true -> diamond_p h pos = Some h' -> In s (sops (hs h)) -> keeps s = false -> tr3 s <> 0%Z ->
  forall bs, extended_by h h' pos bs -> ~ site_orbitals (hs h) bs 3 p_fun.
Proof.
  intros h h' pos s Hd Ho Hi H Hs Ek Ht bs X' (T & T' & O & I1 & I2 & L).
  unfold diamond_p in H. rewrite Hd, Hi in H. cbn [Nat.eqb negb] in H.
  apply (append2_inv h _ _ pos h' of_zmat (fun s => if dswap 3 s then fscale (- (1)) (of_zmat s) else of_zmat s)) in H; try reflexivity;
    [|cbn [neg_swap set_split rep_mat uU usym]; rewrite Hd, combine_map, map_map; reflexivity].
  destruct H as (b0 & b1 & X & D0 & D1 & P0 & P1 & BU). cbn [udim set_split rep_mat neg_swap usplit] in D0, D1, P0, P1. rewrite Hd in D0, D1.
  assert (EB : bs = [b0; b1]).
  { destruct X as (_ & X & _), X' as (_ & Y & _). rewrite X in Y. apply app_inv_head in Y. congruence. }
  subst bs. destruct (keeps_facts (K:=Cs) s (Ho s Hs)) as (K1 & K2 & _ & _ & K5). rewrite Ek in K1, K2.
  apply In_nth_error in Hs. destruct Hs as [k Hk]. destruct (L k s Hk) as [_ L2]. destruct (L2 Hi) as [L3 L4]. clear L L2.
  destruct (BU k s Hk) as [B0 B1]. rewrite K1 in B1. rewrite K2 in L4. cbn [negb] in L4, B1.
  pose proof (trace_similar _ T T' _ _ I1 I2 L4) as E. cbn [Nat.add] in E. unfold trace in E. rewrite !nsum_S, !nsum_0 in E.
  cbn [block_act] in E. rewrite D0, D1, B0, B1, P0, P1 in E.
  unfold site_act, site, orbi in E. cbn [Nat.ltb Nat.leb Nat.sub andb orb negb Bool.eqb] in E.
  assert (EO : forall i, (i < 3)%nat -> O (zneg 3 s) i i = - of_zmat s i i).
  { intros i Hi'. rewrite <- (K5 i i Hi' Hi'). apply (p_unique (K:=Cs) _ _ L3); assumption. }
  rewrite !EO in E by lia. unfold fscale, of_zmat in E. rewrite !kz_C in E. cbn in E. unfold cadd, cmul, copp in E. cbn in E. injection E as E _.
  apply Ht. unfold tr3. apply eq_IZR. rewrite !plus_IZR.
  set (x := IZR (ent (K:=Zs) s 0 0)) in *. set (y := IZR (ent (K:=Zs) s 1 1)) in *. set (z := IZR (ent (K:=Zs) s 2 2)) in *. lra.
Qed.

Lemma append2_some {K : sring} (h : hsym K) r0 r1 pos : usym r0 = hs h -> usym r1 = hs h -> length pos = sdim (hs h) -> NoDup (sops (hs h)) ->
  (usplit r0 = 0 \/ usplit r0 = udim r0)%nat -> (usplit r1 = 0 \/ usplit r1 = udim r1)%nat -> length (uU r0) = length (sops (hs h)) ->
  exists h', append2 h r0 r1 pos = Some h'.
Proof.
  intros A0 A1 HP HN S0 S1 HL. unfold append2. destruct (append_some h r0 pos A0 HP HN S0) as [h0 E0]. rewrite E0.
  apply append_inv in E0; [|rewrite A0; exact HL]. destruct E0 as (_ & _ & _ & _ & _ & b & (X & _) & _).
  apply append_some; [rewrite X; exact A1|rewrite X; exact HP|rewrite X; exact HN|exact S1].
Qed.
Lemma diamond_some {K : sring} (g : sym) : sdim g = 3%nat -> NoDup (sops g) ->
  (exists h', diamond_s (empty_h (K:=K) g) [0;0;0]%Z = Some h') /\ (exists h', diamond_p (empty_h (K:=K) g) [0;0;0]%Z = Some h') /\
  (exists h', diamond_d3 (empty_h (K:=K) g) [0;0;0]%Z = Some h').
Proof.
  intros G1 G3. unfold diamond_s, diamond_p, diamond_d3. cbn [hs empty_h]. rewrite G1. cbn [Nat.eqb negb]. destruct (sinv g).
  - split; [|split]; apply append2_some; cbn [hs empty_h usym usplit udim set_split neg_swap rep_unit rep_mat uU]; try rewrite G1; auto; rewrite ?map_length; auto.
  - split; [|split].
    + apply append_some; cbn [hs empty_h usym usplit udim swap_rows rep_unit]; auto.
    + unfold doubled, urep_permute, urep_mul. cbn [udim rep_mat usplit usym uU hs empty_h]. rewrite G1. cbn [length Nat.mul Nat.add Nat.eqb andb].
      replace (forallb _ _) with true by reflexivity. cbn [option_map append_opt]. apply append_some; cbn [hs empty_h usym usplit udim swap_rows]; auto.
    + unfold doubled, urep_permute, urep_mul. cbn [udim rep_mat usplit usym uU hs empty_h]. rewrite G1. cbn [length Nat.mul Nat.add Nat.eqb andb].
      replace (forallb _ _) with true by reflexivity. cbn [option_map append_opt]. apply append_some; cbn [hs empty_h usym usplit udim swap_rows]; auto.
Qed.

(** the full claim is false: the group of the cube with inversion *)
Theorem C134_s_and_p_with_inversion_refuted :
  ~ (forall (h h' : hsym Cs) pos, sdim (hs h) = 3%nat -> (forall s, In s (sops (hs h)) -> ortho 3 s) ->
     sinv (hs h) = true -> diamond_s h pos = Some h' -> exists bs, extended_by h h' pos bs /\ site_orbitals (hs h) bs 1 s_fun) /\
  ~ (forall (h h' : hsym Cs) pos, sdim (hs h) = 3%nat -> (forall s, In s (sops (hs h)) -> ortho 3 s) ->
     sinv (hs h) = true -> diamond_p h pos = Some h' -> exists bs, extended_by h h' pos bs /\ site_orbitals (hs h) bs 3 p_fun).
Proof.
  destruct (cubic_g_sound true) as (g & _ & G1 & G2 & G3 & G4 & G5).
  assert (Rin : In Rz (sops g)) by (apply G5; apply Rz_rot).
  destruct (diamond_some (K:=Cs) g G1 G3) as ((h1 & E1) & (h2 & E2) & _). split; intros C.
  - destruct (C (empty_h g) h1 [0;0;0]%Z G1 G4 G2 E1) as (bs & X & S).
    destruct (C134_s_with_inversion_iff (empty_h g) h1 [0;0;0]%Z G1 G4 G2 E1) as (bs' & X' & I).
    assert (EB : bs = bs').
    { destruct X as (_ & X & _), X' as (_ & Y & _). rewrite X in Y. apply app_inv_head in Y. exact Y. }
    subst bs'. pose proof (proj1 I S Rz Rin) as F. vm_compute in F. discriminate F.
  - destruct (C (empty_h g) h2 [0;0;0]%Z G1 G4 G2 E2) as (bs & X & S).
    refine (C134_p_with_inversion_wrong (empty_h g) h2 [0;0;0]%Z Rz G1 G4 G2 E2 Rin _ _ bs X S); [vm_compute; reflexivity|vm_compute; discriminate].
Qed.
Print Assumptions C134_s_with_inversion_iff.
Print Assumptions C134_p_with_inversion_wrong.
Print Assumptions C134_s_and_p_with_inversion_refuted.

(** both cubic groups take all pairs of orbitals; a quarter turn exchanges the sites, a mirror keeps them *)
Example C134_example : (forall inv, exists g h1 h2 h3, sym_cubic inv = Some g /\ (forall s, In s (sops g) -> ortho 3 s) /\
     diamond_s (empty_h (K:=Cs) g) [0;0;0]%Z = Some h1 /\ diamond_p (empty_h (K:=Cs) g) [0;0;0]%Z = Some h2 /\ diamond_d3 (empty_h (K:=Cs) g) [0;0;0]%Z = Some h3) /\
  keeps Rz = false /\ keeps [[0;1;0];[1;0;0];[0;0;1]]%Z = true /\ keeps (zneg 3 (zeye 3)) = false.
Proof.
  split; [|vm_compute; auto]. intros inv. destruct (cubic_g_sound inv) as (g & G0 & G1 & G2 & G3 & G4 & G5).
  destruct (diamond_some (K:=Cs) g G1 G3) as ((h1 & E1) & (h2 & E2) & (h3 & E3)). exists g, h1, h2, h3. auto.
Qed.
(** s, p and d3 on the group of the rotations of the cube, d3 on a group where it is right *)
Example C133_example : (exists g h1 h2 h3, sym_cubic false = Some g /\
     append_s (empty_h (K:=Rs) g) [0;0;0]%Z = Some h1 /\ append_p (empty_h (K:=Rs) g) [0;0;0]%Z = Some h2 /\
     append_d2 rd (1/2)%R (sqrt 3) (empty_h g) [0;0;0]%Z = Some h3) /\
  let g := MkSym 3 [zeye 3; [[-1;0;0];[0;-1;0];[0;0;1]]%Z] false false in
  exists h b, append_d3 (empty_h (K:=Rs) g) [1;0;2]%Z = Some h /\ extended (empty_h g) h [1;0;2]%Z b /\ describes g b 3 d3_yz.
Proof.
  split.
  - destruct (cubic_g_sound false) as (g & G0 & G1 & G2 & G3 & G4 & G5).
    destruct (append_some (empty_h (K:=Rs) g) (rep_unit g 1) [0;0;0]%Z) as [h1 E1]; [reflexivity|exact (eq_sym G1)|exact G3|right; reflexivity|].
    destruct (append_some (empty_h (K:=Rs) g) (rep_mat g 0) [0;0;0]%Z) as [h2 E2]; [reflexivity|exact (eq_sym G1)|exact G3|left; reflexivity|].
    destruct (C98_d3 rd rd_spec (1/2 : car Rs)%R (sqrt 3 : car Rs) false false) as (r & R1 & (RG & RW & _) & R3 & R4 & R5 & R6 & _);
      [cbn; lra|cbn; rewrite sqrt_sqrt; lra|reflexivity|reflexivity|].
    assert (RS : sdim (usym r) = 3%nat).
    { assert (I : In Rz (sops (usym r))) by (apply R6; apply Rz_rot). destruct (RW Rz I) as [W _]. rewrite <- W. reflexivity. }
    assert (EX : exists h3, ham_append (empty_h g) r [0;0;0]%Z = Some h3).
    { unfold ham_append. cbn [hs empty_h length]. rewrite G1, R3, R4. cbn [Nat.eqb negb orb].
      destruct (proj2 (C23_match_sym_succeeds_iff r g)) as [r' ->]; [|eauto]. split; [apply RG|]. split; [|split; congruence].
      apply Permutation.NoDup_Permutation; [exact G3|apply RG|]. intros s. rewrite R6. split; [intros I; split; [apply G4, I|]|intros [A B]; apply G5; assumption].
      assert (ED : exactly_b 3 cand3 (sops g) (det_is 3 1) = true).
      { vm_compute in G0. injection G0 as <-. vm_compute. reflexivity. }
      apply (exactly3 _ _ ED) in I. destruct I as [_ I]. unfold det_is in I. apply Z.eqb_eq, I. }
    destruct EX as [h3 E3]. exists g, h1, h2, h3. split; [exact G0|]. split; [exact E1|]. split; [exact E2|].
    unfold append_d2. cbn [hs empty_h]. rewrite G2. etransitivity; [|exact E3]. rewrite R1. reflexivity.
  - intros g.
    destruct (append_some (empty_h (K:=Rs) g) (rep_d3 g) [1;0;2]%Z) as [h E]; [reflexivity|reflexivity|apply nodup_b_spec; vm_compute; reflexivity|right; reflexivity|].
    assert (HO : forall s, In s (sops g) -> ortho 3 s) by (intros s [<- | [<- | []]]; apply ortho_b_spec; vm_compute; reflexivity).
    destruct (C133_d3_iff (empty_h g) h [1;0;2]%Z eq_refl HO E) as (b & B1 & _ & _ & D).
    exists h, b. split; [exact E|]. split; [exact B1|]. apply D. intros s [<- | [<- | []]]; vm_compute; reflexivity.
Qed.
End Wrong.

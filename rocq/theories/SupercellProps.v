(** C34: a supercell model has the folded band structure. *)
From Coq Require Import List Arith ZArith Lia Bool Reals Lra.
Import ListNotations.
From Verif Require Import SRing LMat FMat CplxR SymModel SymInitProofs UrepModel HamModel HamProofs HamProps FourierModel FourierProofs BsmProofs
  SupercellModel SupercellProofs.
Local Open Scope nat_scope.

(** spec: u is an eigenvector of the N x N matrix A with energy lam *)
Definition eigenpair (N : nat) (A : cmat) (lam : R) (u : nat -> cplx) : Prop :=
  (exists a, a < N /\ u a <> (0, 0)%R) /\
  (forall a, a < N -> nsum (K:=Cs) N (fun b => cmul (A a b) (u b)) = cmul (cre lam) (u a)).
(** spec: M / D is the inverse of the integer matrix L *)
Definition zinverse (n : nat) (L M : zmat) (D : Z) : Prop := (0 < D)%Z /\ forall i j, i < n -> j < n ->
  nsum (K:=Zs) n (fun t => ent (K:=Zs) L i t * ent (K:=Zs) M t j)%Z = (if Nat.eqb i j then D else 0)%Z /\
  nsum (K:=Zs) n (fun t => ent (K:=Zs) M i t * ent (K:=Zs) L t j)%Z = (if Nat.eqb i j then D else 0)%Z.
(** spec: a model with d orbitals on the lattice Z^n: one of r, -r is listed, the zero vector first, H_0 hermitian *)
Definition wf_zfs (n d : nat) (s : zfs) : Prop :=
  nbr_list n (znb s) /\ length (zH s) = length (znb s) /\ znb s <> [] /\ (forall i, i < n -> vent (K:=Zs) (nth 0 (znb s) []) i = 0%Z) /\
  (forall a b, a < d -> b < d -> cconj (nth 0 (zH s) fzero b a) = nth 0 (zH s) fzero a b).
(** spec: no hopping of the model leaves the new cells the supercell model has matrices for *)
Definition cells_cover (n : nat) (L : zmat) (ps : list zvec) (s : zfs) : Prop :=
  forall p p' r z, In p ps -> In p' ps -> In r (znb s) -> wfv (K:=Zs) n z -> zvadd n p r = zvadd n p' (zmv n L z) ->
    In z (znb s) \/ In (zvneg n z) (znb s).
(** spec: the Bloch wave of the new cell built from u *)
Definition folded (n d : nat) (k : rvec) (ps : list zvec) (u : nat -> cplx) : nat -> cplx :=
  fun I => cmul (cexp (2 * PI * dot n k (zr (nth (I / d) ps [])))%R) (u (I mod d)%nat).

Lemma zinverse_mv n L M (D : Z) v i : (forall i j, i < n -> j < n ->
    nsum (K:=Zs) n (fun t => ent (K:=Zs) L i t * ent (K:=Zs) M t j)%Z = (if Nat.eqb i j then D else 0)%Z) ->
  i < n -> vent (K:=Zs) (zmv n L (zmv n M v)) i = (D * vent (K:=Zs) v i)%Z.
Proof.
  intros H Hi. unfold zmv. rewrite vent_lmv by exact Hi.
  transitivity (nsum (K:=Zs) n (fun j => (nsum (K:=Zs) n (fun t => ent (K:=Zs) L i t * ent (K:=Zs) M t j)%Z * vent (K:=Zs) v j)%Z)).
  - rewrite (nsum_ext Zs n _ (fun t => nsum (K:=Zs) n (fun j => (ent (K:=Zs) L i t * ent (K:=Zs) M t j * vent (K:=Zs) v j)%Z))).
    + rewrite (nsum_swap Zs). apply (nsum_ext Zs). intros j Hj.
      change Z.mul with (@smul Zs). rewrite <- (nsum_mul_r Zs). reflexivity.
    + intros t Ht. rewrite vent_lmv by exact Ht. change Z.mul with (@smul Zs). rewrite <- (nsum_mul_l Zs). apply (nsum_ext Zs).
      intros j Hj. cbn [smul Zs car]. ring.
  - rewrite (nsum_ext Zs n _ (fun j => if Nat.eqb j i then (D * vent (K:=Zs) v j)%Z else 0%Z)).
    + exact (nsum_delta Zs n i (fun j => (D * vent (K:=Zs) v j)%Z) Hi).
    + intros j Hj. rewrite H by assumption. rewrite (Nat.eqb_sym j i). destruct (Nat.eqb i j); [reflexivity|apply Z.mul_0_l].
Qed.

Lemma cmul_neq z w : z <> (0,0)%R -> cmul (cconj w) w = (1,0)%R -> cmul w z <> (0,0)%R.
Proof.
  intros Hz Hw E. apply Hz. transitivity (cmul (cmul (cconj w) w) z); [rewrite Hw; csolve|].
  transitivity (cmul (cconj w) (cmul w z)); [rg|]. rewrite E. csolve.
Qed.

(** Under the hypothesis that the stored neighbors of the supercell cover the hoppings, every eigenpair at k induces one
    at the same k with the same energy. Without [cells_cover] the claim is false, see below; the hypothesis on the rows
    excludes cells for which the method raises an AssertionError, see below. *)
Theorem C34_supercell_partial n d L M D det s s' k lam u : 0 < d -> zinverse n L M D ->
  (forall i, i < n -> exists j, j < n /\ (0 < ent (K:=Zs) L i j)%Z) -> wf_zfs n d s ->
  cells_cover n L (cell_positions n L M D) s -> supercell n d L M D det s = Some s' ->
  eigenpair d (fs_f n (zfs_real s) k) lam u ->
  eigenpair (length (cell_positions n L M D) * d) (fs_f n (zfs_real s') k) lam (folded n d k (cell_positions n L M D) u).
Proof.
  intros Hd [HD Hinv] Hrow (Hnb & Hlen & Hne & Hhd & Hh0) Hcov Hs [(a0 & Ha0 & Hu0) He].
  assert (HLM : forall v i, i < n -> vent (K:=Zs) (zmv n L (zmv n M v)) i = (D * vent (K:=Zs) v i)%Z).
  { intros v i Hi. apply zinverse_mv; [|exact Hi]. intros; apply Hinv; assumption. }
  assert (HML : forall v i, i < n -> vent (K:=Zs) (zmv n M (zmv n L v)) i = (D * vent (K:=Zs) v i)%Z).
  { intros v i Hi. apply zinverse_mv; [|exact Hi]. intros; apply Hinv; assumption. }
  set (ps := cell_positions n L M D) in *.
  assert (Es : s' = sres n d s L ps).
  { unfold supercell in Hs. fold ps in Hs. destruct (Z.eqb _ _); [|discriminate Hs]. injection Hs as <-. reflexivity. }
  assert (H0 : forall i r, nth_error (znb s) i = Some r -> r = zvneg n r -> feq (K:=Cs) d d (fadj (nth i (zH s) fzero)) (nth i (zH s) fzero)).
  { intros i r Hi Er. assert (i = 0); [|subst i; intros a b Ha Hb; apply Hh0; assumption].
    destruct Hnb as (Hw & Hnd & _). rewrite NoDup_nth_error in Hnd. apply Hnd; [apply nth_error_Some; congruence|].
    rewrite Hi. symmetry. rewrite (nth_error_nth' (znb s) []); [|destruct (znb s); [contradiction Hne; reflexivity|cbn; lia]].
    f_equal. apply (vec_ext Zs n).
    - apply Hw. apply nth_In. destruct (znb s); [contradiction Hne; reflexivity|cbn; lia].
    - apply Hw. eapply nth_error_In; exact Hi.
    - intros j Hj. rewrite Hhd by exact Hj. assert (EE : vent (K:=Zs) r j = vent (K:=Zs) (zvneg n r) j) by (rewrite <- Er; reflexivity).
      rewrite vent_zvneg in EE by exact Hj. lia. }
  split.
  - assert (Hz : exists p z, In p ps /\ wfv (K:=Zs) n z /\ vmk (K:=Zs) n (fun _ => 0%Z) = zvadd n p (zmv n L z)).
    { apply (ps_complete n L M D HD HLM HML Hrow). apply wfv_vmk. }
    destruct Hz as (p & _ & Hp & _). assert (Hl : 0 < length ps) by (destruct ps; [destruct Hp|cbn; lia]).
    exists a0. split; [nia|]. unfold folded. rewrite (Nat.div_small a0 d Ha0), (Nat.mod_small a0 d Ha0). apply cmul_neq; [exact Hu0|].
    apply cexp_conj_mul.
  - intros I HI. assert (Hm : I mod d < d) by (apply Nat.mod_upper_bound; lia). rewrite Es.
    pose proof (super_apply n d s Hnb Hlen H0 k Hne Hhd L ps (ps_nodup n L M D)
      (ps_complete n L M D HD HLM HML Hrow) (ps_unique n L M D HML) Hcov Hd u I HI) as E.
    transitivity (nsum (K:=Cs) (length ps * d) (fun J => cmul (fs_f n (zfs_real (sres n d s L ps)) k I J) (fold_vec n d k ps u J)));
      [reflexivity|]. rewrite E, He by exact Hm. unfold folded, phase. rg.
Qed.
Print Assumptions C34_supercell_partial.

(** doubling a nearest neighbor chain meets the hypotheses, so E(k) = 2 cos(2 pi k) is found again *)
Definition czero : cmat := fun _ _ => (0, 0)%R.
Definition cone : cmat := fun _ _ => (1, 0)%R.
Definition chain : zfs := MkZfs [[0%Z]; [1%Z]] [czero; cone].
Example C34_chain : exists s', supercell 1 1 [[2%Z]] [[1%Z]] 2 2 chain = Some s' /\ cell_positions 1 [[2%Z]] [[1%Z]] 2 = [[0%Z]; [1%Z]] /\
  forall k : rvec, eigenpair 2 (fs_f 1 (zfs_real s') k) (2 * cos (2 * PI * k 0%nat))%R (folded 1 1 k [[0%Z]; [1%Z]] (fun _ => (1, 0)%R)).
Proof.
  assert (Ep : cell_positions 1 [[2%Z]] [[1%Z]] 2 = [[0%Z]; [1%Z]]) by reflexivity.
  assert (Hs : exists s', supercell 1 1 [[2%Z]] [[1%Z]] 2 2 chain = Some s') by (eexists; reflexivity).
  destruct Hs as [s' Hs]. exists s'. split; [exact Hs|]. split; [exact Ep|]. intros k.
  pose proof (C34_supercell_partial 1 1 [[2%Z]] [[1%Z]] 2 2 chain s' k (2 * cos (2 * PI * k 0%nat))%R (fun _ => (1, 0)%R)) as T.
  rewrite Ep in T. apply T; clear T.
  - lia.
  - split; [lia|]. intros [|i] [|j] Hi Hj; try lia. split; reflexivity.
  - intros [|i] Hi; [|lia]. exists 0. split; [lia|reflexivity].
  - repeat split.
    + intros r [<-|[<-|[]]]; reflexivity.
    + repeat constructor; cbn; intuition discriminate.
    + intros r [<-|[<-|[]]] Hin; [reflexivity|]. destruct Hin as [E|[E|[]]]; discriminate E.
    + discriminate.
    + intros [|i] Hi; [reflexivity|lia].
    + intros a b _ _. cbn. unfold czero. csolve.
  - intros p p' r z Hp Hp' Hr Hz E. destruct z as [|z [|? ?]]; try discriminate Hz.
    destruct Hp as [<-|[<-|[]]]; destruct Hp' as [<-|[<-|[]]]; destruct Hr as [<-|[<-|[]]];
      unfold zvadd, zmv, lmv, vmk, vent, ent, nsum in E; cbn -[Z.add Z.mul] in E; apply (f_equal (fun v => nth 0 v 0%Z)) in E; cbn [nth] in E;
      assert (Hz' : z = 0%Z \/ z = 1%Z) by lia; destruct Hz' as [-> | ->]; left; cbn; auto; exfalso; lia.
  - exact Hs.
  - split; [exists 0; split; [lia|intros E; injection E; lra]|]. intros [|a] Ha; [|lia].
    unfold nsum. cbn [seq ksum]. unfold fs_f. rewrite herm_entry. cbn [zfs_real hnb hH chain znb zH length seq Nat.sub ksum nth].
    unfold fs_coef, dot, nb, zr, nsum, czero, cone, vent. cbn [map nth seq ksum]. cbn [sadd smul s0 Rs Cs car].
    replace (2 * PI * (k 0%nat * 1 + 0))%R with (2 * PI * k 0%nat)%R by ring.
    unfold cexp. csolve.
Qed.

(** The square lattice with nearest neighbor hopping and the diagonal cell (1,1), (-1,1): the energy 4 at k = 0 is lost,
    because the hopping to (-1,0) crosses into the cell -(1,0)-(0,1), which is not in the neighbor list. *)
Definition square : zfs := MkZfs [[0%Z; 0%Z]; [1%Z; 0%Z]; [0%Z; 1%Z]] [czero; cone; cone].
Definition diag_cell : zmat := [[1%Z; 1%Z]; [(-1)%Z; 1%Z]].
Definition diag_inv : zmat := [[1%Z; (-1)%Z]; [1%Z; 1%Z]].

Lemma fs_at0 n (s : zfs) a b : fs_f n (zfs_real s) (fun _ => 0%R) a b =
  cadd (cadd (csum (seq 1 (length (zH s) - 1)) (fun l => nth l (zH s) fzero a b))
             (csum (seq 1 (length (zH s) - 1)) (fun l => cconj (nth l (zH s) fzero b a)))) (nth 0 (zH s) fzero a b).
Proof.
  unfold fs_f. rewrite herm_entry. cbn [zfs_real hnb hH].
  assert (E : forall l, fs_coef n (map zr (znb s)) (fun _ => 0%R) l = (1, 0)%R).
  { intros l. unfold fs_coef. replace (dot n (fun _ => 0%R) (nb (map zr (znb s)) l)) with 0%R; [rewrite Rmult_0_r; apply cexp_0|].
    symmetry. apply (nsum_zero Rs). intros i _. cbn. rg. }
  rewrite E. f_equal; [f_equal; apply csum_ext; intros l _; rewrite E; set (X := nth l (zH s) fzero); csolve|]; csolve.
Qed.

Theorem C34_supercell_refuted : exists s', supercell 2 1 diag_cell diag_inv 2 2 square = Some s' /\
  zinverse 2 diag_cell diag_inv 2 /\ (forall i, i < 2 -> exists j, j < 2 /\ (0 < ent (K:=Zs) diag_cell i j)%Z) /\ wf_zfs 2 1 square /\
  length (zH s') = 3 /\ length (cell_positions 2 diag_cell diag_inv 2) = 2 /\
  eigenpair 1 (fs_f 2 (zfs_real square) (fun _ => 0%R)) 4 (fun _ => (1, 0)%R) /\
  ~ exists u, eigenpair 2 (fs_f 2 (zfs_real s') (fun _ => 0%R)) 4 u.
Proof.
  eexists. split; [reflexivity|].
  split; [split; [lia|]; intros [|[|i]] [|[|j]] Hi Hj; try lia; split; reflexivity|].
  split; [intros [|[|i]] Hi; try lia; [exists 0|exists 1]; split; try lia; reflexivity|].
  split.
  { repeat split.
    - intros r [<-|[<-|[<-|[]]]]; reflexivity.
    - repeat constructor; cbn; intuition discriminate.
    - intros r [<-|[<-|[<-|[]]]] Hin; [reflexivity| |]; destruct Hin as [E|[E|[E|[]]]]; discriminate E.
    - discriminate.
    - intros [|[|i]] Hi; try reflexivity; lia.
    - intros a b _ _. cbn. unfold czero. csolve. }
  split; [reflexivity|]. split; [reflexivity|]. split.
  - split; [exists 0; split; [lia|intros E; injection E; lra]|]. intros [|a] Ha; [|lia].
    unfold nsum. cbn [seq ksum]. rewrite fs_at0. cbn [square zH length Nat.sub seq ksum nth]. unfold czero, cone. csolve.
  - intros (u & (a0 & Ha0 & Hu) & He). pose proof (He 0 ltac:(lia)) as E0. pose proof (He 1 ltac:(lia)) as E1.
    unfold nsum in E0, E1. cbn [seq ksum] in E0, E1. rewrite !fs_at0 in E0, E1.
    cbn -[cre cadd cmul cconj cplx] in E0, E1.
    destruct (u 0) as [x0 y0] eqn:U0, (u 1) as [x1 y1] eqn:U1.
    unfold cadd, cmul, cconj, cre, cone, czero, super_block in E0, E1. cbn in E0, E1.
    unfold cadd, cmul, cconj, cre, cone, czero, fadj, fzero in E0, E1. cbn in E0, E1.
    injection E0 as A0 B0. injection E1 as A1 B1. ring_simplify in A0; ring_simplify in A1; ring_simplify in B0; ring_simplify in B1.
    assert (x0 = 0%R) by lra. assert (x1 = 0%R) by lra. assert (y0 = 0%R) by lra. assert (y1 = 0%R) by lra. subst.
    destruct a0 as [|[|a0]]; [apply Hu; exact U0|apply Hu; exact U1|lia].
Qed.
Print Assumptions C34_supercell_refuted.

(** The cell -1 has determinant 1, but the half open bounding box [-1, 0)^2 misses its only site 0: AssertionError. *)
Theorem C34_supercell_rejects_refuted : zinverse 2 [[(-1)%Z; 0%Z]; [0%Z; (-1)%Z]] [[(-1)%Z; 0%Z]; [0%Z; (-1)%Z]] 1 /\
  zdet 2 [[(-1)%Z; 0%Z]; [0%Z; (-1)%Z]] = 1%Z /\ wf_zfs 2 1 square /\
  supercell 2 1 [[(-1)%Z; 0%Z]; [0%Z; (-1)%Z]] [[(-1)%Z; 0%Z]; [0%Z; (-1)%Z]] 1 1 square = None.
Proof.
  split; [split; [lia|]; intros [|[|i]] [|[|j]] Hi Hj; try lia; split; reflexivity|].
  split; [reflexivity|]. split; [|reflexivity]. destruct C34_supercell_refuted as (s' & H). apply H.
Qed.
Print Assumptions C34_supercell_rejects_refuted.

(** C98: the named representations of the cubic group *)
From Coq Require Import List Arith ZArith Lia Bool Permutation Setoid Morphisms.
Import ListNotations.
From Verif Require Import SRing LMat FMat FinGroup SymModel DetMC SymInitProofs SymNamedProofs SymProps SymMembers HamModel HamProofs
  UrepModel UrepProofs UrepProps UrepModel2 Urep2Proofs HamProps Urep2Props CplxR.
From Coq Require Import QArith Qcanon Reals Lra.
Local Close Scope Q_scope. Local Close Scope Qc_scope. Local Close Scope R_scope. Local Open Scope nat_scope.

(** ** integers in a ring *)
Section KZ.
Context {K : sring}.
Local Open Scope sring_scope.
Add Ring Kring_kz : (s_rt K).
Lemma knat_succ m : knat (K:=K) (S m) = 1 + knat m. Proof. reflexivity. Qed.
Lemma kz_succ z : kz (K:=K) (Z.succ z) = 1 + kz z.
Proof.
  destruct z as [|p|p].
  - reflexivity.
  - replace (Z.succ (Zpos p)) with (Zpos (Pos.succ p)) by lia. unfold kz. rewrite Pos2Nat.inj_succ. reflexivity.
  - destruct (Pos.eq_dec p 1) as [->|Hp]; [change (0 = 1 + - (1 + 0) :> K); ring|].
    replace (Z.succ (Zneg p)) with (Zneg (Pos.pred p)) by lia. unfold kz.
    rewrite <- (Pos.succ_pred p Hp) at 2. rewrite Pos2Nat.inj_succ, knat_succ. ring.
Qed.
Lemma kz_pred z : kz (K:=K) (Z.pred z) = kz z - 1.
Proof. pose proof (kz_succ (Z.pred z)) as H. rewrite Z.succ_pred in H. rewrite H. ring. Qed.
Lemma kz_add a b : kz (K:=K) (a + b) = kz a + kz b.
Proof.
  revert a. apply Z.peano_ind.
  - rewrite Z.add_0_l. change (kz (K:=K) 0) with (0:K). ring.
  - intros a IH. rewrite Z.add_succ_l, !kz_succ, IH. ring.
  - intros a IH. rewrite Z.add_pred_l, !kz_pred, IH. ring.
Qed.
Lemma kz_mul a b : kz (K:=K) (a * b) = kz a * kz b.
Proof.
  revert a. apply Z.peano_ind.
  - rewrite Z.mul_0_l. change (kz (K:=K) 0) with (0:K). ring.
  - intros a IH. rewrite Z.mul_succ_l, kz_add, kz_succ, IH. ring.
  - intros a IH. rewrite Z.mul_pred_l. unfold Z.sub. rewrite kz_add, IH, kz_pred.
    assert (E : kz (K:=K) (- b) = - kz b).
    { pose proof (kz_add (- b) b) as E. rewrite Z.add_opp_diag_l in E. change (kz (K:=K) 0) with (0:K) in E. transitivity (kz (K:=K) (- b) + kz b - kz b); [ring|]. rewrite <- E. ring. }
    rewrite E. ring.
Qed.
Lemma kz_conj z : sconj (kz (K:=K) z) = kz z.
Proof.
  revert z. apply Z.peano_ind; [apply conj_0| |]; intros z IH.
  - rewrite kz_succ, s_conj_add, conj_1, IH. reflexivity.
  - rewrite kz_pred, conj_sub, conj_1, IH. reflexivity.
Qed.
Lemma kz_nsum m f : kz (K:=K) (nsum (K:=Zs) m f) = nsum m (fun i => kz (f i)).
Proof.
  induction m as [|m IH]; [rewrite !nsum_0; reflexivity|]. rewrite !nsum_S. change (sadd (s:=Zs)) with Z.add. rewrite kz_add, IH. reflexivity.
Qed.
Lemma of_zmat_mul n s t : feq n n (of_zmat (K:=K) (zmul n s t)) (fmul n (of_zmat s) (of_zmat t)).
Proof.
  intros i j Hi Hj. unfold of_zmat, fmul, zmul. rewrite (lmul_ent Zs) by assumption. rewrite kz_nsum.
  apply nsum_ext. intros l _. apply kz_mul.
Qed.
Lemma of_zmat_eye n : feq n n (of_zmat (K:=K) (zeye n)) fid.
Proof. intros i j Hi Hj. unfold of_zmat, zeye, fid. rewrite (leye_ent Zs) by assumption. destruct (Nat.eqb i j); [change (1 + 0 = 1 :> K); ring|reflexivity]. Qed.
Lemma of_zmat_adj n s : feq n n (fadj (of_zmat (K:=K) s)) (of_zmat (ltr (K:=Zs) n s)).
Proof. intros i j Hi Hj. unfold of_zmat, fadj. rewrite kz_conj, (ltr_ent Zs) by assumption. reflexivity. Qed.
Lemma of_zmat_ortho n s : ortho n s -> zmul n (ltr (K:=Zs) n s) s = zeye n ->
  feq n n (fmul n (of_zmat (K:=K) s) (fadj (of_zmat s))) fid /\ feq n n (fmul n (fadj (of_zmat (K:=K) s)) (of_zmat s)) fid.
Proof.
  intros [_ E] E'. rewrite of_zmat_adj, <- !of_zmat_mul, E, E'. split; apply of_zmat_eye.
Qed.
End KZ.

(** ** a homomorphism into the unitary matrices gives a representation *)
Section Hom.
Context {K : sring}.
Local Open Scope sring_scope.
Add Ring Kring_hom : (s_rt K).
Lemma hom_unit_rep (r : urep K) (rho : zmat -> fmat K) : let n := sdim (usym r) in let d := udim r in let ops := sops (usym r) in
  is_group (zmul n) (zeye n) ops -> (forall s, In s ops -> wfz n s) -> length (uU r) = length ops -> (usplit r = 0 \/ usplit r = d)%nat ->
  (forall s t, In s ops -> In t ops -> feq d d (rho (zmul n s t)) (fmul d (rho s) (rho t))) ->
  (forall s, In s ops -> feq d d (fmul d (rho s) (fadj (rho s))) fid /\ feq d d (fmul d (fadj (rho s)) (rho s)) fid) ->
  (forall s u, assigns r s u -> feq d d u (rho s)) -> unit_rep r.
Proof.
  intros n d ops HG HW HL HS Hm Hu Ha.
  assert (Hin : forall s u, assigns r s u -> In s ops) by (intros s u (k & E & _); eapply nth_error_In; exact E).
  split; [exact HG|]. split; [exact HW|]. split; [split; [exact HL|fold d; lia]|]. split; [|split].
  - intros s1 u1 s2 u2 A1 A2. split.
    + assert (I : In (zmul n s1 s2) ops) by (apply HG; eauto). apply In_nth_error in I. destruct I as [k Hk].
      destruct (nth_error (uU r) k) as [w|] eqn:Ew; [exists w, k; auto|].
      apply nth_error_None in Ew. assert (k < length ops)%nat by (apply nth_error_Some; congruence). fold ops in HL. lia.
    + intros w Aw i j Hi Hj. rewrite (Ha _ _ Aw i j Hi Hj). etransitivity; [apply (Hm s1 s2 (Hin _ _ A1) (Hin _ _ A2) i j Hi Hj)|].
      unfold fmul. apply nsum_ext. intros l Hl. rewrite (Ha _ _ A1 i l Hi Hl), (Ha _ _ A2 l j Hl Hj). reflexivity.
  - intros s u A. fold d. rewrite (Ha s u A). apply Hu, (Hin s u A).
  - intros _ u _ i j Hi Hj. fold d in Hi, Hj. unfold parity. fold d.
    destruct HS as [-> | ->]; [cbn [Nat.ltb Nat.leb]; ring|].
    rewrite (proj2 (Nat.ltb_lt _ _) Hi), (proj2 (Nat.ltb_lt _ _) Hj). ring.
Qed.
End Hom.

(** ** vector representations *)
Definition cubic_ops : list zmat := match sym_cubic true with Some g => sops g | None => [] end.
(** the sign of the permutation of the axes *)
Definition axis_sign (s : zmat) : Z := zdet 3 (map (map Z.abs) s).
Section Vec.
Context {K : sring}.
Local Open Scope sring_scope.
Add Ring Kring_vec : (s_rt K).
Definition cubic_checks : bool :=
  is_group_b 3 cubic_ops && forallb (wfz_b 3) cubic_ops &&
  forallb (fun s => ortho_b 3 s && zmeqb (zmul 3 (ltr (K:=Zs) 3 s) s) (zeye 3)) cubic_ops &&
  forallb (fun s => Z.eqb (axis_sign s) (if neg90 s then (-1)%Z else 1%Z)) cubic_ops &&
  forallb (fun s => forallb (fun t => Bool.eqb (neg90 (zmul 3 s t)) (xorb (neg90 s) (neg90 t))) cubic_ops) cubic_ops.
Lemma cubic_checks_ok : cubic_checks = true. Proof. vm_compute. reflexivity. Qed.

(** the matrix of an operation: the operation itself or the operation times the sign of the permutation of the axes *)
Definition vec_of (sgn : bool) (s : zmat) (u : fmat K) : Prop := forall i j, (i < 3)%nat -> (j < 3)%nat ->
  u i j = (if sgn then kz (axis_sign s) else 1) * kz (ent (K:=Zs) s i j).
Lemma rep3_ok (sgn : bool) split : (split = 0 \/ split = 3)%nat ->
  exists r : urep K, option_map (rep3 sgn split) (sym_cubic true) = Some r /\ unit_rep r /\ udim r = 3%nat /\ usplit r = split /\
    sinv (usym r) = true /\ (forall s, In s (sops (usym r)) <-> ortho 3 s /\ zdet 3 s = 1%Z) /\
    forall s u, assigns r s u -> vec_of sgn s u.
Proof.
  intros Hsp.
  assert (HC := cubic_checks_ok). unfold cubic_checks in HC. rewrite !andb_true_iff in HC.
  destruct HC as ((((C1 & C2) & C3) & C4) & C5). rewrite forallb_forall in C3, C4, C5.
  assert (EX : forall s, In s cubic_ops <-> ortho 3 s /\ zdet 3 s = 1%Z).
  { intros s. rewrite (exactly3 cubic_ops (det_is 3 1)); [|vm_compute; reflexivity]. unfold det_is. rewrite Z.eqb_eq. reflexivity. }
  assert (EG : exists g, sym_cubic true = Some g /\ sdim g = 3%nat /\ sinv g = true).
  { eexists. split; [vm_compute; reflexivity|split; reflexivity]. }
  destruct EG as (g & Eg & Hd & Hi). unfold cubic_ops in *. rewrite Eg in *. cbn [option_map]. exists (rep3 sgn split g).
  split; [reflexivity|].
  set (rho := fun s => if sgn && neg90 s then fscale (- (1)) (of_zmat (K:=K) s) else of_zmat s).
  assert (HA : forall s u, assigns (rep3 sgn split g) s u -> In s (sops g) /\ u = rho s).
  { intros s u (k & Hs & Hu). cbn in Hs, Hu. rewrite nth_error_map, Hs in Hu. injection Hu as <-. split; [eapply nth_error_In; exact Hs|reflexivity]. }
  split.
  - apply (hom_unit_rep _ rho); cbn [usym udim uU usplit rep3]; rewrite ?Hd.
    + apply is_group_b_spec; exact C1.
    + apply wfz_b_spec; exact C2.
    + apply map_length.
    + exact Hsp.
    + intros s t Hs Ht. specialize (C5 s Hs). rewrite forallb_forall in C5. specialize (C5 t Ht). apply eqb_prop in C5.
      unfold rho. rewrite C5. pose proof (of_zmat_mul (K:=K) 3 s t) as E.
      destruct sgn; cbn [andb]; [|exact E].
      destruct (neg90 s), (neg90 t); cbn [xorb]; rewrite E; rewrite ?fmul_scale_l, ?fmul_scale_r, ?fscale_mul.
      * intros i j _ _. unfold fscale. ring.
      * reflexivity.
      * reflexivity.
      * reflexivity.
    + intros s Hs. specialize (C3 s Hs). rewrite andb_true_iff in C3. destruct C3 as [O1 O2]. apply zmeqb_spec in O2.
      destruct (of_zmat_ortho (K:=K) 3 s (ortho_b_spec 3 s O1) O2) as [U1 U2]. unfold rho.
      destruct (sgn && neg90 s); [|auto].
      assert (EA : feq 3 3 (fadj (fscale (- (1)) (of_zmat (K:=K) s))) (fscale (- (1)) (fadj (of_zmat s)))).
      { intros i j _ _. unfold fadj, fscale. rewrite s_conj_mul, conj_opp, conj_1. reflexivity. }
      rewrite EA, !fmul_scale_l, !fmul_scale_r, !fscale_mul, U1, U2. split; intros i j _ _; unfold fscale; ring.
    + intros s u A. destruct (HA s u A) as [_ ->]. reflexivity.
  - split; [reflexivity|]. split; [reflexivity|]. split; [exact Hi|]. split; [exact EX|].
    intros s u A i j Hi' Hj'. destruct (HA s u A) as [Hs ->]. specialize (C4 s Hs). apply Z.eqb_eq in C4. rewrite C4.
    unfold rho. destruct sgn; cbn [andb]; [|unfold of_zmat; ring]. destruct (neg90 s); unfold fscale, of_zmat.
    + change (kz (K:=K) (-1)) with (- (1 + 0) : K). ring.
    + change (kz (K:=K) 1) with (1 + 0 : K). ring.
Qed.
End Vec.

(** o3: odd, U(s) = s; so3: even, U(s) = s; o3ri, o3r: the same times the sign of the permutation of the axes *)
Theorem C98_vector_representations : forall K : sring,
  let Spec (o : option (urep K)) (sgn : bool) (split : nat) := exists r, o = Some r /\ unit_rep r /\ udim r = 3%nat /\ usplit r = split /\
    sinv (usym r) = true /\ (forall s, In s (sops (usym r)) <-> ortho 3 s /\ zdet 3 s = 1%Z) /\ forall s u, assigns r s u -> vec_of sgn s u in
  Spec urep_o3 false 0%nat /\ Spec urep_so3 false 3%nat /\ Spec urep_o3ri true 0%nat /\ Spec urep_o3r true 3%nat.
Proof.
  intros K Spec. unfold Spec, urep_o3, urep_so3, urep_o3ri, urep_o3r.
  split; [exact (rep3_ok false 0 (or_introl eq_refl))|]. split; [exact (rep3_ok false 3 (or_intror eq_refl))|].
  split; [exact (rep3_ok true 0 (or_introl eq_refl))|exact (rep3_ok true 3 (or_intror eq_refl))].
Qed.
Print Assumptions C98_vector_representations.

(** ** generated representations *)
(** the operations of the generation alone *)
Fixpoint kins (s : zmat) (l : list zmat) : list zmat := match l with [] => [s] | s' :: l' => if zmeqb s' s then l else s' :: kins s l' end.
Fixpoint kcollect (ps acc : list zmat) : list zmat := match ps with [] => acc | s :: ps' => kcollect ps' (kins s acc) end.
Fixpoint kloop (fuel n : nat) (l : list zmat) : option (list zmat) :=
  match fuel with
  | O => None
  | S f => let l' := kcollect (map (fun pq => zmul n (fst pq) (snd pq)) (list_prod l l)) [] in
           if Nat.ltb (length l') 1000 then (if Nat.leb (length l') (length l) then Some l' else kloop f n l') else None
  end.
Section Gen.
Context {K : sring}.
Local Open Scope sring_scope.
Add Ring Kring_gen : (s_rt K).
Variable ueqb : nat -> fmat K -> fmat K -> bool.
Hypothesis ueqb_spec : forall d a b, ueqb d a b = true <-> feq d d a b.
Variables (n d : nat) (rho : zmat -> fmat K).
Definition vals (l : list (zmat * fmat K)) : Prop := forall s u, In (s, u) l -> feq d d u (rho s).
Lemma ugen_insert_rho s u l : feq d d u (rho s) -> vals l ->
  exists l', ugen_insert ueqb d s u l = Some l' /\ map fst l' = kins s (map fst l) /\ vals l'.
Proof.
  intros Hu. induction l as [|[s' u'] l IH]; intros Hv.
  - exists [(s, u)]. split; [reflexivity|]. split; [reflexivity|]. intros s1 u1 [E|[]]. injection E as <- <-. exact Hu.
  - cbn [ugen_insert map fst kins]. destruct (zmeqb s' s) eqn:E.
    + apply zmeqb_spec in E. subst s'. rewrite (proj2 (ueqb_spec d u' u)).
      * eexists. split; [reflexivity|]. split; [reflexivity|exact Hv].
      * rewrite (Hv s u' (or_introl eq_refl)). symmetry. exact Hu.
    + destruct IH as (l' & E1 & E2 & E3); [intros s1 u1 H; apply Hv; right; exact H|]. rewrite E1.
      eexists. split; [reflexivity|]. split; [cbn; rewrite E2; reflexivity|].
      intros s1 u1 [H|H]; [apply Hv; left; exact H|apply E3; exact H].
Qed.
Lemma ugen_collect_rho ps : forall acc, vals ps -> vals acc ->
  exists l', ugen_collect ueqb d ps acc = Some l' /\ map fst l' = kcollect (map fst ps) (map fst acc) /\ vals l'.
Proof.
  induction ps as [|[s u] ps IH]; intros acc Hp Ha; [exists acc; auto|]. cbn [ugen_collect map fst kcollect].
  destruct (ugen_insert_rho s u acc (Hp s u (or_introl eq_refl)) Ha) as (l' & E1 & E2 & E3). rewrite E1.
  destruct (IH l') as (l'' & F1 & F2 & F3); [intros s1 u1 H; apply Hp; right; exact H|exact E3|].
  exists l''. split; [exact F1|]. split; [rewrite F2, E2; reflexivity|exact F3].
Qed.
Variable L : list zmat.
Hypothesis Lmul : forall s t, In s L -> In t L -> In (zmul n s t) L.
Hypothesis rho_hom : forall s t, In s L -> In t L -> feq d d (rho (zmul n s t)) (fmul d (rho s) (rho t)).
Lemma ugen_products_rho l : (forall s, In s (map fst l) -> In s L) -> vals l ->
  vals (ugen_products n d l) /\ map fst (ugen_products n d l) = map (fun pq => zmul n (fst pq) (snd pq)) (list_prod (map fst l) (map fst l)) /\
  (forall s, In s (map fst (ugen_products n d l)) -> In s L).
Proof.
  intros HL Hv. unfold ugen_products. split; [|split].
  - intros s u H. apply in_map_iff in H. destruct H as ([[s1 u1] [s2 u2]] & E & H). injection E as <- <-. cbn.
    apply in_prod_iff in H. destruct H as [H1 H2].
    rewrite (rho_hom s1 s2) by (apply HL; [exact (in_map fst _ _ H1)||exact (in_map fst _ _ H2)]).
    rewrite (Hv _ _ H1), (Hv _ _ H2). reflexivity.
  - rewrite map_map. cbn [fst snd].
    assert (G : forall a b : list (zmat * fmat K), map (fun x => zmul n (fst (fst x)) (fst (snd x))) (list_prod a b) =
        map (fun pq => zmul n (fst pq) (snd pq)) (list_prod (map fst a) (map fst b))).
    { induction a as [|x a IH]; intros b; [reflexivity|]. cbn [list_prod map]. rewrite !map_app, IH, !map_map. reflexivity. }
    apply G.
  - intros s H. rewrite map_map in H. apply in_map_iff in H. destruct H as ([[s1 u1] [s2 u2]] & <- & H). cbn.
    apply in_prod_iff in H. destruct H as [H1 H2]. apply Lmul; apply HL; [exact (in_map fst _ _ H1)|exact (in_map fst _ _ H2)].
Qed.
Lemma kins_sub s l x : In x (kins s l) -> x = s \/ In x l.
Proof.
  induction l as [|a l IH]; cbn [kins]; [intros [H|[]]; auto|]. destruct (zmeqb a s); [auto|]. intros [H|H]; [right; left; exact H|].
  destruct (IH H); [auto|right; right; assumption].
Qed.
Lemma kcollect_sub ps : forall acc x, In x (kcollect ps acc) -> In x ps \/ In x acc.
Proof.
  induction ps as [|s ps IH]; intros acc x H; [right; exact H|]. cbn [kcollect] in H. destruct (IH _ _ H) as [H'|H']; [left; right; exact H'|].
  apply kins_sub in H'. destruct H' as [-> |H']; [left; left; reflexivity|right; exact H'].
Qed.
Lemma ugen_loop_rho fuel : forall l ks, (forall s, In s (map fst l) -> In s L) -> vals l -> kloop fuel n (map fst l) = Some ks ->
  exists l', ugen_loop ueqb fuel n d l = UGen l' /\ map fst l' = ks /\ vals l'.
Proof.
  induction fuel as [|f IH]; intros l ks HL Hv Hk; [discriminate Hk|]. cbn [kloop] in Hk. cbn [ugen_loop].
  destruct (ugen_products_rho l HL Hv) as (P1 & P2 & P3).
  destruct (ugen_collect_rho (ugen_products n d l) [] P1) as (l' & E1 & E2 & E3); [intros s u []|].
  rewrite E1. rewrite P2 in E2. cbn [map] in E2. rewrite <- E2 in Hk. rewrite !map_length in Hk.
  destruct (Nat.ltb (length l') 1000); [|discriminate Hk].
  destruct (Nat.leb (length l') (length l)); [injection Hk as <-; exists l'; auto|].
  apply IH; [|exact E3|exact Hk]. intros s H. rewrite E2, <- P2 in H. apply kcollect_sub in H. destruct H as [H|[]]. apply P3; exact H.
Qed.
End Gen.

(** the 24 rotations in the order of the generation *)
Definition d3_keys : list zmat := [zeye 3; Rz; Ry; Rx].
Definition one_keys : list zmat := [zeye 3; Rx; Ry; Rz].
Definition okeys (l : list zmat) : list zmat := match kloop 1000 3 l with Some k => k | None => [] end.
Definition keys_b (l : list zmat) : bool :=
  match kloop 1000 3 l with Some k => true | None => false end &&
  is_group_b 3 (okeys l) && forallb (wfz_b 3) (okeys l) && forallb (fun s => memb zmeqb s (okeys l)) l &&
  exactly_b 3 cand3 (okeys l) (det_is 3 1).
Lemma d3_keys_ok : keys_b d3_keys = true. Proof. vm_compute. reflexivity. Qed.
Lemma one_keys_ok : keys_b one_keys = true. Proof. vm_compute. reflexivity. Qed.
Definition init_is (l : list zmat) (inv : bool) : bool :=
  match sym_init 3 (okeys l) inv false with Some g => Nat.eqb (sdim g) 3 && Bool.eqb (sinv g) inv && list_eqb zmeqb (sops g) (okeys l) | None => false end.
Lemma d3_init inv : init_is d3_keys inv = true. Proof. destruct inv; vm_compute; reflexivity. Qed.
Lemma one_init inv : init_is one_keys inv = true. Proof. destruct inv; vm_compute; reflexivity. Qed.

Section Gen2.
Context {K : sring}.
Local Open Scope sring_scope.
Add Ring Kring_gen2 : (s_rt K).
Variable ueqb : nat -> fmat K -> fmat K -> bool.
Hypothesis ueqb_spec : forall d a b, ueqb d a b = true <-> feq d d a b.
Local Strategy opaque [kloop ugen_loop].
Lemma gen_named (d : nat) (G : list (zmat * fmat K)) (rho : zmat -> fmat K) inversion negate :
  keys_b (map fst G) = true -> init_is (map fst G) inversion = true ->
  (forall s u, In (s, u) G -> feq d d u (rho s)) ->
  (forall s t, In s (okeys (map fst G)) -> In t (okeys (map fst G)) -> feq d d (rho (zmul 3 s t)) (fmul d (rho s) (rho t))) ->
  (forall s, In s (okeys (map fst G)) -> feq d d (fmul d (rho s) (fadj (rho s))) fid /\ feq d d (fmul d (fadj (rho s)) (rho s)) fid) ->
  exists r, urep_from_generator ueqb 3 d G inversion negate = Some r /\ unit_rep r /\ udim r = d /\
    usplit r = (if negate : bool then 0%nat else d) /\ sinv (usym r) = inversion /\
    (forall s, In s (sops (usym r)) <-> ortho 3 s /\ zdet 3 s = 1%Z) /\
    forall s u, assigns r s u -> feq d d u (rho s).
Proof.
  intros HK HI Hv Hm Hu. unfold keys_b in HK. rewrite !andb_true_iff in HK. destruct HK as ((((K1 & K2) & K3) & K4) & K5).
  unfold okeys in *. destruct (kloop 1000 3 (map fst G)) as [ks|] eqn:Ek; [|discriminate K1]. clear K1.
  apply is_group_b_spec in K2. pose proof (wfz_b_spec 3 ks K3) as K3'. rewrite forallb_forall in K4.
  assert (EX : forall s, In s ks <-> ortho 3 s /\ zdet 3 s = 1%Z).
  { intros s. rewrite (exactly3 ks (det_is 3 1) K5). unfold det_is. rewrite Z.eqb_eq. reflexivity. }
  destruct (ugen_loop_rho ueqb ueqb_spec 3 d rho ks) with (fuel := 1000%nat) (l := G) (ks := ks) as (l' & E1 & E2 & E3); try assumption.
  { intros s t Hs Ht. apply K2; assumption. }
  { intros s Hs. apply zmemb_In, K4, Hs. }
  unfold urep_from_generator, urep_generate. rewrite E1, E2. unfold init_is, okeys in HI. rewrite Ek in HI.
  destruct (sym_init 3 ks inversion false) as [g|]; [|discriminate HI]. rewrite !andb_true_iff in HI. destruct HI as ((I1 & I2) & I3).
  apply Nat.eqb_eq in I1. apply eqb_prop in I2. apply list_eqb_zm in I3. eexists. split; [reflexivity|].
  assert (HA : forall s u, assigns (MkUrep g d (map snd l') (if negate then 0 else d)%nat) s u -> feq d d u (rho s)).
  { intros s u (k & Hs & Hk). cbn in Hs, Hk. rewrite I3, <- E2, nth_error_map in Hs. rewrite nth_error_map in Hk.
    destruct (nth_error l' k) as [[s' u']|] eqn:El; [|discriminate Hs]. injection Hs as <-. injection Hk as <-.
    apply E3. eapply nth_error_In; exact El. }
  split.
  - apply (hom_unit_rep _ rho); cbn [usym udim uU usplit]; rewrite ?I1, ?I3; try assumption.
    + rewrite <- E2, !map_length. reflexivity.
    + destruct negate; auto.
  - cbn [usym udim uU usplit]. rewrite I3. split; [reflexivity|]. split; [reflexivity|]. split; [exact I2|]. split; [exact EX|exact HA].
Qed.

(** *** one_dim: the trivial representation or the sign of the permutation of the axes *)
Definition one_b : bool :=
  let ks := okeys one_keys in
  forallb (fun s => (Z.eqb (axis_sign s) 1 || Z.eqb (axis_sign s) (-1)) && forallb (fun t => Z.eqb (axis_sign (zmul 3 s t)) (axis_sign s * axis_sign t)) ks) ks &&
  forallb (fun s => Z.eqb (axis_sign s) (-1)) [Rx; Ry; Rz].
Lemma one_b_ok : one_b = true. Proof. vm_compute. reflexivity. Qed.
Theorem C98_one_dim : forall invert negate inversion, exists r : urep K,
  urep_one_dim ueqb invert negate inversion = Some r /\ unit_rep r /\ udim r = 1%nat /\ usplit r = (if negate : bool then 0 else 1)%nat /\
  sinv (usym r) = inversion /\ (forall s, In s (sops (usym r)) <-> ortho 3 s /\ zdet 3 s = 1%Z) /\
  forall s u, assigns r s u -> u 0%nat 0%nat = if invert : bool then kz (axis_sign s) else 1.
Proof.
  intros invert negate inversion.
  assert (HB := one_b_ok). unfold one_b in HB. cbv zeta in HB. rewrite andb_true_iff in HB. destruct HB as [B1 B2]. rewrite forallb_forall in B1, B2.
  assert (Bm : forall s t, In s (okeys one_keys) -> In t (okeys one_keys) -> axis_sign (zmul 3 s t) = (axis_sign s * axis_sign t)%Z).
  { intros s t Hs Ht. specialize (B1 s Hs). rewrite andb_true_iff in B1. destruct B1 as [_ B1]. rewrite forallb_forall in B1. apply Z.eqb_eq, B1, Ht. }
  assert (Bs : forall s, In s (okeys one_keys) -> (axis_sign s * axis_sign s)%Z = 1%Z).
  { intros s Hs. specialize (B1 s Hs). rewrite andb_true_iff, orb_true_iff, !Z.eqb_eq in B1. destruct B1 as [[-> | ->] _]; reflexivity. }
  assert (Bg : forall s, In s [Rx; Ry; Rz] -> axis_sign s = (-1)%Z) by (intros s Hs; apply Z.eqb_eq, B2, Hs).
  assert (B0 : axis_sign (zeye 3) = 1%Z) by reflexivity.
  set (rho := fun (s : zmat) (_ _ : nat) => if invert then kz (K:=K) (axis_sign s) else 1).
  assert (k1 : kz (K:=K) 1 = 1) by (change (1 + 0 = 1 :> K); ring).
  assert (km : kz (K:=K) (-1) = - (1)) by (change (- (1 + 0) = - (1) :> K); ring).
  assert (EG : map fst (one_gens (K:=K) invert) = one_keys) by reflexivity.
  destruct (gen_named 1 (one_gens (K:=K) invert) rho inversion negate) as (r & E1 & E2 & E3 & E4 & E5 & E6 & E7).
  - rewrite EG. exact one_keys_ok.
  - rewrite EG. apply one_init.
  - intros s u H. unfold one_gens in H. cbn [In] in H. intros i j _ _. unfold rho.
    destruct H as [H|[H|[H|[H|[]]]]]; injection H as <- <-; unfold m1; destruct invert;
      rewrite ?B0, ?(Bg Rx), ?(Bg Ry), ?(Bg Rz), ?k1, ?km by (cbn; auto); reflexivity.
  - rewrite EG. intros s t Hs Ht i j _ _. unfold rho, fmul. rewrite nsum_S, nsum_0. destruct invert; [|ring]. rewrite (Bm s t Hs Ht), kz_mul. ring.
  - rewrite EG. intros s Hs.
    assert (Q : (if invert then kz (K:=K) (axis_sign s) else 1) * (if invert then kz (K:=K) (axis_sign s) else 1) = 1).
    { destruct invert; [|ring]. rewrite <- kz_mul, (Bs s Hs). exact k1. }
    assert (C : sconj (if invert then kz (K:=K) (axis_sign s) else 1) = if invert then kz (axis_sign s) else 1).
    { destruct invert; [apply kz_conj|apply conj_1]. }
    split; intros i j Hi Hj; unfold fmul, fadj, rho, fid; rewrite nsum_S, nsum_0, C; replace i with 0%nat by lia; replace j with 0%nat by lia;
      cbn [Nat.eqb]; rewrite Q; ring.
  - exists r. split; [exact E1|]. split; [exact E2|]. split; [exact E3|]. split; [exact E4|]. split; [exact E5|]. split; [exact E6|].
    intros s u A. apply (E7 s u A); lia.
Qed.

(** *** d3: the functions 3z^2 - r^2 and sqrt3 (x^2 - y^2) *)
(** number of the permutation of the axes: 0 identity, 1 x<->y, 2 x<->z, 3 y<->z, 4 and 5 the cycles *)
Definition ptype (s : zmat) : nat :=
  let a i j := negb (Z.eqb (ent (K:=Zs) s i j) 0) in
  if a 0%nat 0%nat then (if a 1%nat 1%nat then 0%nat else 3%nat)
  else if a 1%nat 0%nat then (if a 0%nat 1%nat then 1%nat else 4%nat)
  else (if a 1%nat 1%nat then 2%nat else 5%nat).
Definition pmul (a b : nat) : nat := nth b (nth a [[0;1;2;3;4;5];[1;0;5;4;3;2];[2;4;0;5;1;3];[3;5;4;0;2;1];[4;2;3;1;5;0];[5;3;1;2;0;4]]%nat []) 0%nat.
Definition d3_b : bool :=
  let ks := okeys d3_keys in
  forallb (fun s => Nat.ltb (ptype s) 6 && forallb (fun t => Nat.eqb (ptype (zmul 3 s t)) (pmul (ptype s) (ptype t))) ks) ks.
Lemma keys_exact l : keys_b l = true -> forall s, In s (okeys l) <-> ortho 3 s /\ zdet 3 s = 1%Z.
Proof.
  intros KK s. unfold keys_b in KK. rewrite !andb_true_iff in KK. destruct KK as (_ & K5).
  rewrite (exactly3 _ (det_is 3 1) K5). unfold det_is. rewrite Z.eqb_eq. reflexivity.
Qed.
Lemma d3_b_ok : d3_b = true. Proof. vm_compute. reflexivity. Qed.
(** twice the matrices, with q for the root of three *)
Definition d3_D (q : K) (p : nat) : fmat K :=
  let two : K := 1 + 1 in
  match p with
  | 0%nat => m2 two 0 0 two
  | 1%nat => m2 two 0 0 (- two)
  | 2%nat => m2 (- (1)) q q 1
  | 3%nat => m2 (- (1)) (- q) (- q) 1
  | 4%nat => m2 (- (1)) (- q) q (- (1))
  | _ => m2 (- (1)) q (- q) (- (1))
  end.
(** the coefficients of x^2, y^2, z^2 in 3z^2 - r^2 and sqrt3 (x^2 - y^2) *)
Definition d3_fun (q : K) : fmat K := fun j b =>
  match j, b with
  | 2%nat, 0%nat => 1 + 1 | _, 0%nat => - (1)
  | 0%nat, _ => q | 1%nat, _ => - q | _, _ => 0
  end.
(** how an operation permutes the squares of the coordinates *)
Definition sq_of (s : zmat) : fmat K := fun i j => kz (ent (K:=Zs) s i j * ent (K:=Zs) s i j)%Z.
Definition ptab (p i j : nat) : Z :=
  nth j (nth i (nth p [[[1;0;0];[0;1;0];[0;0;1]];[[0;1;0];[1;0;0];[0;0;1]];[[0;0;1];[0;1;0];[1;0;0]];[[1;0;0];[0;0;1];[0;1;0]];
     [[0;0;1];[1;0;0];[0;1;0]];[[0;1;0];[0;0;1];[1;0;0]]]%Z []) []) 0%Z.
Definition ptab_b : bool :=
  forallb (fun s => forallb (fun ij => Z.eqb (ent (K:=Zs) s (fst ij) (snd ij) * ent (K:=Zs) s (fst ij) (snd ij)) (ptab (ptype s) (fst ij) (snd ij)))
     (list_prod (seq 0 3) (seq 0 3))) (okeys d3_keys).
Lemma ptab_b_ok : ptab_b = true. Proof. vm_compute. reflexivity. Qed.
Local Opaque okeys.
Theorem C98_d3 : forall (h q : K) negate inversion, h + h = 1 -> q * q = 1 + 1 + 1 -> sconj h = h -> sconj q = q ->
  exists r : urep K,
  urep_d3 ueqb h q negate inversion = Some r /\ unit_rep r /\ udim r = 2%nat /\ usplit r = (if negate : bool then 0 else 2)%nat /\
  sinv (usym r) = inversion /\ (forall s, In s (sops (usym r)) <-> ortho 3 s /\ zdet 3 s = 1%Z) /\
  forall s u, assigns r s u -> feq 3 2 (fmul 3 (sq_of s) (d3_fun q)) (fmul 2 (d3_fun q) u).
Proof.
  intros h q negate inversion Hh Hq Ch Cq.
  assert (HB := d3_b_ok). unfold d3_b in HB. cbv zeta in HB. rewrite forallb_forall in HB.
  assert (Bl : forall s, In s (okeys d3_keys) -> (ptype s < 6)%nat).
  { intros s Hs. specialize (HB s Hs). rewrite andb_true_iff in HB. apply Nat.ltb_lt, HB. }
  assert (Bm : forall s t, In s (okeys d3_keys) -> In t (okeys d3_keys) -> ptype (zmul 3 s t) = pmul (ptype s) (ptype t)).
  { intros s t Hs Ht. specialize (HB s Hs). rewrite andb_true_iff in HB. destruct HB as [_ HB]. rewrite forallb_forall in HB. apply Nat.eqb_eq, HB, Ht. }
  set (rho := fun s : zmat => fscale h (d3_D q (ptype s))).
  assert (hh : forall x : K, h * ((1 + 1) * x) = x) by (intros x; transitivity ((h + h) * x); [ring|rewrite Hh; ring]).
  assert (EG : map fst (d3_gens (K:=K) h q) = d3_keys) by reflexivity.
  destruct (gen_named 2 (d3_gens (K:=K) h q) rho inversion negate) as (r & E1 & E2 & E3 & E4 & E5 & E6 & E7).
  - rewrite EG. exact d3_keys_ok.
  - rewrite EG. apply d3_init.
  - intros s u H. unfold d3_gens in H. cbn [In] in H. unfold rho.
    assert (P0 : ptype (zeye 3) = 0%nat) by reflexivity. assert (P1 : ptype Rz = 1%nat) by reflexivity.
    assert (P2 : ptype Ry = 2%nat) by reflexivity. assert (P3 : ptype Rx = 3%nat) by reflexivity.
    destruct H as [H|[H|[H|[H|[]]]]]; injection H as <- <-; rewrite ?P0, ?P1, ?P2, ?P3; intros i j Hi Hj; unfold fscale, d3_D;
      destruct i as [|[|i]]; try lia; destruct j as [|[|j]]; try lia; cbn [m2]; cbv zeta;
      try ring; try (rewrite <- (hh 1) at 1; ring).
  - rewrite EG. intros s t Hs Ht. unfold rho. rewrite (Bm s t Hs Ht).
    assert (G : forall a b, (a < 6)%nat -> (b < 6)%nat -> feq 2 2 (fmul 2 (d3_D q a) (d3_D q b)) (fscale (1 + 1) (d3_D q (pmul a b)))).
    { intros a b Ha Hb.
      do 6 (destruct a as [|a]; [do 6 (destruct b as [|b]; [intros i j Hi Hj; destruct i as [|[|i]]; try lia; destruct j as [|[|j]]; try lia;
        unfold fscale, fmul; rewrite !nsum_S, !nsum_0; unfold pmul; cbn [nth]; unfold d3_D, m2; cbv zeta; ring [Hq]|]); lia|]). lia. }
    intros i j Hi Hj. pose proof (G _ _ (Bl s Hs) (Bl t Ht) i j Hi Hj) as E. unfold fscale in E at 1.
    transitivity (h * h * fmul 2 (d3_D q (ptype s)) (d3_D q (ptype t)) i j).
    + rewrite E. unfold fscale. transitivity (h * (h * ((1 + 1) * d3_D q (pmul (ptype s) (ptype t)) i j))); [rewrite hh; reflexivity|ring].
    + unfold fscale, fmul. rewrite !nsum_S, !nsum_0. ring.
  - rewrite EG. intros s Hs. unfold rho. pose proof (Bl s Hs) as Hp.
    assert (C2 : sconj (1 + 1 : K) = 1 + 1) by (rewrite s_conj_add, conj_1; reflexivity).
    assert (G : forall a, (a < 6)%nat -> feq 2 2 (fmul 2 (d3_D q a) (fadj (d3_D q a))) (fscale ((1 + 1) * (1 + 1)) fid) /\
         feq 2 2 (fmul 2 (fadj (d3_D q a)) (d3_D q a)) (fscale ((1 + 1) * (1 + 1)) fid)).
    { intros a Ha.
      do 6 (destruct a as [|a]; [split; intros i j Hi Hj; destruct i as [|[|i]]; try lia; destruct j as [|[|j]]; try lia;
        unfold fscale, fmul, fadj, fid; rewrite !nsum_S, !nsum_0; cbn [Nat.eqb]; unfold d3_D, m2; cbv zeta;
        rewrite ?conj_opp, ?C2, ?Cq, ?conj_1, ?conj_0; ring [Hq]|]). lia. }
    destruct (G _ Hp) as [G1 G2].
    assert (H4 : forall x : K, h * h * ((1 + 1) * (1 + 1) * x) = x).
    { intros x. transitivity (h * ((1 + 1) * (h * ((1 + 1) * x)))); [ring|rewrite !hh; reflexivity]. }
    split; intros i j Hi Hj.
    + transitivity (h * h * fmul 2 (d3_D q (ptype s)) (fadj (d3_D q (ptype s))) i j).
      * unfold fmul, fadj, fscale. rewrite !nsum_S, !nsum_0, !s_conj_mul, Ch. ring.
      * rewrite (G1 i j Hi Hj). unfold fscale. apply H4.
    + transitivity (h * h * fmul 2 (fadj (d3_D q (ptype s))) (d3_D q (ptype s)) i j).
      * unfold fmul, fadj, fscale. rewrite !nsum_S, !nsum_0, !s_conj_mul, Ch. ring.
      * rewrite (G2 i j Hi Hj). unfold fscale. apply H4.
  - exists r. split; [exact E1|]. split; [exact E2|]. split; [exact E3|]. split; [exact E4|]. split; [exact E5|]. split; [exact E6|].
    intros s u A.
    assert (Hs : In s (okeys d3_keys)).
    { destruct A as (k & Hk & _). apply nth_error_In in Hk. apply E6 in Hk.
      exact (proj2 (keys_exact d3_keys d3_keys_ok s) Hk). }
    assert (PT := ptab_b_ok). unfold ptab_b in PT. rewrite forallb_forall in PT. specialize (PT s Hs). rewrite forallb_forall in PT.
    assert (PE : forall i j, (i < 3)%nat -> (j < 3)%nat -> sq_of s i j = kz (K:=K) (ptab (ptype s) i j)).
    { intros i j Hi Hj. unfold sq_of. f_equal. specialize (PT (i, j)). cbn [fst snd] in PT. apply Z.eqb_eq, PT, in_prod; apply in_seq; lia. }
    assert (k0 : kz (K:=K) 0 = 0) by reflexivity.
    assert (k1 : kz (K:=K) 1 = 1) by (change (1 + 0 = 1 :> K); ring).
    assert (G : forall a, (a < 6)%nat -> forall i b, (i < 3)%nat -> (b < 2)%nat ->
       (1 + 1) * nsum 3 (fun j => kz (ptab a i j) * d3_fun q j b) = nsum 2 (fun j => d3_fun q i j * d3_D q a j b)).
    { intros a Ha i b Hi Hb.
      do 6 (destruct a as [|a]; [destruct i as [|[|[|i]]]; try lia; destruct b as [|[|b]]; try lia;
        rewrite !nsum_S, !nsum_0; unfold ptab; cbn [nth]; rewrite ?k0, ?k1; unfold d3_fun, d3_D, m2; cbv zeta; ring [Hq]|]). lia. }
    intros i b Hi Hb. pose proof (G _ (Bl s Hs) i b Hi Hb) as E.
    transitivity (h * ((1 + 1) * nsum 3 (fun j => kz (ptab (ptype s) i j) * d3_fun q j b))).
    + rewrite hh. unfold fmul. apply nsum_ext. intros j Hj. rewrite (PE i j Hi Hj). reflexivity.
    + rewrite E. unfold fmul. rewrite !nsum_S, !nsum_0. rewrite (E7 s u A 0%nat b), (E7 s u A 1%nat b) by lia. unfold rho, fscale. ring.
Qed.
End Gen2.
Print Assumptions C98_one_dim.
Print Assumptions C98_d3.
(** a quarter turn about z in the vector representation, with and without the sign of the axes, and in one dimension *)
Lemma has_value {K : sring} (r : urep K) s : unit_rep r -> In s (sops (usym r)) -> exists u, assigns r s u.
Proof. intros HR Hs. exists (aU r s). exact (aU_assigns r HR s Hs). Qed.
Lemma Rz_rot : ortho 3 Rz /\ zdet 3 Rz = 1%Z. Proof. split; [apply ortho_b_spec|]; vm_compute; reflexivity. Qed.
Example C98_example : exists r r1 r2 : urep Qs, urep_so3 = Some r /\ urep_o3r = Some r1 /\ urep_one_dim qd true true false = Some r2 /\
  (exists u, assigns r Rz u /\ feq 3 3 u (qmat [[0;1;0];[-1;0;0];[0;0;1]]%Z)) /\
  (exists u, assigns r1 Rz u /\ feq 3 3 u (qmat [[0;-1;0];[1;0;0];[0;0;-1]]%Z)) /\
  exists u, assigns r2 Rz u /\ feq 1 1 u (qmat [[-1]]%Z).
Proof.
  destruct (C98_vector_representations Qs) as (_ & (r & A1 & A2 & _ & _ & _ & A3 & A4) & _ & (r1 & B1 & B2 & _ & _ & _ & B3 & B4)).
  destruct (C98_one_dim qd (fun d => feqb_spec d d) true true false) as (r2 & D1 & D2 & _ & _ & _ & D3 & D4).
  exists r, r1, r2. split; [exact A1|]. split; [exact B1|]. split; [exact D1|].
  destruct (has_value r Rz A2 (proj2 (A3 _) Rz_rot)) as [u Hu].
  destruct (has_value r1 Rz B2 (proj2 (B3 _) Rz_rot)) as [u1 Hu1].
  destruct (has_value r2 Rz D2 (proj2 (D3 _) Rz_rot)) as [u2 Hu2].
  split; [exists u; split; [exact Hu|]|split; [exists u1; split; [exact Hu1|]|exists u2; split; [exact Hu2|]]].
  - intros i j Hi Hj. rewrite (A4 _ _ Hu i j Hi Hj). apply Qc_is_canon.
    destruct i as [|[|[|i]]]; try lia; destruct j as [|[|[|j]]]; try lia; vm_compute; reflexivity.
  - intros i j Hi Hj. rewrite (B4 _ _ Hu1 i j Hi Hj). apply Qc_is_canon.
    destruct i as [|[|[|i]]]; try lia; destruct j as [|[|[|j]]]; try lia; vm_compute; reflexivity.
  - intros i j Hi Hj. replace i with 0%nat by lia. replace j with 0%nat by lia. rewrite (D4 _ _ Hu2). apply Qc_is_canon. vm_compute; reflexivity.
Qed.
(** the hypotheses on 1/2 and the root of three hold for the reals *)
Definition rd (d : nat) (a b : fmat Rs) : bool :=
  forallb (fun ij => if Req_EM_T (a (fst ij) (snd ij)) (b (fst ij) (snd ij)) then true else false) (list_prod (seq 0 d) (seq 0 d)).
Lemma rd_spec d a b : rd d a b = true <-> feq d d a b.
Proof.
  unfold rd. rewrite forallb_forall. split.
  - intros H i j Hi Hj. specialize (H (i, j)). cbn [fst snd] in H. destruct (Req_EM_T (a i j) (b i j)); [assumption|].
    assert (false = true) by (apply H, in_prod; apply in_seq; lia). discriminate.
  - intros H [i j] Hij. apply in_prod_iff in Hij. rewrite !in_seq in Hij. cbn [fst snd]. destruct (Req_EM_T (a i j) (b i j)) as [|E]; [reflexivity|].
    exfalso. apply E, H; lia.
Qed.
Example C98_d3_example : exists r : urep Rs, urep_d3 rd (1/2)%R (sqrt 3) false true = Some r /\ unit_rep r /\ udim r = 2%nat /\
  exists u, assigns r Rz u.
Proof.
  destruct (C98_d3 rd rd_spec (1/2 : car Rs)%R (sqrt 3 : car Rs) false true) as (r & E1 & E2 & E3 & _ & _ & E6 & _).
  - cbn. lra.
  - cbn. rewrite sqrt_sqrt; lra.
  - reflexivity.
  - reflexivity.
  - exists r. split; [exact E1|]. split; [exact E2|]. split; [exact E3|].
    exact (has_value r Rz E2 (proj2 (E6 _) Rz_rot)).
Qed.

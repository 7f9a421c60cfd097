(** Property C146: independent parameters of Slater-Koster models (slater_koster.py). *)
From Coq Require Import List Arith ZArith Lia Bool String QArith Qcanon.
Local Close Scope Q_scope.
Local Close Scope Qc_scope.
Import List ListNotations.
From Verif Require Import SRing LMat CplxR FMat FinGroup SymModel SymInitProofs SymNamedProofs SymProps
  HamModel HamProofs HamTableProofs HamProps SkModel.

Lemma nth_map_in {A B} (f : A -> B) l d d' k : k < List.length l -> nth k (map f l) d = f (nth k l d').
Proof. intros H. rewrite (nth_indep _ d (f d')) by (rewrite map_length; exact H). apply map_nth. Qed.

Section C146.
Context {K : sring}.
Local Open Scope sring_scope.
Add Ring Kring_sk : (s_rt K).

(** the entry (k, i, j) of a list of matrices *)
Definition at3 (H : list (fmat K)) (k i j : nat) : K := nth k H fzero i j.
(** the parameters that are zero except for the entry (k, i, j) with value [v] *)
Definition unit_params (m : nat) (k i j : nat) (v : K) : list (fmat K) :=
  map (fun k' a b => if Nat.eqb k' k && (Nat.eqb a i && Nat.eqb b j) then v else 0) (seq 0 m).

Lemma at3_unit m k i j v k' a b : (k' < m)%nat ->
  at3 (unit_params m k i j v) k' a b = if Nat.eqb k' k && (Nat.eqb a i && Nat.eqb b j) then v else 0.
Proof.
  intros H. unfold at3, unit_params.
  rewrite (nth_map_in _ _ _ 0%nat) by (rewrite seq_length; exact H).
  rewrite seq_nth by exact H. reflexivity.
Qed.

Lemma at3_set (H : list (fmat K)) k i j v k' a b : (k' < List.length H)%nat ->
  at3 (set_entry H k i j v) k' a b = if Nat.eqb k' k && (Nat.eqb a i && Nat.eqb b j) then v else at3 H k' a b.
Proof.
  intros HL. unfold at3, set_entry.
  assert (Lc : List.length (combine (seq 0 (List.length H)) H) = List.length H) by (rewrite combine_length, seq_length; lia).
  rewrite (nth_map_in _ _ _ (0%nat, fzero)) by (rewrite Lc; exact HL).
  rewrite combine_nth by (rewrite seq_length; reflexivity).
  rewrite seq_nth by exact HL. cbn [fst snd Nat.add].
  destruct (Nat.eqb k' k); reflexivity.
Qed.
Lemma set_entry_length (H : list (fmat K)) k i j v : List.length (set_entry H k i j v) = List.length H.
Proof. unfold set_entry. rewrite map_length, combine_length, seq_length. lia. Qed.

Lemma fstore_at N (M : fmat K) a b : (a < N)%nat -> (b < N)%nat -> fstore N M a b = M a b.
Proof.
  intros Ha Hb. unfold fstore.
  rewrite (nth_map_in _ _ _ 0%nat) by (rewrite seq_length; exact Ha). rewrite seq_nth by exact Ha.
  rewrite (nth_map_in _ _ _ 0%nat) by (rewrite seq_length; exact Hb). rewrite seq_nth by exact Hb. reflexivity.
Qed.

Variables (is0 : K -> bool) (re im : K -> K) (kdiv : K -> K -> K) (ueqb : nat -> fmat K -> fmat K -> bool) (half dv : K).
Hypothesis is0_spec : forall x, is0 x = true <-> x = 0.
Hypothesis ueqb_spec : forall d A B, ueqb d A B = true -> feq d d A B.
Hypothesis half_sum : half + half = 1.
Hypothesis half_conj : sconj half = half.
Hypothesis dv_conj : sconj dv = dv.

(** the object fits together: a unitary representation, a list of neighbors; 1/len(sym.S); with inversion the closure
    condition of C24 *)
Definition sk_ok (s : sk K) : Prop :=
  ham_rep (sk_h s) /\ nbr_list (sdim (hs (sk_h s))) (sk_ns s) /\
  dv * ksum (sops (hs (sk_h s))) (fun _ => 1) = 1 /\
  (sinv (hs (sk_h s)) = true -> inv_closed (sk_h s) (sk_ns s)).

Notation P := (sk_sym ueqb half dv).
(** parameters that have the symmetry: the symmetrizer keeps them *)
Definition sk_fixed (s : sk K) (H : list (fmat K)) : Prop :=
  List.length H = List.length (sk_ns s) /\
  forall k a b, (k < List.length (sk_ns s))%nat -> (a < hdim (sk_h s))%nat -> (b < hdim (sk_h s))%nat ->
    at3 (P s H) k a b = at3 H k a b.

Lemma sk_sym_length s H : List.length (P s H) = List.length H.
Proof. unfold sk_sym. rewrite map_length. unfold ham_symmetrizer. rewrite map_length, seq_length. reflexivity. Qed.

Lemma sk_sym_at s H k a b : sk_ok s -> List.length H = List.length (sk_ns s) ->
  (k < List.length (sk_ns s))%nat -> (a < hdim (sk_h s))%nat -> (b < hdim (sk_h s))%nat ->
  at3 (P s H) k a b = nth k (ham_symmetrize half dv (sk_h s) H (sk_ns s)) fzero a b.
Proof.
  intros (Hr & (Hn1 & Hn2 & _) & _) HL Hk Ha Hb.
  destruct (C25_symmetrizer_eq_symmetrize K (sk_h s) (sk_ns s) ueqb half dv H Hn1 Hn2 ueqb_spec HL) as [E1 E2].
  unfold at3, sk_sym.
  rewrite (nth_map_in _ _ _ fzero).
  - rewrite fstore_at by assumption. apply E2.
  - unfold ham_symmetrizer. rewrite map_length, seq_length, HL. exact Hk.
Qed.

Lemma sk_linear s c H H' H'' : sk_ok s -> sconj c = c ->
  List.length H = List.length (sk_ns s) -> List.length H' = List.length (sk_ns s) -> List.length H'' = List.length (sk_ns s) ->
  (forall k a b, (k < List.length (sk_ns s))%nat -> (a < hdim (sk_h s))%nat -> (b < hdim (sk_h s))%nat ->
     at3 H'' k a b = at3 H k a b + c * at3 H' k a b) ->
  forall k a b, (k < List.length (sk_ns s))%nat -> (a < hdim (sk_h s))%nat -> (b < hdim (sk_h s))%nat ->
     at3 (P s H'') k a b = at3 (P s H) k a b + c * at3 (P s H') k a b.
Proof.
  intros Hok Hc L1 L2 L3 E k a b Hk Ha Hb.
  rewrite !sk_sym_at by assumption. pose proof Hok as (Hr & Hn & _).
  apply (C24_linear (sk_h s) (sk_ns s) half dv c H H' H'' Hr Hn Hc L1 L2 L3); [|exact Hk|exact Ha|exact Hb].
  intros k' Hk' a' b' Ha' Hb'. exact (E k' a' b' Hk' Ha' Hb').
Qed.

Lemma sk_idem s H : sk_ok s -> List.length H = List.length (sk_ns s) -> sk_fixed s (P s H).
Proof.
  intros Hok HL. pose proof Hok as (Hr & Hn & Hd & Hi). split; [rewrite sk_sym_length; exact HL|].
  intros k a b Hk Ha Hb.
  assert (L0 : List.length (ham_symmetrize half dv (sk_h s) H (sk_ns s)) = List.length (sk_ns s)).
  { unfold ham_symmetrize, rot_step. rewrite map_length. reflexivity. }
  assert (E : at3 (P s (P s H)) k a b = at3 (P s (ham_symmetrize half dv (sk_h s) H (sk_ns s))) k a b + 0 * at3 (P s H) k a b).
  { apply sk_linear; try assumption; try (rewrite sk_sym_length; assumption).
    - apply conj_0.
    - intros k' a' b' Hk' Ha' Hb'. rewrite sk_sym_at by assumption. unfold at3 at 1. ring. }
  rewrite E, !sk_sym_at by assumption.
  rewrite (C24_idempotent_partial (sk_h s) (sk_ns s) half dv H Hr Hn half_sum half_conj Hd dv_conj HL Hi k Hk a b Ha Hb). ring.
Qed.

Lemma at3_zeros s k a b : at3 (sk_zeros s) k a b = 0.
Proof.
  unfold at3, sk_zeros. destruct (Nat.lt_ge_cases k (List.length (sk_ns s))) as [H|H].
  - exact (f_equal (fun M : fmat K => M a b) (nth_map_in (fun _ : zvec => fzero (K:=K)) (sk_ns s) fzero [] k H)).
  - rewrite nth_overflow by (rewrite map_length; exact H). reflexivity.
Qed.
Lemma zeros_length s : List.length (sk_zeros (K:=K) s) = List.length (sk_ns s).
Proof. unfold sk_zeros. apply map_length. Qed.
Lemma zeros_fixed s : sk_ok s -> sk_fixed s (sk_zeros s).
Proof.
  intros Hok. split; [apply zeros_length|]. intros k a b Hk Ha Hb. rewrite at3_zeros.
  assert (E : at3 (P s (sk_zeros s)) k a b = at3 (P s (sk_zeros s)) k a b + 1 * at3 (P s (sk_zeros s)) k a b).
  { apply sk_linear; try assumption; try apply zeros_length; [apply conj_1|]. intros. rewrite !at3_zeros. ring. }
  replace (0:K) with (at3 (P s (sk_zeros s)) k a b - at3 (P s (sk_zeros s)) k a b) by ring.
  rewrite E at 2. ring.
Qed.
Lemma unit_length m k i j v : List.length (unit_params m k i j v) = m.
Proof. unfold unit_params. rewrite map_length, seq_length. reflexivity. Qed.

(** writing the entry (k, i, j) of symmetric parameters and symmetrising, with a real difference *)
Lemma sk_write s H k i j t : sk_ok s -> sk_fixed s H ->
  (k < List.length (sk_ns s))%nat -> sconj (t - at3 H k i j) = t - at3 H k i j ->
  forall k' a b, (k' < List.length (sk_ns s))%nat -> (a < hdim (sk_h s))%nat -> (b < hdim (sk_h s))%nat ->
  at3 (P s (set_entry H k i j t)) k' a b =
  at3 H k' a b + (t - at3 H k i j) * at3 (P s (unit_params (List.length (sk_ns s)) k i j 1)) k' a b.
Proof.
  intros Hok [HL HF] Hk Hc k' a b Hk' Ha Hb.
  rewrite <- (HF k' a b Hk' Ha Hb).
  apply sk_linear; try assumption; [apply unit_length|rewrite set_entry_length; exact HL|].
  intros k2 a2 b2 H1 H2 H3. rewrite at3_set by (rewrite HL; exact H1). rewrite at3_unit by exact H1.
  destruct (Nat.eqb k2 k) eqn:E1; [|cbn [andb]; ring].
  destruct (Nat.eqb a2 i) eqn:E2; [|cbn [andb]; ring].
  destruct (Nat.eqb b2 j) eqn:E3; [|cbn [andb]; ring].
  cbn [andb]. apply Nat.eqb_eq in E1, E2, E3. subst. ring.
Qed.

(** what set_parameter does with symmetric parameters: for the factor of parameters() (the entry of the symmetrised unit)
    the entry becomes [v + (1 - fac) * old], all others change with the symmetrised unit, and the result is symmetric *)
Theorem C146_set : forall s H k i j fac v, sk_ok s -> sk_fixed s H ->
  (k < List.length (sk_ns s))%nat -> (i < hdim (sk_h s))%nat -> (j < hdim (sk_h s))%nat ->
  let e := P s (unit_params (List.length (sk_ns s)) k i j 1) in
  fac = at3 e k i j -> kdiv v fac * fac = v ->
  sconj (kdiv v fac - at3 H k i j) = kdiv v fac - at3 H k i j ->
  let H' := sk_set kdiv ueqb half dv s H (k, i, j, fac) v in
  at3 H' k i j = v + (1 - fac) * at3 H k i j /\
  (forall k' a b, (k' < List.length (sk_ns s))%nat -> (a < hdim (sk_h s))%nat -> (b < hdim (sk_h s))%nat ->
     at3 H' k' a b = at3 H k' a b + (kdiv v fac - at3 H k i j) * at3 e k' a b) /\
  sk_fixed s H'.
Proof.
  intros s H k i j fac v Hok HF Hk Hi Hj e Ef Ed Hc H'.
  assert (W : forall k' a b, (k' < List.length (sk_ns s))%nat -> (a < hdim (sk_h s))%nat -> (b < hdim (sk_h s))%nat ->
     at3 H' k' a b = at3 H k' a b + (kdiv v fac - at3 H k i j) * at3 e k' a b).
  { intros. apply sk_write; assumption. }
  split; [|split; [exact W|]].
  - rewrite (W k i j Hk Hi Hj), <- Ef.
    replace (at3 H k i j + (kdiv v fac - at3 H k i j) * fac) with (kdiv v fac * fac + (1 - fac) * at3 H k i j) by ring.
    rewrite Ed. reflexivity.
  - apply sk_idem; [exact Hok|]. rewrite set_entry_length. apply HF.
Qed.

(** the dictionary of parameters(): every tuple names an entry in the upper triangle and carries the factor of the
    symmetrised initial value, which is not zero *)
Definition tuple_ok (s : sk K) (init : K) (t : sk_tuple) : Prop :=
  let '(k, i, j, fac) := t in
  (k < List.length (sk_ns s))%nat /\ (i <= j)%nat /\ (j < hdim (sk_h s))%nat /\
  let x := at3 (P s (unit_params (List.length (sk_ns s)) k i j init)) k i j in
  x <> 0 /\ fac = sk_fac is0 re im kdiv init x.

Lemma dict_set_in d l (t : sk_tuple (K:=K)) x : In x (dict_set d l t) -> In x d \/ snd x = t.
Proof.
  induction d as [|[l' t'] d IH]; cbn [dict_set].
  - intros [<-|[]]. right. reflexivity.
  - destruct (label_eqb l' l); cbn [In]; intros [<-|HI]; auto. destruct (IH HI); auto.
Qed.
Lemma in_indices m n k i j : In (k, i, j) (sk_indices m n) -> (k < m)%nat /\ (i <= j)%nat /\ (j < n)%nat.
Proof.
  unfold sk_indices. rewrite in_flat_map. intros (k' & Hk & HI). apply in_flat_map in HI. destruct HI as (i' & Hi & HI).
  apply in_map_iff in HI. destruct HI as (j' & E & Hj). injection E as -> -> ->. apply in_seq in Hk, Hi, Hj. lia.
Qed.

Lemma sk_step_ok s init st k i j : sk_ok s -> (k < List.length (sk_ns s))%nat -> (i <= j)%nat -> (j < hdim (sk_h s))%nat ->
  sk_fixed s (fst st) -> (forall x, In x (snd st) -> tuple_ok s init (snd x)) ->
  sk_fixed s (fst (sk_step is0 re im kdiv ueqb half dv s init st (k, i, j))) /\
  (forall x, In x (snd (sk_step is0 re im kdiv ueqb half dv s init st (k, i, j))) -> tuple_ok s init (snd x)).
Proof.
  intros Hok Hk Hij Hj. destruct st as [dummy found]. cbn [fst snd]. intros HF HT. unfold sk_step.
  destruct (is0 (nth k dummy fzero i j)) eqn:E0; cbn [negb]; [|split; assumption].
  apply is0_spec in E0. change (at3 dummy k i j = 0) in E0.
  set (d := P s (set_entry dummy k i j init)).
  assert (HD : sk_fixed s d). { apply sk_idem; [exact Hok|]. rewrite set_entry_length. apply HF. }
  assert (Ex : nth k d fzero i j = at3 (P s (unit_params (List.length (sk_ns s)) k i j init)) k i j).
  { change (at3 d k i j = at3 (P s (unit_params (List.length (sk_ns s)) k i j init)) k i j).
    destruct HF as [HL HF].
    assert (A : at3 d k i j = at3 (P s dummy) k i j + 1 * at3 (P s (unit_params (List.length (sk_ns s)) k i j init)) k i j).
    { apply sk_linear; try assumption; try lia; [apply conj_1|apply unit_length|rewrite set_entry_length; exact HL|].
      intros k2 a2 b2 H1 H2 H3. rewrite at3_set by (rewrite HL; exact H1). rewrite at3_unit by exact H1.
      destruct (Nat.eqb k2 k) eqn:E1; [|cbn [andb]; ring].
      destruct (Nat.eqb a2 i) eqn:E2; [|cbn [andb]; ring].
      destruct (Nat.eqb b2 j) eqn:E3; [|cbn [andb]; ring].
      cbn [andb]. apply Nat.eqb_eq in E1, E2, E3. subst. rewrite E0. ring. }
    rewrite A, HF, E0 by lia. ring. }
  destruct (is0 (nth k d fzero i j)) eqn:E1; cbn [fst snd]; [split; assumption|]. split; [exact HD|].
  intros x Hx. apply dict_set_in in Hx. destruct Hx as [Hx|Hx]; [apply HT, Hx|]. rewrite Hx. unfold tuple_ok.
  split; [exact Hk|]. split; [exact Hij|]. split; [exact Hj|]. rewrite <- Ex. split; [|reflexivity].
  intros E. apply is0_spec in E. congruence.
Qed.

Theorem C146_parameters : forall s init lab t, sk_ok s ->
  In (lab, t) (sk_parameters is0 re im kdiv ueqb half dv s init) -> tuple_ok s init t.
Proof.
  intros s init lab t Hok. unfold sk_parameters.
  set (f := sk_step is0 re im kdiv ueqb half dv s init).
  assert (G : forall l st, (forall k i j, In (k, i, j) l -> (k < List.length (sk_ns s))%nat /\ (i <= j)%nat /\ (j < hdim (sk_h s))%nat) ->
    sk_fixed s (fst st) -> (forall x, In x (snd st) -> tuple_ok s init (snd x)) ->
    forall x, In x (snd (fold_left f l st)) -> tuple_ok s init (snd x)).
  { induction l as [|[[k i] j] l IH]; intros st HI HF HT; cbn [fold_left]; [exact HT|].
    destruct (HI k i j (or_introl eq_refl)) as (A & B & C).
    destruct (sk_step_ok s init st k i j Hok A B C HF HT) as [D E].
    apply IH; [intros; apply HI; right; assumption|exact D|exact E]. }
  intros HI. apply (G (sk_indices (List.length (sk_ns s)) (hdim (sk_h s))) (sk_zeros s, [])) with (x := (lab, t)).
  - intros k i j. apply in_indices.
  - apply zeros_fixed, Hok.
  - intros x [].
  - exact HI.
Qed.

(** a real parameter of parameters(real=True), set in a model without parameters, has the value afterwards *)
Theorem C146_first : forall s lab k i j fac v, sk_ok s ->
  In (lab, (k, i, j, fac)) (sk_parameters is0 re im kdiv ueqb half dv s 1) ->
  let e := P s (unit_params (List.length (sk_ns s)) k i j 1) in
  is0 (im (at3 e k i j)) = true -> re (at3 e k i j) = at3 e k i j ->
  (forall f, f <> 0 -> kdiv v f * f = v) -> sconj (kdiv v fac) = kdiv v fac ->
  let H' := sk_set kdiv ueqb half dv s (sk_zeros s) (k, i, j, fac) v in
  at3 H' k i j = v /\ sk_fixed s H'.
Proof.
  intros s lab k i j fac v Hok HI e Hi Hr Hd Hc H'.
  destruct (C146_parameters s 1 lab _ Hok HI) as (A & B & C & D & E). fold e in D, E.
  unfold sk_fac in E. rewrite Hi, Hr in E.
  assert (T := C146_set s (sk_zeros s) k i j fac v Hok (zeros_fixed s Hok) A ltac:(lia) C E).
  destruct T as (T1 & _ & T2).
  - apply Hd. rewrite E. exact D.
  - rewrite at3_zeros. replace (kdiv v fac - 0) with (kdiv v fac) by ring. exact Hc.
  - split; [|exact T2]. unfold H'. rewrite T1, at3_zeros. ring.
Qed.

(** the sliders of the widget: the parameters are the sum of the symmetrised units with the weights value/fac *)
Theorem C146_sliders : forall s (tv : list (sk_tuple * K)), sk_ok s ->
  (forall k i j fac v, In ((k, i, j, fac), v) tv -> sconj (kdiv v fac) = kdiv v fac) ->
  forall k' a b, (k' < List.length (sk_ns s))%nat -> (a < hdim (sk_h s))%nat -> (b < hdim (sk_h s))%nat ->
  at3 (sk_sliders kdiv ueqb half dv s tv) k' a b =
  ksum tv (fun x => let '((k, i, j, fac), v) := x in
     kdiv v fac * at3 (P s (unit_params (List.length (sk_ns s)) k i j 1)) k' a b).
Proof.
  intros s tv Hok Hc k' a b Hk Ha Hb. unfold sk_sliders.
  set (st := fun H (tv : sk_tuple * K) => let '((k, i, j, fac), v) := tv in set_entry H k i j (nth k H fzero i j + kdiv v fac)).
  assert (G : forall tv H, (forall k i j fac v, In ((k, i, j, fac), v) tv -> sconj (kdiv v fac) = kdiv v fac) ->
    List.length H = List.length (sk_ns s) ->
    at3 (P s (fold_left st tv H)) k' a b = at3 (P s H) k' a b +
    ksum tv (fun x => let '((k, i, j, fac), v) := x in
     kdiv v fac * at3 (P s (unit_params (List.length (sk_ns s)) k i j 1)) k' a b)).
  { clear tv Hc. induction tv as [|[[[[k i] j] fac] v] tv IH]; intros H Hc HL; cbn [fold_left ksum fold_right map].
    - cbn [ksum]. unfold ksum. cbn [fold_right map]. ring.
    - rewrite IH; [|intros; apply (Hc k0 i0 j0 fac0 v0); right; assumption|unfold st; rewrite set_entry_length; exact HL].
      assert (A : at3 (P s (st H ((k, i, j, fac), v))) k' a b = at3 (P s H) k' a b +
         kdiv v fac * at3 (P s (unit_params (List.length (sk_ns s)) k i j 1)) k' a b).
      { apply sk_linear; try assumption; [apply (Hc k i j fac v); left; reflexivity|apply unit_length|
          unfold st; rewrite set_entry_length; exact HL|].
        intros k2 a2 b2 H1 H2 H3. unfold st. rewrite at3_set by (rewrite HL; exact H1). rewrite at3_unit by exact H1.
        destruct (Nat.eqb k2 k) eqn:E1; [|cbn [andb]; ring].
        destruct (Nat.eqb a2 i) eqn:E2; [|cbn [andb]; ring].
        destruct (Nat.eqb b2 j) eqn:E3; [|cbn [andb]; ring].
        cbn [andb]. apply Nat.eqb_eq in E1, E2, E3. subst. unfold at3. ring. }
      rewrite A. unfold ksum. cbn [fold_right map]. ring. }
  etransitivity; [exact (G tv (sk_zeros s) Hc (zeros_length s))|].
  rewrite (proj2 (zeros_fixed s Hok) k' a b Hk Ha Hb), at3_zeros. apply (Radd_0_l (s_rt K)).
Qed.
End C146.
Print Assumptions C146_set.
Print Assumptions C146_parameters.
Print Assumptions C146_first.
Print Assumptions C146_sliders.

(* ------------------------------------------------------------------ *)
(** ** computable complex numbers with rational parts for the examples *)
Definition Qi : sring.
Proof.
  refine (MkSring (Qc * Qc) (0, 0)%Qc (1, 0)%Qc
    (fun x y => (fst x + fst y, snd x + snd y)%Qc)
    (fun x y => (fst x * fst y - snd x * snd y, fst x * snd y + snd x * fst y)%Qc)
    (fun x y => (fst x - fst y, snd x - snd y)%Qc)
    (fun x => (- fst x, - snd x)%Qc)
    (fun x => (fst x, - snd x)%Qc) _ _ _ _).
  - constructor; intros; repeat match goal with x : _ * _ |- _ => destruct x end;
      cbn [fst snd]; apply f_equal2; ring.
  - intros; cbn [fst snd]; apply f_equal2; ring.
  - intros; cbn [fst snd]; apply f_equal2; ring.
  - intros [a b]; cbn [fst snd]; apply f_equal2; ring.
Defined.
Definition qi_eqb (x y : Qi) : bool := qeqb (fst x) (fst y) && qeqb (snd x) (snd y).
Lemma qi_eqb_spec x y : qi_eqb x y = true <-> x = y.
Proof.
  destruct x as [a b], y as [c d]. unfold qi_eqb. cbn [fst snd]. rewrite andb_true_iff, !qeqb_spec. split.
  - intros [-> ->]. reflexivity.
  - intros E. injection E as -> ->. split; reflexivity.
Qed.
Definition qi (a b : Q) : Qi := (Q2Qc a, Q2Qc b).
Definition qi_is0 (x : Qi) : bool := qi_eqb x (s0 (s:=Qi)).
Definition qi_re (x : Qi) : Qi := (fst x, 0%Qc).
Definition qi_im (x : Qi) : Qi := (snd x, 0%Qc).
(** complex division *)
Definition qi_div (x y : Qi) : Qi :=
  let n := (fst y * fst y + snd y * snd y)%Qc in
  ((fst x * fst y + snd x * snd y) / n, (snd x * fst y - fst x * snd y) / n)%Qc.
Definition qi_feqb (d : nat) (A B : fmat Qi) : bool :=
  forallb (fun i => forallb (fun j => qi_eqb (A i j) (B i j)) (seq 0 d)) (seq 0 d).
Lemma qi_feqb_spec d A B : qi_feqb d A B = true <-> feq d d A B.
Proof.
  unfold qi_feqb, feq. rewrite forallb_forall. split.
  - intros H i j Hi Hj. specialize (H i). rewrite in_seq in H. specialize (H ltac:(lia)).
    rewrite forallb_forall in H. specialize (H j). rewrite in_seq in H. apply qi_eqb_spec, H. lia.
  - intros H i Hi. apply forallb_forall. intros j Hj. apply in_seq in Hi. apply in_seq in Hj. apply qi_eqb_spec, H; lia.
Qed.
Definition qi_rep_b (n : nat) (ops : list zmat) (d : nat) (U : list (fmat Qi)) : bool :=
  let ks := seq 0 (List.length ops) in
  forallb (fun k1 => forallb (fun k2 => forallb (fun k3 =>
     negb (zmeqb (nth k3 ops []) (zmul n (nth k1 ops []) (nth k2 ops []))) ||
     qi_feqb d (nth k3 U fzero) (fmul d (nth k1 U fzero) (nth k2 U fzero))) ks) ks) ks &&
  forallb (fun k => qi_feqb d (fmul d (nth k U fzero) (fadj (nth k U fzero))) fid &&
                    qi_feqb d (fmul d (fadj (nth k U fzero)) (nth k U fzero)) fid) ks.
Lemma qi_rep_b_spec n ops d U : qi_rep_b n ops d U = true ->
  (forall k1 k2 k3 s1 s2, nth_error ops k1 = Some s1 -> nth_error ops k2 = Some s2 ->
       nth_error ops k3 = Some (zmul n s1 s2) ->
       feq d d (nth k3 U fzero) (fmul d (nth k1 U fzero) (nth k2 U fzero))) /\
  (forall k, (k < List.length ops)%nat ->
       feq d d (fmul d (nth k U fzero) (fadj (nth k U fzero))) fid /\
       feq d d (fmul d (fadj (nth k U fzero)) (nth k U fzero)) fid).
Proof.
  unfold qi_rep_b. rewrite andb_true_iff. intros [H1 H2]. split.
  - intros k1 k2 k3 s1 s2 E1 E2 E3. rewrite forallb_forall in H1.
    assert (L : forall k s, nth_error ops k = Some s -> In k (seq 0 (List.length ops)) /\ nth k ops [] = s).
    { intros k s E. split; [|apply nth_error_nth; exact E]. apply in_seq. split; [lia|].
      apply nth_error_Some. congruence. }
    destruct (L _ _ E1) as [I1 N1]. destruct (L _ _ E2) as [I2 N2]. destruct (L _ _ E3) as [I3 N3].
    specialize (H1 k1 I1). rewrite forallb_forall in H1. specialize (H1 k2 I2). rewrite forallb_forall in H1. specialize (H1 k3 I3).
    rewrite N1, N2, N3 in H1. rewrite (proj2 (zmeqb_spec _ _) eq_refl) in H1. apply qi_feqb_spec. exact H1.
  - intros k Hk. rewrite forallb_forall in H2. specialize (H2 k). rewrite in_seq in H2. specialize (H2 ltac:(lia)).
    apply andb_true_iff in H2. destruct H2 as [A B]. split; apply qi_feqb_spec; assumption.
Qed.
Lemma qi_ham_rep h : is_group_b (sdim (hs h)) (sops (hs h)) && forallb (wfz_b (sdim (hs h))) (sops (hs h)) &&
  forallb (fun b => qi_rep_b (sdim (hs h)) (sops (hs h)) (bdim b) (bU b)) (hblocks h) = true -> ham_rep h.
Proof.
  rewrite !andb_true_iff. intros [[A B] C]. split; [apply is_group_b_spec; exact A|].
  split; [apply wfz_b_spec; exact B|]. intros b Hb. rewrite forallb_forall in C. apply qi_rep_b_spec, C, Hb.
Qed.

(** the rotations by 90 degrees of the plane *)
Definition sym_c4 : sym := MkSym 2 [[[1;0];[0;1]]; [[0;-1];[1;0]]; [[-1;0];[0;-1]]; [[0;1];[-1;0]]]%Z false false.
Definition qimat (l : list (list Z)) : fmat Qi := fun a b => qi (inject_Z (nth b (nth a l []) 0%Z)) 0.
Definition one4 : list (fmat Qi) := repeat (qimat [[1%Z]]) 4.
(** one s orbital on the square lattice, up to the nearest neighbors *)
Definition sk_s : sk Qi := MkSk (MkHsym sym_c4 [MkBlock 1 one4 true [0;0]%Z]) ["s"%string] [[0;0];[1;0];[0;1]]%Z.
(** two p orbitals on the square lattice *)
Definition sk_p : sk Qi := MkSk (MkHsym sym_c4 [MkBlock 2 (map qimat (sops sym_c4)) false [0;0]%Z]) ["p"%string] [[0;0]]%Z.
(** two atoms with the same name, one s orbital each; the positions are in units of half a lattice vector *)
Definition sk_2 : sk Qi := MkSk (MkHsym sym_c4 [MkBlock 1 one4 true [0;0]%Z; MkBlock 1 one4 true [1;1]%Z])
  ["Si"%string; "Si"%string] [[0;0]]%Z.
Definition q12 : Qi := qi (1 # 2) 0.
Definition q14 : Qi := qi (1 # 4) 0.
Definition qparams s (real : bool) := sk_parameters qi_is0 qi_re qi_im qi_div qi_feqb q12 q14 s (if real then s1 (s:=Qi) else qi 1 1).
Definition qset s := sk_set qi_div qi_feqb q12 q14 s.
Definition qsym s := sk_sym qi_feqb q12 q14 s.
Definition qfixed s := sk_fixed qi_feqb q12 q14 s.

Lemma qi_ok s : hs (sk_h s) = sym_c4 ->
  is_group_b (sdim (hs (sk_h s))) (sops (hs (sk_h s))) && forallb (wfz_b (sdim (hs (sk_h s)))) (sops (hs (sk_h s))) &&
  forallb (fun b => qi_rep_b (sdim (hs (sk_h s))) (sops (hs (sk_h s))) (bdim b) (bU b)) (hblocks (sk_h s)) = true ->
  nbr_list_b 2 (sk_ns s) = true -> sk_ok q14 s.
Proof.
  intros E H N. split; [apply qi_ham_rep, H|]. rewrite E. split; [apply nbr_list_b_spec, N|].
  split; [apply qi_eqb_spec; vm_compute; reflexivity|discriminate].
Qed.
Lemma sk_s_ok : sk_ok q14 sk_s.
Proof. apply qi_ok; [reflexivity|vm_compute; reflexivity|reflexivity]. Qed.
Lemma sk_p_ok : sk_ok q14 sk_p.
Proof. apply qi_ok; [reflexivity|vm_compute; reflexivity|reflexivity]. Qed.
Lemma sk_2_ok : sk_ok q14 sk_2.
Proof. apply qi_ok; [reflexivity|vm_compute; reflexivity|reflexivity]. Qed.


(** *** the hypotheses of the theorems: the nearest neighbor hopping of the s band *)
Lemma qi_is0_spec x : qi_is0 x = true <-> x = s0 (s:=Qi).
Proof. apply qi_eqb_spec. Qed.
Definition t_hop : sk_tuple (K:=Qi) := (1, 0, 0, q12).
Definition lab_hop : sk_label := (1, ("s"%string, None), ("s"%string, None)).
Definition H_hop : list (fmat Qi) := qset sk_s (sk_zeros sk_s) t_hop (s1 (s:=Qi)).
Lemma H_hop_fixed : qfixed sk_s H_hop.
Proof.
  split; [reflexivity|]. intros k a b Hk Ha Hb. cbn in Hk, Ha, Hb.
  destruct a; [|lia]. destruct b; [|lia]. destruct k as [|[|[|k]]]; [..|lia]; apply qi_eqb_spec; vm_compute; reflexivity.
Qed.
Example C146_ex :
  sk_ok q14 sk_s /\ sadd q12 q12 = s1 (s:=Qi) /\ sconj q12 = q12 /\ sconj q14 = q14 /\
  qparams sk_s true = [((0, ("s"%string, None), ("s"%string, None)), (0, 0, 0, s1 (s:=Qi))); (lab_hop, t_hop)] /\
  q12 = at3 (qsym sk_s (unit_params 3 1 0 0 (s1 (s:=Qi)))) 1 0 0 /\
  smul (qi_div (qi 2 0) q12) q12 = qi 2 0 /\
  qfixed sk_s H_hop /\
  sconj (ssub (qi_div (qi 2 0) q12) (at3 H_hop 1 0 0)) = ssub (qi_div (qi 2 0) q12) (at3 H_hop 1 0 0) /\
  qi_is0 (qi_im (at3 (qsym sk_s (unit_params 3 1 0 0 (s1 (s:=Qi)))) 1 0 0)) = true /\
  at3 H_hop 1 0 0 = qi 1 0 /\ at3 H_hop 2 0 0 = qi 1 0 /\
  at3 (sk_sliders qi_div qi_feqb q12 q14 sk_s [((0, 0, 0, s1 (s:=Qi)), qi 3 0); (t_hop, qi 2 0)]) 2 0 0 = qi 2 0.
Proof.
  split; [apply sk_s_ok|]. split; [apply qi_eqb_spec; vm_compute; reflexivity|].
  split; [apply qi_eqb_spec; vm_compute; reflexivity|]. split; [apply qi_eqb_spec; vm_compute; reflexivity|].
  split.
  { assert (E : forall l l' : list (sk_label * sk_tuple (K:=Qi)), map fst l = map fst l' ->
      map (fun x => fst (snd x)) l = map (fun x => fst (snd x)) l' ->
      map (fun x => (this (fst (snd (snd x))), this (snd (snd (snd x))))) l =
      map (fun x => (this (fst (snd (snd x))), this (snd (snd (snd x))))) l' -> l = l').
    { induction l as [|[x [y [z w]]] l IH]; intros [|[x' [y' [z' w']]] l']; cbn [map fst snd]; try discriminate; [reflexivity|].
      intros E1 E2 E3. injection E1 as -> E1. injection E2 as -> E2. injection E3 as Ez Ew E3.
      apply Qc_decomp in Ez, Ew. rewrite Ez, Ew, (IH l' E1 E2 E3). reflexivity. }
    apply E; vm_compute; reflexivity. }
  split; [apply qi_eqb_spec; vm_compute; reflexivity|]. split; [apply qi_eqb_spec; vm_compute; reflexivity|].
  split; [exact H_hop_fixed|].
  split; [apply qi_eqb_spec; vm_compute; reflexivity|]. split; [vm_compute; reflexivity|].
  repeat split; apply qi_eqb_spec; vm_compute; reflexivity.
Qed.

(** setting a parameter twice: the tuple of parameters() for the hopping of the s band has the factor 1/2; after setting it
    to 1 and then to 2 the entry is 5/2 *)
Theorem C146_again_refuted :
  In (lab_hop, t_hop) (qparams sk_s true) /\ In (lab_hop, t_hop) (qparams sk_s false) /\
  at3 (qset sk_s (sk_zeros sk_s) t_hop (qi 1 0)) 1 0 0 = qi 1 0 /\
  at3 (qset sk_s (qset sk_s (sk_zeros sk_s) t_hop (qi 1 0)) t_hop (qi 2 0)) 1 0 0 = qi (5 # 2) 0 /\
  qi (5 # 2) 0 <> qi 2 0.
Proof.
  assert (E : forall real, In (lab_hop, t_hop) (qparams sk_s real)).
  { intros real. destruct (nth_error (qparams sk_s real) 1) as [[l [p f]]|] eqn:E.
    - replace (lab_hop, t_hop) with (l, (p, f)); [apply (nth_error_In _ _ E)|].
      assert (A : option_map (fun x => (fst x, fst (snd x))) (nth_error (qparams sk_s real) 1) = Some (lab_hop, (1, 0, 0)))
        by (destruct real; vm_compute; reflexivity).
      assert (B : option_map (fun x => qi_eqb (snd (snd x)) q12) (nth_error (qparams sk_s real) 1) = Some true)
        by (destruct real; vm_compute; reflexivity).
      rewrite E in A, B. injection A as -> ->. injection B as B. apply qi_eqb_spec in B. rewrite B. reflexivity.
    - exfalso. destruct real; vm_compute in E; discriminate E. }
  split; [apply E|]. split; [apply E|]. split; [apply qi_eqb_spec; vm_compute; reflexivity|].
  split; [apply qi_eqb_spec; vm_compute; reflexivity|]. intros A. apply qi_eqb_spec in A. vm_compute in A. discriminate A.
Qed.

(** a parameter that may only be imaginary: the on-site coupling of the two p orbitals under the rotations by 90 degrees.
    The factor is a float; setting the value 1 gives 0, only imaginary values arrive *)
Definition t_imag : sk_tuple (K:=Qi) := (0, 0, 1, q12).
Theorem C146_imag_refuted :
  In ((0, ("p"%string, Some 0%Z), ("p"%string, Some 1%Z)), t_imag) (qparams sk_p false) /\
  at3 (qset sk_p (sk_zeros sk_p) t_imag (qi 1 0)) 0 0 1 = qi 0 0 /\
  at3 (qset sk_p (sk_zeros sk_p) t_imag (qi 0 1)) 0 0 1 = qi 0 1 /\
  (forall x, In x (qparams sk_p true) -> fst (snd x) <> (0, 0, 1)).
Proof.
  split.
  { destruct (nth_error (qparams sk_p false) 1) as [[l [p f]]|] eqn:E.
    - replace ((0, ("p"%string, Some 0%Z), ("p"%string, Some 1%Z)), t_imag) with (l, (p, f)); [apply (nth_error_In _ _ E)|].
      assert (A : option_map (fun x => (fst x, fst (snd x))) (nth_error (qparams sk_p false) 1) =
        Some ((0, ("p"%string, Some 0%Z), ("p"%string, Some 1%Z)), (0, 0, 1))) by (vm_compute; reflexivity).
      assert (B : option_map (fun x => qi_eqb (snd (snd x)) q12) (nth_error (qparams sk_p false) 1) = Some true)
        by (vm_compute; reflexivity).
      rewrite E in A, B. injection A as -> ->. injection B as B. apply qi_eqb_spec in B. rewrite B. reflexivity.
    - exfalso. vm_compute in E; discriminate E. }
  split; [apply qi_eqb_spec; vm_compute; reflexivity|]. split; [apply qi_eqb_spec; vm_compute; reflexivity|].
  intros x Hx E. assert (A : map (fun x => fst (snd x)) (qparams sk_p true) = [(0, 0, 0)]) by (vm_compute; reflexivity).
  apply (in_map (fun x => fst (snd x))) in Hx. rewrite A in Hx. destruct Hx as [Hx|[]]. pose proof (eq_trans Hx E) as X. discriminate X.
Qed.

(** two atoms with the same name: the on-site energies of both are free, but they have the same label, and the dictionary
    only holds the one of the last atom *)
Theorem C146_labels_refuted :
  sk_ok q14 sk_2 /\
  qfixed sk_2 (unit_params 1 0 0 0 (s1 (s:=Qi))) /\ qfixed sk_2 (unit_params 1 0 1 1 (s1 (s:=Qi))) /\
  (forall real x, In x (qparams sk_2 real) -> fst (snd x) = (0, 1, 1)).
Proof.
  split; [apply sk_2_ok|].
  assert (F : forall i, i < 2 -> qfixed sk_2 (unit_params 1 0 i i (s1 (s:=Qi)))).
  { intros i Hi. split; [reflexivity|]. intros k a b Hk Ha Hb. cbn in Hk, Ha, Hb.
    destruct k; [|lia]. destruct i as [|[|i]]; [..|lia]; (destruct a as [|[|a]]; [..|lia]); (destruct b as [|[|b]]; [..|lia]);
      apply qi_eqb_spec; vm_compute; reflexivity. }
  split; [apply F; lia|]. split; [apply F; lia|].
  intros real x Hx. assert (A : map (fun x => fst (snd x)) (qparams sk_2 real) = [(0, 1, 1)]) by (destruct real; vm_compute; reflexivity).
  apply (in_map (fun x => fst (snd x))) in Hx. rewrite A in Hx. destruct Hx as [Hx|[]]. symmetry. exact Hx.
Qed.
Print Assumptions C146_again_refuted.
Print Assumptions C146_imag_refuted.
Print Assumptions C146_labels_refuted.

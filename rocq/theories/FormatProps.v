(** Properties C35 (JSON round trip) and C36 (Wannier90 import). *)
From Coq Require Import List Arith ZArith Reals Lra Lia Bool Permutation.
Import ListNotations.
From Verif Require Import SRing LMat FMat CplxR SymModel SymInitProofs SymEqProofs FinGroup HamModel HamProofs FourierModel FourierProps NbrModel NbrProps
  SupercellModel FormatModel.
Local Open Scope nat_scope.

(** ** specification *)
Definition square_mat (d : nat) (m : cmatl) : Prop := length m = d /\ forall row, In row m -> length row = d.
(** w is z with parts below 1e-14 replaced by 0 *)
Definition cleaned (z w : cplx) : Prop :=
  (fst w = if Rlt_dec (Rabs (fst z)) (1 / 10 ^ 14) then 0%R else fst z) /\ (snd w = if Rlt_dec (Rabs (snd z)) (1 / 10 ^ 14) then 0%R else snd z).
Definition sorted_by {A} (f : A -> R) (d0 : A) (l : list A) : Prop := forall i j, (i <= j < length l)%nat -> (f (nth i l d0) <= f (nth j l d0))%R.

(** ** lemmas *)
Lemma json_clean_spec z : cleaned z (json_clean z).
Proof.
  unfold cleaned, json_clean, Rltb, json_eps. destruct z as [x y]. cbn [fst snd].
  destruct (Rlt_dec (Rabs x) (1 / 10 ^ 14)) as [H|H]; cbn [fst snd]; destruct (Rlt_dec (Rabs y) (1 / 10 ^ 14)); split; reflexivity.
Qed.
Lemma skipn_concat {A} k (m : list (list A)) i : (forall r, In r m -> length r = k) -> skipn (i * k) (concat m) = concat (skipn i m).
Proof.
  revert i. induction m as [|r m IH]; intros i H; [rewrite !skipn_nil; reflexivity|].
  assert (Hr : length r = k) by (apply H; left; reflexivity).
  destruct i as [|i]; [reflexivity|]. cbn [concat skipn]. rewrite skipn_app.
  rewrite (skipn_all2 r) by nia. rewrite Hr. replace (S i * k - k) with (i * k) by nia. cbn [app].
  apply IH. intros; apply H; right; assumption.
Qed.
Lemma skipn_cons {A} (d0 : A) l i : i < length l -> skipn i l = nth i l d0 :: skipn (S i) l.
Proof.
  revert i. induction l as [|r l IH]; intros i Hi; [cbn in Hi; lia|]. destruct i as [|i]; [reflexivity|].
  cbn [skipn nth]. rewrite IH by (cbn in Hi; lia). reflexivity.
Qed.
Lemma chunk_concat {A} k n (m : list (list A)) : length m = n -> (forall r, In r m -> length r = k) -> chunk k n (concat m) = m.
Proof.
  intros Hn H. apply (list_ext []); unfold chunk; rewrite map_length, seq_length; [symmetry; exact Hn|]. intros i Hi.
  rewrite nth_map_seq by exact Hi. rewrite (skipn_concat k) by exact H.
  rewrite (skipn_cons []) by lia. cbn [concat].
  assert (Hl : length (nth i m []) = k) by (apply H; apply nth_In; lia).
  rewrite firstn_app, Hl, Nat.sub_diag, firstn_O, app_nil_r. rewrite <- Hl. apply firstn_all.
Qed.
Lemma length_concat_square {A} k (m : list (list A)) : (forall r, In r m -> length r = k) -> length (concat m) = length m * k.
Proof.
  induction m as [|r m IH]; intros H; [reflexivity|]. cbn [concat length]. rewrite app_length, IH by (intros; apply H; right; assumption).
  rewrite (H r) by (left; reflexivity). lia.
Qed.
Lemma take_perm {A} (d0 : A) order l : Permutation order (seq 0 (length l)) -> Permutation (take_idx d0 order l) l.
Proof.
  intros H. unfold take_idx. apply (Permutation_trans (Permutation_map (fun i => nth i l d0) H)). rewrite map_nth_seq. reflexivity.
Qed.
Lemma take_length {A} (d0 : A) order l : length (take_idx d0 order l) = length order.
Proof. apply map_length. Qed.
Lemma nth_take {A} (d0 : A) order l i : i < length order -> nth i (take_idx d0 order l) d0 = nth (nth i order 0) l d0.
Proof.
  intros Hi. unfold take_idx. rewrite (nth_indep _ _ (nth 0 l d0)) by (rewrite map_length; exact Hi).
  exact (map_nth (fun i => nth i l d0) order 0 i).
Qed.
Lemma take_sorted {A} (f : A -> R) (d0 : A) order l : argsort_of (map f l) order -> sorted_by f d0 (take_idx d0 order l).
Proof.
  intros [Hp Hs]. rewrite map_length in *. assert (Ho : length order = length l) by (rewrite (Permutation_length Hp); apply seq_length).
  assert (Hin : forall i, i < length order -> nth i order 0 < length l).
  { intros i Hi. assert (Hx : In (nth i order 0) (seq 0 (length l))) by (apply (Permutation_in _ Hp); apply nth_In; exact Hi). apply in_seq in Hx. lia. }
  intros i j Hij. rewrite take_length in Hij. rewrite !nth_take by lia. specialize (Hs i j ltac:(lia)).
  rewrite !(nth_indep (map f l) 0%R (f d0)) in Hs by (rewrite map_length; apply Hin; lia). rewrite !map_nth in Hs. exact Hs.
Qed.

(** ** C35 *)
(** what is loaded are the saved pairs of neighbor and matrix, sorted by length, with every entry cleaned *)
Theorem C35_roundtrip n d nbs (P : list cmatl) order f : 0 < d -> P <> [] -> length nbs = length P -> (forall h, In h P -> square_mat d h) ->
  json_save nbs P = Some f -> argsort_of (map (vnorm n) nbs) order ->
  exists nbs' P' P2, json_load order f = Some (nbs', P') /\ Forall2 (Forall2 (Forall2 cleaned)) P P2 /\
    Permutation (combine nbs' P') (combine nbs P2) /\ length nbs' = length nbs /\ length P' = length P /\ sorted_by (vnorm n) (fun _ => 0%R) nbs'.
Proof.
  intros Hd Hne Hl Hsq Hs Hord. destruct P as [|p0 Ps] eqn:EP; [contradiction Hne; reflexivity|]. rewrite <- EP in *.
  assert (Hp0 : length p0 = d) by (apply Hsq; rewrite EP; left; reflexivity).
  assert (Ef : f = MkJ d (map (fun h => concat (map (map json_clean) h)) P) nbs).
  { unfold json_save in Hs. rewrite EP in Hs. cbv beta iota in Hs. rewrite <- EP in Hs. rewrite Hp0 in Hs. injection Hs as <-. reflexivity. }
  set (P2 := map (map (map json_clean)) P).
  assert (Hch : map (chunk d d) (jparams f) = P2).
  { rewrite Ef. cbn [jparams]. rewrite map_map. unfold P2. apply map_ext_in. intros h Hh. destruct (Hsq h Hh) as [H1 H2]. apply chunk_concat.
    - rewrite map_length. exact H1.
    - intros r Hr. apply in_map_iff in Hr. destruct Hr as (r0 & <- & Hr0). rewrite map_length. apply H2; exact Hr0. }
  assert (Ho : Permutation order (seq 0 (length nbs))) by (destruct Hord as [H _]; rewrite map_length in H; exact H).
  assert (Hlo : length order = length nbs) by (rewrite (Permutation_length Ho); apply seq_length).
  assert (HP2 : length P2 = length P) by apply map_length.
  exists (take_idx (fun _ => 0%R) order nbs), (take_idx [] order P2), P2. repeat split.
  - unfold json_load. rewrite Ef in Hch |- *. cbn [jparams jnbs jcount] in Hch |- *. rewrite Hch, map_length, Hl, Nat.eqb_refl. cbn [andb].
    assert (Hall : forallb (fun h : list (R * R) => length h =? d * d) (map (fun h => concat (map (map json_clean) h)) P) = true).
    { apply forallb_forall. intros x Hx. apply in_map_iff in Hx. destruct Hx as (h & <- & Hh). destruct (Hsq h Hh) as [H1 H2].
      apply Nat.eqb_eq. rewrite (length_concat_square d); [rewrite map_length, H1; reflexivity|].
      intros r Hr. apply in_map_iff in Hr. destruct Hr as (r0 & <- & Hr0). rewrite map_length. apply H2; exact Hr0. }
    rewrite Hall. cbn [andb]. assert (E1 : (d =? 0) = false) by (apply Nat.eqb_neq; lia). rewrite E1. cbn [andb negb].
    assert (E2 : (length P =? 0) = false) by (apply Nat.eqb_neq; rewrite EP; cbn; lia). rewrite E2. reflexivity.
  - unfold P2. clear. induction P as [|h P IH]; cbn [map]; constructor; [|exact IH]. clear IH P.
    induction h as [|r h IH]; cbn [map]; constructor; [|exact IH]. clear IH h.
    induction r as [|z r IH]; cbn [map]; constructor; [|exact IH]. apply json_clean_spec.
  - rewrite (take_pairs ((fun _ => 0%R) : rvec) ([] : cmatl)) by exact (eq_trans Hl (eq_sym HP2)). apply take_perm. rewrite combine_length, HP2, <- Hl, Nat.min_id. exact Ho.
  - rewrite take_length. exact Hlo.
  - rewrite take_length, Hlo. exact Hl.
  - apply take_sorted. exact Hord.
Qed.
Print Assumptions C35_roundtrip.
(** a model without matrices cannot be saved *)
Theorem C35_save_defined nbs P : json_save nbs P <> None <-> P <> [].
Proof. destruct P; cbn; split; intro H; try discriminate; exfalso; apply H; reflexivity. Qed.
Print Assumptions C35_save_defined.
(** cleaning twice changes nothing: a model loaded from a file is written back entry by entry *)
Theorem C35_idempotent z w v : cleaned z w -> cleaned w v -> v = w.
Proof.
  intros [A1 A2] [B1 B2]. destruct v as [x y], w as [p q]. cbn [fst snd] in *. f_equal.
  - rewrite B1, A1. destruct (Rlt_dec (Rabs (fst z)) (1 / 10 ^ 14)) as [H|H]; [rewrite Rabs_R0; destruct (Rlt_dec 0 _); reflexivity|].
    destruct (Rlt_dec (Rabs (fst z)) (1 / 10 ^ 14)); [contradiction|reflexivity].
  - rewrite B2, A2. destruct (Rlt_dec (Rabs (snd z)) (1 / 10 ^ 14)) as [H|H]; [rewrite Rabs_R0; destruct (Rlt_dec 0 _); reflexivity|].
    destruct (Rlt_dec (Rabs (snd z)) (1 / 10 ^ 14)); [contradiction|reflexivity].
Qed.
Print Assumptions C35_idempotent.
(** two neighbors given longest first, with a tiny imaginary part *)
Example C35_example : exists f,
  json_save [rv1 2; rv1 0] [[[(1, 1 / 10 ^ 15)]]; [[(5, 2)]]]%R = Some f /\
  json_load [1; 0] f = Some ([rv1 0; rv1 2], [[[(5, 2)]]; [[(1, 0)]]])%R.
Proof.
  assert (E1 : json_clean (1, 1 / 10 ^ 15)%R = (1, 0)%R).
  { destruct (json_clean_spec (1, 1 / 10 ^ 15)%R) as [A B]. destruct (json_clean (1, 1 / 10 ^ 15)%R) as [x y]. cbn [fst snd] in A, B.
    destruct (Rlt_dec (Rabs 1) _) as [X|_]; [rewrite Rabs_pos_eq in X by lra; lra|].
    destruct (Rlt_dec (Rabs (1 / 10 ^ 15)) _) as [_|X]; [|exfalso; apply X; rewrite Rabs_pos_eq by lra; lra]. subst. reflexivity. }
  assert (E2 : json_clean (5, 2)%R = (5, 2)%R).
  { destruct (json_clean_spec (5, 2)%R) as [A B]. destruct (json_clean (5, 2)%R) as [x y]. cbn [fst snd] in A, B.
    destruct (Rlt_dec (Rabs 5) _) as [X|_]; [rewrite Rabs_pos_eq in X by lra; lra|].
    destruct (Rlt_dec (Rabs 2) _) as [X|_]; [rewrite Rabs_pos_eq in X by lra; lra|]. subst. reflexivity. }
  eexists. split; [reflexivity|]. cbn [map concat app]. rewrite E1, E2. reflexivity.
Qed.

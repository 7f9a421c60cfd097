(** Matrices and vectors as lists of rows over a star ring: the exact-arithmetic
    counterpart of the numpy arrays of shape (n, n) / (n,) the library passes around.
    Infrastructure only; the python code modelled with it is cited in the [*Model.v] files. *)
From Coq Require Import List Arith ZArith Lia Ring Permutation Bool.
Import ListNotations.
From Verif Require Import SRing.

Section LMat.
Variable K : sring.
Add Ring Kring : (s_rt K).
Open Scope sring_scope.

Definition lmat := list (list K).
Definition lvec := list K.

(** entry (i,j); 0 outside of the matrix *)
Definition ent (m : lmat) (i j : nat) : K := nth j (nth i m []) 0.
Definition vent (v : lvec) (i : nat) : K := nth i v 0.

Definition mk (n m : nat) (f : nat -> nat -> K) : lmat :=
  map (fun i => map (f i) (seq 0 m)) (seq 0 n).
Definition vmk (n : nat) (f : nat -> K) : lvec := map f (seq 0 n).

(** well-formed n x m matrix / n-vector *)
Definition wfm (n m : nat) (a : lmat) : Prop :=
  length a = n /\ (forall r, In r a -> length r = m).
Definition wfv (n : nat) (v : lvec) : Prop := length v = n.

Lemma nth_map_seq {A} (f : nat -> A) n i d : i < n -> nth i (map f (seq 0 n)) d = f i.
Proof.
  intros H. rewrite nth_indep with (d' := f 0%nat) by (rewrite map_length, seq_length; exact H).
  rewrite map_nth. rewrite seq_nth by exact H. reflexivity.
Qed.

Lemma ent_mk n m f i j : i < n -> j < m -> ent (mk n m f) i j = f i j.
Proof.
  intros Hi Hj. unfold ent, mk. rewrite nth_map_seq by exact Hi.
  rewrite nth_map_seq by exact Hj. reflexivity.
Qed.

Lemma vent_vmk n f i : i < n -> vent (vmk n f) i = f i.
Proof. intros; unfold vent, vmk. apply nth_map_seq; assumption. Qed.

Lemma wfm_mk n m f : wfm n m (mk n m f).
Proof.
  split; unfold mk.
  - rewrite map_length, seq_length; reflexivity.
  - intros r Hr. apply in_map_iff in Hr. destruct Hr as [i [<- _]].
    rewrite map_length, seq_length; reflexivity.
Qed.

Lemma wfv_vmk n f : wfv n (vmk n f).
Proof. unfold wfv, vmk. rewrite map_length, seq_length; reflexivity. Qed.

Lemma list_ext {A} (d : A) (l1 l2 : list A) :
  length l1 = length l2 -> (forall i, i < length l1 -> nth i l1 d = nth i l2 d) -> l1 = l2.
Proof.
  revert l2; induction l1 as [|a l1 IH]; intros [|b l2]; simpl; intros HL H; try discriminate; [reflexivity|].
  f_equal.
  - apply (H 0%nat); lia.
  - apply IH; [lia|]. intros i Hi. apply (H (S i)); lia.
Qed.

Lemma vec_ext n u v : wfv n u -> wfv n v -> (forall i, i < n -> vent u i = vent v i) -> u = v.
Proof.
  unfold wfv. intros Hu Hv H. apply (list_ext 0); [congruence|].
  intros i Hi; apply H; lia.
Qed.

Lemma mat_ext n m a b : wfm n m a -> wfm n m b ->
  (forall i j, i < n -> j < m -> ent a i j = ent b i j) -> a = b.
Proof.
  intros [La Ra] [Lb Rb] H. apply (list_ext []); [congruence|].
  intros i Hi. apply (list_ext 0).
  - rewrite Ra, Rb; [reflexivity| |]; apply nth_In; lia.
  - intros j Hj. rewrite Ra in Hj by (apply nth_In; lia).
    apply H; lia.
Qed.

Lemma mk_eta n m a : wfm n m a -> mk n m (ent a) = a.
Proof. intros H. apply (mat_ext n m); [apply wfm_mk|exact H|]. intros; apply ent_mk; assumption. Qed.

Lemma mk_ext n m f g : (forall i j, i < n -> j < m -> f i j = g i j) -> mk n m f = mk n m g.
Proof.
  intros H. apply (mat_ext n m); try apply wfm_mk. intros i j Hi Hj.
  rewrite !ent_mk by assumption. auto.
Qed.

(** operations on square n x n matrices *)
Definition lmul (n : nat) (a b : lmat) : lmat :=
  mk n n (fun i j => nsum n (fun k => ent a i k * ent b k j)).
Definition leye (n : nat) : lmat := mk n n (fun i j => if Nat.eqb i j then 1 else 0).
Definition ltr (n : nat) (a : lmat) : lmat := mk n n (fun i j => ent a j i).
Definition lneg (n : nat) (a : lmat) : lmat := mk n n (fun i j => - ent a i j).
Definition ladd (n : nat) (a b : lmat) : lmat := mk n n (fun i j => ent a i j + ent b i j).
Definition lscale (n : nat) (c : K) (a : lmat) : lmat := mk n n (fun i j => c * ent a i j).
Definition lmv (n : nat) (a : lmat) (v : lvec) : lvec :=
  vmk n (fun i => nsum n (fun k => ent a i k * vent v k)).
Definition vneg (n : nat) (v : lvec) : lvec := vmk n (fun i => - vent v i).
Definition vzero (n : nat) : lvec := vmk n (fun _ => 0).

Lemma lmul_wf n a b : wfm n n (lmul n a b). Proof. apply wfm_mk. Qed.
Lemma leye_wf n : wfm n n (leye n). Proof. apply wfm_mk. Qed.
Lemma lneg_wf n a : wfm n n (lneg n a). Proof. apply wfm_mk. Qed.
Lemma ltr_wf n a : wfm n n (ltr n a). Proof. apply wfm_mk. Qed.
Lemma lmv_wf n a v : wfv n (lmv n a v). Proof. apply wfv_vmk. Qed.
Lemma vneg_wf n v : wfv n (vneg n v). Proof. apply wfv_vmk. Qed.

Lemma lmul_ent n a b i j : i < n -> j < n ->
  ent (lmul n a b) i j = nsum n (fun k => ent a i k * ent b k j).
Proof. intros; apply ent_mk; assumption. Qed.

Lemma leye_ent n i j : i < n -> j < n -> ent (leye n) i j = if Nat.eqb i j then 1 else 0.
Proof. intros; apply ent_mk; assumption. Qed.

Lemma lmul_assoc n a b c : lmul n a (lmul n b c) = lmul n (lmul n a b) c.
Proof.
  apply mk_ext. intros i j Hi Hj.
  transitivity (nsum n (fun k => nsum n (fun l => ent a i k * (ent b k l * ent c l j)))).
  - apply nsum_ext. intros k Hk. rewrite lmul_ent by assumption. rewrite nsum_mul_l. reflexivity.
  - rewrite nsum_swap. apply nsum_ext. intros l Hl. rewrite lmul_ent by assumption.
    rewrite <- nsum_mul_r. apply nsum_ext. intros; ring.
Qed.

Lemma lmul_1_l n a : wfm n n a -> lmul n (leye n) a = a.
Proof.
  intros H. apply (mat_ext n n); [apply lmul_wf|exact H|]. intros i j Hi Hj.
  rewrite lmul_ent by assumption.
  rewrite (nsum_single _ n i); [| exact Hi |].
  - rewrite leye_ent, Nat.eqb_refl by assumption. ring.
  - intros k Hk Hne. rewrite leye_ent by assumption.
    destruct (Nat.eqb_spec i k); [congruence|ring].
Qed.

Lemma lmul_1_r n a : wfm n n a -> lmul n a (leye n) = a.
Proof.
  intros H. apply (mat_ext n n); [apply lmul_wf|exact H|]. intros i j Hi Hj.
  rewrite lmul_ent by assumption.
  rewrite (nsum_single _ n j); [| exact Hj |].
  - rewrite leye_ent, Nat.eqb_refl by assumption. ring.
  - intros k Hk Hne. rewrite leye_ent by assumption.
    destruct (Nat.eqb_spec k j); [congruence|ring].
Qed.

Lemma vent_lmv n a v i : i < n -> vent (lmv n a v) i = nsum n (fun k => ent a i k * vent v k).
Proof. intros; apply vent_vmk; assumption. Qed.

Lemma lmv_mul n a b v : lmv n (lmul n a b) v = lmv n a (lmv n b v).
Proof.
  apply (vec_ext n); try apply lmv_wf. intros i Hi. rewrite !vent_lmv by assumption.
  transitivity (nsum n (fun k => nsum n (fun l => ent a i l * (ent b l k * vent v k)))).
  - apply nsum_ext. intros k Hk. rewrite lmul_ent by assumption. rewrite <- nsum_mul_r.
    apply nsum_ext. intros; ring.
  - rewrite nsum_swap. apply nsum_ext. intros l Hl. rewrite vent_lmv by assumption.
    rewrite nsum_mul_l. reflexivity.
Qed.

Lemma lmv_1 n v : wfv n v -> lmv n (leye n) v = v.
Proof.
  intros H. apply (vec_ext n); [apply lmv_wf|exact H|]. intros i Hi. rewrite vent_lmv by assumption.
  rewrite (nsum_single _ n i); [| exact Hi |].
  - rewrite leye_ent, Nat.eqb_refl by assumption. ring.
  - intros k Hk Hne. rewrite leye_ent by assumption.
    destruct (Nat.eqb_spec i k); [congruence|ring].
Qed.

Lemma lneg_ent n a i j : i < n -> j < n -> ent (lneg n a) i j = - ent a i j.
Proof. intros; apply ent_mk; assumption. Qed.
Lemma ltr_ent n a i j : i < n -> j < n -> ent (ltr n a) i j = ent a j i.
Proof. intros; unfold ltr; rewrite ent_mk by assumption; reflexivity. Qed.

Lemma lneg_invol n a : wfm n n a -> lneg n (lneg n a) = a.
Proof.
  intros H. apply (mat_ext n n); [apply lneg_wf|exact H|]. intros i j Hi Hj.
  rewrite !lneg_ent by assumption. ring.
Qed.

Lemma lneg_mul_l n a b : lmul n (lneg n a) b = lneg n (lmul n a b).
Proof.
  apply mk_ext. intros i j Hi Hj. rewrite lmul_ent by assumption. rewrite <- nsum_opp.
  apply nsum_ext. intros k Hk. rewrite lneg_ent by assumption. ring.
Qed.

Lemma lneg_mul_r n a b : lmul n a (lneg n b) = lneg n (lmul n a b).
Proof.
  apply mk_ext. intros i j Hi Hj. rewrite lmul_ent by assumption. rewrite <- nsum_opp.
  apply nsum_ext. intros k Hk. rewrite lneg_ent by assumption. ring.
Qed.

Lemma lmv_neg n a v : lmv n (lneg n a) v = vneg n (lmv n a v).
Proof.
  apply (vec_ext n); [apply lmv_wf|apply vneg_wf|]. intros i Hi.
  unfold vneg. rewrite vent_vmk, !vent_lmv by assumption.
  rewrite <- nsum_opp. apply nsum_ext. intros k Hk. rewrite lneg_ent by assumption. ring.
Qed.

Lemma ltr_mul n a b : ltr n (lmul n a b) = lmul n (ltr n b) (ltr n a).
Proof.
  apply mk_ext. intros i j Hi Hj. rewrite lmul_ent by assumption.
  apply nsum_ext. intros k Hk. rewrite !ltr_ent by assumption. ring.
Qed.

Lemma ltr_invol n a : wfm n n a -> ltr n (ltr n a) = a.
Proof.
  intros H. apply (mat_ext n n); [apply ltr_wf|exact H|]. intros i j Hi Hj.
  rewrite !ltr_ent by assumption. reflexivity.
Qed.

Lemma ltr_eye n : ltr n (leye n) = leye n.
Proof.
  apply mk_ext. intros i j Hi Hj. rewrite leye_ent by assumption.
  rewrite Nat.eqb_sym. reflexivity.
Qed.

End LMat.

Arguments ent {K}. Arguments vent {K}. Arguments mk {K}. Arguments vmk {K}.
Arguments wfm {K}. Arguments wfv {K}. Arguments lmul {K}. Arguments leye {K}. Arguments ltr {K}.
Arguments lneg {K}. Arguments ladd {K}. Arguments lscale {K}. Arguments lmv {K}.
Arguments vneg {K}. Arguments vzero {K}.

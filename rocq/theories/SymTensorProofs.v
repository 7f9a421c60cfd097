(** Proofs about Symmetry.symmetrize (symmetry.py l.827-854). *)
From Coq Require Import List Arith ZArith Lia Bool Permutation Ring.
Import ListNotations.
From Verif Require Import SRing LMat SymModel SymModel2 FinGroup.

Section TP.
Variable K : sring.
Add Ring Kring : (s_rt K).
Open Scope sring_scope.
Notation tensor := (tensor K).

Fixpoint contract (n : nat) (ms : list (lmat K)) (t : tensor) (b : list nat) : K :=
  match ms, b with
  | m :: ms', b0 :: b' => nsum n (fun a => ent m b0 a * contract n ms' (fun l => t (a :: l)) b')
  | _, _ => t []
  end.

Definition idx_ok (n r : nat) (b : list nat) : Prop := length b = r /\ forall x, In x b -> (x < n)%nat.

Lemma idx_ok_cons n r a b : idx_ok n (S r) (a :: b) <-> (a < n)%nat /\ idx_ok n r b.
Proof.
  unfold idx_ok; simpl. split.
  - intros [H1 H2]. split; [apply H2; auto|split; [lia|auto]].
  - intros [H1 [H2 H3]]. split; [lia|]. intros x [<-|Hx]; auto.
Qed.

Lemma einsum_contract n ms : forall t b, length b = length ms -> einsum n ms t b = contract n ms t b.
Proof.
  unfold einsum. induction ms as [|m ms IH]; intros t b Hb; simpl.
  - destruct b; [|discriminate]. simpl. ring.
  - destruct b as [|b0 b]; [discriminate|]. simpl in Hb.
    rewrite ksum_flat_map. apply nsum_ext. intros a Ha.
    rewrite ksum_map. rewrite <- IH by lia. rewrite <- ksum_mul_l.
    apply ksum_ext. intros l Hl. ring.
Qed.

Lemma contract_ext n ms : forall t t' b, idx_ok n (length ms) b ->
  (forall a, idx_ok n (length ms) a -> t a = t' a) -> contract n ms t b = contract n ms t' b.
Proof.
  induction ms as [|m ms IH]; intros t t' b Hb H; simpl.
  - apply H. split; [reflexivity|intros x []].
  - destruct b as [|b0 b]; [destruct Hb; discriminate|]. apply idx_ok_cons in Hb. destruct Hb as [H0 Hb].
    apply nsum_ext. intros a Ha. f_equal. apply IH; [exact Hb|].
    intros l Hl. apply H. apply idx_ok_cons. auto.
Qed.

Lemma contract_lin n ms c : forall t t' b,
  contract n ms (fun a => t a + c * t' a) b = contract n ms t b + c * contract n ms t' b.
Proof.
  induction ms as [|m ms IH]; intros t t' b; simpl; [reflexivity|].
  destruct b as [|b0 b]; [reflexivity|].
  rewrite <- nsum_mul_l, <- nsum_add. apply nsum_ext. intros a Ha.
  rewrite (IH (fun l => t (a :: l)) (fun l => t' (a :: l)) b). ring.
Qed.

Lemma contract_zero n ms : forall b, contract n ms (fun _ => 0) b = 0.
Proof.
  induction ms as [|m ms IH]; intros b; simpl; [reflexivity|].
  destruct b as [|b0 b]; [reflexivity|]. apply nsum_zero. intros a Ha. rewrite IH. ring.
Qed.

Lemma contract_ksum {A} n ms (l : list A) (f : A -> tensor) b :
  contract n ms (fun a => ksum l (fun x => f x a)) b = ksum l (fun x => contract n ms (f x) b).
Proof.
  induction l as [|x l IH]; simpl; [apply contract_zero|].
  rewrite <- IH. pose proof (contract_lin n ms 1 (f x) (fun a => ksum l (fun x => f x a)) b) as H.
  replace (contract n ms (f x) b + contract n ms (fun a => ksum l (fun x0 => f x0 a)) b)
    with (contract n ms (f x) b + 1 * contract n ms (fun a => ksum l (fun x0 => f x0 a)) b) by ring.
  rewrite <- H. clear.
  generalize dependent b. generalize dependent f. induction ms as [|m ms IH]; intros f b; simpl; [ring|].
  destruct b as [|b0 b]; [ring|]. apply nsum_ext. intros a Ha. f_equal.
  apply (IH (fun x => fun l => f x (a :: l)) b).
Qed.

Lemma contract_scale n ms c t b : contract n ms (fun a => c * t a) b = c * contract n ms t b.
Proof.
  revert t b. induction ms as [|m ms IH]; intros t b; simpl; [reflexivity|].
  destruct b as [|b0 b]; [reflexivity|]. rewrite <- nsum_mul_l. apply nsum_ext. intros a Ha.
  rewrite (IH (fun l => t (a :: l)) b). ring.
Qed.

Fixpoint zipmul (n : nat) (ms ms' : list (lmat K)) : list (lmat K) :=
  match ms, ms' with m :: l, m' :: l' => lmul n m m' :: zipmul n l l' | _, _ => [] end.

Lemma contract_comp n : forall ms ms' t b, length ms = length ms' -> idx_ok n (length ms) b ->
  contract n ms (contract n ms' t) b = contract n (zipmul n ms ms') t b.
Proof.
  induction ms as [|m ms IH]; intros [|m' ms'] t b HL Hb; simpl in *; try discriminate; [reflexivity|].
  destruct b as [|b0 b]; [destruct Hb; discriminate|]. apply idx_ok_cons in Hb. destruct Hb as [H0 Hb].
  transitivity (nsum n (fun c => nsum n (fun a => ent m b0 c * ent m' c a * contract n ms (contract n ms' (fun l => t (a :: l))) b))).
  - apply nsum_ext. intros c Hc. unfold nsum at 1.
    rewrite (contract_ksum n ms (seq 0 n) (fun a l => ent m' c a * contract n ms' (fun l0 => t (a :: l0)) l) b).
    rewrite <- ksum_mul_l. apply ksum_ext. intros a Ha.
    rewrite (contract_scale n ms (ent m' c a) (fun l => contract n ms' (fun l0 => t (a :: l0)) l) b).
    change (fun l => contract n ms' (fun l0 => t (a :: l0)) l) with (contract n ms' (fun l => t (a :: l))). ring.
  - rewrite nsum_swap. apply nsum_ext. intros a Ha. rewrite lmul_ent by assumption.
    rewrite <- nsum_mul_r. apply nsum_ext. intros c Hc. rewrite IH by (try lia; exact Hb). reflexivity.
Qed.

Lemma contract_eye n r : forall t b, idx_ok n r b -> contract n (repeat (leye n) r) t b = t b.
Proof.
  induction r as [|r IH]; intros t b Hb; simpl.
  - destruct b; [reflexivity|destruct Hb; discriminate].
  - destruct b as [|b0 b]; [destruct Hb; discriminate|]. apply idx_ok_cons in Hb. destruct Hb as [H0 Hb].
    rewrite (nsum_single _ n b0); [|exact H0|].
    + rewrite leye_ent, Nat.eqb_refl by assumption. rewrite IH by exact Hb. ring.
    + intros k Hk Hne. rewrite leye_ent by assumption. destruct (Nat.eqb_spec b0 k); [congruence|ring].
Qed.

Lemma zipmul_app n a1 a2 b1 b2 : length a1 = length b1 ->
  zipmul n (a1 ++ a2) (b1 ++ b2) = zipmul n a1 b1 ++ zipmul n a2 b2.
Proof.
  revert b1; induction a1 as [|x a1 IH]; intros [|y b1] H; simpl in *; try discriminate; [reflexivity|].
  f_equal. apply IH. lia.
Qed.

Lemma zipmul_repeat n x y r : zipmul n (repeat x r) (repeat y r) = repeat (lmul n x y) r.
Proof. induction r; simpl; congruence. Qed.

(* ------------------------------------------------------------------ *)
Variables (n p q : nat) (inv : lmat K -> lmat K) (sgn : lmat K -> K) (dv : K) (pseudo : bool).
Variable S : list (lmat K).
Hypothesis HS : is_group (lmul n) (leye n) S.
Hypothesis HW : forall s, In s S -> wfm n n s.
Hypothesis Hinv : forall s, In s S -> wfm n n (inv s) /\ lmul n s (inv s) = leye n /\ lmul n (inv s) s = leye n.
Hypothesis Hsgn : pseudo = true -> sgn (leye n) = 1 /\ forall s u, In s S -> In u S -> sgn (lmul n s u) = sgn s * sgn u.
Hypothesis Hdv : dv * ksum S (fun _ => 1) = 1.

Notation T := (tterm n p q inv sgn pseudo).
Notation P := (tsymmetrize n p q inv sgn dv pseudo S).
Notation ok := (idx_ok n (p + q)).

Lemma slots_len s : length (slots n p q inv s) = (p + q)%nat.
Proof. unfold slots. rewrite app_length, !repeat_length. reflexivity. Qed.

Lemma inv_mul s u : In s S -> In u S -> inv (lmul n s u) = lmul n (inv u) (inv s).
Proof.
  intros Hs Hu. pose proof HS as (_ & _ & Hc & _).
  destruct (Hinv s Hs) as (W1 & A1 & B1), (Hinv u Hu) as (W2 & A2 & B2), (Hinv _ (Hc _ _ Hs Hu)) as (W3 & A3 & B3).
  rewrite <- (lmul_1_r K n (inv (lmul n s u))) by assumption.
  rewrite <- A1. rewrite <- (lmul_1_l K n (inv s)) at 1 by assumption. rewrite <- A2.
  rewrite <- !lmul_assoc. rewrite (lmul_assoc K n s u (lmul n (inv u) (inv s))).
  rewrite lmul_assoc, B3. apply lmul_1_l. apply lmul_wf.
Qed.

Lemma inv_one : inv (leye n) = leye n.
Proof.
  pose proof HS as (Ho & _). destruct (Hinv _ Ho) as (W & A & B).
  rewrite lmul_1_l in A by exact W. exact A.
Qed.

Lemma T_comp u s t b : In u S -> In s S -> ok b -> T u (T s t) b = T (lmul n s u) t b.
Proof.
  intros Hu Hs Hb. unfold tterm.
  assert (Hlen : length b = (p + q)%nat) by apply Hb.
  rewrite !einsum_contract by (rewrite slots_len; exact Hlen).
  set (c := fun s => if pseudo then sgn s else 1).
  change (contract n (slots n p q inv u) (fun a => einsum n (slots n p q inv s) (fun a0 => t a0 * c s) a * c u) b =
          contract n (slots n p q inv (lmul n s u)) (fun a => t a * c (lmul n s u)) b).
  rewrite (contract_ext n _ _ (contract n (slots n p q inv s) (fun a => c u * (t a * c s))) b).
  - rewrite contract_comp by (rewrite !slots_len; auto).
    assert (E : zipmul n (slots n p q inv u) (slots n p q inv s) = slots n p q inv (lmul n s u)).
    { unfold slots. rewrite zipmul_app by (rewrite !repeat_length; reflexivity).
      rewrite !zipmul_repeat, inv_mul, ltr_mul by assumption. reflexivity. }
    rewrite E. apply contract_ext; [rewrite slots_len; exact Hb|]. intros a Ha. unfold c.
    case_eq pseudo; intros Ep; [|ring]. rewrite (proj2 (Hsgn Ep)) by assumption. ring.
  - rewrite slots_len; exact Hb.
  - intros a [Ha _]. rewrite einsum_contract by (rewrite slots_len in *; exact Ha).
    rewrite (contract_scale n _ (c u) (fun a => t a * c s) a). ring.
Qed.

Lemma T_one t b : ok b -> T (leye n) t b = t b.
Proof.
  intros Hb. unfold tterm. rewrite einsum_contract by (rewrite slots_len; apply Hb).
  assert (E : slots n p q inv (leye n) = repeat (leye n) (p + q)).
  { unfold slots. rewrite inv_one, ltr_eye, repeat_app. reflexivity. }
  rewrite E, contract_eye by exact Hb. case_eq pseudo; intros Ep; [rewrite (proj1 (Hsgn Ep))|]; ring.
Qed.

Lemma T_lin s t t' c b : ok b -> T s (fun a => t a + c * t' a) b = T s t b + c * T s t' b.
Proof.
  intros Hb. unfold tterm. rewrite !einsum_contract by (rewrite slots_len; apply Hb).
  rewrite <- contract_lin. apply contract_ext; [rewrite slots_len; exact Hb|]. intros a Ha. ring.
Qed.

Lemma T_ext s t t' b : ok b -> (forall a, ok a -> t a = t' a) -> T s t b = T s t' b.
Proof.
  intros Hb H. unfold tterm. rewrite !einsum_contract by (rewrite slots_len; apply Hb).
  apply contract_ext; rewrite slots_len; [exact Hb|]. intros a Ha. rewrite H by exact Ha. reflexivity.
Qed.

Lemma T_scale s t c b : ok b -> T s (fun a => c * t a) b = c * T s t b.
Proof.
  intros Hb. unfold tterm. rewrite !einsum_contract by (rewrite slots_len; apply Hb).
  rewrite <- contract_scale. apply contract_ext; [rewrite slots_len; exact Hb|]. intros a Ha. ring.
Qed.

Lemma T_ksum {A} s (l : list A) (f : A -> tensor) b : ok b ->
  T s (fun a => ksum l (fun x => f x a)) b = ksum l (fun x => T s (f x) b).
Proof.
  intros Hb. unfold tterm. rewrite einsum_contract by (rewrite slots_len; apply Hb).
  transitivity (contract n (slots n p q inv s) (fun a => ksum l (fun x => f x a * (if pseudo then sgn s else 1))) b).
  - apply contract_ext; [rewrite slots_len; exact Hb|]. intros a Ha. rewrite ksum_mul_r. reflexivity.
  - rewrite (contract_ksum n (slots n p q inv s) l (fun x a => f x a * (if pseudo then sgn s else 1)) b).
    apply ksum_ext. intros x Hx. rewrite einsum_contract by (rewrite slots_len; apply Hb). reflexivity.
Qed.

Lemma tsym_lin t t' c b : ok b -> P (fun a => t a + c * t' a) b = P t b + c * P t' b.
Proof.
  intros Hb. unfold tsymmetrize.
  rewrite (ksum_ext _ _ _ (fun s => T s t b + c * T s t' b)) by (intros; apply T_lin; exact Hb).
  rewrite ksum_add, ksum_mul_l. ring.
Qed.

Lemma tsym_invariant u t b : In u S -> ok b -> T u (P t) b = P t b.
Proof.
  intros Hu Hb. unfold tsymmetrize at 1.
  rewrite (T_scale u (fun a => ksum S (fun s => T s t a)) dv b Hb).
  rewrite (T_ksum u S (fun s => T s t) b Hb).
  unfold tsymmetrize. f_equal.
  rewrite (ksum_ext _ S _ (fun s => T (lmul n s u) t b)) by (intros; apply T_comp; assumption).
  rewrite <- (ksum_map _ S (fun s => lmul n s u) (fun s => T s t b)).
  apply ksum_perm.
  apply (group_translate_r (lmul n) (leye n) (wfm n n) (lmul_assoc K n) (lmul_1_r K n) S HS HW u Hu).
Qed.

Lemma tsym_fixes t b : (forall u a, In u S -> ok a -> T u t a = t a) -> ok b -> P t b = t b.
Proof.
  intros H Hb. unfold tsymmetrize.
  rewrite (ksum_ext _ S _ (fun s => 1 * t b)) by (intros; rewrite H by assumption; ring).
  rewrite ksum_mul_r.
  replace (dv * (ksum S (fun _ => 1) * t b)) with (dv * ksum S (fun _ => 1) * t b) by ring.
  rewrite Hdv. ring.
Qed.

Lemma tsym_idem t b : ok b -> P (P t) b = P t b.
Proof. intros Hb. apply tsym_fixes; [|exact Hb]. intros u a Hu Ha. apply tsym_invariant; assumption. Qed.

End TP.

(** rank (1,1): the transformation is inv(s) t s *)
Lemma tterm_11 (K : sring) n (inv : lmat K -> lmat K) sgn s t i j : (i < n)%nat -> (j < n)%nat ->
  tterm n 1 1 inv sgn false s t [i; j] =
  ent (lmul n (lmul n (inv s) (mk n n (fun a b => t [a; b]))) s) i j.
Proof.
  intros Hi Hj. unfold tterm. rewrite (einsum_contract K) by reflexivity.
  unfold slots. cbn [repeat app contract]. rewrite lmul_ent by assumption.
  transitivity (nsum n (fun a => nsum n (fun b => (ent (inv s) i a * (t [a; b]) * ent s b j)%K))).
  - apply nsum_ext. intros a Ha. rewrite <- nsum_mul_l. apply nsum_ext. intros b Hb.
    rewrite ltr_ent by assumption.
    pose proof (s_rt K) as R. destruct R.
    rewrite (Rmul_comm (t [a; b]) s1), Rmul_1_l, (Rmul_comm (ent s b j)), Rmul_assoc. reflexivity.
  - rewrite nsum_swap. apply nsum_ext. intros b Hb. rewrite lmul_ent by assumption.
    rewrite <- nsum_mul_r. apply nsum_ext. intros a Ha. rewrite ent_mk by assumption. reflexivity.
Qed.

(** The Laplace determinant [zdet] of the model (standing for np.linalg.det) agrees with
    mathcomp's determinant; multiplicativity, behaviour under negation and inverses of
    unimodular integer matrices in every dimension. *)
From Coq Require Import ZArith List Lia.
From mathcomp Require Import ssreflect ssrfun ssrbool eqtype ssrnat seq fintype bigop ssralg matrix ssrZ.
From Verif Require Import SRing LMat SymModel.
Import GRing.Theory.
Local Open Scope ring_scope.

Set Implicit Arguments.
Unset Strict Implicit.

Definition to_mx (n : nat) (a : zmat) : 'M[Z]_n := \matrix_(i < n, j < n) (ent a i j : Z).
Definition of_mx (n : nat) (A : 'M[Z]_n) : zmat :=
  mk (K:=Zs) n n (fun i j => match @idP (i < n)%N, @idP (j < n)%N with
                             | ReflectT hi, ReflectT hj => A (Ordinal hi) (Ordinal hj)
                             | _, _ => 0%Z end).

Lemma fold_sum (F : nat -> Z) (n : nat) :
  List.fold_right Z.add 0%Z (List.map F (List.seq 0 n)) = \sum_(j < n) F j.
Proof.
elim: n => [|n IH]; first by rewrite big_ord0.
rewrite List.seq_S List.map_app List.fold_right_app big_ord_recr /= -IH Z.add_0_r.
elim: (List.map F _) (F n) {IH} => [|x l IHl] y /=; first by [].
by rewrite IHl /GRing.add /= Z.add_assoc.
Qed.

Lemma nsum_big (F : nat -> Z) (n : nat) : nsum (K:=Zs) n F = \sum_(j < n) F j.
Proof.
rewrite -fold_sum /nsum; elim: (List.seq 0 n) => [|x l IH] //=; by rewrite IH.
Qed.

Lemma to_mxK n (A : 'M[Z]_n) : to_mx n (of_mx A) = A.
Proof.
apply/matrixP => i j; rewrite mxE /of_mx ent_mk; try by apply/ssrnat.ltP.
case: {-}_ / (@idP (i < n)%N) => [hi|]; last by rewrite ltn_ord.
case: {-}_ / (@idP (j < n)%N) => [hj|]; last by rewrite ltn_ord.
by congr (A _ _); apply: val_inj.
Qed.

Lemma to_mx_inj n a b : wfm n n a -> wfm n n b -> to_mx n a = to_mx n b -> a = b.
Proof.
move=> wa wb /matrixP E; apply: (mat_ext Zs n n a b wa wb) => i j /ssrnat.ltP hi /ssrnat.ltP hj.
by have := E (Ordinal hi) (Ordinal hj); rewrite !mxE.
Qed.

Lemma to_mx_mul n a b : to_mx n (zmul n a b) = to_mx n a *m to_mx n b.
Proof.
apply/matrixP => i j; rewrite !mxE /zmul lmul_ent; try by apply/ssrnat.ltP.
rewrite nsum_big; apply: eq_bigr => k _; by rewrite !mxE.
Qed.

Lemma to_mx_eye n : to_mx n (zeye n) = 1%:M.
Proof.
apply/matrixP => i j; rewrite !mxE /zeye leye_ent; try by apply/ssrnat.ltP.
rewrite -val_eqE /=.
case: (PeanoNat.Nat.eqb_spec i j) => [->|/eqP/negbTE ->]; by rewrite ?eqxx.
Qed.

Lemma to_mx_neg n a : to_mx n (zneg n a) = - to_mx n a.
Proof.
by apply/matrixP => i j; rewrite !mxE /zneg lneg_ent //; apply/ssrnat.ltP.
Qed.

Lemma to_mx_tr n a : to_mx n (ltr n a) = (to_mx n a)^T.
Proof.
by apply/matrixP => i j; rewrite !mxE ltr_ent //; apply/ssrnat.ltP.
Qed.

Lemma drop_nth_nth (d : Z) j l k : (j < length l)%coq_nat -> (k < (length l).-1)%coq_nat ->
  List.nth k (drop_nth j l) d = List.nth (if PeanoNat.Nat.ltb k j then k else k.+1) l d.
Proof.
rewrite /drop_nth => hj hk.
case: (PeanoNat.Nat.ltb_spec k j) => h.
  rewrite List.app_nth1; last by rewrite List.firstn_length; lia.
  have -> : l = List.app (List.firstn j l) (List.skipn j l) by rewrite List.firstn_skipn.
  rewrite List.firstn_app List.firstn_firstn PeanoNat.Nat.min_id.
  rewrite List.firstn_length.
  rewrite [(j - _)%coq_nat](_ : _ = 0%nat); last by lia.
  rewrite List.firstn_O List.app_nil_r List.app_nth1 //.
  by rewrite List.firstn_length; lia.
rewrite List.app_nth2 List.firstn_length; last by lia.
rewrite PeanoNat.Nat.min_l; last by lia.
have -> : List.nth k.+1 l d = List.nth k.+1 (List.app (List.firstn j.+1 l) (List.skipn j.+1 l)) d
  by rewrite List.firstn_skipn.
rewrite List.app_nth2 List.firstn_length; last by lia.
rewrite PeanoNat.Nat.min_l; last by lia.
by [].
Qed.

Lemma drop_nth_length A (j : nat) (l : list A) : (j < length l)%coq_nat ->
  length (drop_nth j l) = (length l).-1.
Proof.
by move=> h; rewrite /drop_nth List.app_length List.firstn_length List.skipn_length; lia.
Qed.

Lemma zdet_eq n a : wfm n n a -> zdet n a = \det (to_mx n a).
Proof.
elim: n a => [|n IH] a wa; first by rewrite det_mx00.
case: wa => la ra.
case: a la ra => [|row rest] //= [la] ra.
have hrow : length row = n.+1 by apply: ra; left.
have hrest : forall r, List.In r rest -> length r = n.+1 by move=> r hr; apply: ra; right.
rewrite (expand_det_row _ ord0).
transitivity (\sum_(j < n.+1) ((if PeanoNat.Nat.even j then 1 else -1) * List.nth j row 0 *
  zdet n (List.map (fun r => drop_nth j r) rest))%Z).
  by rewrite -(fold_sum (fun j => ((if PeanoNat.Nat.even j then 1 else -1) * List.nth j row 0 *
    zdet n (List.map (fun r => drop_nth j r) rest))%Z) n.+1).
apply: eq_bigr => j _.
have hj : (j < n.+1)%coq_nat by apply/ssrnat.ltP.
have wr : wfm (K:=Zs) n n (List.map (fun r => drop_nth j r) rest).
  split; first by rewrite List.map_length.
  move=> r /List.in_map_iff [r' [<- hr']].
  by rewrite drop_nth_length (hrest r' hr').
rewrite (IH _ wr) /cofactor mxE add0n.
have -> : to_mx n (List.map (fun r => drop_nth j r) rest) =
          row' ord0 (col' j (to_mx n.+1 (row :: rest))).
  apply/matrixP => i k; rewrite !mxE /ent /=.
  have hi : (i < length rest)%coq_nat by rewrite la; apply/ssrnat.ltP.
  rewrite (List.nth_indep _ _ (drop_nth j nil)); last by rewrite List.map_length.
  rewrite (List.map_nth (fun r => drop_nth j r)).
  have hr : length (List.nth i rest nil) = n.+1 by apply: hrest; apply: List.nth_In.
  rewrite drop_nth_nth.
  - congr (List.nth _ _ _); rewrite /bump.
    case: (PeanoNat.Nat.ltb_spec k j) => h.
      have -> : (j <= k)%N = false by apply/negbTE; rewrite -ltnNge; apply/ssrnat.ltP.
      by [].
    by have -> : (j <= k)%N by apply/ssrnat.leP.
  - by rewrite hr.
  - by rewrite hr; apply/ssrnat.ltP.
have -> : (if PeanoNat.Nat.even j then 1 else -1)%Z = (-1) ^+ j.
  rewrite -signr_odd.
  have -> : PeanoNat.Nat.even j = ~~ odd j.
    elim: (nat_of_ord j) => [|m Hm] //.
    by rewrite PeanoNat.Nat.even_succ -PeanoNat.Nat.negb_even Hm oddS; case: (odd m).
  by case: (odd j) => /=.
rewrite /ent /=. rewrite -[LHS]/(((-1) ^+ j * List.nth j row 0%Z) * \det (row' ord0 (col' j (to_mx n.+1 (row :: rest))))).
by rewrite mulrCA mulrA.
Qed.

Lemma zdet_mul n a b : wfm n n a -> wfm n n b -> zdet n (zmul n a b) = (zdet n a * zdet n b)%Z.
Proof.
move=> wa wb; rewrite !zdet_eq //; last by apply: lmul_wf.
by rewrite to_mx_mul det_mulmx.
Qed.

Lemma zdet_eye n : zdet n (zeye n) = 1%Z.
Proof. by rewrite zdet_eq; [rewrite to_mx_eye det1|apply: leye_wf]. Qed.

Lemma zdet_tr n a : wfm n n a -> zdet n (ltr n a) = zdet n a.
Proof. by move=> wa; rewrite !zdet_eq //; [rewrite to_mx_tr det_tr|apply: ltr_wf]. Qed.

Lemma zdet_neg n a : wfm n n a ->
  zdet n (zneg n a) = if PeanoNat.Nat.even n then zdet n a else (- zdet n a)%Z.
Proof.
move=> wa; rewrite !zdet_eq //; last by apply: lneg_wf.
rewrite to_mx_neg -scaleN1r detZ -signr_odd.
have -> : PeanoNat.Nat.even n = ~~ odd n.
  elim: n {a wa} => [|m Hm] //.
  by rewrite PeanoNat.Nat.even_succ -PeanoNat.Nat.negb_even Hm oddS; case: (odd m).
case: (odd n) => /=; rewrite ?expr1 ?expr0 ?mul1r //.
Qed.

(** the inverse of a unimodular matrix, with every dimension *)
Definition zinv (n : nat) (a : zmat) : zmat := of_mx ((\det (to_mx n a)) *: \adj (to_mx n a)).
Lemma zinv_spec n a : wfm n n a -> Z.abs (zdet n a) = 1%Z ->
  wfm n n (zinv n a) /\ zmul n a (zinv n a) = zeye n /\ zmul n (zinv n a) a = zeye n.
Proof.
move=> wa hd.
have hu : (zdet n a * zdet n a)%Z = 1%Z by lia.
rewrite /zinv.
have wb : wfm n n (of_mx ((\det (to_mx n a)) *: \adj (to_mx n a))) by apply: wfm_mk.
split=> //.
rewrite zdet_eq // in hu.
split; apply: (@to_mx_inj n); rewrite ?to_mx_mul ?to_mxK ?to_mx_eye;
  try apply: lmul_wf; try apply: leye_wf.
- rewrite -scalemxAr mul_mx_adj -mul_scalar_mx -scalar_mxM.
  by rewrite (_ : _ * _ = 1).
- rewrite -scalemxAl mul_adj_mx -mul_scalar_mx -scalar_mxM.
  by rewrite (_ : _ * _ = 1).
Qed.
Lemma zdet_inverse n a : wfm n n a -> Z.abs (zdet n a) = 1%Z ->
  exists b, wfm n n b /\ zmul n a b = zeye n /\ zmul n b a = zeye n.
Proof. by move=> wa hd; exists (zinv n a); apply: zinv_spec. Qed.

(** Proofs about the parameter conventions of BandStructureModel *)
From Coq Require Import List Arith ZArith Reals Lra Lia Bool Permutation Setoid Morphisms.
From Coquelicot Require Import Coquelicot.
Import ListNotations.
From Verif Require Import SRing LMat FMat CplxR UrepModel FourierModel FourierProofs.
Local Open Scope R_scope.

Notation csum := (ksum (K:=Cs)).
Lemma csum_ext {A} (l : list A) f g : (forall a, In a l -> f a = g a) -> csum l f = csum l g.
Proof. apply (ksum_ext Cs). Qed.
Lemma csum_add {A} (l : list A) f g : csum l (fun a => cadd (f a) (g a)) = cadd (csum l f) (csum l g).
Proof. apply (ksum_add Cs). Qed.
Lemma csum_mul_l {A} (l : list A) f c : csum l (fun a => cmul c (f a)) = cmul c (csum l f).
Proof. apply (ksum_mul_l Cs). Qed.
Lemma csum_mul_r {A} (l : list A) f c : csum l (fun a => cmul (f a) c) = cmul (csum l f) c.
Proof. apply (ksum_mul_r Cs). Qed.
Lemma csum_conj {A} (l : list A) f : cconj (csum l f) = csum l (fun a => cconj (f a)).
Proof. apply (ksum_conj Cs). Qed.
Lemma csum_app {A} (l1 l2 : list A) f : csum (l1 ++ l2) f = cadd (csum l1 f) (csum l2 f).
Proof. apply (ksum_app Cs). Qed.
Lemma csum_map {A B} (l : list A) (h : A -> B) f : csum (map h l) f = csum l (fun a => f (h a)).
Proof. apply (ksum_map Cs). Qed.
Lemma csum_zero {A} (l : list A) f : (forall a, In a l -> f a = (0,0)) -> csum l f = (0,0).
Proof. apply (ksum_zero Cs). Qed.
Lemma conj_cadd x y : cconj (cadd x y) = cadd (cconj x) (cconj y). Proof. apply (s_conj_add Cs). Qed.
Lemma conj_cmul x y : cconj (cmul x y) = cmul (cconj x) (cconj y). Proof. apply (s_conj_mul Cs). Qed.
Lemma conj_conj x : cconj (cconj x) = x. Proof. apply (s_conj_invol Cs). Qed.
Lemma conj_cre a : cconj (cre a) = cre a. Proof. csolve. Qed.

Lemma csum_tl {A} (H : list A) (d0 : A) g : csum (tl H) g = csum (seq 1 (length H - 1)) (fun l => g (nth l H d0)).
Proof.
  destruct H as [|h H]; [reflexivity|]. cbn [tl length]. replace (S (length H) - 1)%nat with (length H) by lia.
  rewrite <- seq_shift, csum_map. cbn [nth]. clear h.
  induction H as [|x H IH]; [reflexivity|]. cbn [length seq ksum nth]. f_equal.
  rewrite IH, <- seq_shift, csum_map. reflexivity.
Qed.
Lemma csum_seq_add N M f : csum (seq (S N) M) f = csum (seq 1 M) (fun m => f (N + m)%nat).
Proof.
  assert (E : forall a, seq (S N) a = map (fun m => (N + m)%nat) (seq 1 a)).
  { intro a. revert N. induction a as [|a IH]; intro N; [reflexivity|].
    rewrite (seq_S a (S N)), (seq_S a 1), map_app, <- IH. simpl. f_equal. f_equal. lia. }
  rewrite E, csum_map. reflexivity.
Qed.
Definition e_sum n (b : bsm) k l : cplx := csum (bops b) (fun s => cexp (2 * PI * dot n k (rot n s (nb (bnb b) l)))).
Definition c_sum n (b : bsm) k l : R := ksum (K:=Rs) (bops b) (fun s => cos (2 * PI * dot n k (rot n s (nb (bnb b) l)))).
Definition s_sum n (b : bsm) k l : R := ksum (K:=Rs) (bops b) (fun s => sin (2 * PI * dot n k (rot n s (nb (bnb b) l)))).
Definition nops (b : bsm) : R := INR (length (bops b)).
Definition dshift (b : bsm) : R := if bcos b then nops b else 0.

Lemma csum_cre {A} (l : list A) (f : A -> R) : csum l (fun a => cre (f a)) = cre (ksum (K:=Rs) l f).
Proof. induction l as [|a l IH]; [reflexivity|]. cbn [ksum]. rewrite IH. csolve. Qed.
Lemma csum_one {A} (l : list A) : csum l (fun _ => cre 1) = cre (INR (length l)).
Proof.
  induction l as [|a l IH]; [reflexivity|]. cbn [ksum]. rewrite IH. cbn [length]. rewrite S_INR. csolve.
Qed.
Lemma e_sum_cs n b k l : e_sum n b k l = cadd (cre (c_sum n b k l)) (cmul ci (cre (s_sum n b k l))).
Proof.
  unfold e_sum, c_sum, s_sum. induction (bops b) as [|s S IH]; [csolve|]. cbn [ksum]. rewrite IH. unfold cexp. csolve.
Qed.
Lemma coef_lt n b k l : (0 < l < length (bnb b))%nat ->
  bsm_coef n b k l = csum (bops b) (fun s => coeff_fun b 0 (2 * PI * dot n k (rot n s (nb (bnb b) l)))).
Proof.
  intros H. unfold bsm_coef. rewrite (proj2 (Nat.eqb_neq l 0)) by lia. cbv zeta.
  rewrite Nat.div_small, Nat.mod_small, Nat.add_0_r by lia. reflexivity.
Qed.
Lemma coef_ge n b k m : (0 < m < length (bnb b))%nat ->
  bsm_coef n b k (length (bnb b) - 1 + m)%nat = csum (bops b) (fun s => coeff_fun b 1 (2 * PI * dot n k (rot n s (nb (bnb b) m)))).
Proof.
  intros H. unfold bsm_coef. set (N := length (bnb b)) in *. rewrite (proj2 (Nat.eqb_neq (N - 1 + m) 0)) by lia. cbv zeta.
  replace (N - 1 + m)%nat with (m - 1 + 1 * N)%nat by lia. rewrite Nat.div_add, Nat.mod_add by lia.
  rewrite Nat.div_small, Nat.mod_small by lia. replace (m - 1 + (0 + 1))%nat with m by lia. reflexivity.
Qed.
Lemma coef_exp n b k l : bexp b = true -> (0 < l < length (bnb b))%nat -> bsm_coef n b k l = csub (e_sum n b k l) (cre (dshift b)).
Proof.
  intros He H. rewrite coef_lt by exact H. unfold coeff_fun. rewrite He. unfold e_sum, dshift. destruct (bcos b).
  - transitivity (cadd (csum (bops b) (fun s => cexp (2 * PI * dot n k (rot n s (nb (bnb b) l))))) (cmul (cre (-1)) (csum (bops b) (fun _ => cre 1)))).
    + rewrite <- csum_mul_l, <- csum_add. apply csum_ext. intros. csolve.
    + rewrite csum_one. unfold nops. csolve.
  - transitivity (e_sum n b k l); [reflexivity|]. unfold e_sum. csolve.
Qed.
Lemma coef_cos n b k l : bexp b = false -> (0 < l < length (bnb b))%nat -> bsm_coef n b k l = cre (c_sum n b k l - dshift b).
Proof.
  intros He H. rewrite coef_lt by exact H. unfold coeff_fun. rewrite He. unfold c_sum, dshift. destruct (bcos b).
  - transitivity (cadd (csum (bops b) (fun s => cre (cos (2 * PI * dot n k (rot n s (nb (bnb b) l)))))) (cmul (cre (-1)) (csum (bops b) (fun _ => cre 1)))).
    + rewrite <- csum_mul_l, <- csum_add. apply csum_ext. intros. csolve.
    + rewrite csum_one, csum_cre. unfold nops. csolve.
  - rewrite csum_cre, Rminus_0_r. reflexivity.
Qed.
Lemma coef_sin n b k m : bexp b = false -> (0 < m < length (bnb b))%nat ->
  bsm_coef n b k (length (bnb b) - 1 + m)%nat = cre (s_sum n b k m).
Proof.
  intros He H. rewrite coef_ge by exact H. unfold coeff_fun. rewrite He. rewrite csum_cre. reflexivity.
Qed.

Lemma nth_add_first (x : cmat) p l : (0 < l)%nat -> nth l (add_first x p) fzero = nth l p fzero.
Proof. destruct p, l; intros; [reflexivity|reflexivity|lia|reflexivity]. Qed.
Lemma nth0_add_first (x : cmat) p : p <> [] -> nth 0 (add_first x p) fzero = fadd (K:=Cs) (nth 0 p fzero) x.
Proof. destruct p; [congruence|reflexivity]. Qed.
Lemma length_add_first (x : cmat) p : length (add_first x p) = length p.
Proof. destruct p; reflexivity. Qed.

(** the value of f after set_params_complex, all conventions without inversion *)
Definition hsumH (H : list cmat) i j : cplx := csum (seq 1 (length H - 1)) (fun l => cadd (nth l H fzero i j) (cconj (nth l H fzero j i))).
Definition target n (b : bsm) k (H : list cmat) i j : cplx :=
  cadd (nth 0 H fzero i j)
       (csum (seq 1 (length H - 1)) (fun l => cadd (cmul (e_sum n b k l) (nth l H fzero i j))
                                               (cmul (cconj (e_sum n b k l)) (cconj (nth l H fzero j i))))).
Lemma herm_join c P i j : herm_series c P i j =
  cadd (csum (seq 1 (length P - 1)) (fun l => cadd (cmul (c l) (nth l P fzero i j)) (cmul (cconj (c l)) (cconj (nth l P fzero j i)))))
       (cmul (c 0%nat) (nth 0 P fzero i j)).
Proof. rewrite herm_entry, csum_add. reflexivity. Qed.
Lemma bsm_coef0 n b k : bsm_coef n b k 0 = cre 1. Proof. reflexivity. Qed.

(** nonempty coefficient list *)
Lemma sum_herm_entry (p : list cmat) i j : sum_herm p i j = csum p (fun x => cadd (x i j) (cconj (x j i))).
Proof. reflexivity. Qed.

Lemma bsm_f_exp n b k H b' i j : bexp b = true -> set_params_complex b H = Some b' -> H <> [] ->
  bsm_f n b' k i j = cadd (target n b k H i j) (cmul (cre (if bcos b then 1 - nops b else 0)) (hsumH H i j)).
Proof.
  intros He Hs Hne. unfold set_params_complex in Hs.
  destruct (Nat.eqb_spec (length H) (length (bnb b))) as [HL|]; cbn [negb] in Hs; [|discriminate Hs].
  rewrite He in Hs. injection Hs as <-. unfold bsm_f. cbn [bparams set_params].
  set (P := if bcos b then add_first (sum_herm (tl H)) H else H).
  assert (LP : length P = length H) by (unfold P; destruct (bcos b); [apply length_add_first|reflexivity]).
  assert (NP : forall l, (0 < l)%nat -> nth l P fzero = nth l H fzero).
  { intros l Hl. unfold P. destruct (bcos b); [apply nth_add_first; exact Hl|reflexivity]. }
  rewrite herm_join, LP. unfold target, hsumH.
  rewrite (csum_ext _ _ (fun l => cadd (cadd (cmul (e_sum n b k l) (nth l H fzero i j)) (cmul (cconj (e_sum n b k l)) (cconj (nth l H fzero j i))))
       (cmul (cre (- dshift b)) (cadd (nth l H fzero i j) (cconj (nth l H fzero j i)))))).
  2:{ intros l Hl. apply in_seq in Hl. rewrite NP by lia.
      change (bsm_coef n (set_params b P) k l) with (bsm_coef n b k l).
      rewrite coef_exp by (assumption || lia). csolve. }
  rewrite csum_add, csum_mul_l. change (bsm_coef n (set_params b P) k 0) with (cre 1).
  unfold P, dshift. destruct (bcos b).
  - rewrite nth0_add_first by exact Hne. unfold fadd. change (@sadd Cs) with cadd. rewrite sum_herm_entry.
    rewrite (csum_tl H fzero). set (X := csum _ (fun l => cadd _ (cconj _))). csolve.
  - csolve.
Qed.

Lemma nth_mapf (f : cmat -> cmat) l (H : list cmat) : (l < length H)%nat -> nth l (map f H) fzero = f (nth l H fzero).
Proof. intro Hl. rewrite (nth_indep _ fzero (f fzero)) by (rewrite map_length; exact Hl). apply map_nth. Qed.
Definition Amat (h : cmat) : cmat := fscale (K:=Cs) chalf (fadd (K:=Cs) h (fadj (K:=Cs) h)).
Definition Bmat (h : cmat) : cmat := fscale (K:=Cs) chalf (fscale (K:=Cs) ci (fadd (K:=Cs) h (fneg (fadj (K:=Cs) h)))).
Lemma nth_tl {A} (H : list A) l d0 : nth l (tl H) d0 = nth (S l) H d0.
Proof. destruct H; [destruct l; reflexivity|reflexivity]. Qed.
Lemma length_tl {A} (H : list A) : length (tl H) = (length H - 1)%nat.
Proof. destruct H; simpl; lia. Qed.
Lemma firstn_tl_app {A} (x y : list A) : x <> [] -> firstn (length x - 1) (tl (x ++ y)) = tl x.
Proof.
  destruct x as [|a x]; [congruence|]. intros _. cbn [app tl length]. replace (S (length x) - 1)%nat with (length x) by lia.
  rewrite firstn_app, Nat.sub_diag, firstn_all. simpl. apply app_nil_r.
Qed.
Lemma csum_tl_map (f : cmat -> cmat) (H : list cmat) i j : csum (tl (map f H)) (fun x => x i j) = csum (tl H) (fun h => f h i j).
Proof. destruct H as [|h H]; [reflexivity|]. cbn [map tl]. apply csum_map. Qed.

Lemma bsm_f_cossin n b k H b' d i j : bexp b = false -> binv b = false -> set_params_complex b H = Some b' -> H <> [] ->
  feq (K:=Cs) d d (fadj (K:=Cs) (nth 0 H fzero)) (nth 0 H fzero) -> (i < d)%nat -> (j < d)%nat ->
  bsm_f n b' k i j = cadd (target n b k H i j) (cmul (cre (if bcos b then 1 - nops b else 0)) (hsumH H i j)).
Proof.
  intros He Hinv Hs Hne Hh Hi Hj. unfold set_params_complex in Hs.
  destruct (Nat.eqb_spec (length H) (length (bnb b))) as [HL|]; cbn [negb] in Hs; [|discriminate Hs].
  rewrite He, Hinv in Hs. injection Hs as <-. unfold bsm_f. cbn [bparams set_params].
  change (fun h => fscale (K:=Cs) chalf (fadd (K:=Cs) h (fadj (K:=Cs) h))) with Amat.
  change (fun h => fscale (K:=Cs) chalf (fscale (K:=Cs) ci (fadd (K:=Cs) h (fneg (fadj (K:=Cs) h))))) with Bmat.
  set (P0 := map Amat H ++ map Bmat (tl H)).
  match goal with |- herm_series ?c ?p _ _ = _ => set (P := p) end.
  assert (Hpos : (0 < length H)%nat) by (destruct H; [congruence|simpl; lia]).
  assert (LP : length P = (length H + (length H - 1))%nat).
  { unfold P, P0. destruct (bcos b); [rewrite length_add_first|]; rewrite app_length, !map_length, length_tl; reflexivity. }
  assert (NPa : forall l, (0 < l < length H)%nat -> nth l P fzero = Amat (nth l H fzero)).
  { intros l Hl. unfold P. transitivity (nth l P0 fzero).
    - destruct (bcos b); [apply nth_add_first; lia|reflexivity].
    - unfold P0. rewrite app_nth1 by (rewrite map_length; lia). apply nth_mapf. lia. }
  assert (NPb : forall m, (0 < m < length H)%nat -> nth (length H - 1 + m) P fzero = Bmat (nth m H fzero)).
  { intros m Hm. unfold P. transitivity (nth (length H - 1 + m) P0 fzero).
    - destruct (bcos b); [apply nth_add_first; lia|reflexivity].
    - unfold P0. rewrite app_nth2 by (rewrite map_length; lia). rewrite map_length.
      replace (length H - 1 + m - length H)%nat with (m - 1)%nat by lia.
      rewrite nth_mapf by (rewrite length_tl; lia). rewrite nth_tl. f_equal. f_equal. lia. }
  assert (NP0 : nth 0 P fzero i j = cadd (nth 0 H fzero i j) (cmul (cre (if bcos b then 1 else 0)) (hsumH H i j))).
  { assert (E0 : nth 0 P0 fzero i j = nth 0 H fzero i j).
    { unfold P0. rewrite app_nth1 by (rewrite map_length; lia). rewrite nth_mapf by lia. unfold Amat, fscale, fadd.
      rewrite (Hh i j Hi Hj). change (@smul Cs) with cmul. change (@sadd Cs) with cadd. unfold chalf. csolve. }
    unfold P. destruct (bcos b).
    - rewrite nth0_add_first by (unfold P0; destruct H; [congruence|discriminate]). unfold fadd at 1. rewrite E0.
      change (@sadd Cs) with cadd. f_equal. unfold fscale, fsum. change (@smul Cs) with cmul.
      assert (EL : firstn (length H - 1) (tl P0) = tl (map Amat H)).
      { unfold P0. rewrite <- (map_length Amat H) at 1. apply firstn_tl_app. destruct H; [congruence|discriminate]. }
      rewrite EL, csum_tl_map, (csum_tl H fzero). unfold hsumH. rewrite <- !csum_mul_l. apply csum_ext. intros l _.
      unfold Amat, fscale, fadd, fadj. change (@smul Cs) with cmul. change (@sadd Cs) with cadd. change (@sconj Cs) with cconj.
      unfold chalf. csolve.
    - rewrite E0. csolve. }
  rewrite herm_join, LP, NP0. change (bsm_coef n (set_params b P) k 0) with (cre 1).
  replace (length H + (length H - 1) - 1)%nat with ((length H - 1) + (length H - 1))%nat by lia.
  rewrite seq_app, csum_app. replace (1 + (length H - 1))%nat with (S (length H - 1)) by lia. rewrite (csum_seq_add (length H - 1)), <- csum_add.
  unfold target, hsumH.
  rewrite (csum_ext _ _ (fun l => cadd (cadd (cmul (e_sum n b k l) (nth l H fzero i j)) (cmul (cconj (e_sum n b k l)) (cconj (nth l H fzero j i))))
       (cmul (cre (- dshift b)) (cadd (nth l H fzero i j) (cconj (nth l H fzero j i)))))).
  2:{ intros l Hl. apply in_seq in Hl.
      change (bsm_coef n (set_params b P) k) with (bsm_coef n b k).
      rewrite NPa, NPb by lia. rewrite coef_cos by (assumption || lia). rewrite HL. rewrite coef_sin by (assumption || lia).
      rewrite e_sum_cs. unfold Amat, Bmat, fneg, fscale, fadd, fadj.
      change (@smul Cs) with cmul. change (@sadd Cs) with cadd. change (@sconj Cs) with cconj.
      unfold chalf. csolve. }
  rewrite csum_add, csum_mul_l. set (X := csum _ (fun l => cadd (nth l H fzero i j) (cconj _))). unfold dshift. destruct (bcos b); csolve.
Qed.

(** with inversion symmetry, cos form *)
Lemma bsm_f_inv n b k H b' d i j : bexp b = false -> binv b = true -> set_params_complex b H = Some b' -> H <> [] ->
  feq (K:=Cs) d d (fadj (K:=Cs) (nth 0 H fzero)) (nth 0 H fzero) -> (i < d)%nat -> (j < d)%nat ->
  bsm_f n b' k i j = cadd (cadd (nth 0 H fzero i j)
     (csum (seq 1 (length H - 1)) (fun l => cmul (cre (c_sum n b k l)) (cadd (nth l H fzero i j) (cconj (nth l H fzero j i))))))
     (cmul (cre (if bcos b then 1 - nops b else 0)) (hsumH H i j)).
Proof.
  intros He Hinv Hs Hne Hh Hi Hj. unfold set_params_complex in Hs.
  destruct (Nat.eqb_spec (length H) (length (bnb b))) as [HL|]; cbn [negb] in Hs; [|discriminate Hs].
  rewrite He, Hinv in Hs. injection Hs as <-. unfold bsm_f. cbn [bparams set_params].
  change (fun h => fscale (K:=Cs) chalf (fadd (K:=Cs) h (fadj (K:=Cs) h))) with Amat.
  set (P0 := map Amat H).
  match goal with |- herm_series ?c ?p _ _ = _ => set (P := p) end.
  assert (Hpos : (0 < length H)%nat) by (destruct H; [congruence|simpl; lia]).
  assert (LP : length P = length H).
  { unfold P, P0. destruct (bcos b); [rewrite length_add_first|]; rewrite map_length; reflexivity. }
  assert (NPa : forall l, (0 < l < length H)%nat -> nth l P fzero = Amat (nth l H fzero)).
  { intros l Hl. unfold P. transitivity (nth l P0 fzero).
    - destruct (bcos b); [apply nth_add_first; lia|reflexivity].
    - unfold P0. apply nth_mapf. lia. }
  assert (NP0 : nth 0 P fzero i j = cadd (nth 0 H fzero i j) (cmul (cre (if bcos b then 1 else 0)) (hsumH H i j))).
  { assert (E0 : nth 0 P0 fzero i j = nth 0 H fzero i j).
    { unfold P0. rewrite nth_mapf by lia. unfold Amat, fscale, fadd.
      rewrite (Hh i j Hi Hj). change (@smul Cs) with cmul. change (@sadd Cs) with cadd. unfold chalf. csolve. }
    unfold P. destruct (bcos b).
    - rewrite nth0_add_first by (unfold P0; destruct H; [congruence|discriminate]). unfold fadd at 1. rewrite E0.
      change (@sadd Cs) with cadd. f_equal. unfold fscale, fsum. change (@smul Cs) with cmul.
      assert (EL : firstn (length H - 1) (tl P0) = tl (map Amat H)).
      { unfold P0. apply firstn_all2. rewrite length_tl, map_length. lia. }
      rewrite EL, csum_tl_map, (csum_tl H fzero). unfold hsumH. rewrite <- !csum_mul_l. apply csum_ext. intros l _.
      unfold Amat, fscale, fadd, fadj. change (@smul Cs) with cmul. change (@sadd Cs) with cadd. change (@sconj Cs) with cconj.
      unfold chalf. csolve.
    - rewrite E0. csolve. }
  rewrite herm_join, LP, NP0. change (bsm_coef n (set_params b P) k 0) with (cre 1). unfold hsumH.
  rewrite (csum_ext _ _ (fun l => cadd (cmul (cre (c_sum n b k l)) (cadd (nth l H fzero i j) (cconj (nth l H fzero j i))))
       (cmul (cre (- dshift b)) (cadd (nth l H fzero i j) (cconj (nth l H fzero j i)))))).
  2:{ intros l Hl. apply in_seq in Hl.
      change (bsm_coef n (set_params b P) k) with (bsm_coef n b k).
      rewrite NPa by lia. rewrite coef_cos by (assumption || lia). unfold Amat, fscale, fadd, fadj.
      change (@smul Cs) with cmul. change (@sadd Cs) with cadd. change (@sconj Cs) with cconj.
      unfold chalf. csolve. }
  rewrite csum_add, csum_mul_l. set (X := csum _ (fun l => cadd (nth l H fzero i j) (cconj _))). unfold dshift. destruct (bcos b); csolve.
Qed.

(** params_complex after set_params_complex *)
Definition hherm (d : nat) (x : cmat) : Prop := feq (K:=Cs) d d (fadj (K:=Cs) x) x.
Lemma sum_herm_A (p : list cmat) i j : sum_herm (map Amat p) i j = csum p (fun h => cadd (h i j) (cconj (h j i))).
Proof.
  rewrite sum_herm_entry, csum_map. apply csum_ext. intros h _. unfold Amat, fscale, fadd, fadj.
  change (@smul Cs) with cmul. change (@sadd Cs) with cadd. change (@sconj Cs) with cconj. unfold chalf. csolve.
Qed.
Lemma two_sum_A (p : list cmat) i j : fscale (K:=Cs) (cre 2) (fsum (K:=Cs) (map Amat p) (fun x => x)) i j = csum p (fun h => cadd (h i j) (cconj (h j i))).
Proof.
  unfold fscale, fsum. change (@smul Cs) with cmul. rewrite csum_map, <- csum_mul_l. apply csum_ext. intros h _. unfold Amat, fscale, fadd, fadj.
  change (@smul Cs) with cmul. change (@sadd Cs) with cadd. change (@sconj Cs) with cconj. unfold chalf. csolve.
Qed.
Lemma Amat_herm d h : hherm d h -> feq (K:=Cs) d d (Amat h) h.
Proof.
  intros Hh i j Hi Hj. unfold Amat, fscale, fadd. rewrite (Hh i j Hi Hj). change (@smul Cs) with cmul. change (@sadd Cs) with cadd. unfold chalf. csolve.
Qed.
Lemma Forall2_refl_feq d (l : list cmat) : Forall2 (feq (K:=Cs) d d) l l.
Proof. induction l; constructor; [intros i j _ _; reflexivity|assumption]. Qed.
Lemma fneg_entry x i j : fneg x i j = copp (x i j).
Proof. unfold fneg, fscale. change (@smul Cs) with cmul. csolve. Qed.

Lemma params_roundtrip_noinv d b H b' : set_params_complex b H = Some b' -> H <> [] -> binv b = false ->
  hherm d (nth 0 H fzero) -> Forall2 (feq (K:=Cs) d d) (params_complex b') H.
Proof.
  intros Hs Hne Hinv Hh. unfold set_params_complex in Hs.
  destruct (Nat.eqb (length H) (length (bnb b))); cbn [negb] in Hs; [|discriminate Hs].
  injection Hs as <-. unfold params_complex. cbn [bparams bexp bcos binv set_params].
  destruct H as [|h0 H]; [congruence|]. cbn [nth] in Hh. rewrite Hinv. cbn [negb].
  change (fun h => fscale (K:=Cs) chalf (fadd (K:=Cs) h (fadj (K:=Cs) h))) with Amat.
  change (fun h => fscale (K:=Cs) chalf (fscale (K:=Cs) ci (fadd (K:=Cs) h (fneg (fadj (K:=Cs) h))))) with Bmat.
  destruct (bexp b).
  - destruct (bcos b); [|apply Forall2_refl_feq]. cbn [add_first tl]. constructor; [|apply Forall2_refl_feq].
    intros i j _ _. unfold fadd. rewrite fneg_entry. change (@sadd Cs) with cadd. set (x := sum_herm H i j). csolve.
  - cbn [map tl app length]. replace (S (length H) - 1)%nat with (length H) by lia.
    match goal with |- context [length (if bcos b then ?x else ?y)] => set (P := if bcos b then x else y) end.
    assert (EP : P = (if bcos b then fadd (K:=Cs) (Amat h0) (fscale (K:=Cs) (cre 2) (fsum (K:=Cs) (map Amat H) (fun x => x))) else Amat h0)
                     :: map Amat H ++ map Bmat H).
    { unfold P. destruct (bcos b); [|reflexivity]. cbn [add_first]. do 3 f_equal.
      rewrite <- (map_length Amat H) at 1. rewrite firstn_app, Nat.sub_diag, firstn_all. cbn [firstn]. rewrite app_nil_r. reflexivity. }
    clearbody P. subst P.
    set (m := ((length _ + 1) / 2)%nat).
    assert (Em : (m - 1)%nat = length H).
    { unfold m. cbn [length]. rewrite app_length, !map_length.
      replace (S (length H + length H) + 1)%nat with (S (length H) * 2)%nat by lia. rewrite Nat.div_mul by lia. lia. }
    rewrite Em. cbn [tl].
    assert (E1 : firstn (length H) (map Amat H ++ map Bmat H) = map Amat H).
    { rewrite <- (map_length Amat H). rewrite firstn_app, Nat.sub_diag, firstn_all. cbn [firstn]. apply app_nil_r. }
    assert (E2 : skipn (length H) (map Amat H ++ map Bmat H) = map Bmat H).
    { rewrite <- (map_length Amat H). rewrite skipn_app, Nat.sub_diag, skipn_all. reflexivity. }
    rewrite E1.
    assert (ET : Forall2 (feq (K:=Cs) d d)
      (map (fun xy : cmat * cmat => fadd (K:=Cs) (fst xy) (fscale (K:=Cs) (copp ci) (snd xy))) (combine (map Amat H) (map Bmat H))) H).
    { clear. induction H as [|h H IH]; [constructor|]. cbn [map combine]. constructor; [|exact IH].
      intros i j _ _. cbn [fst snd]. unfold Amat, Bmat, fneg, fscale, fadd, fadj.
      change (@smul Cs) with cmul. change (@sadd Cs) with cadd. change (@sconj Cs) with cconj. unfold chalf. csolve. }
    destruct (bcos b); cbn [add_first].
    + rewrite E1, E2. constructor; [|exact ET]. intros i j Hi Hj. unfold fadd. rewrite fneg_entry, sum_herm_A.
      rewrite two_sum_A. rewrite (Amat_herm d h0 Hh i j Hi Hj). change (@sadd Cs) with cadd. set (x := csum _ _). csolve.
    + rewrite E1, E2. constructor; [|exact ET]. apply Amat_herm. exact Hh.
Qed.
Lemma params_roundtrip_inv d b H b' : set_params_complex b H = Some b' -> H <> [] -> binv b = true -> bexp b = false ->
  Forall2 (feq (K:=Cs) d d) (params_complex b') (map Amat H).
Proof.
  intros Hs Hne Hinv He. unfold set_params_complex in Hs.
  destruct (Nat.eqb (length H) (length (bnb b))); cbn [negb] in Hs; [|discriminate Hs].
  injection Hs as <-. unfold params_complex. cbn [bparams bexp bcos binv set_params].
  destruct H as [|h0 H]; [congruence|]. rewrite Hinv, He. cbn [negb].
  change (fun h => fscale (K:=Cs) chalf (fadd (K:=Cs) h (fadj (K:=Cs) h))) with Amat.
  destruct (bcos b); [|apply Forall2_refl_feq].
  cbn [map tl add_first length]. replace (S (length H) - 1)%nat with (length H) by lia.
  rewrite firstn_all2 by (rewrite map_length; lia). constructor; [|apply Forall2_refl_feq].
  intros i j _ _. unfold fadd. rewrite fneg_entry, sum_herm_A, two_sum_A. change (@sadd Cs) with cadd. set (x := csum _ _). csolve.
Qed.
(** derivative of the symmetrised coefficient functions *)
Lemma coeff_fun_deriv b part (g : R -> R) x l : is_derive g x l ->
  cderiv (fun t => coeff_fun b part (g t)) x (cmul (cre l) (coeff_dfun b part (g x))).
Proof.
  intro Hg. unfold coeff_fun, coeff_dfun.
  assert (Hcos : cderiv (fun t => cre (cos (g t))) x (cmul (cre l) (cre (- sin (g x))))).
  { pose proof (cderiv_cexp g x l Hg) as [H1 _]. split.
    - replace (fst (cmul (cre l) (cre (- sin (g x))))) with (fst (cmul (cre l) (cmul ci (cexp (g x))))) by (simpl; ring). exact H1.
    - replace (snd (cmul (cre l) (cre (- sin (g x))))) with 0 by (simpl; ring). apply (is_derive_const (K:=R_AbsRing) (V:=R_NormedModule) 0 x). }
  assert (Hsin : cderiv (fun t => cre (sin (g t))) x (cmul (cre l) (cre (cos (g x))))).
  { pose proof (cderiv_cexp g x l Hg) as [_ H2]. split.
    - replace (fst (cmul (cre l) (cre (cos (g x))))) with (snd (cmul (cre l) (cmul ci (cexp (g x))))) by (simpl; ring). exact H2.
    - replace (snd (cmul (cre l) (cre (cos (g x))))) with 0 by (simpl; ring). apply (is_derive_const (K:=R_AbsRing) (V:=R_NormedModule) 0 x). }
  assert (Hsh : forall f m, cderiv f x m -> cderiv (fun t => csub (f t) (cre 1)) x m).
  { intros f m Hf. apply (cderiv_ext (fun t => cadd (f t) (cre (-1)))); [intro t; csolve|].
    replace m with (cadd m (0,0)) by csolve. apply cderiv_add; [exact Hf|apply cderiv_const]. }
  destruct (bexp b); [destruct (bcos b); [apply Hsh|]; apply cderiv_cexp; exact Hg|].
  destruct part; [|exact Hsin]. destruct (bcos b); [apply Hsh|]; exact Hcos.
Qed.
Lemma coeff_dfun_deriv b part (g : R -> R) x l : is_derive g x l ->
  cderiv (fun t => coeff_dfun b part (g t)) x (cmul (cre l) (copp (coeff_nddfun b part (g x)))).
Proof.
  intro Hg. unfold coeff_nddfun, coeff_dfun.
  pose proof (cderiv_cexp g x l Hg) as D. destruct D as [H1 H2].
  destruct (bexp b).
  - apply (cderiv_ext (fun t => cmul (cexp (g t)) ci)); [intro; rg|].
    replace (cmul (cre l) (copp (cexp (g x)))) with (cmul (cmul (cre l) (cmul ci (cexp (g x)))) ci) by csolve.
    apply cderiv_mul_c. split; assumption.
  - destruct part.
    + split.
      * simpl. replace (l * - cos (g x) - 0 * - 0) with (opp (l * cos (g x))) by (unfold opp; simpl; ring).
        apply (is_derive_opp (K:=R_AbsRing) (V:=R_NormedModule) (fun t => sin (g t))).
        replace (l * cos (g x)) with (snd (cmul (cre l) (cmul ci (cexp (g x))))) by (simpl; ring). exact H2.
      * replace (snd _) with 0 by (simpl; ring). apply (is_derive_const (K:=R_AbsRing) (V:=R_NormedModule) 0 x).
    + split.
      * replace (fst _) with (fst (cmul (cre l) (cmul ci (cexp (g x))))) by (simpl; ring). exact H1.
      * replace (snd _) with 0 by (simpl; ring). apply (is_derive_const (K:=R_AbsRing) (V:=R_NormedModule) 0 x).
Qed.
Lemma line_deriv n k v r : is_derive (fun t => 2 * PI * dot n (fun a => k a + t * v a) r) 0 (2 * PI * dot n v r).
Proof.
  apply (is_derive_ext (fun t => 2 * PI * (dot n k r + t * dot n v r))); [intro; rewrite dot_line; reflexivity|].
  apply is_derive_affine.
Qed.
Lemma dot_0 n k v r : dot n (fun a => k a + 0 * v a) r = dot n k r.
Proof. rewrite dot_line. ring. Qed.
Lemma csum_swap {A B} (l1 : list A) (l2 : list B) f : csum l1 (fun a => csum l2 (f a)) = csum l2 (fun b => csum l1 (fun a => f a b)).
Proof. apply (ksum_swap Cs). Qed.
Lemma bsm_coef_deriv n b k v l : cderiv (fun t => bsm_coef n b (fun a => k a + t * v a) l) 0
  (csum (seq 0 n) (fun a => cmul (cre (v a)) (bsm_dcoef n b k a l))).
Proof.
  unfold bsm_coef, bsm_dcoef. destruct (Nat.eqb l 0).
  - rewrite csum_zero; [apply cderiv_const|]. intros. csolve.
  - cbv zeta. set (r := nb (bnb b) _). set (part := (l / _)%nat).
    pose proof (cderiv_ksum (bops b) (fun s t => coeff_fun b part (2 * PI * dot n (fun a => k a + t * v a) (rot n s r))) 0
      (fun s => cmul (cre (2 * PI * dot n v (rot n s r))) (coeff_dfun b part (2 * PI * dot n k (rot n s r))))) as D.
    match type of D with _ -> cderiv _ _ ?y => match goal with |- cderiv _ _ ?x => replace x with y end end.
    + apply D. intros s _. pose proof (coeff_fun_deriv b part _ 0 _ (line_deriv n k v (rot n s r))) as D1. cbv beta in D1.
      rewrite dot_0 in D1. exact D1.
    + rewrite (csum_ext (seq 0 n) _ (fun a => csum (bops b) (fun s => cmul (cmul (cre (v a * rot n s r a)) (cre (2 * PI)))
         (coeff_dfun b part (2 * PI * dot n k (rot n s r)))))).
      2:{ intros a _. rewrite <- csum_mul_r, <- csum_mul_l. apply csum_ext. intros s _. rewrite (cre_mul (v a)). rg. }
      rewrite csum_swap. apply csum_ext. intros s _. rewrite csum_mul_r. f_equal. rewrite csum_mul_r, cre_mul.
      unfold dot at 1. rewrite cre_ksum. unfold nsum. rg.
Qed.
Lemma bsm_dcoef_deriv n b k v c l : cderiv (fun t => bsm_dcoef n b (fun a => k a + t * v a) c l) 0
  (csum (seq 0 n) (fun a => cmul (cre (v a)) (bsm_ddcoef n b k a c l))).
Proof.
  unfold bsm_dcoef, bsm_ddcoef. destruct (Nat.eqb l 0).
  - rewrite csum_zero; [apply cderiv_const|]. intros. csolve.
  - cbv zeta. set (r := nb (bnb b) _). set (part := (l / _)%nat).
    pose proof (cderiv_ksum (bops b) (fun s t => cmul (coeff_dfun b part (2 * PI * dot n (fun a => k a + t * v a) (rot n s r))) (cre (rot n s r c))) 0
      (fun s => cmul (cmul (cre (2 * PI * dot n v (rot n s r))) (copp (coeff_nddfun b part (2 * PI * dot n k (rot n s r))))) (cre (rot n s r c)))) as D.
    match goal with |- cderiv _ _ ?x => replace x with (cmul (csum (bops b)
      (fun s => cmul (cmul (cre (2 * PI * dot n v (rot n s r))) (copp (coeff_nddfun b part (2 * PI * dot n k (rot n s r))))) (cre (rot n s r c)))) (cre (2 * PI))) end.
    + apply (cderiv_mul_c (fun t => csum (bops b) (fun s => cmul (coeff_dfun b part (2 * PI * dot n (fun a => k a + t * v a) (rot n s r))) (cre (rot n s r c))))).
      apply D. intros s _. pose proof (coeff_dfun_deriv b part _ 0 _ (line_deriv n k v (rot n s r))) as D1. cbv beta in D1.
      rewrite dot_0 in D1. apply (cderiv_mul_c (fun t => coeff_dfun b part (2 * PI * dot n (fun a => k a + t * v a) (rot n s r)))). exact D1.
    + rewrite (csum_ext (seq 0 n) _ (fun a => csum (bops b) (fun s => cmul (cre (v a * rot n s r a))
         (cmul (cmul (cre (2 * PI)) (cre (2 * PI))) (cmul (copp (coeff_nddfun b part (2 * PI * dot n k (rot n s r)))) (cre (rot n s r c))))))).
      2:{ intros a _. rewrite <- csum_mul_r, <- csum_mul_l. apply csum_ext. intros s _. rewrite !cre_mul. rg. }
      rewrite csum_swap, <- csum_mul_r. apply csum_ext. intros s _. rewrite csum_mul_r, cre_mul.
      unfold dot at 1. rewrite cre_ksum. unfold nsum. rg.
Qed.
Lemma bsm_f_deriv n b k v i j : (0 < length (bparams b))%nat ->
  cderiv (fun t => bsm_f n b (fun a => k a + t * v a) i j) 0
         (csum (seq 0 n) (fun a => cmul (cre (v a)) (bsm_df n b k a i j))).
Proof.
  intro H0. unfold bsm_df. rewrite <- (herm_series_rlin (seq 0 n) v (fun a => bsm_dcoef n b k a)).
  apply (cderiv_herm (fun t => bsm_coef n b (fun a => k a + t * v a))); [|exact H0].
  intros l _. apply bsm_coef_deriv.
Qed.
Lemma bsm_df_deriv n b k v c i j : (0 < length (bparams b))%nat ->
  cderiv (fun t => bsm_df n b (fun a => k a + t * v a) c i j) 0
         (csum (seq 0 n) (fun a => cmul (cre (v a)) (bsm_ddf n b k a c i j))).
Proof.
  intro H0. unfold bsm_ddf. rewrite <- (herm_series_rlin (seq 0 n) v (fun a => bsm_ddcoef n b k a c)).
  apply (cderiv_herm (fun t => bsm_dcoef n b (fun a => k a + t * v a) c)); [|exact H0].
  intros l _. apply bsm_dcoef_deriv.
Qed.

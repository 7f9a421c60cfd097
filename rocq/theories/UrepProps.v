(** Properties C20-C23: unitary representations (unitary_representations.py) *)
From Coq Require Import List Arith ZArith Lia Bool Permutation Setoid Morphisms.
Import ListNotations.
From Verif Require Import SRing LMat FMat FinGroup SymModel SymGenProofs SymInitProofs UrepModel UrepProofs UrepGenProofs.

(** ** specification *)
Section Spec.
Context {K : sring}.
Open Scope sring_scope.
(** the representation stores the matrix [u] for the operation [s] *)
Definition assigns (r : urep K) (s : zmat) (u : fmat K) : Prop :=
  exists k, nth_error (sops (usym r)) k = Some s /\ nth_error (uU r) k = Some u.
(** s -> U(s) is defined on products and multiplicative *)
Definition multiplicative (n d : nat) (asg : zmat -> fmat K -> Prop) : Prop :=
  forall s1 u1 s2 u2, asg s1 u1 -> asg s2 u2 ->
    (exists w, asg (zmul n s1 s2) w) /\
    forall w, asg (zmul n s1 s2) w -> forall i j, i < d -> j < d -> w i j = nsum d (fun l => u1 i l * u2 l j).
(** basis function i is even under inversion iff i < split; inversion acts as diag(1,..,1,-1,..,-1) *)
Definition parity (split i : nat) : K := if Nat.ltb i split then 1 else - (1).
Definition inv_commutes (d split : nat) (u : fmat K) : Prop :=
  forall i j, i < d -> j < d -> parity split i * u i j = u i j * parity split j.
(** W is the block diagonal matrix of A (d1 x d1) and B (d2 x d2) *)
Definition is_block (d1 d2 : nat) (A B W : fmat K) : Prop :=
  (forall i j, i < d1 -> j < d1 -> W i j = A i j) /\
  (forall i j, i < d2 -> j < d2 -> W (d1 + i)%nat (d1 + j)%nat = B i j) /\
  (forall i j, i < d1 -> j < d2 -> W i (d1 + j)%nat = 0 /\ W (d1 + j)%nat i = 0).
Definition rep_shape (r : urep K) : Prop := length (uU r) = length (sops (usym r)) /\ usplit r <= udim r.
End Spec.

Section Thms.
Context {K : sring}.
Open Scope sring_scope.
Add Ring Krp : (s_rt K).
Variable ueqb : nat -> fmat K -> fmat K -> bool.
Hypothesis ueqb_spec : forall d a b, ueqb d a b = true <-> feq d d a b.

Lemma assigns_pairs (r : urep K) s u : assigns r s u <-> In (s, u) (pairs r).
Proof. unfold assigns, pairs. rewrite In_combine. reflexivity. Qed.
Lemma inv_mul_l d sp (u : fmat K) i j : i < d -> fmul d (inv_mat sp) u i j = parity sp i * u i j.
Proof.
  intros Hi. unfold fmul. rewrite (nsum_single K d i); [|exact Hi|].
  - unfold inv_mat, parity. rewrite Nat.eqb_refl. reflexivity.
  - intros k _ Hne. unfold inv_mat. rewrite (proj2 (Nat.eqb_neq i k)) by congruence. ring.
Qed.
Lemma inv_mul_r d sp (u : fmat K) i j : j < d -> fmul d u (inv_mat sp) i j = u i j * parity sp j.
Proof.
  intros Hj. unfold fmul. rewrite (nsum_single K d j); [|exact Hj|].
  - unfold inv_mat, parity. rewrite Nat.eqb_refl. reflexivity.
  - intros k _ Hne. unfold inv_mat. rewrite (proj2 (Nat.eqb_neq k j)) by congruence. ring.
Qed.
Lemma inv_commutes_feq d sp (u : fmat K) : feq d d (fmul d (inv_mat sp) u) (fmul d u (inv_mat sp)) <-> inv_commutes d sp u.
Proof.
  split; intros H i j Hi Hj; specialize (H i j Hi Hj);
    [rewrite inv_mul_l, inv_mul_r in H|rewrite inv_mul_l, inv_mul_r]; assumption.
Qed.

(** ** C20: check() decides exactly the homomorphism property and the compatibility with inversion *)
Theorem C20_check_iff_homomorphism : forall r : urep K,
  urep_check ueqb r = true <->
  multiplicative (sdim (usym r)) (udim r) (assigns r) /\
  (sinv (usym r) = true -> forall u, In u (uU r) -> inv_commutes (udim r) (usplit r) u).
Proof.
  intro r. rewrite (urep_check_spec ueqb ueqb_spec). split; intros [H1 H2]; split.
  - intros s1 u1 s2 u2 A B. apply assigns_pairs in A, B. destruct (H1 _ _ _ _ A B) as [[w W] U]. split.
    + exists w. apply assigns_pairs; exact W.
    + intros w' W' i j Hi Hj. apply assigns_pairs in W'. apply (U w' W' i j Hi Hj).
  - intros Hi u Hu. apply inv_commutes_feq. auto.
  - intros s1 u1 s2 u2 A B. apply assigns_pairs in A, B. destruct (H1 _ _ _ _ A B) as [[w W] U]. split.
    + exists w. apply assigns_pairs; exact W.
    + intros w' W' i j Hi Hj. apply assigns_pairs in W'. apply (U w' W' i j Hi Hj).
  - intros Hi u Hu. apply inv_commutes_feq. auto.
Qed.

(** ** C23: match_sym *)
Theorem C23_match_sym_reorders : forall (r : urep K) g r', rep_shape r -> urep_match r g = Some r' ->
  usym r' = g /\ udim r' = udim r /\ usplit r' = usplit r /\ length (uU r') = length (sops g) /\
  forall s u, assigns r' s u <-> assigns r s u.
Proof.
  intros r g r' [Hl _] H. pose proof (urep_match_length _ _ _ H) as Hlen.
  pose proof (urep_match_inv _ _ _ H) as [_ [_ [_ [o [_ [_ E]]]]]].
  split; [rewrite E; reflexivity|]. split; [rewrite E; reflexivity|]. split; [rewrite E; reflexivity|].
  split; [exact Hlen|]. intros s u. rewrite !assigns_pairs. apply (urep_match_pairs _ _ _ _ _ Hl H).
Qed.
(** ... and it succeeds exactly when both lists are duplicate-free orderings of the same set of operations with
    the same inversion flag; otherwise it raises *)
Theorem C23_match_sym_succeeds_iff : forall (r : urep K) g,
  (exists r', urep_match r g = Some r') <->
  NoDup (sops (usym r)) /\ Permutation (sops g) (sops (usym r)) /\ sdim g = sdim (usym r) /\ sinv g = sinv (usym r).
Proof.
  intros r g. split.
  - intros [r' H]. pose proof (urep_match_perm _ _ _ H) as [_ [N P]].
    pose proof (urep_match_inv _ _ _ H) as [_ [A [B _]]]. auto.
  - intros [A [B [C D]]]. apply urep_match_some; assumption.
Qed.

(** ** C21: sums and multiples *)
Lemma is_block_dsum d1 d2 (A B W : fmat K) : feq (d1 + d2) (d1 + d2) W (dsum d1 A B) -> is_block d1 d2 A B W.
Proof.
  intro H. split; [|split].
  - intros i j Hi Hj. rewrite H by lia. unfold dsum. rewrite (proj2 (Nat.ltb_lt _ _) Hi), (proj2 (Nat.ltb_lt _ _) Hj). reflexivity.
  - intros i j Hi Hj. rewrite H by lia. unfold dsum.
    rewrite (proj2 (Nat.ltb_ge (d1 + i) d1)), (proj2 (Nat.leb_le d1 (d1 + i))), (proj2 (Nat.leb_le d1 (d1 + j))) by lia.
    cbn [andb]. f_equal; lia.
  - intros i j Hi Hj. rewrite !H by lia. unfold dsum.
    rewrite (proj2 (Nat.ltb_lt i d1)), (proj2 (Nat.ltb_ge (d1 + j) d1)), (proj2 (Nat.leb_gt d1 i)) by lia.
    cbn [andb]. rewrite andb_false_r. split; reflexivity.
Qed.
Variable cast : K -> K.
(** the entries survive the storage in a float array: [cast] (the real part) does not change them *)
Definition real_rep (r : urep K) : Prop := forall u, In u (uU r) -> forall i j, i < udim r -> j < udim r -> cast (u i j) = u i j.

Theorem C21_sum_partial : forall a b c : urep K, cast 0 = 0 -> rep_shape a -> rep_shape b -> real_rep a -> real_rep b ->
  urep_check ueqb a = true -> urep_check ueqb b = true -> urep_add cast a b = Some c ->
  urep_check ueqb c = true /\ rep_shape c /\ udim c = (udim a + udim b)%nat /\ usym c = usym a /\
  (** in one of the two orders, all matrices are block diagonal and the parities of c are those of a and b *)
  (((forall s ua ub w, assigns a s ua -> assigns b s ub -> assigns c s w -> is_block (udim a) (udim b) ua ub w) /\
    (forall i, i < udim a -> (i < usplit c <-> i < usplit a)) /\
    (forall i, i < udim b -> ((udim a + i)%nat < usplit c <-> i < usplit b))) \/
   ((forall s ua ub w, assigns a s ua -> assigns b s ub -> assigns c s w -> is_block (udim b) (udim a) ub ua w) /\
    (forall i, i < udim b -> (i < usplit c <-> i < usplit b)) /\
    (forall i, i < udim a -> ((udim b + i)%nat < usplit c <-> i < usplit a)))).
Proof.
  intros a b0 c H0 [La Sa] [Lb Sb] Ra Rb Ka Kb H.
  split; [apply (urep_add_check ueqb ueqb_spec cast a b0 c); assumption|].
  apply urep_add_inv in H. destruct H as [b [sw [Hm [Ho Hc]]]].
  pose proof (urep_match_length _ _ _ Hm) as Hlb.
  pose proof (urep_match_perm _ _ _ Hm) as [Na _].
  pose proof (urep_match_inv _ _ _ Hm) as [_ [_ [_ [o [_ [_ Hb]]]]]].
  assert (Eb : usym b = usym a) by (rewrite Hb; reflexivity).
  assert (Db : udim b = udim b0) by (rewrite Hb; reflexivity).
  assert (Pb : usplit b = usplit b0) by (rewrite Hb; reflexivity).
  assert (Hpb : forall s u, assigns b s u <-> assigns b0 s u).
  { intros s u. rewrite !assigns_pairs. apply (urep_match_pairs _ _ _ _ _ Lb Hm). }
  assert (Cb : forall u, In u (uU b) -> castable cast (udim b) u).
  { intros u Hu. rewrite Db. unfold real_rep in Rb. unfold castable. apply Rb. apply In_nth_error in Hu. destruct Hu as [k Hk].
    destruct (nth_error_len_eq _ (sops (usym a)) k u Hlb Hk) as [s Hs].
    assert (assigns b s u) as X by (exists k; rewrite Eb; auto). apply Hpb in X. destruct X as [k' [_ X]].
    eapply nth_error_In; exact X. }
  destruct (add_pairs cast a b sw Eb La Hlb H0 Ra Cb) as [Hp Hlc]. rewrite <- Hc in Hp, Hlc.
  assert (Hs2 := add_order_split a b sw Sa ltac:(lia) Ho).
  assert (Ec : usym c = usym a) by (rewrite Hc; reflexivity).
  assert (Dc : udim c = (udim a + udim b)%nat) by (rewrite Hc; reflexivity).
  assert (Pc : usplit c = (usplit a + usplit b)%nat) by (rewrite Hc; reflexivity).
  assert (Hblk : forall s ua ub w, assigns a s ua -> assigns b0 s ub -> assigns c s w ->
     feq (udim a + udim b) (udim a + udim b) w (dsum (fst_sum sw (udim a) (udim b)) (fst_sum sw ua ub) (snd_sum sw ua ub))).
  { intros s ua ub w [ka [A1 A2]] B [kc [C1 C2]]. apply Hpb in B. destruct B as [kb [B1 B2]]. rewrite Ec in C1. rewrite Eb in B1.
    destruct (Hp kc s w C1 C2) as [ua' [ub' [E1 [E2 F]]]].
    assert (ka = kc). { apply (proj1 (NoDup_nth_error _) Na); [apply nth_error_Some; congruence|congruence]. }
    assert (kb = kc). { apply (proj1 (NoDup_nth_error _) Na); [apply nth_error_Some; congruence|congruence]. }
    subst ka kb. replace ua with ua' by congruence. replace ub with ub' by congruence. exact F. }
  split; [split; [rewrite Ec; exact Hlc|lia]|]. split; [lia|]. split; [exact Ec|].
  destruct sw; cbn [fst_sum snd_sum] in *.
  - right. split; [|split; intros; lia].
    intros s ua ub w A B C. apply is_block_dsum. rewrite <- Db, (Nat.add_comm (udim b)). apply (Hblk s); assumption.
  - left. split; [|split; intros; lia].
    intros s ua ub w A B C. apply is_block_dsum. rewrite <- Db. apply (Hblk s); assumption.
Qed.

(** the sum is defined when the operations agree and one of the summands has a single parity *)
Theorem C21_sum_defined : forall a b : urep K, NoDup (sops (usym b)) -> Permutation (sops (usym a)) (sops (usym b)) ->
  sdim (usym a) = sdim (usym b) -> sinv (usym a) = sinv (usym b) ->
  (usplit a = 0%nat \/ usplit a = udim a \/ usplit b = 0%nat \/ usplit b = udim b) ->
  exists c, urep_add cast a b = Some c.
Proof.
  intros a b H1 H2 H3 H4 H5. destruct (urep_match_some b (usym a) H1 H2 H3 H4) as [b' Hb].
  unfold urep_add. rewrite Hb. pose proof (urep_match_inv _ _ _ Hb) as [_ [_ [_ [o [_ [_ E]]]]]].
  assert (usplit b' = usplit b) as -> by (rewrite E; reflexivity). assert (udim b' = udim b) as -> by (rewrite E; reflexivity).
  repeat match goal with |- context [Nat.eqb ?x ?y] => destruct (Nat.eqb_spec x y) end; eauto. exfalso. tauto.
Qed.

Theorem C21_multiple : forall (a : urep K) m, m <> 0%nat -> rep_shape a -> urep_check ueqb a = true ->
  let c := urep_mul a m in
  urep_check ueqb c = true /\ rep_shape c /\ udim c = (udim a * m)%nat /\ usym c = usym a /\
  (forall k s w, nth_error (sops (usym a)) k = Some s -> nth_error (uU c) k = Some w ->
     exists u, nth_error (uU a) k = Some u /\
     forall q t q' t', t < m -> t' < m -> w (q * m + t)%nat (q' * m + t')%nat = if Nat.eqb t t' then u q q' else 0) /\
  (forall q t, t < m -> ((q * m + t)%nat < usplit c <-> q < usplit a)).
Proof.
  intros a m Hm [La Sa] Ka c. split; [apply urep_mul_check; assumption|].
  split; [split; cbn; [rewrite map_length; exact La|nia]|]. split; [reflexivity|]. split; [reflexivity|]. split.
  - intros k s w Hs Hw. cbn in Hw. rewrite nth_error_map in Hw. destruct (nth_error (uU a) k) as [u|]; [|discriminate Hw].
    injection Hw as <-. exists u. split; [reflexivity|]. intros q t q' t' Ht Ht'. unfold kron_eye.
    rewrite !(Nat.add_comm (_ * m)), !Nat.mod_add, !Nat.div_add, !Nat.mod_small, !Nat.div_small by lia. reflexivity.
  - intros q t Ht. cbn. nia.
Qed.

(** ** C22: from_generator. The generator list is a list of pairs (operation, matrix). *)
Theorem C22_generated_representation_partial : forall n d (G : list (zmat * fmat K)) l uI,
  NoDup (map fst G) -> (forall s u, In (s, u) G -> wfz n s) ->
  In (zeye n, uI) G -> (forall i j, i < d -> j < d -> uI i j = if Nat.eqb i j then 1 else 0) ->
  urep_generate ueqb n d G = UGen l ->
  NoDup (map fst l) /\
  (** the operations are exactly the finite products of the generators *)
  (forall s, In s (map fst l) <-> exists w, (forall g, In g w -> In g (map fst G)) /\ s = fold_right (zmul n) (zeye n) w) /\
  (** multiplicative *)
  multiplicative n d (fun s u => In (s, u) l) /\
  (** extends the generator values *)
  (forall s u, In (s, u) G -> exists w, In (s, w) l /\ forall i j, i < d -> j < d -> w i j = u i j).
Proof.
  intros n d G l uI HN HW HI EI H.
  assert (Hok : gen_ok n d G) by (split; [exact HN|split; [exact HW|exists uI; auto]]).
  assert (HG : forall g, In g (map fst G) -> wfz n g).
  { intros g Hg. apply in_map_iff in Hg. destruct Hg as [[s u] [<- Hg]]. apply (HW _ _ Hg). }
  assert (Hk : keys_gen n (map fst G) G).
  { intros s u Hs. apply (generated_in (zmul n) (zeye n) (wfz n)  (zmul_1_r n)); [apply (HW _ _ Hs)|].
    apply (in_map fst) in Hs. exact Hs. }
  destruct (ugen_loop_ok ueqb ueqb_spec n d (map fst G) 1000 HG G l Hok Hk H) as [[N [W [w1 [I1 _]]]] [E [M Kg]]].
  split; [exact N|]. split; [|split].
  - intro s. split.
    + intro Hs. apply in_map_iff in Hs. destruct Hs as [[s' u] [<- Hs]]. apply (Kg _ _ Hs).
    + apply (generated_least (zmul n) (zeye n)).
      * apply (in_map fst) in I1. exact I1.
      * intros x y Hx Hy. apply in_map_iff in Hx. destruct Hx as [[x' u] [<- Hx]].
        apply in_map_iff in Hy. destruct Hy as [[y' v] [<- Hy]]. destruct (M _ _ _ _ Hx Hy) as [w [A _]].
        apply (in_map fst) in A. exact A.
      * intros g Hg. apply in_map_iff in Hg. destruct Hg as [[g' u] [<- Hg]]. destruct (E _ _ Hg) as [w [A _]].
        apply (in_map fst) in A. exact A.
  - intros s1 u1 s2 u2 A B. destruct (M _ _ _ _ A B) as [w [C D]]. split; [eauto|].
    intros w' C'. rewrite (keys_unique l _ _ _ N C' C). exact D.
  - intros s u Hs. destruct (E _ _ Hs) as [w [A B]]. exists w. split; [exact A|]. exact B.
Qed.
(** it does return when the generator values come from some multiplicative map and there are fewer than 1000 products *)
Theorem C22_returns : forall n d (G : list (zmat * fmat K)) (rho : zmat -> fmat K) (L : list zmat),
  (forall s u, In (s, u) G -> wfz n s) ->
  let prod x := exists w, (forall g, In g w -> In g (map fst G)) /\ x = fold_right (zmul n) (zeye n) w in
  (forall s, prod s -> In s L) -> length L < 1000 ->
  (forall s t, prod s -> prod t -> feq d d (rho (zmul n s t)) (fmul d (rho s) (rho t))) ->
  (forall s u, In (s, u) G -> feq d d u (rho s)) ->
  exists l, urep_generate ueqb n d G = UGen l.
Proof.
  intros n d G rho L HW prod HL HLn Hr Hu. subst prod.
  assert (HG : forall g, In g (map fst G) -> wfz n g).
  { intros g Hg. apply in_map_iff in Hg. destruct Hg as [[s u] [<- Hg]]. apply (HW _ _ Hg). }
  assert (Hk : keys_gen n (map fst G) G).
  { intros s u Hs. apply (generated_in (zmul n) (zeye n) (wfz n)  (zmul_1_r n)); [apply (HW _ _ Hs)|].
    apply (in_map fst) in Hs. exact Hs. }
  pose proof (ugen_loop_total ueqb ueqb_spec n d (map fst G) rho L 1000 HG HL HLn Hr G Hk Hu) as A.
  assert (ugen_loop ueqb 1000 n d G <> UFuel) as B by (apply ugen_loop_fuel; [apply Nat.le_add_r|intro X; discriminate X]).
  unfold urep_generate. destruct (ugen_loop ueqb 1000 n d G) as [l| |]; [eauto|contradiction|contradiction].
Qed.
End Thms.
Print Assumptions C20_check_iff_homomorphism.
Print Assumptions C21_sum_partial.
Print Assumptions C21_sum_defined.
Print Assumptions C21_multiple.
Print Assumptions C22_generated_representation_partial.
Print Assumptions C22_returns.
Print Assumptions C23_match_sym_reorders.
Print Assumptions C23_match_sym_succeeds_iff.

(** ** Examples over the Gaussian integers: the group C4 in the plane *)
Local Open Scope Z_scope.
Definition geqb (x y : Gs) : bool := Z.eqb (fst x) (fst y) && Z.eqb (snd x) (snd y).
Lemma geqb_spec x y : geqb x y = true <-> x = y.
Proof.
  destruct x as [a b], y as [c e]. unfold geqb. cbn [fst snd]. rewrite andb_true_iff, !Z.eqb_eq. split.
  - intros [-> ->]. reflexivity.
  - intro H. injection H as -> ->. auto.
Qed.
Definition gfeqb (d : nat) (A B : fmat Gs) : bool :=
  forallb (fun i => forallb (fun j => geqb (A i j) (B i j)) (seq 0 d)) (seq 0 d).
Lemma gfeqb_spec d A B : gfeqb d A B = true <-> feq d d A B.
Proof.
  unfold gfeqb, feq. rewrite forallb_forall. split.
  - intros H i j Hi Hj. specialize (H i). rewrite in_seq in H. specialize (H ltac:(lia)).
    rewrite forallb_forall in H. specialize (H j). rewrite in_seq in H. apply geqb_spec, H. lia.
  - intros H i Hi. apply forallb_forall. intros j Hj. apply in_seq in Hi. apply in_seq in Hj. apply geqb_spec, H; lia.
Qed.
(** a matrix given by rows *)
Definition gmat (l : list (list (Z * Z))) : fmat Gs := fun i j => nth j (nth i l []) (0, 0).
Definition r4 (k : nat) : zmat := nth k [[[1;0];[0;1]]; [[0;-1];[1;0]]; [[-1;0];[0;-1]]; [[0;1];[-1;0]]] [].
Definition sym_c4 : sym := MkSym 2 (map r4 [0;1;2;3]%nat) false false.
(** the same group in another order *)
Definition sym_c4' : sym := MkSym 2 (map r4 [0;3;1;2]%nat) false false.
Definition ipow (k : nat) : Z * Z := nth k [(1,0); (0,1); (-1,0); (0,-1)] (0,0).
Definition rep_i : urep Gs := MkUrep sym_c4 1 (map (fun k => gmat [[ipow k]]) [0;1;2;3]%nat) 1.
Definition rep_1 : urep Gs := MkUrep sym_c4 1 (map (fun _ => gmat [[(1,0)]]) [0;1;2;3]%nat) 1.
Definition rep_vec (g : sym) : urep Gs := MkUrep g 2 (map (fun s => gmat (map (map (fun x => (x, 0))) s)) (sops g)) 2.
Definition re_part (x : Gs) : Gs := (fst x, 0).

Example C20_example : urep_check gfeqb rep_i = true /\
  urep_check gfeqb (MkUrep sym_c4 1 (map (fun k => gmat [[ipow k]]) [0;1;1;3]%nat) 1) = false.
Proof. split; reflexivity. Qed.

(** a + b with the operations of b in another order *)
Example C21_example : exists c, urep_add re_part rep_1 (rep_vec sym_c4') = Some c /\ urep_check gfeqb c = true /\
  udim c = 3%nat /\ feq 3 3 (nth 1 (uU c) fzero) (gmat [[(1,0);(0,0);(0,0)]; [(0,0);(0,0);(-1,0)]; [(0,0);(1,0);(0,0)]]).
Proof.
  eexists. split; [reflexivity|]. split; [reflexivity|]. split; [reflexivity|]. apply gfeqb_spec. reflexivity.
Qed.
Example C21_example_hyps : rep_shape rep_1 /\ rep_shape (rep_vec sym_c4') /\ urep_check gfeqb rep_1 = true /\
  urep_check gfeqb (rep_vec sym_c4') = true /\ urep_check gfeqb (urep_mul rep_i 3) = true /\
  (forall u, In u (uU (rep_vec sym_c4')) -> forall i j : nat, (i < 2)%nat -> (j < 2)%nat -> re_part (u i j) = u i j).
Proof.
  repeat split; try reflexivity; try (cbn; lia). cbn. intros u Hu i j Hi Hj.
  destruct Hu as [<-|[<-|[<-|[<-|[]]]]]; destruct i as [|[|i]]; try lia; destruct j as [|[|j]]; try lia; reflexivity.
Qed.
(** REFUTED for complex representations: __init__ creates U as a float array and __add__ assigns into it, which drops
    the imaginary parts (numpy only warns). The representation {1, i, -1, -i} of C4 added to itself is no
    representation any more. *)
Theorem C21_sum_refuted : exists a b c : urep Gs,
  rep_shape a /\ rep_shape b /\ urep_check gfeqb a = true /\ urep_check gfeqb b = true /\
  urep_add re_part a b = Some c /\ urep_check gfeqb c = false.
Proof. exists rep_i, rep_i. eexists. repeat split; try reflexivity; cbn; lia. Qed.
Print Assumptions C21_sum_refuted.

(** evaluate a boolean test on the result (the matrices are functions and are not normalised) *)
Lemma ugen_test {K : sring} (x : ugen (K:=K)) (f : list (zmat * fmat K) -> bool) :
  match x with UGen l => f l | _ => false end = true -> exists l, x = UGen l /\ f l = true.
Proof. destruct x; intro H; [eauto|discriminate H|discriminate H]. Qed.
Lemma opt_test {A} (x : option A) (f : A -> bool) : match x with Some l => f l | None => false end = true -> exists l, x = Some l /\ f l = true.
Proof. destruct x; intro H; [eauto|discriminate H]. Qed.
Lemma list_eqb_zm l m : list_eqb zmeqb l m = true <-> l = m.
Proof.
  revert m. induction l as [|a l IH]; intros [|b m]; simpl; split; intro H; try reflexivity; try discriminate H.
  - apply andb_true_iff in H. destruct H as [H1 H2]. apply zmeqb_spec in H1. apply IH in H2. congruence.
  - injection H as -> ->. apply andb_true_iff. split; [apply zmeqb_refl|apply IH; reflexivity].
Qed.

Example C22_example : exists l, urep_generate gfeqb 2 1 [(r4 0, gmat [[(1,0)]]); (r4 1, gmat [[(0,1)]])] = UGen l /\
  map fst l = map r4 [0;1;2;3]%nat /\ forallb (fun p => geqb (snd (fst p) 0%nat 0%nat) (snd p)) (combine l (map ipow [0;1;2;3]%nat)) = true.
Proof.
  destruct (ugen_test (urep_generate gfeqb 2 1 [(r4 0, gmat [[(1,0)]]); (r4 1, gmat [[(0,1)]])])
    (fun l => list_eqb zmeqb (map fst l) (map r4 [0;1;2;3]%nat) &&
              forallb (fun p => geqb (snd (fst p) 0%nat 0%nat) (snd p)) (combine l (map ipow [0;1;2;3]%nat)))) as [l [H1 H2]].
  - vm_compute. reflexivity.
  - exists l. apply andb_true_iff in H2. destruct H2 as [H2 H3]. apply list_eqb_zm in H2. auto.
Qed.
(** inconsistent values are rejected *)
Example C22_example_reject : urep_generate gfeqb 2 1 [(r4 0, gmat [[(1,0)]]); (r4 2, gmat [[(0,1)]])] = UAssert.
Proof. vm_compute. reflexivity. Qed.

(** REFUTED as stated, four ways:
    - the generator [r4] alone (no identity): the products of one round are only {r4^2}, the loop stops since the
      list did not grow; the generator itself and the identity are missing (Symmetry.__init__ then raises ValueError);
    - the list [1, r4, r4]: the first round gives 3 operations, not more than the 3 listed generators, so the loop stops
      with {1, r4, r4^2}, which is not closed; from_generator returns this set;
    - generators 1 and -1 in three dimensions: Symmetry.__init__ keeps only the identity but U keeps both matrices;
    - two dimensions with inversion=True (the default): Symmetry.__init__ adds the negatives, U stays as it is. *)
Definition neg3 : zmat := [[-1;0;0];[0;-1;0];[0;0;-1]].
Theorem C22_from_generator_refuted :
  (exists l, urep_generate gfeqb 2 1 [(r4 1, gmat [[(0,1)]])] = UGen l /\ ~ In (r4 1) (map fst l)) /\
  (exists r, urep_from_generator gfeqb 2 1 [(r4 0, gmat [[(1,0)]]); (r4 1, gmat [[(0,1)]]); (r4 1, gmat [[(0,1)]])] false false = Some r /\
     In (r4 1) (sops (usym r)) /\ In (r4 2) (sops (usym r)) /\ ~ In (zmul 2 (r4 1) (r4 2)) (sops (usym r))) /\
  (exists r, urep_from_generator gfeqb 3 1 [(zeye 3, gmat [[(1,0)]]); (neg3, gmat [[(-1,0)]])] false false = Some r /\
     length (sops (usym r)) = 1%nat /\ length (uU r) = 2%nat) /\
  (exists r, urep_from_generator gfeqb 2 1 [(zeye 2, gmat [[(1,0)]]); ([[1;0];[0;-1]], gmat [[(-1,0)]])] true false = Some r /\
     length (sops (usym r)) = 4%nat /\ length (uU r) = 2%nat).
Proof.
  split; [|split; [|split]].
  - destruct (ugen_test (urep_generate gfeqb 2 1 [(r4 1, gmat [[(0,1)]])]) (fun l => list_eqb zmeqb (map fst l) [r4 2])) as [l [H1 H2]];
      [vm_compute; reflexivity|]. exists l. split; [exact H1|]. apply list_eqb_zm in H2. rewrite H2.
    intros [H|[]]. discriminate H.
  - match goal with |- exists r, ?x = _ /\ _ =>
      destruct (opt_test x (fun r => list_eqb zmeqb (sops (usym r)) (map r4 [0;1;2]%nat))) as [r [H1 H2]] end;
      [vm_compute; reflexivity|]. exists r. split; [exact H1|]. apply list_eqb_zm in H2. rewrite H2.
    split; [right; left; reflexivity|]. split; [right; right; left; reflexivity|].
    intros [H|[H|[H|[]]]]; discriminate H.
  - match goal with |- exists r, ?x = _ /\ _ =>
      destruct (opt_test x (fun r => Nat.eqb (length (sops (usym r))) 1 && Nat.eqb (length (uU r)) 2)) as [r [H1 H2]] end;
      [vm_compute; reflexivity|]. exists r. split; [exact H1|]. rewrite andb_true_iff, !Nat.eqb_eq in H2. exact H2.
  - match goal with |- exists r, ?x = _ /\ _ =>
      destruct (opt_test x (fun r => Nat.eqb (length (sops (usym r))) 4 && Nat.eqb (length (uU r)) 2)) as [r [H1 H2]] end;
      [vm_compute; reflexivity|]. exists r. split; [exact H1|]. rewrite andb_true_iff, !Nat.eqb_eq in H2. exact H2.
Qed.
Print Assumptions C22_from_generator_refuted.

(** from_generator as a whole: when the generated set is not closed under negation and (odd dimension or
    inversion=False), the operations of the symmetry object are the generated ones, one matrix each *)
Theorem C22_object_partial : forall (K : sring) (ueqb : nat -> fmat K -> fmat K -> bool) n d G l inversion negate r,
  urep_generate ueqb n d G = UGen l -> urep_from_generator ueqb n d G inversion negate = Some r ->
  (exists s, In s (map fst l) /\ ~ In s (map (zneg n) (map fst l))) -> (inversion = false \/ Nat.odd n = true) ->
  sops (usym r) = map fst l /\ uU r = map snd l /\ sinv (usym r) = inversion /\ udim r = d /\
  usplit r = if negate : bool then 0%nat else d.
Proof.
  intros K ueqb n d G l inv neg r H1 H2 [s [Hs Hns]] Hi. unfold urep_from_generator in H2. rewrite H1 in H2.
  destruct (sym_init n (map fst l) inv false) as [g|] eqn:E; [|discriminate H2]. injection H2 as <-. cbn.
  unfold sym_init in E. destruct (map fst l) as [|s0 S'] eqn:EL; [discriminate E|]. rewrite <- EL in E, Hs, Hns.
  destruct (negb (zmeqb s0 (zeye n))); [discriminate E|].
  destruct (existsb _ (map fst l)); [discriminate E|].
  replace (cloud_close (map fst l) (map (zneg n) (map fst l))) with false in E.
  - replace (inv && Nat.even n) with false in E.
    + injection E as <-. cbn. rewrite <- EL. auto.
    + symmetry. rewrite <- Nat.negb_odd. destruct Hi as [->| ->]; [reflexivity|apply andb_false_r].
  - symmetry. apply not_true_iff_false. intro C. unfold cloud_close in C. rewrite forallb_forall in C.
    apply Hns. apply (memb_In zmeqb zmeqb_spec). apply C. exact Hs.
Qed.
Print Assumptions C22_object_partial.
Example C22_object_example : exists r, urep_from_generator gfeqb 3 1
   [(zeye 3, gmat [[(1,0)]]); ([[0;-1;0];[1;0;0];[0;0;1]], gmat [[(0,1)]])] true false = Some r /\
   length (sops (usym r)) = 4%nat /\ length (uU r) = 4%nat /\ urep_check gfeqb r = true.
Proof.
  match goal with |- exists r, ?x = _ /\ _ =>
      destruct (opt_test x (fun r => Nat.eqb (length (sops (usym r))) 4 && Nat.eqb (length (uU r)) 4 && urep_check gfeqb r)) as [r [H1 H2]] end;
      [vm_compute; reflexivity|]. exists r. split; [exact H1|]. rewrite !andb_true_iff, !Nat.eqb_eq in H2. tauto.
Qed.

Example C23_example : exists r', urep_match rep_i sym_c4' = Some r' /\
  map (fun u => u 0%nat 0%nat) (uU r') = map ipow [0;3;1;2]%nat /\ urep_check gfeqb r' = true /\
  urep_match rep_i (MkSym 2 (map r4 [0;1;1;3]%nat) false false) = None.
Proof. eexists. split; [reflexivity|]. repeat split; reflexivity. Qed.

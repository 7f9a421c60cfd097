(** The table driven symmetrizer computes the same matrices as symmetrize (C25). *)
From Coq Require Import List Arith ZArith Lia Bool Permutation Setoid Morphisms.
Import ListNotations.
From Verif Require Import SRing LMat FMat FinGroup SymModel DetMC SymInitProofs SymEqProofs HamModel HamProofs.

Section Table.
Context {K : sring}.
Add Ring Kring_hamt : (s_rt K).
Open Scope sring_scope.
Notation hblock := (hblock K).
Notation obl := (nat * hblock)%type.

Lemma ksum_flat_map {A B} (l : list A) (f : A -> list B) (g : B -> K) :
  ksum (flat_map f l) g = ksum l (fun x => ksum (f x) g).
Proof. induction l as [|x l IH]; simpl; [reflexivity|]. rewrite ksum_app, IH. reflexivity. Qed.

(** fold of conditional block additions *)
Lemma fold_cond_blocks {E} (c : E -> bool) (b1 b2 : E -> obl) (p : E -> fmat K) L M a b :
  fold_left (fun M e => if c e then add_block (fst (b1 e)) (bdim (snd (b1 e))) (fst (b2 e)) (bdim (snd (b2 e))) (p e) M else M) L M a b
  = M a b + ksum L (fun e => if c e then
      (if inr (fst (b1 e)) (bdim (snd (b1 e))) a && inr (fst (b2 e)) (bdim (snd (b2 e))) b
       then p e (a - fst (b1 e))%nat (b - fst (b2 e))%nat else 0) else 0).
Proof.
  revert M; induction L as [|e L IH]; intros M; cbn [fold_left ksum]; [ring|].
  rewrite IH. destruct (c e); [rewrite add_block_ent; ring|ring].
Qed.

Lemma ksum_combine_pick {X} (l : list X) o i r (g : nat * X -> K) : nth_error l i = Some r ->
  ksum (combine (seq o (length l)) l) (fun ir => if Nat.eqb (fst ir) (o + i)%nat then g ir else 0) = g ((o + i)%nat, r).
Proof.
  revert o i; induction l as [|x l IH]; intros o [|i] E; cbn [nth_error] in E; try discriminate E.
  - injection E as ->. cbn [length seq combine ksum fst]. rewrite Nat.add_0_r, Nat.eqb_refl.
    rewrite (ksum_zero K (combine _ _)); [ring|]. intros [j y] Hin. cbn [fst].
    apply combine_seq_nth in Hin. destruct (Nat.eqb_spec j o); [lia|reflexivity].
  - cbn [length seq combine ksum fst]. destruct (Nat.eqb_spec o (o + S i)%nat); [lia|].
    specialize (IH (S o) i E). replace (S o + i)%nat with (o + S i)%nat in IH by lia. rewrite IH. ring.
Qed.

Lemma knat_S m : knat (K:=K) (m + 1)%nat = knat m + 1.
Proof. induction m as [|m IH]; simpl; [ring|]. rewrite IH. ring. Qed.

(** last zero neighbor *)
Lemma last_zero_aux (ns : list zvec) o acc :
  fold_left (fun o (ir : nat * zvec) => if zero_vec (snd ir) then Some (fst ir) else o) (combine (seq o (length ns)) ns) acc = acc /\
    (forall r, In r ns -> zero_vec r = false) \/
  exists j r, fold_left (fun o (ir : nat * zvec) => if zero_vec (snd ir) then Some (fst ir) else o) (combine (seq o (length ns)) ns) acc = Some (o + j)%nat /\
    nth_error ns j = Some r /\ zero_vec r = true.
Proof.
  revert o acc; induction ns as [|r ns IH]; intros o acc.
  - left. split; [reflexivity|]. intros r [].
  - cbn [length seq combine fold_left fst snd].
    destruct (IH (S o) (if zero_vec r then Some o else acc)) as [[E H]|(j & r' & E & Hj & Hz)].
    + destruct (zero_vec r) eqn:Ez.
      * right. exists 0%nat, r. rewrite Nat.add_0_r. split; [exact E|split; [reflexivity|exact Ez]].
      * left. split; [exact E|]. intros r' [<-|Hin]; [exact Ez|apply H; exact Hin].
    + right. exists (S j), r'. split; [rewrite E; f_equal; lia|split; [exact Hj|exact Hz]].
Qed.

Lemma map_combine_seq_nth {X Y} (f : nat * X -> Y) (l : list X) i x d : nth_error l i = Some x ->
  nth i (map f (combine (seq 0%nat (length l)) l)) d = f (i, x).
Proof.
  intros E. apply nth_error_nth. rewrite nth_error_map, (nth_combine_seq l 0%nat i x E). reflexivity.
Qed.

Variable h : hsym K.
Variable ns : list zvec.
Let n := sdim (hs h).
Hypothesis Hns : forall r, In r ns -> wfv n r.
Hypothesis Hnd : NoDup ns.
Variable ueqb : nat -> fmat K -> fmat K -> bool.
Hypothesis ueqb_sound : forall d A B, ueqb d A B = true -> feq d d A B.
Variables half dv : K.

(** the positions computed in the two functions agree *)
Lemma inv_pos_alt r r1 r2 : zvdiff n (zvadd n (zvneg n (zvadd n (zvdiff n r r1) r2)) r1) r2 = inv_pos n r r1 r2.
Proof.
  apply (vec_ext Zs n); [apply wfv_vmk|apply inv_pos_wf|]. intros i Hi. unfold inv_pos.
  rewrite !vent_zvdiff, !vent_zvadd, !vent_zvneg, !vent_zvadd, !vent_zvdiff by exact Hi. lia.
Qed.
Lemma rot_pos_alt s r r1 r2 : zvdiff n (zvadd n (zmv n s (zvadd n (zvdiff n r r1) r2)) r1) r2 = rot_pos n s r r1 r2.
Proof.
  apply (vec_ext Zs n); [apply wfv_vmk|apply rot_pos_wf|]. intros i Hi. unfold rot_pos.
  rewrite vent_zvdiff, !vent_zvadd, vent_zvdiff by exact Hi.
  rewrite (zmv_veq n s (zvadd n (zvdiff n r r1) r2) (zvdiff n (zvadd n r r2) r1)); [lia|].
  intros j Hj. rewrite vent_zvadd, !vent_zvdiff, vent_zvadd by exact Hj. lia.
Qed.

(** first step *)
Definition t_origin (H : list (fmat K)) : list (fmat K) :=
  match last_zero ns with
  | Some o => map (fun im : nat * fmat K => if Nat.eqb (fst im) o
                       then fscale half (fadd (snd im) (fadj (snd im))) else snd im)
                  (combine (seq 0%nat (length H)) H)
  | None => H
  end.

Lemma t_origin_eq H : length H = length ns -> forall i, nth i (t_origin H) fzero = nth i (herm_origin half ns H) fzero.
Proof.
  intros HL i. unfold t_origin, last_zero.
  destruct (last_zero_aux ns 0%nat None) as [[E Hz]|(j & r & E & Hj & Hz)]; rewrite E.
  - destruct (nth_error ns i) as [r|] eqn:Er.
    + rewrite (herm_origin_nz half ns H i r Er); [reflexivity|]. apply Hz. eapply nth_error_In; exact Er.
    + apply nth_error_None in Er. rewrite !nth_overflow; [reflexivity|rewrite herm_origin_length; lia|lia].
  - cbn [Nat.add]. destruct (nth_error ns i) as [r'|] eqn:Er.
    + assert (Hi : (i < length H)%nat) by (rewrite HL; apply nth_error_Some; congruence).
      destruct (nth_error H i) as [x|] eqn:Ex; [|apply nth_error_None in Ex; lia].
      rewrite (map_combine_seq_nth _ H i x fzero Ex). cbn [fst snd].
      assert (Ex' : nth i H fzero = x) by (apply nth_error_nth; exact Ex).
      destruct (Nat.eqb_spec i j) as [->|Hne].
      * rewrite (herm_origin_z' h ns Hns Hnd half H j r HL Hj Hz). rewrite Ex'. reflexivity.
      * rewrite (herm_origin_nz half ns H i r' Er); [symmetry; exact Ex'|].
        destruct (zero_vec r') eqn:Ez'; [|reflexivity]. exfalso. apply Hne.
        assert (r' = r).
        { apply (zero_vec_unique h); try assumption; apply Hns; eapply nth_error_In; eassumption. }
        subst r'. rewrite NoDup_nth_error in Hnd. apply Hnd; [|congruence]. apply nth_error_Some. congruence.
    + apply nth_error_None in Er. rewrite !nth_overflow; [reflexivity|rewrite herm_origin_length; lia|].
      rewrite map_length, combine_length, seq_length. lia.
Qed.
Lemma t_origin_length H : length (t_origin H) = length H.
Proof.
  unfold t_origin. destruct (last_zero ns); [|reflexivity]. rewrite map_length, combine_length, seq_length. lia.
Qed.

(** pointwise equality of lists of matrices *)
Definition leq (A B : list (fmat K)) : Prop := length A = length B /\ forall j a b, nth j A fzero a b = nth j B fzero a b.

Lemma hlook_leq A B r : leq A B -> match hlook n ns A r, hlook n ns B r with
  | Some x, Some y => forall a b, x a b = y a b | None, None => True | _, _ => False end.
Proof.
  intros [_ H]. unfold hlook. destruct (try_neighbor zveqb (zvneg n) ns r) as [[j []]|]; [| |exact I].
  - intros a b. unfold fadj. rewrite H. reflexivity.
  - intros a b. apply H.
Qed.

(** second step *)
Definition t_inv (H1 : list (fmat K)) : list (fmat K) :=
  if sinv (hs h) then
      map (fun im : nat * fmat K =>
          fscale half (fold_left (fun M e =>
              if Nat.eqb (ie_i e) (fst im)
              then add_block (fst (ie_1 e)) (bdim (snd (ie_1 e))) (fst (ie_2 e)) (bdim (snd (ie_2 e)))
                     (fscale (ie_f e) (slice (fst (ie_1 e)) (fst (ie_2 e))
                        (let x := nth (ie_j e) H1 fzero in if ie_m e then fadj x else x))) M
              else M) (inv_table h ns) (snd im)))
        (combine (seq 0%nat (length H1)) H1)
    else H1.

Lemma inv_step_length H : length H = length ns -> length (inv_step half h ns H) = length ns.
Proof. intros HL. unfold inv_step. destruct (sinv (hs h)); [|exact HL]. rewrite map_length, combine_length, seq_length. lia. Qed.
Lemma t_inv_length H : length (t_inv H) = length H.
Proof. unfold t_inv. destruct (sinv (hs h)); [|reflexivity]. rewrite map_length, combine_length, seq_length. lia. Qed.

Lemma t_inv_eq A B : length A = length ns -> leq A B -> leq (t_inv A) (inv_step half h ns B).
Proof.
  intros HL HAB. assert (HLB : length B = length ns) by (destruct HAB; lia).
  split; [rewrite t_inv_length, inv_step_length by exact HLB; exact HL|].
  intros i a b. unfold t_inv, inv_step. destruct (sinv (hs h)) eqn:Es; [|apply HAB].
  destruct (nth_error ns i) as [r|] eqn:Er.
  2:{ apply nth_error_None in Er. rewrite !nth_overflow; [reflexivity| |]; rewrite map_length, combine_length, seq_length; lia. }
  assert (Hi : (i < length A)%nat) by (rewrite HL; apply nth_error_Some; congruence).
  destruct (nth_error A i) as [x|] eqn:Ex; [|apply nth_error_None in Ex; lia].
  assert (Ex' : nth i A fzero = x) by (apply nth_error_nth; exact Ex).
  rewrite (map_combine_seq_nth _ A i x fzero Ex), (map_combine_seq_nth _ ns i r fzero Er).
  cbn [fst snd]. unfold fscale at 1 3, fadd.
  rewrite (fold_cond_blocks (fun e => Nat.eqb (ie_i e) i) ie_1 ie_2). rewrite fold_add_blocks.
  unfold inv_table. rewrite Es. rewrite ksum_flat_map.
  set (g := fun ir : nat * zvec => ksum (bpairs h) (fun bb =>
     blk_term (fun bb => inv_block n ns B (fst ir) (snd ir) (fst bb) (snd bb)) a b bb)).
  rewrite (ksum_ext K _ _ (fun ir => if Nat.eqb (fst ir) (0 + i)%nat then g ir else 0)).
  - rewrite (ksum_combine_pick ns 0%nat i r g Er). unfold g. cbn [fst snd Nat.add].
    destruct HAB as [_ HAB]. rewrite <- Ex', HAB. change (fzero (K:=K) a b) with (0:K).
    change (sdim (hs h)) with n. match goal with |- ?x * (?y + ?z) = ?x * (?y + (0 + ?z')) => change z' with z; ring end.
  - intros [i' r'] Hin. cbn [fst snd Nat.add]. rewrite ksum_map.
    apply combine_seq_nth in Hin. destruct Hin as [Hin _]. rewrite Nat.sub_0_r in Hin.
    assert (Ei : forall bb : obl * obl, ie_i (inv_table_entry (sdim (hs h)) ns i' r' (fst bb) (snd bb)) = i').
    { intros bb. unfold inv_table_entry. destruct (try_neighbor _ _ _ _) as [[]|]; reflexivity. }
    destruct (Nat.eqb_spec i' i) as [->|Hne].
    + unfold g. cbn [fst snd]. apply ksum_ext. intros bb _. rewrite Ei, Nat.eqb_refl.
      unfold blk_term, inv_block, inv_table_entry. fold n. rewrite inv_pos_alt.
      pose proof (hlook_leq A B (inv_pos n r' (bpos (snd (fst bb))) (bpos (snd (snd bb)))) HAB) as HH.
      unfold hlook in HH |- *. destruct (try_neighbor zveqb (zvneg n) ns _) as [[j m]|]; cbn [ie_1 ie_2 ie_f ie_j ie_m].
      * destruct (inr _ _ _ && inr _ _ _); [|reflexivity]. unfold fscale, slice. rewrite HH. reflexivity.
      * destruct (inr _ _ _ && inr _ _ _); [|reflexivity]. unfold fscale, slice. destruct HAB as [_ HAB]. rewrite HAB. reflexivity.
    + apply ksum_zero. intros bb _. rewrite Ei. destruct (Nat.eqb_spec i' i); [contradiction|reflexivity].
Qed.

(** third step *)
Section RotTable.
Variables A B : list (fmat K).
Hypothesis HAB : leq A B.
Variables b1 b2 : obl.
Let d1 := bdim (snd b1). Let d2 := bdim (snd b2).

Definition w (k j : nat) (m : bool) : fmat K :=
  fmul d2 (fmul d1 (fadj (nth k (bU (snd b1)) fzero)) (slice (fst b1) (fst b2) (let x := nth j A fzero in if m then fadj x else x)))
    (nth k (bU (snd b2)) fzero).
Definition W (e : s_entry) : fmat K := fscale (knat (se_c e)) (w (se_k e) (se_j e) (se_m e)).

Lemma s_insert_sum a b j m k tab : (a < d1)%nat -> (b < d2)%nat ->
  ksum (s_insert ueqb (snd b1) (snd b2) j m k tab) (fun e => W e a b) = ksum tab (fun e => W e a b) + w k j m a b.
Proof.
  intros Ha Hb. unfold s_insert. induction tab as [|e tab IH].
  - cbn [ksum]. unfold W, fscale. cbn [se_c se_k se_j se_m knat]. ring.
  - cbn [ksum]. destruct (Nat.eqb (se_j e) j && Bool.eqb (se_m e) m && _ && _) eqn:E.
    + apply andb_true_iff in E. destruct E as [E E2]. apply andb_true_iff in E. destruct E as [E E1].
      apply andb_true_iff in E. destruct E as [Ej Em]. apply Nat.eqb_eq in Ej. apply eqb_prop in Em.
      apply ueqb_sound in E1. apply ueqb_sound in E2. cbn [ksum].
      assert (Ew : w k j m a b = w (se_k e) (se_j e) (se_m e) a b).
      { unfold w. rewrite Ej, Em.
        assert (EE : feq d1 d2 (fmul d2 (fmul d1 (fadj (nth k (bU (snd b1)) fzero)) (slice (fst b1) (fst b2) (let x := nth j A fzero in if m then fadj x else x))) (nth k (bU (snd b2)) fzero))
          (fmul d2 (fmul d1 (fadj (nth (se_k e) (bU (snd b1)) fzero)) (slice (fst b1) (fst b2) (let x := nth j A fzero in if m then fadj x else x))) (nth (se_k e) (bU (snd b2)) fzero))).
        { rewrite E1, E2. reflexivity. }
        apply EE; assumption. }
      unfold W at 1. cbn [se_c se_k se_j se_m]. unfold W at 2, fscale. rewrite knat_S, Ew. ring.
    + cbn [ksum]. rewrite IH. ring.
Qed.

Lemma s_table_sum a b r ks tab : (a < d1)%nat -> (b < d2)%nat ->
  ksum (s_table ueqb n ns r (snd b1) (snd b2) ks tab) (fun e => W e a b) =
  match rot_sum n ns B r b1 b2 ks with Some p => ksum tab (fun e => W e a b) + p a b | None => 0 end.
Proof.
  intros Ha Hb. revert tab. induction ks as [|[k s] ks IH]; intros tab; cbn [s_table rot_sum].
  - unfold fzero. ring.
  - rewrite rot_pos_alt.
    pose proof (hlook_leq A B (rot_pos n s r (bpos (snd b1)) (bpos (snd b2))) HAB) as HH.
    unfold hlook in HH |- *. destruct (try_neighbor zveqb (zvneg n) ns _) as [[j m]|]; [|reflexivity].
    rewrite IH. destruct (rot_sum n ns B r b1 b2 ks) as [p|]; [|reflexivity].
    rewrite (s_insert_sum a b j m k tab Ha Hb). unfold fadd.
    assert (Ew : w k j m a b = fmul (bdim (snd b2)) (fmul (bdim (snd b1)) (fadj (nth k (bU (snd b1)) fzero))
        (slice (fst b1) (fst b2) (let h0 := nth j B fzero in if m then fadj h0 else h0))) (nth k (bU (snd b2)) fzero) a b).
    { unfold w. assert (EE : feq d1 d2 (slice (fst b1) (fst b2) (let x := nth j A fzero in if m then fadj x else x))
                        (slice (fst b1) (fst b2) (let x := nth j B fzero in if m then fadj x else x))).
      { intros x y _ _. unfold slice. apply HH. }
      assert (EE2 : feq d1 d2 (fmul d2 (fmul d1 (fadj (nth k (bU (snd b1)) fzero)) (slice (fst b1) (fst b2) (let x := nth j A fzero in if m then fadj x else x))) (nth k (bU (snd b2)) fzero))
         (fmul d2 (fmul d1 (fadj (nth k (bU (snd b1)) fzero)) (slice (fst b1) (fst b2) (let x := nth j B fzero in if m then fadj x else x))) (nth k (bU (snd b2)) fzero))).
      { rewrite EE. reflexivity. }
      apply EE2; assumption. }
    match goal with |- ?x + ?y + ?z = _ => transitivity (x + (y + z)); [ring|] end.
    f_equal. rewrite Ew. reflexivity.
Qed.
End RotTable.

Definition t_rot (H2 : list (fmat K)) (m : nat) : list (fmat K) :=
  map (fun i =>
      fscale dv (fold_left (fun M e =>
          if Nat.eqb (te_i e) i
          then add_block (fst (te_1 e)) (bdim (snd (te_1 e))) (fst (te_2 e)) (bdim (snd (te_2 e)))
                 (fmul (bdim (snd (te_2 e)))
                    (fmul (bdim (snd (te_1 e))) (fscale (knat (te_f e)) (fadj (nth (te_k e) (bU (snd (te_1 e))) fzero)))
                       (slice (fst (te_1 e)) (fst (te_2 e))
                          (let x := nth (te_j e) H2 fzero in if te_m e then fadj x else x)))
                    (nth (te_k e) (bU (snd (te_2 e))) fzero)) M
          else M) (total_table ueqb h ns) fzero))
    (seq 0%nat m).

Lemma t_rot_eq A B : length A = length ns -> leq A B ->
  forall i a b, nth i (t_rot A (length ns)) fzero a b = nth i (rot_step dv h ns B) fzero a b.
Proof.
  intros HL HAB i a b. unfold t_rot, rot_step.
  destruct (nth_error ns i) as [r|] eqn:Er.
  2:{ apply nth_error_None in Er. rewrite !nth_overflow; [reflexivity| |]; rewrite map_length, ?seq_length; lia. }
  assert (Hi : (i < length ns)%nat) by (apply nth_error_Some; congruence).
  rewrite (nth_map_error _ ns i r fzero Er).
  rewrite (nth_map_error _ (seq 0%nat (length ns)) i i fzero).
  2:{ rewrite (nth_error_nth' (seq 0%nat (length ns)) 0%nat) by (rewrite seq_length; exact Hi). rewrite seq_nth by exact Hi. reflexivity. }
  unfold fscale at 1 3. f_equal.
  rewrite (fold_cond_blocks (fun e => Nat.eqb (te_i e) i) te_1 te_2). rewrite fold_add_blocks. unfold fzero at 1 3.
  f_equal. unfold total_table. rewrite ksum_flat_map. fold n.
  set (ks := combine (seq 0%nat (length (sops (hs h)))) (sops (hs h))).
  set (g := fun ir : nat * zvec => ksum (bpairs h) (fun bb =>
     blk_term (fun bb => match rot_sum n ns B (snd ir) (fst bb) (snd bb) ks with Some p => p | None => fzero end) a b bb)).
  rewrite (ksum_ext K _ _ (fun ir => if Nat.eqb (fst ir) (0 + i)%nat then g ir else 0)).
  - rewrite (ksum_combine_pick ns 0%nat i r g Er). reflexivity.
  - intros [i' r'] Hin. cbn [fst snd Nat.add]. rewrite ksum_flat_map.
    destruct (Nat.eqb_spec i' i) as [->|Hne].
    + unfold g. cbn [fst snd]. apply ksum_ext. intros bb _. rewrite ksum_map. cbn [te_i te_1 te_2 te_k te_f te_j te_m].
      rewrite Nat.eqb_refl. unfold blk_term.
      destruct (inr (fst (fst bb)) (bdim (snd (fst bb))) a && inr (fst (snd bb)) (bdim (snd (snd bb))) b) eqn:Er2.
      2:{ apply ksum_zero. reflexivity. }
      apply andb_true_iff in Er2. destruct Er2 as [Q1 Q2]. apply inr_spec in Q1. apply inr_spec in Q2.
      assert (Ha : (a - fst (fst bb) < bdim (snd (fst bb)))%nat) by lia.
      assert (Hb : (b - fst (snd bb) < bdim (snd (snd bb)))%nat) by lia.
      pose proof (s_table_sum A B HAB (fst bb) (snd bb) (a - fst (fst bb))%nat (b - fst (snd bb))%nat r' ks [] Ha Hb) as HS.
      transitivity (ksum (s_table ueqb n ns r' (snd (fst bb)) (snd (snd bb)) ks [])
        (fun e => W A (fst bb) (snd bb) e (a - fst (fst bb))%nat (b - fst (snd bb))%nat)).
      * apply ksum_ext. intros e _. unfold W, w.
        assert (EE : forall (c : K) (U X V : fmat K), feq (bdim (snd (fst bb))) (bdim (snd (snd bb)))
           (fmul (bdim (snd (snd bb))) (fmul (bdim (snd (fst bb))) (fscale c U) X) V)
           (fscale c (fmul (bdim (snd (snd bb))) (fmul (bdim (snd (fst bb))) U X) V))).
        { intros c U X V. rewrite !fmul_scale_l. reflexivity. }
        apply EE; assumption.
      * rewrite HS. destruct (rot_sum n ns B r' (fst bb) (snd bb) ks); cbn [ksum]; [ring|reflexivity].
    + apply ksum_zero. intros bb _. rewrite ksum_map. cbn [te_i]. apply ksum_zero. intros e _.
      destruct (Nat.eqb_spec i' i); [contradiction|reflexivity].
Qed.

(** C25 *)
Theorem symmetrizer_eq H : length H = length ns -> forall i a b,
  nth i (ham_symmetrizer ueqb half dv h ns H) fzero a b = nth i (ham_symmetrize half dv h H ns) fzero a b.
Proof.
  intros HL i a b.
  change (ham_symmetrizer ueqb half dv h ns H) with (t_rot (t_inv (t_origin H)) (length H)).
  rewrite HL. unfold ham_symmetrize. apply t_rot_eq.
  - rewrite t_inv_length, t_origin_length. exact HL.
  - apply t_inv_eq; [rewrite t_origin_length; exact HL|]. split.
    + rewrite t_origin_length, herm_origin_length. reflexivity.
    + intros j x y. rewrite t_origin_eq by exact HL. reflexivity.
Qed.
End Table.

From Coq Require Import List Arith ZArith Lia Ring Permutation Bool Reals Lra.
Import ListNotations.
From Verif Require Import SRing LMat FMat CplxR SymModel SymInitProofs SymEqProofs FinGroup UrepModel UrepProofs HamModel HamProofs HamProps FourierModel FourierProofs BsmProofs SupercellModel.
Local Open Scope nat_scope.

(** ** boxes *)
Lemma in_zrange lo hi x : In x (zrange lo hi) <-> (lo <= x < hi)%Z.
Proof.
  unfold zrange. rewrite in_map_iff. split.
  - intros (t & <- & Ht). apply in_seq in Ht. lia.
  - intros H. exists (Z.to_nat (x - lo)). split; [lia|]. apply in_seq. lia.
Qed.
Lemma nodup_zrange lo hi : NoDup (zrange lo hi).
Proof.
  unfold zrange. apply FinFun.Injective_map_NoDup; [|apply seq_NoDup]. intros a b. lia.
Qed.
Lemma in_grid axes v : In v (grid axes) <-> length v = length axes /\ (forall i, i < length axes -> In (nth i v 0%Z) (nth i axes [])).
Proof.
  revert v; induction axes as [|a rest IH]; intros v; cbn [grid].
  - split.
    + intros [<-|[]]. split; [reflexivity|]. cbn; lia.
    + intros [H _]. destruct v; [left; reflexivity|discriminate H].
  - rewrite in_flat_map. split.
    + intros (x & Hx & Hv). apply in_map_iff in Hv. destruct Hv as (w & <- & Hw). apply IH in Hw. destruct Hw as [Hl Hw].
      split; [cbn [length]; f_equal; exact Hl|]. intros [|i] Hi; [exact Hx|]. apply Hw. cbn in Hi. lia.
    + intros [Hl H]. destruct v as [|x w]; [discriminate Hl|]. exists x. split; [apply (H 0%nat); cbn; lia|].
      apply in_map. apply IH. split; [injection Hl; auto|]. intros i Hi. apply (H (S i)). cbn; lia.
Qed.
Lemma nodup_flat_map {A B} (f : A -> list B) l : NoDup l -> (forall a, In a l -> NoDup (f a)) ->
  (forall a b x, In a l -> In b l -> In x (f a) -> In x (f b) -> a = b) -> NoDup (flat_map f l).
Proof.
  induction l as [|a l IH]; intros Hl Hf Hd; cbn [flat_map]; [constructor|]. inversion Hl as [|? ? Ha Hl']; subst.
  apply NoDup_app_iff. repeat split.
  - apply Hf. left; reflexivity.
  - apply IH; [exact Hl'|intros; apply Hf; right; assumption|]. intros b c x Hb Hc. apply Hd; right; assumption.
  - intros x Hx Hy. apply in_flat_map in Hy. destruct Hy as (b & Hb & Hy). apply Ha.
    rewrite (Hd a b x); [exact Hb|left; reflexivity|right; exact Hb|exact Hx|exact Hy].
Qed.
Lemma nodup_map_in {A B} (f : A -> B) l : (forall a b, In a l -> In b l -> f a = f b -> a = b) -> NoDup l -> NoDup (map f l).
Proof.
  induction l as [|a l IH]; intros Hf Hl; cbn [map]; [constructor|]. inversion Hl as [|? ? Ha Hl']; subst. constructor.
  - rewrite in_map_iff. intros (b & E & Hb). apply Ha. rewrite (Hf a b); [exact Hb|left; reflexivity|right; exact Hb|symmetry; exact E].
  - apply IH; [|exact Hl']. intros x y Hx Hy. apply Hf; right; assumption.
Qed.
Lemma nodup_grid axes : (forall a, In a axes -> NoDup a) -> NoDup (grid axes).
Proof.
  induction axes as [|a rest IH]; intros H; cbn [grid]; [constructor; [intros []|constructor]|].
  apply nodup_flat_map.
  - apply H; left; reflexivity.
  - intros x _. apply FinFun.Injective_map_NoDup; [intros u v E; injection E; auto|]. apply IH. intros; apply H; right; assumption.
  - intros x y v _ _ Hx Hy. apply in_map_iff in Hx. apply in_map_iff in Hy.
    destruct Hx as (u & <- & _). destruct Hy as (w & E & _). injection E; auto.
Qed.

(** ** the sites of the new cell are representatives of the cosets of the new lattice *)
Section Cell.
Variables (n : nat) (L M : zmat) (D : Z).
Hypothesis HD : (0 < D)%Z.
Hypothesis HLM : forall v i, i < n -> vent (K:=Zs) (zmv n L (zmv n M v)) i = (D * vent (K:=Zs) v i)%Z.
Hypothesis HML : forall v i, i < n -> vent (K:=Zs) (zmv n M (zmv n L v)) i = (D * vent (K:=Zs) v i)%Z.
Hypothesis Hrow : forall i, i < n -> exists j, j < n /\ (0 < ent (K:=Zs) L i j)%Z.
Notation ps := (cell_positions n L M D).

Lemma in_cell_spec x : in_cell n M D x = true <-> forall i, i < n -> (0 <= vent (K:=Zs) (zmv n M x) i < D)%Z.
Proof.
  unfold in_cell. rewrite forallb_forall. split.
  - intros H i Hi. assert (Hs : In i (seq 0 n)) by (apply in_seq; lia). specialize (H i Hs).
    apply andb_true_iff in H. destruct H as [H1 H2]. apply Z.leb_le in H1. apply Z.ltb_lt in H2. lia.
  - intros H i Hi. apply in_seq in Hi. specialize (H i). apply andb_true_iff. rewrite Z.leb_le, Z.ltb_lt. apply H. lia.
Qed.
Lemma in_box x : In x (box n L) <-> wfv (K:=Zs) n x /\ forall i, i < n -> (box_lo n L i <= vent (K:=Zs) x i < box_hi n L i)%Z.
Proof.
  unfold box. rewrite in_grid, map_length, seq_length. unfold wfv. apply and_iff_compat_l.
  split; intros H i Hi; specialize (H i Hi).
  - rewrite nth_map_seq in H by exact Hi. apply in_zrange in H. exact H.
  - rewrite nth_map_seq by exact Hi. apply in_zrange. exact H.
Qed.
Lemma ps_spec x : In x ps <-> In x (box n L) /\ forall i, i < n -> (0 <= vent (K:=Zs) (zmv n M x) i < D)%Z.
Proof. unfold cell_positions. rewrite filter_In, in_cell_spec. reflexivity. Qed.
Lemma ps_wf x : In x ps -> wfv (K:=Zs) n x.
Proof. intros H. apply ps_spec in H. destruct H as [H _]. apply in_box in H. apply H. Qed.
Lemma ps_nodup : NoDup ps.
Proof.
  apply NoDup_filter. unfold box. apply nodup_grid. intros a Ha. apply in_map_iff in Ha. destruct Ha as (i & <- & _).
  apply nodup_zrange.
Qed.

Lemma nsumZ_le m (f g : nat -> Z) : (forall i, i < m -> (f i <= g i)%Z) -> (nsum (K:=Zs) m f <= nsum (K:=Zs) m g)%Z.
Proof.
  induction m as [|m IH]; intros H; [rewrite !nsum_0; lia|]. rewrite !nsum_S. cbn [sadd Zs car].
  assert (f m <= g m)%Z by (apply H; lia). assert (nsum (K:=Zs) m f <= nsum (K:=Zs) m g)%Z by (apply IH; intros; apply H; lia). lia.
Qed.
Lemma nsumZ_lt m (f g : nat -> Z) k : k < m -> (f k < g k)%Z -> (forall i, i < m -> (f i <= g i)%Z) ->
  (nsum (K:=Zs) m f < nsum (K:=Zs) m g)%Z.
Proof.
  induction m as [|m IH]; intros Hk Hlt H; [lia|]. rewrite !nsum_S. cbn [sadd Zs car].
  assert (Hm : (f m <= g m)%Z) by (apply H; lia).
  assert (Hs : forall i, i < m -> (f i <= g i)%Z) by (intros; apply H; lia).
  destruct (Nat.eq_dec k m) as [->|Hne].
  - pose proof (nsumZ_le m f g Hs). lia.
  - assert (nsum (K:=Zs) m f < nsum (K:=Zs) m g)%Z by (apply IH; [lia|exact Hlt|exact Hs]). lia.
Qed.

(** a point with coordinates in [0, 1) lies in the half open bounding box *)
Lemma cell_in_box x : wfv (K:=Zs) n x -> (forall i, i < n -> (0 <= vent (K:=Zs) (zmv n M x) i < D)%Z) -> In x (box n L).
Proof.
  intros Hx H. apply in_box. split; [exact Hx|]. intros i Hi.
  pose proof (HLM x i Hi) as E. unfold zmv at 1 in E. rewrite vent_lmv in E by exact Hi.
  set (t := zmv n M x) in *.
  assert (E2 : forall j, j < n -> (0 <= vent (K:=Zs) t j < D)%Z) by exact H.
  split.
  - unfold box_lo. assert (HH : (D * nsum (K:=Zs) n (fun j => Z.min 0 (ent (K:=Zs) L i j)) <= D * vent (K:=Zs) x i)%Z); [|nia].
    rewrite <- E. change (D * nsum (K:=Zs) n (fun j => Z.min 0 (ent (K:=Zs) L i j)))%Z with (smul (s:=Zs) D (nsum (K:=Zs) n (fun j => Z.min 0 (ent (K:=Zs) L i j)))).
    rewrite <- (nsum_mul_l Zs). apply nsumZ_le. intros j Hj. cbn [smul Zs car]. specialize (E2 j Hj). nia.
  - unfold box_hi. assert (HH : (D * vent (K:=Zs) x i < D * nsum (K:=Zs) n (fun j => Z.max 0 (ent (K:=Zs) L i j)))%Z); [|nia].
    rewrite <- E. change (D * nsum (K:=Zs) n (fun j => Z.max 0 (ent (K:=Zs) L i j)))%Z with (smul (s:=Zs) D (nsum (K:=Zs) n (fun j => Z.max 0 (ent (K:=Zs) L i j)))).
    rewrite <- (nsum_mul_l Zs). destruct (Hrow i Hi) as (j0 & Hj0 & Hpos). apply (nsumZ_lt n _ _ j0 Hj0).
    + cbn [smul Zs car]. specialize (E2 j0 Hj0). nia.
    + intros j Hj. cbn [smul Zs car]. specialize (E2 j Hj). nia.
Qed.

Lemma vent_zmv_add v w i : i < n -> vent (K:=Zs) (zmv n M (zvadd n v w)) i = (vent (K:=Zs) (zmv n M v) i + vent (K:=Zs) (zmv n M w) i)%Z.
Proof.
  intros Hi. assert (H := zmv_lin n M (zvadd n v w) w v). rewrite (H); [lia| |exact Hi].
  intros j Hj. rewrite vent_zvadd by exact Hj. lia.
Qed.

Lemma ps_complete x : wfv (K:=Zs) n x -> exists p z, In p ps /\ wfv (K:=Zs) n z /\ x = zvadd n p (zmv n L z).
Proof.
  intros Hx. set (z := vmk (K:=Zs) n (fun i => (vent (K:=Zs) (zmv n M x) i / D)%Z)).
  assert (Hz : wfv (K:=Zs) n z) by apply wfv_vmk.
  exists (zvdiff n x (zmv n L z)), z. assert (Ep : x = zvadd n (zvdiff n x (zmv n L z)) (zmv n L z)).
  { apply (vec_ext Zs n); [exact Hx|apply wfv_vmk|]. intros i Hi. rewrite vent_zvadd, vent_zvdiff by exact Hi. lia. }
  split; [|split; [exact Hz|exact Ep]].
  assert (Hc : forall i, i < n -> (0 <= vent (K:=Zs) (zmv n M (zvdiff n x (zmv n L z))) i < D)%Z).
  { intros i Hi. rewrite (zmv_lin n M x (zmv n L z)); [|intros j Hj; apply vent_zvdiff; exact Hj|exact Hi].
    rewrite HML by exact Hi. unfold z. rewrite vent_vmk by exact Hi.
    pose proof (Z.div_mod (vent (K:=Zs) (zmv n M x) i) D). pose proof (Z.mod_pos_bound (vent (K:=Zs) (zmv n M x) i) D HD). lia. }
  apply ps_spec. split; [|exact Hc]. apply cell_in_box; [apply wfv_vmk|exact Hc].
Qed.
Lemma ps_unique p p' z z' : In p ps -> In p' ps -> wfv (K:=Zs) n z -> wfv (K:=Zs) n z' ->
  zvadd n p (zmv n L z) = zvadd n p' (zmv n L z') -> p = p' /\ z = z'.
Proof.
  intros Hp Hp' Hz Hz' E. pose proof (ps_wf _ Hp) as Wp. pose proof (ps_wf _ Hp') as Wp'.
  apply ps_spec in Hp. apply ps_spec in Hp'. destruct Hp as [_ Hp]. destruct Hp' as [_ Hp'].
  assert (Ez : z = z').
  { apply (vec_ext Zs n); [exact Hz|exact Hz'|]. intros i Hi.
    assert (EE : vent (K:=Zs) (zmv n M (zvadd n p (zmv n L z))) i = vent (K:=Zs) (zmv n M (zvadd n p' (zmv n L z'))) i) by (rewrite E; reflexivity).
    rewrite !vent_zmv_add, !HML in EE by exact Hi. specialize (Hp i Hi). specialize (Hp' i Hi). nia. }
  split; [|exact Ez]. apply (vec_ext Zs n); [exact Wp|exact Wp'|]. intros i Hi. subst z'.
  assert (EE : vent (K:=Zs) (zvadd n p (zmv n L z)) i = vent (K:=Zs) (zvadd n p' (zmv n L z)) i) by (rewrite E; reflexivity).
  rewrite !vent_zvadd in EE by exact Hi. lia.
Qed.
End Cell.

(** ** hopping functions on the mirrored neighbor list *)
Definition sup (n : nat) (ns : list zvec) : list zvec := ns ++ map (zvneg n) (tl ns).
Definition phase (n : nat) (k : rvec) (r : zvec) : cplx := cexp (2 * PI * dot n k (zr r))%R.
Definition hop (n : nat) (s : zfs) (r : zvec) : cmat := match hlook (K:=Cs) n (znb s) (zH s) r with Some h => h | None => fzero end.

Lemma phase_add n k u v : phase n k (zvadd n u v) = cmul (phase n k u) (phase n k v).
Proof.
  unfold phase. rewrite <- cexp_add. f_equal. rewrite <- Rmult_plus_distr_l. f_equal. unfold dot. change Rplus with (@sadd Rs).
  rewrite <- (nsum_add Rs). apply (nsum_ext Rs). intros a Ha. unfold zr. rewrite vent_zvadd by exact Ha. rewrite plus_IZR.
  cbn [sadd Rs car]. rg.
Qed.
Lemma phase_diff n k u v : cmul (phase n k (zvdiff n u v)) (phase n k v) = phase n k u.
Proof.
  unfold phase. rewrite <- cexp_add. f_equal. rewrite <- Rmult_plus_distr_l. f_equal. unfold dot. change Rplus with (@sadd Rs).
  rewrite <- (nsum_add Rs). apply (nsum_ext Rs). intros a Ha. unfold zr. rewrite vent_zvdiff by exact Ha. rewrite minus_IZR.
  cbn [sadd Rs car]. rg.
Qed.
Lemma phase_neg n k u : phase n k (zvneg n u) = cconj (phase n k u).
Proof.
  unfold phase. rewrite <- cexp_neg. f_equal. rewrite Ropp_mult_distr_r. f_equal. unfold dot. change Ropp with (@sopp Rs).
  rewrite <- (nsum_opp Rs). apply (nsum_ext Rs). intros a Ha. unfold zr. rewrite vent_zvneg by exact Ha. rewrite opp_IZR.
  cbn [sopp Rs car]. rg.
Qed.

(** the Bloch sum of a series whose matrices are the values of a hermitian function G *)
Lemma fs_sup n k (ns : list zvec) (H : list cmat) (G : zvec -> cmat) a b : ns <> [] -> length H = length ns ->
  (forall l, l < length ns -> nth l H fzero a b = G (nth l ns []) a b) ->
  (forall l, l < length ns -> cconj (nth l H fzero b a) = G (zvneg n (nth l ns [])) a b) ->
  fs_f n (MkHfs (map zr ns) H) k a b = csum (sup n ns) (fun r => cmul (phase n k r) (G r a b)).
Proof.
  intros Hne Hl H1 H2. unfold fs_f. cbn [hnb hH]. rewrite herm_entry. unfold sup. rewrite csum_app, csum_map.
  assert (Ec : forall l, l < length ns -> fs_coef n (map zr ns) k l = phase n k (nth l ns [])).
  { intros l Hll. unfold fs_coef, phase, nb. do 3 f_equal. rewrite (nth_indep _ _ (zr [])) by (rewrite map_length; exact Hll).
    apply map_nth. }
  destruct ns as [|r0 ns]; [contradiction Hne; reflexivity|].
  change (csum (r0 :: ns) (fun r => cmul (phase n k r) (G r a b))) with
    (cadd (cmul (phase n k r0) (G r0 a b)) (csum (tl (r0 :: ns)) (fun r => cmul (phase n k r) (G r a b)))).
  rewrite !(csum_tl (r0 :: ns) []). rewrite Hl.
  set (N := length (r0 :: ns)) in *.
  rewrite (csum_ext (seq 1 (N - 1)) (fun l => cmul (fs_coef n (map zr (r0 :: ns)) k l) (nth l H fzero a b))
             (fun l => cmul (phase n k (nth l (r0 :: ns) [])) (G (nth l (r0 :: ns) []) a b))).
  2:{ intros l Hll. apply in_seq in Hll. rewrite Ec, H1 by lia. reflexivity. }
  rewrite (csum_ext (seq 1 (N - 1)) (fun l => cmul (cconj (fs_coef n (map zr (r0 :: ns)) k l)) (cconj (nth l H fzero b a)))
             (fun l => cmul (phase n k (zvneg n (nth l (r0 :: ns) []))) (G (zvneg n (nth l (r0 :: ns) [])) a b))).
  2:{ intros l Hll. apply in_seq in Hll. rewrite Ec, H2 by lia. rewrite phase_neg. reflexivity. }
  assert (HN : 0 < N) by (unfold N; cbn; lia). rewrite (Ec 0 HN), (H1 0 HN). cbn [nth].
  set (X := csum _ _). set (Y := csum _ _). rg.
Qed.

Section Super.
Variables (n d : nat) (s : zfs).
Notation ns := (znb s).
Hypothesis Hnb : nbr_list n ns.
Hypothesis Hlen : length (zH s) = length ns.
Hypothesis H0 : forall i r, nth_error ns i = Some r -> r = zvneg n r -> feq d d (fadj (nth i (zH s) fzero)) (nth i (zH s) fzero).

Lemma ns_wf r : In r ns -> wfv (K:=Zs) n r. Proof. apply Hnb. Qed.
Lemma hop_nth i r : nth_error ns i = Some r -> hop n s r = nth i (zH s) fzero.
Proof.
  intros Hi. unfold hop, hlook. destruct Hnb as (_ & Hnd & _). pose proof (try_neighbor_spec zveqb (zvneg n) ns r zveqb_spec) as T.
  destruct (try_neighbor zveqb (zvneg n) ns r) as [[j []]|].
  - exfalso. destruct T as [T1 T2]. apply T2; eapply nth_error_In; exact Hi.
  - assert (j = i); [|subst; reflexivity]. rewrite NoDup_nth_error in Hnd. apply Hnd; [|congruence].
    apply nth_error_Some. congruence.
  - exfalso. destruct T as [T1 T2]. apply T1; eapply nth_error_In; exact Hi.
Qed.
Lemma hop_mirror i r : nth_error ns i = Some r -> feq d d (hop n s (zvneg n r)) (fadj (nth i (zH s) fzero)).
Proof.
  intros Hi. assert (Hr : wfv (K:=Zs) n r) by (apply ns_wf; eapply nth_error_In; exact Hi).
  destruct (zveqb r (zvneg n r)) eqn:E.
  - apply zveqb_spec in E. rewrite <- E, (hop_nth i r Hi). symmetry. apply (H0 i r Hi E).
  - unfold hop, hlook. destruct Hnb as (_ & Hnd & Hh). pose proof (try_neighbor_spec zveqb (zvneg n) ns (zvneg n r) zveqb_spec) as T.
    destruct (try_neighbor zveqb (zvneg n) ns (zvneg n r)) as [[j []]|].
    + destruct T as [T _]. rewrite zvneg_invol in T by exact Hr. assert (j = i); [|subst; reflexivity].
      rewrite NoDup_nth_error in Hnd. apply Hnd; [apply nth_error_Some|]; congruence.
    + exfalso. assert (Er : r = zvneg n r) by (apply Hh; eapply nth_error_In; eassumption). apply zveqb_spec in Er. congruence.
    + exfalso. apply (proj2 T). rewrite zvneg_invol by exact Hr. eapply nth_error_In; exact Hi.
Qed.
Lemma hop_out r : ~ In r ns -> ~ In (zvneg n r) ns -> hop n s r = fzero.
Proof.
  intros H1 H2. unfold hop, hlook. pose proof (try_neighbor_spec zveqb (zvneg n) ns r zveqb_spec) as T.
  destruct (try_neighbor zveqb (zvneg n) ns r) as [[j []]|]; [| |reflexivity]; exfalso.
  - apply H2. destruct T as [T _]. eapply nth_error_In; exact T.
  - apply H1. eapply nth_error_In; exact T.
Qed.
Lemma hop_neg x : wfv (K:=Zs) n x -> feq d d (hop n s (zvneg n x)) (fadj (hop n s x)).
Proof.
  intros Hx. destruct (in_dec (list_eq_dec Z.eq_dec) x ns) as [H|H].
  - apply In_nth_error in H. destruct H as [i Hi]. rewrite (hop_nth i x Hi). apply (hop_mirror i x Hi).
  - destruct (in_dec (list_eq_dec Z.eq_dec) (zvneg n x) ns) as [H'|H'].
    + apply In_nth_error in H'. destruct H' as [i Hi]. rewrite (hop_nth i _ Hi).
      pose proof (hop_mirror i _ Hi) as E. rewrite zvneg_invol in E by exact Hx. intros a b Ha Hb.
      unfold fadj. rewrite (E b a Hb Ha). unfold fadj. symmetry. apply (s_conj_invol Cs).
    + rewrite (hop_out x H H'), hop_out; [|exact H'|rewrite zvneg_invol by exact Hx; exact H].
      intros a b _ _. unfold fadj, fzero. symmetry. apply (conj_0 Cs).
Qed.

Variable k : rvec.
Hypothesis Hne : ns <> [].
Hypothesis Hhd : forall i, i < n -> vent (K:=Zs) (nth 0 ns []) i = 0%Z.

Lemma hd_neg : zvneg n (nth 0 ns []) = nth 0 ns [].
Proof.
  apply (vec_ext Zs n); [apply zvneg_wf| |].
  - apply ns_wf. apply nth_In. destruct ns; [contradiction Hne; reflexivity|cbn; lia].
  - intros i Hi. rewrite vent_zvneg by exact Hi. rewrite Hhd by exact Hi. reflexivity.
Qed.
Lemma in_sup x : wfv (K:=Zs) n x -> In x (sup n ns) <-> In x ns \/ In (zvneg n x) ns.
Proof.
  intros Hx. unfold sup. rewrite in_app_iff, in_map_iff. split.
  - intros [H|(y & <- & Hy)]; [left; exact H|]. right. assert (Hy' : In y ns) by (destruct ns; [destruct Hy|right; exact Hy]).
    rewrite zvneg_invol by (apply ns_wf; exact Hy'). exact Hy'.
  - intros [H|H]; [left; exact H|].
    pose proof hd_neg as Z0. destruct ns as [|r0 rs]; [destruct H|]. cbn [nth] in Z0. destruct H as [H|H].
    + left. left. rewrite <- (zvneg_invol n x Hx), <- H. symmetry. exact Z0.
    + right. exists (zvneg n x). split; [apply zvneg_invol; exact Hx|exact H].
Qed.
Lemma sup_wf x : In x (sup n ns) -> wfv (K:=Zs) n x.
Proof. unfold sup. rewrite in_app_iff, in_map_iff. intros [H|(y & <- & _)]; [apply ns_wf; exact H|apply zvneg_wf]. Qed.
Lemma sup_nodup : NoDup (sup n ns).
Proof.
  destruct Hnb as (Hw & Hnd & Hh). pose proof Hhd as HZ. unfold sup. apply NoDup_app_iff. repeat split; [exact Hnd| |].
  - apply nodup_map_in; [|destruct ns; [constructor|inversion Hnd; assumption]].
    assert (Ht : forall a, In a (tl ns) -> wfv (K:=Zs) n a) by (intros a Ha; apply Hw; destruct ns; [destruct Ha|right; exact Ha]).
    intros a b Ha Hb E. rewrite <- (zvneg_invol n a), <- (zvneg_invol n b), E by (apply Ht; assumption). reflexivity.
  - intros x Hx Hy. apply in_map_iff in Hy. destruct Hy as (y & <- & Hy).
    destruct ns as [|r0 rs]; [destruct Hy|]. cbn [tl nth] in *. inversion Hnd as [|? ? Hn0 Hnd']; subst.
    assert (Ey : y = zvneg n y) by (apply Hh; [right; exact Hy|exact Hx]).
    apply Hn0. assert (E0 : r0 = y); [|rewrite E0; exact Hy].
    apply (vec_ext Zs n); [apply Hw; left; reflexivity|apply Hw; right; exact Hy|]. intros i Hi. rewrite HZ by exact Hi.
    assert (EE : vent (K:=Zs) y i = vent (K:=Zs) (zvneg n y) i) by (rewrite <- Ey; reflexivity). rewrite vent_zvneg in EE by exact Hi. lia.
Qed.

Lemma bloch_hop a b : a < d -> b < d -> fs_f n (zfs_real s) k a b = csum (sup n ns) (fun r => cmul (phase n k r) (hop n s r a b)).
Proof.
  intros Ha Hb. apply fs_sup; [exact Hne|exact Hlen| |].
  - intros l Hl. rewrite (hop_nth l (nth l ns [])) by (apply nth_error_nth'; exact Hl). reflexivity.
  - intros l Hl. rewrite (hop_mirror l (nth l ns [])) by (try apply nth_error_nth'; assumption). reflexivity.
Qed.

Variable L : zmat.
Variable ps : list zvec.
Hypothesis Hpw : forall p, In p ps -> wfv (K:=Zs) n p.
Hypothesis Hpn : NoDup ps.
Hypothesis Hcomp : forall x, wfv (K:=Zs) n x -> exists p z, In p ps /\ wfv (K:=Zs) n z /\ x = zvadd n p (zmv n L z).
Hypothesis Huniq : forall p p' z z', In p ps -> In p' ps -> wfv (K:=Zs) n z -> wfv (K:=Zs) n z' ->
  zvadd n p (zmv n L z) = zvadd n p' (zmv n L z') -> p = p' /\ z = z'.
Hypothesis Hclosed : forall p p' r z, In p ps -> In p' ps -> In r ns -> wfv (K:=Zs) n z ->
  zvadd n p r = zvadd n p' (zmv n L z) -> In z ns \/ In (zvneg n z) ns.
Hypothesis Hd : 0 < d.
Notation N := (length ps * d).
Notation P i := (nth (i / d) ps []).
Definition snbs := map (zmv n L) ns.
Definition sres := MkZfs snbs (map (super_block n d s ps) snbs).

Lemma zmv_neg v : zmv n L (zvneg n v) = zvneg n (zmv n L v).
Proof.
  apply (vec_ext Zs n); [apply lmv_wf|apply zvneg_wf|]. intros i Hi. rewrite vent_zvneg by exact Hi.
  apply zmv_opp; [|exact Hi]. intros j Hj. apply vent_zvneg; exact Hj.
Qed.
Lemma sup_map : sup n snbs = map (zmv n L) (sup n ns).
Proof.
  unfold sup, snbs. rewrite map_app. f_equal. destruct ns as [|r0 rs]; [reflexivity|]. cbn [map tl]. rewrite !map_map.
  apply map_ext. intros v. symmetry. apply zmv_neg.
Qed.
Lemma bloch_super I J : I < N -> J < N -> fs_f n (zfs_real sres) k I J =
  csum (sup n ns) (fun z => cmul (phase n k (zmv n L z)) (hop n s (zvdiff n (zvadd n (zmv n L z) (P J)) (P I)) (I mod d) (J mod d))).
Proof.
  intros HI HJ.
  set (G := (fun R => super_block n d s ps R) : zvec -> cmat).
  assert (EG : forall R I J, G R I J = hop n s (zvdiff n (zvadd n R (P J)) (P I)) (I mod d) (J mod d)).
  { intros R I' J'. unfold G, super_block, hop. destruct (hlook _ _ _ _); reflexivity. }
  unfold zfs_real, sres. cbn [znb zH].
  assert (Hm : forall t, t mod d < d) by (intros; apply Nat.mod_upper_bound; lia).
  rewrite (fs_sup n k snbs _ G).
  - rewrite sup_map, csum_map. apply csum_ext. intros z _. rewrite EG. reflexivity.
  - unfold snbs. destruct ns; [contradiction Hne; reflexivity|discriminate].
  - apply map_length.
  - intros l Hl. rewrite (nth_indep _ _ (super_block n d s ps [])) by (rewrite map_length; exact Hl). rewrite map_nth. reflexivity.
  - intros l Hl. rewrite (nth_indep _ _ (super_block n d s ps [])) by (rewrite map_length; exact Hl). rewrite map_nth.
    change (super_block n d s ps (nth l snbs []) J I) with (G (nth l snbs []) J I). rewrite !EG.
    set (R := nth l snbs []).
    replace (zvdiff n (zvadd n (zvneg n R) (P J)) (P I)) with (zvneg n (zvdiff n (zvadd n R (P I)) (P J))).
    + symmetry. apply (hop_neg (zvdiff n (zvadd n R (P I)) (P J))); [apply wfv_vmk|apply Hm|apply Hm].
    + apply (vec_ext Zs n); try apply wfv_vmk. intros i Hi. rewrite vent_zvneg, !vent_zvdiff, !vent_zvadd, vent_zvneg by exact Hi. lia.
Qed.

Lemma nsum_list {A} (l : list A) d0 (f : A -> cplx) : nsum (K:=Cs) (length l) (fun i => f (nth i l d0)) = csum l f.
Proof.
  unfold nsum. rewrite <- (csum_map (seq 0 (length l)) (fun i => nth i l d0) f). f_equal.
  apply (list_ext d0); [rewrite map_length, seq_length; reflexivity|]. rewrite map_length, seq_length. intros i Hi.
  exact (nth_map_seq (fun j => nth j l d0) (length l) i d0 Hi).
Qed.

(** sums over two duplicate free lists, one containing the other, agree if the summand vanishes on the difference *)
Lemma csum_incl (X Y : list zvec) (g : zvec -> cplx) : NoDup X -> NoDup Y -> incl Y X ->
  (forall x, In x X -> ~ In x Y -> g x = (0,0)%R) -> csum X g = csum Y g.
Proof.
  intros HX HY Hi Hz. set (p := fun x => if in_dec (list_eq_dec Z.eq_dec) x Y then true else false).
  rewrite (ksum_split Cs X g p).
  assert (E1 : ksum (K:=Cs) (filter (fun a => negb (p a)) X) g = (0,0)%R).
  { apply csum_zero. intros x Hx. apply filter_In in Hx. destruct Hx as [Hx Hp]. apply Hz; [exact Hx|].
    intros HY'. unfold p in Hp. destruct (in_dec _ x Y); [discriminate Hp|contradiction]. }
  transitivity (cadd (csum (filter p X) g) (0,0)%R); [apply (f_equal (cadd (csum (filter p X) g))); exact E1|].
  transitivity (csum (filter p X) g); [set (Y0 := csum _ _); csolve|].
  apply (ksum_perm Cs). apply NoDup_Permutation; [apply NoDup_filter; exact HX|exact HY|]. intros x. rewrite filter_In. unfold p.
  split.
  - intros [_ H]. destruct (in_dec _ x Y); [assumption|discriminate H].
  - intros H. split; [apply Hi; exact H|]. destruct (in_dec _ x Y); [reflexivity|contradiction].
Qed.

Variable u : nat -> cplx.
Definition fold_vec (I : nat) : cplx := cmul (phase n k (P I)) (u (I mod d)%nat).

Lemma super_apply I : I < N ->
  nsum (K:=Cs) N (fun J => cmul (fs_f n (zfs_real sres) k I J) (fold_vec J)) =
  cmul (phase n k (P I)) (nsum (K:=Cs) d (fun b => cmul (fs_f n (zfs_real s) k (I mod d) b) (u b))).
Proof.
  intros HI. assert (Ha : I mod d < d) by (apply Nat.mod_upper_bound; lia). set (a := I mod d) in *.
  assert (Hq : I / d < length ps) by (apply Nat.div_lt_upper_bound; lia).
  assert (HPi : In (P I) ps) by (apply nth_In; exact Hq).
  set (phi := fun z p => zvdiff n (zvadd n (zmv n L z) p) (P I)).
  set (g := fun x => cmul (phase n k (P I)) (cmul (phase n k x) (nsum (K:=Cs) d (fun b => cmul (hop n s x a b) (u b))))).
  transitivity (csum (sup n ns) (fun z => csum ps (fun p => g (phi z p)))).
  - rewrite (nsum_prod (K:=Cs)).
    rewrite csum_swap. rewrite <- (nsum_list ps []). apply (nsum_ext Cs). intros q Hqq.
    transitivity (nsum (K:=Cs) d (fun b => csum (sup n ns) (fun z =>
       cmul (cmul (phase n k (zmv n L z)) (phase n k (nth q ps []))) (cmul (hop n s (phi z (nth q ps [])) a b) (u b))))).
    + apply (nsum_ext Cs). intros b Hb. assert (HJ : q * d + b < N) by nia.
      rewrite bloch_super by assumption. unfold fold_vec. fold a.
      replace ((q * d + b) / d) with q by (rewrite Nat.div_add_l, Nat.div_small by lia; lia).
      replace ((q * d + b) mod d) with b by (rewrite Nat.add_comm, Nat.mod_add, Nat.mod_small by lia; reflexivity).
      rewrite <- csum_mul_r. apply csum_ext. intros z _. unfold phi. rg.
    + unfold nsum at 1. rewrite csum_swap. apply csum_ext. intros z Hz. unfold g.
      rewrite csum_mul_l. change (ksum (K:=Cs) (seq 0 d)) with (nsum (K:=Cs) d).
      rewrite <- phase_add. rewrite <- (phase_diff n k (zvadd n (zmv n L z) (nth q ps [])) (P I)). fold (phi z (nth q ps [])).
      set (X := nsum (K:=Cs) d _). rg.
  - transitivity (csum (sup n ns) g).
    + rewrite <- (csum_incl (flat_map (fun z => map (phi z) ps) (sup n ns)) (sup n ns) g).
      * rewrite (ksum_flat_map Cs). apply csum_ext. intros z _. rewrite csum_map. reflexivity.
      * assert (Hinj : forall z z' p p', In z (sup n ns) -> In z' (sup n ns) -> In p ps -> In p' ps -> phi z p = phi z' p' -> p = p' /\ z = z').
        { intros z z' p p' Hz Hz' Hp Hp' E. apply Huniq; [exact Hp|exact Hp'|apply sup_wf; exact Hz|apply sup_wf; exact Hz'|].
          apply (vec_ext Zs n); try apply wfv_vmk. intros i Hi. rewrite !vent_zvadd by exact Hi.
          assert (EE : vent (K:=Zs) (phi z p) i = vent (K:=Zs) (phi z' p') i) by (rewrite E; reflexivity). unfold phi in EE.
          rewrite !vent_zvdiff, !vent_zvadd in EE by exact Hi. lia. }
        apply nodup_flat_map; [apply sup_nodup| |].
        -- intros z Hz. apply nodup_map_in; [|exact Hpn]. intros p p' Hp Hp' E. apply (Hinj z z p p' Hz Hz Hp Hp' E).
        -- intros z z' x Hz Hz' Hx Hx'. apply in_map_iff in Hx. apply in_map_iff in Hx'.
           destruct Hx as (p & <- & Hp). destruct Hx' as (p' & E & Hp'). symmetry in E. apply (Hinj z z' p p' Hz Hz' Hp Hp' E).
      * apply sup_nodup.
      * intros x Hx. pose proof (sup_wf x Hx) as Wx. apply in_flat_map.
        destruct (Hcomp (zvadd n (P I) x)) as (p & z & Hp & Wz & E); [apply wfv_vmk|].
        assert (Hz : In z (sup n ns)).
        { apply in_sup; [exact Wz|]. apply (in_sup x Wx) in Hx. destruct Hx as [Hx|Hx].
          - apply (Hclosed (P I) p x z); assumption.
          - destruct (Hclosed p (P I) (zvneg n x) (zvneg n z)) as [H|H]; try assumption; [apply zvneg_wf| |right; exact H|].
            + apply (vec_ext Zs n); try apply wfv_vmk. intros i Hi. rewrite zmv_neg. rewrite !vent_zvadd, !vent_zvneg by exact Hi.
              assert (EE : vent (K:=Zs) (zvadd n (P I) x) i = vent (K:=Zs) (zvadd n p (zmv n L z)) i) by (rewrite E; reflexivity).
              rewrite !vent_zvadd in EE by exact Hi. lia.
            + left. rewrite zvneg_invol in H by exact Wz. exact H. }
        exists z. split; [exact Hz|]. apply in_map_iff. exists p. split; [|exact Hp]. unfold phi.
        apply (vec_ext Zs n); [apply wfv_vmk|exact Wx|]. intros i Hi. rewrite vent_zvdiff, vent_zvadd by exact Hi.
        assert (EE : vent (K:=Zs) (zvadd n (P I) x) i = vent (K:=Zs) (zvadd n p (zmv n L z)) i) by (rewrite E; reflexivity).
        rewrite !vent_zvadd in EE by exact Hi. lia.
      * intros x Hx Hnx. apply in_flat_map in Hx. destruct Hx as (z & _ & Hx). apply in_map_iff in Hx. destruct Hx as (p & <- & _).
        assert (Wx : wfv (K:=Zs) n (phi z p)) by apply wfv_vmk. set (x := phi z p) in *.
        assert (Eh : hop n s x = fzero).
        { apply hop_out; intros Hc; apply Hnx; apply in_sup; auto. }
        unfold g. rewrite Eh. rewrite (nsum_zero Cs); [|intros b Hb; unfold fzero; cbn; rg]. cbn. rg.
    + unfold g. rewrite csum_mul_l. f_equal. unfold nsum at 2.
      rewrite (csum_ext (seq 0 d) _ (fun b => csum (sup n ns) (fun r => cmul (phase n k r) (cmul (hop n s r a b) (u b))))).
      * rewrite csum_swap. apply csum_ext. intros r _. rewrite csum_mul_l. reflexivity.
      * intros b Hb. apply in_seq in Hb. rewrite bloch_hop by lia. rewrite <- csum_mul_r. apply csum_ext. intros r _. rg.
Qed.
End Super.

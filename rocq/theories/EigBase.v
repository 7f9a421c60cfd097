(** From the eigenvalue equation of a family of matrices to the system treated in EigProofs, the Taylor formula at one
    point, and linearity of the matrix elements. *)
From Coq Require Import List Arith ZArith Reals Lra Lia Bool Setoid Morphisms.
From Coquelicot Require Import Coquelicot.
Import List ListNotations.
From Verif Require Import SRing LMat FMat CplxR UrepModel UrepProofs FourierModel FourierProofs BsmProofs SpecProofs FourierProps EigModel EigProofs.
Local Open Scope R_scope.

(** ** specification *)
(** [e], [w] are an eigenvalue and an eigenvector of the pair H, S: H w = e S w with w <> 0 *)
Definition eigenpair (d : nat) (H S : cmat) (e : R) (w : nat -> cplx) : Prop :=
  (exists j, (j < d)%nat /\ w j <> (0,0)) /\
    forall j, (j < d)%nat -> csum (seq 0 d) (fun m => cmul (H j m) (w m)) = cmul (cre e) (csum (seq 0 d) (fun m => cmul (S j m) (w m))).
(** what np.linalg.eigh (S = 1) and scipy.linalg.eigh promise: the columns of V are eigenvectors, orthonormal for S, and a basis *)
Definition eigenbasis (d : nat) (H S : cmat) (r : (nat -> R) * cmat) : Prop :=
  (forall j k, (j < d)%nat -> (k < d)%nat ->
     csum (seq 0 d) (fun m => cmul (H j m) (snd r m k)) = cmul (cre (fst r k)) (csum (seq 0 d) (fun m => cmul (S j m) (snd r m k)))) /\
  feq (K:=Cs) d d (fmul (K:=Cs) d (fmul (K:=Cs) d (fadj (K:=Cs) (snd r)) S) (snd r)) (fid (K:=Cs)) /\
  feq (K:=Cs) d d (fmul (K:=Cs) d (snd r) (fmul (K:=Cs) d (fadj (K:=Cs) (snd r)) S)) (fid (K:=Cs)).
(** [e] is a band of the pair of matrix functions H(t), S(t) around t = 0: continuous at 0, and an eigenvalue near 0 *)
Definition band (d : nat) (H S : R -> cmat) (e : R -> R) : Prop :=
  continuity_pt e 0 /\ exists (w : R -> nat -> cplx) (dl : R), 0 < dl /\ forall t, Rabs t < dl -> eigenpair d (H t) (S t) (e t) (w t).
(** no other eigenvalue equals the one of band [i] *)
Definition simple (d : nat) (la : nat -> R) (i : nat) : Prop := forall k, (k < d)%nat -> k <> i -> la k <> la i.

Lemma csum_nsum n f : csum (seq 0 n) f = nsum (K:=Cs) n f. Proof. reflexivity. Qed.

(** ** the system in the eigenbasis *)
Section System.
Variables (d : nat) (H0 S0 H S : cmat) (la : nat -> R) (V : cmat) (e : R) (w : nat -> cplx).
Hypothesis HH : hermitian d H0.
Hypothesis HS : hermitian d S0.
Hypothesis HB : eigenbasis d H0 S0 (la, V).
Hypothesis Hw0 : exists j, (j < d)%nat /\ w j <> (0,0).
Hypothesis Hw : forall j, (j < d)%nat -> nsum (K:=Cs) d (fun m => cmul (H j m) (w m)) = cmul (cre e) (nsum (K:=Cs) d (fun m => cmul (S j m) (w m))).
Let W : cmat := fun j _ => w j.
Let D : cmat := fun j m => csub (csub (H j m) (H0 j m)) (cmul (cre e) (csub (S j m) (S0 j m))).
Definition sys_c : nat -> cplx := fun k => fmul (K:=Cs) d (fmul (K:=Cs) d (fadj (K:=Cs) V) S0) W k 0%nat.
Let C : cmat := fmul (K:=Cs) d (fmul (K:=Cs) d (fadj (K:=Cs) V) S0) W.
Lemma sys_back : feq (K:=Cs) d 1 (fmul (K:=Cs) d V C) W.
Proof.
  destruct HB as (_ & _ & B). simpl in B. unfold C. rewrite (fmul_assoc (K:=Cs) d d d 1 V). rewrite B. apply (fmul_id_l (K:=Cs)).
Qed.
Lemma sys_nonzero : exists k, (k < d)%nat /\ sys_c k <> (0,0).
Proof.
  destruct Hw0 as (j & Hj & Hne). pose proof (sys_back j 0%nat Hj (Nat.lt_0_succ 0)) as E.
  change (W j 0%nat) with (w j) in E. rewrite <- E in Hne. unfold fmul in Hne at 1. apply nsum_nonzero in Hne.
  destruct Hne as (k & Hk & Hf). exists k. split; [exact Hk|]. intro F. apply Hf. change (C k 0%nat) with (sys_c k). rewrite F.
  apply cplx_eq; simpl; ring.
Qed.
Lemma sys_left k m : (k < d)%nat -> (m < d)%nat -> fmul (K:=Cs) d (fadj (K:=Cs) V) H0 k m = cmul (cre (la k)) (fmul (K:=Cs) d (fadj (K:=Cs) V) S0 k m).
Proof.
  intros Hk Hm. destruct HB as (B & _ & _). specialize (B m k Hm Hk). simpl in B. apply (f_equal cconj) in B.
  change cconj with (@sconj Cs) in B. rewrite !csum_nsum in B.
  assert (E : forall X : cmat, hermitian d X -> @sconj Cs (nsum (K:=Cs) d (fun m0 => cmul (X m m0) (V m0 k))) = fmul (K:=Cs) d (fadj (K:=Cs) V) X k m).
  { intros X HX. rewrite (nsum_conj Cs). unfold fmul, fadj. apply (nsum_ext Cs). intros p Hp. rewrite (HX p m Hp Hm). simpl. apply cplx_eq; simpl; ring. }
  rewrite (E H0 HH) in B. rewrite B. clear B.
  change (@sconj Cs (cmul (cre (la k)) (nsum (K:=Cs) d (fun m0 => cmul (S0 m m0) (V m0 k)))))
    with (cconj (cmul (cre (la k)) (nsum (K:=Cs) d (fun m0 => cmul (S0 m m0) (V m0 k))))).
  rewrite <- (E S0 HS). apply cplx_eq; simpl; ring.
Qed.
Lemma sys_eq k : (k < d)%nat -> cmul (cre (e - la k)) (sys_c k) = nsum (K:=Cs) d (fun l => cmul (eig_el d V D k l) (sys_c l)).
Proof.
  intro Hk.
  assert (E1 : nsum (K:=Cs) d (fun l => cmul (eig_el d V D k l) (sys_c l)) = fmul (K:=Cs) d (fadj (K:=Cs) V) (fmul (K:=Cs) d D W) k 0%nat).
  { change (fmul (K:=Cs) d (eig_el d V D) C k 0%nat = fmul (K:=Cs) d (fadj (K:=Cs) V) (fmul (K:=Cs) d D W) k 0%nat).
    assert (Q : feq (K:=Cs) d 1 (fmul (K:=Cs) d (eig_el d V D) C) (fmul (K:=Cs) d (fadj (K:=Cs) V) (fmul (K:=Cs) d D W))).
    { unfold eig_el. rewrite <- (fmul_assoc (K:=Cs) d d d 1 (fmul (K:=Cs) d (fadj (K:=Cs) V) D) V C). rewrite sys_back.
      symmetry. apply (fmul_assoc (K:=Cs)). }
    exact (Q k 0%nat Hk (Nat.lt_0_succ 0)). }
  rewrite E1. clear E1.
  assert (E2 : feq (K:=Cs) d 1 (fmul (K:=Cs) d D W) (fadd (K:=Cs) (fscale (K:=Cs) (cre (-1)) (fmul (K:=Cs) d H0 W)) (fscale (K:=Cs) (cre e) (fmul (K:=Cs) d S0 W)))).
  { intros j z Hj _. pose proof (Hw j Hj) as E. unfold fmul, fadd, fscale, D, W. clear -E.
    transitivity (cadd (csub (nsum (K:=Cs) d (fun m => cmul (H j m) (w m))) (cmul (cre e) (nsum (K:=Cs) d (fun m => cmul (S j m) (w m)))))
      (cadd (cmul (cre (-1)) (nsum (K:=Cs) d (fun m => cmul (H0 j m) (w m)))) (cmul (cre e) (nsum (K:=Cs) d (fun m => cmul (S0 j m) (w m)))))).
    - clear E. induction d as [|n IH]; [apply cplx_eq; simpl; ring|]. rewrite !(nsum_S Cs), IH. apply cplx_eq; simpl; ring.
    - rewrite E. apply cplx_eq; simpl; ring. }
  assert (E3 : feq (K:=Cs) d 1 (fmul (K:=Cs) d (fadj (K:=Cs) V) (fmul (K:=Cs) d D W))
    (fadd (K:=Cs) (fscale (K:=Cs) (cre (-1)) (fmul (K:=Cs) d (fmul (K:=Cs) d (fadj (K:=Cs) V) H0) W)) (fscale (K:=Cs) (cre e) C))).
  { rewrite E2. rewrite (fmul_add_r (K:=Cs)), !(fmul_scale_r (K:=Cs)). rewrite (fmul_assoc (K:=Cs) d d d 1 (fadj (K:=Cs) V) H0 W), (fmul_assoc (K:=Cs) d d d 1 (fadj (K:=Cs) V) S0 W). reflexivity. }
  rewrite (E3 k 0%nat Hk (Nat.lt_0_succ 0)). unfold fadd, fscale. change (C k 0%nat) with (sys_c k).
  assert (E4 : fmul (K:=Cs) d (fmul (K:=Cs) d (fadj (K:=Cs) V) H0) W k 0%nat = cmul (cre (la k)) (sys_c k)).
  { unfold sys_c, fmul at 1. rewrite (nsum_ext Cs d _ (fun l => @smul Cs (cre (la k)) (@smul Cs (fmul (K:=Cs) d (fadj (K:=Cs) V) S0 k l) (W l 0%nat)))).
    - rewrite (nsum_mul_l Cs). reflexivity.
    - intros l Hl. rewrite (sys_left k l Hk Hl). simpl. apply cplx_eq; simpl; ring. }
  rewrite E4. apply cplx_eq; simpl; ring.
Qed.
End System.

(** ** linearity of the matrix elements *)
Lemma eig_el_entry d V X k l : eig_el d V X k l = nsum (K:=Cs) d (fun m => nsum (K:=Cs) d (fun j => cmul (cmul (cconj (V j k)) (X j m)) (V m l))).
Proof.
  unfold eig_el. unfold fmul at 1. apply (nsum_ext Cs). intros m _. unfold fmul, fadj. rewrite <- (nsum_mul_r Cs). reflexivity.
Qed.
Lemma eig_el_ext d V X Y k l : feq (K:=Cs) d d X Y -> eig_el d V X k l = eig_el d V Y k l.
Proof.
  intro H. rewrite !eig_el_entry. apply (nsum_ext Cs). intros m Hm. apply (nsum_ext Cs). intros j Hj. rewrite (H j m Hj Hm). reflexivity.
Qed.
Lemma eig_el_scale d V X r k l : eig_el d V (fun j m => cmul (cre r) (X j m)) k l = cmul (cre r) (eig_el d V X k l).
Proof.
  rewrite !eig_el_entry. change (cmul (cre r)) with (@smul Cs (cre r)). rewrite <- (nsum_mul_l Cs). apply (nsum_ext Cs). intros m _.
  rewrite <- (nsum_mul_l Cs). apply (nsum_ext Cs). intros j _. apply cplx_eq; simpl; ring.
Qed.
Lemma eig_el_add d V X Y k l : eig_el d V (fun j m => cadd (X j m) (Y j m)) k l = cadd (eig_el d V X k l) (eig_el d V Y k l).
Proof.
  rewrite !eig_el_entry. change cadd with (@sadd Cs). rewrite <- (nsum_add Cs). apply (nsum_ext Cs). intros m _.
  rewrite <- (nsum_add Cs). apply (nsum_ext Cs). intros j _. apply cplx_eq; simpl; ring.
Qed.
Lemma eig_el_sub d V X Y k l : eig_el d V (fun j m => csub (X j m) (Y j m)) k l = csub (eig_el d V X k l) (eig_el d V Y k l).
Proof.
  rewrite !eig_el_entry. change csub with (@ssub Cs). rewrite <- (nsum_sub Cs). apply (nsum_ext Cs). intros m _.
  rewrite <- (nsum_sub Cs). apply (nsum_ext Cs). intros j _. apply cplx_eq; simpl; ring.
Qed.
Lemma eig_el_zero d V k l : eig_el d V (fun _ _ => (0,0)) k l = (0,0).
Proof.
  rewrite eig_el_entry. apply (nsum_zero Cs). intros m _. apply (nsum_zero Cs). intros j _. apply cplx_eq; simpl; ring.
Qed.
Lemma eig_el_nsum d V n (X : nat -> cmat) k l :
  eig_el d V (fun j m => nsum (K:=Cs) n (fun a => X a j m)) k l = nsum (K:=Cs) n (fun a => eig_el d V (X a) k l).
Proof.
  induction n as [|n IH]; [exact (eig_el_zero d V k l)|].
  rewrite (nsum_S Cs), <- IH.
  transitivity (eig_el d V (fun j m => cadd (nsum (K:=Cs) n (fun a => X a j m)) (X n j m)) k l); [|apply eig_el_add].
  apply eig_el_ext. intros j m _ _. rewrite (nsum_S Cs). reflexivity.
Qed.
Lemma eig_el_contract d V n v (X : nat -> cmat) k l :
  eig_el d V (contract n v X) k l = nsum (K:=Cs) n (fun a => cmul (cre (v a)) (eig_el d V (X a) k l)).
Proof.
  unfold contract. etransitivity; [exact (eig_el_nsum d V n (fun a j m => cmul (cre (v a)) (X a j m)) k l)|].
  apply (nsum_ext Cs). intros a _. apply eig_el_scale.
Qed.
Lemma eig_el_herm d V X k l : hermitian d X -> eig_el d V X k l = cconj (eig_el d V X l k).
Proof.
  intro H. rewrite !eig_el_entry. change cconj with (@sconj Cs). rewrite (nsum_conj Cs).
  transitivity (nsum (K:=Cs) d (fun m => nsum (K:=Cs) d (fun j => cmul (cmul (cconj (V m k)) (X m j)) (V j l)))); [apply (nsum_swap Cs)|].
  apply (nsum_ext Cs). intros m Hm. rewrite (nsum_conj Cs). apply (nsum_ext Cs). intros j Hj. rewrite (H m j Hm Hj). apply cplx_eq; simpl; ring.
Qed.
Lemma fst_nsum n (f : nat -> cplx) : fst (nsum (K:=Cs) n f) = nsum (K:=Rs) n (fun k => fst (f k)).
Proof. induction n as [|n IH]; [reflexivity|]. rewrite (nsum_S Cs), (nsum_S Rs), <- IH. reflexivity. Qed.
Lemma clim_eig_el d V (X : R -> cmat) L k l : (forall j m, (j < d)%nat -> (m < d)%nat -> clim (fun t => X t j m) (L j m)) ->
  clim (fun t => eig_el d V (X t) k l) (eig_el d V L k l).
Proof.
  intro H. rewrite eig_el_entry.
  apply (clim_ext_near (fun t => nsum (K:=Cs) d (fun m => nsum (K:=Cs) d (fun j => cmul (cmul (cconj (V j k)) (X t j m)) (V m l))))).
  - apply filter_forall. intro t. rewrite eig_el_entry. reflexivity.
  - apply (clim_nsum d (fun t m => nsum (K:=Cs) d (fun j => cmul (cmul (cconj (V j k)) (X t j m)) (V m l)))). intros m Hm.
    apply (clim_nsum d (fun t j => cmul (cmul (cconj (V j k)) (X t j m)) (V m l))). intros j Hj.
    apply clim_mul; [apply clim_mul; [apply clim_const|apply H; assumption]|apply clim_const].
Qed.

(** ** derivatives as limits *)
Lemma ball0 (y : R) (dl : posreal) : ball 0 dl y <-> Rabs y < dl.
Proof.
  change (Rabs (y + - 0) < dl <-> Rabs y < dl). replace (y + - 0) with y by ring. reflexivity.
Qed.
Lemma derive_lim (f : R -> R) (l : R) : is_derive f 0 l -> is_lim (fun t => / t * (f t - f 0)) 0 l.
Proof.
  intro H. apply is_derive_Reals in H. apply is_lim_eps. intros eps He. destruct (H eps He) as [dl Hd].
  exists dl. intros y Hy Hne. apply (proj1 (ball0 _ _)) in Hy. specialize (Hd y Hne Hy). rewrite Rplus_0_l in Hd.
  replace (/ y * (f y - f 0) - l) with ((f y - f 0) / y - l) by (field; exact Hne). exact Hd.
Qed.
Lemma lim_derive (f : R -> R) (l : R) : is_lim (fun t => (f t - f 0) / t) 0 l -> is_derive f 0 l.
Proof.
  intro H. apply is_derive_Reals. intros eps He. destruct (proj1 (is_lim_eps _ l) H eps He) as [dl Hd].
  exists dl. intros h Hne Hh. rewrite Rplus_0_l. apply Hd; [|exact Hne]. apply (proj2 (ball0 _ _)). exact Hh.
Qed.
Lemma cderiv_clim f l : cderiv f 0 l -> clim (fun t => cmul (cre (/ t)) (csub (f t) (f 0))) l.
Proof.
  intros [A B]. split; simpl.
  - apply (is_lim_ext (fun t => / t * (fst (f t) - fst (f 0)))); [intro; ring|]. apply (derive_lim (fun t => fst (f t))). exact A.
  - apply (is_lim_ext (fun t => / t * (snd (f t) - snd (f 0)))); [intro; ring|]. apply (derive_lim (fun t => snd (f t))). exact B.
Qed.
Lemma lim_id : is_lim (fun t => t) 0 0. Proof. apply is_lim_id. Qed.
Lemma clim_bounded_times_t f l : clim (fun t => cmul (cre (/ t)) (f t)) l -> clim f (0,0).
Proof.
  intro H. apply (clim_ext_near (fun t => cmul (cre t) (cmul (cre (/ t)) (f t)))).
  - generalize near0_nz. apply near0_imp. intros t Ht. apply cplx_eq; simpl; field; exact Ht.
  - apply (clim_eq _ (cmul (cre 0) l)); [apply cplx_eq; simpl; ring|]. apply clim_mul; [apply clim_re; exact lim_id|exact H].
Qed.
(** Taylor with Peano remainder *)
Lemma taylor2 (f f1 : R -> R) f2 : (forall t, is_derive f t (f1 t)) -> is_derive f1 0 f2 ->
  is_lim (fun t => / (t * t) * (f t - f 0 - t * f1 0)) 0 (f2 / 2).
Proof.
  intros D1 D2. apply is_lim_eps. intros eps He.
  pose proof (derive_lim f1 f2 D2) as L. destruct (proj1 (is_lim_eps _ f2) L eps He) as [dl Hd].
  exists dl. intros t Ht Hne. apply (proj1 (ball0 _ _)) in Ht.
  assert (De : forall x, is_derive (fun s => f s - f 0 - s * f1 0 - s * s * (f2 / 2)) x (f1 x - f1 0 - x * f2)).
  { intro x. replace (f1 x - f1 0 - x * f2) with (f1 x - 0 - 1 * f1 0 - (1 * x + x * 1) * (f2 / 2)) by field.
    pose proof (D1 x) as Q. apply is_derive_Reals in Q. apply is_derive_Reals.
    apply derivable_pt_lim_minus; [apply derivable_pt_lim_minus; [apply derivable_pt_lim_minus; [exact Q|apply derivable_pt_lim_const]|]|].
    - replace (1 * f1 0) with (1 * f1 0 + x * 0) by ring. apply (derivable_pt_lim_mult id (fun _ => f1 0)); [apply derivable_pt_lim_id|apply derivable_pt_lim_const].
    - replace ((1 * x + x * 1) * (f2 / 2)) with ((1 * x + x * 1) * (f2 / 2) + x * x * 0) by ring.
      apply (derivable_pt_lim_mult (fun s => s * s) (fun _ => f2 / 2)); [|apply derivable_pt_lim_const].
      apply (derivable_pt_lim_mult id id); apply derivable_pt_lim_id. }
  destruct (MVT_gen (fun s => f s - f 0 - s * f1 0 - s * s * (f2 / 2)) 0 t (fun x => f1 x - f1 0 - x * f2)) as (c & Hc & Ec).
  - intros x _. apply De.
  - intros x _. apply derivable_continuous_pt. eexists. apply is_derive_Reals. apply De.
  - assert (Hct : Rabs c <= Rabs t). { unfold Rmin, Rmax in Hc. destruct (Rle_dec 0 t); [rewrite !Rabs_pos_eq; lra|rewrite !Rabs_left1; lra]. }
    assert (Tp : 0 < Rabs t) by (apply Rabs_pos_lt; exact Hne).
    replace (/ (t * t) * (f t - f 0 - t * f1 0) - f2 / 2) with (/ (t * t) * ((f1 c - f1 0 - c * f2) * t)).
    2:{ replace ((f1 c - f1 0 - c * f2) * t) with ((f1 c - f1 0 - c * f2) * (t - 0)) by ring. rewrite <- Ec. field. exact Hne. }
    destruct (Req_dec c 0) as [-> |Hc0].
    + replace (/ (t * t) * ((f1 0 - f1 0 - 0 * f2) * t)) with 0 by (field; exact Hne). rewrite Rabs_R0. exact He.
    + assert (Hb : Rabs (/ c * (f1 c - f1 0) - f2) < eps).
      { apply Hd; [|exact Hc0]. apply (proj2 (ball0 _ _)). lra. }
      replace (/ (t * t) * ((f1 c - f1 0 - c * f2) * t)) with ((c * / t) * (/ c * (f1 c - f1 0) - f2)) by (field; split; assumption).
      rewrite !Rabs_mult, Rabs_inv.
      apply Rle_lt_trans with (1 * Rabs (/ c * (f1 c - f1 0) - f2)); [|lra].
      apply Rmult_le_compat_r; [apply Rabs_pos|]. apply (Rmult_le_reg_r (Rabs t)); [exact Tp|]. rewrite Rmult_assoc, Rinv_l by lra. lra.
Qed.
Lemma ctaylor2 (f f1 : R -> cplx) f2 : (forall t, cderiv f t (f1 t)) -> cderiv f1 0 f2 ->
  clim (fun t => cmul (cre (/ (t * t))) (csub (csub (f t) (f 0)) (cmul (cre t) (f1 0)))) (cmul (cre (1 / 2)) f2).
Proof.
  intros D1 [D2 D3]. split; simpl.
  - apply (is_lim_ext (fun t => / (t * t) * (fst (f t) - fst (f 0) - t * fst (f1 0)))); [intro; ring|].
    replace (1 / 2 * fst f2 - 0 * snd f2) with (fst f2 / 2) by field.
    apply (taylor2 (fun t => fst (f t)) (fun t => fst (f1 t))); [intro t; apply D1|exact D2].
  - apply (is_lim_ext (fun t => / (t * t) * (snd (f t) - snd (f 0) - t * snd (f1 0)))); [intro; ring|].
    replace (1 / 2 * snd f2 + 0 * fst f2) with (snd f2 / 2) by field.
    apply (taylor2 (fun t => snd (f t)) (fun t => snd (f1 t))); [intro t; apply D1|exact D3].
Qed.
Lemma cderiv_shift f x l : cderiv (fun s => f (x + s)) 0 l -> cderiv f x l.
Proof.
  assert (Q : forall (g : R -> R) m, is_derive (fun s => g (x + s)) 0 m -> is_derive g x m).
  { intros g m H. apply is_derive_Reals in H. apply is_derive_Reals. intros eps He. destruct (H eps He) as [dl Hd]. exists dl.
    intros h Hh Hl. specialize (Hd h Hh Hl). rewrite Rplus_0_l, Rplus_0_r in Hd. exact Hd. }
  intros [A B]. split; [apply (Q (fun t => fst (f t))); exact A|apply (Q (fun t => snd (f t))); exact B].
Qed.

(** Fermi surface selection (C44), OBJ export (C45), plot coordinates (C61). *)
From Coq Require Import List Arith ZArith Reals Bool Lra Lia Sorted.
Import ListNotations.
From Verif Require Import NbrModel LossModel LossProps KPathProps FermiModel.
Local Open Scope R_scope.

(* ------------------------------------------------------------------ C44 *)
(** a band crosses the Fermi energy on the samples *)
Definition crosses (nk : nat) (bands : barr) (ef : R) (i : nat) : Prop :=
  (exists k, (k < nk)%nat /\ ef < bands k i) /\ (exists k, (k < nk)%nat /\ bands k i < ef).
Lemma fs_selected_iff nk bands ef i : fs_selected nk bands ef i = true <-> crosses nk bands ef i.
Proof.
  unfold fs_selected, crosses. rewrite andb_true_iff, !existsb_exists. split.
  - intros [(k & I & H) (k' & I' & H')]. apply in_seq in I, I'. apply Rltb_iff in H, H'. split; [exists k|exists k']; split; try lia; lra.
  - intros [(k & I & H) (k' & I' & H')]. split; [exists k|exists k']; (split; [apply in_seq; lia|apply Rltb_iff; lra]).
Qed.
Lemma filter_seq_sorted f a m : StronglySorted lt (filter f (seq a m)).
Proof.
  revert a. induction m as [|m IH]; intros a; cbn; [constructor|]. destruct (f a); [|apply IH]. constructor; [apply IH|].
  apply Forall_forall. intros x Hx. apply filter_In in Hx. destruct Hx as [Hx _]. apply in_seq in Hx. lia.
Qed.
Theorem C44_fermi_surface nk nb bands ef :
  let (volumes, indices) := fermi_surface nk nb bands ef in
  (forall i, In i indices <-> (i < nb)%nat /\ crosses nk bands ef i)
  /\ StronglySorted lt indices
  /\ length volumes = length indices
  /\ forall j k, (j < length indices)%nat -> (k < nk)%nat ->
       nth k (nth j volumes []) 0 = bands k (nth j indices 0%nat) - ef /\ length (nth j volumes []) = nk.
Proof.
  unfold fermi_surface. set (idx := filter _ _). split; [|split; [apply filter_seq_sorted|split; [apply map_length|]]].
  - intros i. unfold idx. rewrite filter_In, in_seq, fs_selected_iff. intuition lia.
  - intros j k Hj Hk. set (f := fun i => map (fun k => bands k i - ef) (seq 0 nk)).
    rewrite (nth_indep _ [] (f 0%nat)) by (rewrite map_length; exact Hj). rewrite (map_nth f). unfold f. split; [|rewrite map_length, seq_length; reflexivity].
    rewrite (nth_indep _ 0 ((fun k => bands k (nth j idx 0%nat) - ef) 0%nat)) by (rewrite map_length, seq_length; exact Hk).
    rewrite (map_nth (fun k => bands k (nth j idx 0%nat) - ef)), seq_nth by exact Hk. reflexivity.
Qed.
Print Assumptions C44_fermi_surface.
Definition ex_bands : barr := fun k i => match i with O => INR k | 1%nat => 1 - INR k | _ => 5 end.
Example C44_ex : snd (fermi_surface 2 3 ex_bands (1/2)) = [0; 1]%nat.
Proof.
  unfold fermi_surface, snd. cbn [seq filter].
  assert (A : forall i, fs_selected 2 ex_bands (1/2) i = true <-> (i < 2)%nat).
  { intros i. rewrite fs_selected_iff. unfold crosses, ex_bands. destruct i as [|[|i]].
    - split; [lia|]. intros _. split; [exists 1%nat|exists 0%nat]; cbn; split; try lia; lra.
    - split; [lia|]. intros _. split; [exists 0%nat|exists 1%nat]; cbn; split; try lia; lra.
    - split; [|lia]. intros [_ (k & _ & H)]. lra. }
  rewrite (proj2 (A 0%nat)), (proj2 (A 1%nat)) by lia.
  destruct (fs_selected 2 ex_bands (1/2) 2) eqn:E; [apply A in E; lia|reflexivity].
Qed.

(* ------------------------------------------------------------------ C45 *)
Section ObjProps.
Variable V : Type.
(** A reader of OBJ files: face numbers count all vertices of the file from 1; a face may only use vertices of its group.
    [None] is a malformed file. The result lists the groups with the corner points of their faces, and the materials used. *)
Record ogroup := MkG { g_band : nat; g_first : nat; g_faces : list (list V); g_mat : list nat }.
Definition corner (verts : list V) (first i : nat) : option V :=
  if Nat.leb i first then None else nth_error verts (i - 1).
Fixpoint corners (verts : list V) (first : nat) (l : list nat) : option (list V) :=
  match l with
  | [] => Some []
  | i :: r => match corner verts first i, corners verts first r with Some v, Some vs => Some (v :: vs) | _, _ => None end
  end.
Fixpoint obj_read (verts : list V) (done : list ogroup) (cur : option ogroup) (l : list (oline V)) : option (list ogroup) :=
  match l with
  | [] => Some (done ++ match cur with Some g => [g] | None => [] end)
  | OGroup b :: r => obj_read verts (done ++ match cur with Some g => [g] | None => [] end) (Some (MkG b (length verts) [] [])) r
  | OVert v :: r => obj_read (verts ++ [v]) done cur r
  | OUse c :: r => match cur with
                   | Some g => obj_read verts done (Some (MkG (g_band g) (g_first g) (g_faces g) (g_mat g ++ [c]))) r
                   | None => None end
  | OFace f :: r => match cur with
                    | Some g => match corners verts (g_first g) f with
                                | Some vs => obj_read verts done (Some (MkG (g_band g) (g_first g) (g_faces g ++ [vs]) (g_mat g))) r
                                | None => None end
                    | None => None end
  end.
(** meshes as marching cubes returns them *)
Definition mesh_ok (m : mesh V) : Prop := Forall (Forall (fun i => (i < length (m_verts m))%nat)) (m_faces m).
(** the expected groups *)
Definition resolves (m : mesh V) (f : list nat) (vs : list V) : Prop := Forall2 (fun i v => nth_error (m_verts m) i = Some v) f vs.
Fixpoint groups_of (index vi : nat) (l : list (nat * mesh V)) (gs : list ogroup) : Prop :=
  match l, gs with
  | [], [] => True
  | (b, m) :: r, g :: gr => g_band g = b /\ g_first g = vi /\ g_mat g = [index] /\ Forall2 (resolves m) (m_faces m) (g_faces g)
                            /\ groups_of (S index) (vi + length (m_verts m)) r gr
  | _, _ => False
  end.

Lemma read_verts vs : forall verts done cur r, obj_read verts done cur (map OVert vs ++ r) = obj_read (verts ++ vs) done cur r.
Proof. induction vs as [|v vs IH]; intros; cbn; [now rewrite app_nil_r|]. rewrite IH, <- app_assoc. reflexivity. Qed.
Lemma corners_ok pre vs f : Forall (fun i => (i < length vs)%nat) f ->
  exists ws, corners (pre ++ vs) (length pre) (map (fun i => (i + 1 + length pre)%nat) f) = Some ws
    /\ Forall2 (fun i v => nth_error vs i = Some v) f ws.
Proof.
  induction f as [|i f IH]; intros H; [exists []; split; [reflexivity|constructor]|].
  inversion H as [|? ? H1 H2]; subst. destruct (IH H2) as (ws & E & F). cbn [map corners]. rewrite E. unfold corner.
  destruct (Nat.leb_spec (i + 1 + length pre) (length pre)); [lia|]. rewrite nth_error_app2 by lia.
  replace (i + 1 + length pre - 1 - length pre)%nat with i by lia.
  destruct (nth_error vs i) as [v|] eqn:Ev; [|apply nth_error_None in Ev; lia].
  exists (v :: ws). split; [reflexivity|]. constructor; assumption.
Qed.
Lemma read_faces pre vs fs : Forall (Forall (fun i => (i < length vs)%nat)) fs -> forall done b mat acc r,
  exists gf, obj_read (pre ++ vs) done (Some (MkG b (length pre) acc mat)) (map (fun f => OFace (map (fun i => (i + 1 + length pre)%nat) f)) fs ++ r)
    = obj_read (pre ++ vs) done (Some (MkG b (length pre) (acc ++ gf) mat)) r
   /\ Forall2 (fun f ws => Forall2 (fun i v => nth_error vs i = Some v) f ws) fs gf.
Proof.
  induction fs as [|f fs IH]; intros H done b mat acc r; [exists []; rewrite app_nil_r; split; [reflexivity|constructor]|].
  inversion H as [|? ? H1 H2]; subst. destruct (corners_ok pre vs f H1) as (ws & E & F).
  destruct (IH H2 done b mat (acc ++ [ws]) r) as (gf & E' & F').
  exists (ws :: gf). split; [|constructor; assumption]. cbn [map app obj_read g_first g_band g_faces g_mat]. rewrite E, E', <- app_assoc. reflexivity.
Qed.
Lemma read_export l : Forall (fun bm => mesh_ok (snd bm)) l -> forall index verts done cur,
  exists gs, obj_read verts done cur (export_loop index (length verts) l) = Some (done ++ match cur with Some g => [g] | None => [] end ++ gs)
   /\ groups_of index (length verts) l gs.
Proof.
  induction l as [|[b m] l IH]; intros H index verts done cur.
  - exists []. cbn. rewrite app_nil_r. split; [reflexivity|exact I].
  - inversion H as [|? ? H1 H2]; subst. cbn [snd] in H1. cbn [export_loop export_band fst snd app]. cbn [obj_read].
    rewrite <- app_assoc. rewrite read_verts. cbn [app obj_read g_band g_first g_faces g_mat].
    destruct (read_faces verts (m_verts m) (m_faces m) H1 (done ++ match cur with Some g => [g] | None => [] end) b [index] []
       (export_loop (S index) (length verts + length (m_verts m)) l)) as (gf & E & F).
    rewrite E. cbn [app]. rewrite <- app_length.
    destruct (IH H2 (S index) (verts ++ m_verts m) (done ++ match cur with Some g => [g] | None => [] end) (Some (MkG b (length verts) gf [index]))) as (gs & Eg & Fg).
    exists (MkG b (length verts) gf [index] :: gs). split; [rewrite Eg, <- !app_assoc; reflexivity|].
    cbn. rewrite app_length in Fg. repeat split; auto.
Qed.

(** Reading the exported file gives back every band with its triangles: all face numbers are valid and stay in their group. *)
Theorem C45_faces (l : list (nat * mesh V)) : Forall (fun bm => mesh_ok (snd bm)) l ->
  exists gs, obj_read [] [] None (export_obj l) = Some gs /\ groups_of 0 0 l gs.
Proof. intros H. exact (read_export l H 0%nat [] [] None). Qed.

(** Materials: all used ones are defined exactly when there are no more bands than colors. *)
Definition materials_used (l : list (oline V)) : list nat := flat_map (fun x => match x with OUse c => [c] | _ => [] end) l.
Lemma used_loop l : forall index vi, materials_used (export_loop index vi l) = seq index (length l).
Proof.
  assert (A : forall vs, materials_used (map OVert vs) = []) by (induction vs; cbn; auto).
  assert (B : forall vi fs, materials_used (map (fun f => OFace (map (fun i => (i + 1 + vi)%nat) f)) fs) = []) by (induction fs; cbn; auto).
  unfold materials_used in *. induction l as [|[b m] l IH]; intros index vi; [reflexivity|]. cbn [export_loop export_band fst snd length seq].
  rewrite flat_map_app, IH. unfold export_band. cbn [flat_map app fst snd]. rewrite flat_map_app, A. cbn [flat_map app]. rewrite B. reflexivity.
Qed.
Theorem C45_materials_partial ncol (l : list (nat * mesh V)) :
  (forall c, In c (materials_used (export_obj l)) -> In c (mtl_names ncol)) <-> (length l <= ncol)%nat.
Proof.
  unfold export_obj, mtl_names. rewrite used_loop. split.
  - intros H. destruct (Nat.le_gt_cases (length l) ncol) as [|Q]; [assumption|].
    assert (I : In ncol (seq 0 (length l))) by (apply in_seq; lia). apply H in I. apply in_seq in I. lia.
  - intros H c Hc. apply in_seq in Hc. apply in_seq. lia.
Qed.
(** plotting shows all bands exactly when there are no more bands than colors *)
Theorem C45_plot_partial ncol (l : list (nat * mesh V)) : plot_bands ncol l = l <-> (length l <= ncol)%nat.
Proof.
  unfold plot_bands. split.
  - intros H. apply (f_equal (@length _)) in H. rewrite firstn_length in H. lia.
  - intros H. apply firstn_all2. exact H.
Qed.
End ObjProps.
Print Assumptions C45_faces.
Print Assumptions C45_materials_partial.
Print Assumptions C45_plot_partial.
(** With the default palette of ten colors and eleven bands the file uses the undefined material color10, and the plot omits a band. *)
Theorem C45_materials_refuted : exists l : list (nat * mesh nat), Forall (fun bm => mesh_ok nat (snd bm)) l
  /\ In 10%nat (materials_used nat (export_obj l)) /\ ~ In 10%nat (mtl_names 10) /\ plot_bands 10 l <> l.
Proof.
  exists (map (fun b => (b, MkMesh [1; 2; 3]%nat [[0; 1; 2]%nat])) (seq 0 11)). split; [|split; [|split]].
  - apply Forall_forall. intros x Hx. apply in_map_iff in Hx. destruct Hx as (b & <- & _). repeat constructor.
  - vm_compute. tauto.
  - vm_compute. intuition discriminate.
  - vm_compute. discriminate.
Qed.
Print Assumptions C45_materials_refuted.
Definition ex_meshes : list (nat * mesh nat) :=
  [(2%nat, MkMesh [10; 11; 12]%nat [[0; 1; 2]%nat]); (5%nat, MkMesh [20; 21; 22; 23]%nat [[0; 1; 2]%nat; [1; 2; 3]%nat])].
Example C45_ex : Forall (fun bm => mesh_ok nat (snd bm)) ex_meshes /\ In (OFace [5; 6; 7]%nat) (export_obj ex_meshes)
  /\ option_map (map (g_faces nat)) (obj_read nat [] [] None (export_obj ex_meshes)) = Some [[[10; 11; 12]]; [[20; 21; 22]; [21; 22; 23]]]%nat.
Proof. split; [repeat constructor; cbn; lia|]. split; [vm_compute; tauto|reflexivity]. Qed.

(* ------------------------------------------------------------------ C61 *)
(** the k coordinate of grid coordinate v: linear, with the samples at the integers *)
Definition grid_coord (N : nat) (lo hi : R) (f : R -> R) : Prop :=
  forall i, (i < N)%nat -> f (INR i) = linspace N lo hi i.
Theorem C61_plot_scale_refuted N lo hi : (2 <= N)%nat -> lo < hi ->
  plot_coord N lo hi (INR (N - 1)) < linspace N lo hi (N - 1) /\ linspace N lo hi (N - 1) = hi
  /\ ~ grid_coord N lo hi (plot_coord N lo hi).
Proof.
  intros HN H. assert (P : 0 < INR (N - 1)) by (apply lt_0_INR; lia).
  assert (Q : INR N = INR (N - 1) + 1) by (rewrite <- S_INR; f_equal; lia).
  assert (E : linspace N lo hi (N - 1) = hi) by (unfold linspace; field; lra).
  assert (L : plot_coord N lo hi (INR (N - 1)) < hi).
  { unfold plot_coord. assert (INR (N - 1) / INR N < 1).
    { apply (Rmult_lt_reg_r (INR N)); [lra|]. unfold Rdiv. rewrite Rmult_assoc, Rinv_l by lra. lra. }
    nra. }
  split; [rewrite E; exact L|]. split; [exact E|]. intros G. specialize (G (N - 1)%nat ltac:(lia)). lra.
Qed.
Print Assumptions C61_plot_scale_refuted.
(** the drawn picture is the right one shrunk by (N-1)/N towards the lower corner *)
Theorem C61_plot_shrink_partial N lo hi i : (2 <= N)%nat ->
  plot_coord N lo hi (INR i) - lo = INR (N - 1) / INR N * (linspace N lo hi i - lo).
Proof.
  intros HN. assert (P : 0 < INR (N - 1)) by (apply lt_0_INR; lia). assert (P' : 0 < INR N) by (apply lt_0_INR; lia).
  unfold plot_coord, linspace. field. lra.
Qed.
Print Assumptions C61_plot_shrink_partial.
Example C61_ex : plot_coord 2 0 1 1 = 1 / 2 /\ linspace 2 0 1 1 = 1.
Proof. unfold plot_coord, linspace. cbn. split; field. Qed.

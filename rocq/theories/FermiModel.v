(** Model of fermi_surface.py: fermi_surface, the plot coordinates and the OBJ export. Definitions only. *)
From Coq Require Import List Arith ZArith Reals Bool.
Import ListNotations.
From Verif Require Import NbrModel LossModel.
Local Open Scope R_scope.

(** fermi_surface l.13-32. [bands] is the result of the model on the nk flattened samples, nb bands; the final reshape of
    the volumes to the shape of the samples is not modelled. The result pairs each volume with its index. *)
Definition fs_selected (nk : nat) (bands : barr) (ef : R) (i : nat) : bool :=
  (existsb (fun k => Rltb 0 (bands k i - ef)) (seq 0 nk) && existsb (fun k => Rltb (bands k i - ef) 0) (seq 0 nk))%bool.
Definition fermi_surface (nk nb : nat) (bands : barr) (ef : R) : list (list R) * list nat :=
  let idx := filter (fs_selected nk bands ef) (seq 0 nb) in
  (map (fun i => map (fun k => bands k i - ef) (seq 0 nk)) idx, idx).

(** A mesh returned by skimage.measure.marching_cubes: vertices (in grid index coordinates) and faces. *)
Section Obj.
Variable V : Type.
Record mesh := MkMesh { m_verts : list V; m_faces : list (list nat) }.
(** the lines of the obj file; the numbers of a face are integers as printed *)
Inductive oline := OGroup (band : nat) | OVert (v : V) | OUse (color : nat) | OFace (idx : list nat).
(** l.136-146 for one band; [index] is the running number of the band, [vi] is vert_index *)
Definition export_band (index vi : nat) (bm : nat * mesh) : list oline :=
  OGroup (fst bm) :: map OVert (m_verts (snd bm)) ++ OUse index :: map (fun f => OFace (map (fun i => (i + 1 + vi)%nat) f)) (m_faces (snd bm)).
(** the loop l.134-147 *)
Fixpoint export_loop (index vi : nat) (l : list (nat * mesh)) : list oline :=
  match l with
  | [] => []
  | bm :: r => export_band index vi bm ++ export_loop (S index) (vi + length (m_verts (snd bm))) r
  end.
Definition export_obj (l : list (nat * mesh)) : list oline := export_loop 0 0 l.
(** the materials color0, color1, ... of the mtl file, l.113-115, for a palette of [ncol] colors *)
Definition mtl_names (ncol : nat) : list nat := seq 0 ncol.
(** plot_3D_fermi_surface_to_ax l.53: zip with the palette *)
Definition plot_bands (ncol : nat) (l : list (nat * mesh)) : list (nat * mesh) := firstn ncol l.
End Obj.
Arguments MkMesh {V}. Arguments m_verts {V}. Arguments m_faces {V}.
Arguments OGroup {V}. Arguments OVert {V}. Arguments OUse {V}. Arguments OFace {V}.
Arguments export_band {V}. Arguments export_loop {V}. Arguments export_obj {V}. Arguments plot_bands {V}.

(** the coordinate drawn for the grid coordinate v, l.69; the exaggeration of the triangles l.66 is left out *)
Definition plot_coord (N : nat) (lo hi v : R) : R := v / INR N * (hi - lo) + lo.
(** np.linspace(lo, hi, N)[i], l.40 *)
Definition linspace (N : nat) (lo hi : R) (i : nat) : R := lo + INR i * ((hi - lo) / INR (N - 1)).

(** Model of AsymTightBindingModel.supercell (tight_binding_asym.py l.826-873) for integer neighbors and A_original = 1,
    so that the supercell matrix is A_new itself. Exact arithmetic; definitions only. *)
From Coq Require Import List Arith ZArith Reals Bool.
Import ListNotations.
From Verif Require Import SRing LMat FMat CplxR SymModel UrepModel HamModel FourierModel.

(** a HermitianFourierSeries (tight_binding_asym.py l.22-36) with integer neighbors *)
Record zfs := MkZfs { znb : list zvec; zH : list cmat }.
Definition zr (v : zvec) : rvec := fun a => IZR (vent (K:=Zs) v a).
Definition zfs_real (s : zfs) : hfs := MkHfs (map zr (znb s)) (zH s).

(** l.852-854: smallest and largest corner of matrix * [0,1]^n, axis by axis. The corners are the sums over subsets of
    the columns, so the extremes are the sums of the negative / positive entries of the row. *)
Definition box_lo (n : nat) (L : zmat) (i : nat) : Z := nsum (K:=Zs) n (fun j => Z.min 0 (ent (K:=Zs) L i j)).
Definition box_hi (n : nat) (L : zmat) (i : nat) : Z := nsum (K:=Zs) n (fun j => Z.max 0 (ent (K:=Zs) L i j)).
(** np.arange(lo, hi) *)
Definition zrange (lo hi : Z) : list Z := map (fun t => (lo + Z.of_nat t)%Z) (seq 0 (Z.to_nat (hi - lo))).
(** l.857: the grid of all integer points of the half open box. np.meshgrid lists the points in another order, which only
    permutes the sites of the new cell. *)
Fixpoint grid (axes : list (list Z)) : list zvec :=
  match axes with
  | [] => [[]]
  | a :: rest => flat_map (fun x => map (cons x) (grid rest)) a
  end.
Definition box (n : nat) (L : zmat) : list zvec := grid (map (fun i => zrange (box_lo n L i) (box_hi n L i)) (seq 0 n)).
(** l.858-860: points with all components of inv(matrix) x in [0, 1). The inverse is M / D with an integer matrix M and
    0 < D; the components are multiples of 1/D, so the tolerance 1e-7 does not matter for D < 10^7. *)
Definition in_cell (n : nat) (M : zmat) (D : Z) (x : zvec) : bool :=
  forallb (fun i => (0 <=? vent (K:=Zs) (zmv n M x) i)%Z && (vent (K:=Zs) (zmv n M x) i <? D)%Z) (seq 0 n).
Definition cell_positions (n : nat) (L M : zmat) (D : Z) : list zvec := filter (in_cell n M D) (box n L).

(** l.864-872: the hopping blocks between the sites [ps], [d] orbitals each *)
Definition super_block (n d : nat) (s : zfs) (ps : list zvec) (nk : zvec) : cmat := fun I J =>
  match hlook (K:=Cs) n (znb s) (zH s) (zvdiff n (zvadd n nk (nth (J / d) ps [])) (nth (I / d) ps [])) with
  | Some h => h (I mod d)%nat (J mod d)%nat
  | None => (0, 0)%R
  end.
(** l.848 [new_neighbors = neighbors @ matrix.T], l.864-873; [None] is the AssertionError of l.861, with det = [det] *)
Definition supercell (n d : nat) (L M : zmat) (D det : Z) (s : zfs) : option zfs :=
  let ps := cell_positions n L M D in
  let nbs := map (zmv n L) (znb s) in
  if (Z.of_nat (length ps) =? det)%Z then Some (MkZfs nbs (map (super_block n d s ps) nbs)) else None.

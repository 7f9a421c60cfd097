(** * Model of smearing.py: volumes of cut cubes, tetrahedra and spheres

    Everything in smearing.py acts elementwise on numpy arrays, so the model
    works on one array element.  Numbers are real numbers (no rounding, no
    infinities).  [/ 0] is Coq's total inverse; the theorems say where it
    matters. *)

From Coq Require Import Reals List Lia.
From Verif Require Import NbrModel.
Import ListNotations.
Local Open Scope R_scope.

(** np.maximum(0, x) *)
Definition pos (x : R) : R := Rmax 0 x.

(** smearing.py l.58: EPSILON = 1e-4 *)
Definition EPSILON : R := / 10 ^ 4.

(** The tuple (ax, ay, az, norm) made by [cube_precomp]. *)
Record cube := mkCube { c_x : R; c_y : R; c_z : R; c_n : R }.

(** smearing.py l.60-65 [cube_precomp] *)
Definition cube_precomp (ax ay az : R) : cube :=
  let ax := Rabs ax in let ay := Rabs ay in let az := Rabs az in
  let norm := sqrt (ax ^ 2 + ay ^ 2 + az ^ 2) + / 10 ^ 40 in
  let ax := ax / norm in let ay := ay / norm in let az := az / norm in
  mkCube (Rmax ax EPSILON) (Rmax ay EPSILON) (Rmax az EPSILON) norm.

(** smearing.py l.68-84 [cube_cut_volume] *)
Definition cube_cut_volume (a0 : R) (c : cube) : R :=
  let ax := c_x c in let ay := c_y c in let az := c_z c in
  let sign := Rltb a0 0 in
  let a0 := Rabs a0 / c_n c in
  let a1 := (- ax + ay + az) / 2 in
  let a2 := (ax - ay + az) / 2 in
  let a3 := (ax + ay - az) / 2 in
  let volume := pos ((ax + ay + az) / 2 - a0) ^ 3 in
  let volume := volume - pos (a1 - a0) ^ 3 in
  let volume := volume - pos (a2 - a0) ^ 3 in
  let volume := volume + pos (- Rmin (Rmin a1 a2) a3 - a0) ^ 3 in
  let volume := volume - pos (a3 - a0) ^ 3 in
  let volume := if Rltb a0 (sqrt 3 / 2)
                then Rmin 1 (volume / (6 * ax * ay * az)) else 0 in
  if sign then volume else 1 - volume.

(** smearing.py l.87-100 [cube_cut_dvolume] *)
Definition cube_cut_dvolume (a0 : R) (c : cube) : R :=
  let ax := c_x c in let ay := c_y c in let az := c_z c in
  let a0 := Rabs a0 / c_n c in
  let a1 := (- ax + ay + az) / 2 in
  let a2 := (ax - ay + az) / 2 in
  let a3 := (ax + ay - az) / 2 in
  let area := pos ((ax + ay + az) / 2 - a0) ^ 2 in
  let area := area - pos (a1 - a0) ^ 2 in
  let area := area - pos (a2 - a0) ^ 2 in
  let area := area + pos (- Rmin (Rmin a1 a2) a3 - a0) ^ 2 in
  let area := area - pos (a3 - a0) ^ 2 in
  let axyzn := ax * ay * az * c_n c in
  if Rltb a0 (sqrt 3 / 2) then area / (2 * axyzn) else 0.

(** smearing.py l.103-121 [cube_cut_volume_dvolume] *)
Definition cube_cut_volume_dvolume (a0 : R) (c : cube) : R * R :=
  let ax := c_x c in let ay := c_y c in let az := c_z c in
  let sign := Rltb a0 0 in
  let a0 := Rabs a0 / c_n c in
  let a1 := (- ax + ay + az) / 2 in
  let a2 := (ax - ay + az) / 2 in
  let a3 := (ax + ay - az) / 2 in
  let v0 := pos ((ax + ay + az) / 2 - a0) in
  let v1 := pos (a1 - a0) in
  let v2 := pos (a2 - a0) in
  let v3 := pos (a3 - a0) in
  let v4 := pos (- Rmin (Rmin a1 a2) a3 - a0) in
  let volume := v0 ^ 3 - v1 ^ 3 - v2 ^ 3 + v4 ^ 3 - v3 ^ 3 in
  let area := v0 ^ 2 - v1 ^ 2 - v2 ^ 2 + v4 ^ 2 - v3 ^ 2 in
  let axyz := ax * ay * az in
  let volume := if Rltb a0 (sqrt 3 / 2) then volume / (6 * axyz) else 0 in
  let dvolume := if Rltb a0 (sqrt 3 / 2) then area / (2 * axyz * c_n c) else 0 in
  (if sign then volume else 1 - volume, dvolume).

(** np.sign *)
Definition rsign (x : R) : R :=
  if Rltb x 0 then -1 else if Rltb 0 x then 1 else 0.

(** The nonzero test [x != 0]. *)
Definition rnz (x : R) : bool := Rltb x 0 || Rltb 0 x.

(** smearing.py l.124-150 [cube_cut_area_com]: (area, center of mass); the
    center of mass is a triple.  [sx, sy, sz] are the gradient components
    before [cube_precomp].  Dividing by np.inf (l.147) gives 0. *)
Definition cube_cut_area_com (a0 : R) (c : cube) (sx sy sz : R)
  : R * (R * R * R) :=
  let ax := c_x c in let ay := c_y c in let az := c_z c in
  let a0 := a0 / c_n c in
  let v0 := pos (( ax + ay + az) / 2 + a0) in
  let v1 := pos ((- ax + ay + az) / 2 + a0) in
  let v2 := pos (( ax - ay + az) / 2 + a0) in
  let v3 := pos (( ax + ay - az) / 2 + a0) in
  let v4 := pos (( ax - ay - az) / 2 + a0) in
  let v5 := pos ((- ax + ay - az) / 2 + a0) in
  let v6 := pos ((- ax - ay + az) / 2 + a0) in
  let v7 := pos ((- ax - ay - az) / 2 + a0) in
  let area := if Rltb (Rabs a0) (sqrt 3 / 2)
              then v0 ^ 2 - v1 ^ 2 - v2 ^ 2 + v4 ^ 2 - v3 ^ 2
                   + v5 ^ 2 + v6 ^ 2 - v7 ^ 2
              else 0 in
  let com (d s0 s1 s2 s3 s4 s5 s6 s7 : R) :=
    v0 ^ 2 * (s0 / 2 + d * v0) - v1 ^ 2 * (s1 / 2 + d * v1)
    - v2 ^ 2 * (s2 / 2 + d * v2) + v4 ^ 2 * (s4 / 2 + d * v4)
    - v3 ^ 2 * (s3 / 2 + d * v3) + v5 ^ 2 * (s5 / 2 + d * v5)
    + v6 ^ 2 * (s6 / 2 + d * v6) - v7 ^ 2 * (s7 / 2 + d * v7) in
  let over (x : R) := if rnz area then x / area else 0 in
  let x := over (com (1 / 3 / ax) (-1) 1 (-1) (-1) (-1) 1 1 1 * rsign sx) in
  let y := over (com (1 / 3 / ay) (-1) (-1) 1 (-1) 1 (-1) 1 1 * rsign sy) in
  let z := over (com (1 / 3 / az) (-1) (-1) (-1) 1 1 1 (-1) 1 * rsign sz) in
  let axyz := ax * ay * az in
  (if rnz (Rabs axyz) then area / (2 * axyz) else 0, (x, y, z)).

(** smearing.py l.176-186: center value and gradient of a cell from the eight
    corner values [a 0] ... [a 7]; corner [i] has the bits of [i] as
    coordinates (bit 0: axis 0). *)
Definition cell_mean (a : nat -> R) : R :=
  (a 0%nat + a 1%nat + a 2%nat + a 3%nat + a 4%nat + a 5%nat + a 6%nat + a 7%nat) / 8.
Definition cell_dx (a : nat -> R) : R :=
  (- a 0%nat + a 1%nat - a 2%nat + a 3%nat - a 4%nat + a 5%nat - a 6%nat + a 7%nat) / 4.
Definition cell_dy (a : nat -> R) : R :=
  (- a 0%nat - a 1%nat + a 2%nat + a 3%nat - a 4%nat - a 5%nat + a 6%nat + a 7%nat) / 4.
Definition cell_dz (a : nat -> R) : R :=
  (- a 0%nat - a 1%nat - a 2%nat - a 3%nat + a 4%nat + a 5%nat + a 6%nat + a 7%nat) / 4.

(** A cubic grid of values; [np.roll(_, -1, axis)] reads the next point with
    wrap around at [N] (smearing.py l.176-178). *)
Definition grid := nat -> nat -> nat -> R.
Definition roll0 (N : nat) (g : grid) : grid := fun i j k => g (Nat.modulo (S i) N) j k.
Definition roll1 (N : nat) (g : grid) : grid := fun i j k => g i (Nat.modulo (S j) N) k.
Definition roll2 (N : nat) (g : grid) : grid := fun i j k => g i j (Nat.modulo (S k) N).

(** smearing.py l.176-178 (and l.282-284, l.430-432, l.476-478): the list [a]. *)
Definition roll_list (N : nat) (g : grid) : list grid :=
  let a := [g; roll0 N g] in
  let a := (a ++ map (roll1 N) a)%list in
  (a ++ map (roll2 N) a)%list.

(** The eight values used for cell (i, j, k).  The model has the same number
    of points on every axis (DensityOfStates only builds such grids). *)
Definition corners (N : nat) (g : grid) (i j k : nat) : nat -> R :=
  fun v => nth v (roll_list N g) (fun _ _ _ => 0) i j k.

(** smearing.py l.207-208 [CubesSmearing.volume] without gradients, for the
    cell (i, j, k).  With [wrap] the cells are i, j, k < N, otherwise < N-1. *)
Definition cubes_volume (N : nat) (g : grid) (value : R) : grid :=
  fun i j k =>
  let a := corners N g i j k in
  cube_cut_volume (value - cell_mean a)
    (cube_precomp (cell_dx a) (cell_dy a) (cell_dz a)).

(** smearing.py l.210-211 [CubesSmearing.dvolume] *)
Definition cubes_dvolume (N : nat) (g : grid) (value : R) : grid :=
  fun i j k =>
  let a := corners N g i j k in
  cube_cut_dvolume (value - cell_mean a)
    (cube_precomp (cell_dx a) (cell_dy a) (cell_dz a)).

(** smearing.py l.251-256 [extrapolate_poly]: one inner loop over k ... *)
Fixpoint extra_inner (den : R) (T : list R) : list R :=
  match T with
  | x :: ((y :: _) as rest) => (y + (y - x) / den) :: extra_inner den rest
  | _ => []
  end.
(** ... and the loop over m = 1 .. len(T)-1.  The code overwrites T[k] for
    k < len(T)-m and never reads the last m entries again; the model drops
    them. *)
Fixpoint extra_loop (fuel m p : nat) (T : list R) : list R :=
  match fuel with
  | O => T
  | S fuel => extra_loop fuel (S m) p (extra_inner ((2 ^ p) ^ m - 1) T)
  end.
Definition extrapolate_poly (T : list R) (p : nat) : R :=
  nth 0 (extra_loop (length T - 1) 1 p T) 0.

(** smearing.py l.295-304 [ExtraCubesSmearing.volume] (wrap=True) for the
    coarse cell (i, j, k); [g] is the fine grid with N points per axis, the
    coarse grid is values[::2,::2,::2]. *)
Definition coarse (g : grid) : grid := fun i j k => g (2 * i)%nat (2 * j)%nat (2 * k)%nat.
Definition downscale (r : grid) : grid :=
  fun i j k =>
  let i := (2 * i)%nat in let j := (2 * j)%nat in let k := (2 * k)%nat in
  (r i j k + r (S i) j k + r i (S j) k + r i j (S k)
   + r (S i) (S j) (S k) + r i (S j) (S k) + r (S i) j (S k) + r (S i) (S j) k) / 8.
Definition extra_volume (N : nat) (g : grid) (value : R) : grid :=
  fun i j k =>
  extrapolate_poly
    [cubes_volume (Nat.div N 2) (coarse g) value i j k;
     downscale (cubes_volume N g value) i j k] 2.

(** np.sort of three numbers (smearing.py l.357). *)
Definition sort3 (a b c : R) : R * R * R :=
  let lo := Rmin a (Rmin b c) in
  let hi := Rmax a (Rmax b c) in
  (lo, a + b + c - lo - hi, hi).

(** np.where(np.abs(x) < t, r, x) *)
Definition guard (t r x : R) : R := if Rltb (Rabs x) t then r else x.

(** smearing.py l.355-364, shared by both tetrahedron functions: normalise,
    sort, switch to the dual problem, avoid zero.  The result is
    (dual, a0, ax, ay, az, norm). *)
Definition tetra_prep (a0 ax ay az : R) : bool * (R * R * R * R) * R :=
  let norm := sqrt (ax ^ 2 + ay ^ 2 + az ^ 2) + / 10 ^ 50 in
  let ax := ax / norm in let ay := ay / norm in
  let az := az / norm in let a0 := a0 / norm in
  let '(ax, ay, az) := sort3 ax ay az in
  let dual := Rltb (ay + a0) 0 in
  let '(a0, ax, ay, az) :=
    if dual then (- a0, - az, - ay, - ax) else (a0, ax, ay, az) in
  let ax := guard (4 / 10 ^ 9) (- (4 / 10 ^ 9)) ax in
  let ay := guard (1 / 10 ^ 9) (1 / 10 ^ 9) ay in
  let az := guard (2 / 10 ^ 9) (2 / 10 ^ 9) az in
  (dual, (a0, ax, ay, az), norm).

(** smearing.py l.353-367 [unit_tetra_cut_volume] *)
Definition unit_tetra_cut_volume (a0 ax ay az : R) : R :=
  let '(dual, (a0, ax, ay, az), _) := tetra_prep a0 ax ay az in
  let volume := pos (- a0) ^ 3 / (ax * ay * az) in
  let volume := volume - pos (- ax - a0) ^ 3
                  / (ax * (ay - ax + / 10 ^ 50) * (az - ax + / 10 ^ 50)) in
  (if dual then volume else 1 - volume) / 6.

(** smearing.py l.370-384 [unit_tetra_cut_dvolume] *)
Definition unit_tetra_cut_dvolume (a0 ax ay az : R) : R :=
  let '(dual, (a0, ax, ay, az), norm) := tetra_prep a0 ax ay az in
  let dvolume := pos (- a0) ^ 2 / (ax * ay * az) in
  let dvolume := dvolume - pos (- ax - a0) ^ 2
                  / (ax * (ay - ax + / 10 ^ 50) * (az - ax + / 10 ^ 50)) in
  dvolume / 2 / norm.

(** smearing.py l.387-392 [tetra_cut_volume] *)
Definition tetra_cut_volume (v0 v1 v2 v3 : R) : R :=
  unit_tetra_cut_volume v0 (v1 - v0) (v2 - v0) (v3 - v0).

(** smearing.py l.395-400 [tetra_cut_dvolume] *)
Definition tetra_cut_dvolume (v0 v1 v2 v3 : R) : R :=
  unit_tetra_cut_dvolume v0 (v1 - v0) (v2 - v0) (v3 - v0).

(** smearing.py l.403-411 [cube_tetra_cut_volume]; [a] has eight entries. *)
Definition cube_tetra_cut_volume (a : nat -> R) : R :=
  tetra_cut_volume (a 0%nat) (a 7%nat) (a 1%nat) (a 3%nat)
  + tetra_cut_volume (a 0%nat) (a 7%nat) (a 3%nat) (a 2%nat)
  + tetra_cut_volume (a 0%nat) (a 7%nat) (a 2%nat) (a 6%nat)
  + tetra_cut_volume (a 0%nat) (a 7%nat) (a 6%nat) (a 4%nat)
  + tetra_cut_volume (a 0%nat) (a 7%nat) (a 4%nat) (a 5%nat)
  + tetra_cut_volume (a 0%nat) (a 7%nat) (a 5%nat) (a 1%nat).

(** smearing.py l.442-443 [TetraSmearing.volume] for the cell (i, j, k). *)
Definition tetras_volume (N : nat) (g : grid) (value : R) : grid :=
  fun i j k => cube_tetra_cut_volume (fun v => value - corners N g i j k v).

(** smearing.py l.455-463 [unit_sphere_cut] *)
Definition sphere_r : R := 620350490899 / 10 ^ 12.
Definition unit_sphere_cut (a0 ax ay az : R) : R * R :=
  let norm := sqrt (ax ^ 2 + ay ^ 2 + az ^ 2) + / 10 ^ 50 in
  let d := Rmax (Rmin (a0 / (norm * sphere_r)) 1) (-1) in
  let dp := 1 + d in
  (dp * dp * (2 - d) * (1 / 4), dp * (1 - d) * (3 / 4 / sphere_r) / norm).

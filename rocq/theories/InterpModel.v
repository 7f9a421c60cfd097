(** Model of realize_symmetric(unit_cell, collect_bad_duplicates=True) and realize_symmetric_data(average_bad_duplicates=True)
    of symmetry.py (l.526-640) and of interpolate of kpaths.py (l.252-323). Definitions only.

    Coordinates are integers in units of 1/M, so every list of rational points is covered; the tolerances of the wrapping
    (1e-6, 1e-7) and of the sorting (4 digits) are exact comparisons. The data of a point is one real number. *)
From Coq Require Import List Arith ZArith Bool Reals.
Import ListNotations.
From Verif Require Import SymModel.

(** symmetry.py l.565-573: into [-1/2, 1/2[ *)
Definition wrap1 (M z : Z) : Z := let r := (z mod M)%Z in if (M <=? 2 * r)%Z then (r - M)%Z else r.
Definition wrapk (M : Z) (k : zvec) : zvec := map (wrap1 M) k.

(** l.582-607 with collect_bad_duplicates=True: runs of equal points. [first] is the point of the open run, [prev] the last
    point and [run] the source indices of the run *)
(** np.unique, symmetry.py l.600, l.607 *)
Fixpoint ins_nat (a : nat) (l : list nat) : list nat :=
  match l with
  | [] => [a]
  | b :: r => if Nat.eqb a b then l else if Nat.ltb a b then a :: l else b :: ins_nat a r
  end.
Definition np_unique (l : list nat) : list nat := fold_right ins_nat [] l.
(** the entry of unique_order: a list of one index, or np.unique of the run (l.597-598, l.605-607) *)
Definition close_run (run : list nat) : list nat := match run with [i] => [i] | _ => np_unique run end.
Fixpoint group_runs (first prev : zvec) (run : list nat) (l : list (zvec * nat)) : list (zvec * list nat) :=
  match l with
  | [] => [(first, close_run run)]
  | (k, o) :: r => if zveqb prev k then group_runs first k (run ++ [o]) r
                   else (first, close_run run) :: group_runs k k [o] r
  end.
(** realize_symmetric(k_smpl, unit_cell=uc, collect_bad_duplicates=True), l.526-613; [None]: IndexError for an empty list *)
Definition realize_groups (g : sym) (M : Z) (uc : bool) (ks : list zvec) : option (list (zvec * list nat)) :=
  match ks with
  | [] => None
  | k0 :: _ =>
    match realize_sort (length k0) (map (fun p => (if uc then wrapk M (fst p) else fst p, snd p)) (realize_collect g ks)) with
    | [] => None
    | (k, o) :: r => Some (group_runs k k [o] r)
    end
  end.

(** np.mean(data[i], axis=0), l.631 *)
Definition mean_at (data : list R) (is : list nat) : R :=
  (fold_right Rplus 0 (map (fun i => nth i data 0) is) / INR (length is))%R.
(** realize_symmetric_data(average_bad_duplicates=True), l.629-636 *)
Definition realize_data (g : sym) (M : Z) (uc : bool) (ks : list zvec) (data : list R) : option (list (zvec * R)) :=
  option_map (map (fun p => (fst p, mean_at data (snd p)))) (realize_groups g M uc ks).

(* ------------------------------------------------------------------ *)
(** ** interpolate *)
Section Interp.
(** scipy.interpolate.RegularGridInterpolator(axes, values, method)(k): [None] for the ValueError of axes that are not
    strictly ascending or of a point outside of the grid *)
Variable interpolator : list (list Z) -> (list nat -> R) -> zvec -> option R.

(** kpaths.py l.284-290: stable sorts by the last, ..., first coordinate *)
Definition grid_sort {D} (dim : nat) (l : list (zvec * D)) : list (zvec * D) :=
  fold_left (fun l i => sort_by (fun p => nth i (fst p) 0%Z) l) (rev (seq 0 dim)) l.
(** position of a multi-index after reshape(grid), kpaths.py l.292-293 *)
Fixpoint flat_index (grid idx : list nat) (acc : nat) : nat :=
  match grid, idx with
  | g :: grid', i :: idx' => flat_index grid' idx' (acc * g + i)
  | _, _ => acc
  end.
(** the multi-index [base] with j at position i *)
Definition axis_index (base : list nat) (i j : nat) : list nat :=
  map (fun a => if Nat.eqb a i then j else nth a base 0) (seq 0 (length base)).
(** used_k_smpl[i][0, .., :, .., 0], l.309-318. The 0 of the array extended periodically is the last index of the samples,
    so the other indices are given by [base] *)
Definition axis_of (grid : list nat) (pts : list zvec) (base : list nat) (i : nat) : list Z :=
  map (fun j => nth i (nth (flat_index grid (axis_index base i j) 0) pts []) 0%Z) (seq 0 (nth i grid 0)).
(** used_bands[idx], l.293 *)
Definition values_of (grid : list nat) (vals : list R) (idx : list nat) : R := nth (flat_index grid idx 0) vals 0%R.

(** l.303-307: take([-1]) - 1, the axis, take([0, 1], mode="wrap") + 1 *)
Definition ext_axis (M : Z) (xs : list Z) : list Z :=
  let n := length xs in
  [(nth (n - 1) xs 0 - M)%Z] ++ xs ++ [(nth 0 xs 0 + M)%Z; (nth (1 mod n) xs 0 + M)%Z].
(** the index in the data of an index of the extended array (l.306-307) *)
Definition ext_index (n j : nat) : nat := (j + n - 1) mod n.
Definition ext_values (grid : list nat) (v : list nat -> R) (idx : list nat) : R :=
  v (map (fun gj => ext_index (fst gj) (snd gj)) (combine grid idx)).

(** the argument of the returned function, (k + 0.5) % 1.0 - 0.5 (l.322-323); with the unit 1/(2M) this is
    ((2 z + M) mod 2 M - M) / 2 *)
Definition wrap_arg (M z : Z) : Z := (((2 * z + M) mod (2 * M) - M) / 2)%Z.

(** the result of the call for a given grid (the default, a cube of side N^(1/dim), is a special case):
    [None] for an AssertionError / IndexError / ValueError (l.269-274, l.282, l.320), else the function k -> value. The
    ValueError of the constructor of the interpolator (l.309-318) shows up when the function is called *)
Definition interpolate (s : option sym) (M : Z) (periodic : bool) (grid : list nat) (ks : list zvec) (data : list R) :
    option (zvec -> option R) :=
  match ks with
  | [] => None
  | k0 :: _ =>
    if negb (Nat.eqb (length ks) (length data)) then None
    else match (match s with
                | Some g => if Nat.eqb (sdim g) (length k0) then realize_data g M periodic ks data else None
                | None => Some (combine ks data) end) with
    | None => None
    | Some kd =>
      if negb (Nat.eqb (fold_right Nat.mul 1 grid) (length kd)) then None
      else if Nat.eqb (length grid) 0 || Nat.ltb 3 (length grid) then None
      else
        let kd' := grid_sort (length k0) kd in
        let base := if periodic then map pred grid else map (fun _ => 0) grid in
        let axes := map (axis_of grid (map fst kd') base) (seq 0 (length grid)) in
        let vals := values_of grid (map snd kd') in
        if periodic then
          Some (fun k => interpolator (map (ext_axis M) axes) (ext_values grid vals) (map (wrap_arg M) k))
        else Some (fun k => interpolator axes vals k)
    end
  end.
End Interp.

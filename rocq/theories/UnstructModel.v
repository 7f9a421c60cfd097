(** Model of realize_symmetric_data(average_bad_duplicates=False) of symmetry.py (l.615-640) and of interpolate_unstructured
    of kpaths.py (l.331-346). Definitions only.

    Coordinates are integers in units of 1/M, so every list of rational points is covered; max_error is a real number in the
    same unit. The row of bands of a point has the type [D]. *)
From Coq Require Import List Arith ZArith Bool Reals.
Import ListNotations.
From Verif Require Import SymModel.

(** numpy indexing data[order] with an array of indices: [None] is an IndexError *)
Fixpoint take_rows {D} (data : list D) (order : list nat) : option (list D) :=
  match order with
  | [] => Some []
  | i :: r => match nth_error data i, take_rows data r with Some v, Some l => Some (v :: l) | _, _ => None end
  end.
(** realize_symmetric_data(k_smpl, data), symmetry.py l.629 and l.638-639: points and data *)
Definition realize_rows {D} (g : sym) (ks : list zvec) (data : list D) : option (list zvec * list D) :=
  match realize_symmetric g ks with
  | None => None
  | Some l => option_map (fun v => (map fst l, v)) (take_rows data (map snd l))
  end.

Section Unstructured.
Variable D : Type.
(** scipy.spatial.KDTree(points).query(k, distance_upper_bound=max_error)[1] *)
Variable query : list zvec -> zvec -> R -> nat.

(** l.338-339: one row of NaN, here [None], is appended *)
Definition with_nan (vals : list D) : list (option D) := map Some vals ++ [None].
(** l.342-345: the rows of the indices; np.reshape(.., (0, -1)) is a ValueError for an empty list of points *)
Definition interp_rows (pts : list zvec) (vals : list D) (me : R) (qs : list zvec) : option (list (option D)) :=
  match qs with
  | [] => None
  | _ => take_rows (with_nan vals) (map (fun k => query pts k me) qs)
  end.
(** interpolate_unstructured, l.331-346: [None] for an IndexError or AssertionError of the call (l.333, l.335, l.338) *)
Definition interpolate_unstructured (s : option sym) (ks : list zvec) (data : list D) (me : R) :
    option (list zvec -> option (list (option D))) :=
  match ks with
  | [] => None
  | k0 :: _ =>
    match (match s with
           | None => Some (ks, data)
           | Some g => if Nat.eqb (sdim g) (length k0) then realize_rows g ks data else None
           end) with
    | None => None
    | Some (pts, vals) => match vals with [] => None | _ => Some (interp_rows pts vals me) end
    end
  end.
End Unstructured.

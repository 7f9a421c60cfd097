(** Model of hamiltonian_symmetry.py, HamiltonianSymmetry.realize_symmetric (l.518-563). Definitions only.

    Points are integer vectors (a common unit), so the tolerance of the comparison (1e-6 of the length) and the rounding of
    the sort keys are exact comparisons. The lists of points and matrices have the same length. *)
From Coq Require Import List Arith ZArith Bool.
Import ListNotations.
From Verif Require Import SymModel.

Section Real.
Context {H : Type}.
(** self.apply(k, H_k, s_index, inversion), l.240-282 (HamOrbModel.ham_apply, which does not read the last argument) *)
Variable apply : zvec -> H -> nat -> bool -> H.

(** l.544-545: inv in [1, -1] (or [1]), and s_index, s *)
Definition indexed_ops (g : sym) : list (nat * (bool * zmat)) :=
  combine (seq 0 (length (sops g))) (map (pair false) (sops g)) ++
  (if sinv g then combine (seq 0 (length (sops g))) (map (pair true) (sops g)) else []).
(** l.543-553 for one point: [used_k] and the new (k_, matrix) *)
Definition ham_step (g : sym) (k : zvec) (Hk : H) (acc : list zvec * list (zvec * H)) (o : nat * (bool * zmat)) :
    list zvec * list (zvec * H) :=
  let k' := app_signed (sdim g) (snd o) k in
  if memb zveqb k' (fst acc) then acc
  else (fst acc ++ [k'], snd acc ++ [(k', apply k Hk (fst o) (fst (snd o)))]).
Definition ham_orbit (g : sym) (k : zvec) (Hk : H) : list (zvec * H) :=
  snd (fold_left (ham_step g k Hk) (indexed_ops g) ([k], [])).
(** l.532-553: full_k, full_hamiltonian and order before the sort *)
Definition ham_collect (g : sym) (kh : list (zvec * H)) : list (zvec * (H * nat)) :=
  map (fun p => (fst (fst p), (snd (fst p), snd p))) (combine kh (seq 0 (length kh))) ++
  flat_map (fun p => let '((k, Hk), i) := p in
      if Z.eqb (znorm2 k) 0 then [] else map (fun q => (fst q, (snd q, i))) (ham_orbit g k Hk))
    (combine kh (seq 0 (length kh))).
(** l.558-562 *)
Definition ham_sort {D} (dim : nat) (l : list (zvec * D)) : list (zvec * D) :=
  fold_left (fun l i => sort_by (fun p => nth i (fst p) 0%Z) l) (seq 0 dim) l.
(** realize_symmetric(k_smpl, hamiltonian), l.518-563; [None] is the IndexError of k_smpl[0] for an empty list *)
Definition ham_realize (g : sym) (kh : list (zvec * H)) : option (list (zvec * (H * nat))) :=
  match kh with
  | [] => None
  | (k0, _) :: _ => Some (ham_sort (length k0) (ham_collect g kh))
  end.
End Real.

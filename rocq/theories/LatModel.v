(** * Model of the crystal lattices in qespresso_interface.py

    Real numbers without rounding.  A lattice is given by its three lattice
    vectors (the columns of the matrix A). *)
From Coq Require Import Reals List ZArith Bool String.
From Verif Require Import NbrModel.
Import ListNotations.
Local Open Scope R_scope.

Definition vec := (R * R * R)%type.
Definition lattice := (vec * vec * vec)%type.
Definition vscale (c : R) (v : vec) : vec := let '(x, y, z) := v in (c * x, c * y, c * z).
Definition lscale (c : R) (l : lattice) : lattice := let '(u, v, w) := l in (vscale c u, vscale c v, vscale c w).
(** np.linalg.det of the matrix *)
Definition det3 (l : lattice) : R :=
  let '((a, b, c), (d, e, f), (g, h, i)) := l in
  a * (e * i - f * h) - b * (d * i - f * g) + c * (d * h - e * g).

(** l.132-146; multiplication by a/2 at the end *)
Definition sc (a : R) : lattice := lscale a ((1, 0, 0), (0, 1, 0), (0, 0, 1)).
Definition fcc (a : R) : lattice := lscale (a / 2) ((-1, 0, 1), (0, 1, 1), (-1, 1, 0)).
Definition bcc (a : R) : lattice := lscale (a / 2) ((1, 1, 1), (-1, 1, 1), (-1, -1, 1)).
Definition hexagonal (a c : R) : lattice := lscale a ((1, 0, 0), (- (1 / 2), sqrt 3 / 2, 0), (0, 0, c / a)).

Definition posb (x : R) : bool := Rltb 0 x.
Definition angleb (x : R) : bool := Rltb x PI && Rltb 0 x.
(** l.149-162; [None] is the AssertionError *)
Definition triclinic (a b c alpha beta gamma : R) : option lattice :=
  if negb (posb a && posb b && posb c) then None else
  if negb (angleb alpha && angleb beta && angleb gamma) then None else
  if negb (Rltb (alpha + beta + gamma) (PI * 2)) then None else
  let bc := cos beta in let bs := sin beta in let gc := cos gamma in let gs := sin gamma in
  let v := (cos alpha - gc * bc) / gs in
  if negb (Rltb (v * v) (bs * bs)) then None else
  Some ((a, 0, 0), (gc * b, sin gamma * b, 0), (bc * c, v * c, sqrt (bs * bs - v * v) * c)).
(** l.165-179 *)
Definition monoclinic (a b c beta : R) : option lattice :=
  if posb a && posb b && posb c && angleb beta
  then Some ((a, 0, 0), (0, b, 0), (cos beta * c, 0, sin beta * c)) else None.
Definition monoclinic_base_centered (a b c beta : R) : option lattice :=
  if posb a && posb b && posb c && angleb beta
  then Some ((1 / 2 * a, - (1 / 2) * b, 0), (1 / 2 * a, 1 / 2 * b, 0), (cos beta * c, 0, sin beta * c)) else None.
(** l.182-207 *)
Definition orthorhombic (a b c : R) : option lattice :=
  if posb a && posb b && posb c then Some ((a, 0, 0), (0, b, 0), (0, 0, c)) else None.
Definition orthorhombic_base_centered (a b c : R) : option lattice :=
  if posb a && posb b && posb c
  then Some ((1 / 2 * a, - (1 / 2) * b, 0), (1 / 2 * a, 1 / 2 * b, 0), (0, 0, c)) else None.
Definition orthorhombic_body_centered (a b c : R) : option lattice :=
  if posb a && posb b && posb c
  then Some ((- (1 / 2) * a, 1 / 2 * b, 1 / 2 * c), (1 / 2 * a, - (1 / 2) * b, 1 / 2 * c), (1 / 2 * a, 1 / 2 * b, - (1 / 2) * c)) else None.
Definition orthorhombic_face_centered (a b c : R) : option lattice :=
  if posb a && posb b && posb c
  then Some ((0, 1 / 2 * b, 1 / 2 * c), (1 / 2 * a, 0, 1 / 2 * c), (1 / 2 * a, 1 / 2 * b, 0)) else None.
(** l.210-221 *)
Definition tetragonal (a c : R) : option lattice :=
  if posb a && posb c then Some ((a, 0, 0), (0, a, 0), (0, 0, c)) else None.
Definition tetragonal_body_centered (a c : R) : option lattice :=
  if posb a && posb c
  then Some ((- (1 / 2) * a, 1 / 2 * a, 1 / 2 * c), (1 / 2 * a, - (1 / 2) * a, 1 / 2 * c), (1 / 2 * a, 1 / 2 * a, - (1 / 2) * c)) else None.
(** l.224-235 *)
Definition rhombohedral (a alpha : R) : option lattice :=
  if posb a && (posb alpha && Rltb alpha (2 * PI / 3)) then
    let v := 2 / 3 - 2 / 3 * cos alpha in
    let h := sqrt (1 - v) * a in
    let r := sqrt v * a in
    Some ((r, 0, h), (- (1 / 2) * r, sqrt 3 / 2 * r, h), (- (1 / 2) * r, - sqrt 3 / 2 * r, h))
  else None.

(** ** Masses and densities, l.78-81, l.392-418

    The table of the symbols in the order of [element_numbers] (l.79), whose
    values are the positions in this table; the masses are an argument. *)
Local Open Scope string_scope.
Definition symbols : list string :=
  ["H"; "He"; "Li"; "Be"; "B"; "C"; "N"; "O"; "F"; "Ne"; "Na"; "Mg"; "Al"; "Si"; "P"; "S"; "Cl"; "Ar"; "K"; "Ca";
   "Sc"; "Ti"; "V"; "Cr"; "Mn"; "Fe"; "Co"; "Ni"; "Cu"; "Zn"; "Ga"; "Ge"; "As"; "Se"; "Br"; "Kr"; "Rb"; "Sr"; "Y"; "Zr";
   "Nb"; "Mo"; "Tc"; "Ru"; "Rh"; "Pd"; "Ag"; "Cd"; "In"; "Sn"; "Sb"; "Te"; "I"; "Xe"; "Cs"; "Ba"; "La"; "Ce"; "Pr"; "Nd";
   "Pm"; "Sm"; "Eu"; "Gd"; "Tb"; "Dy"; "Ho"; "Er"; "Tm"; "Yb"; "Lu"; "Hf"; "Ta"; "W"; "Re"; "Os"; "Ir"; "Pt"; "Au"; "Hg";
   "Tl"; "Pb"; "Bi"; "Po"; "At"; "Rn"; "Fr"; "Ra"; "Ac"; "Th"; "Pa"; "U"; "Np"; "Pu"; "Am"; "Cm"; "Bk"; "Cf"; "Es"; "Fm";
   "Md"; "No"; "Lr"; "Rf"; "Db"; "Sg"; "Bh"; "Hs"; "Mt"; "Ds"; "Rg"; "Cn"; "Nh"; "Fl"; "Mc"; "Lv"; "Ts"; "Og"].
Local Close Scope string_scope.
Fixpoint index_of (t : string) (l : list string) : option nat :=
  match l with
  | [] => None
  | x :: r => if String.eqb x t then Some O else option_map S (index_of t r)
  end.
(** element_numbers[t]; [None] is the KeyError *)
Definition element_number (t : string) : option nat := index_of t symbols.
(** l.392-395 *)
Fixpoint mass_per_cell (masses : nat -> R) (types : list string) : option R :=
  match types with
  | [] => Some 0
  | t :: r =>
    match element_number t, mass_per_cell masses r with
    | Some k, Some m => Some (91093837 / 10 ^ 38 * INR k + 166053907 / 10 ^ 35 * masses k + m)
    | _, _ => None
    end
  end.
Inductive unit_name := Angstrom | Bohr.
Definition unit_to_SI (u : unit_name) : R := match u with Angstrom => / 10 ^ 10 | Bohr => 52917721054482 / 10 ^ 24 end.
(** The crystal: lattice, unit, mass of a cell, and whether the array A holds
    integers ([np.asarray(A)] in l.309 keeps the type of its argument). *)
Record crystal := mkCrystal { cA : lattice; cUnit : unit_name; cMass : R; cInt : bool }.
(** l.397-404 *)
Definition mass_density (c : crystal) : R := cMass c / det3 (lscale (unit_to_SI (cUnit c)) (cA c)).
(** l.406-412.  [SCast] is the error of the in-place product of an integer
    array with a float; [SNan] the matrix of NaNs from the root of a number
    that is not positive (0 for a massless cell is included). *)
Inductive scaled := SOk (c : crystal) | SCast | SNan.
Definition scale_to_density (c : crystal) (density : R) : scaled :=
  if cInt c then SCast else
  let q := mass_density c / density in
  if Rltb 0 q then SOk (mkCrystal (lscale (Rpower q (1 / 3)) (cA c)) (cUnit c) (cMass c) false) else SNan.

(** ** The order of the wave function files, l.709-788

    [order] are the k indices (from 1) in the order in which the files are
    found; [np.zeros(...)] then [inv_order[order - 1] = arange]; the
    results are indexed by inv_order. *)
Fixpoint set_nth {A} (l : list A) (n : nat) (v : A) : list A :=
  match l, n with
  | [], _ => []
  | _ :: r, O => v :: r
  | x :: r, S m => x :: set_nth r m v
  end.
Definition inv_order (order : list nat) : list nat :=
  fold_left (fun acc p => set_nth acc (fst p - 1) (snd p)) (combine order (seq 0 (List.length order))) (repeat O (List.length order)).
Definition reorder {A} (d : A) (order : list nat) (data : list A) : list A := map (fun i => nth i data d) (inv_order order).

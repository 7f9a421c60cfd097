(** * Model of the readers and writers in qespresso_interface.py

    read_bands_crystal l.485-573, from_disk l.1354-1421, read_wavefunctions l.711-788, read_charge_density
    l.790-825, read_bandx_raw l.431-447, plot_bands l.466-483, read_projections_order_spilling l.574-603,
    read_projections l.606-666, k_points l.233-246, k_grid l.248-263, print_orbitals l.265-282, _crystal
    l.847-860, crystal_wannier l.1099-1113, k_points_wannier l.1158-1163, prepare_wannier l.1198-1205.

    The XML parser, the tokeniser and the conversion of decimal numbers are not modelled: the functions below
    start from the numbers and names that the XML elements or the lines contain.  Real numbers without rounding. *)
From Coq Require Import Reals List ZArith Bool String Arith.
From Verif Require Import SRing LMat SymModel NbrModel LatModel SymModel3.
Import ListNotations.
Local Open Scope nat_scope.

(** ** Symmetries, l.497, l.527-541 and l.553-567.  One entry per <symmetry> element: the nine numbers of
    <rotation> as a matrix and <fractional_translation> if it is there.  The assertion of l.559 makes the
    rotations integers; translations are in units of 1/D as in SymModel3. *)
Definition eye3 : zmat := zeye 3.
(** np.block([[s, t[:,None]], [np.zeros((1, 3)), np.eye(1)]]), l.564 *)
Definition block4 (s : zmat) (t : zvec) : zmat :=
  mk (K:=Zs) 4 4 (fun i j => if Nat.ltb i 3 then (if Nat.ltb j 3 then ent (K:=Zs) s i j else vent (K:=Zs) t i)
                               else if Nat.eqb j 3 then 1%Z else 0%Z).
Definition zerov (t : zvec) : bool := forallb (fun i => Z.eqb (vent (K:=Zs) t i) 0) (seq 0 3).
(** [inv n] is np.linalg.inv for n x n matrices; the result is the dimension and the list [S] of l.566 *)
Definition read_symmetries (inv : nat -> zmat -> zmat) (syms : list (zmat * option zvec)) : sres (nat * list zmat) :=
  let S := map fst syms in
  let S_trans := map (fun p => match snd p with Some t => t | None => vzero (K:=Zs) 3 end) syms in
  let S := match S with [] => [eye3] | _ => S end in                                          (* l.556-558 *)
  if negb (Nat.eqb (List.length S_trans) (List.length S)) then SAssert                        (* l.561 *)
  else if forallb zerov S_trans                                                               (* l.563 *)
  then SOk (3, map (fun s => inv 3 (ltr (K:=Zs) 3 s)) S)
  else SOk (4, map (fun p => inv 4 (ltr (K:=Zs) 4 (block4 (fst p) (snd p)))) (combine S S_trans)).

(** ** k points and energies *)
Local Open Scope R_scope.
(** B @ c for a matrix with the columns b1, b2, b3 *)
Definition vcomb (l : lattice) (c : vec) : vec :=
  let '((a1, a2, a3), (b1, b2, b3), (c1, c2, c3)) := l in let '(x, y, z) := c in
  (a1 * x + b1 * y + c1 * z, a2 * x + b2 * y + c2 * z, a3 * x + b3 * y + c3 * z).
(** np.linalg.inv(B) @ k (Cramer); [None] is LinAlgError *)
Definition vsolve (l : lattice) (k : vec) : option vec :=
  let '(u, v, w) := l in
  if Req_EM_T (det3 l) 0 then None
  else Some (det3 (k, v, w) / det3 l, det3 (u, k, w) / det3 l, det3 (u, v, k) / det3 l).
Fixpoint all_some {A} (l : list (option A)) : option (list A) :=
  match l with
  | [] => Some []
  | Some x :: r => option_map (cons x) (all_some r)
  | None :: _ => None
  end.
(** l.502 *)
Definition hartree_to_eV : R := 2721138625 / 10 ^ 8.
(** l.625 *)
Definition rydberg_to_eV : R := 13605693125 / 10 ^ 9.
(** l.503, l.1373 *)
Definition bohr_to_angstrom : R := 52917721 / 10 ^ 8.
(** The numbers of the <output> section: a1 a2 a3, b1 b2 b3, the <ks_energies> and <fermi_energy> *)
Record qe_xml := mkXml { xA : lattice; xB : lattice; xKs : list (vec * list R); xFermi : R }.
Definition set_unit (u : unit_name) (A : lattice) : lattice :=
  match u with Angstrom => LatModel.lscale bohr_to_angstrom A | Bohr => A end.
(** l.508-551 and l.568-573 without the symmetries: self.A, k_points, bands, fermi_energy *)
Definition read_bands (u : unit_name) (x : qe_xml) : option (lattice * list vec * list (list R) * R) :=
  match all_some (map (fun p => vsolve (xB x) (fst p)) (xKs x)) with
  | Some ks => Some (set_unit u (xA x), ks, map (fun p => map (fun e => e * hartree_to_eV) (snd p)) (xKs x),
                     xFermi x * hartree_to_eV)
  | None => None
  end.
(** read_projections l.625-666, energies: the file of projwfc.x has them in Rydberg *)
Definition read_proj_energies (bands : list (list R)) (fermi : R) : list (list R) * R :=
  (map (map (fun e => e * rydberg_to_eV)) bands, fermi * rydberg_to_eV).
(** l.651-653 and l.659-661: data[::2] + 1j*data[1::2] *)
Fixpoint pairs {A} (l : list A) : list (A * A) :=
  match l with x :: y :: r => (x, y) :: pairs r | _ => [] end.

(** ** from_disk l.1354-1421.  The section holds a1 a2 a3 and the atoms (name, position) in bohr, <ecutwfc>
    and, for fd smearing, degauss.  The crystal is created with unit "angstrom" (l.1368). *)
Record qe_section := mkSection { sA : lattice; sAtoms : list (string * vec); sCut : R; sDegauss : option R }.
Definition boltzmann_Ry : R := 63336231269 / 10 ^ 16.
(** self.A, basis, types, kinetic_energy_cutoff, T; [None] is LinAlgError *)
Definition from_disk (s : qe_section) : option (lattice * list vec * list string * R * R) :=
  let A := LatModel.lscale bohr_to_angstrom (sA s) in                                          (* l.1399-1402 *)
  match all_some (map (fun p => vsolve A (snd p)) (sAtoms s)) with                             (* l.1403-1409 *)
  | Some basis => Some (A, basis, map fst (sAtoms s), sCut s,
                        match sDegauss s with Some d => d / boltzmann_Ry | None => 0 end)
  | None => None
  end.
Local Close Scope R_scope.

(** ** Binary files.  A file is a list of cells of four bytes: an int32, or one half of a float64.  Reading
    an int32 or a float64 from arbitrary cells gives [as_int], [glue]. *)
Inductive cell := CI (z : Z) | CL (x : R) | CH (x : R).
Definition w_f64 (x : R) : list cell := [CL x; CH x].
Definition w_c128 (z : R * R) : list cell := w_f64 (fst z) ++ w_f64 (snd z).
Section Binary.
Variable as_int : cell -> Z.
Variable glue : cell -> cell -> R.
(** a reader returns [None] at the end of the file *)
Definition rd (A : Type) := list cell -> option (A * list cell).
Definition bind {A B} (r : rd A) (f : A -> rd B) : rd B := fun s => match r s with Some (a, s') => f a s' | None => None end.
Definition ret {A} (a : A) : rd A := fun s => Some (a, s).
(** f.seek(4 n, 1); seeking behind the end is allowed *)
Definition skip (n : nat) : rd unit := fun s => Some (tt, skipn n s).
Definition i32 : rd Z := fun s => match s with c :: r => Some (as_int c, r) | [] => None end.
Definition f64 : rd R := fun s => match s with a :: b :: r => Some (glue a b, r) | _ => None end.
Definition c128 : rd (R * R) := bind f64 (fun x => bind f64 (fun y => ret (x, y))).
(** np.fromfile(..., count=n); the file is long enough *)
Fixpoint many {A} (r : rd A) (n : nat) : rd (list A) :=
  match n with O => ret [] | S m => bind r (fun a => bind (many r m) (fun l => ret (a :: l))) end.
Definition v3 : rd vec := bind f64 (fun x => bind f64 (fun y => bind f64 (fun z => ret (x, y, z)))).
(** reshape(-1, n) of a list *)
Fixpoint chunks {A} (fuel n : nat) (l : list A) : list (list A) :=
  match fuel with
  | O => []
  | S f => match l with [] => [] | _ => firstn n l :: chunks f n (skipn n l) end
  end.
Definition reshape2 {A} (n : nat) (l : list A) : list (list A) := chunks (List.length l) n l.

(** one wave function file, l.734-784: ik, xk, B, mill, evc *)
Record wfc := mkWfc { wIk : Z; wXk : vec; wB : lattice; wMill : list (list Z); wEvc : list (list (list (R * R))) }.
Definition read_wfc : rd wfc :=
  bind (skip 1) (fun _ =>
  bind i32 (fun ik => bind v3 (fun xk => bind i32 (fun _ => bind i32 (fun _ => bind f64 (fun _ =>
  bind (skip 2) (fun _ =>
  bind i32 (fun _ => bind i32 (fun igwx => bind i32 (fun npol => bind i32 (fun nbnd =>
  bind (skip 2) (fun _ =>
  bind v3 (fun b1 => bind v3 (fun b2 => bind v3 (fun b3 =>
  bind (skip 2) (fun _ =>
  bind (many i32 (3 * Z.to_nat igwx)) (fun mill =>
  bind (skip 2) (fun _ =>
  bind (many (bind (many c128 (Z.to_nat npol * Z.to_nat igwx)) (fun row => bind (skip 2) (fun _ => ret row))) (Z.to_nat nbnd)) (fun evc =>
  ret (mkWfc ik xk (b1, b2, b3) (reshape2 3 mill) (map (reshape2 (Z.to_nat npol)) evc))))))))))))))))))))).

(** read_charge_density l.799-825: g_smpl and rho_g.  [rho_g] is an array of floats (l.820), the assignment
    of complex numbers keeps the real parts (numpy warns). *)
Definition read_rho : rd (list vec * list (list R)) :=
  bind (skip 1) (fun _ =>
  bind i32 (fun _ => bind i32 (fun ngm => bind i32 (fun nspin =>
  bind (skip 2) (fun _ =>
  bind v3 (fun b1 => bind v3 (fun b2 => bind v3 (fun b3 =>
  bind (skip 2) (fun _ =>
  bind (many i32 (3 * Z.to_nat ngm)) (fun mill =>
  let g_smpl := map (fun m => vcomb (b1, b2, b3) (IZR (nth 0 m 0%Z), IZR (nth 1 m 0%Z), IZR (nth 2 m 0%Z))) (reshape2 3 mill) in
  bind (many (bind (many c128 (Z.to_nat ngm)) (fun row => bind (skip 2) (fun _ => ret (map fst row)))) (Z.to_nat nspin)) (fun rho =>
  ret (g_smpl, rho)))))))))))).
End Binary.
Arguments rd : clear implicits.

(** l.729-788 for the files in the order of os.listdir: the assertion that all files have the same lattice
    (exact here), the order of the indices [ik] and the division by B.  [None] is an AssertionError, an
    IndexError or a LinAlgError. *)
Definition lat_eqb (a b : lattice) : bool :=
  let '((a1, a2, a3), (b1, b2, b3), (c1, c2, c3)) := a in let '((d1, d2, d3), (e1, e2, e3), (f1, f2, f3)) := b in
  forallb (fun p => if Req_EM_T (fst p) (snd p) then true else false)
    [(a1, d1); (a2, d2); (a3, d3); (b1, e1); (b2, e2); (b3, e3); (c1, f1); (c2, f2); (c3, f3)].
Definition collect_wfc (files : list wfc) : option (list vec * list (list (list Z)) * list (list (list (list (R * R))))) :=
  match files with
  | [] => None
  | f :: _ =>
    if forallb (fun g => lat_eqb (wB f) (wB g)) files then
      let order := map (fun g => Z.to_nat (wIk g)) files in
      match all_some (map (vsolve (wB f)) (reorder (wXk f) order (map wXk files))) with
      | Some ks => Some (ks, reorder [] order (map wMill files), reorder [] order (map wEvc files))
      | None => None
      end
    else None
  end.

(** ** Bandx.dat, l.431-447: [lines] are the numbers of the lines after the header.  [None] is the ValueError
    of reshape. *)
Definition read_bandx_raw {F} (band_count : nat) (lines : list (list F)) : option (list (list F) * list (list F)) :=
  let n := 3 + band_count in
  let numbers := List.concat lines in
  if Nat.eqb (List.length numbers mod n) 0
  then Some (map (firstn 3) (reshape2 n numbers), map (skipn 3) (reshape2 n numbers))
  else None.

(** ** plot_bands l.471-474; [None] is a NaN point *)
Definition insert_at {A} (l : list A) (i : nat) (x : A) : list A := firstn i l ++ x :: skipn i l.
Definition geb (x y : R) : bool := if Rle_dec y x then true else false.
Definition break_at (z : list (option (R * R))) (i : nat) : list (option (R * R)) :=
  match nth i z None, nth (S i) z None with
  | Some p, Some q => if geb (fst p) (fst q) then insert_at z (S i) None else z
  | _, _ => z
  end.
Definition break_lines (z : list (R * R)) : list (option (R * R)) :=
  fold_left break_at (rev (seq 0 (List.length z - 1))) (map Some z).

(** ** read_projections_order_spilling l.589-603: one entry (index, keys) per "Atom #" block.  [OValue] is the
    ValueError of the truth value of an array with several elements, [OIndex] an IndexError. *)
Inductive ores := OOk (l : list (nat * option string * string)) | OValue | OIndex.
Definition has_charge (key : string) : bool := match String.index 0 "charge" key with Some _ => true | None => false end.
Definition is_shell (key : string) : bool := String.eqb key "p" || String.eqb key "d" || String.eqb key "f".
(** `if self.types`: the truth value of the array of names *)
Definition truth (types : list string) : option bool :=
  match types with [] => Some false | [t] => Some (negb (String.eqb t "")) | _ => None end.
(** l.602-605; a negative index counts from the end *)
Definition name_of (types : list string) (index : nat) (key : string) : ores :=
  match truth types with
  | None => OValue
  | Some false => OOk [(index, None, key)]
  | Some true =>
    match (match index with O => nth_error types (List.length types - 1) | S i => nth_error types i end) with
    | Some t => OOk [(index, Some t, key)]
    | None => OIndex
    end
  end.
Definition app_res (a b : ores) : ores :=
  match a with OOk l => match b with OOk r => OOk (l ++ r) | e => e end | e => e end.
Fixpoint order_keys (types : list string) (index : nat) (keys : list string) : ores :=
  match keys with
  | [] => OOk []
  | key :: r => if has_charge key || is_shell key then order_keys types index r
                else app_res (name_of types index key) (order_keys types index r)
  end.
Fixpoint order_spilling (types : list string) (atoms : list (nat * list string)) : ores :=
  match atoms with
  | [] => OOk []
  | (index, keys) :: r => app_res (order_keys types index keys) (order_spilling types r)
  end.

(** ** Input files, as lines of words *)
Inductive word := WS (s : string) | WN (n : nat) | WF (x : R).
Definition wvec (v : vec) : list word := let '(x, y, z) := v in [WF x; WF y; WF z].
Definition unit_str (u : unit_name) : string := match u with Angstrom => "angstrom" | Bohr => "bohr" end.
(** set(self.types): an order of the distinct names that python does not specify, [species] *)
(** _crystal l.847-860 for ibrav = 0; [pp] is the table pp_files, [None] is a KeyError *)
Definition crystal_lines (masses : nat -> R) (pp : string -> option string) (species : list string)
    (u : unit_name) (A : lattice) (basis : list vec) (types : list string) : option (list (list word)) :=
  match all_some (map (fun t => match element_number t, pp t with
                                | Some k, Some f => Some [WS t; WF (masses k); WS f]
                                | _, _ => None
                                end) species) with
  | Some sp => let '(a1, a2, a3) := A in
    Some ([WS "CELL_PARAMETERS"; WS (unit_str u)] :: wvec a1 :: wvec a2 :: wvec a3 ::
          [WS "ATOMIC_SPECIES"] :: sp ++ [WS "ATOMIC_POSITIONS"; WS "crystal"] ::
          map (fun p => WS (snd p) :: wvec (fst p)) (combine basis types))
  | None => None
  end.
(** crystal_wannier l.1099-1113 *)
Definition crystal_wannier (u : unit_name) (A : lattice) (basis : list vec) (types : list string) : list (list word) :=
  let '(a1, a2, a3) := A in
  [WS "begin"; WS "unit_cell_cart"] :: [WS (unit_str u)] :: wvec a1 :: wvec a2 :: wvec a3 :: [WS "end"; WS "unit_cell_cart"] :: [] ::
  [WS "begin"; WS "atoms_frac"] :: map (fun p => WS (snd p) :: wvec (fst p)) (combine basis types) ++ [[WS "end"; WS "atoms_frac"]].
(** k_points l.233-246; the unit is written in braces *)
Definition k_points (points : list vec) (unit : string) : list (list word) :=
  [WS "K_POINTS"; WS ("{" ++ unit ++ "}")] :: [WN (List.length points)] :: map (fun p => wvec p ++ [WN 1]) points.
(** k_grid l.248-263 *)
Definition k_grid (size : nat) (size2 size3 : option nat) : list (list word) :=
  let d o := match o with Some n => n | None => size end in
  [[WS "K_POINTS"; WS "(automatic)"]; [WN size; WN (d size2); WN (d size3); WN 0; WN 0; WN 0]].

(** ** prepare_wannier l.1198-1205: the k points written for mp_grid = g g g.  np.meshgrid without
    indexing="ij" exchanges the first two axes. *)
Definition grid_frac (g i : nat) : R := (INR i / INR g)%R.
Definition wannier_grid (g : nat) : list vec :=
  flat_map (fun j => flat_map (fun i => map (fun l => (grid_frac g i, grid_frac g j, grid_frac g l)) (seq 0 g)) (seq 0 g)) (seq 0 g).
(** round(np.cbrt(n)) and the assertion of l.1203; [None] is the AssertionError *)
Fixpoint cube_root_up (fuel g n : nat) : nat :=
  match fuel with O => g | S f => if Nat.leb n (g * g * g) then g else cube_root_up f (S g) n end.
Definition infer_grid (n : nat) : option nat :=
  let g := cube_root_up n 0 n in if Nat.eqb (g * g * g) n then Some g else None.

(** ** print_orbitals l.265-282: [order] is np.argsort(distribution) *)
Fixpoint take_above (thr : R) (dist : nat -> R) (l : list nat) : list nat :=
  match l with
  | [] => []
  | i :: r => if Rltb (dist i) thr then [] else i :: take_above thr dist r
  end.
Definition print_orbitals (order : list nat) (dist : nat -> R) (thr : R) : list nat := take_above thr dist (rev order).

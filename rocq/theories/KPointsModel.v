(** Model of the tables of high symmetry points in kpaths.py: the module table (l.5-29), _hsp (l.364-374), hexagonal_points
    (l.377-394), tetragonal_bc_points for c <> 1 (l.411-440), trigonal_points (l.443-500), and the default paths (l.350-353).
    Definitions only.

    Exact real arithmetic. The display names (second entries of the pairs) and the points of dimension 1 and 2 are left out.
    np.linalg.lstsq is a parameter. *)
From Coq Require Import List Reals String.
From Verif Require Import LatModel.
Import ListNotations.
Local Open Scope R_scope.
Local Open Scope string_scope.

Definition vdot (u v : vec) : R := let '(a, b, c) := u in let '(x, y, z) := v in a * x + b * y + c * z.
Definition ktable := list (string * vec).
(** the last assignment to a key counts; in the tables below every key is assigned once *)
Fixpoint kget (t : ktable) (k : string) : option vec :=
  match t with [] => None | (k', v) :: r => if String.eqb k k' then Some v else kget r k end.

(** l.5-23 *)
Definition cubic_points : ktable :=
  [("G", (0, 0, 0)); ("O", (0, 0, 0));
   ("X2", (0, 1, 0)); ("K", (3 / 4, 3 / 4, 0)); ("L", (1 / 2, 1 / 2, 1 / 2)); ("W", (1 / 2, 1, 0)); ("U", (1 / 4, 1, 1 / 4));
   ("X", (0, 1 / 2, 0)); ("M", (1 / 2, 1 / 2, 0)); ("R", (1 / 2, 1 / 2, 1 / 2));
   ("H", (1, 0, 0)); ("H1", (0, 1, 0)); ("N", (1 / 2, 1 / 2, 0)); ("P", (1 / 2, 1 / 2, 1 / 2))].
(** l.350-353 *)
Definition SC_PATH : list string := ["G"; "X"; "M"; "G"; "R"; "X"].
Definition FCC_PATH : list string := ["G"; "X2"; "W"; "L"; "G"; "K"].
Definition BCC_PATH : list string := ["G"; "H"; "P"; "G"; "N"; "P"].
Definition DIAMOND_PATH : list string := ["L"; "G"; "X2"; "U"; "G"; "K"].

(** l.377-394 *)
Definition hexagonal_points (r h : R) : ktable :=
  [("G", (0, 0, 0)); ("A", (0, 0, h / 2)); ("K", (r / (3 / 2), 0, 0)); ("H", (r / (3 / 2), 0, h / 2));
   ("M", (1 / 2 * r, 1 / 2 / sqrt 3 * r, 0)); ("L", (1 / 2 * r, 1 / 2 / sqrt 3 * r, h / 2))].

Section Lstsq.
(** np.linalg.lstsq(mat, res)[0]: rows, right hand side *)
Variable lstsq : list vec -> list R -> vec.
(** l.364-374 *)
Definition hsp (l : list vec) : vec := lstsq l (map (fun a => vdot a a) l).

Definition vz (v : vec) : R := snd v.
Definition mul_z (s : R) (v : vec) : vec := let '(x, y, z) := v in (x, y, s * z).
(** l.411-440 *)
Definition bct_points (c : R) : ktable :=
  let X := (1 / 2, 1 / 2, 0) in
  if Rlt_dec c 1 then
    let M := (1, 0, 0) in
    let N := (1 / 2, 0, 1 / 2 / c) in
    let Z1 := hsp [N; M] in
    [("G", (0, 0, 0)); ("X", X); ("M", M); ("N", N); ("Z1", Z1); ("Z", (0, 0, 2 * vz N - vz Z1)); ("P", (1 / 2, 1 / 2, vz N))]
  else
    let M := (0, 0, 1 / c) in
    let N := (1 / 2, 0, 1 / 2 / c) in
    let N0 := (1 / 2, 0, - (1 / 2) / c) in
    let N1 := (0, 1 / 2, 1 / 2 / c) in
    let Sig := hsp [N; N0] in
    let S := hsp [M; N] in
    let R' := hsp [N; N0; X] in
    let P := hsp [N; N1; X] in
    let Y1 := hsp [N; N1; M] in
    [("G", (0, 0, 0)); ("X", X); ("M", M); ("M2", (0, 0, - 1 / c)); ("Z", (0, 0, 1 / c)); ("N", N); ("N0", N0); ("N1", N1);
     ("Sig", Sig); ("S0", Sig); ("S", S); ("Sig1", S); ("S2", mul_z (- 1) S); ("R", R'); ("Y", R'); ("P", P);
     ("Y1", Y1); ("GG", Y1); ("G0", mul_z (- 1) Y1)].

Definition swap_xy (v : vec) : vec := let '(x, y, z) := v in (y, x, z).
(** l.443-500; [None] is the AssertionError of l.484 *)
Definition trigonal_points (alpha : R) (mirror_x : bool) : option ktable :=
  let c := sqrt ((1 + 2 * cos alpha) / 3) in
  let s := sqrt (4 / 3) * sin (alpha / 2) in
  let h := 1 / c in
  let q := sqrt 3 in
  let t :=
    if Rlt_dec alpha (90 / 180 * PI) then
      let l2 := 1 / 9 / s ^ 2 + 1 / 36 / c ^ 2 in
      let Z := (0, 0, h / 2) in
      let L := (1 / q / s / 2, - 1 / 3 / s / 2, h / 6) in
      let L1 := (1 / q / s / 2, 1 / 3 / s / 2, - h / 6) in
      let F := (1 / q / s / 2, 1 / 3 / s / 2, h / 3) in
      Some [("G", (0, 0, 0)); ("Z", Z); ("L", L); ("L1", L1); ("F", F); ("X", (l2 / (1 / q / s / 2), 0, 0));
            ("P", hsp [Z; L]); ("P1", hsp [Z; F]); ("P2", hsp [F; L1]); ("Q", hsp [F; L]);
            ("B", hsp [Z; F; L]); ("B1", hsp [L1; F; L])]
    else if Rlt_dec alpha (120 / 180 * PI) then
      let l2 := (1 / s / 3) ^ 2 + (h / 6) ^ 2 in
      Some [("G", (0, 0, 0)); ("X", (1 / q / s, 0, 0)); ("F", (1 / q / s / 2, 1 / s / 2, 0)); ("F1", (- 1 / q / s / 2, 1 / s / 2, 0));
            ("L", (0, 1 / s / 3, h / 6)); ("Z", (1 / q / s, 1 / s / 3, h / 6)); ("Q", (0, 0, l2 / (h / 6)));
            ("Q1", (0, 2 / 3 / s, h / 3 - l2 / (h / 6))); ("P1", (0, 2 / 3 / s, (h / 6 - l2 / (h / 6)) / 2));
            ("P", (1 / q / s, 1 / s / 3, - (h / 6 - l2 / (h / 6)) / 2))]
    else None in
  if mirror_x then t else option_map (map (fun kv => (fst kv, swap_xy (snd kv)))) t.
End Lstsq.

(** Model of slater_koster.py, class SlaterKosterOriginal (l.349-424). Definitions only.

    The attributes of an object are a function from names to real numbers. Entries that the code multiplies with 1j are
    given by their imaginary part. [k] is a single point of three components (for an array of several points the entry
    [xy_d1 = 0] of l.400 makes the rows of l.409-420 uneven and np.array raises). *)
From Coq Require Import Reals List Bool String Arith.
From Verif Require Import CplxR.
Import ListNotations.
Local Open Scope R_scope.
Local Open Scope string_scope.

(** the arguments of the constructor without and with default, l.353 (those of fcc(), l.358, are the same) *)
Definition sko_required : list string :=
  ["s_s_000"; "x_x_000"; "xy_xy_000"; "d2_d2_000"; "s_s_110"; "s_x_110"; "s_xy_110"; "s_d2_110"; "x_x_110"; "x_x_011";
  "x_y_110"; "x_xy_110"; "x_xy_011"; "z_d2_011"; "z_d1_011"; "xy_xy_110"; "xy_xy_011"; "xy_xz_011"; "xy_d2_110";
  "d2_d2_110"; "d1_d1_110"].
Definition sko_optional : list string :=
  ["s_s_200"; "s_x_200"; "s_d2_002"; "x_x_200"; "y_y_200"; "x_xy_020"; "z_d2_002"; "xy_xy_200"; "xy_xy_002";
  "d2_d2_002"; "d1_d1_002"].
(** the attributes after [self.__dict__ |= locals()], l.355; [None] is the TypeError of a call with missing or unknown
    arguments. [given] are the names of the arguments *)
Definition sko_init (given : list string) : option (list string) :=
  if forallb (fun x => existsb (String.eqb x) given) sko_required &&
     forallb (fun x => existsb (String.eqb x) (sko_required ++ sko_optional)) given
  then Some ("self" :: sko_required ++ sko_optional) else None.
(** fcc(), l.358-359: the constructor is called without arguments *)
Definition sko_fcc (given : list string) : option (list string) := sko_init [].
(** the attributes that f reads, in the order of the first read, l.367-408 *)
Definition sko_reads : list string :=
  ["s_s_000"; "s_s_100"; "s_s_110"; "s_s_111"; "s_s_200"; "s_x_100"; "s_x_200"; "s_x_110"; "s_x_111"; "s_xy_110";
  "s_xy_111"; "s_d2_001"; "s_d2_002"; "s_d2_110"; "x_x_000"; "x_x_100"; "y_y_100"; "x_x_200"; "y_y_200"; "x_x_110";
  "x_x_011"; "x_x_111"; "x_y_110"; "x_y_111"; "x_xy_010"; "x_xy_110"; "x_xy_011"; "x_xy_111"; "x_yz_111"; "z_d2_001";
  "z_d2_002"; "z_d2_011"; "z_d1_011"; "x_d1_111"; "xy_xy_000"; "xy_xy_100"; "xy_xy_200"; "xy_xy_001"; "xy_xy_002";
  "xy_xy_110"; "xy_xy_011"; "xy_xy_111"; "xy_xz_011"; "xy_xz_111"; "xy_d2_110"; "xy_d2_111"; "d2_d2_000";
  "d2_d2_1001"; "d1_d1_001"; "d1_d1_002"; "d2_d2_110"; "d1_d1_110"; "d2_d2_111"; "d2_d2_001"].
(** f(k) on an object with the given attributes: the AttributeError for the first name that is missing, if any *)
Definition sko_missing (attrs : list string) : option string :=
  find (fun x => negb (existsb (String.eqb x) attrs)) sko_reads.

Section F.
Variables (a : string -> R) (k : nat -> R).
(** l.362-365 *)
Definition c_0 : R := cos (k 0%nat).
Definition c_1 : R := cos (k 1%nat).
Definition c_2 : R := cos (k 2%nat).
Definition s_0 : R := sin (k 0%nat).
Definition s_1 : R := sin (k 1%nat).
Definition s_2 : R := sin (k 2%nat).
Definition c2_0 : R := cos (2 * k 0%nat).
Definition c2_1 : R := cos (2 * k 1%nat).
Definition c2_2 : R := cos (2 * k 2%nat).
Definition s2_0 : R := sin (2 * k 0%nat).
Definition s2_1 : R := sin (2 * k 1%nat).
Definition s2_2 : R := sin (2 * k 2%nat).

(** l.367 *)
Definition e_s_s : R := a "s_s_000" + 2 * a "s_s_100" * (c_0 + c_1 + c_2) + 4 * a "s_s_110" * (c_0 * c_1 + c_0 * c_2 + c_1 * c_2) + 8 * a "s_s_111" * c_0 * c_1 * c_2 + 2 * a "s_s_200" * (c2_0 + c2_1 + c2_2).
(** l.368 (times 1j) *)
Definition e_s_x : R := 2 * a "s_x_100" * s_0 + 2 * a "s_x_200" * s2_0 + 4 * a "s_x_110" * (s_0 * c_1 + s_0 * c_2) + 8 * a "s_x_111" * s_0 * c_1 * c_2.
(** l.369 (times 1j) *)
Definition e_s_y : R := 2 * a "s_x_100" * s_1 + 2 * a "s_x_200" * s2_1 + 4 * a "s_x_110" * (s_1 * c_0 + s_1 * c_2) + 8 * a "s_x_111" * c_0 * s_1 * c_2.
(** l.370 (times 1j) *)
Definition e_s_z : R := 2 * a "s_x_100" * s_2 + 2 * a "s_x_200" * s2_2 + 4 * a "s_x_110" * (s_2 * c_0 + s_2 * c_1) + 8 * a "s_x_111" * c_0 * c_1 * s_2.
(** l.371 *)
Definition e_s_xy : R := -4 * a "s_xy_110" * s_0 * s_1 - 8 * a "s_xy_111" * s_0 * s_1 * c_2.
(** l.372 *)
Definition e_s_xz : R := -4 * a "s_xy_110" * s_0 * s_2 - 8 * a "s_xy_111" * s_0 * c_1 * s_2.
(** l.373 *)
Definition e_s_yz : R := -4 * a "s_xy_110" * s_1 * s_2 - 8 * a "s_xy_111" * c_0 * s_1 * s_2.
(** l.374 *)
Definition e_s_d1 : R := sqrt 3 * (a "s_d2_001" * (c_0 - c_1) + a "s_d2_002" * (c2_0 - c2_1) + 2 * a "s_d2_110" * (-c_0 * c_2 + c_1 * c_2)).
(** l.375 *)
Definition e_s_d2 : R := a "s_d2_001" * (-c_0 - c_1 + 2 * c_2) + a "s_d2_002" * (-c2_0 - c2_1 + 2 * c2_2) - 2 * a "s_d2_110" * (-2 * c_0 * c_1 + c_0 * c_2 + c_1 * c_2).
(** l.376 *)
Definition e_x_x : R := a "x_x_000" + 2 * a "x_x_100" * c_0 + 2 * a "y_y_100" * (c_1 + c_2) + 2 * a "x_x_200" * c2_0 + 2 * a "y_y_200" * (c2_1 + c2_2) + 4 * a "x_x_110" * (c_0 * c_1 + c_0 * c_2) + 4 * a "x_x_011" * c_1 * c_2 + 8 * a "x_x_111" * c_0 * c_1 * c_2.
(** l.377 *)
Definition e_y_y : R := a "x_x_000" + 2 * a "x_x_100" * c_1 + 2 * a "y_y_100" * (c_0 + c_2) + 2 * a "x_x_200" * c2_1 + 2 * a "y_y_200" * (c2_0 + c2_2) + 4 * a "x_x_110" * (c_1 * c_0 + c_1 * c_2) + 4 * a "x_x_011" * c_0 * c_2 + 8 * a "x_x_111" * c_0 * c_1 * c_2.
(** l.378 *)
Definition e_z_z : R := a "x_x_000" + 2 * a "x_x_100" * c_2 + 2 * a "y_y_100" * (c_0 + c_1) + 2 * a "x_x_200" * c2_2 + 2 * a "y_y_200" * (c2_0 + c2_1) + 4 * a "x_x_110" * (c_2 * c_1 + c_2 * c_0) + 4 * a "x_x_011" * c_1 * c_0 + 8 * a "x_x_111" * c_0 * c_1 * c_2.
(** l.379 *)
Definition e_x_y : R := -4 * a "x_y_110" * s_0 * s_1 - 8 * a "x_y_111" * s_0 * s_1 * c_2.
(** l.380 *)
Definition e_y_z : R := -4 * a "x_y_110" * s_1 * s_2 - 8 * a "x_y_111" * c_0 * s_1 * s_2.
(** l.381 *)
Definition e_z_x : R := -4 * a "x_y_110" * s_2 * s_0 - 8 * a "x_y_111" * s_0 * c_1 * s_2.
(** l.382 (times 1j) *)
Definition e_x_xy : R := 2 * a "x_xy_010" * s_1 + 4 * a "x_xy_110" * c_0 * s_1 + 4 * a "x_xy_011" * s_1 * c_2 + 8 * a "x_xy_111" * c_0 * s_1 * c_2.
(** l.383 (times 1j) *)
Definition e_x_xz : R := 2 * a "x_xy_010" * s_2 + 4 * a "x_xy_110" * c_0 * s_2 - 4 * a "x_xy_011" * s_2 * c_1 + 8 * a "x_xy_111" * c_0 * c_1 * s_2.
(** l.385 (times 1j) *)
Definition e_x_yz : R := -8 * a "x_yz_111" * s_0 * c_1 * c_2.
(** l.386 (times 1j) *)
Definition e_y_xz : R := -8 * a "x_yz_111" * c_0 * s_1 * c_2.
(** l.387 (times 1j) *)
Definition e_z_xy : R := -8 * a "x_yz_111" * c_0 * c_1 * s_2.
(** l.388 (times 1j) *)
Definition e_x_d1 : R := sqrt 3 * (a "z_d2_001" * s_0 + a "z_d2_002" * s2_0 + 2 * a "z_d2_011" * (s_0 * c_1 + s_0 * c_2)) + 2 * a "z_d1_011" * (s_0 * c_1 - s_0 * c_2) + 8 * a "x_d1_111" * s_0 * c_1 * c_2.
(** l.389 (times 1j) *)
Definition e_y_d1 : R := sqrt 3 * (a "z_d2_001" * s_1 + a "z_d2_002" * s2_1 + 2 * a "z_d2_011" * (s_1 * c_0 + s_1 * c_2)) + 2 * a "z_d1_011" * (s_1 * c_0 - s_1 * c_2) + 8 * a "x_d1_111" * c_0 * s_1 * c_2.
(** l.390, real and imaginary part *)
Definition e_x_d2_re : R := - (8 / sqrt 3) * a "x_d1_111" * s_0 * c_1 * c_2.
Definition e_x_d2_im : R := - a "z_d2_001" * s_0 - a "z_d2_002" * s2_0 - 2 * a "z_d2_011" * (s_0 * c_1 + s_0 * c_2) + 2 * sqrt 3 * a "z_d1_011" * (s_0 * c_1 - s_0 * c_2).
(** l.391, real and imaginary part *)
Definition e_y_d2_re : R := - (8 / sqrt 3) * a "x_d1_111" * c_0 * s_1 * c_2.
Definition e_y_d2_im : R := - a "z_d2_001" * s_1 - a "z_d2_002" * s2_1 - 2 * a "z_d2_011" * (s_1 * c_0 + s_1 * c_2) + 2 * sqrt 3 * a "z_d1_011" * (s_1 * c_0 - s_1 * c_2).
(** l.392 (times 1j) *)
Definition e_z_d2 : R := 2 * a "z_d2_001" * s_2 + 2 * a "z_d2_002" * s2_2 + 4 * a "z_d2_011" * (c_0 * s_2 + c_1 * s_2) + (16 / sqrt 3) * a "x_d1_111" * c_0 * s_2.
(** l.393 *)
Definition e_z_d1 : R := e_z_d2.
(** l.394 *)
Definition e_xy_xy : R := a "xy_xy_000" + 2 * a "xy_xy_100" * (c_0 + c_1) + 2 * a "xy_xy_200" * (c2_0 + c2_1) + 2 * a "xy_xy_001" * c_2 + 2 * a "xy_xy_002" * c2_2 + 4 * a "xy_xy_110" * c_0 * c_1 + 4 * a "xy_xy_011" * (c_0 * c_2 + c_1 * c_2) + 8 * a "xy_xy_111" * c_0 * c_1 * c_2.
(** l.395 *)
Definition e_yz_yz : R := a "xy_xy_000" + 2 * a "xy_xy_100" * (c_1 + c_2) + 2 * a "xy_xy_200" * (c2_1 + c2_2) + 2 * a "xy_xy_001" * c_0 + 2 * a "xy_xy_002" * c2_0 + 4 * a "xy_xy_110" * c_1 * c_2 + 4 * a "xy_xy_011" * (c_1 * c_0 + c_2 * c_0) + 8 * a "xy_xy_111" * c_0 * c_1 * c_2.
(** l.396 *)
Definition e_xz_xz : R := a "xy_xy_000" + 2 * a "xy_xy_100" * (c_0 + c_2) + 2 * a "xy_xy_200" * (c2_0 + c2_2) + 2 * a "xy_xy_001" * c_1 + 2 * a "xy_xy_002" * c2_1 + 4 * a "xy_xy_110" * c_0 * c_2 + 4 * a "xy_xy_011" * (c_0 * c_1 + c_2 * c_1) + 8 * a "xy_xy_111" * c_0 * c_1 * c_2.
(** l.397 *)
Definition e_xy_xz : R := -4 * a "xy_xz_011" * s_1 * s_2 - 8 * a "xy_xz_111" * c_0 * s_1 * s_2.
(** l.398 *)
Definition e_xy_yz : R := -4 * a "xy_xz_011" * s_0 * s_2 - 8 * a "xy_xz_111" * s_0 * c_1 * s_2.
(** l.399 *)
Definition e_xz_yz : R := -4 * a "xy_xz_011" * s_0 * s_1 - 8 * a "xy_xz_111" * s_0 * s_1 * c_2.
(** l.400 *)
Definition e_xy_d1 : R := 0.
(** l.401 *)
Definition e_xy_d2 : R := -4 * a "xy_d2_110" * s_0 * s_1 - 8 * a "xy_d2_111" * s_0 * s_1 * c_2.
(** l.402 *)
Definition e_xz_d1 : R := 2 * sqrt 3 * a "xy_d2_110" * s_0 * s_2 + 4 * sqrt 3 * a "xy_d2_111" * s_0 * c_1 * s_2.
(** l.403 *)
Definition e_yz_d1 : R := 2 * sqrt 3 * a "xy_d2_110" * s_1 * s_2 + 4 * sqrt 3 * a "xy_d2_111" * c_0 * s_1 * s_2.
(** l.404 *)
Definition e_xz_d2 : R := 2 * a "xy_d2_110" * s_0 * s_2 + 4 * a "xy_d2_111" * s_0 * c_1 * s_2.
(** l.405 *)
Definition e_yz_d2 : R := 2 * a "xy_d2_110" * s_1 * s_2 + 4 * a "xy_d2_111" * c_0 * s_1 * s_2.
(** l.406 *)
Definition e_d1_d1 : R := a "d2_d2_000" + 3 / 2 * a "d2_d2_1001" * (c_0 + c_1) + 2 * a "d1_d1_001" * (c_0 / 4 + c_1 / 4 + c_2) + 2 * a "d1_d1_002" * (c2_0 / 4 + c2_1 / 4 + c2_2) + 3 * a "d2_d2_110" * (c_0 * c_2 + c_1 * c_2) + 3 * a "d1_d1_110" * (c_0 * c_1 + c_0 * c_2 / 4 + c_1 * c_2 / 4) + 8 * a "d2_d2_111" * c_0 * c_1 * c_2.
(** l.407 *)
Definition e_d2_d2 : R := a "d2_d2_000" + 2 * a "d2_d2_001" * (c_0 / 4 + c_1 / 4 + c_2) + 3 / 2 * a "d1_d1_001" * (c_0 + c_1) + 3 / 2 * a "d1_d1_002" * (c2_0 + c2_1) + 4 * a "d2_d2_110" * (c_0 * c_2 + c_0 * c_2 / 4 + c_1 * c_2 / 4) + 3 * a "d1_d1_110" * (c_0 * c_1 + c_1 * c_2) + 8 * a "d2_d2_111" * c_0 * c_1 * c_2.
(** l.408 *)
Definition e_d1_d2 : R := sqrt 3 / 2 * a "d2_d2_001" * (-c_0 + c_1) - sqrt 3 / 2 * a "d1_d1_001" * (-c_0 + c_1) - sqrt 3 / 2 * a "d1_d1_002" * (-c2_0 + c2_1) + sqrt 3 * a "d2_d2_110" * (c_0 * c_2 - c_1 * c_2) - sqrt 3 * a "d1_d1_110" * (c_0 * c_2 - c_1 * c_2).

(** the matrix of l.409-420 *)
Let re (x : R) : cplx := (x, 0).
Let im (x : R) : cplx := (0, x).
Definition sko_table : list (list cplx) :=
 [[re e_s_s; im e_s_x; im e_s_y; im e_s_z; re e_s_yz; re e_s_xz; re e_s_xy; re e_s_d1; re e_s_d2];
  [im e_s_x; re e_x_x; re e_x_y; re e_z_x; im e_x_yz; im e_x_xz; im e_x_xy; im e_x_d1; (e_x_d2_re, e_x_d2_im)];
  [im e_s_y; re e_x_y; re e_y_y; re e_y_z; im e_x_xy; im e_y_xz; im e_x_xy; im e_y_d1; (e_y_d2_re, e_y_d2_im)];
  [im e_s_z; re e_z_x; re e_y_z; re e_z_z; im e_x_xy; im e_x_xy; im e_z_xy; im e_z_d1; im e_z_d2];
  [re e_s_yz; im e_x_yz; im e_x_xy; im e_x_xy; re e_yz_yz; re e_xz_yz; re e_xy_yz; re e_yz_d1; re e_yz_d2];
  [re e_s_xz; im e_x_xz; im e_y_xz; im e_x_xy; re e_xz_yz; re e_xz_xz; re e_xy_xz; re e_xz_d1; re e_xz_d2];
  [re e_s_xy; im e_x_xy; im e_x_xy; im e_z_xy; re e_xy_yz; re e_xy_xz; re e_xy_xy; re e_xy_d1; re e_xy_d2];
  [re e_s_d1; im e_x_d1; im e_y_d1; im e_z_d1; re e_yz_d1; re e_xz_d1; re e_xy_d1; re e_d1_d1; re e_d1_d2];
  [re e_s_d2; (e_x_d2_re, e_x_d2_im); (e_y_d2_re, e_y_d2_im); im e_z_d2; re e_yz_d2; re e_xz_d2; re e_xy_d2; re e_d1_d2; re e_d2_d2]].
(** l.421-423: the entries below the diagonal are conjugated *)
Definition sko_H (i j : nat) : cplx :=
  let x := nth j (nth i sko_table []) (0, 0) in if Nat.ltb j i then cconj x else x.
End F.

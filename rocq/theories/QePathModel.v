(** Model of the texts written for a path in k-space: KPath.__str__ (kpaths.py l.244-249) and QECrystal.k_path_wannier
    (qespresso_interface.py l.1165-1179), and of the numbers taken from the pseudo potential files: read_valence_electrons
    (l.673-691) and set_cutoff_from_pseudopotentials (l.694-708). Texts are lines of words, the files are tables of the numbers
    that they contain, real numbers are exact. Definitions only. *)
From Coq Require Import Reals List Arith ZArith Bool String.
From Verif Require Import NbrModel KPathModel LatModel QeModel.
Import ListNotations.
Local Open Scope R_scope.

(** kpaths.py l.77: the name of a point given by its coordinates; [f3] is the format .3f *)
Fixpoint join_blank (l : list string) : string :=
  match l with
  | [] => ""
  | [s] => s
  | s :: r => s ++ " " ++ join_blank r
  end.
Definition fmt_point (f3 : R -> string) (p : pt) : string := ("(" ++ join_blank (map f3 p) ++ ")")%string.

(** KPath.__str__, kpaths.py l.245-249; [None]: the points do not have three coordinates (ValueError) *)
Fixpoint str_points (path : list pt) : option (list (list word)) :=
  match path with
  | [] => Some []
  | [x; y; z] :: r => option_map (cons [WF (x * 2); WF (y * 2); WF (z * 2); WN 1]) (str_points r)
  | _ :: _ => None
  end.
Definition kpath_str (k : kpath) : option (list (list word)) :=
  option_map (fun ls => [WS "K_POINTS"; WS "{tpiba_b}"] :: [WN (List.length (kp_path k))] :: ls) (str_points (kp_path k)).

(** A_norm.T @ k, qespresso_interface.py l.1170; a lattice is the triple of its vectors, the columns of A_norm. [None]: ValueError *)
Definition dot3 (a b : vec) : R := let '(x, y, z) := a in let '(u, v, w) := b in x * u + y * v + z * w.
Definition to_crystal (A : lattice) (p : pt) : option vec :=
  match p with
  | [x; y; z] => let '(a1, a2, a3) := A in Some (dot3 a1 (x, y, z), dot3 a2 (x, y, z), dot3 a3 (x, y, z))
  | _ => None
  end.
(** l.1166-1177: [l] is zip(kpath.indices, kpath.names), [prev] the text of the last point *)
Fixpoint path_lines (A : lattice) (path : list pt) (prev : option (list word)) (l : list (nat * string)) : option (list (list word)) :=
  match l with
  | [] => Some []
  | (i, name) :: r =>
    match nth_error path i with
    | None => None                                                                     (* IndexError *)
    | Some p =>
      match to_crystal A p with
      | None => None
      | Some c => let this := WS name :: wvec c in
                  option_map (fun ls => match prev with Some q => (q ++ this) :: ls | None => ls end) (path_lines A path (Some this) r)
      end
    end
  end.
Definition k_path_wannier (A : lattice) (k : kpath) : option (list (list word)) :=
  option_map (fun ls => [WS "begin"; WS "kpoint_path"] :: ls ++ [[WS "end"; WS "kpoint_path"]])
    (path_lines A (kp_path k) None (combine (kp_idx k) (kp_names k))).

(** ** pseudo potentials. [pp] is the table pp_files; [header f] the attributes z_valence, wfc_cutoff and rho_cutoff of the file [f],
    [None] if it can not be read *)
Inductive pp_err := PKeyError | PNoFile | PAssertionError | PValueError.
Inductive pp_res (A : Type) := POk (a : A) | PErr (e : pp_err).
Arguments POk {A} a. Arguments PErr {A} e.
(** the keys of {t: pp_files[t] for t in self.types}, l.681 and l.698 *)
Fixpoint dict_keys (seen types : list string) : list string :=
  match types with
  | [] => []
  | t :: r => if existsb (String.eqb t) seen then dict_keys seen r else t :: dict_keys (t :: seen) r
  end.
Fixpoint collect {A B} (f : A -> pp_res B) (l : list A) : pp_res (list (A * B)) :=
  match l with
  | [] => POk []
  | a :: r => match f a with
              | PErr e => PErr e
              | POk b => match collect f r with POk bs => POk ((a, b) :: bs) | PErr e => PErr e end
              end
  end.
Definition pp_subset (pp : string -> option string) (types : list string) : pp_res (list (string * string)) :=
  collect (fun t => match pp t with Some f => POk f | None => PErr PKeyError end) (dict_keys [] types).
Fixpoint find_key {B} (t : string) (l : list (string * B)) : option B :=
  match l with
  | [] => None
  | (s, b) :: r => if String.eqb t s then Some b else find_key t r
  end.
(** l.687-689: z_valence == int(z_valence) *)
Definition int_valence (z : R) : pp_res Z := if Req_EM_T z (IZR (Int_part z)) then POk (Int_part z) else PErr PAssertionError.
(** l.690; the key is always there *)
Definition sum_valence (valence : list (string * Z)) (types : list string) : Z :=
  fold_right Z.add 0%Z (map (fun t => match find_key t valence with Some z => z | None => 0%Z end) types).
(** read_valence_electrons l.673-690 *)
Definition read_valence (pp : string -> option string) (header : string -> option (R * R * R)) (types : list string) : pp_res Z :=
  match pp_subset pp types with
  | PErr e => PErr e
  | POk sub =>
    match collect (fun tf => match header (snd tf) with Some (z, _, _) => int_valence z | None => PErr PNoFile end) sub with
    | PErr e => PErr e
    | POk vs => POk (sum_valence (map (fun p => (fst (fst p), snd p)) vs) types)
    end
  end.
(** max of a list, ValueError if it is empty *)
Definition max_list (l : list R) : pp_res R :=
  match l with
  | [] => PErr PValueError
  | x :: r => POk (fold_left Rmax r x)
  end.
(** set_cutoff_from_pseudopotentials l.694-708: the new kinetic_energy_cutoff *)
Definition cutoff (pp : string -> option string) (header : string -> option (R * R * R)) (types : list string) : pp_res R :=
  match pp_subset pp types with
  | PErr e => PErr e
  | POk sub =>
    match collect (fun tf => match header (snd tf) with Some (_, w, _) => POk w | None => PErr PNoFile end) sub with
    | PErr e => PErr e
    | POk ws => max_list (map snd ws)
    end
  end.

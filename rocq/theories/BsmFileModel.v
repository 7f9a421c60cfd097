(** Model of save and load of BandStructureModel (bandstructure.py l.655-753) and AsymTightBindingModel (tight_binding_asym.py
    l.251-307) on top of the file formats of FormatModel. Writing and reading of numbers is exact; what repr and eval do with arrays
    of more than 100000 numbers (the threshold of l.683) is not modelled. Definitions only. *)
From Coq Require Import List Arith ZArith Reals Bool String.
Import ListNotations.
From Verif Require Import SRing LMat FMat CplxR UrepModel FourierModel NbrModel FormatModel AsymOpsModel.
Local Open Scope nat_scope.

(** the values of the argument format; [FOther] is any other string *)
Inductive fmt := FPython | FJson | FWannier90 | FWannier90hr | FWannier90tb | FOther.
Inductive err := ValueError | NotImplementedError | IndexError | AssertionError | ParseError.
Inductive res (A : Type) := Ok (a : A) | Err (e : err).
Arguments Ok {A}. Arguments Err {A}.

(** str.endswith *)
Definition ends_with (s suffix : string) : bool :=
  Nat.leb (String.length suffix) (String.length s) &&
  String.eqb (substring (String.length s - String.length suffix) (String.length suffix) s) suffix.

(** bandstructure.py save l.671-682 *)
Definition save_format (name : string) (given : option fmt) : res fmt :=
  let f := match given with
           | Some f => Ok f
           | None => if ends_with name ".repr" then Ok FPython
                     else if ends_with name ".json" then Ok FJson
                     else if ends_with name ".dat" then Ok FWannier90
                     else Err ValueError
           end in
  match f with
  | Ok (FPython | FJson | FWannier90) => f
  | _ => Err ValueError
  end.
(** bandstructure.py load l.715-727 and tight_binding_asym.py load l.269-281 *)
Definition load_format (name : string) (given : option fmt) : res fmt :=
  let f := match given with
           | Some f => Ok f
           | None => if ends_with name ".repr" then Ok FPython
                     else if ends_with name ".json" then Ok FJson
                     else if ends_with name "tb.dat" then Ok FWannier90tb
                     else if ends_with name "hr.dat" then Ok FWannier90hr
                     else Err ValueError
           end in
  match f with
  | Ok (FPython | FJson | FWannier90hr | FWannier90tb) => f
  | _ => Err ValueError
  end.

(** the contents of a saved file: the four values of the "python" format with the dimension of the operations, or a JSON file *)
Inductive tbfile := PyFile (H : list cmatl) (nbs : list rvec) (sdim : nat) (ops : list (fmat Rs)) (inv : bool) | JsonFile (f : jfile).
(** a matrix of d bands as rows and back *)
Definition to_rows (d : nat) (m : cmat) : cmatl := map (fun i => map (fun j => m i j) (seq 0 d)) (seq 0 d).
Definition of_rows (l : cmatl) : cmat := fun i j => nth j (nth i l []) (0%R, 0%R).

(** bandstructure.py save l.655-698 for a model of d bands and a symmetry of dimension n; [self.sym] and [self.neighbors] are not
    None. The wannier90 writer raises NotImplementedError (wannier90_tb_format.py l.134-135). *)
Definition bsm_save (n d : nat) (name : string) (given : option fmt) (b : bsm) : res tbfile :=
  match save_format name given with
  | Err e => Err e
  | Ok FPython => Ok (PyFile (map (to_rows d) (params_complex b)) (bnb b) n (bops b) (binv b))
  | Ok FJson => match json_save (bnb b) (map (to_rows d) (params_complex b)) with Some f => Ok (JsonFile f) | None => Err IndexError end
  | Ok _ => Err NotImplementedError
  end.

(** a loaded BandStructureModel together with the dimension of its symmetry operations *)
Record lbsm := MkL { lsdim : nat; lmodel : bsm }.
Definition eyeR : fmat Rs := fun a c => if Nat.eqb a c then 1%R else 0%R.
Definition from_complex (sdim : nat) (b : bsm) (H : list cmat) : res lbsm :=
  match set_params_complex b H with Some m => Ok (MkL sdim m) | None => Err ValueError end.
(** bandstructure.py load l.700-753; [order] is the result of np.argsort in json_tb_format.load. A file of another format than the
    one chosen is a [ParseError]; the two wannier90 formats are never written by save. Symmetry(S, inversion) of a saved symmetry is
    that symmetry; Symmetry.none() has dimension 3 (symmetry.py l.292). *)
Definition bsm_load (order : list nat) (name : string) (given : option fmt) (cos_reduced ex : bool) (file : tbfile) : res lbsm :=
  match load_format name given with
  | Err e => Err e
  | Ok FPython =>
    match file with
    | PyFile H nbs sdim ops inv => from_complex sdim (MkBsm false true inv ops nbs []) (map of_rows H)              (* l.728-736 *)
    | _ => Err ParseError
    end
  | Ok FJson =>
    match file with
    | JsonFile f =>
      match json_load order f with
      | Some (nbs, H) => from_complex 3 (MkBsm ex cos_reduced false [eyeR] nbs []) (map of_rows H)              (* l.748-752 *)
      | None => Err ParseError
      end
    | _ => Err ParseError
    end
  | Ok _ => Err ParseError
  end.
(** f of a loaded model for k and neighbors of dimension n; s @ r_orig (l.957) raises ValueError for operations of another dimension *)
Definition loaded_f (n : nat) (l : lbsm) (k : rvec) : res cmat :=
  if Nat.leb (List.length (bparams (lmodel l))) 1 || Nat.eqb (lsdim l) n then Ok (bsm_f n (lmodel l) k) else Err ValueError.

(** AsymTightBindingModel.save l.251-265 *)
Definition atb_save (d : nat) (name : string) (given : option fmt) (a : atb) : res tbfile :=
  match (match given with Some f => Ok f | None => if ends_with name ".json" then Ok FJson else Err ValueError end) with
  | Err e => Err e
  | Ok FJson => match json_save (hnb (tH a)) (map (to_rows d) (hH (tH a))) with Some f => Ok (JsonFile f) | None => Err IndexError end
  | Ok _ => Err ValueError
  end.
(** HermitianFourierSeries(neighbors, H_r), l.22-30, then AsymTightBindingModel(H), l.195-199: S is the unit matrix on the neighbor 0 *)
Definition new_atb (n : nat) (nbs : list rvec) (H : list cmat) : res atb :=
  if zero_vec n (nb nbs 0) && Nat.eqb (List.length nbs) (List.length H)
  then match fs_unit n [fun _ => 0%R] with Some u => Ok (MkAtb (MkHfs nbs H) u) | None => Err AssertionError end
  else Err AssertionError.
(** AsymTightBindingModel.load l.267-307 *)
Definition atb_load (n : nat) (order : list nat) (name : string) (given : option fmt) (file : tbfile) : res atb :=
  match load_format name given with
  | Err e => Err e
  | Ok FPython =>
    match file with
    | PyFile H nbs _ ops inv =>
      if Nat.ltb 1 (List.length ops * (if inv then 2 else 1)) then Err ValueError                                  (* l.288-295 *)
      else new_atb n nbs (map of_rows H)
    | _ => Err ParseError
    end
  | Ok FJson =>
    match file with
    | JsonFile f => match json_load order f with Some (nbs, H) => new_atb n nbs (map of_rows H) | None => Err ParseError end
    | _ => Err ParseError
    end
  | Ok _ => Err ParseError
  end.

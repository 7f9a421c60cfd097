(** Model of the file formats: json_tb_format.py and wannier90_tb_format.py. The tokenising of lines, number parsing and the
    JSON reader/writer (exact for finite floats) are not modelled; exact arithmetic. Definitions only. *)
From Coq Require Import List Arith ZArith Reals Bool.
Import ListNotations.
From Verif Require Import SRing LMat FMat CplxR SymModel FourierModel NbrModel.
Local Open Scope R_scope.

(** ** json_tb_format.py *)
(** a matrix as the list of its rows *)
Definition cmatl := list (list cplx).
(** the fields of the file that [load] reads; "v" and "dim" of each matrix are written but never read *)
Record jfile := MkJ { jcount : nat; jparams : list (list (R * R)); jnbs : list rvec }.
Definition json_eps : R := 1 / 10 ^ 14.
(** save l.32-33: the two np.where calls, on one entry *)
Definition json_clean (z : cplx) : cplx :=
  let z1 := if Rltb (Rabs (fst z)) json_eps then (0, snd z) else z in
  if Rltb (Rabs (snd z1)) json_eps then (fst z1, 0) else z1.
(** save l.25-36: [None] is the IndexError of params[0]; h.flat lists the entries row by row *)
Definition json_save (nbs : list rvec) (P : list cmatl) : option jfile :=
  match P with
  | [] => None
  | p0 :: _ => Some (MkJ (length p0) (map (fun h => concat (map (map json_clean) h)) P) nbs)
  end.
(** reshape of a flat list into n rows of length k *)
Definition chunk {A} (k n : nat) (l : list A) : list (list A) := map (fun i => firstn k (skipn (i * k) l)) (seq 0 n).
(** load l.9-23 for complex data; [order] is the result of np.argsort on the lengths. [None]: numpy cannot reshape the data to
    (len(neighbors), band_count, band_count, 2). Other shapes for which numpy's reshape happens to succeed are not modelled. *)
Definition json_load (order : list nat) (f : jfile) : option (list rvec * list cmatl) :=
  if Nat.eqb (length (jparams f)) (length (jnbs f)) && forallb (fun h => Nat.eqb (length h) (jcount f * jcount f)) (jparams f)
     && negb (Nat.eqb (jcount f) 0) && negb (Nat.eqb (length (jnbs f)) 0)
  then let P := map (chunk (jcount f) (jcount f)) (jparams f) in
       Some (take_idx (fun _ => 0) order (jnbs f), take_idx [] order P)
  else None.

(* ------------------------------------------------------------------ *)
(** ** wannier90_tb_format.py *)
(** python indexing of an axis of length n: negative indices count from the end; [None] is an IndexError *)
Definition pyidx (n : nat) (i : Z) : option nat :=
  if ((0 <=? i) && (i <? Z.of_nat n))%Z then Some (Z.to_nat i)
  else if ((- Z.of_nat n <=? i) && (i <? 0))%Z then Some (Z.to_nat (Z.of_nat n + i)) else None.

Section Wannier.
Variable V W : Type.                          (* values of H entries (complex) and r entries (three complex numbers) *)
Variables (v0 : V) (w0 : W).
Definition wmat (A : Type) := nat -> nat -> A.
Definition wset {A} (m : wmat A) (i j : nat) (v : A) : wmat A :=
  fun a b => if Nat.eqb a i && Nat.eqb b j then v else m a b.
Fixpoint upd {A} (k : nat) (f : A -> A) (l : list A) : list A :=
  match l, k with
  | [], _ => []
  | a :: l', O => f a :: l'
  | a :: l', S k' => a :: upd k' f l'
  end.

(** lines of the matrix part of a _tb.dat file, l.34-73: 3, 4 or 8 tokens, empty, or any other number of tokens *)
Inductive tbline := LPos (r : zvec) | LEnt (i j : Z) (v : V) | LREnt (i j : Z) (w : W) | LBlank | LBad.
(** l.29-33 neighbors (with neighbors_set), params, r_params and index (-1 is [None]) *)
Record wst := MkW { wnb : list zvec; wP : list (wmat V); wR : list (wmat W); wcur : option nat }.
Definition w_init := MkW [] [] [] None.
Inductive wres := WOk (s : wst) | WValueError | WIndexError.

(** l.38-53 *)
Definition w_pos (n : nat) (r : zvec) (s : wst) : wst :=
  match find_idx (zveqb r) (wnb s) with
  | Some k => MkW (wnb s) (wP s) (wR s) (Some k)                                       (* l.53 neighbors.index(pos) *)
  | None =>
    if negb (zveqb r (zvneg n r)) && memb zveqb (zvneg n r) (wnb s) then MkW (wnb s) (wP s) (wR s) None      (* l.43-46 *)
    else MkW (wnb s ++ [r]) (wP s ++ [fun _ _ => v0]) (wR s ++ [fun _ _ => w0]) (Some (length (wnb s)))      (* l.47-51 *)
  end.
(** l.34-73, one line of a file for a lattice of dimension n (3 in the code) with [bands] bands *)
Definition w_line (n bands : nat) (s : wst) (l : tbline) : wres :=
  match l with
  | LBlank => WOk s                                                                    (* l.35-36 *)
  | LPos r => WOk (w_pos n r s)
  | LEnt i j v =>                                                                      (* l.54-60 *)
    match wcur s with
    | None => WOk s
    | Some k => match pyidx bands (i - 1), pyidx bands (j - 1) with
                | Some a, Some b => WOk (MkW (wnb s) (upd k (fun m => wset m a b v) (wP s)) (wR s) (wcur s))
                | _, _ => WIndexError
                end
    end
  | LREnt i j w =>                                                                     (* l.61-71 *)
    match wcur s with
    | None => WOk s
    | Some k => match pyidx bands (i - 1), pyidx bands (j - 1) with
                | Some a, Some b => WOk (MkW (wnb s) (wP s) (upd k (fun m => wset m a b w) (wR s)) (wcur s))
                | _, _ => WIndexError
                end
    end
  | LBad => WValueError                                                                (* l.72-73 *)
  end.
Fixpoint w_lines (n bands : nat) (s : wst) (ls : list tbline) : wres :=
  match ls with
  | [] => WOk s
  | l :: ls' => match w_line n bands s l with WOk s' => w_lines n bands s' ls' | e => e end
  end.
(** l.28-79: the matrix part of load_tb; [order] is the result of np.argsort on the lengths *)
Definition tb_body (n bands : nat) (order : list nat) (ls : list tbline) : option (list zvec * list (wmat V) * list (wmat W)) :=
  match w_lines n bands w_init ls with
  | WOk s => Some (take_idx [] order (wnb s), take_idx (fun _ _ => v0) order (wP s), take_idx (fun _ _ => w0) order (wR s))
  | _ => None
  end.

(** lines of the matrix part of a _hr.dat file, l.103-126: 7 tokens, empty, or anything else *)
Inductive hrline := HEnt (r : zvec) (i j : Z) (v : V) | HBlank | HBad.
Definition h_line (n bands : nat) (s : wst) (l : hrline) : wres :=
  match l with
  | HBlank => WOk s
  | HBad => WValueError
  | HEnt r i j v =>
    let write k s' := match pyidx bands (i - 1), pyidx bands (j - 1) with                          (* l.121-124 *)
                      | Some a, Some b => WOk (MkW (wnb s') (upd k (fun m => wset m a b v) (wP s')) (wR s') (Some k))
                      | _, _ => WIndexError
                      end in
    match find_idx (zveqb r) (wnb s) with
    | Some k => write k s                                                                          (* l.120 *)
    | None =>
      if negb (zveqb r (zvneg n r)) && memb zveqb (zvneg n r) (wnb s) then WOk s                   (* l.112-114 *)
      else write (length (wnb s)) (MkW (wnb s ++ [r]) (wP s ++ [fun _ _ => v0]) (wR s ++ [fun _ _ => w0]) None)   (* l.115-118 *)
    end
  end.
Fixpoint h_lines (n bands : nat) (s : wst) (ls : list hrline) : wres :=
  match ls with
  | [] => WOk s
  | l :: ls' => match h_line n bands s l with WOk s' => h_lines n bands s' ls' | e => e end
  end.
(** l.98-131 *)
Definition hr_body (n bands : nat) (order : list nat) (ls : list hrline) : option (list zvec * list (wmat V)) :=
  match h_lines n bands w_init ls with
  | WOk s => Some (take_idx [] order (wnb s), take_idx (fun _ _ => v0) order (wP s))
  | _ => None
  end.

(** the degeneracy list of a _hr.dat file, l.90-97: lines (token lists) are read until at least [count] numbers were seen.
    readline returns "" at the end of the file for ever, so a file that ends too early never leaves the loop. *)
Inductive dres := DOk (deg : list Z) (rest : list (list Z)) | DAssertionError | DHangs.
Fixpoint hr_degeneracy (count : nat) (acc : list Z) (lines : list (list Z)) : dres :=
  match lines with
  | [] => if Nat.leb count (length acc) then (if Nat.eqb count (length acc) then DOk acc [] else DAssertionError)
          else DHangs                   (* acc cannot change any more *)
  | l :: rest => let acc' := acc ++ l in
                 if Nat.leb count (length acc') then (if Nat.eqb count (length acc') then DOk acc' rest else DAssertionError)
                 else hr_degeneracy count acc' rest
  end.
End Wannier.
Arguments LPos {V W}. Arguments LEnt {V W}. Arguments LREnt {V W}. Arguments LBlank {V W}. Arguments LBad {V W}.
Arguments HEnt {V}. Arguments HBlank {V}. Arguments HBad {V}.
Arguments WOk {V W}. Arguments WValueError {V W}. Arguments WIndexError {V W}.

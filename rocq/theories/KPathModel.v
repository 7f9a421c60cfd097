(** Model of kpaths.py: class KPath (l.33-120) and the table function tetragonal_bc_points with its global (l.397-440).
    Definitions only. *)
From Coq Require Import List Arith ZArith Reals Bool String.
Import ListNotations.
From Verif Require Import NbrModel.
Local Open Scope R_scope.

Definition pt := list R.
(** the dictionary of named points: key -> (point, display name) *)
Definition ptable := list (string * (pt * string)).
Fixpoint tab_find (k : string) (t : ptable) : option (pt * string) :=
  match t with
  | [] => None
  | (k', v) :: r => if String.eqb k k' then Some v else tab_find k r
  end.

(** the arguments of to(): a key, an array-like point, or a bare number; the constructor also takes a list or tuple of those *)
Inductive elem := EStr (key : string) | EVec (p : pt) | ENum (x : R).
Inductive startarg := TElem (e : elem) | TSeq (l : list elem).
Inductive kerr := KKeyError | KTypeError | KAssertionError | KZeroDivisionError | KValueError | KIndexError.

Record kpath := MkK { kp_path : list pt; kp_names : list string; kp_idx : list nat }.

Section KPath.
Variable tab : ptable.
(** the texts built from the coordinates, l.55-56 and l.77 *)
Variables (fmt0 fmt : pt -> string).

(** self.path[-1] + t (point - self.path[-1]), l.82, for one t; the lengths agree by l.79 *)
Definition lerp (p q : pt) (t : R) : pt := map (fun ab => fst ab + t * (snd ab - fst ab)) (combine p q).
(** t = np.linspace(0, 1, N, endpoint=False) + 1/N, l.81 *)
Definition ts (N : nat) : list R := map (fun i => INR i * (1 / INR N) + 1 / INR N) (seq 0 N).

Definition opt_name (name : option string) (dflt : string) : string := match name with Some s => s | None => dflt end.

(** to l.60-84: the new object state (mutated in place, also when an exception is raised) and the exception *)
Definition kto (k : kpath) (point : elem) (name : option string) (N : Z) : kpath * option kerr :=
  let named :=    (* l.71-78: the state after names.append and the point, or the exception *)
    match point with
    | EStr key =>
      match name, tab_find key tab with
      | Some s, Some (p, _) => (MkK (kp_path k) (kp_names k ++ [s]) (kp_idx k), inl p)
      | Some s, None => (MkK (kp_path k) (kp_names k ++ [s]) (kp_idx k), inr KKeyError)
      | None, Some (p, d) => (MkK (kp_path k) (kp_names k ++ [d]) (kp_idx k), inl p)
      | None, None => (k, inr KKeyError)
      end
    | EVec p => (MkK (kp_path k) (kp_names k ++ [opt_name name (fmt p)]) (kp_idx k), inl p)
    | ENum x =>
      match name with
      | Some s => (MkK (kp_path k) (kp_names k ++ [s]) (kp_idx k), inl [x])
      | None => (k, inr KTypeError)     (* iteration over a number *)
      end
    end in
  match named with
  | (k1, inr e) => (k1, Some e)
  | (k1, inl q) =>
    if negb (Nat.eqb (List.length q) (List.length (hd [] (kp_path k1)))) then (k1, Some KAssertionError)   (* l.79 *)
    else if Z.ltb N 0 then (k1, Some KValueError)                                      (* np.linspace *)
    else if Z.eqb N 0 then (k1, Some KZeroDivisionError)                               (* 1 / N *)
    else let path := kp_path k1 ++ map (lerp (last (kp_path k1) []) q) (ts (Z.to_nat N)) in
         (MkK path (kp_names k1) (kp_idx k1 ++ [(List.length path - 1)%nat]), None)
  end.

(** __init__ l.34-58 *)
Fixpoint kto_all (k : kpath) (l : list elem) : kpath + kerr :=
  match l with
  | [] => inl k
  | e :: r => match kto k e None 32 with
              | (k', None) => kto_all k' r
              | (_, Some err) => inr err
              end
  end.
Definition knew1 (start : elem) (name : option string) : kpath + kerr :=
  match start with
  | EStr key => match tab_find key tab with
                | None => inr KKeyError
                | Some (p, d) => inl (MkK [p] [opt_name name d] [0%nat])
                end
  | EVec p => inl (MkK [p] [opt_name name (fmt0 p)] [0%nat])
  | ENum x => inl (MkK [[x]] [opt_name name (fmt0 [x])] [0%nat])
  end.
Definition knew (start : startarg) (name : option string) : kpath + kerr :=
  match start with
  | TElem e => knew1 e name
  | TSeq [] => inr KIndexError
  | TSeq (e :: r) => match knew1 e name with inl k => kto_all k r | inr x => inr x end
  end.
End KPath.

(** np.linalg.norm of the difference of two points *)
Definition ldist (p q : pt) : R := sqrt (fold_right Rplus 0 (map (fun ab => (fst ab - snd ab) * (fst ab - snd ab)) (combine p q))).
(** x l.86-95 *)
Fixpoint xs_from (acc : R) (prev : pt) (rest : list pt) : list R :=
  match rest with
  | [] => []
  | q :: r => let a := acc + ldist q prev in a :: xs_from a q r
  end.
Definition kp_x (k : kpath) : list R := 0 :: match kp_path k with [] => [] | p :: r => xs_from 0 p r end.
(** sym_x l.97-112 *)
Definition memn (i : nat) (l : list nat) : bool := existsb (Nat.eqb i) l.
Fixpoint sym_from (idx : list nat) (i : nat) (l : R) (prev : pt) (rest : list pt) : list R :=
  match rest with
  | [] => []
  | q :: r => let l' := l + ldist q prev in
              (if memn i idx then [l'] else []) ++ sym_from idx (S i) l' q r
  end.
Definition kp_sym_x (k : kpath) : list R :=
  (if memn 0 (kp_idx k) then [0] else []) ++
  match kp_path k with [] => [] | p :: r => sym_from (kp_idx k) 1 0 p r end.

(** tetragonal_bc_points l.397-440. Because of the [global points] statement every assignment to [points] in the function
    body rebinds the module variable; the module state is the current value of kpaths.points.
    [bct c] is the table built by l.411-439 for c <> 1 (a parameter here: its contents do not matter for C43). *)
Definition tetragonal_bc_points (bct : R -> ptable) (c : R) (glob : ptable) : ptable * ptable :=
  if Req_EM_T c 1 then (glob, glob) else (bct c, bct c).

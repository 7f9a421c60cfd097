(** Model of autofit_asym (tight_binding_asym.py l.931-997). Definitions only.

    The control flow, the choice of the best restart, the neighbors and the files. The numerical steps are parameters: [f_complete] is
    sym.complete_neighbors, [f_dup] the test of add_neighbors for an equal neighbor, [f_start] the result of one restart (l.956-966: random
    coefficients, normalize, ten steps of optimize_cg) with its last loss, [f_extend] appends zero matrices, [f_fit] is one round of l.986-988.
    The first argument of [f_start] and [f_fit] counts the calls, because of the random numbers. Printing is left out. *)
From Coq Require Import Reals List Arith Bool.
From Verif Require Import NbrModel.
Import ListNotations.
Local Open Scope R_scope.

(** a loss as a floating point number *)
Inductive loss := LNan | LInf | LNum (r : R).
Definition loss_lt (a b : loss) : bool :=
  match a, b with LNum x, LNum y => Rltb x y | LNum _, LInf => true | _, _ => false end.

Record fitter (V P : Type) := MkFitter {
  f_complete : list V -> list V;
  f_dup : list V -> V -> bool;
  f_start : nat -> list V -> P * loss;
  f_extend : nat -> P -> P;
  f_fit : nat -> P -> P }.
Arguments f_complete {V P}. Arguments f_dup {V P}. Arguments f_start {V P}. Arguments f_extend {V P}. Arguments f_fit {V P}.

(** asym_{name}_start.json and asym_{name}_{neighbors_count}.json *)
Inductive label := LStart | LCount (n : nat).
Inductive fit_err := FValueError | FIndexError | FAssertionError | FFuel.
(** the files that were written, each with its neighbors and coefficients, and the model or an exception *)
Inductive fit_res (V P : Type) := FOk (files : list (label * list V * P)) (nb : list V) (p : P) | FErr (files : list (label * list V * P)) (e : fit_err).
Arguments FOk {V P}. Arguments FErr {V P}.

(** l.954-969 *)
Fixpoint best_restart {V P} (F : fitter V P) (nb : list V) (i todo : nat) (best : option P) (err : loss) : option P :=
  match todo with
  | O => best
  | S t => let '(p, l) := f_start F i nb in
           if loss_lt l err then best_restart F nb (S i) t (Some p) l else best_restart F nb (S i) t best err
  end.
(** l.985-991: [k] rounds, each followed by a file *)
Fixpoint rounds {V P} (F : fitter V P) (n : nat) (nb : list V) (k c : nat) (p : P) : list (label * list V * P) * P :=
  match k with
  | O => ([], p)
  | S j => let q := f_fit F c p in let '(fs, r) := rounds F n nb j (S c) q in ((LCount n, nb, q) :: fs, r)
  end.
(** the loop l.978-994; l.980-981 with add_neighbors l.116-130 *)
Fixpoint fit_loop {V P} (F : fitter V P) (src : list V) (k fuel : nat) (first : bool) (count c : nat) (nb : list V) (p : P) (files : list (label * list V * P)) : fit_res V P :=
  match fuel with
  | O => FErr files FFuel
  | S f =>
      if Nat.ltb count (length src) then
        if first then let '(fs, q) := rounds F count nb k c p in fit_loop F src k f false count (c + k) nb q (files ++ fs)
        else match nth_error src count with
             | None => FErr files FIndexError
             | Some x =>
                 let new := f_complete F [x] in
                 if existsb (f_dup F nb) new then
                   if Nat.eqb (length new) 1
                   then let '(fs, q) := rounds F (S count) nb k c p in fit_loop F src k f false (S count) (c + k) nb q (files ++ fs)
                   else FErr files FValueError
                 else let '(fs, q) := rounds F (S count) (nb ++ new) k c (f_extend F (length new) p) in
                      fit_loop F src k f false (S count) (c + k) (nb ++ new) q (files ++ fs)
             end
      else FOk files nb p
  end.
(** l.931-997; [bands] the number of reference bands. l.959 assigns a bands x bands matrix to one of the size of the model, which numpy
    allows for equal sizes and for one band (then it is repeated) *)
Definition autofit {V P} (F : fitter V P) (src : list V) (bands start below above restarts : nat) (randomize : bool) : fit_res V P :=
  let nb := f_complete F (firstn (S start) src) in                                          (* l.948-949 *)
  if Nat.eqb restarts 0 then FErr [] FAssertionError else                                   (* l.970 *)
  match nb with
  | [] => FErr [] FIndexError                                                               (* l.959 *)
  | _ =>
    if Nat.eqb bands (below + bands + above) || Nat.eqb bands 1 then                        (* l.959 *)
      match best_restart F nb 0 restarts None LInf with
      | None => FErr [] FAssertionError                                                     (* l.970 *)
      | Some p => fit_loop F src (if randomize then 10 else 1) (S (S (length src))) true (S start) 0 nb p [(LStart, nb, p)]
      end
    else FErr [] FValueError
  end.

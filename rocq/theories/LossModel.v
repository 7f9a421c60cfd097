(** Model of the band comparison functions (loss.py) and of the optimisation logger (logger.py). Definitions only. *)
From Coq Require Import List Arith ZArith Reals Bool.
Import ListNotations.
From Verif Require Import SRing LMat CplxR NbrModel.
Local Open Scope R_scope.

(** A 2d array of nk rows and nb columns is a function (row, column); the row lengths are passed separately. *)
Definition barr := nat -> nat -> R.

(** sum of squares and np.linalg.norm of an nk x nb array *)
Definition sqsum (nk nb : nat) (a : barr) : R := nsum (K:=Rs) nk (fun k => nsum (K:=Rs) nb (fun j => a k j * a k j)).
Definition norm2 (nk nb : nat) (a : barr) : R := sqrt (sqsum nk nb a).

(** select: (min_energy <= ref_bands) & (ref_bands <= max_energy) as 0 or 1, loss.py l.57 *)
Definition window (lo hi : R) (ref : barr) : barr :=
  fun k j => if (Rleb lo (ref k j) && Rleb (ref k j) hi)%bool then 1 else 0.

(** loss.py l.55-56: the number of compared bands and max_offset *)
Definition compare_bands (nb nr : nat) : nat := Nat.min nb nr.
Definition max_offset (nb nr : nat) : nat := (Nat.max nb nr - compare_bands nb nr)%nat.

(** loss.py l.61-64 (with [sel] the window) and l.102-105 (with [sel] constantly 1) *)
Definition offset_diff (nb nr : nat) (bands ref sel : barr) (i : nat) : barr :=
  if Nat.ltb nb nr then fun k j => (ref k (i + j)%nat - bands k j) * sel k (i + j)%nat
  else fun k j => (ref k j - bands k (i + j)%nat) * sel k j.

(** min(cost, value) where [None] is float("inf"), l.58 and l.65 *)
Definition omin (c : option R) (v : R) : option R :=
  match c with None => Some v | Some w => Some (Rmin w v) end.

(** the loop l.60-65 over range(max_offset) *)
Definition best_cost (nk nb nr : nat) (bands ref sel : barr) : option R :=
  fold_left (fun c i => omin c (norm2 nk (compare_bands nb nr) (offset_diff nb nr bands ref sel i)))
    (seq 0 (max_offset nb nr)) None.

(** model_windowed_loss l.33-66 with allow_skipped_bands=False. [None] is the result inf. *)
Definition model_windowed_loss (nk nb nr : nat) (bands ref : barr) (lo hi : R) : option R :=
  match best_cost nk nb nr bands ref (window lo hi ref) with
  | None => None
  | Some c => Some (c / sqrt (INR nk))
  end.

(** the loop l.98-111 of model_error_hist: state (cost, (offset whose error is kept)); [None] is the initial
    cost = inf, error = None *)
Definition hist_step (nk nb nr : nat) (bands ref : barr) (c : option (R * nat)) (i : nat) : option (R * nat) :=
  let v := norm2 nk (compare_bands nb nr) (offset_diff nb nr bands ref (fun _ _ => 1) i) in
  match c with
  | None => Some (v, i)
  | Some (w, j) => if Rltb v w then Some (v, i) else Some (w, j)
  end.
Definition hist_offset (nk nb nr : nat) (bands ref : barr) : option (R * nat) :=
  fold_left (hist_step nk nb nr bands ref) (seq 0 (max_offset nb nr)) None.

(** np.max(list(...) + [0]) of the selected errors, l.113 *)
Definition rmaxl (l : list R) : R := fold_right Rmax 0 l.
(** all (row, column) pairs of an nk x nb array *)
Definition cells (nk nb : nat) : list (nat * nat) := list_prod (seq 0 nk) (seq 0 nb).
(** model_error_hist l.113 for one bin center e with bin width h; the bin centers (l.82-83) are not modelled.
    [None] is the TypeError of indexing error = None. ref_bands was replaced by its window l.111 when it has more bands. *)
Definition hist_bin (nk nb nr : nat) (bands ref : barr) (e h : R) : option R :=
  match hist_offset nk nb nr bands ref with
  | None => None
  | Some (_, i) =>
    let ref2 := if Nat.ltb nb nr then (fun k j => ref k (i + j)%nat) else ref in
    let err := offset_diff nb nr bands ref (fun _ _ => 1) i in
    Some (rmaxl (map (fun p => Rabs (err (fst p) (snd p)))
      (filter (fun p => Rleb (Rabs (ref2 (fst p) (snd p) - e)) (h / 2)) (cells nk (compare_bands nb nr)))))
  end.

(** logger.py: OptimisationLogger. Iterations are integers, losses of any type, messages any type;
    printing (print_loss, update_line, verbose) is not part of the state. *)
Section Logger.
Variables (L E M : Type).
Inductive entry := Msg (m : M) | Aborted | Data (iteration : Z) (loss : L) (max_err : E).
Record lstate := MkLog { l_stream : list entry; l_iter : list Z; l_loss : list L; l_count : bool; l_aborted : bool }.
(** __init__ l.7-15 *)
Definition log_new : lstate := MkLog [] [] [] false false.
(** iteration_count l.50-53 *)
Definition iteration_count (s : lstate) : Z := match rev (l_iter s) with x :: _ => x | [] => (-1)%Z end.
(** last_loss l.55-56; [None] is the IndexError *)
Definition last_loss (s : lstate) : option L := match rev (l_loss s) with x :: _ => Some x | [] => None end.
(** add_message l.17-23 *)
Definition add_message (m : M) (s : lstate) : lstate :=
  MkLog (l_stream s ++ [Msg m]) (l_iter s) (l_loss s) (l_count s) (l_aborted s).
(** abort l.25-29; [None] is the ValueError, which leaves the state unchanged *)
Definition log_abort (s : lstate) : option lstate :=
  if l_aborted s then None
  else Some (MkLog (l_stream s ++ [Aborted]) (l_iter s) (l_loss s) (l_count s) true).
(** add_data l.31-37 *)
Definition add_data (it : Z) (loss : L) (err : E) (s : lstate) : lstate :=
  MkLog (l_stream s ++ [Data it loss err])
    (l_iter s ++ [if l_count s then (iteration_count s + 1)%Z else it])
    (l_loss s ++ [loss]) (l_count s) (l_aborted s).
(** assignment to the public attribute count (l.14) *)
Definition set_count (b : bool) (s : lstate) : lstate :=
  MkLog (l_stream s) (l_iter s) (l_loss s) b (l_aborted s).

(** a history of calls; a ValueError is caught by the caller and the logger used further *)
Inductive call := CMsg (m : M) | CAbort | CData (it : Z) (loss : L) (err : E) | CCount (b : bool).
Definition run1 (s : lstate) (c : call) : lstate :=
  match c with
  | CMsg m => add_message m s
  | CAbort => match log_abort s with Some s' => s' | None => s end
  | CData it l e => add_data it l e s
  | CCount b => set_count b s
  end.
Definition run (cs : list call) : lstate := fold_left run1 cs log_new.
End Logger.
Arguments Msg {L E M}. Arguments Aborted {L E M}. Arguments Data {L E M}.
Arguments MkLog {L E M}. Arguments l_stream {L E M}. Arguments l_iter {L E M}. Arguments l_loss {L E M}.
Arguments l_count {L E M}. Arguments l_aborted {L E M}. Arguments log_new {L E M}.
Arguments iteration_count {L E M}. Arguments last_loss {L E M}. Arguments add_message {L E M}.
Arguments log_abort {L E M}. Arguments add_data {L E M}. Arguments set_count {L E M}.
Arguments CMsg {L E M}. Arguments CAbort {L E M}. Arguments CData {L E M}. Arguments CCount {L E M}.
Arguments run1 {L E M}. Arguments run {L E M}.

(** The bar of add_data l.43-45. Python's round of a real number: nearest integer, ties to even. *)
Definition pyround (x : R) : Z :=
  let f := Int_part x in
  let d := x - IZR f in
  if Rltb d (1/2) then f
  else if Rltb (1/2) d then (f + 1)%Z
  else if Z.even f then f else (f + 1)%Z.
(** one character: [None] is the ValueError/NaN case scale = 0, otherwise the code point. 0x2581 = 9601, " " = 32 *)
Definition bar_char (scale err : R) : option Z :=
  if Req_EM_T scale 0 then None
  else Some (if Rleb (err / scale) (1/16) then 32%Z else (9601 + pyround (err / scale * 8 - 1))%Z).
(** np.max of the errors; [None] is the ValueError of an empty array *)
Definition rmax1 (l : list R) : option R := match l with [] => None | x :: t => Some (fold_left Rmax t x) end.
(** error_vis l.43-45. 0/0 is nan: nan <= 1/16 is False and round(nan) raises ValueError. *)
Definition error_vis (errs : list R) : option (list Z) :=
  match rmax1 errs with
  | None => None
  | Some scale => if Req_EM_T scale 0 then None
                  else Some (map (fun e => match bar_char scale e with Some c => c | None => 0%Z end) errs)
  end.

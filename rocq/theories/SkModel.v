(** Model of slater_koster.py, class SlaterKoster: parameters (l.252-295), set_parameter (l.297-307) and the sum made by
    the sliders of interactive_widget (l.318-324). Definitions only.

    The import l.8 [from typing import Callable, tuple, Self] raises ImportError ([tuple] is no name of typing), so the
    module is modelled as if this line were right. The thresholds 1e-5 are comparisons with zero. The text of a label is
    kept as its parts: the index k ([E] for 0, [V k] else) and the two band names, each the name given to the block and
    the local index that is printed behind it for blocks of more than one dimension. *)
From Coq Require Import List Arith ZArith Bool String.
Import ListNotations.
From Verif Require Import SRing LMat FMat SymModel HamModel.

Section Sk.
Context {K : sring}.
Local Open Scope sring_scope.
(** comparison with zero, np.real, np.imag (both as elements of [K]), the division and 1/2, 1/len(sym.S) *)
Variables (is0 : K -> bool) (re im : K -> K) (kdiv : K -> K -> K) (ueqb : nat -> fmat K -> fmat K -> bool) (half dv : K).

(** the arrays of numpy are evaluated: the entries of the first [N] rows and columns are stored *)
Definition fstore (N : nat) (M : fmat K) : fmat K :=
  let l := map (fun a => map (fun b => M a b) (seq 0 N)) (seq 0 N) in fun a b => nth b (nth a l []) 0.
(** [H[k][i, j] = v] *)
Definition set_entry (H : list (fmat K)) (k i j : nat) (v : K) : list (fmat K) :=
  map (fun im : nat * fmat K =>
      if Nat.eqb (fst im) k then (fun a b => if Nat.eqb a i && Nat.eqb b j then v else snd im a b) : fmat K else snd im)
    (combine (seq 0 (List.length H)) H).

(** the object: the symmetry with the names of its blocks, and the neighbors (l.26-33) *)
Record sk := MkSk { sk_h : hsym K; sk_names : list string; sk_ns : list zvec }.
(** self.symmetrizer *)
Definition sk_sym (s : sk) (H : list (fmat K)) : list (fmat K) :=
  map (fstore (hdim (sk_h s))) (ham_symmetrizer ueqb half dv (sk_h s) (sk_ns s) H).
(** np.zeros(np.shape(self.model.params)) *)
Definition sk_zeros (s : sk) : list (fmat K) := map (fun _ => fzero : fmat K) (sk_ns s).

Definition sk_tuple := (nat * nat * nat * K)%type.
(** set_parameter l.305-307 *)
Definition sk_set (s : sk) (H : list (fmat K)) (t : sk_tuple) (v : K) : list (fmat K) :=
  let '(k, i, j, fac) := t in sk_sym s (set_entry H k i j (kdiv v fac)).

(** the labels, l.278-280 *)
Definition sk_label := (nat * (string * option Z) * (string * option Z))%type.
Definition sk_band (s : sk) (i : nat) : string * option Z :=
  match band_name (hblocks (sk_h s)) 0 (Z.of_nat i) with
  | Some (b, l) => (nth b (sk_names s) EmptyString, l)
  | None => (EmptyString, None)
  end.
Definition band_eqb (x y : string * option Z) : bool :=
  String.eqb (fst x) (fst y) &&
  match snd x, snd y with Some a, Some b => Z.eqb a b | None, None => true | _, _ => false end.
Definition label_eqb (x y : sk_label) : bool :=
  let '(k, a, b) := x in let '(k', a', b') := y in Nat.eqb k k' && band_eqb a a' && band_eqb b b'.
(** found_params[label] = t on a dictionary in order of insertion *)
Fixpoint dict_set (d : list (sk_label * sk_tuple)) (l : sk_label) (t : sk_tuple) : list (sk_label * sk_tuple) :=
  match d with
  | [] => [(l, t)]
  | (l', t') :: r => if label_eqb l' l then (l', t) :: r else (l', t') :: dict_set r l t
  end.

(** l.281-290 *)
Definition sk_fac (init x : K) : K := if is0 (im x) then re x else if is0 (re x) then im x else kdiv x init.
(** l.267-294, the body of the loops for one (k, i, j) *)
Definition sk_step (s : sk) (init : K) (st : list (fmat K) * list (sk_label * sk_tuple)) (kij : nat * nat * nat) :
    list (fmat K) * list (sk_label * sk_tuple) :=
  let '(dummy, found) := st in
  let '(k, i, j) := kij in
  if negb (is0 (nth k dummy fzero i j)) then st
  else
    let d := sk_sym s (set_entry dummy k i j init) in
    let x := nth k d fzero i j in
    if is0 x then (d, found)
    else (d, dict_set found (k, sk_band s i, sk_band s j) (k, i, j, sk_fac init x)).
(** l.267-269 *)
Definition sk_indices (m n : nat) : list (nat * nat * nat) :=
  flat_map (fun k => flat_map (fun i => map (fun j => (k, i, j)) (seq i (n - i))) (seq 0 n)) (seq 0 m).
(** parameters(real): [init] is 1.0 for real=True and 1+1j else (l.266) *)
Definition sk_parameters (s : sk) (init : K) : list (sk_label * sk_tuple) :=
  snd (fold_left (sk_step s init) (sk_indices (List.length (sk_ns s)) (hdim (sk_h s))) (sk_zeros s, [])).

(** the update of the sliders, l.318-324: all values are added to zero parameters and symmetrised once *)
Definition sk_sliders (s : sk) (tv : list (sk_tuple * K)) : list (fmat K) :=
  sk_sym s (fold_left (fun H tv => let '((k, i, j, fac), v) := tv in
              set_entry H k i j (nth k H fzero i j + kdiv v fac)) tv (sk_zeros s)).
End Sk.
Arguments sk : clear implicits.

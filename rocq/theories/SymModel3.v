(** Model of symmetry.py: basis changes, dual groups, subgroups, space groups and factor groups
    (l.105-132, 209-233, 285-289, 896-1042). Definitions only.

    Operations with a translation are (d+1) x (d+1) matrices. Translations are fractions with a common
    denominator D; the model stores D times the translation, which conjugates every matrix with
    diag(D, .., D, 1) and changes neither products, determinants, signs nor the tests for equality and zero. *)
From Coq Require Import List Arith ZArith Bool.
Import ListNotations.
From Verif Require Import SRing LMat SymModel.

(** return value, AssertionError or ValueError (also a numpy shape error) *)
Inductive sres (A : Type) := SOk (a : A) | SAssert | SValue.
Arguments SOk {A}. Arguments SAssert {A}. Arguments SValue {A}.
Definition sres_of {A} (o : option A) : sres A := match o with Some a => SOk a | None => SValue end.

Section Conj.
Variable K : sring.
Local Open Scope sring_scope.
(** transform l.231-232: B @ S @ inv(B), with [Bi] for np.linalg.inv(B) *)
Definition conj_op (n : nat) (B Bi s : lmat K) : lmat K := lmul n (lmul n B s) Bi.
(** l.228: np.block([[B, 0], [0, 1]]) *)
Definition proj_block (d : nat) (B : lmat K) : lmat K :=
  mk (S d) (S d) (fun i j => if Nat.ltb i d && Nat.ltb j d then ent B i j
                               else if Nat.eqb i d && Nat.eqb j d then 1 else 0).
End Conj.
Arguments conj_op {K}. Arguments proj_block {K}.

(** transform l.209-233 for an m x m integer matrix B with integer inverse Bi. The blocks of l.228 have
    three rows, so np.block raises ValueError for any other m. *)
Definition sym_transform (g : sym) (m : nat) (B Bi : zmat) : sres sym :=
  if sproj g then
    if negb (Nat.eqb m (sdim g - 1)) then SAssert
    else if negb (Nat.eqb m 3) then SValue
    else sres_of (sym_init (sdim g) (map (conj_op (sdim g) (proj_block m B) (proj_block m Bi)) (sops g)) (sinv g) true)
  else if negb (Nat.eqb m (sdim g)) then SAssert
  else sres_of (sym_init (sdim g) (map (conj_op m B Bi) (sops g)) (sinv g) false).

(** copy l.109-111 *)
Definition sym_copy (g : sym) : option sym := sym_init (sdim g) (sops g) (sinv g) (sproj g).

(** dual l.285-289; [inv] is np.linalg.inv *)
Definition sym_dual (inv : zmat -> zmat) (g : sym) : option sym :=
  sym_init (sdim g) (map (fun s => inv (ltr (K:=Zs) (sdim g) s)) (sops g)) (sinv g) (sproj g).

(** subgroup l.896-915. [f] is the class function, its values are compared with [veq]. *)
Definition sym_subgroup {V} (veq : V -> V -> bool) (f : zmat -> V) (g : sym) : sres sym :=
  match sops g with
  | [] => SValue
  | s_0 :: r =>
    let S := s_0 :: filter (fun s => veq (f s) (f s_0)) r in                               (* l.908-912 *)
    match sym_init (sdim g) S (if sinv g then veq (f (zneg (sdim g) s_0)) (f s_0) else false) false with   (* l.913 *)
    | None => SValue
    | Some h => match sym_check h with                                                      (* l.914 *)
                | None => SValue
                | Some true => SOk h
                | Some false => SAssert
                end
    end
  end.

(** space_group l.917-921; n is len(S[0]) *)
Definition space_group (n : nat) (S : list zmat) (dim : nat) : sres sym :=
  if Nat.eqb n dim || Nat.eqb n (dim + 1) then sres_of (sym_init n S false (Nat.eqb n (dim + 1))) else SAssert.

(** s[:-1, :-1] *)
Definition cut (d : nat) (s : zmat) : zmat := mk (K:=Zs) d d (ent (K:=Zs) s).

(** ignore_translation l.945-954 *)
Definition ignore_translation (g : sym) : sres sym :=
  if sproj g then sres_of (sym_init (sdim g - 1) (map (cut (sdim g - 1)) (sops g)) (sinv g) false) else SOk g.

(** the invariant of l.941: the norms of the last column and the last row. Only whether the sum is zero
    matters (the first operation is the identity), so the squares are added without roots. *)
Definition trans_norm (d : nat) (s : zmat) : Z :=
  (nsum (K:=Zs) d (fun i => ent (K:=Zs) s i d * ent (K:=Zs) s i d) + nsum (K:=Zs) d (fun j => ent (K:=Zs) s d j * ent (K:=Zs) s d j))%Z.
(** remove_translation l.933-943: the operations are cut without calling the constructor again *)
Definition remove_translation (g : sym) : sres sym :=
  if sproj g then
    match sym_subgroup Z.eqb (trans_norm (sdim g - 1)) g with
    | SOk h => SOk (MkSym (sdim g - 1) (map (cut (sdim g - 1)) (sops h)) (sinv h) false)
    | SAssert => SAssert
    | SValue => SValue
    end
  else SAssert.

(** point_group l.923-926, strict_point_group l.928-931 *)
Definition point_group (n : nat) (S : list zmat) (dim : nat) : sres sym :=
  match space_group n S dim with SOk g => ignore_translation g | SAssert => SAssert | SValue => SValue end.
Definition strict_point_group (n : nat) (S : list zmat) (dim : nat) : sres sym :=
  match space_group n S dim with SOk g => remove_translation g | SAssert => SAssert | SValue => SValue end.

(* ------------------------------------------------------------------ *)
(** ** __truediv__, l.976-1042. Division [g / rhs]; [inv] is np.linalg.inv. IndexError (an empty class in
    l.1035-1036) is [DIndex]. *)
Section Div.
Variable n : nat.
Variable inv : zmat -> zmat.
(** left(a, b), l.984-990 *)
Definition div_left (rhs : list zmat) (a b : zmat) : bool := memb zmeqb (zmul n (inv a) b) rhs.
(** a, a^2, .. *)
Fixpoint zpow (a : zmat) (k : nat) : zmat := match k with O => zeye n | S k' => zmul n (zpow a k') a end.
(** l.1004-1010: the elements of lowest order at most [k + fuel - 1]; empty if there are none *)
Fixpoint div_reduce (fuel k : nat) (base : list zmat) : list zmat :=
  match fuel with
  | O => []
  | S f =>
    match filter (fun a => zmeqb (zpow a k) (zeye n)) base with
    | [] => div_reduce f (S k) base
    | l => l
    end
  end.
(** l.1022-1032 for one class: products with [selected] without repetitions *)
Definition div_shift (selected : zmat) (c : list zmat) : list zmat :=
  fold_left (add_new zmeqb) (map (zmul n selected) c) [].
(** the loop of l.999-1033; [None] = the fuel was too small *)
Fixpoint div_loop (fuel : nat) (order : nat) (classes : list (list zmat)) : option (list (list zmat)) :=
  match fuel with
  | O => None
  | S f =>
    let cs := map (div_reduce (S order) 1) classes in
    match filter (fun c => Nat.ltb 1 (length c)) cs with
    | (s :: _) :: _ => div_loop f order (map (div_shift (inv s)) cs)
    | _ => Some cs
    end
  end.
(** l.1035-1036; [None] = IndexError *)
Fixpoint firsts (cs : list (list zmat)) : option (list zmat) :=
  match cs with
  | [] => Some []
  | [] :: _ => None
  | (s :: _) :: cs' => option_map (cons s) (firsts cs')
  end.
End Div.

(** [DFuel] cannot happen, see the proof that the loop ends *)
Inductive dres := DOk (h : sym) | DAssert | DValue | DIndex | DFuel.
Definition sym_div (inv : zmat -> zmat) (g rhs : sym) : dres :=
  let n := sdim g in
  if negb (Nat.eqb n (sdim rhs)) then DAssert                                                 (* l.978 *)
  else if negb ((sinv g || negb (sinv rhs)) && Nat.eqb (length (sops g) mod length (sops rhs)) 0) then DAssert  (* l.980 *)
  else
    let classes := equivalence_classes (div_left n inv (sops rhs)) (sym_all g) in                (* l.991 *)
    if negb (Nat.eqb (length classes) (sym_len g / sym_len rhs)) then DAssert                  (* l.992 *)
    else match div_loop n inv (S (length (concat classes))) (length (sops g)) classes with
         | None => DFuel
         | Some cs =>
           match firsts cs with
           | None => DIndex
           | Some [] => DIndex
           | Some (x :: r) =>
             match sym_init n (map (fun c => zmul n c (inv x)) (x :: r)) (sinv g && sinv rhs) false with   (* l.1037 *)
             | None => DValue
             | Some h => match sym_check h with None => DValue | Some true => DOk h | Some false => DValue end  (* l.1038 *)
             end
           end
         end.

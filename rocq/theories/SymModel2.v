(** Model of the remaining parts of symmetry.py: tensor symmetrisation, reduction of symmetric
    data and check_neighbors. Definitions only. *)
From Coq Require Import List Arith ZArith Lia Bool.
Import ListNotations.
From Verif Require Import SRing LMat SymModel.

(* ------------------------------------------------------------------ *)
(** ** Symmetry.symmetrize, symmetry.py l.827-854 *)
Section Tensor.
Context {K : sring}.
Open Scope sring_scope.

(** a tensor of shape (n,...,n) as a function of its multi-index; only multi-indices of the right
    length with entries below n are ever read *)
Definition tensor := list nat -> K.

(** all multi-indices of length [r] *)
Fixpoint all_idx (n r : nat) : list (list nat) :=
  match r with
  | 0 => [[]]
  | S r' => flat_map (fun a => map (cons a) (all_idx n r')) (seq 0 n)
  end.

(** product of the matrix elements m_i[b_i, a_i] *)
Fixpoint mprod (ms : list (lmat K)) (b a : list nat) : K :=
  match ms, b, a with
  | m :: ms', b0 :: b', a0 :: a' => ent m b0 a0 * mprod ms' b' a'
  | _, _, _ => 1
  end.

(** [np.einsum(einsum_str, m_1, ..., m_r, t)], l.846 and l.852: sum over all input multi-indices.
    The subscripts are "ba" for the first rank[0] matrices (element m[b,a]) and "ab" for the others
    (element m[a,b]), which is written here as the transposed matrix. *)
Definition einsum (n : nat) (ms : list (lmat K)) (t : tensor) : tensor :=
  fun b => ksum (all_idx n (length ms)) (fun a => mprod ms b a * t a).

(** the matrices passed to einsum in l.852: rank[0] times inv(s), rank[1] times s ("ab", hence
    transposed) *)
Definition slots (n p q : nat) (inv : lmat K -> lmat K) (s : lmat K) : list (lmat K) :=
  repeat (inv s) p ++ repeat (ltr n s) q.

(** l.848-852: the summand of one operation. [inv] is np.linalg.inv, [sgn] is np.sign(det(s)). *)
Definition tterm (n p q : nat) (inv : lmat K -> lmat K) (sgn : lmat K -> K) (pseudo : bool)
    (s : lmat K) (t : tensor) : tensor :=
  einsum n (slots n p q inv s) (fun a => t a * (if pseudo then sgn s else 1)).

(** l.847-854; [dv] is 1/len(self.S). The inversion flag of the symmetry does not occur. *)
Definition tsymmetrize (n p q : nat) (inv : lmat K -> lmat K) (sgn : lmat K -> K) (dv : K)
    (pseudo : bool) (S : list (lmat K)) (t : tensor) : tensor :=
  fun b => dv * ksum S (fun s => tterm n p q inv sgn pseudo s t b).
End Tensor.
Arguments tensor : clear implicits.

(* ------------------------------------------------------------------ *)
(** ** reduce_symmetric_data, symmetry.py l.641-699

    Points are integer vectors divided by a common denominator [den] that divides 10^4, so that
    [round(x + pi, 4)] of l.661 is strictly monotone. Norm comparisons are squared. *)
Local Open Scope Z_scope.

(** round half to even of a/b for b > 0, [np.round] *)
Definition round_half_even (a b : Z) : Z :=
  let q := a / b in
  let r := a mod b in
  if 2 * r <? b then q else if b <? 2 * r then q + 1 else if Z.even q then q else q + 1.

(** [np.round(norm**2, 2)] in units of 0.01, l.670 *)
Definition rkey (den : Z) (v : zvec) : Z := round_half_even (100 * znorm2 v) (den * den).

Definition zvsub (a b : zvec) : zvec := map (fun p => fst p - snd p) (combine a b).

(** [norm(x - y) < scale * 1e-6], l.682 and l.689, with scale = norm(k) *)
Definition nearby (k x y : zvec) : bool := 10 ^ 12 * znorm2 (zvsub x y) <? znorm2 k.
(** [norm(x) > scale * 1.0001], l.687 *)
Definition farther (k x : zvec) : bool := 10001 ^ 2 * znorm2 k <? 10 ^ 8 * znorm2 x.

Inductive red_result (A : Type) := RedOk (a : A) | RedAssert (* l.668 *) | RedAsym (* l.691 *).
Arguments RedOk {A}. Arguments RedAssert {A}. Arguments RedAsym {A}.

Section Reduce.
Context {D : Type} (differ : D -> D -> bool).   (* [norm(a - b) > 1e-7], l.690 *)

(** l.684-696: delete the instances of [k_] from the list; [None] is the ValueError *)
Fixpoint del_scan (checked : bool) (k : zvec) (value : D) (k_ : zvec) (l : list (zvec * D))
  : option (list (zvec * D)) :=
  match l with
  | [] => Some []
  | (x, d) :: l' =>
    if farther k x then Some l
    else if nearby k x k_ then
      if checked && differ d value then None else del_scan checked k value k_ l'
    else option_map (cons (x, d)) (del_scan checked k value k_ l')
  end.

(** l.679-696: all operations of one point *)
Fixpoint del_ops (checked : bool) (n : nat) (k : zvec) (value : D) (ops : list (bool * zmat))
    (l : list (zvec * D)) : option (list (zvec * D)) :=
  match ops with
  | [] => Some l
  | o :: ops' =>
    let k_ := app_signed n o k in
    if nearby k k k_ then del_ops checked n k value ops' l               (* l.682-683 *)
    else match del_scan checked k value k_ l with
         | None => None
         | Some l' => del_ops checked n k value ops' l'
         end
  end.

(** l.674-698; the list never grows, so [length] rounds suffice *)
Fixpoint reduce_loop (fuel : nat) (checked : bool) (g : sym) (l : list (zvec * D))
  : option (list (zvec * D)) :=
  match fuel, l with
  | _, [] => Some []
  | O, _ :: _ => None
  | S f, (k, v) :: rest =>
    if znorm2 k =? 0 then option_map (cons (k, v)) (reduce_loop f checked g rest)   (* l.678 *)
    else match del_ops checked (sdim g) k v (signed_ops g) rest with
         | None => None
         | Some rest' => option_map (cons (k, v)) (reduce_loop f checked g rest')
         end
  end.

(** is_orthogonal, l.126-128: all s s^T = 1 *)
Definition is_orthogonal (g : sym) : bool :=
  forallb (fun s => zmeqb (zmul (sdim g) s (ltr (sdim g) s)) (zeye (sdim g))) (sops g).

(** l.657-672: the sorted list the loop starts with *)
Definition reduce_sorted (den : Z) (dim : nat) (l : list (zvec * D)) : list (zvec * D) :=
  sort_by (fun p => rkey den (fst p))
    (fold_left (fun l i => sort_by (fun p => nth i (fst p) 0) l) (seq 0 dim) l).

Definition reduce_symmetric_data (den : Z) (checked : bool) (g : sym) (l : list (zvec * D))
  : red_result (list (zvec * D)) :=
  if negb (is_orthogonal g) then RedAssert
  else match reduce_loop (length l) checked g (reduce_sorted den (sdim g) l) with
       | Some r => RedOk r
       | None => RedAsym
       end.
End Reduce.
Local Close Scope Z_scope.

(* ------------------------------------------------------------------ *)
(** ** check_neighbors, symmetry.py l.731-758 *)

(** [np.transpose((s,))] for the 1-tuple produced by [zip(self.S)] in l.746-748: the tuple becomes an
    array of shape (1, n, n), which np.transpose turns into shape (n, n, 1) *)
Definition transpose_zipped (n : nat) (s : zmat) : list (list (list Z)) :=
  map (fun i => map (fun j => [ent (K:=Zs) s j i]) (seq 0 n)) (seq 0 n).

(** numpy [a @ r] for a 3-d array and a vector: the last axes have to agree *)
Definition matmul3 (a : list (list (list Z))) (r : zvec) : option (list (list Z)) :=
  if forallb (fun m => forallb (fun row => Nat.eqb (length row) (length r)) m) a
  then Some (map (fun m => map (fun row => fold_right Z.add 0%Z (map (fun p => (fst p * snd p)%Z) (combine row r))) m) a)
  else None.

Inductive cn_result :=
| CnReturn            (* the function returns normally *)
| CnAssert            (* l.740 *)
| CnValueError        (* matmul shape mismatch or the final ValueError, l.758 *)
| CnBeyond.           (* execution continues at l.749; proved unreachable *)

(** l.740-758. [np.argsort] in l.743 only reorders. If no neighbor is given nothing is checked. *)
Definition check_neighbors (g : sym) (neighbors : list zvec) : cn_result :=
  if negb (Nat.eqb (sdim g) 3) then CnAssert
  else
    match sort_by znorm2 neighbors, sops g with
    | [], _ => CnReturn
    | _ :: _, [] => CnReturn
    | r :: _, s :: _ =>
      match matmul3 (transpose_zipped 3 s) r with
      | None => CnValueError
      | Some _ => CnBeyond
      end
    end.

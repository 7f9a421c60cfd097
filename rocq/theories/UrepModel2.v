(** Model of unitary_representations.py, second part: the precompiled symmetrizer, symmetrize2, permute,
    realize_symmetric_matrices, check_symmetry, products of representations and the named representations of the
    cubic group. Definitions only. Points are integer vectors in units of a common denominator, so that the
    tolerances 1e-7 and 1e-6 are exact equality. *)
From Coq Require Import List Arith ZArith Lia Bool.
Import ListNotations.
From Verif Require Import SRing LMat FMat SymModel HamModel UrepModel.

Section Urep2.
Context {K : sring}.
Open Scope sring_scope.
Notation urep := (urep K).

(** u^+ p u and u p u^+ *)
Definition uconjl (d : nat) (u p : fmat K) : fmat K := fmul d (fmul d (fadj u) p) u.
Definition uconjr (d : nat) (u p : fmat K) : fmat K := fmul d (fmul d u p) (fadj u).
Definition opU (r : urep) (m : nat) : fmat K := nth m (uU r) fzero.
Definition zero_b (x : zvec) : bool := forallb (Z.eqb 0) x.

(* ------------------------------------------------------------------ *)
(** ** symmetrizer, l.224-352 *)
(** the three task lists, l.251-253 *)
Inductive tkind := TZero | TMir | TNor.
Record task := MkTask { t_i : nat; t_j : nat; t_m : nat; t_k : tkind }.
(** the results of the preparation: a function, ValueError (lookup l.267, count l.290), AssertionError (l.278, l.293)
    or IndexError (l.293 [task_list_r0[0][0]] of an empty array; l.296 and l.298: the list of flags of an empty task
    list becomes a float array, which is no index) *)
Inductive tres (A : Type) := TOk (a : A) | TValue | TAssert | TIndex.
Arguments TOk {A}. Arguments TValue {A}. Arguments TAssert {A}. Arguments TIndex {A}.

(** l.263-284, the tasks of neighbor number i in the order of the operations *)
Fixpoint row_tasks (inv : bool) (n : nat) (ns : list zvec) (i : nat) (x : zvec) (ms : list (nat * zmat)) : tres (list task) :=
  match ms with
  | [] => TOk []
  | (m, s) :: ms' =>
    let x' := zmv n s x in
    match try_neighbor zveqb (zvneg n) ns x' with
    | None => TValue
    | Some (j, mirror) =>
      let k := if zero_b x' && inv then Some TZero else if mirror && inv then Some TMir
               else if mirror then None else Some TNor in                                    (* l.270-281 *)
      match k with
      | None => TAssert                                                                      (* l.278 *)
      | Some k => match row_tasks inv n ns i x ms' with TOk l => TOk (MkTask i j m k :: l) | e => e end
      end
    end
  end.
Fixpoint all_tasks (r : urep) (ns : list zvec) (l : list (nat * zvec)) : tres (list (list task)) :=
  match l with
  | [] => TOk []
  | (i, x) :: l' =>
    match row_tasks (sinv (usym r)) (sdim (usym r)) ns i x (combine (seq 0%nat (length (sops (usym r)))) (sops (usym r))) with
    | TOk row => match all_tasks r ns l' with TOk rows => TOk (row :: rows) | e => e end
    | TValue => TValue | TAssert => TAssert | TIndex => TIndex
    end
  end.

(** the dictionary [rep_class] of one neighbor: other index -> (operation, mirrored), l.262-283; an entry keeps its
    place when it is overwritten *)
Fixpoint dset (j : nat) (v : nat * bool) (l : list (nat * (nat * bool))) : list (nat * (nat * bool)) :=
  match l with
  | [] => [(j, v)]
  | (j', v') :: l' => if Nat.eqb j' j then (j, v) :: l' else (j', v') :: dset j v l'
  end.
Definition dmem {A} (j : nat) (l : list (nat * A)) : bool := existsb (fun p => Nat.eqb (fst p) j) l.
Definition rc_step (rc : list (nat * (nat * bool))) (t : task) : list (nat * (nat * bool)) :=
  match t_k t with
  | TZero => rc
  | TMir => if negb (Nat.eqb (t_j t) (t_i t)) && negb (dmem (t_j t) rc) then dset (t_j t) (t_m t, true) rc else rc   (* l.275-277 *)
  | TNor => if negb (Nat.eqb (t_j t) (t_i t)) then dset (t_j t) (t_m t, false) rc else rc                            (* l.280-282 *)
  end.
Definition rep_class (row : list task) : list (nat * (nat * bool)) := fold_left rc_step row [].
(** l.285-287: classes and covered *)
Fixpoint classes_of (rows : list (nat * list task)) (covered : list nat) : list (nat * list (nat * (nat * bool))) :=
  match rows with
  | [] => []
  | (i, row) :: rows' =>
    let rc := rep_class row in
    let rest := classes_of rows' (covered ++ map fst rc) in
    if existsb (Nat.eqb i) covered then rest else (i, rc) :: rest
  end.

Record usz := MkUsz { z_r0 : nat; z_inv : list task; z_nor : list task; z_cls : list (nat * list (nat * (nat * bool))) }.
Definition is_kind (k : tkind) (t : task) : bool :=
  match t_k t, k with TZero, TZero => true | TMir, TMir => true | TNor, TNor => true | _, _ => false end.
(** l.288-310 *)
Definition usz_prepare (r : urep) (ns : list zvec) : tres usz :=
  match all_tasks r ns (combine (seq 0%nat (length ns)) ns) with
  | TOk rows =>
    let ts := concat rows in
    if negb (forallb (fun j => Nat.eqb (length (filter (fun t => Nat.eqb (t_j t) j) ts)) (length (sops (usym r)))) (seq 0%nat (length ns)))
    then TValue                                                                               (* l.288-290 *)
    else match filter (is_kind TZero) ts with
         | [] => TIndex
         | t0 :: ts0 =>
           if forallb (fun t => Nat.eqb (t_i t) (t_j t) && Nat.eqb (t_i t0) (t_i t)) (t0 :: ts0) then   (* l.293 *)
             if negb (existsb (is_kind TMir) ts && existsb (is_kind TNor) ts) then TIndex else   (* l.296, l.298 *)
             let cls := classes_of (combine (seq 0%nat (length ns)) rows) [] in
             let sel k := filter (fun t => dmem (t_i t) cls && is_kind k t) ts in             (* l.296-299 *)
             TOk (MkUsz (t_i t0) (sel TMir) (sel TNor) cls)
           else TAssert
         end
  | TValue => TValue | TAssert => TAssert | TIndex => TIndex
  end.

(** np.add.at(result, i, u^+ params[j] u), l.326 and l.333 *)
Definition add_tasks (r : urep) (H : list (fmat K)) (ts : list task) (R : nat -> fmat K) : nat -> fmat K :=
  fold_left (fun R t => fun x => if Nat.eqb x (t_i t) then fadd (R x) (uconjl (udim r) (opU r (t_m t)) (nth (t_j t) H fzero)) else R x) ts R.
(** result[j] = u result[i] u^+, l.339 and l.347: all right hand sides are read first *)
Definition copy_tasks (r : urep) (l : list (nat * nat * nat)) (R : nat -> fmat K) : nat -> fmat K :=
  fold_left (fun R' e => fun x => if Nat.eqb x (snd (fst e)) then uconjr (udim r) (opU r (snd e)) (R (fst (fst e))) else R' x) l R.
(** l.301-308: (representative, other, operation); the order within a class is irrelevant for distinct indices *)
Definition copies (mir : bool) (cls : list (nat * list (nat * (nat * bool)))) : list (nat * nat * nat) :=
  flat_map (fun c => map (fun e => (fst c, fst e, fst (snd e))) (filter (fun e => Bool.eqb (snd (snd e)) mir) (snd c))) cls.
(** symmetrizer_func, l.314-351. [dv] is 1/len(U) *)
Definition usz_apply (dv : K) (r : urep) (z : usz) (N : nat) (H : list (fmat K)) : list (fmat K) :=
  let d := udim r in let k := usplit r in
  let R0 := fun x => if Nat.eqb x (z_r0 z) then cut_par k (fsum (uU r) (fun u => uconjl d u (nth (z_r0 z) H fzero))) else fzero in   (* l.319-322 *)
  let R1 := add_tasks r H (z_inv z) R0 in                                                      (* l.324-326 *)
  let R2 := fun x => flip_par k (R1 x) in                                                      (* l.328-329 *)
  let R3 := add_tasks r H (z_nor z) R2 in                                                      (* l.331-333 *)
  let ci := copies true (z_cls z) in
  let R4 := copy_tasks r ci R3 in                                                              (* l.336-339 *)
  let R5 := fun x => if existsb (fun e => Nat.eqb (snd (fst e)) x) ci then flip_par k (R4 x) else R4 x in     (* l.341-342 *)
  let R6 := copy_tasks r (copies false (z_cls z)) R5 in                                        (* l.344-347 *)
  map (fun x => fscale dv (R6 x)) (seq 0%nat N).
(** [None] inside TOk never happens; H of another length fails the assertion l.316 *)
Definition urep_symmetrizer (dv : K) (r : urep) (ns : list zvec) : tres (list (fmat K) -> option (list (fmat K))) :=
  if Nat.leb (length (uU r)) 1 then TOk (fun H => Some H)                                      (* l.246 *)
  else if negb (Nat.eqb (length (sops (usym r))) (length (uU r))) then TAssert                 (* l.248 *)
  else match usz_prepare r ns with
       | TOk z => TOk (fun H => if Nat.eqb (length ns) (length H) then Some (usz_apply dv r z (length ns) H) else None)
       | TValue => TValue | TAssert => TAssert | TIndex => TIndex
       end.

(* ------------------------------------------------------------------ *)
(** ** symmetrize2, l.355-381, for one point and one matrix *)
(** the operations with [sign*s x = x], l.378 *)
Definition fixing (n : nat) (neg : bool) (x : zvec) (l : list (zmat * fmat K)) : list (zmat * fmat K) :=
  filter (fun su => zveqb (if neg then zvneg n (zmv n (fst su) x) else zmv n (fst su) x) x) l.
Definition sum_conj (d : nat) (l : list (zmat * fmat K)) (M : fmat K) : fmat K := fsum l (fun su => uconjr d (snd su) M).
(** [dvs c] is 1/c *)
Definition urep_symmetrize2 (dvs : nat -> K) (r : urep) (x : zvec) (M : fmat K) : fmat K :=
  let n := sdim (usym r) in let d := udim r in let l := combine (sops (usym r)) (uU r) in
  let pos := fixing n false x l in
  if sinv (usym r) then
    let neg := fixing n true x l in
    fscale (dvs (length neg + length pos)%nat) (fadd (flip_par (usplit r) (sum_conj d neg M)) (sum_conj d pos M))
  else fscale (dvs (length pos)) (sum_conj d pos M).

(* ------------------------------------------------------------------ *)
(** ** permute, l.451-458. [None]: AssertionError of the inversion check (or an order of another length) *)
Definition urep_permute (r : urep) (order : list nat) : option urep :=
  if Nat.eqb (length order) (udim r) &&
     forallb (fun ij => Bool.eqb (Nat.ltb (fst ij) (usplit r)) (Nat.ltb (snd ij) (usplit r))) (combine (seq 0%nat (length order)) order)
  then Some (MkUrep (usym r) (udim r) (map (fun u => fun i j => u (nth i order 0%nat) (nth j order 0%nat)) (uU r)) (usplit r))
  else None.

(* ------------------------------------------------------------------ *)
(** ** realize_symmetric_matrices, l.386-423, with sorted=False *)
Fixpoint rsm_scan (n d : nat) (inverse neg : bool) (k : zvec) (data : fmat K) (l : list (zmat * fmat K)) (used : list zvec) (out : list (zvec * fmat K))
  : list zvec * list (zvec * fmat K) :=
  match l with
  | [] => (used, out)
  | (s, u) :: l' =>
    let k' := if neg then zvneg n (zmv n s k) else zmv n s k in                               (* l.402 *)
    if existsb (zveqb k') used then rsm_scan n d inverse neg k data l' used out               (* l.404 *)
    else rsm_scan n d inverse neg k data l' (used ++ [k'])
           (out ++ [(k', if inverse then uconjr d u data else uconjl d u data)])              (* l.406-411 *)
  end.
Definition rsm_orbit (r : urep) (inverse : bool) (k : zvec) (data : fmat K) : list (zvec * fmat K) :=
  let n := sdim (usym r) in let d := udim r in let l := combine (sops (usym r)) (uU r) in
  if zero_b k then []                                                                         (* l.395-397 *)
  else let '(used, out) := rsm_scan n d inverse false k data l [k] [] in
       if sinv (usym r) then snd (rsm_scan n d inverse true k data l used out) else out.
Definition urep_realize (r : urep) (inverse : bool) (ks : list (zvec * fmat K)) : list (zvec * fmat K) :=
  ks ++ flat_map (fun kd => rsm_orbit r inverse (fst kd) (snd kd)) ks.

(* ------------------------------------------------------------------ *)
(** ** check_symmetry, l.425-447: the random points are overwritten by the single point (0, 1/2, 0), l.437. Points in
    units of 1/2. [None]: ValueError of the product s @ k for dimensions other than 3. np.std of the values is zero iff
    all values agree. *)
Variable ueqb : nat -> fmat K -> fmat K -> bool.
Definition urep_check_symmetry (r : urep) (hamilton : zvec -> fmat K) : option bool :=
  if negb (Nat.eqb (sdim (usym r)) 3) then None
  else let vs := map (fun su => uconjl (udim r) (snd su) (hamilton (zmv 3 (fst su) [0;1;0]%Z))) (combine (sops (usym r)) (uU r)) in
       match vs with
       | [] => Some true
       | v :: vs' => Some (forallb (ueqb (udim r) v) vs')
       end.

(* ------------------------------------------------------------------ *)
(** ** __mul__ with another representation, l.498-523. Both branches execute [range(len(res))] on an object without
    __len__ (TypeError); otherwise ValueError. match_sym raises ValueError as well. *)
Inductive mres := MOk (r : urep) | MValue | MType.
Definition urep_times (a b : urep) : mres :=
  match urep_match b (usym a) with
  | None => MValue
  | Some _ =>
    if Nat.eqb (usplit b) 0 || Nat.eqb (usplit b) (udim b) then MType
    else if Nat.eqb (usplit a) 0 || Nat.eqb (usplit a) (udim a) then MType
    else MValue
  end.

(* ------------------------------------------------------------------ *)
(** ** representations of the cubic group, l.527-593 *)
(** an integer matrix as a matrix over K *)
Definition kz (z : Z) : K := match z with Z0 => 0 | Zpos p => knat (Pos.to_nat p) | Zneg p => - knat (Pos.to_nat p) end.
Definition of_zmat (s : zmat) : fmat K := fun i j => kz (ent (K:=Zs) s i j).
(** l.548 and l.558: [abs(trace) == 1 and prod(diag) == 0] *)
Definition tr3 (s : zmat) : Z := (ent (K:=Zs) s 0 0 + ent (K:=Zs) s 1 1 + ent (K:=Zs) s 2 2)%Z.
Definition pd3 (s : zmat) : Z := (ent (K:=Zs) s 0 0 * ent (K:=Zs) s 1 1 * ent (K:=Zs) s 2 2)%Z.
Definition neg90 (s : zmat) : bool := Z.eqb (Z.abs (tr3 s)) 1 && Z.eqb (pd3 s) 0.
Definition rep3 (sgn : bool) (split : nat) (g : sym) : urep :=
  MkUrep g 3 (map (fun s => if sgn && neg90 s then fscale (- (1)) (of_zmat s) else of_zmat s) (sops g)) split.
(** l.527-562 *)
Definition urep_o3 : option urep := option_map (rep3 false 0) (sym_cubic true).
Definition urep_so3 : option urep := option_map (rep3 false 3) (sym_cubic true).
Definition urep_o3ri : option urep := option_map (rep3 true 0) (sym_cubic true).
Definition urep_o3r : option urep := option_map (rep3 true 3) (sym_cubic true).

(** d3, l.565-577; [h] is 1/2 and [q] is sqrt3 *)
Local Open Scope Z_scope.
Definition Rz : zmat := [[0;1;0];[-1;0;0];[0;0;1]].
Definition Ry : zmat := [[0;0;-1];[0;1;0];[1;0;0]].
Definition Rx : zmat := [[1;0;0];[0;0;1];[0;-1;0]].
Local Close Scope Z_scope.
Definition m2 (a b c e : K) : fmat K := fun i j => match i, j with O, O => a | O, S O => b | S O, O => c | S O, S O => e | _, _ => 0 end.
Definition d3_gens (h q : K) : list (zmat * fmat K) :=
  [ (zeye 3, m2 1 0 0 1); (Rz, m2 1 0 0 (- (1)));
    (Ry, m2 (- h) (h * q) (h * q) h); (Rx, m2 (- h) (- (h * q)) (- (h * q)) h) ].
Definition urep_d3 (h q : K) (negate inversion : bool) : option urep := urep_from_generator ueqb 3 2 (d3_gens h q) inversion negate.
(** one_dim, l.579-593 *)
Definition m1 (a : K) : fmat K := fun _ _ => a.
Definition one_gens (invert : bool) : list (zmat * fmat K) :=
  let x := if invert then - (1) else 1 in [ (zeye 3, m1 1); (Rx, m1 x); (Ry, m1 x); (Rz, m1 x) ].
Definition urep_one_dim (invert negate inversion : bool) : option urep := urep_from_generator ueqb 3 1 (one_gens invert) inversion negate.
End Urep2.
Arguments TOk {A}. Arguments TValue {A}. Arguments TAssert {A}. Arguments TIndex {A}.

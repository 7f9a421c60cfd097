(** Model of hamiltonian_symmetry.py (class HamiltonianSymmetry): symmetrisation of hopping matrices
    and band names. Definitions only.

    Positions and neighbors are integer vectors in units of a common denominator, so the tolerance of
    the neighbor lookup (1e-4) is exact equality. Hopping matrices are [fmat K] (index functions) over
    a star ring [K]; the entries outside the dimension are never read. *)
From Coq Require Import List Arith ZArith Lia Bool.
Import ListNotations.
From Verif Require Import SRing LMat FMat SymModel.

Section Ham.
Context {K : sring}.
Open Scope sring_scope.

(** one appended representation: [bU] holds U[k] for every operation k, [beven] is [inv_split > 0]
    (append l.85 only admits inv_split = 0 or dim), [bpos] the position; l.71-91 *)
Record hblock := MkBlock { bdim : nat; bU : list (fmat K); beven : bool; bpos : zvec }.

(** the symmetry without its projective part ([ignore_translation], l.45) and the appended blocks *)
Record hsym := MkHsym { hs : sym; hblocks : list hblock }.

(** dim(), l.52-58 *)
Definition hdim (h : hsym) : nat := fold_right Nat.add 0%nat (map bdim (hblocks h)).

(** [u_index_lookup], l.415-420 (and the running n1/n2 of symmetrize): offset of every block *)
Fixpoint boffs (o : nat) (bs : list hblock) : list (nat * hblock) :=
  match bs with
  | [] => []
  | b :: bs' => (o, b) :: boffs (o + bdim b)%nat bs'
  end.
Definition bpairs (h : hsym) : list ((nat * hblock) * (nat * hblock)) :=
  list_prod (boffs 0%nat (hblocks h)) (boffs 0%nat (hblocks h)).

(** [M[o1:o1+d1, o2:o2+d2] += p] *)
Definition add_block (o1 d1 o2 d2 : nat) (p M : fmat K) : fmat K := fun a b =>
  if Nat.leb o1 a && Nat.ltb a (o1 + d1)%nat && Nat.leb o2 b && Nat.ltb b (o2 + d2)%nat
  then M a b + p (a - o1)%nat (b - o2)%nat else M a b.
(** [M[o1:o1+d1, o2:o2+d2]] *)
Definition slice (o1 o2 : nat) (M : fmat K) : fmat K := fun a b => M (o1 + a)%nat (o2 + b)%nat.

(** vector arithmetic on positions *)
Definition zvadd (n : nat) (u v : zvec) : zvec := vmk (K:=Zs) n (fun i => (vent (K:=Zs) u i + vent (K:=Zs) v i)%Z).
Definition zvdiff (n : nat) (u v : zvec) : zvec := vmk (K:=Zs) n (fun i => (vent (K:=Zs) u i - vent (K:=Zs) v i)%Z).

(** a matrix of the list, or its hermitian conjugate if the neighbor was found mirrored, l.335-338 and
    l.375-378; [None] is the (None, None) result of try_neighbor_function *)
Definition hlook (n : nat) (ns : list zvec) (H : list (fmat K)) (r : zvec) : option (fmat K) :=
  match try_neighbor zveqb (zvneg n) ns r with
  | Some (j, m) => let h := nth j H fzero in Some (if m then fadj h else h)
  | None => None
  end.

(** l.317-320: the matrix of the first zero neighbor is replaced by its hermitian part; [half] is 1/2 *)
Definition zero_vec (r : zvec) : bool := forallb (Z.eqb 0) r.
Fixpoint herm_origin (half : K) (ns : list zvec) (H : list (fmat K)) : list (fmat K) :=
  match ns, H with
  | r :: ns', h :: H' => if zero_vec r then fscale half (fadd h (fadj h)) :: H' else h :: herm_origin half ns' H'
  | _, _ => H
  end.

Definition sgn_of (b : bool) : K := if b then 1 else - (1).

(** l.334: position of the inverted partner, [-r - 2*(r2 - r1)] *)
Definition inv_pos (n : nat) (r r1 r2 : zvec) : zvec :=
  zvdiff n (zvneg n r) (zvadd n (zvdiff n r2 r1) (zvdiff n r2 r1)).
(** l.374: [s @ (r + r2 - r1) - r2 + r1] *)
Definition rot_pos (n : nat) (s : zmat) (r r1 r2 : zvec) : zvec :=
  zvadd n (zvdiff n (zmv n s (zvdiff n (zvadd n r r2) r1)) r2) r1.

(** l.334-341: one block of the inversion term [p] *)
Definition inv_block (n : nat) (ns : list zvec) (H : list (fmat K)) (i : nat) (r : zvec)
    (b1 b2 : nat * hblock) : fmat K :=
  match hlook n ns H (inv_pos n r (bpos (snd b1)) (bpos (snd b2))) with
  | Some h => fscale (sgn_of (beven (snd b1)) * sgn_of (beven (snd b2))) (slice (fst b1) (fst b2) h)
  | None => fscale (- (1)) (slice (fst b1) (fst b2) (nth i H fzero))
  end.

(** l.322-347 *)
Definition inv_step (half : K) (h : hsym) (ns : list zvec) (H : list (fmat K)) : list (fmat K) :=
  if sinv (hs h) then
    map (fun ir : nat * zvec =>
        let (i, r) := ir in
        let p := fold_left (fun M bb => add_block (fst (fst bb)) (bdim (snd (fst bb))) (fst (snd bb)) (bdim (snd (snd bb)))
                                (inv_block (sdim (hs h)) ns H i r (fst bb) (snd bb)) M)
                           (bpairs h) fzero in
        fscale half (fadd (nth i H fzero) p))
      (combine (seq 0%nat (length ns)) ns)
  else H.

(** l.370-382: the sum over the operations for one pair of blocks; [None] when some image is missing *)
Fixpoint rot_sum (n : nat) (ns : list zvec) (H : list (fmat K)) (r : zvec) (b1 b2 : nat * hblock)
    (ks : list (nat * zmat)) : option (fmat K) :=
  match ks with
  | [] => Some fzero
  | (k, s) :: ks' =>
    match hlook n ns H (rot_pos n s r (bpos (snd b1)) (bpos (snd b2))) with
    | None => None
    | Some h =>
      match rot_sum n ns H r b1 b2 ks' with
      | None => None
      | Some p => Some (fadd (fmul (bdim (snd b2)) (fmul (bdim (snd b1)) (fadj (nth k (bU (snd b1)) fzero))
                                (slice (fst b1) (fst b2) h)) (nth k (bU (snd b2)) fzero)) p)
      end
    end
  end.

(** l.359-386; [dv] is 1/len(sym.S) *)
Definition rot_step (dv : K) (h : hsym) (ns : list zvec) (H : list (fmat K)) : list (fmat K) :=
  let n := sdim (hs h) in
  let ks := combine (seq 0%nat (length (sops (hs h)))) (sops (hs h)) in
  map (fun r : zvec =>
      fscale dv (fold_left (fun M bb =>
          add_block (fst (fst bb)) (bdim (snd (fst bb))) (fst (snd bb)) (bdim (snd (snd bb)))
            (match rot_sum n ns H r (fst bb) (snd bb) ks with Some p => p | None => fzero end) M)
        (bpairs h) fzero)) ns.

(** symmetrize, l.284-386 (the assertions l.311-312 are hypotheses of the theorems) *)
Definition ham_symmetrize (half dv : K) (h : hsym) (H : list (fmat K)) (ns : list zvec) : list (fmat K) :=
  rot_step dv h ns (inv_step half h ns (herm_origin half ns H)).

(* ------------------------------------------------------------------ *)
(** ** symmetrizer, l.388-517 *)

(** l.427-428: index of the last zero neighbor *)
Definition last_zero (ns : list zvec) : option nat :=
  fold_left (fun o (ir : nat * zvec) => if zero_vec (snd ir) then Some (fst ir) else o)
    (combine (seq 0%nat (length ns)) ns) None.

(** entry of inv_table, l.432-441: (i, i1, i2, j, mirror, factor) *)
Record inv_entry := MkIE { ie_i : nat; ie_1 : nat * hblock; ie_2 : nat * hblock; ie_j : nat; ie_m : bool; ie_f : K }.
Definition inv_table_entry (n : nat) (ns : list zvec) (i : nat) (r : zvec) (b1 b2 : nat * hblock) : inv_entry :=
  (* l.436: -(r - r1 + r2) + r1 - r2 *)
  let r1 := bpos (snd b1) in let r2 := bpos (snd b2) in
  match try_neighbor zveqb (zvneg n) ns (zvdiff n (zvadd n (zvneg n (zvadd n (zvdiff n r r1) r2)) r1) r2) with
  | Some (j, m) => MkIE i b1 b2 j m (sgn_of (beven (snd b1)) * sgn_of (beven (snd b2)))
  | None => MkIE i b1 b2 i false (- (1))
  end.

(** entry of s_table, l.442-459: key (j, mirror, U1[k], U2[k]) and value (k, count). The keys are
    compared after rounding to 4 digits in the code; [ueqb] is the comparison of exact matrices. *)
Variable ueqb : nat -> fmat K -> fmat K -> bool.
Record s_entry := MkSE { se_j : nat; se_m : bool; se_k : nat; se_c : nat }.
Definition s_insert (b1 b2 : hblock) (j : nat) (m : bool) (k : nat) (tab : list s_entry) : list s_entry :=
  let same e := Nat.eqb (se_j e) j && Bool.eqb (se_m e) m &&
                ueqb (bdim b1) (nth (se_k e) (bU b1) fzero) (nth k (bU b1) fzero) &&
                ueqb (bdim b2) (nth (se_k e) (bU b2) fzero) (nth k (bU b2) fzero) in
  (fix go l := match l with
     | [] => [MkSE j m k 1%nat]
     | e :: l' => if same e then MkSE (se_j e) (se_m e) (se_k e) (se_c e + 1)%nat :: l' else e :: go l'
     end) tab.
(** l.442-464; the empty list after a missing neighbor ([s_table.clear(); break]) *)
Fixpoint s_table (n : nat) (ns : list zvec) (r : zvec) (b1 b2 : hblock) (ks : list (nat * zmat))
    (tab : list s_entry) : list s_entry :=
  match ks with
  | [] => tab
  | (k, s) :: ks' =>
    (* l.444: s @ (r - r1 + r2) + r1 - r2 *)
    match try_neighbor zveqb (zvneg n) ns
            (zvdiff n (zvadd n (zmv n s (zvadd n (zvdiff n r (bpos b1)) (bpos b2))) (bpos b1)) (bpos b2)) with
    | Some (j, m) => s_table n ns r b1 b2 ks' (s_insert b1 b2 j m k tab)
    | None => []
    end
  end.
(** total_table, l.465-466 *)
Record t_entry := MkTE { te_i : nat; te_k : nat; te_1 : nat * hblock; te_2 : nat * hblock;
                         te_j : nat; te_m : bool; te_f : nat }.
Definition total_table (h : hsym) (ns : list zvec) : list t_entry :=
  let ks := combine (seq 0%nat (length (sops (hs h)))) (sops (hs h)) in
  flat_map (fun ir : nat * zvec =>
    flat_map (fun bb =>
      map (fun e => MkTE (fst ir) (se_k e) (fst bb) (snd bb) (se_j e) (se_m e) (se_c e))
        (s_table (sdim (hs h)) ns (snd ir) (snd (fst bb)) (snd (snd bb)) ks []))
      (bpairs h)) (combine (seq 0%nat (length ns)) ns).
Definition inv_table (h : hsym) (ns : list zvec) : list inv_entry :=
  if sinv (hs h) then
    flat_map (fun ir : nat * zvec =>
      map (fun bb => inv_table_entry (sdim (hs h)) ns (fst ir) (snd ir) (fst bb) (snd bb)) (bpairs h))
      (combine (seq 0%nat (length ns)) ns)
  else [].

(** integer factor [fac] as a ring element *)
Fixpoint knat (m : nat) : K := match m with O => 0 | S m' => 1 + knat m' end.

(** l.480-516, the returned function applied to [H]; the result is given as the list of its matrices *)
Definition ham_symmetrizer (half dv : K) (h : hsym) (ns : list zvec) (H : list (fmat K)) : list (fmat K) :=
  let H1 := match last_zero ns with
            | Some o => map (fun im : nat * fmat K => if Nat.eqb (fst im) o
                                 then fscale half (fadd (snd im) (fadj (snd im))) else snd im)
                            (combine (seq 0%nat (length H)) H)
            | None => H
            end in
  let H2 := if sinv (hs h) then
      map (fun im : nat * fmat K =>
          fscale half (fold_left (fun M e =>
              if Nat.eqb (ie_i e) (fst im)
              then add_block (fst (ie_1 e)) (bdim (snd (ie_1 e))) (fst (ie_2 e)) (bdim (snd (ie_2 e)))
                     (fscale (ie_f e) (slice (fst (ie_1 e)) (fst (ie_2 e))
                        (let x := nth (ie_j e) H1 fzero in if ie_m e then fadj x else x))) M
              else M) (inv_table h ns) (snd im)))
        (combine (seq 0%nat (length H1)) H1)
    else H1 in
  map (fun i =>
      fscale dv (fold_left (fun M e =>
          if Nat.eqb (te_i e) i
          then add_block (fst (te_1 e)) (bdim (snd (te_1 e))) (fst (te_2 e)) (bdim (snd (te_2 e)))
                 (fmul (bdim (snd (te_2 e)))
                    (fmul (bdim (snd (te_1 e))) (fscale (knat (te_f e)) (fadj (nth (te_k e) (bU (snd (te_1 e))) fzero)))
                       (slice (fst (te_1 e)) (fst (te_2 e))
                          (let x := nth (te_j e) H2 fzero in if te_m e then fadj x else x)))
                    (nth (te_k e) (bU (snd (te_2 e))) fzero)) M
          else M) (total_table h ns) fzero))
    (seq 0%nat (length H)).

(* ------------------------------------------------------------------ *)
(** ** get_band_name, l.230-238. A name is returned as (index of the block, local index or [None] when
    the block is one-dimensional), which determines the printed text f"{name}{index}" / name.
    The outer [None] is the IndexError. *)
Fixpoint band_name (bs : list hblock) (i : nat) (index : Z) : option (nat * option Z) :=
  match bs with
  | [] => None
  | b :: bs' =>
    if Z.ltb index (Z.of_nat (bdim b)) then Some (i, if Nat.eqb (bdim b) 1%nat then None else Some index)
    else band_name bs' (S i) (index - Z.of_nat (bdim b))%Z
  end.

End Ham.
Arguments hblock : clear implicits.
Arguments hsym : clear implicits.

(** Model of hamiltonian_symmetry.py (class HamiltonianSymmetry), second part: the orbitals that are appended to a
    symmetry (append and the append_* methods) and apply. Definitions only.

    Operations are integer matrices (a cubic lattice, or lattice coordinates); positions are integer vectors in units
    of a common length. *)
From Coq Require Import List Arith ZArith Lia Bool Reals.
Import ListNotations.
From Verif Require Import SRing LMat FMat SymModel HamModel UrepModel UrepModel2 CplxR FourierModel.
Local Close Scope R_scope. Local Open Scope nat_scope.

Section Orb.
Context {K : sring}.
Open Scope sring_scope.
Variable ueqb : nat -> fmat K -> fmat K -> bool.

(** append, l.71-91. [None] is a ValueError: position of another dimension (l.82), mixed behavior under inversion (l.84),
    or operations that do not match (match_sym, l.87). The names (l.90) only serve get_band_name and are left out. *)
Definition ham_append (h : hsym K) (r : urep K) (pos : zvec) : option (hsym K) :=
  if negb (Nat.eqb (length pos) (sdim (hs h))) then None
  else if negb (Nat.eqb (usplit r) 0 || Nat.eqb (usplit r) (udim r)) then None
  else match urep_match r (hs h) with
       | None => None
       | Some r' => Some (MkHsym (hs h) (hblocks h ++ [MkBlock (udim r') (uU r') (Nat.ltb 0 (usplit r')) pos]))
       end.

(** UnitaryRepresentation.__init__ (unitary_representations.py l.20-24): unit matrices, even *)
Definition rep_unit (g : sym) (N : nat) : urep K := MkUrep g N (map (fun _ => fid) (sops g)) N.
(** append_s, l.93-103 *)
Definition append_s (h : hsym K) (pos : zvec) : option (hsym K) := ham_append h (rep_unit (hs h) 1) pos.
(** append_p, l.133-146 *)
Definition rep_mat (g : sym) (split : nat) : urep K := MkUrep g (sdim g) (map of_zmat (sops g)) split.
Definition append_p (h : hsym K) (pos : zvec) : option (hsym K) := ham_append h (rep_mat (hs h) 0) pos.
(** append_d2, l.176-189; [hf] is 1/2 and [q] is sqrt3 *)
Definition append_d2 (hf q : K) (h : hsym K) (pos : zvec) : option (hsym K) :=
  match urep_d3 ueqb hf q false (sinv (hs h)) with
  | None => None
  | Some r => ham_append h r pos
  end.
(** append_d3, l.191-207. The division by the determinant is a product, the determinants of the operations being 1 or -1 *)
Definition rep_d3 (g : sym) : urep K :=
  MkUrep g (sdim g) (map (fun s => fscale (kz (zdet (sdim g) s)) (of_zmat s)) (sops g)) (sdim g).
Definition append_d3 (h : hsym K) (pos : zvec) : option (hsym K) := ham_append h (rep_d3 (hs h)) pos.

(** l.113-114, l.158-159, l.219-220: [s = np.einsum("nij,j->n", S, [1,1,1])], [swap = abs(abs(s - 1) - 2) > 1e-5];
    the einsum raises a ValueError unless the dimension is 3 *)
Definition ent_sum (n : nat) (s : zmat) : Z := nsum (K:=Zs) n (fun i => nsum (K:=Zs) n (fun j => ent (K:=Zs) s i j)).
Definition dswap (n : nat) (s : zmat) : bool := negb (Z.eqb (Z.abs (Z.abs (ent_sum n s - 1) - 2)) 0).

(** [U[swap] *= -1], l.125, l.168, l.226 *)
Definition neg_swap (r : urep K) : urep K :=
  MkUrep (usym r) (udim r)
    (map (fun su => if dswap (sdim (usym r)) (fst su) then fscale (- (1)) (snd su) else snd su) (combine (sops (usym r)) (uU r)))
    (usplit r).
Definition set_split (r : urep K) (split : nat) : urep K := MkUrep (usym r) (udim r) (uU r) split.
(** [np.where(swap[:,None,None], U[:,rows], U)], l.130 (np.roll by one of two rows), l.173, l.231 *)
Definition swap_rows (rows : list nat) (r : urep K) : urep K :=
  MkUrep (usym r) (udim r)
    (map (fun su => if dswap (sdim (usym r)) (fst su) then (fun i j => snd su (nth i rows 0%nat) j) else snd su)
         (combine (sops (usym r)) (uU r)))
    (usplit r).
Definition append2 (h : hsym K) (r0 r1 : urep K) (pos : zvec) : option (hsym K) :=
  match ham_append h r0 pos with
  | None => None
  | Some h0 => ham_append h0 r1 pos
  end.

(** append_diamond_s, l.105-131 *)
Definition diamond_s (h : hsym K) (pos : zvec) : option (hsym K) :=
  if negb (Nat.eqb (sdim (hs h)) 3) then None
  else if sinv (hs h) then
    let r := rep_unit (hs h) 1 in
    append2 h (set_split r 0) (neg_swap (set_split r 1)) pos
  else ham_append h (swap_rows [1;0]%nat (rep_unit (hs h) 2)) pos.

(** the doubled representation in normal order with the rows exchanged, l.170-174 and l.228-232 *)
Definition doubled (r : urep K) : option (urep K) :=
  option_map (swap_rows [3;4;5;0;1;2]%nat) (urep_permute (urep_mul r 2) [0;2;4;1;3;5]%nat).
Definition append_opt (h : hsym K) (r : option (urep K)) (pos : zvec) : option (hsym K) :=
  match r with None => None | Some r => ham_append h r pos end.
(** append_diamond_p, l.148-174 *)
Definition diamond_p (h : hsym K) (pos : zvec) : option (hsym K) :=
  if negb (Nat.eqb (sdim (hs h)) 3) then None
  else let r := rep_mat (hs h) 0 in
  if sinv (hs h) then append2 h (set_split r 3) (neg_swap (set_split r 0)) pos
  else append_opt h (doubled r) pos.
(** append_diamond_d3, l.209-232 *)
Definition diamond_d3 (h : hsym K) (pos : zvec) : option (hsym K) :=
  if negb (Nat.eqb (sdim (hs h)) 3) then None
  else let r := rep_mat (hs h) 3 in
  if sinv (hs h) then append2 h (set_split r 0) (neg_swap (set_split r 3)) pos
  else append_opt h (doubled r) pos.
End Orb.

(* ------------------------------------------------------------------ *)
(** ** apply, l.240-282, for complex matrices. The argument [inversion] is never read. *)
(** l.257-266: the counter n1 is never increased, so every odd block changes the signs of the first rows and columns *)
Definition flip_lead (d : nat) (M : fmat Cs) : fmat Cs := fun a b =>
  let c := if Nat.ltb b d then (fun x => copp x) else (fun x => x) in
  if Nat.ltb a d then copp (c (M a b)) else c (M a b).
Definition apply_inv (bs : list (hblock Cs)) (M : fmat Cs) : fmat Cs :=
  fold_left (fun M b => if beven b then M else flip_lead (bdim b) M) bs M.
(** a position in the unit of length [u], and s @ r *)
Definition rpos (u : R) (r : zvec) : rvec := fun a => (IZR (vent (K:=Zs) r a) * u)%R.
Definition smv (n : nat) (s : zmat) (x : rvec) : rvec := fun a => nsum (K:=Rs) n (fun b => (IZR (ent (K:=Zs) s a b) * x b)%R).
(** l.278-279 *)
Definition apply_fac (n : nat) (k : rvec) (s : zmat) (r1 r2 : rvec) : cplx :=
  cmul (cexp (2 * PI * dot n k (fun a => r1 a - smv n s r2 a)))%R
       (cexp (- (2 * PI * dot n k (fun a => r2 a - smv n s r1 a))))%R.
Definition ham_apply (u : R) (h : hsym Cs) (k : rvec) (M : fmat Cs) (si : nat) : fmat Cs :=
  let n := sdim (hs h) in
  let s := nth si (sops (hs h)) [] in
  let Mi := apply_inv (hblocks h) M in
  fold_left (fun Res bb =>
      add_block (fst (fst bb)) (bdim (snd (fst bb))) (fst (snd bb)) (bdim (snd (snd bb)))
        (fscale (K:=Cs) (apply_fac n k s (rpos u (bpos (snd (fst bb)))) (rpos u (bpos (snd (snd bb)))))
           (fmul (K:=Cs) (bdim (snd (snd bb)))
              (fmul (K:=Cs) (bdim (snd (fst bb))) (nth si (bU (snd (fst bb))) fzero) (slice (fst (fst bb)) (fst (snd bb)) Mi))
              (fadj (nth si (bU (snd (snd bb))) fzero)))) Res)
    (bpairs h) fzero.

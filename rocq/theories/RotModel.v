(** Model of the rotation groups of symmetry.py with real entries: o2 (l.321-329), cyclic (l.331-339), dihedral (l.341-349),
    icosahedral (l.467-480), and of the constructor, transform, from_generator and __mul__ on real matrices.
    Definitions only.

    Exact real arithmetic: the tolerances 1e-6, 1e-7 and 1e-10 of the comparisons are replaced by equality. *)
From Coq Require Import Reals List Bool Arith.
From Verif Require Import SRing LMat CplxR SymModel SymModel3.
Import ListNotations.
Local Open Scope R_scope.

Definition rmat := list (list R).
Definition reqb (x y : R) : bool := if Req_EM_T x y then true else false.
Definition rmeqb (a b : rmat) : bool := list_eqb (list_eqb reqb) a b.
Definition rmul (n : nat) (a b : rmat) : rmat := lmul (K:=Rs) n a b.
Definition reye (n : nat) : rmat := leye (K:=Rs) n.
Definition rneg (n : nat) (a : rmat) : rmat := lneg (K:=Rs) n a.

(** np.linalg.det as the expansion along the first row *)
Fixpoint rdet (n : nat) (a : rmat) : R :=
  match n with
  | O => 1
  | S n' =>
    match a with
    | [] => 1
    | row :: rest =>
      fold_right Rplus 0 (map (fun j => (if Nat.even j then 1 else -1) * nth j row 0 * rdet n' (map (fun r => drop_nth j r) rest)) (seq 0 n))
    end
  end.
(** l.85, l.258 *)
Definition rdet_ok (n : nat) (a : rmat) : bool := reqb (Rabs (rdet n a)) 1.

(** [Symmetry] objects that are not projective *)
Record rsym := MkRsym { rdim : nat; rops : list rmat; rinv : bool }.

(** pointcloud_distance(a, b) close to 0: every point of a occurs in b (linalg.py l.189-202) *)
Definition rcloud (a b : list rmat) : bool := forallb (fun p => memb rmeqb p b) a.
(** Symmetry.__init__ l.70-103 *)
Definition r_init (n : nat) (S : list rmat) (inversion : bool) : option rsym :=
  match S with
  | [] => None
  | s_0 :: _ =>
    if negb (rmeqb s_0 (reye n)) then None
    else if existsb (fun s => negb (rdet_ok n s)) S then None
    else if rcloud S (map (rneg n) S) then
      if Nat.odd n then Some (MkRsym n (filter (fun s => if Rlt_dec 0 (rdet n s) then true else false) S) true)
      else Some (MkRsym n S inversion)
    else if inversion && Nat.even n then Some (MkRsym n (S ++ map (rneg n) S) false)
    else Some (MkRsym n S inversion)
  end.
(** __len__ l.143-145 *)
Definition r_len (g : rsym) : nat := length (rops g) * (if rinv g then 2 else 1).
(** get_symmetry_operations l.147-156 *)
Definition r_all (g : rsym) : list rmat := rops g ++ (if rinv g then map (rneg (rdim g)) (rops g) else []).
(** from_generator l.235-283 *)
Definition r_from_generator (n : nat) (G : list rmat) (inversion : bool) : option rsym :=
  match from_generator rmeqb (rmul n) (reye n) (rdet_ok n) G with
  | GenOk ops => r_init n ops inversion
  | _ => None
  end.
(** __mul__ l.971-974 *)
Definition r_mul (g h : rsym) : option rsym :=
  if Nat.eqb (rdim g) (rdim h) then r_from_generator (rdim g) (rops g ++ rops h) (rinv g || rinv h) else None.
(** transform l.209-233, [Bi] for np.linalg.inv(B) *)
Definition r_transform (g : rsym) (B Bi : rmat) : option rsym :=
  r_init (rdim g) (map (conj_op (K:=Rs) (rdim g) B Bi) (rops g)) (rinv g).

(** the loops of l.325-328 and l.335-338 *)
Definition rot_c (count i : nat) : R := cos (INR i * 2 * PI / INR count).
Definition rot_s (count i : nat) : R := sin (INR i * 2 * PI / INR count).
Definition rot2 (count i : nat) : rmat := [[rot_c count i; rot_s count i]; [- rot_s count i; rot_c count i]].
Definition rot3 (count i : nat) : rmat := [[rot_c count i; rot_s count i; 0]; [- rot_s count i; rot_c count i; 0]; [0; 0; 1]].
Definition r_o2 (count : nat) : option rsym := r_init 2 (map (rot2 count) (seq 0 count)) false.
Definition r_cyclic (count : nat) (inversion : bool) : option rsym := r_init 3 (map (rot3 count) (seq 0 count)) inversion.
(** mirror_x(False, 3) l.426-438 *)
Definition r_mirror_x : option rsym := r_init 3 [reye 3; [[-1; 0; 0]; [0; 1; 0]; [0; 0; 1]]] false.
Definition r_dihedral (count : nat) (inversion : bool) : option rsym :=
  match r_cyclic count inversion, r_mirror_x with
  | Some g, Some h => r_mul g h
  | _, _ => None
  end.
(** l.478 *)
Definition ico_m : rmat := [[0; 1; 0]; [- / sqrt 5; 0; 2 * / sqrt 5]; [2 * / sqrt 5; 0; / sqrt 5]].
(** [mi] for np.linalg.inv(m) *)
Definition r_icosahedral (mi : rmat) (inversion : bool) : option rsym :=
  match r_cyclic 5 inversion with
  | Some c => match r_transform c ico_m mi with Some d => r_mul c d | None => None end
  | None => None
  end.

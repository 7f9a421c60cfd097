(** * Model of further operations of tight_binding_asym.py: unit_matrix l.96-109, transform l.743-752
    and the one-band part of free_electron_model_orthogonal l.893-918.  Exact real arithmetic. *)
From Coq Require Import List Arith ZArith Reals Bool.
From Verif Require Import SRing FMat CplxR UrepModel FourierModel.
Import ListNotations.
Local Open Scope R_scope.

(** l.105-109; [None] is the AssertionError.  np.linalg.norm(neighbors[0]) == 0 *)
Definition zero_vec (n : nat) (r : rvec) : bool :=
  forallb (fun a => if Req_EM_T (r a) 0 then true else false) (seq 0 n).
Definition fs_unit (n : nat) (nbs : list rvec) : option hfs :=
  match nbs with
  | [] => None
  | r :: rest => if zero_vec n r then Some (MkHfs nbs (fid (K:=Cs) :: map (fun _ => fzero (K:=Cs)) rest)) else None
  end.
(** l.751-752: einsum("ji,ni->nj", A, neighbors) *)
Definition fs_transform (n : nat) (A : fmat Rs) (h : hfs) : hfs := MkHfs (map (rot n A) (hnb h)) (hH h).
Definition atb_transform (n : nat) (A : fmat Rs) (m : atb) : atb := MkAtb (fs_transform n A (tH m)) (fs_transform n A (tS m)).

(** ** free_electron_model_orthogonal *)
Definition axis_vec (i : nat) (x : R) : rvec := fun a => if Nat.eqb a i then x else 0.
Definition edge (a b c : R) (i : nat) : R := match i with O => a | 1%nat => b | _ => c end.
(** l.908: the origin and (a n, 0, 0), (0, b n, 0), (0, 0, c n) for n = 1 .. m *)
Definition free_indices (m : nat) : list (nat * nat) := flat_map (fun n => [(n, 0%nat); (n, 1%nat); (n, 2%nat)]) (seq 1 m).
Definition free_neighbors (a b c : R) (m : nat) : list rvec :=
  (fun _ => 0) :: map (fun p => axis_vec (snd p) (edge a b c (snd p) * INR (fst p))) (free_indices m).
(** l.909-917; round(n[i] / a) is the integer n *)
Definition free_hop (l : R) (n : nat) : R := 2 * (-1) ^ n / (l * INR n) ^ 2.
Definition const1 (x : R) : cmat := fun _ _ => cre x.
Definition free_params (a b c : R) (m : nat) : list cmat :=
  const1 (PI ^ 2 * (1 / a ^ 2 + 1 / b ^ 2 + 1 / c ^ 2) / 3) ::
  map (fun p => const1 (free_hop (edge a b c (snd p)) (fst p))) (free_indices m).
(** l.918-920 *)
Definition free_series (a b c : R) (m : nat) : hfs :=
  MkHfs (free_neighbors a b c m) (map (fscale (K:=Cs) (cre (1 / (2 * PI) ^ 2))) (free_params a b c m)).

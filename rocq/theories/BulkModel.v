(** * Model of bulk_properties.py

    Real numbers without rounding.  [np.linalg.inv] and [np.linalg.solve] are
    given as arguments; the theorems assume that their results are inverses
    and solutions. *)
From Coq Require Import Reals List ZArith Bool.
From Coquelicot Require Import Coquelicot.
From Verif Require Import SRing CplxR FMat NbrModel DosModel.
Import List ListNotations.
Local Open Scope R_scope.

(** l.11-14 *)
Definition elementary_charge : R := 1602176634 / 10 ^ 28.
Definition eV : R := elementary_charge.
Definition hbar : R := 105457181764616 / 10 ^ 48.

(** ** Transport tensors, l.30-81

    [n] is N_d, [V] is np.linalg.inv(L_a[0]). *)
Notation mat := (fmat Rs).
Definition conductivity (L0 : mat) : mat := L0.
Definition peltier (n : nat) (L1 V : mat) : mat := fmul n L1 V.
Definition seebeck (n : nat) (L1 V : mat) (T : R) : mat :=
  fscale (K:=Rs) (/ T) (fmul n V L1).
Definition thermal_conductivity (n : nat) (L1 L2 V : mat) (T : R) : mat :=
  fscale (K:=Rs) (/ T) (fadd L2 (fscale (K:=Rs) (-1) (fmul n (fmul n L1 V) L1))).

(** ** Hall tensors

    Sums over an index of length three. *)
Definition sum3 (f : nat -> R) : R := f 0%nat + f 1%nat + f 2%nat.
(** l.16-26 [antisym_tensor] *)
Definition antisym (i j k : nat) : R :=
  match i, j, k with
  | 0%nat, 1%nat, 2%nat | 1%nat, 2%nat, 0%nat | 2%nat, 0%nat, 1%nat => 1
  | 0%nat, 2%nat, 1%nat | 1%nat, 0%nat, 2%nat | 2%nat, 1%nat, 0%nat => -1
  | _, _, _ => 0
  end.
Notation tensor3 := (nat -> nat -> nat -> R).
(** l.103-104 [hall_coefficients]: "aj,abk,ib->ijk"; [V] is the inverse of sigma2. *)
Definition hall_coefficients (V : nat -> nat -> R) (sigma3 : tensor3) : tensor3 :=
  fun i j k => sum3 (fun a => sum3 (fun b => V a j * sigma3 a b k * V i b)).

(** One point of a Fermi surface after l.226-254 and l.339-356: its weight
    (divided by the norm of the gradient), group velocity and inverse mass
    tensor in the units of l.339.  A Fermi surface is its energy e_smpl[i] and
    its points. *)
Record kpoint := mkK { kw : R; kv : nat -> R; kh : nat -> nat -> R }.
Definition surface := (R * list kpoint)%type.
(** l.333-347 in [integrate_df_A]: velocities and masses in SI units; [M] is A @ inv(self.A) *)
Definition grad_transform (M : nat -> nat -> R) (j i : nat) : R := 1 / (2 * PI) * / 10 ^ 10 / hbar * M j i.
Definition to_si (M : nat -> nat -> R) (p : kpoint) : kpoint :=
  mkK (kw p)
    (fun j => sum3 (fun i => grad_transform M j i * eV * kv p i))
    (fun k l => sum3 (fun i => sum3 (fun j => grad_transform M k i * eV * grad_transform M l j * kh p i j))).
Definition surf_si (M : nat -> nat -> R) (sf : list surface) : list surface :=
  map (fun s => (fst s, map (to_si M) (snd s))) sf.
Definition lsum {A} (l : list A) (f : A -> R) : R := fold_right (fun x s => f x + s) 0 l.
(** l.280-297 [integrate_df] for one component of g, one temperature (mu and
    its weights) and one moment [a]; the function [g] does not use e and k. *)
Definition integrate_df (sf : list surface) (ws : list R) (mu : R) (a : nat) (g : kpoint -> R) : R :=
  lsum (combine sf ws) (fun sw =>
    lsum (snd (fst sw)) (fun p => g p * kw p) * snd sw * (fst (fst sw) - mu) ^ a).
(** l.377-385 [transport_coefficients] without tau; [V] is V_EZ.  The powers
    with negative exponent of l.384 are divisions. *)
Definition pow_int (x : R) (z : Z) : R := powerRZ x z.
Definition transport (sf : list surface) (ws : list R) (mu spin V : R) (a : nat) (i j : nat) : R :=
  spin * pow_int elementary_charge (2 - Z.of_nat a)
  * integrate_df sf ws mu a (fun p => kv p j * kv p i) / pow_int eV (1 - Z.of_nat a) / V.
(** l.388-392 *)
Definition drude_factor (sf : list surface) (ws : list R) (mu spin V : R) (i j : nat) : R :=
  spin * elementary_charge ^ 2 * integrate_df sf ws mu 0 (fun p => kv p j * kv p i) / eV / V.
(** l.457-463 [conductivity_hall_tensor] without tau *)
Definition hall_integrand (a b y : nat) (p : kpoint) : R :=
  sum3 (fun d => sum3 (fun s => antisym y d s * kv p a * kv p s * kh p b d)).
Definition sigma2 (sf : list surface) (ws : list R) (mu spin V : R) (i j : nat) : R :=
  1 / V * elementary_charge ^ 2 / eV * spin * integrate_df sf ws mu 0 (fun p => kv p j * kv p i).
Definition sigma3 (sf : list surface) (ws : list R) (mu spin V : R) : tensor3 := fun a b y =>
  1 / V * elementary_charge ^ 3 / eV * spin * integrate_df sf ws mu 0 (hall_integrand a b y).
(** l.420-431 [hall_coefficient_metal_cubic] *)
Definition hall_cubic (sf : list surface) (ws : list R) (mu spin V : R) : R :=
  let i1 := integrate_df sf ws mu 0 (fun p =>
      sum3 (fun i => sum3 (fun j => kv p i * kh p i j * kv p j))
      - sum3 (fun j => kv p j * kv p j) * sum3 (fun i => kh p i i)) in
  let i2 := integrate_df sf ws mu 0 (fun p => sum3 (fun i => kv p i ^ 2)) in
  let sH := elementary_charge / eV * spin / 6 * i1 in
  let s0 := elementary_charge / eV * spin / 3 * i2 in
  sH / s0 ^ 2 * V.

(** numpy broadcasting of [v * tau] for an array [v] of shape (n, 3, 3) and an
    array of shape (n,), l.457: the axis of [tau] is matched with the last
    axis of [v]; [None] is the ValueError. *)
Definition bcast_mul (n : nat) (v : nat -> nat -> nat -> R) (tau : nat -> R) : option (nat -> nat -> nat -> R) :=
  if Nat.eqb n 3 then Some (fun m i j => v m i j * tau j)
  else if Nat.eqb n 1 then Some (fun m i j => v m i j * tau 0%nat)
  else None.
(** l.381: [v * np.reshape(tau(k), (-1, 1, 1))] *)
Definition reshape_mul (v : nat -> nat -> nat -> R) (tau : nat -> R) : nat -> nat -> nat -> R :=
  fun m i j => v m i j * tau m.

(** ** Integration weights, l.133-161 *)
Fixpoint zeta_sum (n K : nat) : R :=
  match K with O => 0 | S m => zeta_sum n m + / INR (S m) ^ n end.
(** scipy.special.zeta at non-negative even integers *)
Definition zeta (n : nat) : R := match n with O => - (1 / 2) | _ => real (Lim_seq (zeta_sum n)) end.
(** l.137; 2**(1 - n) as 2 / 2^n *)
Definition b_coeff (n : nat) : R := if Nat.even n then 2 * zeta n * (1 - 2 / 2 ^ n) else 0.
(** l.151-152 *)
Definition iw_row (x : list R) (mu : R) (n : nat) : list R := map (fun x_ => (x_ - mu) ^ n / INR (fact n)) x.
Definition iw_rhs (beta : R) (n : nat) : R := / beta ^ n * b_coeff n.
(** l.147 np.argmin: the first smallest *)
Fixpoint argmin_from (l : list R) (i best : nat) (v : R) : nat :=
  match l with
  | [] => best
  | x :: r => if Rltb x v then argmin_from r (S i) i x else argmin_from r (S i) best v
  end.
Definition argmin (l : list R) : nat := match l with [] => 0%nat | x :: r => argmin_from r 1 0 x end.
(** l.145-154; [None] is the AssertionError *)
Definition iw_weights (solve : list (list R) -> list R -> list R) (x : list R) (mu beta : R) : option (list R) :=
  let N := length x in
  if Rltb (10 ^ 16) beta then
    let i := argmin (map (fun x_ => Rabs (x_ - mu)) x) in
    if Rltb (Rabs (nth i x 0 - mu)) (/ 10 ^ 10)
    then Some (map (fun j => if Nat.eqb j i then 1 else 0) (seq 0 N))
    else None
  else Some (solve (map (iw_row x mu) (seq 0 N)) (map (iw_rhs beta) (seq 0 N))).
Fixpoint all_some {A} (l : list (option A)) : option (list A) :=
  match l with
  | [] => Some []
  | Some a :: r => match all_some r with Some r' => Some (a :: r') | None => None end
  | None :: _ => None
  end.
(** l.160: which points are kept *)
Definition iw_select (x : list R) (w : list (list R)) (emin emax rtol : R) (i : nat) : bool :=
  Rltb (rtol * INR (length x)) (lmax (map (fun wj => nth i wj 0 / lmax wj) w))
  && Rltb emin (nth i x 0) && Rltb (nth i x 0) emax.
Definition keep {A} (sel : nat -> bool) (l : list A) : list A :=
  map snd (filter (fun p => sel (fst p)) (combine (seq 0 (length l)) l)).
(** the result: for a single point only the array [1.0], l.135-136 *)
Inductive iw_res := IWBare (w : list R) | IWPair (x : list R) (w : list (list R)) | IWAssert.
Definition integration_weights (solve : list (list R) -> list R -> list R) (x : list R)
  (mubeta : list (R * R)) (emin emax rtol : R) : iw_res :=
  if Nat.even (length x) then IWAssert else
  if Nat.eqb (length x) 1 then IWBare [1] else
  match all_some (map (fun mb => iw_weights solve x (fst mb) (snd mb)) mubeta) with
  | None => IWAssert
  | Some w => let sel := iw_select x w emin emax rtol in IWPair (keep sel x) (map (keep sel) w)
  end.

(** ** FreeElectrons, l.466-507

    One k point; vectors are functions of the component.  [limit] is
    limit_count; 0 means no limit (l.482 tests the truth value). *)
Definition fe_fac : R := 380998211 / 10 ^ 8 * (2 * PI) ^ 2.
Definition fe_norm2 (k g : nat -> R) : R := sum3 (fun i => (k i - g i) ^ 2).
Definition limit_list {A} (limit : option nat) (l : list A) : list A :=
  match limit with Some (S n) => firstn (S n) l | _ => l end.
(** l.478-484 *)
Definition fe_call (gs : list (nat -> R)) (limit : option nat) (k : nat -> R) : list R :=
  limit_list limit (rsort (map (fun g => fe_fac * fe_norm2 k g) gs)).
(** np.argsort as an insertion sort of pairs by the first component *)
Fixpoint pinsert {A} (x : R * A) (l : list (R * A)) : list (R * A) :=
  match l with
  | [] => [x]
  | y :: r => if Rleb (fst x) (fst y) then x :: l else y :: pinsert x r
  end.
Fixpoint psort {A} (l : list (R * A)) : list (R * A) :=
  match l with [] => [] | x :: r => pinsert x (psort r) end.
(** l.486-495: pairs (energy, gradient) *)
Definition fe_bands_grad (gs : list (nat -> R)) (limit : option nat) (k : nat -> R) : list (R * (nat -> R)) :=
  map (fun p => (fe_fac * fst p, fun i => fe_fac * snd p i))
    (limit_list limit (psort (map (fun g => (fe_norm2 k g, fun i => 2 * (k i - g i))) gs))).
(** l.497-507: the Hessians are not limited and not reordered *)
Definition fe_hess (gs : list (nat -> R)) : list (nat -> nat -> R) :=
  map (fun _ i j => fe_fac * (if Nat.eqb i j then 2 else 0)) gs.
Definition fe_bands_grad_hess (gs : list (nat -> R)) (limit : option nat) (k : nat -> R)
  : list (R * (nat -> R)) * list (nat -> nat -> R) := (fe_bands_grad gs limit k, fe_hess gs).

(** ** Scattering times in conductivity_hall_tensor, l.451-463

    With a float tau the integrands are multiplied by tau and tau^2. *)
Definition sigma2_tau (tau : R) (sf : list surface) (ws : list R) (mu spin V : R) (i j : nat) : R :=
  1 / V * elementary_charge ^ 2 / eV * spin * integrate_df sf ws mu 0 (fun p => kv p j * kv p i * tau).
Definition sigma3_tau (tau : R) (sf : list surface) (ws : list R) (mu spin V : R) : tensor3 := fun a b y =>
  1 / V * elementary_charge ^ 3 / eV * spin * integrate_df sf ws mu 0 (fun p => hall_integrand a b y p * tau ^ 2).

(** ** The set up of KIntegral, l.171-222

    [points] is the result of _integration_points; the chemical potentials,
    the Fermi energy and the energy range come from the density of states. *)
Inductive kint := KOk (e_smpl : list R) (weights : list (list R)) | KNotImplemented | KAttributeError | KValueError | KAssertionError.
Definition beta_of (kB T : R) : R := 1 / (kB * T + / 10 ^ 20).
Definition kint_init (metal : bool) (kB fermi : R) (mu Ts : list R) (N : nat) (points : list R)
  (solve : list (list R) -> list R -> list R) (emin emax rtol : R) : kint :=
  if negb (forallb (fun T => Rleb 0 T) Ts) then KAssertionError else
  if Nat.even N then KAssertionError else
  if existsb (fun T => Rltb 0 T) Ts then
    if metal then
      match integration_weights solve points (combine mu (map (beta_of kB) Ts)) emin emax rtol with
      | IWPair x w => KOk x w
      | IWBare _ => KValueError (* not enough values to unpack *)
      | IWAssert => KAssertionError
      end
    else KNotImplemented
  else if metal then KOk [fermi] [[1]] else KAttributeError (* l.216: e_smpl is not defined *).
(** l.288-297: the number of values returned for one moment, zip(self.mu, self.integration_weights) *)
Definition kint_values (mu : list R) (k : kint) : option nat :=
  match k with KOk _ w => Some (length (combine mu w)) | _ => None end.

(** Model of DensityOfStates.heat_capacity (density_of_states.py l.681-730). Definitions only. *)
From Coq Require Import Reals List.
From Verif Require Import NbrModel DosModel.
Import ListNotations.
Local Open Scope R_scope.

(** [chem]: the values of chemical_potential (l.706) for a list of temperatures. Exact real arithmetic; two equal samples divide by zero, which gives nan in the code. *)
Definition heat_capacity (chem : list R -> list R) (d : dos) (T : R) (N : nat) (spin h : R) : R :=
  if Rleb T 0 then 0 else                                                              (* l.700 *)
  let '(e0, e1) := energy_range d in                                                   (* l.703 *)
  let dT := h * T in                                                                   (* l.705 *)
  let mus := chem [T - dT; T; T + dT] in                                               (* l.706 *)
  let s := (nth 2 mus 0 - nth 0 mus 0) / (2 * dT) * T in                               (* l.707 *)
  let mu := nth 1 mus 0 in                                                             (* l.708 *)
  let beta := 1 / (k_B * T) in                                                         (* l.710 *)
  let pts := map (fun e => (e, density e d)) (e_samples e0 e1 mu beta N) in            (* l.728-729 *)
  seg_sum (hc_segment mu s beta) pts / T * spin.                                       (* l.712-726, l.730 *)

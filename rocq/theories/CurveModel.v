(** Model of DensityOfStates.full_curve (density_of_states.py l.402-432) with a temperature. Definitions only. *)
From Coq Require Import Reals List.
From Verif Require Import NbrModel DosModel.
Import ListNotations.
Local Open Scope R_scope.

(** energies, states and density; [full_curve] is l.412-422. [None]: IndexError for N = 0 or without bands, l.428 *)
Definition full_curve_T (N : nat) (T : R) (d : dos) : option (list R * list R * list R) :=
  let c := full_curve N d in
  let es := map fst c in
  if Reqb T 0 then Some (es, map (fun p => fst (snd p)) c, map (fun p => snd (snd p)) c)          (* l.423, l.432 *)
  else match c with
       | [] => None
       | _ =>
         let beta := 1 / (k_B * T) in                                                             (* l.425 *)
         let delta := 5 / beta in                                                                 (* l.427 *)
         let a := nth 0 es 0 in
         let b := last es 0 in
         let en := linspace_open (a - delta) a N ++ es ++ rev (linspace_open (b + delta) b N) in  (* l.428 *)
         Some (en, map (fun x => convolve_df x (map (fun p => (fst p, fst (snd p))) c) beta EFlat) en,      (* l.429 *)
                   map (fun x => convolve_df x (map (fun p => (fst p, snd (snd p))) c) beta ENone) en)      (* l.430 *)
       end.

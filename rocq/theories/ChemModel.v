(** Model of density_of_states.py: chemical_potential (l.527-577), seebeck (l.654-678), k_resolved_density (l.434-453).
    Definitions only.

    Exact real arithmetic. [secant] returns [None] for a division by zero (nan in the code); such an entry stays in the list. *)
From Coq Require Import Reals List Bool.
From Verif Require Import NbrModel SmearModel DosModel.
Import ListNotations.
Local Open Scope R_scope.

(** the value of one temperature: the root and whether the search was left early *)
Definition entry := option (R * bool).
(** the list of values, or the exceptions: of fermi_energy, ValueError of np.max([]) (l.561), UnboundLocalError of [energy_smpl] (l.576) *)
Inductive chem_res := CVals (l : list entry) | CFermi (e : res) | CEmpty | CUnbound.

(** l.557; 0.25 * 0.25 * 2 is exact *)
Definition T_lin (e0 e1 ef : R) : R := 1 / 8 / k_B * Rmax (Rabs (e0 - ef)) (Rabs (e1 - ef)).
Definition with_states (d : dos) (es : list R) : samples_t := map (fun e => (e, states_below e d)) es.

(** the loop l.565-576; [beta] and the samples of the last recalculation are the state. The samples of the linear range (l.558, l.562) *)
Fixpoint chem_loop (d : dos) (electrons ef tol : R) (N steps : nat) (beta : R) (smpl : option samples_t) (Ts : list R) : option (list entry) :=
  let '(e0, e1) := energy_range d in
  match Ts with
  | [] => Some []
  | T :: r =>
      if Rleb T 0 then option_map (cons (Some (ef, true))) (chem_loop d electrons ef tol N steps beta smpl r)
      else if Rleb (T_lin e0 e1 ef) T then
        let beta := 1 / (k_B * T) in
        let lin := with_states d (linspace_end e0 e1 N) in
        option_map (cons (secant electrons (fun x => convolve_df x lin beta EFlat) ef (ef + 1 / 10) tol steps))
          (chem_loop d electrons ef tol N steps beta smpl r)
      else
        let new_beta := 1 / (k_B * T) in
        let smpl := if Rltb (5 / 100) (Rabs (beta - new_beta) / new_beta)
                    then Some (with_states d (e_samples e0 e1 ef (1 / 4 / (k_B * T)) N)) else smpl in
        match smpl with
        | None => None
        | Some s =>
            option_map (cons (secant electrons (fun x => convolve_df x s new_beta (EPoint e1 (INR (length d)))) ef (ef + 1 / new_beta) tol steps))
              (chem_loop d electrons ef tol N steps new_beta smpl r)
        end
  end.
(** l.527-577 *)
Definition chemical_potential (d : dos) (electrons : R) (Ts : list R) (N : nat) (tol : R) (steps : nat) : chem_res :=
  match fermi_energy electrons d tol steps with
  | Ok ef =>
      match Ts with
      | [] => CEmpty
      | _ => match chem_loop d electrons ef tol N steps (- 10000) None Ts with Some l => CVals l | None => CUnbound end
      end
  | e => CFermi e
  end.

(** seebeck l.654-678 for the values [chem] of chemical_potential. [None]: ValueError of np.min([]) (no positive temperature) or the AssertionError of l.672 *)
Fixpoint index_of (n : nat) (l : list nat) : option nat :=
  match l with [] => None | m :: r => if Nat.eqb n m then Some 0%nat else option_map S (index_of n r) end.
Definition seebeck (chem : list R -> list R) (Ts : list R) (h : R) : option (list R) :=
  let subset := filter (fun i => Rltb 0 (nth i Ts 0)) (seq 0 (length Ts)) in
  let T_ := map (fun i => nth i Ts 0) subset in
  (* zeros, then inv_order[subset] = arange *)
  let inv_order := fun i => match index_of i subset with Some j => j | None => 0%nat end in
  match T_ with
  | [] => None
  | T :: r =>
      if Rltb h (fold_right Rmin T r) then
        let mu := chem (concat (map (fun T => [T + -1 * h; T + 1 * h]) T_)) in
        Some (map (fun i => if Rltb 0 (nth i Ts 0) then (nth (inv_order i * 2 + 1) mu 0 - nth (inv_order i * 2) mu 0) / (2 * h) else 0) (seq 0 (length Ts)))
      else None
  end.

(** k_resolved_density l.434-453 at one cell: [vol], [dvol] the volume and its derivative in the cell for every band, e0 and e1 the range of all energies.
    [None]: the AssertionError of l.446 *)
Definition k_resolved (vol dvol : list (R -> R)) (e0 e1 mu T : R) (N : nat) : option R :=
  if Rltb T 0 then None
  else if Reqb T 0 then Some (rsum (map (fun v => v mu) dvol))
  else let beta := 1 / (k_B * T) in
       Some (convolve_ddf mu (map (fun e => (e, rsum (map (fun v => v e) vol))) (e_samples e0 e1 mu beta N)) beta EFlat).

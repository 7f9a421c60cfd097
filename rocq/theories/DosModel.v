(** * Model of density_of_states.py

    Numbers are real numbers (no rounding, no infinities or nan).  Arrays are
    lists.  [/ 0] is Coq's total inverse; where Python would raise or produce
    nan the model returns an error value or the theorems exclude the case. *)

From Coq Require Import Reals List ZArith Bool.
From Coquelicot Require Import Coquelicot.
From Verif Require Import NbrModel SmearModel.
Import ListNotations.
Local Open Scope R_scope.

(** density_of_states.py l.10 *)
Definition k_B : R := 861733326214518 / 10 ^ 19.

(** scipy.special.expit, log_expit, logit *)
Definition expit (x : R) : R := / (1 + exp (- x)).
Definition log_expit (x : R) : R := - ln (1 + exp (- x)).
Definition logit (p : R) : R := ln (p / (1 - p)).

Definition rsum (l : list R) : R := fold_right Rplus 0 l.
(** np.mean of a flat array *)
Definition rmean (l : list R) : R := rsum l / INR (length l).

(** ** Quadrature rules, l.13-46

    [f] is evaluated at every point; the model covers scalar results. *)
Definition quad_at (xs ws : list R) (f : R -> R) (mu beta : R) : R :=
  rsum (map (fun xw => f (fst xw / beta + mu) * snd xw) (combine xs ws)).
(** l.13-19 *)
Definition g5_x : list R :=
  [-(8211650879369324585 / 10 ^ 18); -(3054894371595123559 / 10 ^ 18); 0;
   3054894371595123559 / 10 ^ 18; 8211650879369324585 / 10 ^ 18].
Definition g5_w : list R :=
  [18831678927720540279 / 10 ^ 22; 16265409664449248517 / 10 ^ 20;
   6709254709254709216 / 10 ^ 19; 16265409664449248517 / 10 ^ 20;
   18831678927720540279 / 10 ^ 22].
Definition gauss_5_df (f : R -> R) (mu beta : R) : R := quad_at g5_x g5_w f mu beta.
(** l.22-28 *)
Definition g7_x : list R :=
  [-(13208619179276130495 / 10 ^ 18); -(6822258565704534483 / 10 ^ 18);
   -(274015863439980345 / 10 ^ 17); 0; 274015863439980345 / 10 ^ 17;
   6822258565704534483 / 10 ^ 18; 13208619179276130495 / 10 ^ 18].
Definition g7_w : list R :=
  [15006783863250833195 / 10 ^ 24; 54715468031045289346 / 10 ^ 22;
   18481163647966422636 / 10 ^ 20; 61940361986673598773 / 10 ^ 20;
   18481163647966422636 / 10 ^ 20; 54715468031045289346 / 10 ^ 22;
   15006783863250833195 / 10 ^ 24].
Definition gauss_7_df (f : R -> R) (mu beta : R) : R := quad_at g7_x g7_w f mu beta.
(** l.31-37 *)
Definition g4_x : list R :=
  [-(57755299052817408167 / 10 ^ 19); -(13141165029468411252 / 10 ^ 19);
   13141165029468411252 / 10 ^ 19; 57755299052817408167 / 10 ^ 19].
Definition g4_w : list R :=
  [13822390808990555472 / 10 ^ 21; 48617760919100944106 / 10 ^ 20;
   48617760919100944106 / 10 ^ 20; 13822390808990555472 / 10 ^ 21].
Definition gauss_4_f (f : R -> R) (mu beta : R) : R :=
  quad_at g4_x g4_w f mu beta / beta * 2 * ln 2.
(** l.40-46 *)
Definition g6_x : list R :=
  [-(10612971636582431145 / 10 ^ 18); -(47544317516063152596 / 10 ^ 19);
   -(11799810705877835648 / 10 ^ 19); 11799810705877835648 / 10 ^ 19;
   47544317516063152596 / 10 ^ 19; 10612971636582431145 / 10 ^ 18].
Definition g6_w : list R :=
  [13527426019966680491 / 10 ^ 23; 2778699826589691238 / 10 ^ 20;
   47207772747390341905 / 10 ^ 20; 47207772747390341905 / 10 ^ 20;
   2778699826589691238 / 10 ^ 20; 13527426019966680491 / 10 ^ 23].
Definition gauss_6_f (f : R -> R) (mu beta : R) : R :=
  quad_at g6_x g6_w f mu beta / beta * 2 * ln 2.

(** ** Convolution with the Fermi function, l.49-119

    [pts] are the pairs (energy_smpl[i], states[i]). *)
Definition samples_t := list (R * R).
(** np.sum over the segments between neighboring samples. *)
Fixpoint seg_sum (seg : R -> R -> R -> R -> R) (pts : samples_t) : R :=
  match pts with
  | p :: ((q :: _) as rest) => seg (fst p) (fst q) (snd p) (snd q) + seg_sum seg rest
  | _ => 0
  end.
(** The arguments [extrapolation] and [extrapolation_point]. *)
Inductive extr := ENone | EFlat | EPoint (e n : R).
Definition p_first (pts : samples_t) : R * R := nth 0 pts (0, 0).
Definition p_last (pts : samples_t) : R * R := last pts (0, 0).

(** l.64-65, l.67-69 *)
Definition cv_f (beta e : R) : R := expit (- beta * e).
Definition cv_F (beta e : R) : R := log_expit (beta * e) / beta.
(** l.75-76 (F_diff l.71-72) *)
Definition cv_segment (beta x x0 x1 y0 y1 : R) : R :=
  y1 * cv_f beta (x - x1) - y0 * cv_f beta (x - x0)
  + (y1 - y0) / (x1 - x0) * (cv_F beta (x - x1) - cv_F beta (x - x0)).
(** l.49-85 [convolve_df] *)
Definition convolve_df (x : R) (pts : samples_t) (beta : R) (ex : extr) : R :=
  let s := seg_sum (cv_segment beta x) pts in
  match ex with
  | ENone => s
  | EFlat => s + cv_f beta (x - fst (p_first pts)) * snd (p_first pts)
               + cv_f beta (fst (p_last pts) - x) * snd (p_last pts)
  | EPoint e n => s + cv_f beta (e - x) * n
  end.

(** l.99-100; 0.25 and 0.5 are exact *)
Definition cv_df (beta e : R) : R := - (1 / 4) * beta / cosh (1 / 2 * beta * e) ^ 2.
(** l.108-109 *)
Definition cv_dsegment (beta x x0 x1 y0 y1 : R) : R :=
  y1 * cv_df beta (x - x1) - y0 * cv_df beta (x - x0)
  + (y1 - y0) / (x1 - x0) * (cv_f beta (x - x1) - cv_f beta (x - x0)).
(** l.88-119 [convolve_ddf] *)
Definition convolve_ddf (x : R) (pts : samples_t) (beta : R) (ex : extr) : R :=
  let s := seg_sum (cv_dsegment beta x) pts in
  match ex with
  | ENone => s
  | EFlat => s + cv_df beta (x - fst (p_first pts)) * snd (p_first pts)
               + cv_df beta (fst (p_last pts) - x) * snd (p_last pts)
  | EPoint e n => s + cv_df beta (e - x) * n
  end.

(** ** Root finding, l.122-143 [secant]

    The flag tells whether the loop was left early.  [fb - fa = 0] would be a
    division by zero in Python (ZeroDivisionError or nan): [None]. *)
Definition Reqb (x y : R) : bool := if Req_EM_T x y then true else false.
Fixpoint secant_loop (y : R) (f : R -> R) (tol : R) (max_i : nat) (a b fa fb : R)
  : option (R * bool) :=
  if Reqb (fb - fa) 0 then None else
  let x := (a * fb - b * fa) / (fb - fa) in
  match max_i with
  | O => Some (x, false)
  | S i =>
      if Reqb a x || Reqb b x then Some (x, true) else
      let val := f x - y in
      if Rltb (Rabs val) tol || Reqb fb val then Some (x, true)
      else secant_loop y f tol i b x fb val
  end.
Definition secant (y : R) (f : R -> R) (a b tol : R) (max_i : nat) : option (R * bool) :=
  secant_loop y f tol max_i a b (f a - y) (f b - y).

(** ** Integrals of polynomials times the Fermi derivative, l.146-178 *)
(** scipy.special.spence(z) is the integral of log(t)/(1-t) from 1 to z. *)
Definition spence (z : R) : R := RInt (fun t => ln t / (1 - t)) 1 z.
(** l.146-147 *)
Definition Li2 (x : R) : R := spence (1 - x).
(** l.150-152 *)
Definition int_df (x : R) : R := 1 / 2 * tanh (x / 2).
(** l.155-159 *)
Definition int_xdf (x : R) : R :=
  let x := - Rabs x in
  let ex := exp x in
  (x * ex) / (1 + ex) - ln (1 + ex).
(** l.162-169 *)
Definition int_xxdf (x : R) : R :=
  let sign := rsign x in
  let x := - Rabs x in
  let ex := exp x in
  let f := (x * x * ex) / (1 + ex) - 2 * x * ln (1 + ex)
           - (2 * Li2 (- ex) + PI ^ 2 / 6) in
  - sign * f.
(** l.172-178 *)
Definition int_poly (x0 x1 a b c : R) : R :=
  a * (int_xxdf x1 - int_xxdf x0) + b * (int_xdf x1 - int_xdf x0)
  + c * (int_df x1 - int_df x0).

(** ** Naive sums, l.181-191 *)
(** np.sort *)
Fixpoint rinsert (x : R) (l : list R) : list R :=
  match l with
  | [] => [x]
  | y :: r => if Rleb x y then x :: l else y :: rinsert x r
  end.
Fixpoint rsort (l : list R) : list R :=
  match l with [] => [] | x :: r => rinsert x (rsort r) end.
(** l.181-183 [naive_fermi_energy]; [bands] is the list of rows (one per k
    point); [i] is round(number of k points * electrons) and given directly.
    The mean of an empty slice is nan: [None]. *)
Definition naive_fermi_energy (bands : list (list R)) (i : nat) : option R :=
  match firstn 2 (skipn i (rsort (concat bands))) with
  | [] => None
  | l => Some (rmean l)
  end.
(** l.186-191 [naive_energy]; [nb] is np.shape(bands)[-1]. *)
Definition naive_energy (bands : list (list R)) (nb : nat) (mu T spin : R) : R :=
  let e := concat bands in
  if Rltb 0 T
  then rmean (map (fun e => e * expit (- (e - mu) / (k_B * T))) e) * INR nb * spin
  else rsum (filter (fun e => Rleb e mu) e) * (INR nb / INR (length e)) * spin.

(** ** Sample distribution, l.194-200 [_samples] *)
(** np.linspace(a, b, n) and np.linspace(a, b, n, endpoint=False) *)
Definition linspace_end (a b : R) (n : nat) : list R :=
  map (fun i => a + INR i * ((b - a) / INR (n - 1))) (seq 0 n).
Definition linspace_open (a b : R) (n : nat) : list R :=
  map (fun i => a + INR i * ((b - a) / INR n)) (seq 0 n).
Definition e_samples (e0 e1 mu beta : R) (N : nat) : list R :=
  let e0 := Rmax (mu - 30 / beta) e0 in
  let e1 := Rmin (mu + 30 / beta) e1 in
  map (fun p => - logit p / beta + mu)
    (linspace_open (expit (- beta * (e0 - mu))) (1 / 2) (Nat.div N 2)
     ++ linspace_end (1 / 2) (expit (- beta * (e1 - mu))) (Nat.div (N + 1) 2)).

(** ** DensityOfStates

    For every band: bands_range[i] and the mean of the cell volumes (and of
    their derivatives) of smearing[i] as functions of the energy. *)
Record band := mkBand { b_lo : R; b_hi : R; b_vol : R -> R; b_dvol : R -> R }.
Definition dos := list band.

(** l.350-356 [states_below_band] *)
Definition states_below_band (E : R) (b : band) : R :=
  if Rltb (b_lo b) E && Rltb E (b_hi b) then b_vol b E
  else if Rleb (b_hi b) E then 1 else 0.
(** l.358-362 *)
Definition states_below (E : R) (d : dos) : R := rsum (map (states_below_band E) d).
(** l.384-388 [density_band], l.377-382 [density] *)
Definition density_band (E : R) (b : band) : R :=
  if Rltb (b_lo b) E && Rltb E (b_hi b) then b_dvol b E else 0.
Definition density (E : R) (d : dos) : R := rsum (map (density_band E) d).
(** l.364-375 [states_density] *)
Definition states_density (E : R) (d : dos) : R * R :=
  fold_left (fun acc b =>
    if Rltb (b_lo b) E && Rltb E (b_hi b)
    then (fst acc + b_vol b E, snd acc + b_dvol b E)
    else if Rleb (b_hi b) E then (fst acc + 1, snd acc) else acc) d (0, 0).
(** l.394-400 [cut_band_indices] *)
Definition cut_band_indices (E : R) (d : dos) : list nat :=
  map fst (filter (fun ib => Rltb (b_lo (snd ib)) E && Rltb E (b_hi (snd ib)))
             (combine (seq 0 (length d)) d)).
(** l.519-525 [energy_range] *)
Definition no_band : band := mkBand 0 0 (fun _ => 0) (fun _ => 0).
Definition energy_range (d : dos) : R * R := (b_lo (nth 0 d no_band), b_hi (last d no_band)).

(** np.unique *)
Fixpoint rdedup (l : list R) : list R :=
  match l with
  | x :: ((y :: _) as r) => if Reqb x y then rdedup r else x :: rdedup r
  | _ => l
  end.
(** l.412-422 [full_curve] at T = 0: energies with (states, density). *)
Definition full_curve (N : nat) (d : dos) : list (R * (R * R)) :=
  map (fun e => (e, states_density e d))
    (rdedup (rsort (concat (map (fun b => linspace_end (b_lo b) (b_hi b) N) d)))).

(** l.498-517 [bandgap] and l.470-484: only whether [electrons] is an integer
    matters of [round], so the model uses the integer part. *)
Definition is_int (x : R) : bool := Reqb (IZR (Int_part x)) x.
Inductive res := Ok (x : R) | EAssert | EValue | EDiv.
Definition bandgap (electrons : R) (d : dos) : res :=
  if Rleb 0 electrons && Rleb electrons (INR (length d)) then
    if is_int electrons then
      let n := Z.to_nat (Int_part electrons) in
      if Nat.ltb 0 n && Nat.ltb n (length d) then
        let max_below := b_hi (nth (n - 1) d no_band) in
        let min_above := b_lo (nth n d no_band) in
        Ok (if Rltb max_below min_above then min_above - max_below else 0)
      else EAssert
    else Ok 0
  else EAssert.

(** l.490-496: the Newton loop.  A zero density makes l.493 divide by zero. *)
Fixpoint fermi_newton (electrons : R) (d : dos) (tol : R) (steps : nat) (E : R) : res :=
  match steps with
  | O => EValue
  | S steps =>
      let s := fst (states_density E d) in
      let rho := snd (states_density E d) in
      if Reqb rho 0 then EDiv else
      let E' := E - (s - electrons) / rho in
      if Rleb (Rabs ((s - electrons) / rho)) tol then Ok E'
      else fermi_newton electrons d tol steps E'
  end.
(** l.486-488: interpolate between the band edges.  The index is the first one
    with more states, minus one; index -1 is the last one in Python. *)
Fixpoint first_above (electrons : R) (i : nat) (l : list R) : option nat :=
  match l with
  | [] => None
  | s :: r => if Rltb electrons s then Some i else first_above electrons (S i) r
  end.
Definition fermi_start (electrons : R) (d : dos) : option R :=
  let c := full_curve 2 d in
  let st := fun i => fst (snd (nth i c (0, (0, 0)))) in
  let en := fun i => fst (nth i c (0, (0, 0))) in
  match first_above electrons 0 (map (fun p => fst (snd p)) c) with
  | None => None
  | Some i =>
      let j := match i with O => (length c - 1)%nat | S j => j end in
      Some ((electrons - st j) / (st i - st j) * (en i - en j) + en j)
  end.
Definition fermi_search (electrons : R) (d : dos) (tol : R) (steps : nat) : res :=
  match fermi_start electrons d with
  | None => EValue
  | Some E => fermi_newton electrons d tol steps E
  end.
(** l.455-496 [fermi_energy] *)
Definition fermi_energy (electrons : R) (d : dos) (tol : R) (steps : nat) : res :=
  if Rleb 0 electrons && Rleb electrons (INR (length d)) then
    if is_int electrons then
      let n := Z.to_nat (Int_part electrons) in
      if Nat.ltb 0 n && Nat.ltb n (length d) then
        let max_below := b_hi (nth (n - 1) d no_band) in
        let min_above := b_lo (nth n d no_band) in
        if Rltb max_below min_above then Ok ((max_below + min_above) / 2)
        else fermi_search electrons d tol steps
      else if Nat.eqb n 0 then Ok (b_lo (nth 0 d no_band))
      else Ok (b_hi (last d no_band))
    else fermi_search electrons d tol steps
  else EAssert.

(** l.600-617 [energy] at T = 0.  The trapezoidal sums of l.609 and l.612. *)
Fixpoint trapez (pts : samples_t) : R :=
  match pts with
  | p :: ((q :: _) as r) => (snd p + snd q) / 2 * (fst q - fst p) + trapez r
  | _ => 0
  end.
(** [::2] *)
Fixpoint every2 {A} (l : list A) : list A :=
  match l with
  | x :: _ :: r => x :: every2 r
  | _ => l
  end.
Definition energy_band (mu : R) (N : nat) (b : band) : R :=
  if Rltb (b_lo b) mu then
    let es := linspace_end (b_lo b) (Rmin (b_hi b) mu) (Nat.div N 2 * 2 + 1) in
    let pts := map (fun e => (e, states_below_band e b)) es in
    let int1 := trapez pts in
    let int2 := trapez (every2 pts) in
    mu * snd (p_last pts) - (int1 + (int1 - int2) / (4 - 1))
  else 0.
Definition energy_T0 (mu : R) (N : nat) (spin : R) (d : dos) : R :=
  rsum (map (energy_band mu N) d) * spin.

(** l.634-652 [energy] at T > 0: the correction for one segment ... *)
Definition en_segment (mu beta e0 e1 y0 y1 : R) : R :=
  let a := (y1 - y0) / (e1 - e0) in
  let b := y0 - e0 * a in
  let f := fun e => (a * e / 2 + b) * e
             * (expit (- (e - mu) * beta) - (if Rltb e mu then 1 else 0)) in
  - (f e1 - f e0)
  + a / 2 * int_poly ((e0 - mu) * beta) ((e1 - mu) * beta) (1 / beta ^ 2) (2 * mu / beta) (mu * mu).
(** ... and the whole result. *)
Definition energy_T (mu T : R) (N : nat) (spin : R) (d : dos) : R :=
  if Rleb T 0 then energy_T0 mu N spin d else
  let beta := 1 / (k_B * T) in
  let es := e_samples (fst (energy_range d)) (snd (energy_range d)) mu beta N in
  let pts := map (fun e => (e, states_below e d)) es in
  let nb := INR (length d) in
  let el := fst (p_last pts) in
  (rsum (map (energy_band mu N) d)
   + (seg_sum (en_segment mu beta) pts + en_segment mu beta el (el + 8 / beta) nb nb)
   - density mu d * mu * mu / 2) * spin.

(** l.713-723 [segment] of [heat_capacity]: the coefficients of x^2, x, 1. *)
Definition hc_coeffs (mu s beta e0 e1 y0 y1 : R) : R * R * R :=
  let em := (e0 + e1) / 2 in
  let a := (y1 - y0) / (e1 - e0) in
  let b := (y0 + y1) / 2 in
  ((a * (2 * em - mu + s) + b) / beta ^ 2,
   (a * (-3 * em ^ 2 - em * s - 2 * mu ^ 2 + mu * (5 * em + 2 * s)) + b * (mu + s)) / beta,
   a * (em ^ 3 - mu ^ 3 + mu ^ 2 * (3 * em + s) + mu * (-3 * em ^ 2 - em * s)) + b * mu * s).
Definition hc_segment (mu s beta e0 e1 y0 y1 : R) : R :=
  let '(a0, b0, c0) := hc_coeffs mu s beta e0 e1 y0 y1 in
  int_poly ((e0 - mu) * beta) ((e1 - mu) * beta) a0 b0 c0.

(** l.295, l.306-309: cubes smearing of a list of N x N x N grids, one per
    band, without gradients and with wrap. *)
Definition flatten (N : nat) (g : grid) : list R :=
  concat (map (fun i => concat (map (fun j => map (fun k => g i j k) (seq 0 N)) (seq 0 N))) (seq 0 N)).
Definition lmin (l : list R) : R := match l with [] => 0 | x :: r => fold_right Rmin x r end.
Definition lmax (l : list R) : R := match l with [] => 0 | x :: r => fold_right Rmax x r end.
Definition cubes_band (N : nat) (g : grid) : band :=
  mkBand (lmin (flatten N g)) (lmax (flatten N g))
    (fun E => rmean (flatten N (cubes_volume N g E)))
    (fun E => rmean (flatten N (cubes_dvolume N g E))).
Definition dos_cubes (N : nat) (gs : list grid) : dos := map (cubes_band N) gs.
(** l.310-314: the same for "cubes+"; its derivative is not needed here. *)
Definition extra_band (N : nat) (g : grid) : band :=
  mkBand (lmin (flatten N g)) (lmax (flatten N g))
    (fun E => rmean (flatten (Nat.div N 2) (extra_volume N g E))) (fun _ => 0).

(** l.769-796 and l.858-862 of [fermi_surface_samples] with
    improved_weights=False: the weights per cut band, as the pairs
    (weight, norm of the gradient) of its samples. *)
Inductive norm_arg := NormNone | NormBand | NormTotal.
Definition fs_band (by_grad : bool) (nm : norm_arg) (ws : list (R * R)) : list R :=
  let w_sum := rsum (map fst ws) in
  let w := map (fun wg => if by_grad then fst wg / (snd wg + / 10 ^ 20) else fst wg) ws in
  match nm with NormBand => map (fun x => x / w_sum) w | _ => w end.
Definition fs_weights (by_grad : bool) (nm : norm_arg) (bs : list (list (R * R))) : list (list R) :=
  let total := rsum (map (fun ws => rsum (map fst ws)) bs) in
  let w := map (fs_band by_grad nm) bs in
  match nm with NormTotal => map (map (fun x => x / total)) w | _ => w end.

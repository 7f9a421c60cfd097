(** Model of the Bloch Hamiltonians: HermitianFourierSeries and AsymTightBindingModel (tight_binding_asym.py) and
    BandStructureModel (bandstructure.py). Exact real/complex arithmetic. Definitions only. *)
From Coq Require Import List Arith ZArith Reals Bool.
Import ListNotations.
From Verif Require Import SRing LMat FMat CplxR UrepModel.
Local Open Scope R_scope.

(** positions and k vectors: [n] real components *)
Definition rvec := nat -> R.
Definition dot (n : nat) (k r : rvec) : R := nsum (K:=Rs) n (fun a => k a * r a).
Definition ci : cplx := (0, 1).
Notation cmat := (fmat Cs).

(** tight_binding_asym.py l.60-69, l.71-79, l.81-90 and bandstructure.py l.158-173, l.175-188, l.190-205: the sum over
    the coefficients from index 1 on, plus its conjugate transpose, plus the term of index 0.
    [c i] is the value of the coefficient function. *)
Definition herm_series (c : nat -> cplx) (P : list cmat) : cmat :=
  let m := fsum (K:=Cs) (seq 1 (length P - 1)) (fun i => fscale (K:=Cs) (c i) (nth i P fzero)) in
  fadd (K:=Cs) (fadd (K:=Cs) m (fadj (K:=Cs) m)) (fscale (K:=Cs) (c 0%nat) (nth 0 P fzero)).

(** class HermitianFourierSeries, tight_binding_asym.py l.22-36: neighbors and H_r of the same length, neighbors[0] = 0 *)
Record hfs := MkHfs { hnb : list rvec; hH : list cmat }.
Definition nb (nbs : list rvec) (i : nat) : rvec := nth i nbs (fun _ => 0).
(** tight_binding_asym.py f_i l.38-43, df_i l.45-50, ddf_i l.52-58 *)
Definition fs_coef (n : nat) (nbs : list rvec) (k : rvec) (i : nat) : cplx := cexp (2 * PI * dot n k (nb nbs i)).
Definition fs_dcoef (n : nat) (nbs : list rvec) (k : rvec) (a i : nat) : cplx :=
  cmul (cmul (cmul (cre 2) (cmul ci (cre PI))) (fs_coef n nbs k i)) (cre (nb nbs i a)).
Definition fs_ddcoef (n : nat) (nbs : list rvec) (k : rvec) (a b i : nat) : cplx :=
  let w := cmul (cre 2) (cmul ci (cre PI)) in
  cmul (cmul (cmul w w) (fs_coef n nbs k i)) (cre (nb nbs i a * nb nbs i b)).
(** tight_binding_asym.py f l.60-69, df l.71-79, ddf l.81-90; [a], [b] are the derivative axes *)
Definition fs_f (n : nat) (h : hfs) (k : rvec) : cmat := herm_series (fs_coef n (hnb h) k) (hH h).
Definition fs_df (n : nat) (h : hfs) (k : rvec) (a : nat) : cmat := herm_series (fs_dcoef n (hnb h) k a) (hH h).
Definition fs_ddf (n : nat) (h : hfs) (k : rvec) (a b : nat) : cmat := herm_series (fs_ddcoef n (hnb h) k a b) (hH h).

(* ------------------------------------------------------------------ *)
(** class BandStructureModel, bandstructure.py l.57-80; [bops] are the matrices sym.S acting on the neighbors *)
Record bsm := MkBsm { bexp : bool; bcos : bool; binv : bool; bops : list (fmat Rs); bnb : list rvec; bparams : list cmat }.
(** s @ r *)
Definition rot (n : nat) (s : fmat Rs) (r : rvec) : rvec := fun a => nsum (K:=Rs) n (fun b => s a b * r b).
(** _get_tight_binding_coeff_funcs l.919-992: list of coefficient functions, selected by [part] *)
Definition coeff_fun (b : bsm) (part : nat) (x : R) : cplx :=
  let shift (z : cplx) := if bcos b then csub z (cre 1) else z in
  if bexp b then shift (cexp x)                                           (* l.929-931 *)
  else match part with
       | O => shift (cre (cos x))                                         (* l.928, l.936, l.941 *)
       | _ => cre (sin x)                                                 (* l.941; not reached with inversion *)
       end.
(** bandstructure.py f_i_sym l.947-959 *)
Definition bsm_coef (n : nat) (b : bsm) (k : rvec) (i : nat) : cplx :=
  if Nat.eqb i 0 then cre 1
  else let N := length (bnb b) in
       let part := (i / N)%nat in
       let r := nb (bnb b) (i mod N + part)%nat in
       ksum (K:=Cs) (bops b) (fun s => coeff_fun b part (2 * PI * dot n k (rot n s r))).
(** bandstructure.py f l.158-173 *)
Definition bsm_f (n : nat) (b : bsm) (k : rvec) : cmat := herm_series (bsm_coef n b k) (bparams b).
(** derivatives of the coefficient functions, bandstructure.py l.932-943 *)
Definition coeff_dfun (b : bsm) (part : nat) (x : R) : cplx :=
  if bexp b then cmul ci (cexp x)
  else match part with O => cre (- sin x) | _ => cre (cos x) end.
(** bandstructure.py df_i_sym l.962-974; df l.175-188 *)
Definition bsm_dcoef (n : nat) (b : bsm) (k : rvec) (a i : nat) : cplx :=
  if Nat.eqb i 0 then cre 0
  else let N := length (bnb b) in
       let part := (i / N)%nat in
       let r := nb (bnb b) (i mod N + part)%nat in
       cmul (ksum (K:=Cs) (bops b) (fun s => cmul (coeff_dfun b part (2 * PI * dot n k (rot n s r))) (cre (rot n s r a)))) (cre (2 * PI)).
Definition bsm_df (n : nat) (b : bsm) (k : rvec) (a : nat) : cmat := herm_series (bsm_dcoef n b k a) (bparams b).

(** bandstructure.py l.934-943 negated second derivatives, ddf_i_sym l.977-990, ddf l.190-205 *)
Definition coeff_nddfun (b : bsm) (part : nat) (x : R) : cplx :=
  if bexp b then cexp x else match part with O => cre (cos x) | _ => cre (sin x) end.
Definition bsm_ddcoef (n : nat) (b : bsm) (k : rvec) (a c i : nat) : cplx :=
  if Nat.eqb i 0 then cre 0
  else let N := length (bnb b) in
       let part := (i / N)%nat in
       let r := nb (bnb b) (i mod N + part)%nat in
       cmul (ksum (K:=Cs) (bops b) (fun s => copp (cmul (coeff_nddfun b part (2 * PI * dot n k (rot n s r)))
                                                        (cre (rot n s r a * rot n s r c)))))
            (cre ((2 * PI) * (2 * PI))).
Definition bsm_ddf (n : nat) (b : bsm) (k : rvec) (a c : nat) : cmat := herm_series (bsm_ddcoef n b k a c) (bparams b).

(** half *)
Definition chalf : cplx := cre (1 / 2).
Definition set_params (b : bsm) (p : list cmat) : bsm := MkBsm (bexp b) (bcos b) (binv b) (bops b) (bnb b) p.
(** [params[0] += x] *)
Definition add_first (x : cmat) (p : list cmat) : list cmat :=
  match p with [] => [] | p0 :: p' => fadd (K:=Cs) p0 x :: p' end.
(** sum of (H + H^+) over a list, as in l.610, l.617, l.643 *)
Definition sum_herm (p : list cmat) : cmat := fsum (K:=Cs) p (fun x => fadd (K:=Cs) x (fadj (K:=Cs) x)).
Definition fneg (x : cmat) : cmat := fscale (K:=Cs) (copp (cre 1)) x.
(** bandstructure.py set_params_complex l.625-653; [None] is the ValueError of l.637. [self.sym] is not None for these models. *)
Definition set_params_complex (b : bsm) (H : list cmat) : option bsm :=
  if negb (Nat.eqb (length H) (length (bnb b))) then None
  else Some (set_params b
    (if bexp b then
       (if bcos b then add_first (sum_herm (tl H)) H else H)
     else
       let A := map (fun h => fscale (K:=Cs) chalf (fadd (K:=Cs) h (fadj (K:=Cs) h))) H in
       let p := if binv b then A
                else A ++ map (fun h => fscale (K:=Cs) chalf (fscale (K:=Cs) ci (fadd (K:=Cs) h (fneg (fadj (K:=Cs) h))))) (tl H) in
       if bcos b then add_first (fscale (K:=Cs) (cre 2) (fsum (K:=Cs) (firstn (length H - 1) (tl p)) (fun x => x))) p else p)).
(** bandstructure.py params_complex l.594-623 *)
Definition params_complex (b : bsm) : list cmat :=
  let P := bparams b in
  if bexp b then
    (if bcos b then add_first (fneg (sum_herm (tl P))) P else P)
  else if negb (binv b) then
    let m := ((length P + 1) / 2)%nat in
    let P' := if bcos b then add_first (fneg (sum_herm (firstn (m - 1) (tl P)))) P else P in
    match P' with
    | [] => []
    | p0 :: p => p0 :: map (fun xy => fadd (K:=Cs) (fst xy) (fscale (K:=Cs) (copp ci) (snd xy)))
                           (combine (firstn (m - 1) p) (skipn (m - 1) p))
    end
  else if bcos b then add_first (fneg (sum_herm (tl P))) P else P.

(* ------------------------------------------------------------------ *)
(** model arithmetic. AsymTightBindingModel: [tH], [tS], tight_binding_asym.py l.192-196 *)
Record atb := MkAtb { tH : hfs; tS : hfs }.
(** HermitianFourierSeries.__add__, tight_binding_asym.py l.180-185 (neighbors equal): direct sum of the stacked matrices, linalg.py l.19-24 *)
Definition fs_add (d1 : nat) (a b : hfs) : hfs :=
  MkHfs (hnb a) (map (fun xy => dsum (K:=Cs) d1 (fst xy) (snd xy)) (combine (hH a) (hH b))).
(** tight_binding_asym.py __add__ with a model l.876-879 *)
Definition atb_add (d1 : nat) (a b : atb) : atb := MkAtb (fs_add d1 (tH a) (tH b)) (fs_add d1 (tS a) (tS b)).
(** tight_binding_asym.py __add__ with a number l.880-885: only the R=0 matrix of S is used *)
Definition atb_shift (e : R) (a : atb) : atb :=
  MkAtb (MkHfs (hnb (tH a)) (add_first (fscale (K:=Cs) (cre e) (nth 0 (hH (tS a)) fzero)) (hH (tH a)))) (tS a).
(** tight_binding_asym.py __mul__ l.887-888 *)
Definition atb_scale (c : R) (a : atb) : atb :=
  MkAtb (MkHfs (hnb (tH a)) (map (fscale (K:=Cs) (cre c)) (hH (tH a)))) (tS a).
(** bandstructure.py __add__ l.886-901 and __mul__ l.903-906. [bsm_add] is the result when the assertions of l.889-893 hold;
    note that they do not compare the symmetries *)
Definition bsm_add (d1 : nat) (a b : bsm) : bsm :=
  set_params a (map (fun xy => dsum (K:=Cs) d1 (fst xy) (snd xy)) (combine (bparams a) (bparams b))).
Definition bsm_shift (e : R) (a : bsm) : bsm := set_params a (add_first (fscale (K:=Cs) (cre e) (fid (K:=Cs))) (bparams a)).
Definition bsm_scale (c : R) (a : bsm) : bsm := set_params a (map (fscale (K:=Cs) (cre c)) (bparams a)).

(** permute, tight_binding_asym.py l.734-741 / bandstructure.py l.588-592: x[order][:, order] *)
Definition perm_mat (order : list nat) (x : cmat) : cmat := fun i j => x (nth i order 0%nat) (nth j order 0%nat).
Definition fs_map (f : cmat -> cmat) (h : hfs) : hfs := MkHfs (hnb h) (map f (hH h)).
Definition atb_permute (order : list nat) (a : atb) : atb :=
  MkAtb (fs_map (perm_mat order) (tH a)) (fs_map (perm_mat order) (tS a)).
(** the congruence of normalize, tight_binding_asym.py l.708-709 and l.716-717: einsum("ji,njk,kl->nil", conj(L), H_r, L) *)
Definition congr (d : nat) (L x : cmat) : cmat := fmul (K:=Cs) d (fmul (K:=Cs) d (fadj (K:=Cs) L) x) L.
Definition atb_congr (d : nat) (L : cmat) (a : atb) : atb := MkAtb (fs_map (congr d L) (tH a)) (fs_map (congr d L) (tS a)).
(** tight_binding_asym.py normalize l.694-717: hermitise the R=0 matrices, then congruence with L = ev diag(la^-1/2) ev^+ of S(0), then with
    the eigenvectors [ev2] of H(0) in some column order. eigh and the sort are parameters: [la], [ev], [ev2]. *)
Definition herm0 (p : list cmat) : list cmat :=
  match p with [] => [] | p0 :: p' => fscale (K:=Cs) chalf (fadd (K:=Cs) p0 (fadj (K:=Cs) p0)) :: p' end.
Definition inv_sqrt_mat (d : nat) (la : nat -> R) (ev : cmat) : cmat :=
  fmul (K:=Cs) d (fmul (K:=Cs) d ev (fun i j => if Nat.eqb i j then cre (/ sqrt (la i)) else cre 0)) (fadj (K:=Cs) ev).
Definition atb_normalize (d : nat) (la : nat -> R) (ev ev2 : cmat) (a : atb) : atb :=
  let a0 := MkAtb (MkHfs (hnb (tH a)) (herm0 (hH (tH a)))) (MkHfs (hnb (tS a)) (herm0 (hH (tS a)))) in
  atb_congr d ev2 (atb_congr d (inv_sqrt_mat d la ev) a0).

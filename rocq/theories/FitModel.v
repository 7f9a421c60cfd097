(** Model of the fits: optimize, optimize_cg, normalize, init_from_ref of BandStructureModel (bandstructure.py) and of
    AsymTightBindingModel (tight_binding_asym.py). Exact real/complex arithmetic; one iteration of each loop. The LAPACK
    routines (eigh, pinv, cholesky) are parameters. An array of np matrices is a function on the indices below np.
    Definitions only. *)
From Coq Require Import List Arith ZArith Reals Bool.
Import ListNotations.
From Verif Require Import SRing LMat FMat CplxR UrepModel FourierModel EigModel.
Local Open Scope R_scope.

Definition pars := nat -> cmat.
Definition cabs2 (z : cplx) : R := fst z * fst z + snd z * snd z.
(** (np.abs(f_i)**2).sum(1) for one sample, bandstructure.py l.355 *)
Definition sq_sum (np : nat) (f : nat -> cplx) : R := nsum (K:=Rs) np (fun i => cabs2 (f i)).
(** f_i[:, 0] /= 2, bandstructure.py l.301, l.452, tight_binding_asym.py l.381, l.570 *)
Definition half0 (c : nat -> cplx) (i : nat) : cplx := if Nat.eqb i 0 then cmul chalf (c 0%nat) else c i.
(** einsum("nkl,in->ikl") plus its conjugate transpose, bandstructure.py l.348-349, l.495-496, tight_binding_asym.py l.450-451, l.628-629 *)
Definition fit_sum (np : nat) (f : nat -> cplx) (P : pars) : cmat :=
  fsum (K:=Cs) (seq 0 np) (fun i => fscale (K:=Cs) (f i) (P i)).
Definition fit_H (np : nat) (f : nat -> cplx) (P : pars) : cmat :=
  let m := fit_sum np f P in fadd (K:=Cs) m (fadj (K:=Cs) m).
(** sum over the bands j of the window of g_j v_j v_j^+, bandstructure.py l.380-381, tight_binding_asym.py l.494 *)
Definition win_mat (V : cmat) (off ne : nat) (g : nat -> cplx) : cmat :=
  fun x y => nsum (K:=Cs) ne (fun j => cmul (V x (off + j)%nat) (cmul (g j) (cconj (V y (off + j)%nat)))).
Definition mean (n : nat) (w : nat -> R) : R := nsum (K:=Rs) n w / INR n.

(** one k sample: f_i (halved), the anti-coefficients c_i, the weight, the reference bands *)
Record smp := MkSmp { sf : nat -> cplx; sc : nat -> cplx; sw : R; sref : nat -> R }.
(** preparation of the samples: [c] are the values of the coefficient functions; with [Some C] (pinv(f_i.T), only for
    batch_div = 1) the pseudoinverse, otherwise the conjugate. bandstructure.py l.298-325 *)
Definition bsm_prep (np : nat) (C : option (nat -> nat -> cplx)) (ss : list ((nat -> cplx) * R * (nat -> R))) : list smp :=
  map (fun q => let f := half0 (fst (fst (snd q))) in
     MkSmp f (match C with
              | None => fun i => cconj (f i)
              | Some C => fun i => cmul (cmul (C (fst q) i) (cre (sq_sum np f))) (cre (INR (length ss)))     (* l.307, l.324-325 *)
              end) (snd (fst (snd q))) (snd (snd q)))
    (combine (seq 0 (length ss)) ss).
(** tight_binding_asym.py l.378-393; the weights of the samples are ignored (the argument is called _) *)
Definition asym_norm (np : nat) : R := INR np - 1 + 1 / 8.
Definition asym_prep (np : nat) (C : option (nat -> nat -> cplx)) (ss : list ((nat -> cplx) * R * (nat -> R))) : list smp :=
  map (fun q => let f := half0 (fst (fst (snd q))) in
     MkSmp f (match C with
              | None => fun i => cconj (f i)
              | Some C => fun i => cmul (cre ((if Nat.eqb i 0 then 2 else 1) * asym_norm np * INR (length ss))) (C (fst q) i)   (* l.388-393 *)
              end) (snd (fst (snd q))) (snd (snd q)))
    (combine (seq 0 (length ss)) ss).

Section Solver.
(** np.linalg.eigh; linalg.geigh as a function of H and the precomputed S of the sample *)
Variable eigh : cmat -> eigsys.

(** one iteration of BandStructureModel.optimize, bandstructure.py l.340-396, without the loss and the log; [bs] is the batch,
    [acc] is max_accel, [kz] keep_zeros, [tk] train_k0 *)
Definition bsm_reg (reg : R) (P : pars) : pars := fun i => if Nat.eqb i 0 then P i else fscale (K:=Cs) (cre reg) (P i).   (* l.344-345 *)
Definition bsm_win (np off ne : nat) (bw : nat -> R) (bs : list smp) (P : pars) (s : smp) : cmat :=
  let (la, V) := eigh (fit_H np (sf s) P) in
  win_mat V off ne (fun j => cre ((sref s j - la (off + j)%nat) * (bw j / mean ne bw)                        (* l.296, l.376 *)
      * (sw s / (sum_list (map sw bs) / INR (length bs)))                                                     (* l.340, l.378 *)
      * ((1 / 2 / INR (length bs)) / sq_sum np (sf s)))).                                                     (* l.379 *)
Definition bsm_add (np off ne : nat) (bw : nat -> R) (bs : list smp) (P : pars) : pars :=
  fun i => fsum (K:=Cs) bs (fun s => fscale (K:=Cs) (sc s i) (bsm_win np off ne bw bs P s)).                  (* l.382 *)
(** np.where(np.abs(P) < 1e-14, 0.0, 1.0) *)
Definition is_zero (z : cplx) : bool := Rltb (cabs2 z) (/ 10 ^ 28).
Definition bsm_step (np off ne : nat) (bw : nat -> R) (lr acc : R) (tk kz : bool) (symz : option (pars -> pars)) (reg : R)
    (bs : list smp) (P last : pars) : pars * pars :=
  let P1 := bsm_reg reg P in
  let a1 := bsm_add np off ne bw bs P1 in
  let a2 := match symz with Some z => z a1 | None => a1 end in                                                (* l.383-384 *)
  let a3 : pars := fun i => if negb tk && Nat.eqb i 0 then fzero (K:=Cs) else a2 i in                         (* l.385-387 *)
  let a4 : pars := fun i x y => if kz && is_zero (P1 i x y) then (0, 0) else a3 i x y in                      (* l.388-390 *)
  let a5 : pars := fun i => fadd (K:=Cs) (fscale (K:=Cs) (cre lr) (a4 i)) (fscale (K:=Cs) (cre (1 - 1 / acc)) (last i)) in   (* l.391-393 *)
  (fun i => fadd (K:=Cs) (P1 i) (a5 i), a5).                                                                  (* l.395-396 *)
(** the square of the loss of the batch times the number of samples, l.360 and self.error *)
Definition fit_loss (np off ne : nat) (bw : nat -> R) (bs : list smp) (P : pars) : R :=
  sum_list (map (fun s => let la := fst (eigh (fit_H np (sf s) P)) in
    nsum (K:=Rs) ne (fun j => ((sref s j - la (off + j)%nat) * bw j) * ((sref s j - la (off + j)%nat) * bw j))) bs).

(** BandStructureModel.normalize l.552-586. [symz] is self.symmetrizer *)
Definition herm_mat (x : cmat) : cmat := fscale (K:=Cs) chalf (fadd (K:=Cs) x (fadj (K:=Cs) x)).
Definition bsm_herm (b : bsm) : list cmat :=
  herm0 (if negb (bexp b) || binv b                                                                           (* l.562-567 *)
         then match bparams b with [] => [] | p0 :: p => p0 :: map herm_mat p end else bparams b).
(** l.577-583 for one i: with [x] = params[1][i-1, i] *)
Definition phase_col (i : nat) (z : cplx) (p : cmat) : cmat :=
  fun a b => let w := if Nat.eqb b i then cmul (p a b) z else p a b in if Nat.eqb a i then cmul w (cconj z) else w.
Definition phase_step (i : nat) (P : list cmat) : list cmat :=
  let x := nth 1 P fzero (i - 1)%nat i in
  let a := sqrt (cabs2 x) in
  if Rltb (/ 10 ^ 14) a then map (phase_col i (cmul (cconj x) (cre (/ a)))) P
  else match P with
       | p0 :: p1 :: p => p0 :: (fun a b => if Nat.eqb a (i - 1) && Nat.eqb b i then (0, 0) else p1 a b) :: p      (* l.586 *)
       | _ => P
       end.
Definition bsm_normalize (d : nat) (symz : option (list cmat -> list cmat)) (b : bsm) : bsm :=
  match symz with
  | Some z => set_params b (z (bparams b))                                                                    (* l.558-561 *)
  | None =>
    let P := bsm_herm b in
    let ev := snd (eigh (nth 0 P fzero)) in                                                                   (* l.571 *)
    let P := map (congr d ev) P in                                                                            (* l.573-574 *)
    set_params b (if Nat.ltb 1 (length P) then fold_left (fun P i => phase_step i P) (seq 1 (d - 1)) P else P)   (* l.576-586 *)
  end.
(** the loop of optimize, bandstructure.py l.328-396: the batches of the iterations with their max_accel (l.341) *)
Definition bsm_run (np off ne : nat) (bw : nat -> R) (lr : R) (tk kz : bool) (symz : option (pars -> pars)) (reg : R)
    (its : list (list smp * R)) (P : pars) : pars :=
  fst (fold_left (fun q it => bsm_step np off ne bw lr (snd it) tk kz symz reg (fst it) (fst q) (snd q)) its (P, fun _ => fzero (K:=Cs))).
(** optimize without a symmetrizer, l.329, l.331-402: normalize, the loop, normalize. [its] are the iterations until it stops. *)
Definition bsm_optimize (d off ne : nat) (bw : nat -> R) (lr : R) (tk kz : bool) (reg : R) (its : list (list smp * R)) (b : bsm) : bsm :=
  let b1 := bsm_normalize d None b in
  let np := length (bparams b1) in
  let P := bsm_run np off ne bw lr tk kz None reg its (fun l => nth l (bparams b1) fzero) in
  bsm_normalize d None (set_params b1 (map P (seq 0 np))).
End Solver.

(* ---- AsymTightBindingModel.optimize, tight_binding_asym.py l.356-543 ---- *)
Section Solver2.
(** linalg.geigh(H, S) for one sample *)
Variable geigh : cmat -> cmat -> eigsys.
(** band weights squared, divided by the norm, l.474, l.491-494; [S] is S(k) of the sample *)
Definition asym_win (np off ne : nat) (bw : nat -> R) (P : pars) (s : smp) (S : cmat) : cmat :=
  let (la, V) := geigh (fit_H np (sf s) P) S in
  win_mat V off ne (fun j => cre ((sref s j - la (off + j)%nat) * bw j * bw j / asym_norm np)).
Definition asym_add (np off ne : nat) (bw : nat -> R) (mask : option (nat -> nat -> nat -> bool)) (bs : list (smp * cmat)) (P : pars) : pars :=
  let a : pars := fun i => fsum (K:=Cs) bs (fun s => fscale (K:=Cs) (sc (fst s) i) (asym_win np off ne bw P (fst s) (snd s))) in   (* l.495 *)
  let a : pars := match mask with Some m => (fun i x y => if m i x y then a i x y else (0, 0)) | None => a end in   (* l.370, l.496-497 *)
  fun i => if Nat.eqb i 0 then fscale (K:=Cs) (cre (1 / 4)) (fadd (K:=Cs) (a 0%nat) (fadj (K:=Cs) (a 0%nat))) else a i.   (* l.499 *)
Fixpoint rmax (n : nat) (w : nat -> R) : R := match n with O => 0 | S O => w 0%nat | S n' => Rmax (rmax n' w) (w n') end.
(** one iteration, l.446-531, without use_lstsq_stepsize. (train_S is not modelled: l.454 reads S before its assignment, an
    UnboundLocalError.) *)
Definition asym_step (np off ne : nat) (bw : nat -> R) (lr acc reg : R) (mask : option (nat -> nat -> nat -> bool))
    (bs : list (smp * cmat)) (P last : pars) : pars * pars :=
  let P1 := bsm_reg reg P in                                                                                  (* l.446-447 *)
  let alpha := 1 / 2 / INR (length bs) / (rmax ne bw * rmax ne bw) in                                         (* l.366, l.516 *)
  let a : pars := fun i => fadd (K:=Cs) (fscale (K:=Cs) (cre (lr * alpha)) (asym_add np off ne bw mask bs P1 i))
                                  (fscale (K:=Cs) (cre (1 - 1 / acc)) (last i)) in                            (* l.518, l.527 *)
  (fun i => fadd (K:=Cs) (P1 i) (a i), a).
End Solver2.

(* ---- optimize_cg, bandstructure.py l.406-550, tight_binding_asym.py l.545-692 ---- *)
(** [E] is the preconditioner matrix (the unit matrix if there is none), l.471-487, asym l.599-614; precond_func:
    einsum("lk,kij->lij", E, x). (The call has out=x, the result overwriting the argument: NumPy buffers overlapping operands.) *)
Definition cg_pre (np : nat) (E : nat -> nat -> cplx) (x : pars) : pars := fun l => fsum (K:=Cs) (seq 0 np) (fun k => fscale (K:=Cs) (E l k) (x k)).
(** c_i_E_mat_c: einsum("nk,kl->nl", conj(f_i), conj(E)), l.475, asym l.602 *)
Definition cg_left (np : nat) (E : nat -> nat -> cplx) (f : nat -> cplx) (l : nat) : cplx :=
  nsum (K:=Cs) np (fun k => cmul (cconj (f k)) (cconj (E k l))).
(** onp,opab->nab with [f_i, conj(f_i)] and [x, x^+], l.530, asym l.671 *)
Definition cg_hx (np : nat) (f : nat -> cplx) (x : pars) : cmat :=
  fadd (K:=Cs) (fit_sum np f x) (fit_sum np (fun p => cconj (f p)) (fun p => fadj (K:=Cs) (x p))).
(** one sample of the linearisation: f_i, the eigenvalues and eigenvectors, the reference *)
Record cgsmp := MkCg { gf : nat -> cplx; gla : nat -> R; gV : cmat; gref : nat -> R }.
(** b, bandstructure.py l.519-521, tight_binding_asym.py l.655-657; [w] are the squared band weights *)
Definition cg_b (np off ne : nat) (w : nat -> R) (E : nat -> nat -> cplx) (ss : list cgsmp) : pars :=
  fun k => fsum (K:=Cs) ss (fun s => fscale (K:=Cs) (cg_left np E (gf s) k)
    (win_mat (gV s) off ne (fun j => cre ((gla s (off + j)%nat - gref s j) * w j)))).
(** A(x), bandstructure.py l.528-530, tight_binding_asym.py l.666-671; d is the size of the matrices *)
Definition cg_A (d np off ne : nat) (w : nat -> R) (E : nat -> nat -> cplx) (ss : list cgsmp) (x : pars) : pars :=
  let y := cg_pre np E (fun k => fscale (K:=Cs) (cre (/ INR (length ss))) (x k)) in
  fun k => fsum (K:=Cs) ss (fun s => fscale (K:=Cs) (cg_left np E (gf s) k)
    (win_mat (gV s) off ne (fun j => cmul (cre (w j)) (eig_el d (gV s) (cg_hx np (gf s) y) (off + j)%nat (off + j)%nat)))).
(** the parameters after the step with the result [x] of conjugate_gradient_solve, bandstructure.py l.532-542, tight_binding_asym.py l.675-683 (no symmetrizer, no keep_zeros) *)
Definition cg_update (np n : nat) (E : nat -> nat -> cplx) (x P : pars) : pars :=
  let P1 : pars := fun k => fadd (K:=Cs) (P k) (fscale (K:=Cs) (cre (- (1 / INR n))) (cg_pre np E x k)) in
  fun k => if Nat.eqb k 0 then herm_mat (P1 0%nat) else P1 k.

(* ---- init_from_ref ---- *)
(** bandstructure.py l.132-144: the list of the energies at k = 0 is continued by the first and the last one; [add - off] < 0
    gives no upper bands. *)
Definition ref_pad (off add : nat) (e : list R) : list R :=
  repeat (hd 0 e) off ++ e ++ repeat (last e 0) (add - off).
Definition diag_list (e : list R) : cmat := fun i j => if Nat.eqb i j then cre (nth i e 0) else (0, 0).
(** [rnd] are the random hermitian matrices *)
Definition bsm_init (b : bsm) (off add : nat) (e0 : list R) (rnd : list cmat) : bsm :=
  set_params b (diag_list (ref_pad off add e0) :: map (fscale (K:=Cs) (cre (1 / 1000))) rnd).
(** tight_binding_asym.py l.228-244 before normalize (C32); the scale is a thousandth of the difference of the largest and the
    smallest energy at k = 0 *)
Definition ref_width (e : list R) : R := fold_right Rmax (hd 0 e) e - fold_right Rmin (hd 0 e) e.
Definition asym_init (nbs : list rvec) (e0 : list R) (rnd : list cmat) : hfs :=
  MkHfs nbs (diag_list e0 :: map (fscale (K:=Cs) (cre (ref_width e0 * (1 / 1000)))) rnd).

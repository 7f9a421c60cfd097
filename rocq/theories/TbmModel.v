(** Model of the class TightBindingModel (tight_binding.py): constructor, Bloch matrix and its derivatives, conversion from
    and to Fourier coefficients, bands with derivatives, one step of the optimiser. Exact real/complex arithmetic, params
    are complex arrays. Definitions only. *)
From Coq Require Import List Arith ZArith Reals Bool.
Import ListNotations.
From Verif Require Import SRing LMat FMat CplxR SymModel HamModel UrepModel UrepModel2 FourierModel EigModel.
Local Open Scope R_scope.

(** the attributes neighbors and params (tight_binding.py l.21, l.38-44); sym.inversion is False, see [tbm_new] *)
Record tbm := MkTbm { tnb : list rvec; tparams : list cmat }.
(** the outcome of the constructor: a model, AssertionError, AttributeError (l.33: params is read before it is assigned),
    or the exception of UnitaryRepresentation.symmetrizer *)
Inductive tbres := TbOk (m : tbm) | TbAssert | TbAttr | TbSymz.
(** positions in units of a common denominator [q] *)
Definition zpos (q : R) (x : zvec) : rvec := fun a => IZR (nth a x 0%Z) / q.
(** tight_binding.py TightBindingModel.__init__ l.18-45. [params] is None or the size of the matrices and the list of
    matrices (square, three axes, so that the assertions l.40-41 hold); [dv] is 1/len(U) *)
Definition tbm_new (dv : cplx) (q : R) (r : urep Cs) (ns : list zvec) (params : option (nat * list cmat)) : tbres :=
  match ns with
  | [] => TbAssert                                                                            (* l.19 *)
  | x0 :: _ =>
    if negb (zero_b x0) then TbAssert                                                         (* l.20 *)
    else match urep_symmetrizer (K:=Cs) dv r ns with                                          (* l.24 *)
         | TOk _ =>
           if sinv (usym r) then TbAttr                                                       (* l.33 *)
           else let cnt := (length ns * 2 - 1)%nat in                                         (* l.29 *)
                match params with
                | Some (d, P) =>
                  if Nat.eqb (udim r) d && Nat.eqb (length P) cnt                             (* l.37, l.42 *)
                  then TbOk (MkTbm (map (zpos q) ns) P) else TbAssert
                | None => TbOk (MkTbm (map (zpos q) ns) (repeat (fzero (K:=Cs)) cnt))          (* l.44 *)
                end
         | _ => TbSymz
         end
  end.

(** tight_binding.py f_i l.163-186 without inversion; the parameters from number len(neighbors) on belong to the sines *)
Definition tbm_nb (m : tbm) (i : nat) : rvec :=
  nb (tnb m) (i mod length (tnb m) + i / length (tnb m))%nat.                                 (* l.174-175 *)
Definition tbm_fi (n : nat) (m : tbm) (k : rvec) (i : nat) : R :=
  if Nat.eqb i 0 then 1
  else let t := 2 * PI * dot n k (tbm_nb m i) in
       if Nat.ltb i (length (tnb m)) then cos t - 1 else sin t.
(** df_i l.189-214 *)
Definition tbm_dfi (n : nat) (m : tbm) (k : rvec) (a i : nat) : R :=
  if Nat.eqb i 0 then 0
  else let t := 2 * PI * dot n k (tbm_nb m i) in
       if Nat.ltb i (length (tnb m)) then 0 - 2 * PI * sin t * tbm_nb m i a else 0 + 2 * PI * cos t * tbm_nb m i a.
(** ddf_i l.216-242 *)
Definition tbm_ddfi (n : nat) (m : tbm) (k : rvec) (a b i : nat) : R :=
  if Nat.eqb i 0 then 0
  else let t := 2 * PI * dot n k (tbm_nb m i) in
       let rr := (2 * PI) * (2 * PI) * (tbm_nb m i a * tbm_nb m i b) in
       if Nat.ltb i (length (tnb m)) then 0 - cos t * rr else 0 - sin t * rr.
(** the loop over the parameters, l.259, l.278, l.297 *)
Definition psum (c : nat -> R) (P : list cmat) : cmat :=
  fsum (K:=Cs) (seq 0 (length P)) (fun i => fscale (K:=Cs) (cre (c i)) (nth i P fzero)).
(** f l.244-260, df l.263-279, ddf l.282-298 *)
Definition tbm_f (n : nat) (m : tbm) (k : rvec) : cmat := psum (tbm_fi n m k) (tparams m).
Definition tbm_df (n : nat) (m : tbm) (k : rvec) (a : nat) : cmat := psum (tbm_dfi n m k a) (tparams m).
Definition tbm_ddf (n : nat) (m : tbm) (k : rvec) (a b : nat) : cmat := psum (tbm_ddfi n m k a b) (tparams m).

(** set_from_complex l.440-452 *)
Definition set_from_complex (m : tbm) (H : list cmat) : tbm :=
  let n := length H in
  let A := map (fun h => fadd (K:=Cs) h (fadj (K:=Cs) h)) H in
  let B := map (fun h => fscale (K:=Cs) ci (fadd (K:=Cs) h (fneg (fadj (K:=Cs) h)))) H in
  let p := map (fscale (K:=Cs) chalf) (A ++ tl B) in                                           (* l.447, l.450 *)
  let p := add_first (fscale (K:=Cs) (cre 2) (fsum (K:=Cs) (firstn (n - 1) (tl p)) (fun x => x))) p in   (* l.451 *)
  MkTbm (tnb m) (match p with [] => [] | p0 :: p' => p0 :: map (fscale (K:=Cs) (cre 2)) p' end).   (* l.452 *)
(** params_complex l.428-437; [None] is the ValueError of l.435: the sum of 2n-2 and n-1 matrices is a broadcast, which
    numpy only allows if the second list has one matrix or both have the same length *)
Definition tbm_params_complex (m : tbm) : option (list cmat) :=
  let H := map (fscale (K:=Cs) chalf) (tparams m) in
  let h := ((length (tparams m) + 1) / 2)%nat in
  let x := tl H in let y := map (fscale (K:=Cs) ci) (skipn h H) in
  let r := match y with
           | [y0] => Some (map (fun z => fadd (K:=Cs) z y0) x)
           | _ => if Nat.eqb (length x) (length y) then Some (map (fun zz => fadd (K:=Cs) (fst zz) (snd zz)) (combine x y)) else None
           end in
  match r with Some x' => Some (firstn h (firstn 1 H ++ x')) | None => None end.

Section Solver.
(** np.linalg.eigh *)
Variable eigh : cmat -> eigsys.
(** bands_grad l.462-466, one sample *)
Definition tbm_bands_grad (d n : nat) (m : tbm) (k : rvec) : (nat -> R) * (nat -> nat -> R) :=
  let (la, V) := eigh (tbm_f n m k) in (la, fun a i => eig_diag d V (tbm_df n m k a) i).
(** bands_grad_hess l.470-486, one sample *)
Definition tbm_bands_grad_hess (d n : nat) (m : tbm) (k : rvec) : hessres :=
  pert_item d (eigh (tbm_f n m k)) (tbm_df n m k) (tbm_ddf n m k).

(** optimize l.309-386, one iteration without the printed loss. [c b i] is f_i at sample b of the batch of [nb] samples,
    [ref b j] the reference energy, [ne] reference bands from band [off] on, [w] the band weights. The symmetrizer is left
    out: it is the identity for every model that can be constructed. *)
(** l.374-376: V diag(w (ref - e)) V^+ over the bands of the window *)
Definition opt_diff (d : nat) (r : eigsys) (off ne : nat) (w ref : nat -> R) : cmat :=
  let (la, V) := r in
  fun x y => nsum (K:=Cs) ne (fun j => cmul (V x (off + j)%nat) (cmul (cre ((ref j - la (off + j)%nat) * w j)) (cconj (V y (off + j)%nat)))).
(** l.373, without inversion f_i_s is f_i_c *)
Definition opt_sc (nb np : nat) (c : nat -> R) : R :=
  2 / INR nb / nsum (K:=Rs) np (fun i => c i * c i + c i * c i).
Definition opt_step (d nb : nat) (c : nat -> nat -> R) (off ne : nat) (w : nat -> R) (ref : nat -> nat -> R) (lr : R) (train_k0 : bool)
    (P last : list cmat) : list cmat * list cmat :=
  let np := length P in
  let add := fun i => fsum (K:=Cs) (seq 0 nb) (fun b =>
    fscale (K:=Cs) (cre ((c b i * opt_sc nb np (c b)) * opt_sc nb np (c b)))                   (* l.346, l.377 *)
           (opt_diff d (eigh (psum (c b) P)) off ne w (ref b))) in
  let a := map (fun i => fadd (K:=Cs)
     (if negb train_k0 && Nat.eqb i 0 then fzero else fscale (K:=Cs) (cre lr) (add i))         (* l.379-381 *)
     (fscale (K:=Cs) (cre (1 - 1 / INR nb)) (nth i last fzero))) (seq 0 np) in                 (* l.383 *)
  (map (fun pa => fadd (K:=Cs) (fst pa) (snd pa)) (combine P a), a).                           (* l.385-386 *)
End Solver.

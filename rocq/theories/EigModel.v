(** Model of the eigenvalue derivatives: geigh, geigh_grad, eigh_grad, eigh_grad_hess (linalg.py) and the methods
    bands_grad, bands_grad_hess of the three model classes (bandstructure.py, tight_binding_asym.py, tight_binding.py).
    Exact complex arithmetic. Definitions only. The LAPACK eigensolvers are parameters: a solver returns the
    eigenvalues [la] and the matrix [V] of the eigenvectors (the columns); the properties say what is assumed of them. *)
From Coq Require Import List Arith Reals Bool.
Import ListNotations.
From Verif Require Import SRing LMat FMat CplxR UrepModel FourierModel.
Local Open Scope R_scope.

Definition Rltb (x y : R) : bool := if Rlt_dec x y then true else false.
(** result of np.linalg.eigh / scipy.linalg.eigh *)
Definition eigsys := ((nat -> R) * cmat)%type.

(** linalg.py l.157, l.175: einsum("...ji,...njk,...kl->...nil", conj(ev), dH, ev), the matrix elements in the eigenbasis *)
Definition eig_el (n : nat) (V X : cmat) : cmat := fmul (K:=Cs) n (fmul (K:=Cs) n (fadj (K:=Cs) V) X) V.
(** linalg.py l.104, l.106, l.128, l.160: the diagonal (einsum with equal last indices), real part *)
Definition eig_diag (n : nat) (V X : cmat) (i : nat) : R := fst (eig_el n V X i i).
(** square of np.linalg.norm of a matrix (Frobenius) *)
Definition frob2 (n : nat) (X : cmat) : R :=
  nsum (K:=Rs) n (fun i => nsum (K:=Rs) n (fun j => fst (X i j) * fst (X i j) + snd (X i j) * snd (X i j))).
Definition sum_list (l : list R) : R := fold_right Rplus 0 l.
(** S - np.eye(n) *)
Definition minus_id (X : cmat) : cmat := fun i j => csub (X i j) (fid (K:=Cs) i j).
(** linalg.py l.69, l.99: np.linalg.norm(S - eye) < 1e-8 over a whole batch; compared by the squares *)
Definition near_id (n : nat) (Ss : list cmat) : bool :=
  Rltb (sum_list (map (fun s => frob2 n (minus_id s)) Ss)) (/ 10 ^ 16).
(** linalg.py l.99: np.linalg.norm(dS) < 1e-8; a batch of M matrices each *)
Definition near_zero (n m : nat) (dSs : list (nat -> cmat)) : bool :=
  Rltb (sum_list (map (fun ds => nsum (K:=Rs) m (fun a => frob2 n (ds a))) dSs)) (/ 10 ^ 16).

Section Solver.
(** np.linalg.eigh and scipy.linalg.eigh(H, S) *)
Variable eigh : cmat -> eigsys.
Variable eigh2 : cmat -> cmat -> eigsys.

(** linalg.py geigh l.67-82: a batch (more than two axes), and a single matrix *)
Definition geigh_batch (n : nat) (HS : list (cmat * cmat)) : list eigsys :=
  if near_id n (map snd HS) then map (fun p => eigh (fst p)) HS
  else map (fun p => eigh2 (fst p) (snd p)) HS.
Definition geigh_one (H S : cmat) : eigsys := eigh2 H S.

(** one sample of the arguments of geigh_grad: H, S, dH, dS; [dH a] is the derivative for the variable [a] < [m] *)
Record gsmp := MkGsmp { gH : cmat; gS : cmat; gdH : nat -> cmat; gdS : nat -> cmat }.
(** bands, grads (variable, band), eigenvectors *)
Definition gradres := ((nat -> R) * (nat -> nat -> R) * cmat)%type.
(** linalg.py eigh_grad l.110-129 *)
Definition eigh_grad (n : nat) (H : cmat) (dH : nat -> cmat) : gradres :=
  let (la, V) := eigh H in (la, fun a i => eig_diag n V (dH a) i, V).
(** linalg.py l.102-107 for one sample *)
Definition geigh_grads (n : nat) (r : eigsys) (x : gsmp) : gradres :=
  let (la, V) := r in
  (la, fun a i => eig_diag n V (gdH x a) i - eig_diag n V (gdS x a) i * la i, V).
(** linalg.py geigh_grad l.95-107 for a batch *)
Definition geigh_grad_batch (n m : nat) (xs : list gsmp) : list gradres :=
  if near_id n (map gS xs) && near_zero n m (map gdS xs)
  then map (fun x => eigh_grad n (gH x) (gdH x)) xs
  else map (fun q => geigh_grads n (fst q) (snd q)) (combine (geigh_batch n (map (fun x => (gH x, gS x)) xs)) xs).
(** the same for a single matrix (no batch axis): [bands[:, None, :]] in l.106 is an IndexError ([None]) *)
Definition geigh_grad_one (n m : nat) (x : gsmp) : option gradres :=
  if near_id n [gS x] && near_zero n m [gdS x] then Some (eigh_grad n (gH x) (gdH x)) else None.

(* ---- eigh_grad_hess, linalg.py l.132-186 ---- *)
(** l.162-163: mask of the (nearly) equal eigenvalues *)
Definition emask (la : nat -> R) (eps : R) (k l : nat) : bool := Rltb (Rabs (la k - la l)) eps.
(** l.164: np.sum(np.triu(mask, k=1)) > 0 *)
Definition eselect (n : nat) (la : nat -> R) (eps : R) : bool :=
  existsb (fun k => existsb (fun l => Nat.ltb k l && emask la eps k l) (seq 0 n)) (seq 0 n).
(** l.172: np.argmin(np.abs(ev_dH) < 1e-7, axis=-2): the first row whose entry is not small, 0 if there is none *)
Definition big_entry (z : cplx) : bool := negb (Rltb (fst z * fst z + snd z * snd z) (/ 10 ^ 14)).
Definition first_row (n : nat) (E : cmat) (c : nat) : nat :=
  match find (fun r => big_entry (E r c)) (seq 0 n) with Some r => r | None => 0%nat end.
(** l.172: np.argsort of these rows. numpy's default sort is an insertion sort for up to 16 entries, which is stable;
    the model sorts stably for every size. *)
Fixpoint kinsert (key : nat -> nat) (x : nat) (l : list nat) : list nat :=
  match l with [] => [x] | y :: l' => if Nat.leb (key x) (key y) then x :: l else y :: kinsert key x l' end.
Definition ksort (key : nat -> nat) (l : list nat) : list nat := fold_right (kinsert key) [] l.
(** l.172-173: the columns in the sorted order *)
Definition sort_cols (n : nat) (E : cmat) : cmat :=
  let order := ksort (first_row n E) (seq 0 n) in fun r c => E r (nth c order 0%nat).
(** l.157, l.165-175: matrix elements of dH, in a second eigenbasis (of the masked matrix, for every variable on its
    own) if there are equal eigenvalues *)
Definition eh_els (n : nat) (la : nat -> R) (V : cmat) (eps : R) (dH : nat -> cmat) (p : nat) : cmat :=
  let X := eig_el n V (dH p) in
  if eselect n la eps then
    let E := snd (eigh (fun i j => if emask la eps i j then X i j else (0, 0))) in
    eig_el n (sort_cols n E) X
  else X.
(** l.178: grads; l.160, l.181-186: hess1 - 2 * hess2. Entries outside the mask have |diff| >= epsilon, where
    diff + 1e-40 rounds to diff; entries in the mask are 0. *)
Definition hessres := ((nat -> R) * (nat -> nat -> R) * (nat -> nat -> nat -> R))%type.
Definition eh_item (n : nat) (eps : R) (H : cmat) (dH : nat -> cmat) (ddH : nat -> nat -> cmat) : hessres :=
  let (la, V) := eigh H in
  let X := eh_els n la V eps dH in
  (la,
   fun p i => fst (X p i i),
   fun p q i => eig_diag n V (ddH p q) i -
     2 * fst (nsum (K:=Cs) n (fun k => cmul (X p i k)
               (if emask la eps k i then (0, 0) else cmul (X q k i) (cre (/ (la k - la i))))))).
(** eigh_grad_hess for a batch: the samples do not influence each other *)
Definition eigh_grad_hess_batch (n : nat) (eps : R) (xs : list (cmat * (nat -> cmat) * (nat -> nat -> cmat))) : list hessres :=
  map (fun x => eh_item n eps (fst (fst x)) (snd (fst x)) (snd x)) xs.
(** eigh_grad_hess for a single matrix: with equal eigenvalues the assertion l.169 fails ([None]: dH_ev[True] has one
    axis more than dH_ev) *)
Definition eigh_grad_hess_one (n : nat) (eps : R) (H : cmat) (dH : nat -> cmat) (ddH : nat -> nat -> cmat) : option hessres :=
  if eselect n (fst (eigh H)) eps then None else Some (eh_item n eps H dH ddH).

(* ---- the perturbation sum of tight_binding_asym.py l.806-824 and tight_binding.py l.470-486 ---- *)
(** l.821 (tight_binding.py l.484): division by bands_i - bands_k + 1e-40: the difference itself unless it is 0 *)
Definition pert_div (x : R) : R := if Req_EM_T x 0 then 10 ^ 40 else / x.
Definition pert_item (n : nat) (r : eigsys) (df : nat -> cmat) (ddf : nat -> nat -> cmat) : hessres :=
  let (la, V) := r in
  let X := fun p => eig_el n V (df p) in
  (la,
   fun p i => fst (X p i i),
   fun p q i => eig_diag n V (ddf p q) i -
     2 * fst (nsum (K:=Cs) n (fun k => cmul (X p i k)
               (if Nat.eqb k i then (0, 0) else cmul (X q k i) (cre (pert_div (la k - la i))))))).

(* ---- the methods ---- *)
(** bandstructure.py BandStructureModel.bands_grad l.769-779, one sample; [d] bands, [n] components of k *)
Definition bsm_bands_grad (d n : nat) (b : bsm) (k : rvec) : (nat -> R) * (nat -> nat -> R) :=
  fst (eigh_grad d (bsm_f n b k) (bsm_df n b k)).
(** bandstructure.py bands_grad_hess l.781-791, one sample *)
Definition bsm_bands_grad_hess (d n : nat) (b : bsm) (k : rvec) : hessres :=
  eh_item d (/ 10 ^ 6) (bsm_f n b k) (bsm_df n b k) (bsm_ddf n b k).
(** tight_binding_asym.py AsymTightBindingModel.bands_grad l.785-795, a list of samples *)
Definition asym_bands_grad (d n : nat) (h s : hfs) (ks : list rvec) : list ((nat -> R) * (nat -> nat -> R)) :=
  map fst (geigh_grad_batch d n (map (fun k => MkGsmp (fs_f n h k) (fs_f n s k) (fs_df n h k) (fs_df n s k)) ks)).
(** tight_binding_asym.py bands_grad_hess l.797-824, a list of samples *)
Definition asym_bands_grad_hess (d n : nat) (h s : hfs) (ks : list rvec) : list hessres :=
  map (fun q => pert_item d (fst q) (fs_df n h (snd q)) (fs_ddf n h (snd q)))
      (combine (geigh_batch d (map (fun k => (fs_f n h k, fs_f n s k)) ks)) ks).
End Solver.

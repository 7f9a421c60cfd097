(** Properties C122-C129: binary and text files of Quantum ESPRESSO (qespresso_interface.py l.233-282,
    l.431-483, l.574-603, l.711-860, l.1099-1113, l.1198-1205). *)
From Coq Require Import Reals List ZArith Bool String Arith Lia Lra Psatz Permutation.
From Verif Require Import NbrModel LatModel LatProps SupercellProofs SRing LMat SymModel SymModel3 QeModel QeProps.
Import ListNotations.
Local Open Scope nat_scope.

(* ------------------------------------------------------------------ *)
(** ** Fortran records: four bytes with the length before and after the data *)
Definition record (n : Z) (payload : list cell) : list cell := CI n :: payload ++ [CI n].
Definition w_v3 (v : vec) : list cell := let '(x, y, z) := v in w_f64 x ++ w_f64 y ++ w_f64 z.
Definition w_lat (l : lattice) : list cell := let '(u, v, w) := l in w_v3 u ++ w_v3 v ++ w_v3 w.

Ltac step := unfold bind at 1.
Section Laws.
Variable as_int : cell -> Z.
Variable glue : cell -> cell -> R.
Hypothesis HI : forall z, as_int (CI z) = z.
Hypothesis HG : forall x, glue (CL x) (CH x) = x.

Lemma rd_i32 z s : i32 as_int (CI z :: s) = Some (z, s).
Proof. unfold i32. rewrite HI. reflexivity. Qed.
Lemma rd_f64 x s : f64 glue (CL x :: CH x :: s) = Some (x, s).
Proof. unfold f64. rewrite HG. reflexivity. Qed.
Lemma rd_v3 v s : v3 glue (w_v3 v ++ s) = Some (v, s).
Proof. destruct v as [[x y] z]. unfold v3, bind, w_v3, w_f64. cbn [app]. rewrite !rd_f64. reflexivity. Qed.
Lemma rd_c128 z s : c128 glue (w_c128 z ++ s) = Some (z, s).
Proof. destruct z as [x y]. unfold c128, bind, w_c128, w_f64. cbn [app fst snd]. rewrite !rd_f64. reflexivity. Qed.
Lemma rd_many {A} (w : A -> list cell) (r : rd A) (l : list A) s : (forall a t, r (w a ++ t) = Some (a, t)) ->
  many r (List.length l) (flat_map w l ++ s) = Some (l, s).
Proof.
  intros H. induction l as [|a l IH]; [reflexivity|]. cbn [List.length many flat_map]. unfold bind at 1. rewrite <- app_assoc, H.
  unfold bind at 1. rewrite IH. reflexivity.
Qed.
Lemma rd_ints l s : many (i32 as_int) (List.length l) (map CI l ++ s) = Some (l, s).
Proof.
  replace (map CI l) with (flat_map (fun z => [CI z]) l) by (induction l; [reflexivity|cbn; f_equal; assumption]).
  apply (rd_many (fun z => [CI z])). intros a t. apply rd_i32.
Qed.

Lemma chunks_concat {A} n (rows : list (list A)) fuel : 0 < n -> (forall r, In r rows -> List.length r = n) ->
  List.length rows <= fuel -> chunks fuel n (List.concat rows) = rows.
Proof.
  intros Hn. revert fuel. induction rows as [|r rows IH]; intros fuel HR Hf; [destruct fuel; reflexivity|].
  destruct fuel as [|f]; [cbn in Hf; lia|]. cbn [List.concat]. assert (Lr : List.length r = n) by (apply HR; left; reflexivity).
  cbn [chunks]. destruct (r ++ List.concat rows) eqn:E.
  - apply app_eq_nil in E. destruct E as [-> _]. cbn in Lr. lia.
  - rewrite <- E. f_equal.
    + rewrite firstn_app, Lr, Nat.sub_diag. cbn [firstn]. rewrite app_nil_r. apply firstn_all2. lia.
    + rewrite skipn_app, Lr, Nat.sub_diag. cbn [skipn]. rewrite skipn_all2 by lia. cbn [app]. apply IH; [intros; apply HR; right; assumption|cbn in Hf; lia].
Qed.
Lemma reshape_concat {A} n (rows : list (list A)) : 0 < n -> (forall r, In r rows -> List.length r = n) ->
  reshape2 n (List.concat rows) = rows.
Proof.
  intros Hn HR. apply chunks_concat; [exact Hn|exact HR|]. induction rows as [|r rows IH]; [reflexivity|].
  cbn [List.concat]. rewrite app_length. cbn [List.length]. rewrite (HR r (or_introl eq_refl)).
  specialize (IH (fun r Hr => HR r (or_intror Hr))). lia.
Qed.
Lemma length_concat3 {A} n (rows : list (list A)) : (forall r, In r rows -> List.length r = n) -> List.length (List.concat rows) = n * List.length rows.
Proof.
  induction rows as [|r rows IH]; intros HR; [cbn; lia|]. cbn [List.concat List.length]. rewrite app_length, (HR r (or_introl eq_refl)), IH; [lia|].
  intros; apply HR; right; assumption.
Qed.

(* ------------------------------------------------------------------ *)
(** ** C122: wave functions *)
(** the file wfcN.dat as documented: [rows] are the records of the bands, each with npol * igwx numbers *)
Definition wfc_file (m1 m2 m3 m4 m5 ik ispin gam ngw : Z) (xk : vec) (scalef : R) (npol : nat) (B : lattice) (mill : list (list Z))
    (rows : list (list (R * R))) : list cell :=
  record m1 ([CI ik] ++ w_v3 xk ++ [CI ispin; CI gam] ++ w_f64 scalef) ++
  record m2 [CI ngw; CI (Z.of_nat (List.length mill)); CI (Z.of_nat npol); CI (Z.of_nat (List.length rows))] ++
  record m3 (w_lat B) ++ record m4 (map CI (List.concat mill)) ++
  flat_map (fun r => record m5 (flat_map w_c128 r)) rows.

Definition rd_row (n : nat) : rd (list (R * R)) := bind (many (c128 glue) n) (fun row => bind (skip 2) (fun _ => ret row)).
Lemma rd_row_ok r s : rd_row (List.length r) (flat_map w_c128 r ++ s) = Some (r, skipn 2 s).
Proof. unfold rd_row, bind at 1. rewrite (rd_many w_c128 (c128 glue)) by (intros; apply rd_c128). reflexivity. Qed.
Lemma rd_rows m5 n rows : (forall r, In r rows -> List.length r = n) -> forall s,
  exists s', many (rd_row n) (List.length rows)
    (match rows with [] => s | r :: rs => flat_map w_c128 r ++ CI m5 :: flat_map (fun r => record m5 (flat_map w_c128 r)) rs ++ s end) = Some (rows, s').
Proof.
  induction rows as [|r rs IH]; intros HR s; [eexists; reflexivity|].
  cbn [List.length many]. unfold bind at 1. destruct (HR r (or_introl eq_refl)). rewrite rd_row_ok.
  destruct rs as [|r' rs'].
  - cbn [List.length many]. unfold bind, ret. eexists. reflexivity.
  - cbn [flat_map]. unfold record at 1. cbn [app skipn]. rewrite <- !app_assoc. cbn [app].
    destruct (IH (fun x Hx => HR x (or_intror Hx)) s) as (s' & E). exists s'. unfold bind at 1. rewrite E. reflexivity.
Qed.

Lemma rd_wfc m1 m2 m3 m4 m5 ik ispin gam ngw xk scalef npol B mill rows :
  (forall g, In g mill -> List.length g = 3) -> (forall r, In r rows -> List.length r = npol * List.length mill) ->
  exists s, read_wfc as_int glue (wfc_file m1 m2 m3 m4 m5 ik ispin gam ngw xk scalef npol B mill rows) =
    Some (mkWfc ik xk B mill (map (reshape2 npol) rows), s).
Proof.
  intros HM HR. unfold read_wfc, wfc_file, record.
  step. unfold skip at 1. cbn [app skipn]. step. rewrite rd_i32. step. rewrite <- !app_assoc, rd_v3. cbn [app]. step. rewrite rd_i32. step. rewrite rd_i32.
  unfold w_f64 at 1. cbn [app]. step. rewrite rd_f64. step. unfold skip at 1. cbn [skipn]. step. rewrite rd_i32. step. rewrite rd_i32.
  step. rewrite rd_i32. step. rewrite rd_i32. step. unfold skip at 1. cbn [skipn]. rewrite !Nat2Z.id. destruct B as [[u v] w]. unfold w_lat. rewrite <- !app_assoc. step. rewrite rd_v3.
  step. rewrite rd_v3. step. rewrite rd_v3. cbn [app]. step. unfold skip at 1. cbn [skipn]. step. rewrite <- (length_concat3 3 mill HM), rd_ints.
  step. unfold skip at 1.
  destruct (rd_rows m5 (npol * List.length mill) rows HR []) as (s & E).
  destruct rows as [|r rs].
  - cbn [flat_map app skipn]. step. cbn [List.length many] in *. unfold ret at 1. exists []. rewrite reshape_concat by (assumption || lia). reflexivity.
  - cbn [flat_map app skipn]. step. rewrite app_nil_r in E. unfold rd_row, record in E. rewrite <- !app_assoc. cbn [app]. rewrite E. exists s.
    rewrite reshape_concat by (assumption || lia). reflexivity.
Qed.
End Laws.

(** the coefficient of plane wave [g] with spinor component [s] in band [b] is [c b s g]; pw.x writes the
    components one after the other *)
Definition qe_rows (nb npol ng : nat) (c : nat -> nat -> nat -> R * R) : list (list (R * R)) :=
  map (fun b => flat_map (fun s => map (c b s) (seq 0 ng)) (seq 0 npol)) (seq 0 nb).
Record wdata := mkW { dXk : nat -> vec; dMill : nat -> list (list Z); dCoef : nat -> nat -> nat -> nat -> R * R }.
Definition wfile (d : wdata) (m1 m2 m3 m4 m5 ispin gam ngw : Z) (scalef : R) (nb npol : nat) (B : lattice) (k : nat) : list cell :=
  wfc_file m1 m2 m3 m4 m5 (Z.of_nat k) ispin gam ngw (dXk d k) scalef npol B (dMill d k) (qe_rows nb npol (List.length (dMill d k)) (dCoef d k)).

Lemma qe_rows_length nb npol ng c r : In r (qe_rows nb npol ng c) -> List.length r = npol * ng.
Proof.
  intros H. apply in_map_iff in H. destruct H as (b & <- & _). rewrite <- (seq_length npol 0) at 2.
  induction (seq 0 npol) as [|s l IH]; [reflexivity|]. cbn [flat_map List.length]. rewrite app_length, map_length, seq_length, IH. lia.
Qed.
Lemma reshape_1 {A} (l : list A) : reshape2 1 l = map (fun x => [x]) l.
Proof.
  replace l with (List.concat (map (fun x => [x]) l)) at 1 by (induction l; [reflexivity|cbn; f_equal; assumption]).
  apply reshape_concat; [lia|]. intros r H. apply in_map_iff in H. destruct H as (x & <- & _). reflexivity.
Qed.
Lemma lat_eqb_refl B : lat_eqb B B = true.
Proof.
  destruct B as [[[[a1 a2] a3] [[b1 b2] b3]] [[c1 c2] c3]]. unfold lat_eqb. cbn [forallb fst snd].
  repeat match goal with |- context [Req_EM_T ?x ?x] => destruct (Req_EM_T x x) as [_|C]; [|exfalso; apply C; reflexivity] end. reflexivity.
Qed.
Lemma all_some_some {A B} (f : A -> B) l : all_some (map (fun x => Some (f x)) l) = Some (map f l).
Proof. induction l as [|x r IH]; [reflexivity|]. cbn [map all_some]. rewrite IH. reflexivity. Qed.

(** The files are found in any order; the results are ordered by the index of the k point, k is in crystal
    coordinates, mill as in the file, and evc[k][band][G][0] is the coefficient (npol = 1). *)
Theorem C122_wavefunctions_partial : forall as_int glue, (forall z, as_int (CI z) = z) -> (forall x, glue (CL x) (CH x) = x) ->
  forall d m1 m2 m3 m4 m5 ispin gam ngw scalef nb B N order, det3 B <> 0%R -> 0 < N -> Permutation order (seq 1 N) ->
  (forall k g, In g (dMill d k) -> List.length g = 3) ->
  exists ws, all_some (map (fun k => option_map fst (read_wfc as_int glue (wfile d m1 m2 m3 m4 m5 ispin gam ngw scalef nb 1 B k))) order) = Some ws /\
  exists ks, collect_wfc ws = Some (ks, map (dMill d) (seq 1 N),
      map (fun k => map (fun b => map (fun g => [dCoef d k b 0 g]) (seq 0 (List.length (dMill d k)))) (seq 0 nb)) (seq 1 N)) /\
    Forall2 (fun k c => vcomb B c = dXk d k) (seq 1 N) ks.
Proof.
  intros as_int glue HI HG d m1 m2 m3 m4 m5 ispin gam ngw scalef nb B N order HB HN HP HM.
  set (pw := fun k => mkWfc (Z.of_nat k) (dXk d k) B (dMill d k) (map (fun b => map (fun g => [dCoef d k b 0 g]) (seq 0 (List.length (dMill d k)))) (seq 0 nb))).
  assert (E : forall k, option_map fst (read_wfc as_int glue (wfile d m1 m2 m3 m4 m5 ispin gam ngw scalef nb 1 B k)) = Some (pw k)).
  { intros k. destruct (rd_wfc as_int glue HI HG m1 m2 m3 m4 m5 (Z.of_nat k) ispin gam ngw (dXk d k) scalef 1 B (dMill d k) (qe_rows nb 1 (List.length (dMill d k)) (dCoef d k))) as (s & Es).
    - apply HM.
    - intros r Hr. apply (qe_rows_length nb 1 _ _ _ Hr).
    - unfold wfile. rewrite Es. cbn [option_map fst]. f_equal. unfold pw. f_equal. unfold qe_rows. rewrite map_map. apply map_ext. intros b.
      cbn [seq flat_map]. rewrite app_nil_r, reshape_1, map_map. reflexivity. }
  exists (map pw order). split; [rewrite <- all_some_some; f_equal; apply map_ext; exact E|].
  assert (L : List.length order = N) by (apply Permutation_length in HP; rewrite seq_length in HP; exact HP).
  assert (HP' : Permutation order (seq 1 (List.length order))) by (rewrite L; exact HP).
  unfold collect_wfc. destruct order as [|k0 ord]; [cbn in L; lia|].
  remember (map pw (k0 :: ord)) as fs eqn:Efs. destruct fs as [|w0 fs]; [discriminate|]. assert (Ew := f_equal (hd w0) Efs). cbn [hd map] in Ew. rewrite Efs, Ew. clear Efs Ew w0 fs.
  assert (Ei : map (fun g => Z.to_nat (wIk g)) (map pw (k0 :: ord)) = k0 :: ord).
  { rewrite map_map. cbn [pw wIk]. transitivity (map (fun x : nat => x) (k0 :: ord)); [|apply map_id]. apply map_ext. intros a. apply Nat2Z.id. }
  cbv zeta. rewrite Ei.
  assert (Ef : forallb (fun g => lat_eqb (wB (pw k0)) (wB g)) (map pw (k0 :: ord)) = true).
  { apply forallb_forall. intros g Hg. apply in_map_iff in Hg. destruct Hg as (k & <- & _). apply lat_eqb_refl. }
  rewrite Ef. rewrite !map_map.
  rewrite (C81_order vec (wXk (pw k0)) (fun k => wXk (pw k)) (k0 :: ord) HP').
  rewrite (C81_order _ [] (fun k => wMill (pw k)) (k0 :: ord) HP').
  rewrite (C81_order _ [] (fun k => wEvc (pw k)) (k0 :: ord) HP'). rewrite L.
  destruct (all_some_map (fun k => vsolve B (dXk d k)) (fun k c => vcomb B c = dXk d k) (seq 1 N)) as (ks & Ek & Fk).
  { intros k _. apply vsolve_spec, HB. }
  exists ks. rewrite map_map. cbn [pw wXk wB]. rewrite Ek. split; [reflexivity|exact Fk].
Qed.
Print Assumptions C122_wavefunctions_partial.

Definition std_int (c : cell) : Z := match c with CI z => z | _ => 0%Z end.
Definition std_glue (a b : cell) : R := match a, b with CL x, CH _ => x | _, _ => 0%R end.
Definition demo : wdata := mkW (fun k => if Nat.eqb k 1 then (0, 0, 0)%R else (0, 0, -1/2)%R) (fun k => [[0;0;0]; [1;0;-1]]%Z) (fun k b s g => (INR (k + b), INR (2 * s + g))).
Example C122_ex : (forall z, std_int (CI z) = z) /\ (forall x, std_glue (CL x) (CH x) = x) /\ det3 fccB <> 0%R /\ Permutation [2; 1] (seq 1 2) /\
  exists w s, read_wfc std_int std_glue (wfile demo 44 16 72 24 32 1 0 2 1%R 2 1 fccB 2) = Some (w, s) /\ wIk w = 2%Z /\
    nth 1 (nth 0 (wEvc w) []) [] = [(INR 2, INR 1)].
Proof.
  split; [reflexivity|]. split; [reflexivity|]. split; [cbn; lra|]. split; [apply perm_swap|].
  do 2 eexists. split; [reflexivity|]. split; reflexivity.
Qed.

(** spinors (npol = 2): the components come one after the other in the file, the reshape to (band, G, spin)
    reads them alternating ("TODO is this order correct???", l.783) *)
Theorem C122_spinor_refuted : exists w s, read_wfc std_int std_glue (wfile demo 44 16 72 24 64 1 0 2 1%R 1 2 fccB 2) = Some (w, s) /\
  nth 1 (nth 0 (nth 0 (wEvc w) []) []) (0, 0)%R = dCoef demo 2 0 0 1 /\ dCoef demo 2 0 0 1 <> dCoef demo 2 0 1 0.
Proof.
  do 2 eexists. split; [reflexivity|]. split; [reflexivity|]. cbn. intros C. injection C as C. lra.
Qed.
Print Assumptions C122_spinor_refuted.

(* ------------------------------------------------------------------ *)
(** ** C123: charge density *)
Definition rho_file (m1 m2 m3 m4 gam : Z) (B : lattice) (mill : list (list Z)) (rhos : list (list (R * R))) : list cell :=
  record m1 [CI gam; CI (Z.of_nat (List.length mill)); CI (Z.of_nat (List.length rhos))] ++ record m2 (w_lat B) ++
  record m3 (map CI (List.concat mill)) ++ flat_map (fun r => record m4 (flat_map w_c128 r)) rhos.

Fixpoint shifted (g : R) (r : list (R * R)) : list (R * R) :=
  match r with [] => [] | (x, y) :: t => (g, x) :: shifted y t end.
Lemma rd_shifted glue (HG : forall x, glue (CL x) (CH x) = x) r : forall a b s,
  exists a' b', many (c128 glue) (List.length r) (a :: b :: flat_map w_c128 r ++ s) = Some (shifted (glue a b) r, a' :: b' :: s).
Proof.
  induction r as [|[x y] r IH]; intros a b s; [do 2 eexists; reflexivity|]. cbn [List.length many flat_map]. unfold bind at 1.
  unfold c128 at 1, bind at 1 2. unfold f64 at 1. unfold w_c128 at 1, w_f64. cbn [fst snd app]. unfold f64 at 1. rewrite HG. unfold ret at 1.
  destruct (IH (CL y) (CH y) s) as (a' & b' & E). exists a', b'. unfold bind at 1. rewrite E. unfold ret. cbn [shifted]. rewrite HG. reflexivity.
Qed.
Lemma shifted_nth r : forall g j, S j < List.length r -> nth (S j) (map fst (shifted g r)) 0%R = snd (nth j r (0, 0)%R).
Proof.
  induction r as [|[x y] r IH]; intros g j Hj; [cbn in Hj; lia|]. cbn [shifted map nth fst List.length] in *.
  destruct j as [|j].
  - destruct r as [|[u v] r]; [cbn in Hj; lia|]. reflexivity.
  - rewrite IH by lia. reflexivity.
Qed.

(** What is returned for every file: the vectors G in cartesian coordinates, and from the second entry on the
    imaginary part of the previous coefficient (the two record markers between mill and the density are not
    skipped, and the array holds floats). *)
Theorem C123_shift : forall as_int glue, (forall z, as_int (CI z) = z) -> (forall x, glue (CL x) (CH x) = x) ->
  forall m1 m2 m3 m4 gam B mill rhos, (forall g, In g mill -> List.length g = 3) -> (forall r, In r rhos -> List.length r = List.length mill) ->
  exists gs rho s, read_rho as_int glue (rho_file m1 m2 m3 m4 gam B mill rhos) = Some ((gs, rho), s) /\
    gs = map (fun m => vcomb B (ivec (nth 0 m 0%Z) (nth 1 m 0%Z) (nth 2 m 0%Z))) mill /\ List.length rho = List.length rhos /\
    forall i j, i < List.length rhos -> S j < List.length mill -> nth (S j) (nth i rho []) 0%R = snd (nth j (nth i rhos []) (0, 0)%R).
Proof.
  intros as_int glue HI HG m1 m2 m3 m4 gam B mill rhos HM HR. unfold read_rho, rho_file, record.
  step. unfold skip at 1. cbn [app skipn]. step. rewrite rd_i32 by exact HI. step. rewrite rd_i32 by exact HI. step. rewrite rd_i32 by exact HI.
  step. unfold skip at 1. cbn [app skipn]. rewrite !Nat2Z.id. destruct B as [[u v] w]. unfold w_lat. rewrite <- !app_assoc.
  step. rewrite rd_v3 by exact HG. step. rewrite rd_v3 by exact HG. step. rewrite rd_v3 by exact HG. cbn [app]. step. unfold skip at 1. cbn [skipn].
  step. rewrite <- (length_concat3 3 mill HM), rd_ints by exact HI. rewrite reshape_concat by (assumption || lia).
  assert (T : forall rows, (forall r, In r rows -> List.length r = List.length mill) -> forall a, exists rho s,
    many (bind (many (c128 glue) (List.length mill)) (fun row => bind (skip 2) (fun _ => ret (map fst row)))) (List.length rows)
      (CI a :: flat_map (fun r => CI m4 :: flat_map w_c128 r ++ [CI m4]) rows) = Some (rho, s) /\ List.length rho = List.length rows /\
    forall i j, i < List.length rows -> S j < List.length mill -> nth (S j) (nth i rho []) 0%R = snd (nth j (nth i rows []) (0, 0)%R)).
  { induction rows as [|r rows IH]; intros Hr a; [do 2 eexists; split; [reflexivity|]; split; [reflexivity|]; intros i j C; cbn in C; lia|].
    assert (Lr := Hr r (or_introl eq_refl)).
    destruct (IH (fun x Hx => Hr x (or_intror Hx)) m4) as (rho & s & E & El & En).
    cbn [flat_map app List.length many]. rewrite <- app_assoc. cbn [app].
    destruct (rd_shifted glue HG r (CI a) (CI m4) (CI m4 :: flat_map (fun r => CI m4 :: flat_map w_c128 r ++ [CI m4]) rows)) as (a' & b' & Es).
    exists (map fst (shifted (glue (CI a) (CI m4)) r) :: rho), s. unfold bind at 1. unfold bind at 1. rewrite Lr in Es. rewrite Es.
    unfold bind at 1, skip at 1, ret at 1. cbn [skipn]. unfold bind at 1. rewrite E. split; [reflexivity|]. split; [cbn; lia|].
    intros i j Hi Hj. destruct i as [|i]; [cbn [nth]; apply shifted_nth; lia|]. cbn [nth]. apply En; [cbn in Hi; lia|exact Hj]. }
  destruct (T rhos HR m3) as (rho & s & E & El & En). step. rewrite E. do 3 eexists. split; [reflexivity|]. split; [reflexivity|]. split; [exact El|exact En].
Qed.
Print Assumptions C123_shift.

(** bcc: a real density with the coefficients 2 and 1 is read as [_; 0], and G = b1 is not an integer vector *)
Definition bccB : lattice := ((1/2, 1/2, 0), (-1/2, 1/2, 0), (0, 0, 1))%R.
Definition rho_demo : list (list (R * R)) := [[(2, 0); (1, 0)]%R].
Theorem C123_density_refuted : exists gs rho s, read_rho std_int std_glue (rho_file 12 72 24 32 0 bccB [[0;0;0]; [1;0;0]]%Z rho_demo) = Some ((gs, rho), s) /\
  nth 1 gs (0, 0, 0)%R = (1/2, 1/2, 0)%R /\ nth 1 (nth 0 rho []) 0%R = 0%R /\ fst (nth 1 (nth 0 rho_demo []) (0, 0)%R) = 1%R.
Proof.
  destruct (C123_shift std_int std_glue) with (m1 := 12%Z) (m2 := 72%Z) (m3 := 24%Z) (m4 := 32%Z) (gam := 0%Z) (B := bccB) (mill := [[0;0;0]; [1;0;0]]%Z) (rhos := rho_demo) as (gs & rho & s & E & Eg & El & En);
    [reflexivity|reflexivity|intros g [<-|[<-|[]]]; reflexivity|intros g [<-|[]]; reflexivity|].
  exists gs, rho, s. split; [exact E|]. split; [|split].
  - rewrite Eg. cbn [map nth]. unfold vcomb, bccB, ivec. trip; lra.
  - rewrite (En 0 0) by (cbn; lia). reflexivity.
  - reflexivity.
Qed.
Print Assumptions C123_density_refuted.

(* ------------------------------------------------------------------ *)
(** ** C124: filband files with wrapped lines *)
Theorem C124_bandx : forall (F : Type) nb (rows : list (list F * list F)) lines,
  (forall k b, In (k, b) rows -> List.length k = 3 /\ List.length b = nb) ->
  List.concat lines = List.concat (map (fun p => fst p ++ snd p) rows) ->
  read_bandx_raw nb lines = Some (map fst rows, map snd rows).
Proof.
  intros F nb rows lines H E. unfold read_bandx_raw. rewrite E.
  assert (R : forall r, In r (map (fun p => fst p ++ snd p) rows) -> List.length r = 3 + nb).
  { intros r Hr. apply in_map_iff in Hr. destruct Hr as ([k b] & <- & Hp). cbn [fst snd]. destruct (H k b Hp) as (A & B). rewrite app_length, A, B. reflexivity. }
  rewrite (length_concat3 _ _ R). replace (Nat.eqb _ 0) with true by (symmetry; apply Nat.eqb_eq; rewrite Nat.mul_comm; apply Nat.mod_mul; lia).
  rewrite (reshape_concat (3 + nb) _ (Nat.lt_0_succ _) R), !map_map. f_equal. f_equal; apply map_ext_in; intros [k b] Hp; destruct (H k b Hp) as (A & B); cbn [fst snd].
  - rewrite firstn_app, A, Nat.sub_diag. rewrite firstn_O, app_nil_r, <- A. apply firstn_all.
  - rewrite skipn_app, A, Nat.sub_diag. rewrite <- A, skipn_all. reflexivity.
Qed.
Print Assumptions C124_bandx.
Theorem C124_truncated : forall (F : Type) nb (lines : list (list F)), (exists n, List.length (List.concat lines) = n * (3 + nb)) <-> exists r, read_bandx_raw nb lines = Some r.
Proof.
  intros F nb lines. unfold read_bandx_raw. destruct (Nat.eqb_spec (List.length (List.concat lines) mod (3 + nb)) 0) as [E|E]; split.
  - intros _. eexists. reflexivity.
  - intros _. apply Nat.mod_divide in E; [|lia]. destruct E as (n & E). exists n. exact E.
  - intros (n & Hn). exfalso. apply E. rewrite Hn. apply Nat.mod_mul. lia.
  - intros (r & C). discriminate.
Qed.
Print Assumptions C124_truncated.
Example C124_ex : read_bandx_raw 5 [[0;0;0]; [1;2;3;4]; [5]; [1;0;0]; [6;7;8;9]; [10]] = Some ([[0;0;0]; [1;0;0]], [[1;2;3;4;5]; [6;7;8;9;10]]) /\
  read_bandx_raw 5 [[0;0;0]; [1;2;3;4]] = None.
Proof. split; reflexivity. Qed.

(* ------------------------------------------------------------------ *)
(** ** C125: breaks in the plotted lines *)
Fixpoint brk (z : list (R * R)) : list (option (R * R)) :=
  match z with
  | [] => []
  | p :: r => match r with [] => [Some p] | q :: _ => Some p :: (if Rle_dec (fst q) (fst p) then [None] else []) ++ brk r end
  end.
Lemma brk_head q r : exists t, brk (q :: r) = Some q :: t.
Proof. destruct r; cbn; eexists; reflexivity. Qed.
Lemma break_step a p q r : break_at (map Some (a ++ [p]) ++ brk (q :: r)) (List.length a) = map Some a ++ brk (p :: q :: r).
Proof.
  destruct (brk_head q r) as (t & Et). unfold break_at. rewrite map_app. cbn [map]. rewrite <- app_assoc. cbn [app].
  assert (E1 : nth (List.length a) (map Some a ++ Some p :: brk (q :: r)) None = Some p).
  { rewrite app_nth2; rewrite map_length; [|lia]. rewrite Nat.sub_diag. reflexivity. }
  assert (E2 : nth (S (List.length a)) (map Some a ++ Some p :: brk (q :: r)) None = Some q).
  { rewrite app_nth2; rewrite map_length; [|lia]. replace (S (List.length a) - List.length a) with 1 by lia. rewrite Et. reflexivity. }
  rewrite E1, E2. change (brk (p :: q :: r)) with (Some p :: (if Rle_dec (fst q) (fst p) then [None] else []) ++ brk (q :: r)).
  unfold geb. destruct (Rle_dec (fst q) (fst p)); [|reflexivity]. unfold insert_at.
  rewrite firstn_app, skipn_app, map_length. replace (S (List.length a) - List.length a) with 1 by lia.
  rewrite firstn_all2, skipn_all2 by (rewrite map_length; lia). cbn [firstn skipn app]. rewrite <- app_assoc. reflexivity.
Qed.
Lemma break_fold r : forall z0 a, List.length a <> 0 -> a ++ r = z0 -> r <> [] ->
  fold_left break_at (rev (seq 0 (List.length a))) (map Some a ++ brk r) = brk z0.
Proof.
  intros z0 a. revert r. induction a as [|p a IH] using rev_ind; intros r Ha Ez Hr; [cbn in Ha; lia|].
  destruct r as [|q r]; [congruence|]. rewrite app_length. cbn [List.length]. rewrite Nat.add_1_r, seq_S, rev_app_distr. cbn [rev app fold_left].
  rewrite Nat.add_0_l, break_step. destruct (Nat.eq_dec (List.length a) 0) as [E|E].
  - destruct a; [|discriminate]. cbn [List.length seq rev fold_left map app]. rewrite <- Ez. reflexivity.
  - apply IH; [exact E| |discriminate]. rewrite <- Ez, <- app_assoc. reflexivity.
Qed.
Lemma break_lines_brk z : break_lines z = brk z.
Proof.
  unfold break_lines. destruct z as [|x z] using rev_ind; [reflexivity|]. clear IHz. rewrite app_length, Nat.add_sub, map_app.
  destruct (Nat.eq_dec (List.length z) 0) as [E|E]; [destruct z; [reflexivity|discriminate]|].
  apply (break_fold [x]); [exact E|reflexivity|discriminate].
Qed.

Definition points (l : list (option (R * R))) : list (R * R) := flat_map (fun o => match o with Some p => [p] | None => [] end) l.
(** all points stay in their order; x grows strictly inside each segment; a break stands exactly between two
    points where x does not grow *)
Theorem C125_breaks : forall z,
  points (break_lines z) = z /\
  (forall l1 p q l2, break_lines z = l1 ++ Some p :: Some q :: l2 -> (fst p < fst q)%R) /\
  (forall l1 l2, break_lines z = l1 ++ None :: l2 -> exists l1' p q l2', l1 = l1' ++ [Some p] /\ l2 = Some q :: l2' /\ (fst q <= fst p)%R).
Proof.
  intros z. rewrite break_lines_brk. induction z as [|p [|q r] IH].
  - split; [reflexivity|]. split; intros l1; intros; destruct l1; discriminate.
  - split; [reflexivity|]. split; intros l1; intros; destruct l1 as [|? [|]]; discriminate.
  - destruct IH as (I1 & I2 & I3). destruct (brk_head q r) as (t & Et).
    change (brk (p :: q :: r)) with (Some p :: (if Rle_dec (fst q) (fst p) then [None] else []) ++ brk (q :: r)).
    set (Q := brk (q :: r)) in *. clearbody Q. destruct (Rle_dec (fst q) (fst p)) as [Hle|Hgt]; cbn [app].
    + split; [unfold points in *; cbn [flat_map app]; rewrite I1; reflexivity|]. split.
      * intros l1 p' q' l2 E. destruct l1 as [|x [|y l1]]; [discriminate E|discriminate E|]. injection E as _ _ E. apply (I2 _ _ _ _ E).
      * intros l1 l2 E. destruct l1 as [|x [|y l1]]; [discriminate E| |].
        -- injection E as Ex El. exists [], p, q, t. subst x l2. split; [reflexivity|]. split; [exact Et|exact Hle].
        -- injection E as Ex Ey E. destruct (I3 _ _ E) as (l1' & p' & q' & l2' & A & B & C). exists (x :: y :: l1'), p', q', l2'. rewrite A. split; [reflexivity|]. split; assumption.
    + split; [unfold points in *; cbn [flat_map app]; rewrite I1; reflexivity|]. split.
      * intros l1 p' q' l2 E. destruct l1 as [|x l1].
        -- injection E as Ex E. rewrite Et in E. injection E as Eq _. subst p' q'. apply Rnot_le_lt, Hgt.
        -- injection E as _ E. apply (I2 _ _ _ _ E).
      * intros l1 l2 E. destruct l1 as [|x l1]; [discriminate E|]. injection E as Ex E. destruct (I3 _ _ E) as (l1' & p' & q' & l2' & A & B & C).
        exists (x :: l1'), p', q', l2'. rewrite A. split; [reflexivity|]. split; assumption.
Qed.
Print Assumptions C125_breaks.
Example C125_ex : break_lines [(0, 1); (1, 2); (0, 3)]%R = [Some (0, 1); Some (1, 2); None; Some (0, 3)]%R.
Proof.
  rewrite break_lines_brk. cbn [brk fst]. destruct (Rle_dec 1 0) as [C|_]; [lra|]. destruct (Rle_dec 0 1) as [_|C]; [|lra]. reflexivity.
Qed.

(* ------------------------------------------------------------------ *)
(** ** C126: names of the projections from the spilling output *)
Definition is_orb (key : string) : Prop := ~ In key ["p"; "d"; "f"]%string /\ forall m, substring m 6 key <> "charge"%string.
Lemma has_charge_spec key : has_charge key = false <-> forall m, substring m 6 key <> "charge"%string.
Proof.
  unfold has_charge. destruct (String.index 0 "charge" key) as [m|] eqn:E; split; intros H; try reflexivity; try discriminate.
  - exfalso. apply (H m). apply (index_correct1 0 m "charge" key E).
  - intros m. apply (index_correct3 0 m "charge" key E); [discriminate|lia].
Qed.
Lemma is_shell_spec key : is_shell key = false <-> ~ In key ["p"; "d"; "f"]%string.
Proof.
  unfold is_shell. destruct (String.eqb_spec key "p") as [->|A]; [split; [discriminate|intros C; exfalso; apply C; left; reflexivity]|].
  destruct (String.eqb_spec key "d") as [->|B]; [split; [discriminate|intros C; exfalso; apply C; right; left; reflexivity]|].
  destruct (String.eqb_spec key "f") as [->|C]; [split; [discriminate|intros C; exfalso; apply C; right; right; left; reflexivity]|].
  split; [|reflexivity]. intros _ [D|[D|[D|[]]]]; congruence.
Qed.
Lemma skip_spec key : has_charge key || is_shell key = false <-> is_orb key.
Proof. rewrite orb_false_iff, has_charge_spec, is_shell_spec. unfold is_orb. tauto. Qed.

(** one atom in the cell: the entries other than charges and shell sums, in the order of the file *)
Theorem C126_one_atom_partial : forall t keep atoms, t <> ""%string -> (forall k, keep k = true <-> is_orb k) ->
  (forall i ks, In (i, ks) atoms -> i = 1) ->
  order_spilling [t] atoms = OOk (flat_map (fun a => map (fun k => (1, Some t, k)) (filter keep (snd a))) atoms).
Proof.
  intros t keep atoms Ht Hk Hi. induction atoms as [|[i ks] r IH]; [reflexivity|]. cbn [order_spilling flat_map snd].
  rewrite IH by (intros j l Hj; apply (Hi j l); right; exact Hj). rewrite (Hi i ks (or_introl eq_refl)).
  replace (order_keys [t] 1 ks) with (OOk (map (fun k => (1, Some t, k)) (filter keep ks))); [reflexivity|].
  induction ks as [|k ks IHk]; [reflexivity|]. cbn [order_keys filter].
  assert (IH' : OOk (map (fun k0 : string => (1, Some t, k0)) (filter keep ks)) = order_keys [t] 1 ks).
  { apply IHk. intros j l [Hj|Hj]; [injection Hj as <- _; apply (Hi i (k :: ks)); left; reflexivity|apply (Hi j l); right; exact Hj]. }
  rewrite <- IH'. destruct (keep k) eqn:Ek.
  - apply Hk, skip_spec in Ek. rewrite Ek. unfold name_of, truth. destruct (String.eqb_spec t ""); [contradiction|]. reflexivity.
  - destruct (has_charge k || is_shell k) eqn:E; [reflexivity|]. apply skip_spec, Hk in E. congruence.
Qed.
Print Assumptions C126_one_atom_partial.
Example C126_ex : order_spilling ["Cu"]%string [(1, ["total charge"; "s"; "p"; "pz"; "px"; "py"; "d"; "dz2"])]%string =
  OOk [(1, Some "Cu", "s"); (1, Some "Cu", "pz"); (1, Some "Cu", "px"); (1, Some "Cu", "py"); (1, Some "Cu", "dz2")]%string.
Proof. reflexivity. Qed.

(** two or more atoms: `if self.types` is the truth value of an array with several elements *)
Theorem C126_order_refuted : forall types atoms, 2 <= List.length types -> (exists i ks k, In (i, ks) atoms /\ In k ks /\ is_orb k) ->
  order_spilling types atoms = OValue.
Proof.
  intros types atoms Ht (i & ks & k & Ha & Hk & Ho).
  assert (N : forall i k, name_of types i k = OValue) by (intros; destruct types as [|a [|b t]]; [cbn in Ht; lia|cbn in Ht; lia|reflexivity]).
  assert (K : forall j l, order_keys types j l = OOk [] \/ order_keys types j l = OValue).
  { intros j l. induction l as [|x l IH]; [left; reflexivity|]. cbn [order_keys]. destruct (has_charge x || is_shell x); [exact IH|]. rewrite N. right. reflexivity. }
  assert (V : order_keys types i ks = OValue).
  { clear Ha. induction ks as [|x l IH]; [destruct Hk|]. cbn [order_keys]. destruct Hk as [->|Hk].
    - apply skip_spec in Ho. rewrite Ho, N. reflexivity.
    - rewrite (IH Hk). destruct (has_charge x || is_shell x); [reflexivity|]. rewrite N. reflexivity. }
  induction atoms as [|[j l] r IH]; [destruct Ha|]. cbn [order_spilling]. destruct Ha as [Ha|Ha].
  - injection Ha as -> ->. rewrite V. reflexivity.
  - rewrite (IH Ha). destruct (K j l) as [-> | ->]; reflexivity.
Qed.
Print Assumptions C126_order_refuted.
Example C126_ex2 : order_spilling ["Ga"; "As"]%string [(1, ["s"]); (2, ["s"])]%string = OValue.
Proof. reflexivity. Qed.

(* ------------------------------------------------------------------ *)
(** ** C127: input files, read back *)
Definition get_vec (l : list word) : option vec := match l with [WF x; WF y; WF z] => Some (x, y, z) | _ => None end.
Definition get_species (l : list word) : option (string * R * string) := match l with [WS t; WF m; WS f] => Some (t, m, f) | _ => None end.
Definition get_atom (l : list word) : option (string * vec) := match l with WS t :: r => option_map (pair t) (get_vec r) | _ => None end.
Definition is_line (a b : string) (l : list word) : bool := match l with [WS x; WS y] => String.eqb x a && String.eqb y b | _ => false end.
Definition get_card (a : string) (l : list word) : option string := match l with [WS x; WS y] => if String.eqb x a then Some y else None | _ => None end.
Definition only (a : string) (l : list word) : bool := match l with [WS x] => String.eqb x a | _ => false end.
(** the cards of pw.x for [ntyp] species *)
Definition pw_read (ntyp : nat) (lines : list (list word)) : option (string * lattice * list (string * R * string) * list (string * vec)) :=
  match lines with
  | h :: l1 :: l2 :: l3 :: h2 :: r =>
    match get_card "CELL_PARAMETERS" h, get_vec l1, get_vec l2, get_vec l3, only "ATOMIC_SPECIES" h2, skipn ntyp r with
    | Some u, Some a1, Some a2, Some a3, true, h3 :: rest =>
      if is_line "ATOMIC_POSITIONS" "crystal" h3 then
        match all_some (map get_species (firstn ntyp r)), all_some (map get_atom rest) with
        | Some sp, Some at_ => Some (u, (a1, a2, a3), sp, at_)
        | _, _ => None
        end
      else None
    | _, _, _, _, _, _ => None
    end
  | _ => None
  end.
(** a block of a .win file *)
Fixpoint until (name : string) (l : list (list word)) : option (list (list word)) :=
  match l with [] => None | x :: r => if is_line "end" name x then Some [] else option_map (cons x) (until name r) end.
Fixpoint block (name : string) (l : list (list word)) : option (list (list word)) :=
  match l with [] => None | x :: r => if is_line "begin" name x then until name r else block name r end.
Definition get_k (l : list word) : option (vec * nat) := match l with [WF x; WF y; WF z; WN w] => Some ((x, y, z), w) | _ => None end.
Definition k_read (lines : list (list word)) : option (string * list (vec * nat)) :=
  match lines with
  | h :: [WN n] :: r => match get_card "K_POINTS" h, all_some (map get_k r) with
                        | Some u, Some ks => if Nat.eqb n (List.length ks) then Some (u, ks) else None
                        | _, _ => None end
  | _ => None
  end.

Lemma read_atoms basis types : List.length basis = List.length types ->
  all_some (map get_atom (map (fun p => WS (snd p) :: wvec (fst p)) (combine basis types))) = Some (combine types basis).
Proof.
  revert types. induction basis as [|[[x y] z] b IH]; intros [|t ts] L; try discriminate; [reflexivity|]. cbn [combine map all_some].
  rewrite IH by (cbn in L; lia). reflexivity.
Qed.
(** the name of the unit in both kinds of files *)
Definition unit_word (u : unit_name) : string := match u with Angstrom => "angstrom" | Bohr => "bohr" end.
Theorem C127_crystal : forall masses pp species u A basis types, List.length basis = List.length types ->
  (forall t, In t species -> exists k f, element_number t = Some k /\ pp t = Some f) ->
  exists lines sp, crystal_lines masses pp species u A basis types = Some lines /\
    pw_read (List.length species) lines = Some (unit_word u, A, sp, combine types basis) /\
    Forall2 (fun t e => exists k f, element_number t = Some k /\ pp t = Some f /\ e = (t, masses k, f)) species sp.
Proof.
  intros masses pp species u [[a1 a2] a3] basis types L H.
  assert (S : exists rows sp, all_some (map (fun t => match element_number t, pp t with Some k, Some f => Some [WS t; WF (masses k); WS f] | _, _ => None end) species) = Some rows /\
      List.length rows = List.length species /\ all_some (map get_species rows) = Some sp /\
      Forall2 (fun t e => exists k f, element_number t = Some k /\ pp t = Some f /\ e = (t, masses k, f)) species sp).
  { clear L. induction species as [|t r IH]; [exists [], []; split; [reflexivity|]; split; [reflexivity|]; split; [reflexivity|constructor]|].
    destruct IH as (rows & sp & E1 & E2 & E3 & E4); [intros x Hx; apply H; right; exact Hx|]. destruct (H t (or_introl eq_refl)) as (k & f & Ek & Ef).
    exists ([WS t; WF (masses k); WS f] :: rows), ((t, masses k, f) :: sp). cbn [map all_some]. rewrite Ek, Ef, E1. split; [reflexivity|]. split; [cbn; lia|].
    split; [cbn [get_species]; rewrite E3; reflexivity|]. constructor; [exists k, f; auto|exact E4]. }
  destruct S as (rows & sp & E1 & E2 & E3 & E4). unfold crystal_lines. rewrite E1. do 2 eexists. split; [reflexivity|]. split; [|exact E4].
  destruct a1 as [[x1 y1] z1], a2 as [[x2 y2] z2], a3 as [[x3 y3] z3]. unfold pw_read. cbn [wvec get_vec get_card only].
  rewrite <- E2, firstn_app, skipn_app, Nat.sub_diag, firstn_all, skipn_all. cbn [firstn skipn app]. rewrite app_nil_r.
  rewrite E3, (read_atoms _ _ L). reflexivity.
Qed.
Print Assumptions C127_crystal.
Theorem C127_missing : forall masses pp species u A basis types t, In t species -> element_number t = None \/ pp t = None ->
  crystal_lines masses pp species u A basis types = None.
Proof.
  intros masses pp species u A basis types t Ht Hn. unfold crystal_lines.
  replace (all_some _) with (@None (list (list word))); [reflexivity|]. symmetry.
  induction species as [|s r IH]; [destruct Ht|]. cbn [map all_some]. destruct Ht as [->|Ht].
  - destruct Hn as [-> | ->]; [reflexivity|]. destruct (element_number t); reflexivity.
  - rewrite (IH Ht). destruct (element_number s), (pp s); reflexivity.
Qed.
Print Assumptions C127_missing.

Example C127_ex : exists lines, crystal_lines INR (fun t => Some (t ++ ".upf")%string) ["As"; "Ga"]%string Angstrom fccB [(0, 0, 0); (1/4, 1/4, 1/4)]%R ["Ga"; "As"]%string = Some lines /\
  pw_read 2 lines = Some ("angstrom", fccB, [("As", INR 32, "As.upf"); ("Ga", INR 30, "Ga.upf")], [("Ga", (0, 0, 0)%R); ("As", (1/4, 1/4, 1/4)%R)])%string.
Proof. eexists. split; reflexivity. Qed.

Theorem C127_wannier : forall u A basis types, List.length basis = List.length types ->
  (exists l1 l2 l3, block "unit_cell_cart" (crystal_wannier u A basis types) = Some [[WS (unit_word u)]; l1; l2; l3] /\
    all_some (map get_vec [l1; l2; l3]) = Some [fst (fst A); snd (fst A); snd A]) /\
  exists rows, block "atoms_frac" (crystal_wannier u A basis types) = Some rows /\ all_some (map get_atom rows) = Some (combine types basis).
Proof.
  intros u [[a1 a2] a3] basis types L. destruct a1 as [[x1 y1] z1], a2 as [[x2 y2] z2], a3 as [[x3 y3] z3]. cbn [fst snd]. split.
  - do 3 eexists. split; reflexivity.
  - exists (map (fun p => WS (snd p) :: wvec (fst p)) (combine basis types)). split; [|apply read_atoms, L].
    unfold crystal_wannier. cbn [wvec block is_line]. cbn. 
    induction (combine basis types) as [|[[[x y] z] t] r IH]; [reflexivity|]. cbn [map app until is_line fst snd wvec]. rewrite IH. reflexivity.
Qed.
Print Assumptions C127_wannier.

Theorem C127_k_points : forall points unit, k_read (k_points points unit) = Some (("{" ++ unit ++ "}")%string, map (fun p => (p, 1)) points).
Proof.
  intros points unit. unfold k_read, k_points. cbn [get_card String.eqb]. replace (String.eqb "K_POINTS" "K_POINTS") with true by reflexivity.
  rewrite map_map. assert (E : all_some (map (fun p => get_k (wvec p ++ [WN 1])) points) = Some (map (fun p => (p, 1)) points)).
  { rewrite <- all_some_some. f_equal. apply map_ext. intros [[x y] z]. reflexivity. }
  rewrite E, map_length, Nat.eqb_refl. reflexivity.
Qed.
Print Assumptions C127_k_points.
Theorem C127_k_grid : forall n m l, exists h, k_grid n m l = [h; [WN n; WN (match m with None => n | Some x => x end); WN (match l with None => n | Some x => x end); WN 0; WN 0; WN 0]] /\
  get_card "K_POINTS" h = Some "(automatic)"%string.
Proof. intros n m l. eexists. split; reflexivity. Qed.
Print Assumptions C127_k_grid.

(* ------------------------------------------------------------------ *)
(** ** C128: the grid of prepare_wannier *)
Lemma frac_inj g i j : 0 < g -> grid_frac g i = grid_frac g j -> i = j.
Proof.
  intros Hg E. unfold grid_frac in E. apply INR_eq. assert (G : (INR g <> 0)%R) by (apply not_0_INR; lia).
  apply (f_equal (fun t => t * INR g)%R) in E. unfold Rdiv in E. rewrite !Rmult_assoc, Rinv_l, !Rmult_1_r in E by exact G. exact E.
Qed.
Theorem C128_grid_partial : forall g, 0 < g -> NoDup (wannier_grid g) /\ List.length (wannier_grid g) = g * g * g /\
  forall p, In p (wannier_grid g) <-> exists i j l, i < g /\ j < g /\ l < g /\ p = (INR i / INR g, INR j / INR g, INR l / INR g)%R.
Proof.
  intros g Hg. unfold wannier_grid. split; [|split].
  - apply nodup_flat_map; [apply seq_NoDup| |].
    + intros j _. apply nodup_flat_map; [apply seq_NoDup| |].
      * intros i _. apply FinFun.Injective_map_NoDup; [|apply seq_NoDup]. intros a b E. injection E as E. apply (frac_inj g _ _ Hg E).
      * intros a b x Ha Hb Hx Hy. apply in_map_iff in Hx, Hy. destruct Hx as (l & <- & _), Hy as (l' & E & _). injection E as E _. symmetry. apply (frac_inj g _ _ Hg E).
    + intros a b x Ha Hb Hx Hy. apply in_flat_map in Hx, Hy. destruct Hx as (i & _ & Hx), Hy as (i' & _ & Hy). apply in_map_iff in Hx, Hy.
      destruct Hx as (l & <- & _), Hy as (l' & E & _). injection E as _ E _. symmetry. apply (frac_inj g _ _ Hg E).
  - assert (F : forall (A : Type) (f : nat -> list A) n m, (forall i, List.length (f i) = m) -> List.length (flat_map f (seq 0 n)) = n * m).
    { intros A f n m H. rewrite <- (seq_length n 0) at 2. induction (seq 0 n) as [|x r IH]; [reflexivity|]. cbn [flat_map List.length]. rewrite app_length, H, IH. lia. }
    rewrite (F _ _ g (g * g)); [ring|]. intros j. apply F. intros i. rewrite map_length, seq_length. reflexivity.
  - intros p. split.
    + intros H. apply in_flat_map in H. destruct H as (j & Hj & H). apply in_flat_map in H. destruct H as (i & Hi & H). apply in_map_iff in H. destruct H as (l & <- & Hl).
      apply in_seq in Hi, Hj, Hl. exists i, j, l. split; [lia|]. split; [lia|]. split; [lia|reflexivity].
    + intros (i & j & l & Hi & Hj & Hl & ->). apply in_flat_map. exists j. split; [apply in_seq; lia|]. apply in_flat_map. exists i. split; [apply in_seq; lia|].
      apply in_map_iff. exists l. split; [reflexivity|apply in_seq; lia].
Qed.
Print Assumptions C128_grid_partial.
(** the order of the automatic grid of pw.x and of kmesh.pl: the first index is the slowest *)
Definition pw_grid (g : nat) : list vec :=
  flat_map (fun i => flat_map (fun j => map (fun l => (INR i / INR g, INR j / INR g, INR l / INR g)%R) (seq 0 g)) (seq 0 g)) (seq 0 g).
Lemma nth_grid (f : nat -> nat -> nat -> vec) g d : 2 <= g ->
  nth g (flat_map (fun i => flat_map (fun j => map (f i j) (seq 0 g)) (seq 0 g)) (seq 0 g)) d = f 0 1 0.
Proof.
  intros Hg. destruct g as [|[|g]]; [lia|lia|]. change (seq 0 (S (S g))) with (0 :: 1 :: seq 2 g) at 2 3. cbn [flat_map]. rewrite <- !app_assoc.
  rewrite app_nth2; rewrite map_length, seq_length; [|lia]. rewrite Nat.sub_diag. reflexivity.
Qed.
Theorem C128_order_refuted : forall g, 2 <= g -> wannier_grid g <> pw_grid g.
Proof.
  intros g Hg C. apply (f_equal (fun l => nth g l (0, 0, 0)%R)) in C. unfold wannier_grid, pw_grid in C.
  rewrite (nth_grid (fun j i l => (grid_frac g i, grid_frac g j, grid_frac g l)) g _ Hg) in C.
  rewrite (nth_grid (fun i j l => (INR i / INR g, INR j / INR g, INR l / INR g)%R) g _ Hg) in C.
  injection C as C _. apply (frac_inj g 1 0) in C; [discriminate|lia].
Qed.
Print Assumptions C128_order_refuted.
Lemma cube_root_spec fuel : forall g n, (forall h, h < g -> h * h * h < n) -> n <= fuel + g ->
  let r := cube_root_up fuel g n in n <= r * r * r /\ forall h, h < r -> h * h * h < n.
Proof.
  induction fuel as [|f IH]; intros g n Hl Hf; cbn [cube_root_up].
  - split; [nia|exact Hl].
  - destruct (Nat.leb_spec n (g * g * g)) as [E|E]; [split; [exact E|exact Hl]|]. apply IH; [|lia].
    intros h Hh. destruct (Nat.eq_dec h g) as [->|]; [exact E|apply Hl; lia].
Qed.
Lemma cube_lt a b : a < b -> a * a * a < b * b * b.
Proof. intros H. assert (P := Nat.pow_lt_mono_l a b 3 ltac:(lia) H). cbn [Nat.pow] in P. rewrite !Nat.mul_1_r, !Nat.mul_assoc in P. exact P. Qed.
Theorem C128_infer : forall n g, infer_grid n = Some g <-> g * g * g = n.
Proof.
  intros n g. unfold infer_grid. destruct (cube_root_spec n 0 n) as (A & B); [intros; lia|lia|]. set (r := cube_root_up n 0 n) in *. clearbody r.
  destruct (Nat.eqb_spec (r * r * r) n) as [E|E]; split.
  - intros H. injection H as <-. exact E.
  - intros H. f_equal. assert (~ r < g) by (intros C; apply cube_lt in C; lia). assert (~ g < r) by (intros C; specialize (B g C); lia). lia.
  - discriminate.
  - intros H. exfalso. assert (~ g < r) by (intros C; specialize (B g C); lia). destruct (Nat.eq_dec r g) as [->|]; [contradiction|]. assert (L : r < g) by lia. apply cube_lt in L. lia.
Qed.
Print Assumptions C128_infer.
Example C128_ex : infer_grid 64 = Some 4 /\ infer_grid 65 = None /\ nth 1 (wannier_grid 2) (0, 0, 0)%R = (INR 0 / INR 2, INR 0 / INR 2, INR 1 / INR 2)%R.
Proof. split; [reflexivity|]. split; reflexivity. Qed.

(* ------------------------------------------------------------------ *)
(** ** C129: the printed orbitals *)
Lemma desc_all (dist : nat -> R) r : forall a, (forall l1 i j l2, a :: r = l1 ++ i :: j :: l2 -> (dist j <= dist i)%R) -> forall x, In x r -> (dist x <= dist a)%R.
Proof.
  induction r as [|b r IH]; intros a Hd x Hx; [destruct Hx|].
  assert (Hb : (dist b <= dist a)%R) by (apply (Hd [] a b r); reflexivity). destruct Hx as [->|Hx]; [exact Hb|].
  apply Rle_trans with (dist b); [|exact Hb]. apply (IH b); [|exact Hx].
  intros l1 i j l2 E. apply (Hd (a :: l1) i j l2). rewrite E. reflexivity.
Qed.
Lemma take_above_spec thr dist l : (forall l1 i j l2, l = l1 ++ i :: j :: l2 -> (dist j <= dist i)%R) ->
  (exists t, l = take_above thr dist l ++ t) /\ forall i, In i (take_above thr dist l) <-> In i l /\ (thr <= dist i)%R.
Proof.
  induction l as [|a r IH]; intros Hd; [split; [exists []; reflexivity|]; intros i; cbn; tauto|].
  assert (Hall := desc_all dist r a Hd). cbn [take_above]. unfold Rltb. destruct (Rlt_dec (dist a) thr) as [Hlt|Hge].
  - split; [eexists; reflexivity|]. intros i. split; [intros []|]. intros ([->|Hi] & Ht); [lra|]. specialize (Hall i Hi). lra.
  - destruct IH as ((t & Et) & IHi).
    + intros l1 i j l2 E. apply (Hd (a :: l1) i j l2). rewrite E. reflexivity.
    + split; [exists t; cbn [app]; rewrite <- Et; reflexivity|]. intros i. cbn [In]. rewrite IHi. split; [|tauto]. intros [->|H]; [|tauto]. split; [left; reflexivity|lra].
Qed.
(** [order] is any result of argsort *)
Theorem C129_orbitals : forall n order dist thr, Permutation order (seq 0 n) ->
  (forall l1 i j l2, order = l1 ++ i :: j :: l2 -> (dist i <= dist j)%R) ->
  let res := print_orbitals order dist thr in
  NoDup res /\ (forall i, In i res <-> i < n /\ (thr <= dist i)%R) /\
  forall l1 i j l2, res = l1 ++ i :: j :: l2 -> (dist j <= dist i)%R.
Proof.
  intros n order dist thr HP HS. cbv zeta. unfold print_orbitals.
  assert (D : forall l1 i j l2, rev order = l1 ++ i :: j :: l2 -> (dist j <= dist i)%R).
  { intros l1 i j l2 E. apply (HS (rev l2) j i (rev l1)). rewrite <- (rev_involutive order), E, rev_app_distr. cbn [rev]. rewrite <- !app_assoc. reflexivity. }
  assert (N : NoDup (rev order)) by (apply (Permutation_NoDup (Permutation_rev order)), (Permutation_NoDup (Permutation_sym HP)), seq_NoDup).
  destruct (take_above_spec thr dist (rev order) D) as ((t & Et) & Hi). split; [|split].
  - rewrite Et in N. apply FinGroup.NoDup_app_iff in N. apply N.
  - intros i. rewrite Hi, <- in_rev. split; intros (A & B); (split; [|exact B]).
    + apply (Permutation_in _ HP), in_seq in A. lia.
    + apply (Permutation_in _ (Permutation_sym HP)), in_seq. lia.
  - intros l1 i j l2 E. apply (D l1 i j (l2 ++ t)). rewrite Et, E, <- app_assoc. reflexivity.
Qed.
Print Assumptions C129_orbitals.
Example C129_ex : let d i := nth i [1/2; 1/100; 1/3]%R 0%R in print_orbitals [1; 2; 0] d (1/20)%R = [0; 2].
Proof.
  unfold print_orbitals. cbn [rev app take_above nth]. unfold Rltb. destruct (Rlt_dec (1/2) (1/20)); [lra|].
  destruct (Rlt_dec (1/3) (1/20)); [lra|]. destruct (Rlt_dec (1/100) (1/20)); [reflexivity|lra].
Qed.

(** Properties C118-C121: what read_bands_crystal, read_projections and from_disk return
    (qespresso_interface.py l.485-573, l.606-666, l.1354-1421). *)
From Coq Require Import Reals List ZArith Bool String Arith Lia Lra Psatz.
From Verif Require Import NbrModel LatModel SRing LMat SymModel FinGroup SymGenProofs DetMC SymInitProofs SymEqProofs SymModel3
  SymNamedProofs SymProps Sym3Props QeModel.
Import ListNotations.
Local Open Scope nat_scope.

(* ------------------------------------------------------------------ *)
(** ** C118: symmetries *)
Definition trans_of (p : zmat * option zvec) : zvec := match snd p with Some t => t | None => vzero (K:=Zs) 3 end.
Definition good_sym (p : zmat * option zvec) : Prop :=
  wfz 3 (fst p) /\ unimod 3 (fst p) /\ match snd p with Some t => wfv (K:=Zs) 3 t | None => True end.

(** the dual of an affine operation: translation in the last row *)
Definition row_dual (inv : zmat -> zmat) (s : zmat) (t : zvec) : zmat :=
  mk (K:=Zs) 4 4 (fun i j => if Nat.ltb i 3 then (if Nat.ltb j 3 then ent (K:=Zs) (dual_op 3 inv s) i j else 0%Z)
    else if Nat.ltb j 3 then (- nsum (K:=Zs) 3 (fun k => (vent (K:=Zs) t k * ent (K:=Zs) (dual_op 3 inv s) k j)%Z))%Z else 1%Z).

Lemma block4_embed s t : block4 s t = embed 3 (s, t).
Proof. reflexivity. Qed.

Ltac idx i := destruct i as [|[|[|[|i]]]]; [| | | |exfalso; lia].
Ltac idx3 i := destruct i as [|[|[|i]]]; [| | |exfalso; lia].

Ltac tmul t E0 E1 E2 := let A := fresh in let B := fresh in let C := fresh in
    pose proof (f_equal (Z.mul (vent (K:=Zs) t 0)) E0) as A; pose proof (f_equal (Z.mul (vent (K:=Zs) t 1)) E1) as B;
    pose proof (f_equal (Z.mul (vent (K:=Zs) t 2)) E2) as C.

Lemma dual_block inv3 inv4 s t : inverts 3 inv3 -> inverts 4 inv4 -> wfz 3 s -> unimod 3 s -> wfv (K:=Zs) 3 t ->
  inv4 (ltr (K:=Zs) 4 (block4 s t)) = row_dual inv3 s t.
Proof.
  intros H3 H4 Hs Hu Ht. rewrite block4_embed. change (inv4 (ltr (K:=Zs) 4 (embed 3 (s, t)))) with (dual_op 4 inv4 (embed 3 (s, t))).
  apply (dual_eq 4 inv4 H4); [apply embed_wf|apply embed_unimod; [split; assumption|exact Hu]|apply wfm_mk|].
  destruct (dual_facts 3 inv3 H3 s Hs Hu) as (D1 & _ & _ & D2).
  set (d := dual_op 3 inv3 s) in *.
  assert (E : forall i j, i < 3 -> j < 3 -> nsum (K:=Zs) 3 (fun k => (ent (K:=Zs) d i k * ent (K:=Zs) s j k)%Z) = if Nat.eqb i j then 1%Z else 0%Z).
  { intros i j Hi Hj. transitivity (ent (K:=Zs) (zeye 3) i j); [|apply (leye_ent Zs 3 i j Hi Hj)]. rewrite <- D2.
    unfold zmul. rewrite lmul_ent by assumption. apply (nsum_ext Zs). intros k Hk. rewrite (ltr_ent Zs) by assumption. reflexivity. }
  assert (A : forall i j, i < 4 -> j < 4 -> ent (K:=Zs) (ltr (K:=Zs) 4 (embed 3 (s, t))) i j =
    if Nat.ltb j 3 then (if Nat.ltb i 3 then ent (K:=Zs) s j i else vent (K:=Zs) t j) else if Nat.eqb i 3 then 1%Z else 0%Z).
  { intros i j Hi Hj. rewrite ltr_ent by assumption. rewrite embed_ent by assumption. reflexivity. }
  apply (mat_ext Zs 4 4); [apply lmul_wf|apply leye_wf|]. intros i j Hi Hj. unfold zmul. rewrite lmul_ent by assumption.
  unfold zeye. rewrite (leye_ent Zs) by assumption.
  rewrite (nsum_ext Zs 4 _ (fun k => (ent (K:=Zs) (row_dual inv3 s t) i k *
    (if Nat.ltb j 3 then (if Nat.ltb k 3 then ent (K:=Zs) s j k else vent (K:=Zs) t j) else if Nat.eqb k 3 then 1 else 0))%Z)).
  2:{ intros k Hk. rewrite A by assumption. reflexivity. }
  rewrite (nsum_ext Zs 4 _ (fun k => ((if Nat.ltb i 3 then (if Nat.ltb k 3 then ent (K:=Zs) d i k else 0)
    else if Nat.ltb k 3 then (- nsum (K:=Zs) 3 (fun k' => (vent (K:=Zs) t k' * ent (K:=Zs) d k' k)%Z)) else 1) *
    (if Nat.ltb j 3 then (if Nat.ltb k 3 then ent (K:=Zs) s j k else vent (K:=Zs) t j) else if Nat.eqb k 3 then 1 else 0))%Z)).
  2:{ intros k Hk. unfold row_dual. rewrite ent_mk by assumption. reflexivity. }
  assert (E00 := E 0 0 ltac:(lia) ltac:(lia)). assert (E01 := E 0 1 ltac:(lia) ltac:(lia)). assert (E02 := E 0 2 ltac:(lia) ltac:(lia)).
  assert (E10 := E 1 0 ltac:(lia) ltac:(lia)). assert (E11 := E 1 1 ltac:(lia) ltac:(lia)). assert (E12 := E 1 2 ltac:(lia) ltac:(lia)).
  assert (E20 := E 2 0 ltac:(lia) ltac:(lia)). assert (E21 := E 2 1 ltac:(lia) ltac:(lia)). assert (E22 := E 2 2 ltac:(lia) ltac:(lia)).
  clear E A D1 D2. clearbody d. unfold nsum in *. cbn [seq map ksum fold_right Nat.eqb] in *.
  tmul t E00 E10 E20. tmul t E01 E11 E21. tmul t E02 E12 E22.
  idx i; idx j; cbn [Nat.ltb Nat.leb Nat.eqb]; cbn -[Z.mul Z.add Z.opp] in *; lia.
Qed.

Lemma row_dual_wf inv s t : wfz 4 (row_dual inv s t). Proof. apply wfm_mk. Qed.
Lemma row_dual_cut inv s t : inverts 3 inv -> wfz 3 s -> unimod 3 s -> cut 3 (row_dual inv s t) = dual_op 3 inv s.
Proof.
  intros H3 Hs Hu. destruct (dual_facts 3 inv H3 s Hs Hu) as (D1 & _).
  apply (mat_ext Zs 3 3); [apply wfm_mk|exact D1|]. intros i j Hi Hj. unfold cut. rewrite ent_mk by assumption.
  unfold row_dual. rewrite ent_mk by lia. apply Nat.ltb_lt in Hi, Hj. rewrite Hi, Hj. reflexivity.
Qed.

Lemma point3 inv R0 : inverts 3 inv -> hd_error R0 = Some (zeye 3) -> (forall s, In s R0 -> wfz 3 s /\ unimod 3 s) ->
  exists h, sym_init 3 (map (dual_op 3 inv) R0) false false = Some h /\ sdim h = 3 /\ sproj h = false /\
    (forall r, In r (sym_all h) <-> exists s, In s R0 /\ r = dual_op 3 inv s).
Proof.
  intros H3 Hh HR. destruct (sym_init_some 3 (map (dual_op 3 inv) R0) false false) as (h & Hi & Hd & Hp).
  - destruct R0 as [|x r]; [discriminate|]. cbn in *. injection Hh as ->. f_equal. apply dual_one, H3.
  - intros s Hs. apply in_map_iff in Hs. destruct Hs as (x & <- & Hx). destruct (HR x Hx). apply dual_facts; assumption.
  - exists h. split; [exact Hi|]. split; [exact Hd|]. split; [exact Hp|]. intros r.
    rewrite (sym_init_ops 3 (map (dual_op 3 inv) R0) false false h).
    + rewrite in_map_iff. split.
      * intros [(x & <- & Hx)|[C _]]; [exists x; auto|discriminate].
      * intros (x & Hx & ->). left. exists x. auto.
    + intros s Hs. apply in_map_iff in Hs. destruct Hs as (x & <- & Hx). destruct (HR x Hx). apply dual_facts; assumption.
    + exact Hi.
Qed.

(** [S] is the list the function returns for operations [syms] of the crystal: one matrix per operation, and
    Symmetry.point_group(S) consists exactly of the matrices r with (r k).(s n) = k.n *)
Definition pairs_with (r s : zmat) : Prop := forall k n : zvec, wfv (K:=Zs) 3 k -> wfv (K:=Zs) 3 n ->
  zdotp 3 (zmv 3 r k) (zmv 3 s n) = zdotp 3 k n.

Lemma read_ok inv syms : (forall n, inverts n (inv n)) -> (forall p, In p syms -> good_sym p) ->
  hd_error (map fst syms) = Some (zeye 3) -> hd_error (map trans_of syms) = Some (vzero (K:=Zs) 3) ->
  (forallb zerov (map trans_of syms) = true /\ read_symmetries inv syms = SOk (3, map (dual_op 3 (inv 3)) (map fst syms))) \/
  (forallb zerov (map trans_of syms) = false /\
   read_symmetries inv syms = SOk (4, map (fun p => row_dual (inv 3) (fst p) (trans_of p)) syms)).
Proof.
  intros Hi Hg H1 H2. unfold read_symmetries. fold trans_of. change (map (fun p => match snd p with Some t => t | None => vzero (K:=Zs) 3 end) syms) with (map trans_of syms).
  assert (E : match map fst syms with [] => [eye3] | _ => map fst syms end = map fst syms) by (destruct syms; [discriminate|reflexivity]).
  rewrite E. rewrite !map_length, Nat.eqb_refl. cbn [negb].
  destruct (forallb zerov (map trans_of syms)) eqn:Ez; [left|right]; (split; [reflexivity|]); [reflexivity|].
  do 2 f_equal. clear E Ez H1 H2. induction syms as [|p r IH]; [reflexivity|]. cbn [map combine].
  f_equal; [|apply IH; intros; apply Hg; right; assumption]. destruct (Hg p (or_introl eq_refl)) as (A & B & C).
  cbn [fst snd]. apply dual_block; auto. unfold trans_of. destruct (snd p); [exact C|apply wfv_vmk].
Qed.

Theorem C118_symmetries : forall inv syms, (forall n, inverts n (inv n)) -> (forall p, In p syms -> good_sym p) ->
  hd_error (map fst syms) = Some (zeye 3) -> hd_error (map trans_of syms) = Some (vzero (K:=Zs) 3) ->
  exists n S h, read_symmetries inv syms = SOk (n, S) /\ List.length S = List.length syms /\
    point_group n S 3 = SOk h /\ sdim h = 3 /\ sproj h = false /\
    (forall p, In p syms -> exists r, In r (sym_all h) /\ pairs_with r (fst p)) /\
    (forall r, In r (sym_all h) -> exists p, In p syms /\ pairs_with r (fst p)) /\
    (forall a b, In a (sym_all h) -> In b (sym_all h) ->
       (forall p q, In p syms -> In q syms -> exists c, In c syms /\ fst c = zmul 3 (fst p) (fst q)) -> In (zmul 3 a b) (sym_all h)).
Proof.
  intros inv syms Hi Hg H1 H2.
  assert (HR : forall s, In s (map fst syms) -> wfz 3 s /\ unimod 3 s).
  { intros s Hs. apply in_map_iff in Hs. destruct Hs as (p & <- & Hp). destruct (Hg p Hp) as (A & B & _). auto. }
  destruct (point3 (inv 3) (map fst syms) (Hi 3) H1 HR) as (h & Eh & Hd & Hpj & Hm).
  assert (T : exists n S, read_symmetries inv syms = SOk (n, S) /\ List.length S = List.length syms /\ point_group n S 3 = SOk h).
  { destruct (read_ok inv syms Hi Hg H1 H2) as [[_ E]|[_ E]]; rewrite E; do 2 eexists; (split; [reflexivity|]); (split; [rewrite !map_length; reflexivity|]).
    - unfold point_group, space_group. cbn [Nat.eqb orb Nat.add]. rewrite Eh. cbn [sres_of]. unfold ignore_translation. rewrite Hpj. reflexivity.
    - set (M := map (fun p => row_dual (inv 3) (fst p) (trans_of p)) syms).
      assert (W : forall s, In s M -> wfz 4 s).
      { intros s Hs. apply in_map_iff in Hs. destruct Hs as (p & <- & _). apply row_dual_wf. }
      assert (U : forall p, In p syms -> row_dual (inv 3) (fst p) (trans_of p) = dual_op 4 (inv 4) (embed 3 (fst p, trans_of p)) /\
        wfa 3 (fst p, trans_of p) /\ unimod 3 (fst p)).
      { intros p Hp. destruct (Hg p Hp) as (A & B & C).
        assert (wfv (K:=Zs) 3 (trans_of p)) by (unfold trans_of; destruct (snd p); [exact C|apply wfv_vmk]).
        split; [|split; [split; assumption|exact B]]. symmetry. apply (dual_block (inv 3) (inv 4)); auto. }
      assert (Ei : sym_init 4 M false true = Some (MkSym 4 M false true)).
      { apply init_stable; [exact W| | |].
        - destruct syms as [|p r]; [discriminate|]. cbn [map hd_error] in H1, H2. injection H1 as E1. injection H2 as E2.
          assert (EE : (fst p, trans_of p) = aone 3) by (rewrite E1, E2; reflexivity).
          destruct (U p (or_introl eq_refl)) as (EU & _). unfold M. cbn [map hd_error]. f_equal. etransitivity; [exact EU|].
          rewrite EE, embed_one. apply dual_one, Hi.
        - intros s Hs. apply in_map_iff in Hs. destruct Hs as (p & <- & Hp). destruct (U p Hp) as (-> & A & B).
          apply (dual_facts 4 (inv 4)); [apply Hi|apply embed_wf|apply embed_unimod; assumption].
        - right. split; [|left; reflexivity]. intros Hn. destruct syms as [|p r]; [discriminate|].
          specialize (Hn (row_dual (inv 3) (fst p) (trans_of p)) (or_introl eq_refl)). apply in_map_iff in Hn. destruct Hn as (q & E1 & _).
          assert (E2 : ent (K:=Zs) (row_dual (inv 3) (fst q) (trans_of q)) 3 3 = ent (K:=Zs) (zneg 4 (row_dual (inv 3) (fst p) (trans_of p))) 3 3) by (rewrite E1; reflexivity).
          unfold zneg in E2. rewrite lneg_ent in E2 by lia. unfold row_dual in E2. rewrite !ent_mk in E2 by lia. cbn in E2. lia. }
      unfold point_group, space_group. cbn [Nat.eqb orb Nat.add]. rewrite Ei. cbn [sres_of]. unfold ignore_translation. cbn [sproj sdim sops sinv].
      change (4 - 1) with 3.
      replace (map (cut 3) M) with (map (dual_op 3 (inv 3)) (map fst syms)); [rewrite Eh; reflexivity|].
      unfold M. rewrite !map_map. apply map_ext_in. intros p Hp. destruct (Hg p Hp) as (A & B & _). symmetry. apply row_dual_cut; auto. }
  destruct T as (n & S & T1 & T2 & T3). exists n, S, h. split; [exact T1|]. split; [exact T2|]. split; [exact T3|]. split; [exact Hd|]. split; [exact Hpj|].
  assert (Pd : forall s, In s (map fst syms) -> pairs_with (dual_op 3 (inv 3) s) s).
  { intros s Hs k m Hk Hn. destruct (HR s Hs). apply dual_pairing; auto. }
  split; [|split].
  - intros p Hp. exists (dual_op 3 (inv 3) (fst p)). split; [apply Hm; exists (fst p); split; [apply in_map, Hp|reflexivity]|apply Pd, in_map, Hp].
  - intros r Hr. apply Hm in Hr. destruct Hr as (s & Hs & ->). pose proof Hs as Hs'. apply in_map_iff in Hs'. destruct Hs' as (p & E & Hp).
    exists p. split; [exact Hp|]. rewrite E. apply Pd, Hs.
  - intros a b Ha Hb Hc. apply Hm in Ha, Hb. destruct Ha as (s & Hs & ->), Hb as (t & Ht & ->).
    destruct (HR s Hs), (HR t Ht). rewrite <- dual_mul by auto.
    pose proof Hs as Hs'. pose proof Ht as Ht'. apply in_map_iff in Hs', Ht'. destruct Hs' as (p & Ep & Hp), Ht' as (q & Eq & Hq).
    destruct (Hc p q Hp Hq) as (c & Hc1 & Hc2). apply Hm. exists (fst c). split; [apply in_map, Hc1|]. rewrite Hc2, Ep, Eq. reflexivity.
Qed.
Print Assumptions C118_symmetries.

Lemma zinv_inverts n : inverts n (zinv n).
Proof. intros m Hm Hu. apply zinv_spec; assumption. Qed.

(** the screw axis 2_1 along z, and a crystal where the second operation has no <fractional_translation> *)
Definition screw : list (zmat * option zvec) := [(zeye 3, Some [0;0;0]%Z); (d2z, Some [0;0;1]%Z)].
Definition mixed : list (zmat * option zvec) := [(zeye 3, None); (d2z, Some [0;0;1]%Z); (zneg 3 (zeye 3), None); (zneg 3 d2z, Some [0;0;1]%Z)].
Lemma wf3 (s : zmat) : List.length s = 3 -> forallb (fun r => Nat.eqb (List.length r) 3) s = true -> wfz 3 s.
Proof. intros A B. split; [exact A|]. intros r Hr. rewrite forallb_forall in B. apply Nat.eqb_eq, B, Hr. Qed.
Lemma good_screw p : In p screw -> good_sym p.
Proof. intros [<-|[<-|[]]]; (split; [apply wf3; reflexivity|split; reflexivity]). Qed.
Lemma good_mixed p : In p mixed -> good_sym p.
Proof. intros [<-|[<-|[<-|[<-|[]]]]]; (split; [apply wf3; reflexivity|split; solve [reflexivity|exact I]]). Qed.
Example C118_ex : (forall n, inverts n (zinv n)) /\ (forall p, In p mixed -> good_sym p) /\ hd_error (map fst mixed) = Some (zeye 3) /\
  hd_error (map trans_of mixed) = Some (vzero (K:=Zs) 3) /\
  (forall p q, In p mixed -> In q mixed -> exists c, In c mixed /\ fst c = zmul 3 (fst p) (fst q)) /\
  exists S, read_symmetries zinv mixed = SOk (4, S).
Proof.
  split; [apply zinv_inverts|]. split; [apply good_mixed|]. split; [reflexivity|]. split; [reflexivity|]. split.
  - assert (G : forallb (fun p => forallb (fun q => existsb (fun c => zmeqb (fst c) (zmul 3 (fst p) (fst q))) mixed) mixed) mixed = true) by (vm_compute; reflexivity).
    intros p q Hp Hq. rewrite forallb_forall in G. specialize (G p Hp). rewrite forallb_forall in G. specialize (G q Hq).
    apply existsb_exists in G. destruct G as (c & Hc & E). exists c. split; [exact Hc|]. apply zmeqb_spec, E.
  - destruct (read_ok zinv mixed (zinv_inverts) good_mixed eq_refl eq_refl) as [[C _]|[_ E]]; [vm_compute in C; discriminate|].
    eexists. exact E.
Qed.

(** "the translation part in the last component": the last column of every returned matrix is (0,0,0,1); the
    translation has moved to the last row, as - t s^-T *)
Theorem C118_translation_refuted : exists syms, (forall p, In p syms -> good_sym p) /\ hd_error (map fst syms) = Some (zeye 3) /\
  hd_error (map trans_of syms) = Some (vzero (K:=Zs) 3) /\ (exists p, In p syms /\ vent (K:=Zs) (trans_of p) 2 <> 0%Z) /\
  (forall inv, (forall n, inverts n (inv n)) -> exists S, read_symmetries inv syms = SOk (4, S) /\
    (forall m i, In m S -> i < 3 -> ent (K:=Zs) m i 3 = 0%Z) /\ (exists m, In m S /\ ent (K:=Zs) m 3 2 <> 0%Z)).
Proof.
  exists screw. split; [exact good_screw|]. split; [reflexivity|]. split; [reflexivity|]. split.
  { exists (d2z, Some [0;0;1]%Z). split; [right; left; reflexivity|]. vm_compute. discriminate. }
  intros inv Hi. destruct (read_ok inv screw Hi good_screw eq_refl eq_refl) as [[C _]|[_ E]]; [vm_compute in C; discriminate|].
  eexists. split; [exact E|]. split.
  - intros m i Hm Hlt. apply in_map_iff in Hm. destruct Hm as (p & <- & _). unfold row_dual. rewrite ent_mk by lia.
    apply Nat.ltb_lt in Hlt. rewrite Hlt. reflexivity.
  - exists (row_dual (inv 3) d2z [0;0;1]%Z). split; [right; left; reflexivity|].
    assert (D : dual_op 3 (inv 3) d2z = d2z).
    { apply dual_eq; [apply Hi|apply wf3; reflexivity|reflexivity|apply wf3; reflexivity|vm_compute; reflexivity]. }
    unfold row_dual. rewrite D. vm_compute. discriminate.
Qed.
Print Assumptions C118_translation_refuted.

(** "there is always one symmetry, the trivial symmetry" (l.556-558): without <symmetry> elements the list of
    translations stays empty and the assertion of l.561 fails *)
Theorem C118_empty_refuted : forall inv, read_symmetries inv [] = SAssert.
Proof. reflexivity. Qed.
Print Assumptions C118_empty_refuted.

(* ------------------------------------------------------------------ *)
(** ** C119: k points in crystal coordinates *)
Local Open Scope R_scope.
Ltac trip := apply f_equal2; [apply f_equal2|].
Definition vdot (u v : vec) : R := let '(a, b, c) := u in let '(x, y, z) := v in a * x + b * y + c * z.
Definition ivec (a b c : Z) : vec := (IZR a, IZR b, IZR c).

Lemma vsolve_spec l k : det3 l <> 0 -> exists c, vsolve l k = Some c /\ vcomb l c = k.
Proof.
  intros H. destruct l as [[[[a b] c] [[d e] f]] [[g h] i]], k as [[x y] z]. unfold vsolve.
  destruct (Req_EM_T _ 0) as [E|E]; [contradiction|]. eexists. split; [reflexivity|]. unfold vcomb, det3 in *.
  trip; field; exact H.
Qed.
Lemma vsolve_unique l k c c' : det3 l <> 0 -> vsolve l k = Some c -> vcomb l c' = k -> c' = c.
Proof.
  intros H E <-. destruct l as [[[[a b] c0] [[d e] f]] [[g h] i]], c' as [[x y] z]. unfold vsolve in E.
  destruct (Req_EM_T _ 0) as [F|F]; [contradiction|]. injection E as <-. unfold vcomb, det3 in *.
  trip; field; exact H.
Qed.
Lemma all_some_map {A B} (f : A -> option B) (P : A -> B -> Prop) l : (forall x, In x l -> exists y, f x = Some y /\ P x y) ->
  exists r, all_some (map f l) = Some r /\ Forall2 P l r.
Proof.
  induction l as [|x r IH]; intros H; [exists []; split; [reflexivity|constructor]|].
  destruct (H x (or_introl eq_refl)) as (y & E & Py). destruct IH as (r' & Er & Fr); [intros; apply H; right; assumption|].
  exists (y :: r'). cbn [map all_some]. rewrite E, Er. split; [reflexivity|constructor; assumption].
Qed.

(** a_i . b_j = delta_ij *)
Definition reciprocal (A B : lattice) : Prop :=
  let '(a1, a2, a3) := A in let '(b1, b2, b3) := B in
  vdot a1 b1 = 1 /\ vdot a1 b2 = 0 /\ vdot a1 b3 = 0 /\ vdot a2 b1 = 0 /\ vdot a2 b2 = 1 /\ vdot a2 b3 = 0 /\
  vdot a3 b1 = 0 /\ vdot a3 b2 = 0 /\ vdot a3 b3 = 1.

Lemma vdot_comb A B n c : reciprocal A B -> vdot (vcomb A n) (vcomb B c) = vdot n c.
Proof.
  destruct A as [[[[a1 a2] a3] [[b1 b2] b3]] [[c1 c2] c3]], B as [[[[d1 d2] d3] [[e1 e2] e3]] [[f1 f2] f3]], n as [[x y] z], c as [[u v] w].
  unfold reciprocal, vdot, vcomb. intros (H1 & H2 & H3 & H4 & H5 & H6 & H7 & H8 & H9).
  transitivity (x * (u * (a1 * d1 + a2 * d2 + a3 * d3) + v * (a1 * e1 + a2 * e2 + a3 * e3) + w * (a1 * f1 + a2 * f2 + a3 * f3))
    + y * (u * (b1 * d1 + b2 * d2 + b3 * d3) + v * (b1 * e1 + b2 * e2 + b3 * e3) + w * (b1 * f1 + b2 * f2 + b3 * f3))
    + z * (u * (c1 * d1 + c2 * d2 + c3 * d3) + v * (c1 * e1 + c2 * e2 + c3 * e3) + w * (c1 * f1 + c2 * f2 + c3 * f3))); [ring|].
  rewrite H1, H2, H3, H4, H5, H6, H7, H8, H9. ring.
Qed.

(** One crystal coordinate vector per k point, in order: B c = k; and k.(A n) = c.n for every lattice vector
    when B is the reciprocal lattice.  self.A is the lattice of the file in the unit of the crystal. *)
Theorem C119_k_points : forall u x, det3 (xB x) <> 0 ->
  exists A ks bands f, read_bands u x = Some (A, ks, bands, f) /\
    Forall2 (fun p c => vcomb (xB x) c = fst p) (xKs x) ks /\
    (reciprocal (xA x) (xB x) -> Forall2 (fun p c => forall n, vdot (vcomb (xA x) n) (fst p) = vdot n c) (xKs x) ks) /\
    (u = Bohr -> A = xA x) /\
    (u = Angstrom -> forall n, vcomb A n = LatModel.vscale bohr_to_angstrom (vcomb (xA x) n)).
Proof.
  intros u x H. unfold read_bands.
  destruct (all_some_map (fun p => vsolve (xB x) (fst p)) (fun p c => vcomb (xB x) c = fst p) (xKs x)) as (ks & E & F).
  { intros p _. apply vsolve_spec, H. }
  rewrite E. do 4 eexists. split; [reflexivity|]. split; [exact F|]. split; [|split].
  - intros Hr. clear E. induction F as [|p c l l' Hp F IH]; constructor; [|exact IH]. intros n. rewrite <- Hp. apply vdot_comb, Hr.
  - intros ->. reflexivity.
  - intros -> n. cbn [set_unit]. destruct (xA x) as [[[[a1 a2] a3] [[b1 b2] b3]] [[c1 c2] c3]], n as [[p q] r].
    unfold LatModel.lscale, LatModel.vscale, vcomb. trip; ring.
Qed.
Print Assumptions C119_k_points.

(** fcc copper: b in units of 2 pi / a *)
Definition fccA : lattice := ((-1/2, 0, 1/2), (0, 1/2, 1/2), (-1/2, 1/2, 0)).
Definition fccB : lattice := ((-1, -1, 1), (1, 1, 1), (-1, 1, -1)).
Definition cu_xml : qe_xml := mkXml fccA fccB [((0, 0, 0), [-2; 1]); ((0, 0, -1/2), [-1; 2])] (1/4).
Example C119_ex : det3 (xB cu_xml) <> 0 /\ reciprocal (xA cu_xml) (xB cu_xml) /\
  read_bands Bohr cu_xml = Some (fccA, [(0, 0, 0); (-1/4, -1/4, 0)], [[-2 * hartree_to_eV; 1 * hartree_to_eV]; [-1 * hartree_to_eV; 2 * hartree_to_eV]], 1/4 * hartree_to_eV).
Proof.
  split; [cbn; lra|]. split; [cbn; repeat split; lra|]. unfold read_bands.
  cbn [xKs xB xA xFermi cu_xml map fst snd fccB].
  assert (V : forall k c, vcomb fccB c = k -> vsolve fccB k = Some c).
  { intros k c E. destruct (vsolve_spec fccB k) as (c' & E' & _); [cbn; lra|]. rewrite E'. f_equal.
    symmetry. apply (vsolve_unique fccB k); [cbn; lra|exact E'|exact E]. }
  change ((-1, -1, 1), (1, 1, 1), (-1, 1, -1)) with fccB.
  rewrite (V (0, 0, 0) (0, 0, 0)) by (cbn; trip; lra).
  rewrite (V (0, 0, -1/2) (-1/4, -1/4, 0)) by (cbn; trip; lra).
  reflexivity.
Qed.

(** "k_points will be in [0,1[^3": they are not reduced *)
Theorem C119_range_refuted : exists x A ks bands f c1 c2 c3, det3 (xB x) <> 0 /\ reciprocal (xA x) (xB x) /\
  read_bands Angstrom x = Some (A, ks, bands, f) /\ In (c1, c2, c3) ks /\ c1 < 0.
Proof.
  destruct C119_ex as (H1 & H2 & H3). unfold read_bands in H3. exists cu_xml. unfold read_bands.
  destruct (all_some _) as [ks|]; [|discriminate]. injection H3 as E.
  do 4 eexists. exists (-1/4), (-1/4), 0. split; [exact H1|]. split; [exact H2|]. split; [reflexivity|]. rewrite E.
  split; [right; left; reflexivity|lra].
Qed.
Print Assumptions C119_range_refuted.

(* ------------------------------------------------------------------ *)
(** ** C120: energies *)
(** Bands and Fermi energy are scaled by the same positive factor, so occupation does not change, and the two
    readers (Hartree in the XML file of pw.x, Rydberg in atomic_proj.xml, 1 Hartree = 2 Rydberg) agree exactly. *)
Definition no_k : vec * list R := ((0, 0, 0), []).
Theorem C120_energies : forall u x A ks bands f, read_bands u x = Some (A, ks, bands, f) ->
  List.length bands = List.length (xKs x) /\
  (forall i j, (i < List.length (xKs x))%nat -> (j < List.length (snd (nth i (xKs x) no_k)))%nat ->
     nth j (nth i bands []) 0 = 2721138625 / 10 ^ 8 * nth j (snd (nth i (xKs x) no_k)) 0 /\
     (nth j (nth i bands []) 0 <= f <-> nth j (snd (nth i (xKs x) no_k)) 0 <= xFermi x)) /\
  read_proj_energies (map (fun p => map (fun e => 2 * e) (snd p)) (xKs x)) (2 * xFermi x) = (bands, f).
Proof.
  intros u x A ks bands f H. unfold read_bands in H. destruct (all_some _); [|discriminate]. injection H as <- <- <- <-.
  split; [rewrite map_length; reflexivity|]. split.
  - intros i j Hi Hj. rewrite (nth_indep _ [] (map (fun e => e * hartree_to_eV) (snd no_k))) by (rewrite map_length; exact Hi).
    rewrite (map_nth (fun p => map (fun e => e * hartree_to_eV) (snd p))).
    set (es := snd (nth i (xKs x) no_k)) in *.
    rewrite (nth_indep _ 0 (0 * hartree_to_eV)) by (rewrite map_length; exact Hj).
    rewrite (map_nth (fun e => e * hartree_to_eV)). unfold hartree_to_eV. split; [ring|].
    split; intros C; [apply Rmult_le_reg_r with (2721138625 / 10 ^ 8); lra|apply Rmult_le_compat_r; lra].
  - unfold read_proj_energies. rewrite !map_map. f_equal; [|unfold hartree_to_eV, rydberg_to_eV; field].
    apply map_ext. intros p. rewrite map_map. apply map_ext. intros e. unfold hartree_to_eV, rydberg_to_eV. field.
Qed.
Print Assumptions C120_energies.
Example C120_ex : exists A ks bands f, read_bands Bohr cu_xml = Some (A, ks, bands, f) /\ nth 1 (nth 1 bands []) 0 > f /\ nth 0 (nth 1 bands []) 0 < f.
Proof. destruct C119_ex as (_ & _ & E). do 4 eexists. split; [exact E|]. unfold hartree_to_eV. cbn [nth]. lra. Qed.

(** atomic_proj.xml, l.651-653: real and imaginary parts alternate *)
Theorem C120_projections : forall (zs : list (R * R)), pairs (flat_map (fun z => [fst z; snd z]) zs) = zs.
Proof. induction zs as [|[x y] r IH]; [reflexivity|]. cbn [flat_map app fst snd pairs]. rewrite IH. reflexivity. Qed.
Print Assumptions C120_projections.
Example C120_projections_ex : pairs [1; 2; 3; 4] = [(1, 2); (3, 4)].
Proof. reflexivity. Qed.

(* ------------------------------------------------------------------ *)
(** ** C121: from_disk *)
(** What pw.x writes for a crystal with lattice [A] in bohr, atoms (name, crystal coordinates) and a cutoff and
    degauss in Rydberg (the units of the input file): positions in bohr, energies in Hartree. *)
Definition pw_section (A : lattice) (atoms : list (string * vec)) (cut : R) (degauss : option R) : qe_section :=
  mkSection A (map (fun p => (fst p, vcomb A (snd p))) atoms) (cut / 2) (option_map (fun d => d / 2) degauss).

Lemma det3_scale c l : det3 (LatModel.lscale c l) = c * c * c * det3 l.
Proof. destruct l as [[[[a1 a2] a3] [[b1 b2] b3]] [[c1 c2] c3]]. cbn. ring. Qed.
Lemma vcomb_scale c l v : vcomb (LatModel.lscale c l) v = vcomb l (LatModel.vscale c v).
Proof. destruct l as [[[[a1 a2] a3] [[b1 b2] b3]] [[c1 c2] c3]], v as [[x y] z]. cbn. trip; ring. Qed.
Lemma b2a_pos : 0 < bohr_to_angstrom. Proof. unfold bohr_to_angstrom. lra. Qed.

(** Lattice (converted to angstrom) and types come back; positions come back divided by the bohr radius in
    angstrom, cutoff and temperature halved. *)
Theorem C121_from_disk_partial : forall A atoms cut deg, det3 A <> 0 ->
  exists A' basis types cut' T, from_disk (pw_section A atoms cut deg) = Some (A', basis, types, cut', T) /\
    (forall n, vcomb A' n = LatModel.vscale bohr_to_angstrom (vcomb A n)) /\ types = map fst atoms /\
    basis = map (fun p => LatModel.vscale (/ bohr_to_angstrom) (snd p)) atoms /\ cut' = cut / 2 /\
    (forall t, deg = Some (t * boltzmann_Ry) -> T = t / 2).
Proof.
  intros A atoms cut deg H. unfold from_disk, pw_section. cbn [sA sAtoms sCut sDegauss].
  assert (D : det3 (LatModel.lscale bohr_to_angstrom A) <> 0).
  { rewrite det3_scale. pose proof b2a_pos. repeat apply Rmult_integral_contrapositive_currified; try lra; exact H. }
  assert (E : all_some (map (fun p => vsolve (LatModel.lscale bohr_to_angstrom A) (snd p)) (map (fun p => (fst p, vcomb A (snd p))) atoms))
    = Some (map (fun p => LatModel.vscale (/ bohr_to_angstrom) (snd p)) atoms)).
  { induction atoms as [|p r IH]; [reflexivity|]. cbn [map all_some fst snd].
    destruct (vsolve_spec _ (vcomb A (snd p)) D) as (c & Ec & _). rewrite Ec.
    cbn [map fst snd] in IH. rewrite IH. cbn [option_map]. do 2 f_equal. symmetry.
    apply (vsolve_unique _ _ _ _ D Ec). rewrite vcomb_scale. f_equal. destruct (snd p) as [[x y] z]. pose proof b2a_pos.
    cbn. trip; field; lra. }
  rewrite E. do 5 eexists. split; [reflexivity|]. split; [|split; [|split; [|split]]].
  - intros n. rewrite vcomb_scale. destruct A as [[[[a1 a2] a3] [[b1 b2] b3]] [[c1 c2] c3]], n as [[x y] z]. cbn. trip; ring.
  - rewrite map_map. reflexivity.
  - reflexivity.
  - reflexivity.
  - intros t ->. cbn [option_map]. unfold boltzmann_Ry. field.
Qed.
Print Assumptions C121_from_disk_partial.

(** the second atom of silicon comes back at 0.4724.. instead of 1/4, and the cutoff of 30 Ry as 15 *)
Definition si_atoms : list (string * vec) := [("Si"%string, (0, 0, 0)); ("Si"%string, (1/4, 1/4, 1/4))].
Theorem C121_from_disk_refuted : det3 fccA <> 0 /\
  exists A' b1 b2 b3 types cut' T, from_disk (pw_section fccA si_atoms 30 None) = Some (A', [(0, 0, 0); (b1, b2, b3)], types, cut', T) /\
    472 / 1000 < b1 < 473 / 1000 /\ cut' = 15.
Proof.
  assert (D : det3 fccA <> 0) by (cbn; lra). split; [exact D|].
  destruct (C121_from_disk_partial fccA si_atoms 30 None D) as (A' & b & ty & c & T & E & _ & _ & Eb & Ec & _).
  rewrite E, Eb. cbn [map snd si_atoms LatModel.vscale].
  exists A'. do 3 eexists. exists ty, c, T. split; [|split].
  - rewrite Rmult_0_r. reflexivity.
  - unfold bohr_to_angstrom. split; lra.
  - rewrite Ec. lra.
Qed.
Print Assumptions C121_from_disk_refuted.

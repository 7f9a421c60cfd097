(** Properties C161 and C162: the texts written for a KPath; C163: numbers from the pseudo potential files. *)
From Coq Require Import Reals Lra Lia List Arith ZArith Bool String Ascii Permutation.
From Verif Require Import NbrModel KPathModel KPathProps LatModel QeModel QePathModel.
Import ListNotations.
Local Open Scope R_scope.
Notation length := List.length.

(** ** specification: [B] is the reciprocal basis (without 2 pi) of the lattice [A], and the point has the crystal coordinates [c] *)
Definition dual (A B : lattice) : Prop :=
  let '(a1, a2, a3) := A in let '(b1, b2, b3) := B in
  (dot3 a1 b1 = 1 /\ dot3 a1 b2 = 0 /\ dot3 a1 b3 = 0) /\ (dot3 a2 b1 = 0 /\ dot3 a2 b2 = 1 /\ dot3 a2 b3 = 0) /\
  (dot3 a3 b1 = 0 /\ dot3 a3 b2 = 0 /\ dot3 a3 b3 = 1).
Definition comb (B : lattice) (c : vec) : pt :=
  let '((x1, y1, z1), (x2, y2, z2), (x3, y3, z3)) := B in let '(u, v, w) := c in
  [u * x1 + v * x2 + w * x3; u * y1 + v * y2 + w * y3; u * z1 + v * z2 + w * z3].
Definition crystal (A : lattice) (p : pt) (c : vec) : Prop := forall B, dual A B -> p = comb B c.

Lemma dual_det A B : dual A B -> det3 A * det3 B = 1.
Proof.
  destruct A as [[[[a b] c] [[d e] f]] [[g h] i]], B as [[[[p q] r] [[s t] u]] [[v w] x]]. unfold dual, dot3, det3.
  intros ((H1 & H2 & H3) & (H4 & H5 & H6) & (H7 & H8 & H9)).
  transitivity ((a*p+b*q+c*r) * ((d*s+e*t+f*u) * (g*v+h*w+i*x) - (d*v+e*w+f*x) * (g*s+h*t+i*u))
    - (a*s+b*t+c*u) * ((d*p+e*q+f*r) * (g*v+h*w+i*x) - (d*v+e*w+f*x) * (g*p+h*q+i*r))
    + (a*v+b*w+c*x) * ((d*p+e*q+f*r) * (g*s+h*t+i*u) - (d*s+e*t+f*u) * (g*p+h*q+i*r))); [ring|].
  rewrite H1, H2, H3, H4, H5, H6, H7, H8, H9. ring.
Qed.
Lemma to_crystal_ok A x y z c : to_crystal A [x; y; z] = Some c -> crystal A [x; y; z] c.
Proof.
  intros H B D. pose proof (dual_det A B D) as HD. destruct A as [[[[a b] c0] [[d e] f]] [[g h] i]], B as [[[[p q] r] [[s t] u]] [[v w] x3]].
  cbn [to_crystal] in H. injection H as <-. unfold dual, dot3, comb in *. cbn [det3] in HD.
  assert (ND : a * (e * i - f * h) - b * (d * i - f * g) + c0 * (d * h - e * g) <> 0) by (intros C; rewrite C in HD; lra).
  destruct D as ((H1 & H2 & H3) & (H4 & H5 & H6) & (H7 & H8 & H9)).
  set (k1 := a*x+b*y+c0*z). set (k2 := d*x+e*y+f*z). set (k3 := g*x+h*y+i*z).
  set (dx := x - (k1*p + k2*s + k3*v)). set (dy := y - (k1*q + k2*t + k3*w)). set (dz := z - (k1*r + k2*u + k3*x3)).
  assert (E1 : a*dx + b*dy + c0*dz = 0).
  { transitivity (k1 - (k1 * (a*p+b*q+c0*r) + k2 * (a*s+b*t+c0*u) + k3 * (a*v+b*w+c0*x3))); [unfold dx, dy, dz; unfold k1 at 4; ring|]. rewrite H1, H2, H3. ring. }
  assert (E2 : d*dx + e*dy + f*dz = 0).
  { transitivity (k2 - (k1 * (d*p+e*q+f*r) + k2 * (d*s+e*t+f*u) + k3 * (d*v+e*w+f*x3))); [unfold dx, dy, dz; unfold k2 at 4; ring|]. rewrite H4, H5, H6. ring. }
  assert (E3 : g*dx + h*dy + i*dz = 0).
  { transitivity (k3 - (k1 * (g*p+h*q+i*r) + k2 * (g*s+h*t+i*u) + k3 * (g*v+h*w+i*x3))); [unfold dx, dy, dz; unfold k3 at 4; ring|]. rewrite H7, H8, H9. ring. }
  assert (X : forall m, (a * (e * i - f * h) - b * (d * i - f * g) + c0 * (d * h - e * g)) * m = 0 -> m = 0).
  { intros m Hm. apply Rmult_integral in Hm. destruct Hm as [Hm|Hm]; [contradiction|exact Hm]. }
  assert (Z1 : dx = 0). { apply X. transitivity ((e*i-f*h) * (a*dx+b*dy+c0*dz) - (b*i-c0*h) * (d*dx+e*dy+f*dz) + (b*f-c0*e) * (g*dx+h*dy+i*dz)); [ring|]. rewrite E1, E2, E3. ring. }
  assert (Z2 : dy = 0). { apply X. transitivity (- (d*i-f*g) * (a*dx+b*dy+c0*dz) + (a*i-c0*g) * (d*dx+e*dy+f*dz) - (a*f-c0*d) * (g*dx+h*dy+i*dz)); [ring|]. rewrite E1, E2, E3. ring. }
  assert (Z3 : dz = 0). { apply X. transitivity ((d*h-e*g) * (a*dx+b*dy+c0*dz) - (a*h-b*g) * (d*dx+e*dy+f*dz) + (a*e-b*d) * (g*dx+h*dy+i*dz)); [ring|]. rewrite E1, E2, E3. ring. }
  unfold dx, dy, dz in Z1, Z2, Z3. f_equal; [lra|f_equal; [lra|f_equal; lra]].
Qed.

(** ** C161 *)
Fixpoint adj (l : list (list word)) : list (list word) :=
  match l with
  | a :: r => match r with b :: _ => (a ++ b) :: adj r | [] => [] end
  | [] => []
  end.
Lemma adj_length l : length (adj l) = (length l - 1)%nat.
Proof. induction l as [|a [|b l] IH]; [reflexivity|reflexivity|]. cbn [adj length] in *. rewrite IH. lia. Qed.
Lemma adj_nth l j : (S j < length l)%nat -> nth j (adj l) [] = nth j l [] ++ nth (S j) l [].
Proof.
  revert j. induction l as [|a [|b l] IH]; intros j Hj; cbn [length] in Hj; [lia|lia|].
  destruct j as [|j]; [reflexivity|]. change (adj (a :: b :: l)) with ((a ++ b) :: adj (b :: l)). cbn [nth]. apply IH. cbn [length]. lia.
Qed.
Lemma path_lines_ok A (path : list pt) : forall l prev, (forall i s, In (i, s) l -> exists x y z, nth_error path i = Some ([x; y; z] : pt)) ->
  exists ws, length ws = length l /\
    (forall j i s, nth_error l j = Some (i, s) -> exists (p : pt) c, nth_error path i = Some p /\ crystal A p c /\ nth j ws [] = WS s :: wvec c) /\
    path_lines A path prev l = Some (adj (match prev with Some q => q :: ws | None => ws end)).
Proof.
  induction l as [|[i s] l IH]; intros prev H.
  - exists []. split; [reflexivity|]. split; [intros [|j] ? ? E; discriminate|]. destruct prev; reflexivity.
  - destruct (H i s (or_introl eq_refl)) as (x & y & z & E). cbn [path_lines]. rewrite E. destruct (to_crystal A [x; y; z]) as [c|] eqn:EC; [|destruct A as [[a1 a2] a3]; discriminate].
    destruct (IH (Some (WS s :: wvec c)) (fun i' s' I => H i' s' (or_intror I))) as (ws & L & W & P).
    exists ((WS s :: wvec c) :: ws). split; [cbn [length]; congruence|]. split.
    + intros [|j] i' s' F; [|apply (W j i' s' F)]. injection F as <- <-. exists [x; y; z], c. split; [exact E|]. split; [apply to_crystal_ok, EC|reflexivity].
    + rewrite P. cbn [option_map]. destruct prev as [q|]; reflexivity.
Qed.
Theorem C161_path_partial : forall tab fmt p0 n0 cs k A, length p0 = 3%nat -> chain tab fmt (MkK [p0] [n0] [0%nat]) cs k ->
  exists pts Ns ls, waypoints tab p0 cs pts Ns /\ length ls = length cs /\
    k_path_wannier A k = Some ([WS "begin"; WS "kpoint_path"] :: ls ++ [[WS "end"; WS "kpoint_path"]]) /\
    forall j, (j < length cs)%nat -> exists c c', crystal A (nth j pts []) c /\ crystal A (nth (S j) pts []) c' /\
      nth j ls [] = (WS (nth j (kp_names k) ""%string) :: wvec c) ++ WS (nth (S j) (kp_names k) ""%string) :: wvec c'.
Proof.
  intros tab fmt p0 n0 cs k A H3 HC. destruct (C42_consistent tab fmt p0 n0 cs k HC) as (pts & Ns & WP & [C1 C2 C3 C4 C5 C6 C7]).
  assert (LN : length Ns = length cs) by (destruct WP as (qs & _ & _ & F & _); symmetry; clear -F; induction F; cbn; congruence).
  assert (P0 : nth 0 pts [] = p0) by (destruct WP as (qs & -> & _); reflexivity).
  assert (NI : forall j, (j < length pts)%nat -> nth_error (combine (kp_idx k) (kp_names k)) j = Some (wp_index Ns j, nth j (kp_names k) ""%string)).
  { intros j Hj. rewrite (nth_error_nth' _ (0%nat, ""%string)) by (rewrite combine_length, C4, map_length, seq_length; lia).
    rewrite combine_nth by (rewrite C4, map_length, seq_length; lia). f_equal. f_equal. rewrite C4, (nth_indep _ 0%nat (wp_index Ns 0)) by (rewrite map_length, seq_length; lia).
    rewrite map_nth, seq_nth by exact Hj. reflexivity. }
  assert (PI : forall j, (j < length pts)%nat -> nth_error (kp_path k) (wp_index Ns j) = Some (nth j pts [])).
  { intros j Hj. rewrite <- C5 by exact Hj. apply nth_error_nth'. pose proof (wp_index_le Ns j). lia. }
  assert (LC : length (combine (kp_idx k) (kp_names k)) = length pts) by (rewrite combine_length, C4, map_length, seq_length; lia).
  destruct (path_lines_ok A (kp_path k) (combine (kp_idx k) (kp_names k)) None) as (ws & L & W & P).
  { intros i s I. destruct (In_nth_error _ _ I) as (j & E). assert (Hj : (j < length pts)%nat) by (rewrite <- LC; apply nth_error_Some; congruence).
    rewrite (NI j Hj) in E. injection E as <- _. rewrite (PI j Hj). specialize (C6 j Hj). rewrite P0, H3 in C6.
    destruct (nth j pts []) as [|x [|y [|z [|t r]]]]; try discriminate. exists x, y, z. reflexivity. }
  exists pts, Ns, (adj ws). split; [exact WP|]. split; [rewrite adj_length; lia|]. split; [unfold k_path_wannier; rewrite P; reflexivity|].
  intros j Hj. destruct (W j _ _ (NI j ltac:(lia))) as (p & c & E1 & K1 & N1). destruct (W (S j) _ _ (NI (S j) ltac:(lia))) as (p' & c' & E2 & K2 & N2).
  rewrite PI in E1, E2 by lia. injection E1 as <-. injection E2 as <-. exists c, c'. split; [exact K1|]. split; [exact K2|]. rewrite adj_nth by lia. rewrite N1, N2. reflexivity.
Qed.
Print Assumptions C161_path_partial.
(** the face centered lattice with two segments *)
Definition tab3 : ptable := [("G", ([0; 0; 0], "G")); ("X", ([0; 1; 0], "X")); ("L", ([1/2; 1/2; 1/2], "L"))]%string.
Example C161_ex : exists k, chain tab3 ex_fmt (MkK [[0; 0; 0]] ["G"%string] [0%nat]) [MkC (EStr "X") None 4; MkC (EStr "L") None 2] k /\
  k_path_wannier (fcc 1) k = Some [[WS "begin"; WS "kpoint_path"]; [WS "G"; WF 0; WF 0; WF 0; WS "X"; WF 0; WF (1/2); WF (1/2)];
    [WS "X"; WF 0; WF (1/2); WF (1/2); WS "L"; WF 0; WF (1/2); WF 0]; [WS "end"; WS "kpoint_path"]]%string /\
  dual (fcc 1) ((-1, -1, 1), (1, 1, 1), (-1, 1, -1)).
Proof.
  eexists. split; [eapply chainS; [reflexivity|]; eapply chainS; [reflexivity|]; apply chain0|]. split.
  - unfold k_path_wannier. cbn -[INR Rdiv Rmult Rplus Rminus]. unfold lerp. cbn -[Rdiv].
    change (Pos.to_nat 4) with 4%nat. change (Pos.to_nat 2) with 2%nat. cbn -[INR Rdiv Rmult Rplus Rminus]. cbn [INR].
    repeat match goal with |- Some _ = Some _ => f_equal | |- _ :: _ = _ :: _ => f_equal | |- WF _ = WF _ => f_equal end; try reflexivity; try field.
  - unfold dual, fcc, lscale, vscale, dot3. repeat split; field.
Qed.
(** the lines should have eight words, but the default name of a point given by coordinates contains blanks *)
Fixpoint blanks (s : string) : nat := match s with EmptyString => 0 | String c r => (if Ascii.eqb c " " then 1 else 0) + blanks r end.
Definition word_count (l : list word) : nat := fold_right (fun w n => (match w with WS s => S (blanks s) | _ => 1 end + n)%nat) 0%nat l.
Lemma blanks_app s t : blanks (s ++ t) = (blanks s + blanks t)%nat.
Proof. induction s as [|c s IH]; cbn [append blanks]; [reflexivity|]. rewrite IH. lia. Qed.
Theorem C161_names_refuted : forall f3 x y z A, exists k l,
  chain tab3 (fmt_point f3) (MkK [[0; 0; 0]] ["G"%string] [0%nat]) [MkC (EVec [x; y; z]) None 1] k /\
  k_path_wannier A k = Some [[WS "begin"; WS "kpoint_path"]; l; [WS "end"; WS "kpoint_path"]]%string /\ (10 <= word_count l)%nat.
Proof.
  intros f3 x y z [[[[a b] c] [[d e] f]] [[g h] i]]. eexists. eexists. split; [eapply chainS; [reflexivity|]; apply chain0|]. split; [reflexivity|].
  unfold word_count. cbn [app fold_right wvec dot3 kp_names combine map fst snd opt_name]. unfold fmt_point. cbn [map join_blank].
  cbn [opt_name c_name]. rewrite !blanks_app. cbn [blanks Ascii.eqb Bool.eqb]. lia.
Qed.
Print Assumptions C161_names_refuted.
(** after a call of to() that raised, the names are shifted: the point L is written with the name of the point that failed *)
Theorem C161_failed_refuted : exists k k' l, let k0 := MkK [[0; 0; 0]] ["G"%string] [0%nat] in
  kto' tab3 ex_fmt k0 (MkC (EStr "X") None 0) = (k, Some KZeroDivisionError) /\ kto' tab3 ex_fmt k (MkC (EStr "L") None 1) = (k', None) /\
  k_path_wannier (sc 1) k' = Some [[WS "begin"; WS "kpoint_path"]; l; [WS "end"; WS "kpoint_path"]]%string /\
  l = [WS "G"; WF 0; WF 0; WF 0; WS "X"; WF (1 / 2); WF (1 / 2); WF (1 / 2)]%string.
Proof.
  eexists. eexists. eexists. split; [reflexivity|]. split; [reflexivity|]. split; [reflexivity|].
  cbn [app wvec dot3]. unfold lerp. cbn -[Rdiv INR]. change (Pos.to_nat 1) with 1%nat. cbn -[Rdiv]. repeat match goal with |- _ :: _ = _ :: _ => f_equal | |- WF _ = WF _ => f_equal end; try reflexivity; try field.
Qed.
Print Assumptions C161_failed_refuted.

(** ** C162: str(KPath). QE reads {tpiba_b} as multiples of 2 pi / alat, and for ibrav = 0 alat is the length of the first lattice vector;
    the named points are multiples of 2 pi / a *)
Definition alat (A : lattice) : R := let '(a1, _, _) := A in sqrt (dot3 a1 a1).
Definition means (alat a : R) (w : list word) (p : pt) : Prop :=
  exists x y z n, w = [WF x; WF y; WF z; WN n] /\ p = [a / alat * x; a / alat * y; a / alat * z].
Lemma str_points_ok : forall path, Forall (fun p : pt => length p = 3%nat) path ->
  exists ls, str_points path = Some ls /\ length ls = length path /\
    forall j, (j < length path)%nat -> forall x y z, nth j path [] = [x; y; z] -> nth j ls [] = [WF (2 * x); WF (2 * y); WF (2 * z); WN 1].
Proof.
  induction 1 as [|p path Hp HF (ls & E & L & N)]; [exists []; split; [reflexivity|]; split; [reflexivity|intros; cbn in *; lia]|].
  destruct p as [|x [|y [|z [|t r]]]]; try discriminate. cbn [str_points]. rewrite E. eexists. split; [reflexivity|]. split; [cbn; congruence|].
  intros [|j] Hj u v w EQ; [|apply N; [cbn in Hj; lia|exact EQ]]. cbn [nth] in *. injection EQ as <- <- <-. rewrite (Rmult_comm 2 x), (Rmult_comm 2 y), (Rmult_comm 2 z). reflexivity.
Qed.
Lemma len3 (p : pt) : length p = 3%nat -> exists x y z, p = [x; y; z].
Proof. destruct p as [|x [|y [|z [|t r]]]]; try discriminate. intros _. exists x, y, z. reflexivity. Qed.
Theorem C162_card_partial : forall k alat a, a <> 0 -> alat <> 0 -> Forall (fun p : pt => length p = 3%nat) (kp_path k) ->
  exists ls, kpath_str k = Some ([WS "K_POINTS"; WS "{tpiba_b}"] :: [WN (length (kp_path k))] :: ls)%string /\ length ls = length (kp_path k) /\
    forall j, (j < length (kp_path k))%nat ->
      (alat = 2 * a -> means alat a (nth j ls []) (nth j (kp_path k) [])) /\
      (means alat a (nth j ls []) (nth j (kp_path k) []) -> alat = 2 * a \/ nth j (kp_path k) [] = [0; 0; 0]).
Proof.
  intros k alat a Ha Hl HF. destruct (str_points_ok _ HF) as (ls & E & L & N). exists ls. split; [unfold kpath_str; rewrite E; reflexivity|]. split; [exact L|].
  intros j Hj. rewrite Forall_forall in HF. assert (H3 := HF _ (nth_In _ [] Hj)). destruct (len3 _ H3) as (x & y & z & EP).
  rewrite (N j Hj x y z EP). unfold pt in *. rewrite EP. split.
  - intros ->. exists (2 * x), (2 * y), (2 * z), 1%nat. split; [reflexivity|]. f_equal; [field; assumption|]. f_equal; [field; assumption|]. f_equal. field; assumption.
  - intros (u & v & w & n & EW & EV). injection EW as <- <- <- _. injection EV as E1 E2 E3.
    destruct (Req_dec alat (2 * a)) as [|NE]; [left; assumption|right].
    assert (Z : forall t, t = a / alat * (2 * t) -> t = 0).
    { intros t Et. assert (X : t * (alat - 2 * a) = 0). { apply (Rmult_eq_reg_r (/ alat)); [|apply Rinv_neq_0_compat, Hl]. transitivity (t - a / alat * (2 * t)); [field; exact Hl|]. rewrite <- Et. ring. }
      apply Rmult_integral in X. destruct X as [X|X]; [exact X|lra]. }
    rewrite (Z x E1), (Z y E2), (Z z E3). reflexivity.
Qed.
Print Assumptions C162_card_partial.
Lemma alat_cubic a : 0 < a -> forall A, In A [sc a; fcc a; bcc a] -> alat A <> 0 /\ alat A <> 2 * a.
Proof.
  intros Ha A HA. assert (X : exists q, 0 < q < 4 /\ alat A * alat A = q * (a * a) /\ 0 <= alat A).
  { destruct HA as [<-|[<-|[<-|[]]]]; [exists 1|exists (1 / 2)|exists (3 / 4)]; (split; [lra|]); unfold alat, sc, fcc, bcc, lscale, vscale, dot3;
    (split; [rewrite sqrt_sqrt; [field|nra]|apply sqrt_pos]). }
  destruct X as (q & Hq & E & P). assert (0 < a * a) by nra. split; intros C; rewrite C in E; nra.
Qed.
(** so for the cubic lattices only the center of the zone is written correctly *)
Theorem C162_scale_refuted : forall a A, 0 < a -> In A [sc a; fcc a; bcc a] -> exists k ls,
  chain tab3 ex_fmt (MkK [[0; 0; 0]] ["G"%string] [0%nat]) [MkC (EStr "X") None 1] k /\
  kpath_str k = Some ([WS "K_POINTS"; WS "{tpiba_b}"] :: [WN 2] :: ls)%string /\ ~ means (alat A) a (nth 1 ls []) [0; 1; 0] /\ means (alat A) a (nth 0 ls []) [0; 0; 0].
Proof.
  intros a A Ha HA. destruct (alat_cubic a Ha A HA) as (H0 & H2). eexists. eexists. split; [eapply chainS; [reflexivity|]; apply chain0|]. split; [reflexivity|]. split.
  - cbn [nth]. intros (x & y & z & n & EW & EV). injection EW as _ <- _ _. injection EV as _ E _. cbn [fst snd INR] in E. apply H2.
    apply (Rmult_eq_reg_r (/ alat A)); [|apply Rinv_neq_0_compat, H0]. rewrite Rinv_r by exact H0. rewrite E at 1. field. exact H0.
  - exists (0 * 2), (0 * 2), (0 * 2), 1%nat. split; [reflexivity|]. repeat (f_equal; try (field; exact H0)).
Qed.
Print Assumptions C162_scale_refuted.
Example C162_ex : exists k, chain tab3 ex_fmt (MkK [[0; 0; 0]] ["G"%string] [0%nat]) [MkC (EStr "X") None 1] k /\
  Forall (fun p : pt => length p = 3%nat) (kp_path k) /\ length (kp_path k) = 2%nat.
Proof. eexists. split; [eapply chainS; [reflexivity|]; apply chain0|]. split; [repeat constructor|reflexivity]. Qed.

(** ** C163 *)
Lemma existsb_in t l : existsb (String.eqb t) l = true <-> In t l.
Proof.
  rewrite existsb_exists. split; [intros (x & I & E); apply String.eqb_eq in E; subst x; exact I|]. intros I. exists t. split; [exact I|apply String.eqb_refl].
Qed.
Lemma dict_keys_in : forall types seen t, In t (dict_keys seen types) <-> In t types /\ ~ In t seen.
Proof.
  induction types as [|a types IH]; intros seen t; cbn [dict_keys]; [cbn; tauto|]. destruct (existsb (String.eqb a) seen) eqn:E.
  - apply existsb_in in E. rewrite IH. cbn [In]. split; [tauto|]. intros ([<-|H] & N); [contradiction|tauto].
  - assert (NE : ~ In a seen) by (intros I; apply existsb_in in I; congruence). cbn [In]. rewrite IH. cbn [In]. split.
    + intros [<-|(H & N)]; tauto.
    + intros ([<-|H] & N); [tauto|]. destruct (string_dec a t) as [|NE2]; [left; assumption|right; tauto].
Qed.
Lemma collect_ok {A B} (f : A -> pp_res B) : forall l r, collect f l = POk r <-> map fst r = l /\ Forall (fun p => f (fst p) = POk (snd p)) r.
Proof.
  induction l as [|a l IH]; intros r; cbn [collect].
  - split; [intros H; injection H as <-; split; [reflexivity|constructor]|]. intros (H & _). apply map_eq_nil in H. subst r. reflexivity.
  - destruct (f a) as [b|e] eqn:E.
    + destruct (collect f l) as [bs|e] eqn:EC.
      * split; [intros H; injection H as <-; destruct (proj1 (IH bs) eq_refl) as (M & F); split; [cbn; congruence|constructor; assumption]|].
        intros (M & F). destruct r as [|[a' b'] r]; [discriminate|]. injection M as -> M. inversion F as [|x y F1 F2]; subst. cbn [fst snd] in F1. rewrite E in F1. injection F1 as <-.
        assert (X := proj2 (IH r) (conj eq_refl F2)). injection X as <-. reflexivity.
      * split; [discriminate|]. intros (M & F). destruct r as [|[a' b'] r]; [discriminate|]. injection M as -> M. inversion F as [|x y F1 F2]; subst. assert (X := proj2 (IH r) (conj eq_refl F2)). discriminate.
    + split; [discriminate|]. intros (M & F). destruct r as [|[a' b'] r]; [discriminate|]. injection M as -> M. inversion F as [|x y F1 F2]; subst. cbn [fst snd] in F1. congruence.
Qed.
Lemma collect_total {A B} (f : A -> pp_res B) l : (forall a, In a l -> exists b, f a = POk b) -> exists r, collect f l = POk r.
Proof.
  induction l as [|a l IH]; intros H; [exists []; reflexivity|]. destruct (H a (or_introl eq_refl)) as (b & E). destruct IH as (r & R); [intros; apply H; right; assumption|].
  cbn [collect]. rewrite E, R. eexists. reflexivity.
Qed.
Lemma int_valence_ok z n : int_valence z = POk n <-> z = IZR n.
Proof.
  unfold int_valence. destruct (Req_EM_T z (IZR (Int_part z))) as [E|NE].
  - split; [intros H; injection H as <-; exact E|]. intros ->. f_equal. symmetry. apply eq_IZR. symmetry in E. symmetry. exact E.
  - split; [discriminate|]. intros ->. exfalso. apply NE. f_equal. unfold Int_part. rewrite <- (tech_up (IZR n) (n + 1)); [lia|rewrite plus_IZR; lra|rewrite plus_IZR; lra].
Qed.
(** the attributes of the file of a type, in the files and the table *)
Definition attributes (pp : string -> option string) (header : string -> option (R * R * R)) (t : string) (a : R * R * R) : Prop :=
  exists f, pp t = Some f /\ header f = Some a.
Lemma find_key_ok {B} t (l : list (string * B)) b : find_key t l = Some b -> In (t, b) l.
Proof. induction l as [|[s c] l IH]; cbn [find_key]; [discriminate|]. destruct (String.eqb_spec t s) as [->|]; [intros H; injection H as ->; left; reflexivity|right; auto]. Qed.
Lemma find_key_in {B} t (l : list (string * B)) : In t (map fst l) -> exists b, find_key t l = Some b.
Proof. induction l as [|[s c] l IH]; cbn [find_key map fst In]; [tauto|]. destruct (String.eqb_spec t s) as [->|N]; [intros _; exists c; reflexivity|]. intros [E|H]; [congruence|auto]. Qed.
Theorem C163_valence : forall pp header types n, read_valence pp header types = POk n <->
  exists v : string -> Z, (forall t, In t types -> exists w r, attributes pp header t (IZR (v t), w, r)) /\ n = fold_right Z.add 0%Z (map v types).
Proof.
  intros pp header types n. unfold read_valence, pp_subset.
  set (g := fun t => match pp t with Some f => POk f | None => PErr PKeyError end). set (h := fun tf : string * string => match header (snd tf) with Some (z, _, _) => int_valence z | None => PErr PNoFile end).
  split.
  - destruct (collect g (dict_keys [] types)) as [sub|] eqn:E1; [|discriminate]. destruct (collect h sub) as [vs|] eqn:E2; [|discriminate]. intros H. injection H as <-.
    apply collect_ok in E1. destruct E1 as (M1 & F1). apply collect_ok in E2. destruct E2 as (M2 & F2). rewrite Forall_forall in F1, F2.
    set (tabl := map (fun p => (fst (fst p), snd p)) vs). exists (fun t => match find_key t tabl with Some z => z | None => 0%Z end). split; [|reflexivity].
    intros t It. assert (IK : In t (map fst tabl)).
    { unfold tabl. rewrite map_map. cbn [fst]. rewrite <- (map_map fst fst), M2, M1. apply dict_keys_in. split; [exact It|intros []]. }
    destruct (find_key_in t tabl IK) as (z & Ez). rewrite Ez. apply find_key_ok in Ez. unfold tabl in Ez. apply in_map_iff in Ez. destruct Ez as ([[t' f] z'] & Eq & Iv). cbn [fst snd] in Eq. injection Eq as -> ->.
    assert (X := F2 _ Iv). cbn [fst snd] in X. unfold h in X. cbn [snd] in X. destruct (header f) as [[[zz w] r]|] eqn:EH; [|discriminate]. apply int_valence_ok in X. subst zz.
    assert (IS : In (t, f) sub) by (rewrite <- M2; apply (in_map fst _ _ Iv)). assert (Y := F1 _ IS). cbn [fst snd] in Y. unfold g in Y. destruct (pp t) as [f'|] eqn:EP; [|discriminate]. injection Y as ->.
    exists w, r, f. split; assumption.
  - intros (v & Hv & ->). destruct (collect_total g (dict_keys [] types)) as (sub & E1).
    { intros t It. apply dict_keys_in in It. destruct (Hv t (proj1 It)) as (w & r & f & EP & _). exists f. unfold g. rewrite EP. reflexivity. }
    rewrite E1. apply collect_ok in E1. destruct E1 as (M1 & F1). rewrite Forall_forall in F1.
    assert (HH : forall t f, In (t, f) sub -> In t types /\ h (t, f) = POk (v t)).
    { intros t f I. assert (It : In t types). { assert (X := in_map fst _ _ I). rewrite M1 in X. apply dict_keys_in in X. exact (proj1 X). } split; [exact It|].
      destruct (Hv t It) as (w & r & f' & EP & EH). assert (Y := F1 _ I). cbn [fst snd] in Y. unfold g in Y. rewrite EP in Y. injection Y as ->. unfold h. cbn [snd]. rewrite EH. apply int_valence_ok. reflexivity. }
    destruct (collect_total h sub) as (vs & E2). { intros [t f] I. exists (v t). apply HH, I. }
    rewrite E2. apply collect_ok in E2. destruct E2 as (M2 & F2). rewrite Forall_forall in F2. f_equal. unfold sum_valence. f_equal. apply map_ext_in. intros t It.
    set (tabl := map (fun p => (fst (fst p), snd p)) vs). assert (IK : In t (map fst tabl)).
    { unfold tabl. rewrite map_map. cbn [fst]. rewrite <- (map_map fst fst), M2, M1. apply dict_keys_in. split; [exact It|intros []]. }
    destruct (find_key_in t tabl IK) as (z & Ez). rewrite Ez. apply find_key_ok in Ez. unfold tabl in Ez. apply in_map_iff in Ez. destruct Ez as ([[t' f] z'] & Eq & Iv). cbn [fst snd] in Eq. injection Eq as -> ->.
    assert (X := F2 _ Iv). cbn [fst snd] in X. assert (IS : In (t, f) sub) by (rewrite <- M2; apply (in_map fst _ _ Iv)). rewrite (proj2 (HH t f IS)) in X. injection X as <-. reflexivity.
Qed.
Print Assumptions C163_valence.
(** the order of the atoms does not matter, and the electrons of two parts of the cell add up *)
Lemma sum_perm (v : string -> Z) l l' : Permutation l l' -> fold_right Z.add 0%Z (map v l) = fold_right Z.add 0%Z (map v l').
Proof. induction 1; cbn [map fold_right]; lia. Qed.
Lemma sum_app_z (v : string -> Z) l l' : fold_right Z.add 0%Z (map v (l ++ l')) = (fold_right Z.add 0%Z (map v l) + fold_right Z.add 0%Z (map v l'))%Z.
Proof. induction l as [|a l IH]; cbn [map app fold_right]; lia. Qed.
Theorem C163_order : forall pp header types types' n, Permutation types types' -> read_valence pp header types = POk n -> read_valence pp header types' = POk n.
Proof.
  intros pp header types types' n HP H. apply C163_valence in H. destruct H as (v & Hv & ->). apply C163_valence. exists v. split.
  - intros t It. apply Hv. apply (Permutation_in t (Permutation_sym HP) It).
  - apply sum_perm, HP.
Qed.
Print Assumptions C163_order.
Theorem C163_parts : forall pp header types types' n n', read_valence pp header types = POk n -> read_valence pp header types' = POk n' ->
  read_valence pp header (types ++ types') = POk (n + n')%Z.
Proof.
  intros pp header types types' n n' H H'. apply C163_valence in H, H'. destruct H as (v & Hv & ->). destruct H' as (v' & Hv' & ->). apply C163_valence.
  assert (EV : forall t, In t types -> In t types' -> v t = v' t).
  { intros t I I'. destruct (Hv t I) as (w & r & f & P & E). destruct (Hv' t I') as (w' & r' & f' & P' & E'). rewrite P in P'. injection P' as <-. rewrite E in E'. injection E' as E' _ _. apply eq_IZR, E'. }
  exists (fun t => if in_dec string_dec t types then v t else v' t). split.
  - intros t It. destruct (in_dec string_dec t types) as [I|N]; [apply Hv, I|]. apply in_app_or in It. destruct It as [I|I]; [contradiction|apply Hv', I].
  - rewrite sum_app_z. f_equal; f_equal; apply map_ext_in; intros t It; destruct (in_dec string_dec t types) as [I|N]; [reflexivity|contradiction|symmetry; apply EV; assumption|reflexivity].
Qed.
Print Assumptions C163_parts.
(** the cutoff is the largest of the suggested ones; without atoms it is an exception *)
Lemma fold_max : forall l x c, fold_left Rmax l x = c -> x <= c /\ (forall y, In y l -> y <= c) /\ (c = x \/ In c l).
Proof.
  induction l as [|a l IH]; intros x c; cbn [fold_left In]; [intros ->; split; [lra|]; split; [tauto|left; reflexivity]|].
  intros H. destruct (IH _ _ H) as (H1 & H2 & H3). pose proof (Rmax_l x a). pose proof (Rmax_r x a). split; [lra|]. split.
  - intros y [<-|I]; [lra|apply H2, I].
  - destruct H3 as [->|I]; [|tauto]. unfold Rmax. destruct (Rle_dec x a); tauto.
Qed.
Theorem C163_cutoff : forall pp header types c, cutoff pp header types = POk c <->
  (exists t z r, In t types /\ attributes pp header t (z, c, r)) /\
  forall t, In t types -> exists z w r, attributes pp header t (z, w, r) /\ w <= c.
Proof.
  intros pp header types c. unfold cutoff, pp_subset.
  set (g := fun t => match pp t with Some f => POk f | None => PErr PKeyError end). set (h := fun tf : string * string => match header (snd tf) with Some (_, w, _) => POk w | None => PErr PNoFile end).
  assert (ST : forall sub ws, collect g (dict_keys [] types) = POk sub -> collect h sub = POk ws ->
    (forall t, In t types -> exists z w r, attributes pp header t (z, w, r) /\ In w (map snd ws)) /\
    (forall w, In w (map snd ws) -> exists t z r, In t types /\ attributes pp header t (z, w, r))).
  { intros sub ws E1 E2. apply collect_ok in E1. destruct E1 as (M1 & F1). apply collect_ok in E2. destruct E2 as (M2 & F2). rewrite Forall_forall in F1, F2.
    assert (AT : forall t f w, In ((t, f), w) ws -> In t types /\ exists z r, attributes pp header t (z, w, r)).
    { intros t f w Iv. assert (X := F2 _ Iv). cbn [fst snd] in X. unfold h in X. cbn [snd] in X. destruct (header f) as [[[zz w'] r]|] eqn:EH; [|discriminate]. injection X as ->.
      assert (IS : In (t, f) sub) by (rewrite <- M2; apply (in_map fst _ _ Iv)). assert (Y := F1 _ IS). cbn [fst snd] in Y. unfold g in Y. destruct (pp t) as [f'|] eqn:EP; [|discriminate]. injection Y as ->.
      split; [assert (Z := in_map fst _ _ IS); rewrite M1 in Z; apply dict_keys_in in Z; exact (proj1 Z)|]. exists zz, r, f. split; assumption. }
    split.
    - intros t It. assert (IK : In t (map fst (map fst ws))) by (rewrite M2, M1; apply dict_keys_in; split; [exact It|intros []]).
      rewrite map_map in IK. apply in_map_iff in IK. destruct IK as ([[t' f] w] & <- & Iv). cbn [fst]. destruct (AT _ _ _ Iv) as (_ & z & r & A). exists z, w, r. split; [exact A|apply (in_map snd _ _ Iv)].
    - intros w Iw. apply in_map_iff in Iw. destruct Iw as ([[t f] w'] & <- & Iv). destruct (AT _ _ _ Iv) as (It & z & r & A). exists t, z, r. split; assumption. }
  split.
  - destruct (collect g (dict_keys [] types)) as [sub|] eqn:E1; [|discriminate]. destruct (collect h sub) as [ws|] eqn:E2; [|discriminate]. destruct (ST sub ws eq_refl E2) as (S1 & S2).
    destruct (map snd ws) as [|x l] eqn:EM; [discriminate|]. cbn [max_list]. intros H. injection H as H. destruct (fold_max l x c H) as (B1 & B2 & B3). split.
    + apply S2. cbn [In]. destruct B3 as [->|I]; tauto.
    + intros t It. destruct (S1 t It) as (z & w & r & A & Iw). exists z, w, r. split; [exact A|]. destruct Iw as [<-|I]; [exact B1|apply B2, I].
  - intros ((t0 & z0 & r0 & I0 & A0) & HB). destruct (collect_total g (dict_keys [] types)) as (sub & E1).
    { intros t It. apply dict_keys_in in It. destruct (HB t (proj1 It)) as (z & w & r & (f & EP & _) & _). exists f. unfold g. rewrite EP. reflexivity. }
    rewrite E1. destruct (collect_total h sub) as (ws & E2).
    { intros [t f] I. assert (C1 := E1). apply collect_ok in C1. destruct C1 as (M1 & F1). rewrite Forall_forall in F1. assert (Y := F1 _ I). cbn [fst snd] in Y.
      assert (It : In t types) by (assert (Z := in_map fst _ _ I); rewrite M1 in Z; apply dict_keys_in in Z; exact (proj1 Z)).
      destruct (HB t It) as (z & w & r & (f' & EP & EH) & _). unfold g in Y. rewrite EP in Y. injection Y as ->. exists w. unfold h. cbn [snd]. rewrite EH. reflexivity. }
    rewrite E2. destruct (ST sub ws E1 E2) as (S1 & S2).
    assert (UN : forall t a b, attributes pp header t a -> attributes pp header t b -> a = b) by (intros t a b (f & P & E) (f' & P' & E'); congruence).
    destruct (map snd ws) as [|x l] eqn:EM; [destruct (S1 t0 I0) as (? & ? & ? & _ & [])|]. cbn [max_list]. f_equal.
    destruct (fold_max l x _ eq_refl) as (B1 & B2 & B3). set (m := fold_left Rmax l x) in *. apply Rle_antisym.
    + assert (Im : In m (x :: l)) by (cbn [In]; destruct B3 as [->|I]; [left; reflexivity|right; exact I]).
      destruct (S2 m Im) as (t & z & r & It & A). destruct (HB t It) as (z' & w' & r' & A' & Hw). assert (X := UN _ _ _ A A'). injection X as _ -> _. exact Hw.
    + destruct (S1 t0 I0) as (z & w & r & A & Iw). assert (X := UN _ _ _ A A0). injection X as _ -> _. destruct Iw as [<-|I]; [exact B1|apply B2, I].
Qed.
Print Assumptions C163_cutoff.
Definition ex_pp (t : string) : option string := if String.eqb t "Cu" then Some "Cu.UPF"%string else if String.eqb t "O" then Some "O.UPF"%string else None.
Definition ex_header (f : string) : option (R * R * R) := if String.eqb f "Cu.UPF" then Some (11, 60, 400) else if String.eqb f "O.UPF" then Some (6, 47, 323) else None.
Example C163_ex : read_valence ex_pp ex_header ["Cu"; "O"; "O"]%string = POk 23%Z /\ cutoff ex_pp ex_header ["O"; "Cu"; "O"]%string = POk 60 /\
  cutoff ex_pp ex_header [] = PErr PValueError.
Proof.
  split; [|split; [|reflexivity]].
  - apply C163_valence. exists (fun t => if String.eqb t "Cu" then 11 else 6)%Z. split; [|reflexivity].
    intros t [<-|[<-|[<-|[]]]]; [exists 60, 400, "Cu.UPF"%string|exists 47, 323, "O.UPF"%string|exists 47, 323, "O.UPF"%string]; split; reflexivity.
  - apply C163_cutoff. split; [exists "Cu"%string, 11, 400; split; [right; left; reflexivity|exists "Cu.UPF"%string; split; reflexivity]|].
    intros t [<-|[<-|[<-|[]]]]; [exists 6, 47, 323|exists 11, 60, 400|exists 6, 47, 323]; (split; [|lra]); eexists; split; reflexivity.
Qed.

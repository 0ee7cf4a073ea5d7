(** Properties C37, C38: rfTRL with constant line parameters.  w = 2 pi f,
    z(w) = rjwL, y(w) = gjwC: series impedance and shunt admittance per metre,
    gam w the root of z y with non-negative real part, Zchar w = z / gam. *)
From mathcomp Require Import all_ssreflect all_algebra.
From mathcomp.algebra_tactics Require Import ring.
From Coq Require Import String.
From Verif Require Import Base ConvModel ConvSpec MxLib ConvProofs ConvArr DevModel DevSpec DevThm TrlModel TrlSpec TrlThm.
Set Implicit Arguments.
Unset Strict Implicit.
Unset Printing Implicit Defensive.
Import Order.TTheory GRing.Theory Num.Theory.
Local Open Scope ring_scope.

Section Props.
Variable C : numClosedFieldType.
Variables (exp rjwL gjwC : C -> C) (nodes : C -> C -> seq C).
Hypothesis Hnodes : good_nodes nodes.
Local Notation getS := (trl_getS exp rjwL gjwC nodes).
Local Notation getSs := (trl_getSs exp rjwL gjwC nodes).
Local Notation VISWs := (VISWs exp rjwL gjwC nodes).
Local Notation gam := (gam rjwL gjwC).
Local Notation Zchar := (Zchar rjwL gjwC).

(** ** C37 *)
Theorem C37_gamma_Zc w : gam w ^+ 2 = rjwL w * gjwC w /\ 0 <= 'Re (gam w) /\
  (gam w != 0 -> Zchar w * gam w = rjwL w /\ Zchar w ^+ 2 * gjwC w = rjwL w).
Proof.
split; first exact: np_sqrtK.
split; first exact: np_sqrt_Re_ge0.
move=> Hg; have E : gam w ^+ 2 = rjwL w * gjwC w by exact: np_sqrtK.
rewrite /TrlThm.Zchar divfK //; split=> //.
rewrite expr_div_n E.
have H : rjwL w * gjwC w != 0 by rewrite -E expf_neq0.
have [H1 H2] : rjwL w != 0 /\ gjwC w != 0 by move: H; rewrite mulf_eq0 negb_or => /andP.
by field; rewrite H1 H2.
Qed.

(** after any calls getS returns the scattering matrix, on the reference impedance asked
    for, of the line with the present length (the object o is arbitrary) *)
Theorem C37_line (o : trl C) w Zb S : t_zb o != 0 -> zref0 o Zb != 0 -> t_L o != 0 ->
  (getS o w Zb [::]).2 = Ok S ->
  is_scat2 (line_law (exp (gam w * t_L o))^-1 (Zchar w)) (zref0 o Zb) S.
Proof.
move=> H1 H2 H3 /(@trl_getS_law _ exp rjwL gjwC nodes Hnodes o w Zb [::]) /=.
rewrite /tl_law /= (negbTE H3); exact.
Qed.

(** params={'L': ...} *)
Theorem C37_params (o : trl C) w Zb L S : t_zb o != 0 -> zref0 o Zb != 0 -> L != 0 ->
  (getS o w Zb [:: ("L"%string, L)]).2 = Ok S ->
  is_scat2 (line_law (exp (gam w * L))^-1 (Zchar w)) (zref0 o Zb) S.
Proof.
move=> H1 H2 H3 /(@trl_getS_law _ exp rjwL gjwC nodes Hnodes o w Zb [:: ("L"%string, L)]) /=.
rewrite /tl_law /= (negbTE H3); exact.
Qed.

Lemma Zc_neq0 (o : trl C) w Zb S : (getS o w Zb [::]).2 = Ok S -> t_L o != 0 -> Zchar w != 0 /\ exp (gam w * t_L o) != 0.
Proof.
rewrite /trl_getS trl_set_nil /trl_get1S /solveVI /= => H HL.
move: H; case E: (solve0 _ _ _ _ _ _ _) => [e|] //= _.
have [VI [M [_ HM _]]] := solve0_last Hnodes E.
by rewrite (negbTE HL) in HM; case/vi_at_line: HM.
Qed.

Theorem C37_reciprocal (o : trl C) w Zb S : t_zb o != 0 -> zref0 o Zb != 0 ->
  (getS o w Zb [::]).2 = Ok S -> symmetric S.
Proof.
move=> H1 H2 HS; have H := @trl_getS_law _ exp rjwL gjwC nodes Hnodes o w Zb [::] S H1 H2 HS.
apply: (scat2_sym H2 H) => v1 v2 i1 i2 v1' v2' i1' i2'; rewrite /tl_law /=.
case: eqP => [_|/eqP HL]; first exact: through_recip.
by have [Hz _] := Zc_neq0 HS HL; apply: line_recip.
Qed.

(** no loss: real positive characteristic impedance, |exp(gamma L)| = 1 *)
Theorem C37_lossless (o : trl C) w Zb S : t_zb o != 0 -> 0 < zref0 o Zb -> t_L o != 0 -> 
  0 < Zchar w -> `|exp (gam w * t_L o)| = 1 ->
  (getS o w Zb [::]).2 = Ok S -> unitary S.
Proof.
move=> H1 H2 HL Hz He HS; have H2' : zref0 o Zb != 0 by rewrite gt_eqF.
apply: (scat2_unitary H2 (C37_line H1 H2' HL HS)) => v1 v2 i1 i2 v1' v2' i1' i2'.
apply: line_lossless; rewrite ?gtr0_real ?gt_eqF //.
have Hne : exp (gam w * t_L o) != 0 by rewrite -normr_eq0 He oner_neq0.
by rewrite -normCK normrV ?unitfE // He invr1 expr1n.
Qed.

(** lossy line *)
Theorem C37_passive (o : trl C) w Zb S : t_zb o != 0 -> 0 < zref0 o Zb -> t_L o != 0 -> 
  0 < Zchar w -> 1 <= `|exp (gam w * t_L o)| ->
  (getS o w Zb [::]).2 = Ok S -> passive S.
Proof.
move=> H1 H2 HL Hz He HS; have H2' : zref0 o Zb != 0 by rewrite gt_eqF.
have [_ Hne] := Zc_neq0 HS HL.
apply: (scat2_passive H2 (C37_line H1 H2' HL HS)) => v1 v2 i1 i2.
apply: line_power => //; rewrite normrV ?unitfE // invf_le1 //.
by apply: lt_le_trans He; exact: ltr01.
Qed.

(** zero length *)
Theorem C37_through (o : trl C) w Zb S : t_zb o != 0 -> zref0 o Zb != 0 -> t_L o = 0 ->
  (getS o w Zb [::]).2 = Ok S -> S = mx2 0 1 1 0.
Proof.
move=> H1 H2 HL HS; have H := @trl_getS_law _ exp rjwL gjwC nodes Hnodes o w Zb [::] S H1 H2 HS.
by apply: (through_S H2); move: H; rewrite /tl_law /= HL eqxx.
Qed.

(** on its own impedance: no reflection, transmission exp(-gamma L) *)
Theorem C37_matched (o : trl C) w Zb S : t_zb o != 0 -> zref0 o Zb = Zchar w -> t_L o != 0 ->
  (getS o w Zb [::]).2 = Ok S -> S = mx2 0 (exp (gam w * t_L o))^-1 (exp (gam w * t_L o))^-1 0.
Proof.
move=> H1 H2 HL HS; have [Hz _] := Zc_neq0 HS HL.
have H := @C37_line o w Zb S H1; rewrite H2 in H.
by apply: (line_matched Hz (H Hz HL HS)).
Qed.

(** cascade: the matrices of two lines of lengths L1 and L2 combine to that of L1 + L2 *)
Theorem C37_cascade (o1 o2 o12 : trl C) w z S1 S2 S12 : z != 0 -> t_zb o1 != 0 -> t_zb o2 != 0 -> t_zb o12 != 0 ->
  t_L o1 != 0 -> t_L o2 != 0 -> t_L o12 = t_L o1 + t_L o2 -> t_L o12 != 0 ->
  exp (gam w * t_L o12) = exp (gam w * t_L o1) * exp (gam w * t_L o2) ->
  (getS o1 w (Some z) [::]).2 = Ok S1 -> (getS o2 w (Some z) [::]).2 = Ok S2 ->
  (getS o12 w (Some z) [::]).2 = Ok S12 ->
  is_scat2 (cascade (scat_law z S1) (scat_law z S2)) z S12.
Proof.
move=> Hz Hb1 Hb2 Hb12 HL1 HL2 EL HL12 He HS1 HS2 HS12.
have Hzr o : zref0 o (Some z) = z by rewrite /zref0 /= (negbTE Hz).
have [Hzc He1] := Zc_neq0 HS1 HL1; have [_ He2] := Zc_neq0 HS2 HL2.
have := C37_line Hb1 _ HL1 HS1; rewrite Hzr => /(_ Hz) G1.
have := C37_line Hb2 _ HL2 HS2; rewrite Hzr => /(_ Hz) G2.
have := C37_line Hb12 _ HL12 HS12; rewrite Hzr => /(_ Hz); apply: is_scat2_ext => v1 v2 i1 i2.
rewrite He invfM -(line_cascade _ _ _ _ Hzc (invr_neq0 He1) (invr_neq0 He2)).
by split=> -[vm [im [A B]]]; exists vm, im; split; [apply/G1|apply/G2|apply/G1|apply/G2].
Qed.

(** change of reference impedance *)
Theorem C37_reference (o : trl C) w z1 z2 S1 S2 : t_zb o != 0 -> z1 != 0 -> z2 != 0 ->
  (getS o w (Some z1) [::]).2 = Ok S1 -> (getS o w (Some z2) [::]).2 = Ok S2 ->
  ConvertGeneral (Nd0 z2) (Nd2 S1) (Nd0 z1) "V" "V" = Ok (Nd2 S2).
Proof.
move=> Hb H1 H2 HS1 HS2.
have Hzr (o' : trl C) z : z != 0 -> zref0 o' (Some z) = z by move=> H; rewrite /zref0 /= (negbTE H).
have := @trl_getS_law _ exp rjwL gjwC nodes Hnodes o w (Some z1) [::] S1 Hb; rewrite Hzr // => /(_ H1 HS1) G1.
have := @trl_getS_law _ exp rjwL gjwC nodes Hnodes o w (Some z2) [::] S2 Hb; rewrite Hzr // => /(_ H2 HS2) G2.
by rewrite ConvertGeneral_matrix // (iffLR (scat2_convert S2 H1 H2 G1) G2).
Qed.

(** a list of frequencies gives the matrices of the single ones *)
Theorem C37_list (o : trl C) ws Zb Ss : (getSs o ws Zb [::]).2 = Ok Ss <->
  mapM (fun w => (getS o w Zb [::]).2) ws = Ok Ss.
Proof.
by rewrite /trl_getSs trl_set_nil get1S_loop_Ok.
Qed.

(** getS answers for every lossy or lossless line with gamma <> 0, and for L = 0 *)
Theorem C37_defined (o : trl C) w Zb : 0 < t_zb o -> 0 < zref0 o Zb -> t_L o != 0 -> gam w != 0 ->
  0 < Zchar w -> (forall x, exp (gam w * x) != 0) -> 1 <= `|exp (gam w * t_L o)| ->
  exists S, (getS o w Zb [::]).2 = Ok S.
Proof.
move=> H1 H2 HL Hg Hz He Hge.
have Ht : `|(exp (gam w * t_L o))^-1| <= 1.
  by rewrite normrV ?unitfE // invf_le1 //; apply: lt_le_trans Hge; exact: ltr01.
apply: (trl_getS_total Hnodes) => //; try by rewrite gt_eqF.
  by rewrite /tl_law (negbTE HL); apply: line_scat_ex => //; rewrite invr_neq0.
by rewrite /tl_law (negbTE HL); apply: line_scat_ex => //; rewrite invr_neq0.
Qed.

(** a lossless line at f = 0 (gamma = 0) should be a direct connection: there is no matrix *)
Theorem C37_dc_refuted (o : trl C) w Zb : t_L o != 0 -> gam w = 0 ->
  (getS o w Zb [::]).2 = Raise ZeroDivisionError.
Proof.
move=> HL Hg; rewrite /trl_getS trl_set_nil /trl_get1S /solveVI /= /solve0.
have [s ->] := Hnodes (t_L o) w; rewrite /= last_rcons eq_sym (negbTE HL) /=.
by rewrite /vi_at -/(gam w) Hg /pdiv /= eqxx.
Qed.

(** ** C38 *)
(** the profile returned by VISWs for incident waves a1, a2 on the reference impedance,
    after any calls that did not include a failing set: end voltages and currents are those
    of the excited line, in between two waves with exp(+-gamma x) *)
Theorem C38_profile (L zb : C) cs w a1 a2 Zb xs V I v1 v2 i1 i2 : exp 0 = 1 ->
  let o0 := Trl L zb [::] in let o := foldl (trl_do exp rjwL gjwC nodes) o0 cs in
  good_calls exp rjwL gjwC nodes o0 cs -> t_zb o != 0 -> zref0 o Zb != 0 ->
  (VISWs o w a1 a2 Zb).2 = Ok (xs, (V, I)) ->
  tl_law exp rjwL gjwC (t_L o) w v1 v2 i1 i2 ->
  wave_a "V" (zref0 o Zb) v1 i1 = a1 -> wave_a "V" (zref0 o Zb) v2 i2 = a2 ->
  [/\ size V = size xs /\ size I = size xs, (exists s, xs = 0 :: rcons s (t_L o)) /\ (t_L o != 0 -> xs = nodes (t_L o) w),
      head 0 V = v1 /\ head 0 I = - i1, last 0 V = v2 /\ last 0 I = i2 &
      t_L o != 0 -> forall k, (k < size xs)%N -> tl_point (exp (gam w * xs`_k)) (Zchar w) v1 (- i1) V`_k I`_k].
Proof.
move=> He o0 o Hg Hb Hz HV; have Hc : consistent exp rjwL gjwC nodes o by apply: run_consistent.
have [_ E] := visw_step w a1 a2 Zb Hc; rewrite E in HV.
exact: visw0_profile HV.
Qed.

(** such an excitation exists whenever getS returns *)
Theorem C38_excitation (o : trl C) w Zb S a1 a2 : t_zb o != 0 -> zref0 o Zb != 0 -> (getS o w Zb [::]).2 = Ok S ->
  exists v1 v2 i1 i2, [/\ tl_law exp rjwL gjwC (t_L o) w v1 v2 i1 i2, wave_a "V" (zref0 o Zb) v1 i1 = a1 &
     wave_a "V" (zref0 o Zb) v2 i2 = a2].
Proof.
move=> H1 H2 HS; have H := @trl_getS_law _ exp rjwL gjwC nodes Hnodes o w Zb [::] S H1 H2 HS.
exact: (tl_excited a1 a2 H2 H).
Qed.

(** results do not depend on earlier calls *)
Theorem C38_history (L zb : C) cs w a1 a2 Zb :
  let o := foldl (trl_do exp rjwL gjwC nodes) (Trl L zb [::]) cs in
  good_calls exp rjwL gjwC nodes (Trl L zb [::]) cs ->
  (VISWs o w a1 a2 Zb).2 = (VISWs (Trl (t_L o) (t_zb o) [::]) w a1 a2 Zb).2.
Proof.
move=> o Hg; have Hc : consistent exp rjwL gjwC nodes o by apply: run_consistent.
have [_ ->] := visw_step w a1 a2 Zb Hc.
by have [_ ->] := @visw_step _ exp rjwL gjwC nodes (Trl (t_L o) (t_zb o) [::]) w a1 a2 Zb (@consistent_nil _ exp rjwL gjwC nodes (Trl (t_L o) (t_zb o) [::])).
Qed.

(** a failing set changes the length but the old profile is still returned *)
Theorem C38_stale_refuted (o : trl C) w a1 a2 z L' bad x xs sw : z != 0 -> bad != "L"%string -> bad != "Zbase"%string ->
  (VISWs o w a1 a2 (Some z)).2 = Ok (xs, sw) ->
  let o1 := (VISWs o w a1 a2 (Some z)).1 in
  let: (o2, r) := trl_set o1 [:: ("L"%string, L'); (bad, x)] in
  [/\ r = Raise ValueError, t_L o2 = L' & (VISWs o2 w a1 a2 (Some z)).2 = Ok (xs, sw)].
Proof.
move=> Hz Hb1 Hb2 HV o1; rewrite /trl_set /= (negbTE Hb1) (negbTE Hb2); split=> //.
have Hin : exists2 e, dget (t_solved o1) w = Some e & e_xs e = xs /\ dget (e_sw e) ([:: a1; a2], z) = Some sw.
  move: HV; rewrite /o1 /TrlModel.VISWs.
  case E: (dget (t_solved o) w) => [e|].
    case Eh: (dget (e_sw e) _) => [sw'|] /=; first by case=> <- <-; exists e.
    rewrite (negbTE Hz) /=.
    case Eg: (trl_getS _ _ _ _ _ _ _ _) => [o3 [Sm|]] //=; case: (pdiv _ _) => //= I0.
    case: (solveVI _ _ _ _ _ _) => [o4 [e4|]] //= [<- <-].
    by rewrite dget_dset eqxx; eexists; [reflexivity|]; rewrite /= dget_dset eqxx.
  rewrite /= (negbTE Hz) /=.
  case Eg: (trl_getS _ _ _ _ _ _ _ _) => [o3 [Sm|]] //=; case: (pdiv _ _) => //= I0.
  case: (solveVI _ _ _ _ _ _) => [o4 [e4|]] //= [<- <-].
  by rewrite dget_dset eqxx; eexists; [reflexivity|]; rewrite /= dget_dset eqxx.
by have [e E1 [<- E2]] := Hin; rewrite /TrlModel.VISWs /= E1 E2.
Qed.
End Props.

(** np.linspace gives points from 0 to L *)
Theorem C38_nodes_linspace (C : numClosedFieldType) (n : C -> C -> nat) : (forall L w, (1 < n L w)%N) ->
  good_nodes (fun L w => linspace L (n L w)).
Proof.
move=> Hn L w; have := Hn L w; case: (n L w) => [|[|m]] // _; rewrite /linspace.
exists [seq L * k%:R / m.+1%:R | k <- iota 1 m].
have -> : iota 0 m.+2 = 0%N :: iota 1 m ++ [:: m.+1] by rewrite -[[:: m.+1]]/(iota (1 + m) 1) -iotaD addn1.
rewrite /= map_cat /= -cats1.
rewrite mulr0 mul0r; congr (_ :: _ ++ [:: _]).
by rewrite mulfK // pnatr_eq0.
Qed.

(** a line with z = y = w and an exponential with exp 1 = 2, exp 2 = 4: gamma = Zc = 1 at w = 1 *)
Definition wexp (C : numClosedFieldType) (x : C) : C :=
  if x == 0 then 1 else if x == 1 then 2%:R else if x == 2%:R then 4%:R else 1.
Definition wnodes (C : numClosedFieldType) (L w : C) : seq C := linspace L 2.

Example C37_witness (C : numClosedFieldType) : 
  [/\ good_nodes (@wnodes C), gam (@id C) id 1 = 1 /\ Zchar (@id C) id 1 = 1, forall x : C, wexp x != 0,
   forall L : C, L = 1 \/ L = 2%:R -> exists S, (trl_getS (@wexp C) id id (@wnodes C) (Trl L 50%:R [::]) 1 (Some 25%:R) [::]).2 = Ok S &
   wexp (gam (@id C) id 1 * (1 + 1)) = wexp (gam (@id C) id 1 * 1) * wexp (gam (@id C) id 1 * 1)].
Proof.
have Hg : gam (@id C) id 1 = 1.
  by rewrite /gam mulr1 /np_sqrt sqrtC1 (Creal_ReP 1 (rpred1 _)) ler01.
have Hz : Zchar (@id C) id 1 = 1 by rewrite /Zchar Hg divr1.
have N2 : (2%:R == 1 :> C) = false by rewrite (eqr_nat _ 2 1).
have He (x : C) : wexp x != 0.
  by rewrite /wexp; do 3 (case: ifP => _; rewrite ?oner_neq0 ?pnatr_eq0 //).
have Hn : good_nodes (@wnodes C) by apply: (@C38_nodes_linspace C (fun _ _ => 2%N)).
split=> //; last by rewrite Hg !mul1r -mulr2n /wexp pnatr_eq0 N2 eqxx oner_eq0 eqxx -natrM.
move=> L HL; apply: (C37_defined Hn); rewrite ?Hg ?oner_neq0 ?Hz ?ltr01 //=.
- by rewrite ltr0n.
- by rewrite /zref0 /= pnatr_eq0 ltr0n.
- by case: HL => ->; rewrite ?oner_neq0 ?pnatr_eq0.
- rewrite mul1r; case: HL => ->; rewrite /wexp ?oner_eq0 ?pnatr_eq0 ?N2 ?eqxx normr_nat ler1n //.
Qed.

Example C38_witness (C : numClosedFieldType) : exists xs V I,
  (VISWs (@wexp C) id id (@wnodes C) (Trl 1 50%:R [::]) 1 1 0 (Some 25%:R)).2 = Ok (xs, (V, I)).
Proof.
have [Hn _ _ H _] := C37_witness C.
have [S HS] := H 1 (or_introl erefl).
have Hz : (25%:R == 0 :> C) = false by rewrite pnatr_eq0.
move: HS; rewrite /trl_getS trl_set_nil /VISWs /= /trl_getS trl_set_nil Hz /=.
case Eg: (trl_get1S _ _ _ _ _ _ _) => [o1 [Sm|]] //= _; rewrite /pdiv /= Hz /=.
move: Eg; rewrite /trl_get1S /solveVI /= Hz.
case E0: (solve0 _ _ _ _ _ _ _) => [e|] //= [<- _] /=; rewrite eqxx /=.
by do 3 eexists.
Qed.

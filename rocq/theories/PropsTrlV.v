(** Property C59: rfTRL with position dependent parameters.  z(x) = rjwL(w, x), y(x) =
    gjwC(w, x), w = 2 pi f: series impedance and shunt admittance per metre at x; odeint is
    taken to solve the differential equations it is given (good_odeint), arithmetic to be
    exact. *)
From mathcomp Require Import all_ssreflect all_algebra.
From mathcomp.algebra_tactics Require Import ring.
From mathcomp.real_closed Require Import complex polyrcf.
From Coq Require Import String.
From Verif Require Import Base ConvModel ConvSpec MxLib ConvProofs ConvArr DevModel DevSpec DevThm TrlModel TrlSpec TrlThm TrlVar TrlVarT.
Set Implicit Arguments.
Unset Strict Implicit.
Unset Printing Implicit Defensive.
Import Order.TTheory GRing.Theory Num.Theory.
Local Open Scope ring_scope.

Section Props.
Variable C : numClosedFieldType.
Variable der : (C -> C) -> (C -> C) -> Prop.
Hypothesis Hd : calculus der.
Variables (pi : C) (rjwL gjwC : C -> C -> C).
Variable odeint : (seq C -> C -> seq C) -> seq C -> seq C -> seq (seq C).
Hypothesis Hode : good_odeint der rjwL gjwC odeint.
Variables (ceil : C -> nat) (fuel : nat).
Local Notation nodes := (nodesV pi rjwL gjwC ceil fuel).
Local Notation getS := (v_getS pi rjwL gjwC odeint ceil fuel).
Local Notation getSs := (v_getSs pi rjwL gjwC odeint ceil fuel).
Local Notation VISWs := (v_VISWs pi rjwL gjwC odeint ceil fuel).
Local Notation run := (foldl (v_do pi rjwL gjwC odeint ceil fuel)).
Local Notation z f := (rjwL (2%:R * pi * f)).
Local Notation y f := (gjwC (2%:R * pi * f)).

(** getS returns the scattering matrix, on the reference impedance asked for, of the line
    whose voltage and current obey the telegrapher's equations *)
Theorem C59_line (o : vtrl C) f Zb S : 0 <= v_L o -> v_zb o != 0 -> vref o Zb != 0 ->
  (getS o f Zb [::]).2 = Ok S -> is_scat2 (var_law der (z f) (y f) (v_L o)) (vref o Zb) S.
Proof. exact: v_getS_law. Qed.

Theorem C59_reciprocal (o : vtrl C) f Zb S : 0 <= v_L o -> v_zb o != 0 -> vref o Zb != 0 ->
  (getS o f Zb [::]).2 = Ok S -> symmetric S.
Proof.
move=> HL H1 H2 /(C59_line HL H1 H2) HS; apply: (scat2_sym H2 HS) => v1 v2 i1 i2 v1' v2' i1' i2'; exact: (var_recip Hd HL).
Qed.

(** no losses anywhere on the line *)
Theorem C59_lossless (o : vtrl C) f Zb S : 0 <= v_L o -> v_zb o != 0 -> 0 < vref o Zb ->
  (forall x, 0 <= x <= v_L o -> 'Re (z f x) = 0 /\ 'Re (y f x) = 0) ->
  (getS o f Zb [::]).2 = Ok S -> unitary S.
Proof.
move=> HL H1 H2 H0 /(C59_line HL H1 (lt0r_neq0 H2)) HS; apply: (scat2_unitary H2 HS) => v1 v2 i1 i2 v1' v2' i1' i2'.
exact: (var_lossless Hd HL H0).
Qed.

(** no gain anywhere on the line *)
Theorem C59_passive (o : vtrl C) f Zb S : 0 <= v_L o -> v_zb o != 0 -> 0 < vref o Zb ->
  (forall x, 0 <= x <= v_L o -> 0 <= 'Re (z f x) /\ 0 <= 'Re (y f x)) ->
  (getS o f Zb [::]).2 = Ok S -> passive S.
Proof.
move=> HL H1 H2 H0 /(C59_line HL H1 (lt0r_neq0 H2)) HS; apply: (scat2_passive H2 HS) => v1 v2 i1 i2.
exact: (var_power Hd HL H0).
Qed.

(** without gain getS returns whenever the node points can be found *)
Theorem C59_defined (o : vtrl C) f Zb xs : 0 <= v_L o -> 0 < v_zb o -> 0 < vref o Zb ->
  (forall x, 0 <= x <= v_L o -> 0 <= 'Re (z f x) /\ 0 <= 'Re (y f x)) ->
  nodes (v_dx o) (v_L o) f = Ok xs -> exists S, (getS o f Zb [::]).2 = Ok S.
Proof. by move=> HL H1 H2 H0 Hn; apply: (v_getS_total Hd Hode HL H1 H2 Hn H0). Qed.

Theorem C59_reference (o : vtrl C) f z1 z2 S1 S2 : 0 <= v_L o -> v_zb o != 0 -> z1 != 0 -> z2 != 0 ->
  (getS o f (Some z1) [::]).2 = Ok S1 -> (getS o f (Some z2) [::]).2 = Ok S2 ->
  ConvertGeneral (Nd0 z2) (Nd2 S1) (Nd0 z1) "V" "V" = Ok (Nd2 S2).
Proof.
move=> HL Hb H1 H2 E1 E2.
have R1 : vref o (Some z1) = z1 by rewrite /vref /= (negbTE H1).
have R2 : vref o (Some z2) = z2 by rewrite /vref /= (negbTE H2).
have K1 := C59_line HL Hb (_ : vref o (Some z1) != 0) E1; have K2 := C59_line HL Hb (_ : vref o (Some z2) != 0) E2.
rewrite R1 R2 in K1 K2.
by rewrite ConvertGeneral_matrix // (iffLR (scat2_convert S2 H1 H2 (K1 H1)) (K2 H2)).
Qed.

(** a list of frequencies gives the matrices of the single ones *)
Theorem C59_list (o : vtrl C) fs Zb Ss : (getSs o fs Zb [::]).2 = Ok Ss <->
  mapM (fun f => (getS o f Zb [::]).2) fs = Ok Ss.
Proof. by rewrite /v_getSs /=; rewrite (@v_loop_Ok _ pi rjwL gjwC odeint ceil fuel (v_with o [::]) Zb fs Ss). Qed.

(** zero length with a given step: a direct connection *)
Theorem C59_through (o : vtrl C) f Zb S : v_L o = 0 -> v_zb o != 0 -> vref o Zb != 0 ->
  (getS o f Zb [::]).2 = Ok S -> S = mx2 0 1 1 0.
Proof.
move=> HL H1 H2 HS; have H0 : 0 <= v_L o by rewrite HL.
have := C59_line H0 H1 H2 HS; rewrite HL => K; apply: (@through_S _ (vref o Zb)) => //.
move=> v1 v2 i1 i2; rewrite -K; split.
  move=> [-> Hi]; have [V1 [V2 [I1 [I2 [[B1 B2 B3 B4] _]]]]] := @ode_VI _ der Hd rjwL gjwC odeint Hode (2%:R * pi * f) [:: 0] 0 (lexx 0) erefl erefl.
  have [V [I [Ht E1 E2 _]]] := tele_from Hd B1 B2 B3 B4 v2 (- i1).
  exists V, I; split=> //; split=> //; rewrite E2; apply/eqP; rewrite eq_sym -addr_eq0 addrC; exact/eqP.
by move=> [V [I [_ [<- <- E1 E2]]]]; split=> //; move: E2; rewrite E1 => <-; rewrite subrr.
Qed.

(** the profile returned by VISWs for incident waves a1, a2 on the reference impedance,
    after any calls: the values at the node points, which run from 0 to L, of the solution of
    the telegrapher's equations with these incident waves.  There is one. *)
Theorem C59_profile (L zb : C) dx cs f a1 a2 Zb xs Vs Is :
  let o := run (VTrl L zb dx [::]) cs in 0 <= L -> zb != 0 -> vref o Zb != 0 -> forward pi rjwL gjwC dx f ->
  (VISWs o f a1 a2 Zb).2 = Ok (xs, (Vs, Is)) ->
  let excited V I := [/\ telegraph der (z f) (y f) 0 L V I, wave_a "V" (vref o Zb) (V 0) (- I 0) = a1 &
                         wave_a "V" (vref o Zb) (V L) (I L) = a2] in
  [/\ head 0 xs = 0, last 0 xs = L, all (fun x => 0 <= x <= L) xs,
      forall V I, excited V I -> Vs = map V xs /\ Is = map I xs & exists V I, excited V I].
Proof.
move=> o HL Hb Hz Hf; have [Hc [E1 E2 E3]] := @v_run_consistent _ pi rjwL gjwC odeint ceil fuel (VTrl L zb dx [::]) cs (fun _ _ => ltac:(done)).
have [_ _ ->] := @viswV_step _ pi rjwL gjwC odeint ceil fuel o f a1 a2 Zb Hc; rewrite -/o in E1 E2 E3; rewrite E1 E2 E3 /= => HV.
have [H1 H2 H3 H4 [H5 H6]] := viswV_profile Hd Hode HL Hf Hb Hz HV.
by split=> // V I [K1 K2 K3]; apply: H5.
Qed.

(** results do not depend on earlier calls, whatever they were *)
Theorem C59_history (L zb : C) dx cs f a1 a2 Zb :
  let o0 := VTrl L zb dx [::] in let o := run o0 cs in
  (getS o f Zb [::]).2 = (getS o0 f Zb [::]).2 /\ (VISWs o f a1 a2 Zb).2 = (VISWs o0 f a1 a2 Zb).2.
Proof.
move=> o0 o; have [Hc [E1 E2 E3]] := @v_run_consistent _ pi rjwL gjwC odeint ceil fuel o0 cs (fun _ _ => ltac:(done)).
rewrite -/o in E1 E2 E3; split; first by rewrite /v_getS /= /v_with E1 E2 E3.
have [_ _ ->] := @viswV_step _ pi rjwL gjwC odeint ceil fuel o f a1 a2 Zb Hc.
have [_ _ ->] := @viswV_step _ pi rjwL gjwC odeint ceil fuel o0 f a1 a2 Zb (fun _ _ => ltac:(done)).
by rewrite /vref E1 E2 E3.
Qed.

(** nothing can be set: set and getS with params raise ValueError and change nothing *)
Theorem C59_fixed (o : vtrl C) k v kw f Zb : v_set o ((k, v) :: kw) = (o, Raise ValueError) /\
  getS o f Zb ((k, v) :: kw) = (o, Raise ValueError).
Proof. by []. Qed.

(** the step is two pi times too long, since the frequency is taken for the angular
    frequency: a lossless line with constant z = i b1 w, y = i b2 w and a length of up to 2 pi / d
    wavelengths gets no node point between its ends (instead of one per 1 / d wavelength) *)
Theorem C59_nodes_refuted (o : vtrl C) b1 b2 d f lambda : 0 < f -> 0 < lambda -> 0 < pi -> 0 < d ->
  (forall w x, rjwL w x = 'i * (b1 * w)) -> (forall w x, gjwC w x = 'i * (b2 * w)) ->
  lambda ^+ 2 * (f ^+ 2 * (b1 * b2)) = 1 -> (0 < fuel)%N -> 0 < v_L o <= 2%:R * pi * (lambda / d) ->
  nodes (DInt d) (v_L o) f = Ok [:: 0; v_L o].
Proof.
move=> Hf Hl Hpi Hd0 Hz Hy Hlam Hn /andP [HL0 HL].
have Hw x : wavlen pi rjwL gjwC f x = Ok (2%:R * pi * lambda).
  rewrite /wavlen Hz Hy.
  have -> : 'i * (b1 * f) * ('i * (b2 * f)) = - (lambda^-1 ^+ 2).
    have -> : lambda^-1 ^+ 2 = f ^+ 2 * (b1 * b2).
      by rewrite exprVn -[LHS]mulr1 -Hlam mulKf // expf_neq0 // gt_eqF.
    transitivity ('i ^+ 2 * (f ^+ 2 * (b1 * b2))); first by ring.
    by rewrite sqrCi mulN1r.
  have -> : np_sqrt (- lambda^-1 ^+ 2) = 'i * lambda^-1.
    have Hi : 0 < lambda^-1 by rewrite invr_gt0.
    have Hr : lambda^-1 \is Num.real by rewrite gtr0_real.
    have E : sqrtC (- lambda^-1 ^+ 2) = 'i * lambda^-1.
      rewrite -mulrN1 rootCMl ?exprn_ge0 ?(ltW Hi) // -imaginaryCE mulrC; congr ('i * _).
      by rewrite rootCpX ?(ltW Hi) // sqrtCK.
    rewrite /np_sqrt E ReMr // Re_i mul0r lexx //.
  rewrite /pdiv /= ImMr ?gtr0_real ?invr_gt0 // Im_i mul1r invr_eq0 (gt_eqF Hl).
  by rewrite invrK.
rewrite /nodesV; case: (fuel) Hn => // n _; rewrite /= HL0 Hw /= /pdiv /= (gt_eqF Hd0) /= add0r -mulrA.
have -> : forall s, march n (v_L o) s (2%:R * pi * (lambda / d)) = Ok [::].
  by move=> s; case: n => [|n] /=; rewrite (le_gtF HL).
have Hq : 2%:R * pi * (lambda / d) != 0 by rewrite gt_eqF // (lt_le_trans HL0 HL).
by rewrite /bind /= (negbTE Hq) /= !mul0r [_ * v_L o]mulrC mulfK.
Qed.

(** a line of length 0 with the default step: no matrix *)
Theorem C59_zero_refuted (o : vtrl C) d f Zb : v_L o = 0 -> v_dx o = DInt d ->
  (getS o f Zb [::]).2 = Raise ZeroDivisionError.
Proof.
move=> HL Hdx; rewrite /v_getS /= /v_get1S /solveV /= /solveV0 HL Hdx /nodesV.
have -> : forall n s, march n 0 s (0 : C) = Ok [::] by case=> /= *; rewrite ltxx.
by rewrite /= /pdiv /= eqxx.
Qed.
End Props.

(** ** a calculus: polynomials, on the real complex numbers R[i] over any real closed field *)
Section Witness.
Variable C : numClosedFieldType.

Definition polder (f f' : C -> C) : Prop :=
  exists p : {poly C}, forall x : C, x \is Num.real -> f x = p.[x] /\ f' x = p^`().[x].

(** z(x) = i x, y = 0: the exact solution of the equations *)
Definition wz (w x : C) : C := 'i * x.
Definition wy (w x : C) : C := 0.
Definition wslope (y0 : seq C) : seq C := [:: - (y0`_3 / 2%:R); y0`_2 / 2%:R; 0; 0].
Definition wY (y0 : seq C) (h : C) k x := y0`_k + (wslope y0)`_k * (x ^+ 2 - h ^+ 2).
Definition wode (F : seq C -> C -> seq C) (y0 xs : seq C) : seq (seq C) :=
  [seq mkseq (wY y0 (head 0 xs) ^~ x) (size y0) | x <- xs].

Lemma irot (x a b : C) : 'i * x * (a + 'i * b) = - (x * b) + 'i * (x * a).
Proof.
have E2 : ('i : C) * 'i = - 1 by rewrite -expr2 sqrCi.
transitivity (('i * 'i) * (x * b) + 'i * (x * a)); first by ring.
by rewrite E2 mulN1r.
Qed.
Lemma wode_good : good_odeint polder wz wy wode.
Proof.
move=> w y0 xs Hs Hr Hh Hl; exists (wY y0 (head 0 xs)).
have Hh' : head 0 xs \is Num.real by rewrite ger0_real.
have Hx x : head 0 xs <= x <= last 0 xs -> x \is Num.real.
  by move=> /andP [H _]; rewrite ger0_real // (le_trans Hh).
have H2 : (2%:R : C)^-1 \is Num.real by rewrite realV realn.
have Hn k : y0`_k \is Num.real.
  by case: (ltnP k (size y0)) => H; [exact: (allP Hr _ (mem_nth 0 H))|rewrite nth_default // real0].
have Hsl k : (wslope y0)`_k \is Num.real.
  by case: k => [|[|[|[|k]]]] /=; rewrite ?nth_nil ?real0 // ?realN realM.
split=> //.
- by move=> k x /Hx H; rewrite /wY realD // realM // realB // realX.
- by move=> k _; rewrite /wY subrr mulr0 addr0.
- move=> k Hk; exists (fun x => (wslope y0)`_k * (x *+ 2)).
    exists ((y0`_k)%:P + (wslope y0)`_k *: ('X^2 - (head 0 xs ^+ 2)%:P)) => x _; split.
      by rewrite /wY !hornerE.
    by rewrite derivD derivC add0r derivZ derivB derivC subr0 derivXn /= expr1 !hornerE.
  move=> x /Hx Hxr; rewrite Hs /mkseq /= /eqnVI /wz /wy /=.
  have E : 'i * x * (wY y0 (head 0 xs) 2 x + 'i * wY y0 (head 0 xs) 3 x) = - (x * y0`_3) + 'i * (x * y0`_2).
    rewrite /wY /wslope /= !mul0r !addr0.
    exact: irot.
  have T : (2%:R : C) != 0 by rewrite pnatr_eq0.
  have Q (a : C) : a / 2%:R * (x *+ 2) = x * a.
    by rewrite -[x *+ 2]mulr_natr mulrA mulrAC divfK // mulrC.
  rewrite Hs in Hk; case: k Hk => [|[|[|[|k]]]] //= _.
  + by rewrite E Re_rect ?realN ?realM // mulNr Q.
  + by rewrite E Im_rect ?realN ?realM // Q.
  + by rewrite !mul0r raddf0.
  + by rewrite !mul0r raddf0.
Qed.

Lemma wit_loop (c : calculus polder) pi ceil : exists S xs,
  let o := VTrl 1 50%:R (DFloat 1) [::] in
  [/\ nodesV pi wz wy ceil 0 (v_dx o) 1 1 = Ok xs,
      (v_getS pi wz wy wode ceil 0 o 1 None [::]).2 = Ok S,
      forward pi wz wy (v_dx o) 1 & vref o None != 0].
Proof.
have Hn : exists xs, nodesV pi wz wy ceil 0 (DFloat 1) 1 1 = Ok xs.
  by eexists; rewrite /nodesV (le_gtF ler01) /pdiv /= oner_eq0 /=.
have [xs Hxs] := Hn; pose o : vtrl C := VTrl 1 50%:R (DFloat 1) [::].
have H50 : 0 < 50%:R :> C by rewrite ltr0n.
have Hv : vref o None = 50%:R by [].
have Hi (x : C) : 0 <= x <= v_L o -> 0 <= 'Re (wz (2%:R * pi * 1) x) /\ 0 <= 'Re (wy (2%:R * pi * 1) x).
  move=> /andP [Hx _]; rewrite /wz /wy ReMr ?ger0_real // Re_i mul0r lexx; split=> //.
  by rewrite raddf0.
have [S HS] := @C59_defined _ polder c pi wz wy wode wode_good ceil 0 o 1 None xs ler01 H50 H50 Hi Hxs.
exists S, xs; split=> //; last by rewrite gt_eqF.
Qed.
End Witness.

Section Complex.
Variable R : rcfType.
Notation C := R[i].
Local Open Scope complex_scope.

Definition repoly (h : C -> R) (p : {poly C}) : {poly R} := \poly_(k < size p) h p`_k.

Lemma repoly_horner (h : {additive C -> R}) (Hh : forall (a : C) (b : R), h (a * b%:C) = h a * b) p (t : R) :
  (repoly h p).[t] = h p.[t%:C].
Proof.
rewrite horner_poly horner_coef raddf_sum; apply: eq_bigr => k _.
by rewrite -rmorphX /= Hh.
Qed.
Lemma repoly_deriv (h : {additive C -> R}) p : (repoly h p)^`() = repoly h p^`().
Proof.
have X q (j : nat) : (repoly h q)`_j = h q`_j.
  by rewrite /repoly coef_poly; case: ltnP => // H; rewrite nth_default // raddf0.
by apply/polyP => k; rewrite coef_deriv !X coef_deriv raddfMn.
Qed.

Lemma ReM_real (a : C) (b : R) : complex.Re (a * b%:C) = complex.Re a * b.
Proof. by case: a => r i /=; rewrite mulr0 subr0. Qed.
Lemma ImM_real (a : C) (b : R) : complex.Im (a * b%:C) = complex.Im a * b.
Proof. by case: a => r i /=; rewrite mulr0 add0r. Qed.

Lemma poly_calculus : calculus (@polder [numClosedFieldType of R[i]]).
Proof.
split.
- move=> a b f f' g g' [p Hp] [q Hq]; exists (a *: p + b *: q) => x Hx.
  have [-> ->] := Hp x Hx; have [-> ->] := Hq x Hx.
  by rewrite derivD !derivZ !hornerD !hornerZ.
- move=> f f' g g' [p Hp] [q Hq]; exists (p * q) => x Hx.
  have [-> ->] := Hp x Hx; have [-> ->] := Hq x Hx.
  by rewrite derivM hornerD !hornerM.
- move=> f f' [p Hp]; exists (map_poly (@conjC [numClosedFieldType of R[i]]) p) => x Hx.
  have [-> ->] := Hp x Hx; rewrite -{2 4}(conj_Creal Hx) deriv_map /= !horner_map //.
- move=> f f' a b [p Hp] Ha Hab Hf.
  have Hra : a \is Num.real by rewrite ger0_real.
  have Hrb : b \is Num.real by rewrite ger0_real // (le_trans Ha).
  have [ra Ea] := complex_realP _ Hra; have [rb Eb] := complex_realP _ Hrb.
  have [-> _] := Hp a Hra; have [-> _] := Hp b Hrb.
  move: Hab; rewrite le_eqVlt => /orP [/eqP -> //|]; rewrite {1}Ea {1}Eb ltcR => Hlt.
  have Hin c : c \in `]ra, rb[ -> 0 <= p^`().[c%:C].
    rewrite in_itv /= => /andP [H1 H2].
    have Hc : c%:C \is Num.real by apply/complex_realP; exists c.
    by have [_ <-] := Hp _ Hc; apply: Hf; rewrite Ea Eb !lecR !ltW.
  have [c Hc Ec] := mvt (repoly (@complex.Re R) p) Hlt.
  have [d Hd Ed] := mvt (repoly (@complex.Im R) p) Hlt.
  move: Ec Ed; rewrite !(repoly_deriv (@ComplexField.Re_additive R)) !(repoly_deriv (@ComplexField.Im_additive R)).
  rewrite !(@repoly_horner (@ComplexField.Re_additive R) ReM_real) !(@repoly_horner (@ComplexField.Im_additive R) ImM_real) /= => Ec Ed.
  have := Hin _ Hc; have := Hin _ Hd; rewrite !lecE /= => /andP [/eqP Hd1 _] /andP [_ Hc2].
  rewrite Ea Eb -subr_eq0 Ed Hd1 mul0r eqxx /= -subr_ge0 Ec mulr_ge0 // subr_ge0 ltW //.
Qed.


(** the hypotheses of the theorems hold together, for z(x) = i x, y(x) = 0 and exact
    solutions, on the complex numbers over any real closed field *)
Example C59_witness (pi : [numClosedFieldType of R[i]]) ceil :
  [/\ calculus (@polder [numClosedFieldType of R[i]]),
      good_odeint (@polder _) (@wz _) (@wy [numClosedFieldType of R[i]]) (@wode _) &
   exists S xs, let o := VTrl 1 50%:R (DFloat 1) [::] in
  [/\ nodesV pi (@wz _) (@wy _) ceil 0 (v_dx o) 1 1 = Ok xs,
      (v_getS pi (@wz _) (@wy _) (@wode _) ceil 0 o 1 None [::]).2 = Ok S,
      forward pi (@wz _) (@wy _) (v_dx o) 1 & vref o None != 0]].
Proof. by split; [exact: poly_calculus|exact: wode_good|exact: (wit_loop poly_calculus)]. Qed.
End Complex.

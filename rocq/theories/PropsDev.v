(** Properties C32, C36, C39, C40: voltages at the ports, rfRLC, rfCoupler, rfArcObj.
    w stands for 2 pi f. *)
From mathcomp Require Import all_ssreflect all_algebra.
From mathcomp.algebra_tactics Require Import ring.
From Coq Require Import String.
From Verif Require Import Base ConvModel ConvSpec MxLib ConvProofs ConvArr DevModel DevSpec DevThm.
Set Implicit Arguments.
Unset Strict Implicit.
Unset Printing Implicit Defensive.
Import Order.TTheory GRing.Theory Num.Theory.
Local Open Scope ring_scope.

Section Props.
Variable C : numClosedFieldType.

(** ** C36 *)
(** the reference impedance of a call getS(f, Zbase) *)
Definition zref (zb : C) (Zbase : option C) : C := if Zbase is Some z then z else zb.

(** getS is the scattering matrix of the documented two-port, with the element values
    given in params; the DC case with neither series capacitor nor shunt inductor is excluded *)
Theorem C36_two_port (o : rlc C) w Zb p S : zref (rlc_zb o) Zb != 0 ->
  ~ dc_unscaled (rlc_set o p) w ->
  (rlc_getS o w Zb p).2 = Ok S ->
  is_scat2 (rlc_law ('i * w) (rlc_set o p)) (zref (rlc_zb o) Zb) S.
Proof. by move=> Hz Hd /(rlc_sound Hz) [H _]; apply: H. Qed.

(** params= and set: each value replaces the element of that name, the others stay; the
    object keeps them *)
Theorem C36_params (o : rlc C) w Zb p S :
  let o' := Rlc (odflt (Rs o) (pRs p)) (odflt (Ls o) (pLs p)) (odflt (Cs o) (pCs p))
                (odflt (Rp o) (pRp p)) (odflt (Lp o) (pLp p)) (odflt (Cp o) (pCp p)) (rlc_zb o) in
  [/\ (rlc_getS o w Zb p).1.1 = o', (rlc_getS o w Zb p).2 = (rlc_getS o' w Zb (no_params C)).2 &
      zref (rlc_zb o) Zb != 0 -> ~ dc_unscaled o' w -> (rlc_getS o w Zb p).2 = Ok S ->
      is_scat2 (rlc_law ('i * w) o') (zref (rlc_zb o) Zb) S].
Proof.
move=> o'; have E : rlc_set o p = o'.
  by case: p @o' => -[?|] [?|] [?|] [?|] [?|] [?|].
split=> [|//|Hz Hd H]; first exact: E.
by rewrite -E; apply: C36_two_port => //; rewrite E.
Qed.

(** ... and away from DC the matrix is returned whenever it exists *)
Theorem C36_two_port_exact (o : rlc C) w Zb S : zref (rlc_zb o) Zb != 0 -> w != 0 -> ok_values o ->
  (rlc_getS o w Zb (no_params C)).2 = Ok S <-> is_scat2 (rlc_law ('i * w) o) (zref (rlc_zb o) Zb) S.
Proof. by move=> Hz Hw Ho; rewrite -(rlc_AC_iff S Hz Hw Ho); case: o {Hz Ho}. Qed.

Theorem C36_raises (o : rlc C) w Zb e : zref (rlc_zb o) Zb != 0 -> w != 0 -> ok_values o ->
  (rlc_getS o w Zb (no_params C)).2 = Raise e <->
  (~ exists S, is_scat2 (rlc_law ('i * w) o) (zref (rlc_zb o) Zb) S) /\ e = LinAlgError.
Proof. by move=> Hz Hw Ho; rewrite -(rlc_AC_raise e Hz Hw Ho); case: o {Hz Ho}. Qed.

Theorem C36_zero_values (o : rlc C) w Zb : w != 0 ->
  (rlc_getS o w Zb (no_params C)).2 = Raise ZeroDivisionError <->
  zref (rlc_zb o) Zb = 0 \/ ~ ok_values o.
Proof. by move=> Hw; rewrite -(rlc_zero_div o _ Hw); case: o. Qed.

(** reciprocal for all values, reference impedances and frequencies, f = 0 included *)
Theorem C36_reciprocal (o : rlc C) w Zb p S : zref (rlc_zb o) Zb != 0 ->
  (rlc_getS o w Zb p).2 = Ok S -> symmetric S.
Proof. by move=> Hz; apply: rlc_symmetric. Qed.

Theorem C36_passive (o : rlc C) w Zb p S : 0 < zref (rlc_zb o) Zb -> w \is Num.real ->
  rlc_passive (rlc_set o p) -> (rlc_getS o w Zb p).2 = Ok S -> passive S.
Proof. by move=> Hz Hw Hp; apply: rlc_passive_S Hp. Qed.

Theorem C36_lossless (o : rlc C) w Zb p S : 0 < zref (rlc_zb o) Zb -> w \is Num.real ->
  rlc_lossless (rlc_set o p) -> (rlc_getS o w Zb p).2 = Ok S -> unitary S.
Proof. by move=> Hz Hw Hp; apply: rlc_unitary Hp. Qed.

(** physical values never fail *)
Theorem C36_defined (o : rlc C) w Zb p : 0 < zref (rlc_zb o) Zb -> w \is Num.real ->
  rlc_passive (rlc_set o p) -> ok_values (rlc_set o p) -> exists S, (rlc_getS o w Zb p).2 = Ok S.
Proof. by move=> Hz Hw Hp Ho; apply: (rlc_total Hz Hw Hp Ho). Qed.

(** results on two reference impedances are related by ConvertGeneral *)
Theorem C36_reference (o : rlc C) w z1 z2 S1 S2 : z1 != 0 -> z2 != 0 -> ~ dc_unscaled o w ->
  (rlc_getS o w (Some z1) (no_params C)).2 = Ok S1 -> (rlc_getS o w (Some z2) (no_params C)).2 = Ok S2 ->
  ConvertGeneral (Nd0 z2) (Nd2 S1) (Nd0 z1) "V" "V" = Ok (Nd2 S2).
Proof.
move=> H1 H2 Hd; have E : rlc_set o (no_params C) = o by case: o {Hd}.
rewrite /rlc_getS E /= => /(rlc_sound H1) [/(_ Hd) HS1 _] /(rlc_sound H2) [/(_ Hd) HS2 _].
by rewrite ConvertGeneral_matrix // (iffLR (scat2_convert S2 H1 H2 HS1) HS2).
Qed.

(** a list of frequencies is handled one by one *)
Theorem C36_list (o : rlc C) ws Zb p Ss : (rlc_getSs o ws Zb p).2 = Ok Ss <->
  mapM (fun w => (rlc_getS o w Zb p).2) ws = Ok Ss.
Proof. by []. Qed.

(** at f = 0 without series capacitor and shunt inductor the matrix is the one on 1 Ohm,
    whatever Zbase ... *)
Theorem C36_dc_one_ohm (o : rlc C) Zb S : Cs o = Inf -> Lp o = Inf -> Rp o <> Fin 0 ->
  (rlc_getS o 0 Zb (no_params C)).2 = Ok S <-> is_scat2 (rlc_law ('i * 0) o) 1 S.
Proof. by move=> H1 H2 H3; rewrite -(rlc_DC_unscaled (zref (rlc_zb o) Zb) S H1 H2 H3); case: o {H1 H2 H3}. Qed.

(** ... so it is wrong for a 1 Ohm series resistor on Zbase = 2 *)
Theorem C36_dc_refuted : exists (o : rlc C) S, 
  [/\ rlc_passive o, ok_values o, (rlc_getS o 0 (Some 2%:R) (no_params C)).2 = Ok S &
      ~ is_scat2 (rlc_law ('i * 0) o) 2%:R S].
Proof.
pose o : rlc C := Rlc 1 0 Inf Inf Inf 0 50%:R.
have Hp : rlc_passive o by split=> //=; rewrite ?ler01 //; split.
have Ho : ok_values o by split.
have [|S HS] := C36_defined (o := o) (w := 0) (Zb := Some 2%:R) (p := no_params C) _ (rpred0 _) Hp Ho.
  by rewrite /zref ltr0Sn.
exists o, S; split=> // H2.
have H1 : is_scat2 (rlc_law ('i * 0) o) 1 S by apply/(C36_dc_one_ohm (Some 2%:R)).
have L1 : rlc_law ('i * 0) o 1 0 1 (-1).
  split; last by exists 0, 0, 0; split=> //=; ring.
  by exists 1, 0, 0; split=> //=; ring.
have L2 : rlc_law ('i * 0) o 1 1 0 0.
  split; last by exists 0, 0, 0; split=> //=; ring.
  by exists 0, 0, 0; split=> //=; ring.
move/H1/rel2: (L1) => [A1 _]; move/H1/rel2: (L2) => [A2 _]; move/H2/rel2: (L1) => [B1 _].
have E : 2%:R = 0 :> C.
  transitivity (5%:R * (1 - 1 * 0 - (S 0 0 * (1 + 1 * 0) + S 0 1 * (1 + 1 * 0))) + 5%:R * (1 - 1 * 1 - (S 0 0 * (1 + 1 * 1) + S 0 1 * (0 + 1 * - 1))) -
     (3%:R * (1 - 2%:R * 1 - (S 0 0 * (1 + 2%:R * 1) + S 0 1 * (0 + 2%:R * -1))) + 3%:R * 2%:R * (1 - 1 * 0 - (S 0 0 * (1 + 1 * 0) + S 0 1 * (1 + 1 * 0))))); first by ring.
  by rewrite -A1 -A2 -B1 !subrr; ring.
by move/eqP: E; rewrite pnatr_eq0.
Qed.

(** params change the object for good and empty the caller's dict *)
Theorem C36_params_stick (o : rlc C) w Zb p w' Zb' :
  let: (o1, p1, _) := rlc_getS o w Zb p in
  p1 = no_params C /\ (rlc_getS o1 w' Zb' (no_params C)).2 = (rlc_getS o w' Zb' p).2.
Proof. by []. Qed.

(** a physical two-port: 10 Ohm and 1 pF in series, 50 Ohm || 2 in shunt, at w = 1 *)
Example C36_witness (o := @Rlc C 10%:R 0 (Fin 1) (Fin 50%:R) (Fin 2%:R) 0 50%:R) :
  [/\ rlc_passive (rlc_set o (no_params C)), ok_values (rlc_set o (no_params C)), 
     0 < zref (rlc_zb o) None, ~ dc_unscaled (rlc_set o (no_params C)) 1 &
     exists S, (rlc_getS o 1 None (no_params C)).2 = Ok S].
Proof.
have Hp : rlc_passive (rlc_set o (no_params C)) by split=> //=; rewrite ?ler0n ?ler01 //.
have Ho : ok_values (rlc_set o (no_params C)).
  by split=> //= -[] /eqP; rewrite ?pnatr_eq0 // oner_eq0.
have Hz : 0 < zref (rlc_zb o) None by rewrite ltr0Sn.
split=> //; first by case.
by apply: C36_defined => //; rewrite rpred1.
Qed.

(** ** C39 *)
Section C39.
Variables (M : mathlib C) (c0 : C).

(** symmetric and unitary on every positive reference impedance *)
Theorem C39_lossless (o : coupler C) f Zb S : 0 < cp_zb o -> 0 < zref (cp_zb o) Zb ->
  cp_kc o \is Num.real -> cp_kc o ^+ 2 <= 1 -> trig_at M (angle M c0 o f) ->
  base_getS (coupler_get1S M c0 o) (cp_zb o) f Zb = Ok S -> symmetric S /\ unitary S.
Proof.
move=> Hb Hz Hk Hk1 Ht /base_getS_iff [S0 HS0] /=; have [H1 H2] := coupler_lossless Hk Hk1 Ht HS0.
case: ifP => _; last by move=> ->.
move=> HS.
have P1 : power_ok (N := 4) "V" (const_mx (cp_zb o)) by constructor 3; split=> //; exists (cp_zb o); split=> // k; rewrite mxE.
have P2 : power_ok (N := 4) "V" (const_mx (zref (cp_zb o) Zb)) by constructor 3; split=> //; exists (zref (cp_zb o) Zb); split=> // k; rewrite mxE.
have R1 : recip_ok (N := 4) "V" (const_mx (cp_zb o)) by split; [apply: admV; rewrite gt_eqF|right; exists (cp_zb o) => k; rewrite mxE].
have R2 : recip_ok (N := 4) "V" (const_mx (zref (cp_zb o) Zb)) by split; [apply: admV; rewrite gt_eqF|right; exists (zref (cp_zb o) Zb) => k; rewrite mxE].
split; first by apply/(convert1_sym (erefl : typ_ok "V") (erefl : typ_ok "V") R1 R2 HS).
by apply/(convert1_unitary P1 P2 HS).
Qed.

(** it answers for every coupling below 1 *)
Theorem C39_defined (o : coupler C) f : cp_kc o \is Num.real -> cp_kc o ^+ 2 < 1 ->
  trig_at M (angle M c0 o f) -> (cp_Lc o = None -> f != 0) ->
  exists S, base_getS (coupler_get1S M c0 o) (cp_zb o) f None = Ok S.
Proof.
move=> H1 H2 H3 H4; have [S HS] := coupler_total H1 H2 H3 H4.
by exists S; apply/base_getS_iff; exists S => //=; rewrite eqxx.
Qed.

(** at the centre frequency: amplitude kc from A1 to B1 and from A2 to B2, the rest of the
    power goes straight on, nothing is reflected and nothing comes out of the fourth port.
    Port order A1, A2, B1, B2. *)
Theorem C39_centre kc kcdB Lc f0 zb o f S : c0 != 0 -> f != 0 ->
  m_cos M (m_pi M / 2%:R) = 0 -> m_sin M (m_pi M / 2%:R) = 1 ->
  new_coupler M c0 4 kc kcdB Lc f0 zb = Ok o ->
  (truthy Lc = None -> truthy f0 = None \/ f0 = Some f) ->
  (forall L, truthy Lc = Some L -> f = c0 / (4%:R * L)) ->
  base_getS (coupler_get1S M c0 o) zb f None = Ok S ->
  [/\ forall k, S k k = 0, S (inord 2) (inord 0) = cp_kc o /\ S (inord 3) (inord 1) = cp_kc o,
      S (inord 1) (inord 0) ^+ 2 = cp_kc o ^+ 2 - 1 &
      S (inord 3) (inord 0) = 0 /\ S (inord 2) (inord 1) = 0].
Proof.
move=> Hc Hf Hcos Hsin Hnew Hf0 HL /base_getS_iff [S0 HS0] /=; rewrite eqxx => ->.
have Ha : angle M c0 o f = m_pi M / 2%:R.
  move: Hnew; rewrite /new_coupler /=; case: (coupler_kc _ _ _) => [k|] //=.
  rewrite /coupler_Lc; case EL: (truthy Lc) => [L|].
    case: (truthy f0) => //= -[<-]; rewrite (HL _ EL) angle_Lc //.
    by move: EL; rewrite /truthy; case: Lc {HL Hf0} => // x; case: ifP => // /negbT H [<-].
  case: (Hf0 EL) => [->|->] /=; first by move=> [<-]; rewrite angle_any.
  by rewrite (negbTE Hf) /=; move=> [<-]; rewrite angle_f0.
have -> := coupler_centre Ha Hcos Hsin HS0.
split.
- by apply: ord4P; rewrite mxE inordK.
- by split; rewrite mxE !inordK.
- rewrite mxE !inordK //= exprMn sqrrN sqrCi np_sqrtK; ring.
- by split; rewrite mxE !inordK.
Qed.

(** the requested coupling is used unless it is 0 *)
Theorem C39_coupling kc kcdB Lc f0 zb o : new_coupler M c0 4 kc kcdB Lc f0 zb = Ok o ->
  [/\ forall k, kc = Some k -> k != 0 -> cp_kc o = k,
      forall d, kc = None -> kcdB = Some d -> d != 0 -> cp_kc o = m_pow10 M (- `|d| / 20%:R) &
      kc = None -> kcdB = None -> cp_kc o ^+ 2 = 2%:R^-1].
Proof.
rewrite /new_coupler /=; case Ek: (coupler_kc _ _ _) => [k|] //=.
case: (coupler_Lc _ _ _) => //= L [<-] /=; split.
- move=> k' E Hk; move: Ek; rewrite E /coupler_kc /= (negbTE Hk); case: (truthy _) => // -[] //.
- by move=> d E1 E2 Hd; move: Ek; rewrite E1 E2 /coupler_kc /= (negbTE Hd) => -[].
- by move=> E1 E2; move: Ek; rewrite E1 E2 /coupler_kc /= => -[<-]; rewrite np_sqrtK.
Qed.

(** kc = 0 asks for no coupling and gives 3 dB *)
Theorem C39_kc0_refuted zb : exists o, new_coupler M c0 4 (Some 0) None None None zb = Ok o /\ cp_kc o ^+ 2 = 2%:R^-1.
Proof. by rewrite /new_coupler /coupler_kc /= eqxx /=; eexists; split; [reflexivity|rewrite np_sqrtK]. Qed.

(** contradictory arguments are rejected *)
Theorem C39_rejects k kdB L f0 zb n :
  [/\ k != 0 -> kdB != 0 -> forall Lc f, new_coupler M c0 n (Some k) (Some kdB) Lc f zb = Raise ValueError,
      L != 0 -> f0 != 0 -> forall kc kcdB, new_coupler M c0 n kc kcdB (Some L) (Some f0) zb = Raise ValueError &
      n != 4%N -> forall kc kcdB Lc f, new_coupler M c0 n kc kcdB Lc f zb = Raise ValueError].
Proof.
split.
- by move=> H1 H2 Lc f; rewrite /new_coupler /coupler_kc /= (negbTE H1) (negbTE H2); case: ifP.
- move=> H1 H2 kc kcdB; rewrite /new_coupler; case: ifP => // _.
  rewrite /coupler_Lc /= (negbTE H1) (negbTE H2).
  by rewrite /coupler_kc; case: (truthy kc) => [k'|]; case: (truthy kcdB).
- by move=> H kc kcdB Lc f; rewrite /new_coupler H.
Qed.
End C39.

(** cos and sin with the values 3/5 and 4/5, and 0 and 1 at pi/2 = 1 *)
Example C39_witness : exists (M : mathlib C) (o : coupler C),
  [/\ m_cos M (m_pi M / 2%:R) = 0 /\ m_sin M (m_pi M / 2%:R) = 1,
      new_coupler M 4%:R 4 (Some (1/2%:R)) None (Some 1) None 50%:R = Ok o,
      cp_kc o \is Num.real /\ cp_kc o ^+ 2 < 1,
      trig_at M (angle M 4%:R o (2%:R)) /\ m_cos M (angle M 4%:R o 2%:R) != 0 &
      m_cos M (angle M 4%:R o 1) = 0].
Proof.
pose M := Math (fun x : C => if x == 1 then 0 else 3%:R / 5%:R) (fun x => if x == 1 then 1 else 4%:R / 5%:R) 2%:R (fun _ => 1).
exists M; eexists.
have E1 : (1 / 2%:R == 0 :> C) = false by rewrite mul1r invr_eq0 pnatr_eq0.
have Hd : 2%:R / 2%:R = 1 :> C by rewrite divff // pnatr_eq0.
have A1 k : angle M 4%:R (Coupler k (Some 1) 50%:R) 1 = 1.
  by rewrite /angle /=; field; rewrite ?pnatr_eq0.
have A2 k : angle M 4%:R (Coupler k (Some 1) 50%:R) 2%:R = 2%:R.
  by rewrite /angle /=; field; rewrite ?pnatr_eq0.
have N2 : (2%:R == 1 :> C) = false by rewrite (eqr_nat _ 2 1).
split.
- by rewrite /M /= Hd eqxx.
- by rewrite /new_coupler /coupler_kc /coupler_Lc /= E1 oner_eq0 /=; reflexivity.
- rewrite /= mul1r rpredV realn; split=> //.
  by rewrite exprVn invf_lt1 ?exprn_gt0 ?ltr0n // -natrX (ltr_nat _ 1).
- rewrite A2 /trig_at /M /= N2; split; last by rewrite mulf_neq0 ?invr_neq0 ?pnatr_eq0.
  split; rewrite ?rpredM ?rpredV ?realn //.
  by field; rewrite ?pnatr_eq0.
- by rewrite A1 /M /= eqxx.
Qed.

(** ** C40 *)
Theorem C40_inductance (L zb w : C) Zb r : zb != 0 -> zref zb Zb != 0 ->
  arc_getS L zb w Zb = Ok r -> reflects (fun v i => v = 'i * w * L * i) (zref zb Zb) r.
Proof. by move=> H1 H2; apply: arc_getS_reflects. Qed.

Theorem C40_unit (L zb w : C) r : zb \is Num.real -> w * L \is Num.real ->
  arc_getS L zb w None = Ok r -> `|r| = 1.
Proof.
move=> Hz Hw; rewrite /arc_getS /arc_getSs eqxx /=.
by case E: (arc_get1S _ _ _) => [q|] //= [<-]; apply: arc_norm E.
Qed.

(** unit magnitude on every real reference impedance *)
Theorem C40_unit_any (L zb w : C) Zb r : zb != 0 -> zref zb Zb \is Num.real -> zref zb Zb != 0 ->
  w * L \is Num.real -> arc_getS L zb w Zb = Ok r -> `|r| = 1.
Proof.
move=> Hzb Hr Hz Hw /(C40_inductance Hzb Hz) H; set z := zref zb Zb in H Hr Hz.
have := iffLR (H ('i * w * L * 1) 1) erefl; rewrite waveV !mulr1 -mulrA; move: (w * L) Hw => x Hw E.
have Hn : 'i * x + z != 0.
  apply/eqP => E0; rewrite E0 mulr0 in E.
  have : 2%:R * z = 'i * x + z - ('i * x - z) by ring.
  by rewrite E0 E subrr => /eqP; rewrite mulf_eq0 pnatr_eq0 (negbTE Hz).
apply: (@arc_norm C 1 z x) => //; first by rewrite mulr1.
by rewrite /arc_get1S mulr1 /pdiv /= (negbTE Hn) E mulfK.
Qed.

Theorem C40_list (L zb : C) ws Zb : zref zb Zb = zb ->
  arc_getSs L zb ws Zb = rmap (@Nd1 C) (mapM (fun w => arc_getS L zb w Zb) ws).
Proof.
move=> Hz; rewrite arc_list_own //; congr rmap; elim: ws => //= w ws ->; congr bind.
rewrite /arc_getS arc_list_own //=; by case: (arc_get1S _ _ _).
Qed.

(** another reference impedance gives one value only *)
Theorem C40_list_refuted (L zb : C) ws z r : z != zb -> arc_getSs L zb ws (Some z) = Ok r ->
  exists x, r = Nd1 [:: x].
Proof. exact: arc_list_other. Qed.

Example C40_witness : exists r, arc_getS 1 50%:R 2%:R None = Ok r :> res C.
Proof.
have Hw : (2%:R * 1 : C) \is Num.real by rewrite mulr1 realn.
have [r Hr] := @arc_total C 1 50%:R 2%:R (ltr0Sn _ _) Hw.
by exists r; rewrite /arc_getS /arc_getSs eqxx /= Hr.
Qed.

(** ** C32 *)
(** ** C49: rfBase as a table *)
(** the matrix stored with the frequency (the first one, if there are several) on the
    object's own impedance, the same network on any other; another frequency is refused *)
Theorem C49_tabulated n (F : eqType) (tab : seq (F * 'M[C]_n)) zb f S0 :
  (exists pre post, tab = pre ++ (f, S0) :: post /\ f \notin unzip1 pre)%SEQ ->
  base_getS (tab_get1S tab) zb f None = Ok S0 /\
  forall z, zb != 0 -> z != 0 -> forall S,
    base_getS (tab_get1S tab) zb f (Some z) = Ok S <->
    (forall v i : 'cV[C]_n, relates "V" (const_mx zb) S0 v i <-> relates "V" (const_mx z) S v i).
Proof.
case=> pre [post [-> Hp]].
have Eg : tab_get1S (pre ++ (f, S0) :: post) f = Ok S0.
  rewrite /tab_get1S; suff -> : dget (pre ++ (f, S0) :: post)%SEQ f = Some S0 by [].
  elim: pre Hp => [|[g B] pre IH] /=; first by rewrite eqxx.
  by rewrite in_cons negb_or => /andP[/negbTE -> /IH].
split; first by apply/base_getS_iff; exists S0 => //=; rewrite eqxx.
move=> z Hzb Hz S; have Ha (y : C) : y != 0 -> adm "V" (const_mx y : 'rV_n).
  exact: admV.
rewrite -(convert1_iff _ _ (isT : typ_ok "V") (isT : typ_ok "V") (Ha _ Hzb) (Ha _ Hz)) base_getS_iff Eg /=.
case: (z =P zb) => [->|_] /=; last by split=> [[S1 [<-]]|H]; last exists S0.
rewrite convert1_id //; last exact: Ha.
by split=> [[S1 [->] ->]|[->]]; last exists S.
Qed.

Theorem C49_refused n (F : eqType) (tab : seq (F * 'M[C]_n)) zb f Zb : f \notin unzip1 tab ->
  base_getS (tab_get1S tab) zb f Zb = Raise ValueError.
Proof.
rewrite /base_getS /base_getSs /= /tab_get1S => H; suff -> : dget tab f = None by [].
elim: tab H => [|[g B] tab IH] //=; rewrite in_cons negb_or.
by case/andP=> /negbTE -> /IH.
Qed.

Theorem C49_list n (F : eqType) (tab : seq (F * 'M[C]_n)) zb fs Zb Ss :
  base_getSs (tab_get1S tab) zb fs Zb = Ok Ss <->
  size Ss = size fs /\ forall k f, (k < size fs)%N -> 
    base_getS (tab_get1S tab) zb (nth f fs k) Zb = Ok (nth 0 Ss k).
Proof.
rewrite base_getSs_iff mapM_Ok; split=> -[H1 H2]; split=> // k x0; last first.
  by move=> y0 Hk; rewrite (H2 k x0 Hk) (set_nth_default y0) // -?H1 // H1.
by move=> Hk; apply: H2.
Qed.

Example C49_witness (S1 S2 : 'M[C]_2) : exists pre post,
  [:: (1%N, S1); (2%N, S2); (2%N, S1)] = (pre ++ (2%N, S2) :: post)%SEQ /\ 2%N \notin unzip1 pre.
Proof. by exists [:: (1%N, S1)], [:: (2%N, S1)]. Qed.

(** rfBase: voltages for the excitation E, ports without a value are not excited *)
Theorem C32_base (ports : seq string) getS (zb : C) E Zb m where_ V Sm v i :
  let z := if truthy Zb is Some z then z else zb in
  getS z = Ok Sm -> excited z Sm (fun p => odflt 0 (dget E p)) v i ->
  base_maxV (ports := ports) getS zb E Zb = Ok (m, where_, V) ->
  [/\ V = zip ports [seq `|v k 0| | k <- enum 'I_(size ports)], forall k, `|v k 0| <= m &
      exists k : 'I_(size ports), [/\ where_ = nth ""%string ports k, `|v k 0| = m &
         forall j : 'I_(size ports), (j < k)%N -> `|v j 0| < m]].
Proof. exact: base_maxV_ok. Qed.

(** a port that is not one of the object's is refused; otherwise there is an answer *)
Theorem C32_base_unknown (ports : seq string) getS (zb : C) E Zb p : p \in dkeys E -> p \notin ports ->
  base_maxV (ports := ports) getS zb E Zb = Raise ValueError.
Proof.
move=> H1 H2; rewrite /base_maxV.
case: ifP => // /negbFE /allP /(_ p H1) E1; by rewrite E1 in H2.
Qed.
Theorem C32_base_answers (ports : seq string) getS (zb : C) E Zb Sm : all (fun p => p \in ports) (dkeys E) ->
  ports <> [::] -> getS (if truthy Zb is Some z then z else zb) = Ok Sm ->
  exists r, base_maxV (ports := ports) getS zb E Zb = Ok r.
Proof.
move=> H1 H2 HS; rewrite /base_maxV H1 /= HS /= /max_where.
have Hs : size [seq `|v0| | v0 <- vports Sm [seq odflt 0 (dget E p) | p <- ports]] = size ports.
  by rewrite size_map /vports size_map size_enum_ord.
case Em: (map _ _) Hs => [|x s] /= Hs; last by eexists.
by case: H2; apply/eqP; rewrite -size_eq0 -Hs.
Qed.

(** rfRLC (and any getS): every port needs a value *)
Theorem C32_rlc (ports : seq string) getS (zb : C) E Zb m where_ V Sm v i :
  let z := if Zb is Some z then z else zb in
  getS z = Ok Sm -> excited z Sm (fun p => odflt 0 (dget E p)) v i ->
  obj_maxV (ports := ports) true getS zb E Zb = Ok (m, where_, V) ->
  [/\ V = [seq `|v k 0| | k <- enum 'I_(size ports)], forall k, `|v k 0| <= m &
      exists k : 'I_(size ports), [/\ where_ = nth ""%string ports k, `|v k 0| = m &
         forall j : 'I_(size ports), (j < k)%N -> `|v j 0| < m]].
Proof. exact: obj_maxV_ok. Qed.

Theorem C32_excitation (ports : seq string) (z : C) Sm A : z != 0 ->
  exists v i, excited (ports := ports) z Sm A v i.
Proof. exact: excited_ex. Qed.

(** rfObject takes the maximum of complex numbers: an open port driven with -2 and another
    driven with 1 give 2 although the first has 4 *)
Theorem C32_object_refuted : exists (Sm : 'M[C]_2) E m where_ V (k : 'I_2),
  obj_maxV (ports := [:: "a"; "b"]%string) false (fun _ => Ok Sm) 50%:R E None = Ok (m, where_, V) /\
  exists v i, excited (ports := [:: "a"; "b"]%string) 50%:R Sm (fun p => odflt 0 (dget E p)) v i /\ m < `|v k 0|.
Proof.
pose Sm : 'M[C]_2 := 1%:M; pose E := [:: ("a"%string, - 2%:R : C); ("b"%string, 1)].
have HV : vports (ports := [:: "a"; "b"]%string) Sm [:: - 2%:R; 1] = [:: - 4%:R; 2%:R].
  rewrite /vports /Sm enum_ordSl enum_ordSl /= enum_ord0 /= !mul1mx !mxE /=.
  by congr [:: _; _]; ring.
have Hlt : @clt C (- 4%:R) (2%:R) = true.
  have R1 : 'Re (- 4%:R) = - 4%:R :> C by apply/Creal_ReP; rewrite rpredN realn.
  have R2 : 'Re 2%:R = 2%:R :> C by apply/Creal_ReP; rewrite realn.
  by rewrite /clt R1 R2 (lt_trans (y := 0)) // ?oppr_lt0 ltr0n.
exists Sm, E, 2%:R, "b"%string, [:: - 4%:R; 2%:R], 0; split.
  rewrite /obj_maxV /= HV /max_where /= Hlt /=; congr Ok; congr (_, _, _).
  have -> : (- 4%:R == 2%:R :> C) = false.
    by rewrite -subr_eq0 -opprD oppr_eq0 -natrD pnatr_eq0.
  by rewrite eqxx.
have [v [i Hx]] := @C32_excitation [:: "a"; "b"]%string 50%:R Sm (fun p => odflt 0 (dget E p)) (negbT (pnatr_eq0 _ 50)).
exists v, i; split=> //; case: Hx => Hr Ha.
have := vports_v (A := [:: - 2%:R; 1]) Hr.
rewrite HV; move=> /(_ _)/esym H.
have /H : forall k : 'I_2, wave_a "V" 50%:R (v k 0) (i k 0) = [:: - 2%:R; 1]`_k.
  by move=> k; rewrite Ha; case: k => -[|[|k]].
rewrite enum_ordSl enum_ordSl /= enum_ord0 /= => -[E0 _].
have -> : v 0 0 = - 4%:R by rewrite -E0; congr (v _ 0); apply: val_inj.
by rewrite normrN normr_nat ltr_nat.
Qed.
End Props.

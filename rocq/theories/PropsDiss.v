(** C61, C62 (continued): circuits of dissipative elements do not oscillate, and getS
    answers on them.  Specification: CircDiss.v (dissipative_obj, grounded). *)
From mathcomp Require Import all_ssreflect all_algebra.
From mathcomp.algebra_tactics Require Import ring.
From Coq Require Import String Ascii.
From Coq Require List.
From Verif Require Import Base MxLib ConvModel ConvSpec ConvProofs ConvArr DevModel DevSpec DevThm TrlModel TrlSpec TrlThm CircModel CircSpec CircLib CircInv CircTerm CircApp CircConn CircAdd CircDe CircFill CircSolve CircExt CircHist CircGet CircMain CircOrd CircThm CircThm2 CircThm3 CircThm4 CircNest CircFlat CircDev CircThm6 CircPow CircPowT CircElem CircDiss PropsPow PropsElem.
Set Implicit Arguments.
Unset Strict Implicit.
Unset Printing Implicit Defensive.
Import Order.TTheory GRing.Theory Num.Theory.
Local Open Scope string_scope.
Local Open Scope ring_scope.
Local Open Scope seq_scope.

Section Any.
Variable C : numClosedFieldType.
Variables F Fl : eqType.
Variable K : vcls C F Fl.
Variable nan : C.
Variable getpos : circ K -> string -> res C.

(** A circuit of dissipative objects and passive loads, all of whose nodes are connected to
    ground in some way, does not oscillate ... *)
Theorem C61_no_oscillation z ns h (c : circ K) f fl : reach nan getpos z ns h c -> 0 < z -> no_deembed h ->
  all_blocks (dissipative_obj f fl) (net_hist h) -> all_loads (@passive_load C) (net_hist h) ->
  (forall p, p \in nodes (net_hist h) -> grounded (net_hist h) f fl p) ->
  ~ resonant z (net_hist h) f fl.
Proof. exact: dissipative_not_resonant. Qed.

(** ... so that getS answers when the objects do. *)
Theorem C61_answers z ns h (c : circ K) f fl : reach nan getpos z ns h c -> 0 < z -> no_deembed h ->
  may_ask h f fl -> ns = [::] \/ perm_eq ns (ports c) -> (exists p, free (net_hist h) p) ->
  all_blocks (dissipative_obj f fl) (net_hist h) -> all_loads (@passive_load C) (net_hist h) ->
  (forall p, p \in nodes (net_hist h) -> grounded (net_hist h) f fl p) ->
  all_blocks (fun o : K => forall o', after_getS o o' -> exists S, (ogetS f z fl o').2 = Ok S) (net_hist h) ->
  exists c' S, [/\ get1S f 0 [::] fl c = (c', Ok S), net_S z z (net_hist h) f fl (ports c') S &
    passive (mx_of (size (ports c')) (size (ports c')) S)].
Proof.
move=> Hr Hz Hd Hm Hns Hf Hb Hl Hg Ha.
have Hn := C61_no_oscillation Hr Hz Hd Hb Hl Hg.
have [c' [S E]] : exists c' S, get1S f 0 [::] fl c = (c', Ok S).
  apply: (getS_returns Hr Hm Hns _ Hf Hn) => e [nm [ps [o [o' [Hin Hao _]]]]].
  by have [S ->] := iffLR (List.Forall_forall _ _) Ha _ Hin _ Hao.
have [H _] := thm_C12 Hr Hm E.
have Ez : zreq 0 z = z by rewrite /zreq eqxx.
exists c', S; split=> //; first by move: H; rewrite Ez.
have [_ HS] := H; rewrite Ez in HS.
have Hr' : reach nan getpos z ns (rcons h (@OGetS C F Fl K f 0 fl, true)) c'.
  apply: (@reach_snoc _ _ _ _ _ _ _ _ h c (@OGetS C F Fl K f 0 fl) true c' Hr Hm).
  by rewrite /exec E.
have Hd' : no_deembed (rcons h (@OGetS C F Fl K f 0 fl, true)) by rewrite /no_deembed all_rcons.
apply/(passive_rows _ _ Hz) => v i /HS [v' [i' [Hs E']]].
rewrite (power_ports E').
have Hp : all_blocks (passive_obj f fl) (net_hist h) by apply: (F2 _ Hb Hb) => nb [].
have En : net_hist (rcons h (@OGetS C F Fl K f 0 fl, true)) = net_hist h by rewrite net_rcons.
by rewrite -En in Hl Hs Hp; exact: (sat_passive Hz Hr' Hd' Hp Hl Hs).
Qed.
End Any.

(** ** actual elements *)
Section Elem.
Variable C : numClosedFieldType.
Variable Fl : eqType.
Variable tau : C.
Variable exp : C -> C.
Variable M : mathlib C.
Variable c0 : C.
Hypothesis Htau : tau != 0.
Notation K := (elem_cls Fl exp M c0 Htau).
Notation freq := (freq C).
Notation om := (om tau).
Implicit Types (f : freq) (fl : Fl).

(** every wave vector comes out weaker than it goes in *)
Definition strictly_passive n (S : 'M[C]_n) := forall a : 'cV[C]_n, a != 0 -> norm2 (S *m a) < norm2 a.

(** a series resistance (and no open series capacitor), with a shunt resistor or nothing in
    shunt; a line on which waves decay; a strictly passive table *)
Definition lossy_elem f (e : elem C) : Prop :=
  match e with
  | ERlc _ _ o => [/\ rlc_passive o, 0 < Rs o, Cs o <> Fin 0, Lp o <> Fin 0 &
      (exists2 r, Rp o = Fin r & 0 < r) \/ [/\ Rp o = Inf, Lp o = Inf & Cp o = 0]]
  | ETrl _ _ l o => [/\ t_L o != 0, 0 < Zchar (l_rjwL l) (l_gjwC l) (om f) &
      1 < `|exp (gam (l_rjwL l) (l_gjwC l) (om f) * t_L o)|]
  | ECpl _ _ o => False
  | ETab _ _ zb tab => 0 < zb /\ forall S, tab_get1S tab (val f) = Ok S -> strictly_passive S
  end.
(** ... that keep their ports from being at any voltage *)
Definition tied_elem f (e : elem C) : Prop :=
  lossy_elem f e /\ if e is ERlc _ _ o then exists2 r, Rp o = Fin r & 0 < r else True.

Lemma real_power (r i : C) : 0 < r -> 'Re (r * i * i^*) = 0 -> i = 0.
Proof.
move=> Hr; rewrite -mulrA -normCK (Creal_ReP _ _); last by apply: rpredM; [exact: gtr0_real|apply: rpredX; exact: normr_real].
by move/eqP; rewrite mulf_eq0 gt_eqF //= sqrf_eq0 normr_eq0 => /eqP.
Qed.

Lemma res_power' (r v : C) i : 0 < r -> v = r * i -> 'Re (v * i^*) = 0 -> v = 0 /\ i = 0.
Proof. by move=> Hr -> /(real_power Hr) ->; rewrite mulr0. Qed.

Lemma rlc_lossy (o : rlc C) w v1 v2 i1 i2 : w \is Num.real -> w != 0 ->
  [/\ rlc_passive o, 0 < Rs o, Cs o <> Fin 0, Lp o <> Fin 0 &
      (exists2 r, Rp o = Fin r & 0 < r) \/ [/\ Rp o = Inf, Lp o = Inf & Cp o = 0]] ->
  rlc_law ('i * w) o v1 v2 i1 i2 -> power (col2 v1 v2) (col2 i1 i2) = 0 ->
  [/\ i1 = 0, i2 = 0, v1 = v2 & (exists2 r, Rp o = Fin r & 0 < r) -> v2 = 0].
Proof.
move=> Hw Hw0 [Hpas HRs HCs HLp Hsh] [[vr [vl [vc [A1 A2 A3 A4]]]] [ir [il [ic [B1 B2 B3 B4]]]]] HP.
have Hj : 'i * w != 0 :> C by rewrite mulf_neq0 // neq0Ci.
have [P1 [P2 P3] P4 P5 P6] := Hpas.
move: HP; rewrite power2 A4 B4 !rmorphD /= !mulrDl !mulrDr !raddfD /=.
have R1 := res_power (r := Fin (Rs o)) P1 A1; have R2 := res_power P4 B1.
rewrite (ind_power Hw (ger0_real P2 : ext_real (Fin _)) A2) (cap_power Hw (ge0_ext_real P3) A3).
rewrite (ind_power Hw (ge0_ext_real P5) B2) (cap_power Hw (ger0_real P6 : ext_real (Fin _)) B3).
rewrite !addr0 => /eqP; rewrite paddr_eq0 // => /andP [/eqP Z1 /eqP Z2].
have [Evr Ei] := res_power' HRs A1 Z1.
have Evl : vl = 0 by rewrite A2 Ei mulr0.
have Evc : vc = 0.
  move: A3 HCs; rewrite Ei; case: (Cs o) => [x|] //= /esym/eqP.
  by rewrite !mulf_eq0 (negbTE (neq0Ci C)) (negbTE Hw0) /= => /orP [/eqP ->|/eqP].
have Ev : v1 = v2 by apply/eqP; rewrite -subr_eq0 A4 Evr Evl Evc !addr0.
have Hi2 : (exists2 r, Rp o = Fin r & 0 < r) -> v2 = 0 /\ i2 = 0.
  case=> r Er Hr; rewrite Er /= in B1; have [E2 Eir] := res_power' Hr B1 Z2; split=> //.
  have Eil : il = 0.
    move: B2 HLp; rewrite E2; case: (Lp o) => [x|] //= /esym/eqP.
    by rewrite !mulf_eq0 (negbTE (neq0Ci C)) (negbTE Hw0) /= => /orP [/eqP ->|/eqP].
  by move: B4; rewrite Ei add0r B3 E2 mulr0 Eir Eil !addr0.
split=> //; last by case/Hi2.
case: Hsh => [/Hi2 []//|[ER EL EC]].
by move: B4; rewrite Ei add0r B3 EC mulr0 mul0r addr0; rewrite ER /= in B1; rewrite EL /= in B2; rewrite B1 B2 addr0.
Qed.

Lemma line_lossy (t Zc v1 v2 i1 i2 : C) : 0 < Zc -> `|t| < 1 -> line_law t Zc v1 v2 i1 i2 ->
  power (col2 v1 v2) (col2 i1 i2) = 0 -> [/\ i1 = 0, i2 = 0, v1 = 0 & v2 = 0].
Proof.
move=> Hz Ht [A B].
have Kf v i : 'Re (v * i^*) = (`|v + Zc * i| ^+ 2 - `|v - Zc * i| ^+ 2) / (4%:R * Zc).
  rewrite ReE !normCK !rmorphD !rmorphM rmorphN !rmorphM /= conjCK (conj_Creal (gtr0_real Hz)).
  by field; rewrite gt_eqF.
rewrite /power sum2 !mxE /= !Kf B A !normrM !exprMn -mulrDl.
have -> : forall x y : C, x - `|t| ^+ 2 * y + (y - `|t| ^+ 2 * x) = (1 - `|t| ^+ 2) * (x + y) by move=> *; ring.
have Ht2 : 1 - `|t| ^+ 2 != 0 by rewrite gt_eqF // subr_gt0 expr_lt1.
have Hz4 : (4%:R * Zc)^-1 != 0 by rewrite invr_neq0 // mulf_neq0 ?pnatr_eq0 // gt_eqF.
move/eqP; rewrite !mulf_eq0 (negbTE Ht2) (negbTE Hz4) /= orbF paddr_eq0 ?exprn_ge0 //.
rewrite !sqrf_eq0 !normr_eq0 => /andP [/eqP E1 /eqP E2].
have S1 : v1 - Zc * i1 = 0 by rewrite B E2 mulr0.
have S2 : v2 - Zc * i2 = 0 by rewrite A E1 mulr0.
have G v i : v + Zc * i = 0 -> v - Zc * i = 0 -> i = 0 /\ v = 0.
  move=> F1 F3; have Ev : v = 0.
    apply/eqP; have : 2%:R * v = 0 by transitivity ((v + Zc * i) + (v - Zc * i)); [ring|rewrite F1 F3 addr0].
    by move/eqP; rewrite mulf_eq0 pnatr_eq0.
  by split=> //; move/eqP: F1; rewrite Ev add0r mulf_eq0 gt_eqF //= => /eqP.
by have [-> ->] := G _ _ E1 S1; have [-> ->] := G _ _ E2 S2.
Qed.

Lemma power_diff N t (Z : 'rV[C]_N) : power_ok t Z -> exists c, forall v i,
  norm2 (wva t Z v i) - norm2 (wvb t Z v i) = c * (2%:R * power v i).
Proof.
move=> Hp; have [c Hc Hw] := power_wave Hp; exists c => v i.
rewrite -hdot_power !norm2_hdot -sumrB -big_split /= mulr_sumr.
by apply: eq_bigr => k _; rewrite !mxE; exact: Hw.
Qed.

Lemma strict_zero z n (S : 'M[C]_n) (v i : vi C) : 0 < z -> strictly_passive S ->
  rel_S z n (rows_of S) v i -> power_in n v i = 0 -> forall k, (k < n)%N -> i k = 0 /\ v k = 0.
Proof.
move=> Hz HS; rewrite rel_S_mx mx_of_rows -power_col => Hr HP k Hk.
have Hz0 : z != 0 by rewrite gt_eqF.
have [H H' ] : relates "V" (const_mx z) S (col n v) (col n i) /\ True by [].
have [c Hd] := power_diff (z_power_ok n Hz).
have {}Hd := Hd (col n v) (col n i).
move: (H) => /relatesE Hab; rewrite HP !mulr0 Hab in Hd.
have Ha : wva "V" (const_mx z) (col n v) (col n i) = 0.
  apply/eqP/negPn/negP => /HS; rewrite lt_def => /andP [/negP []].
  by apply/eqP; apply/eqP; rewrite -subr_eq0 Hd.
move: Hab; rewrite Ha mulmx0 => Hb.
have E1 : (v k + z * i k) / 2%:R = 0.
  by move/matrixP: Ha => /(_ (Ordinal Hk) 0); rewrite !mxE.
have E2 : (v k - z * i k) / 2%:R = 0.
  by move/matrixP: Hb => /(_ (Ordinal Hk) 0); rewrite !mxE.
have Ev : v k = 0.
  have -> : v k = (v k + z * i k) / 2%:R + (v k - z * i k) / 2%:R by field.
  by rewrite E1 E2 addr0.
split=> //; move/eqP: E1; rewrite Ev add0r !mulf_eq0 (negbTE Hz0) invr_eq0 pnatr_eq0 orbF /=.
by move/eqP.
Qed.

Lemma lossy_zero f fl (e : K) (v i : vi C) : om f \is Num.real -> lossy_elem f e -> oden e f fl v i ->
  power_in (osize e) v i = 0 -> (forall k l, (k < osize e)%N -> (l < osize e)%N -> i k = 0 /\ v k = v l) /\
  (tied_elem f e -> forall k, (k < osize e)%N -> v k = 0).
Proof.
move=> Hw; have Hw0 := om_neq0 Htau f.
case: e => [ps xs o|ps xs l o|ps xs o|ps xs zb tab] //.
- move=> Hl H; rewrite [osize _]/= power_in2 => HP.
  have [E1 E2 E3 E4] := rlc_lossy Hw Hw0 Hl H HP.
  split=> [k l|[_ Ht] k]; last by case: k => [|[|k]] // _; rewrite ?E3 E4.
  by case: k => [|[|k]] //; case: l => [|[|l]] // _ _; rewrite ?E1 ?E2 ?E3.
- case=> HL Hz Ht; rewrite /oden /= /tl_law (negbTE HL) => H; rewrite power_in2 => HP.
  have Ht1 : `|(exp (gam (l_rjwL l) (l_gjwC l) (om f) * t_L o))^-1| < 1.
    by rewrite normfV invf_lt1 // (lt_trans ltr01).
  have [E1 E2 E3 E4] := line_lossy Hz Ht1 H HP.
  split=> [k j|_ k]; last by case: k => [|[|k]] // _; rewrite ?E3 ?E4.
  by case: k => [|[|k]] //; case: j => [|[|j]] // _ _; rewrite ?E1 ?E2 ?E3 ?E4.
case=> Hz Hs [S E H] HP; have HZ := strict_zero Hz (Hs _ E) H HP.
split=> [k j Hk Hj|_ k Hk]; last by case: (HZ k Hk).
by have [-> ->] := HZ k Hk; have [_ ->] := HZ j Hj.
Qed.

Lemma lossy_passive f (e : elem C) : lossy_elem f e -> passive_elem tau exp M c0 f e.
Proof.
case: e => [ps xs o|ps xs l o|ps xs o|ps xs zb tab] //=.
- by case.
- by case=> _ H1 H2; right; split=> //; exact: ltW.
case=> Hz Hs; split=> // S E a; case: (eqVneq a 0) => [->|Ha]; first by rewrite mulmx0.
exact: ltW (Hs _ E _ Ha).
Qed.

Lemma lossy_dissipative f fl (e : K) : om f \is Num.real -> oinv e -> lossy_elem f e -> dissipative_obj f fl e.
Proof.
move=> Hw Ho Hl; split; first by apply: elem_passive => //; exact: lossy_passive.
by move=> v i H HP; have [H1 _] := lossy_zero Hw Hl H HP.
Qed.

(** Elements with a shunt resistor, lossy lines and strictly passive tables tie their ports
    to ground. *)
Theorem C62_tied f fl (e : K) : om f \is Num.real -> tied_elem f e -> absorbing_obj f fl e.
Proof. by move=> Hw Ht v i H HP; have [_ H2] := lossy_zero Hw (proj1 Ht) H HP; exact: H2. Qed.

Variable nan : C.
Variable getpos : circ K -> string -> res C.

(** A circuit of lossy elements and passive loads, all of whose nodes are connected to ground,
    does not oscillate, at any real frequency ... *)
Theorem C62_no_oscillation z ns h (c : circ K) f fl : CircHist.reach nan getpos z ns h c -> 0 < z ->
  tau * val f \is Num.real -> no_deembed h ->
  all_blocks (fun e : K => lossy_elem f e) (net_hist h) -> all_loads (@passive_load C) (net_hist h) ->
  (forall p, p \in nodes (net_hist h) -> grounded (net_hist h) f fl p) ->
  ~ resonant z (net_hist h) f fl.
Proof.
move=> Hr Hz Hw Hd Hb Hl Hg; apply: (C61_no_oscillation Hr Hz Hd _ Hl Hg).
by apply: (F2 _ (reach_oinv Hr) Hb) => b Ho; exact: lossy_dissipative.
Qed.

(** ... so that getS answers, with the scattering matrix of the network, which is passive. *)
Theorem C62_total z ns h (c : circ K) f fl : CircHist.reach nan getpos z ns h c -> 0 < z ->
  tau * val f \is Num.real -> no_deembed h ->
  may_ask h f fl -> ns = [::] \/ perm_eq ns (ports c) -> (exists p, free (net_hist h) p) ->
  all_blocks (fun e : K => lossy_elem f e /\ defined_elem tau exp M c0 f fl z e) (net_hist h) ->
  all_loads (@passive_load C) (net_hist h) ->
  (forall p, p \in nodes (net_hist h) -> grounded (net_hist h) f fl p) ->
  exists c' S, [/\ get1S f 0 [::] fl c = (c', Ok S), net_S z z (net_hist h) f fl (ports c') S &
    passive (mx_of (size (ports c')) (size (ports c')) S)].
Proof.
move=> Hr Hz Hw Hd Hm Hns Hf Hb Hl Hg; have Ho := reach_oinv Hr.
apply: (C61_answers Hr Hz Hd Hm Hns Hf _ Hl Hg).
  by apply: (F2 _ Ho Hb) => b Hob [H _]; exact: lossy_dissipative.
apply: (F2 _ Ho Hb) => b Hob [_ H] o' Ha; rewrite (elem_after f fl z Ha).
exact: elem_answers.
Qed.
End Elem.

(** ** witness: the circuit of C62_witness, a series resistor of 10 Ohm and a lossy line; the
    joined ports are grounded through the blocks *)
Section Witness.
Variable C : numClosedFieldType.
Variable M : mathlib C.
Variables (c0 tau : C).
Hypothesis Htau : tau != 0.
Notation K := (elem_cls unit_eqType (@exp2 C) M c0 Htau).
Notation gp := (fun (_ : circ K) (_ : string) => Ok (0 : C)).
Notation z50 := (50%:R : C).
Notation hE := (hE M c0 Htau).

Lemma lossyE f : all_blocks (fun e : K => lossy_elem tau (@exp2 C) f e /\ defined_elem tau (@exp2 C) M c0 f tt z50 e) (net_hist hE).
Proof.
constructor; first split=> //=.
- by split=> //=; [split=> //=; rewrite ?ler0n|rewrite ltr0n|right].
- by split; [split=> //=; rewrite ler0n|split].
constructor=> //; split=> /=.
  rewrite gam50 Zchar50 mul1r /exp2 oner_eq0; split=> //; first by rewrite ltr0n.
  by rewrite normr_nat ltr1n.
right; rewrite gam50 Zchar50; split=> //; rewrite ?oner_eq0 //.
- by rewrite ltr0n.
- by rewrite ltr0n.
- by move=> x; exact: exp2_0.
by rewrite mul1r /exp2 oner_eq0 normr_nat ler1n.
Qed.

Lemma groundE f p : p \in nodes (net_hist hE) -> grounded (net_hist hE) f tt p.
Proof.
have Ga : grounded (net_hist hE) f tt "a.s" by apply: g_free.
have Gb : grounded (net_hist hE) f tt "b.2" by apply: g_free.
have Gp : grounded (net_hist hE) f tt "a.p".
  by apply: (@g_across _ _ _ K (net_hist hE) f tt "a" [:: "s"; "p"] (resistor M c0 Htau) "s" "p") => //; left.
have G1 : grounded (net_hist hE) f tt "b.1".
  by apply: (@g_join _ _ _ K (net_hist hE) f tt [:: "a.p"; "b.1"] None "a.p" "b.1") => //; left.
by rewrite !inE => /or4P [] /eqP ->.
Qed.

Example C62_total_witness (f : freq C) : tau * val f \is Num.real -> exists c c' S,
  [/\ CircHist.reach 0 gp z50 [::] hE c, get1S f 0 [::] tt c = (c', Ok S),
      net_S z50 z50 (net_hist hE) f tt (ports c') S & passive (mx_of (size (ports c')) (size (ports c')) S)].
Proof.
move=> Hw; have [c Hr] := exE M c0 Htau; exists c.
have Hz : 0 < z50 by rewrite ltr0n.
have Hl : all_loads (@passive_load C) (net_hist hE) by constructor.
have [|||c' [S [E1 E2 E3]]] := @C62_total C unit_eqType tau (@exp2 C) M c0 Htau 0 gp z50 [::] hE c f tt Hr Hz Hw erefl _ _ _ (lossyE f) Hl (@groundE f).
- by [].
- by left.
- by exists "a.s".
by exists c', S.
Qed.

(** a shunt resistor ties its ports *)
Example C62_tied_witness (f : freq C) : tau * val f \is Num.real ->
  absorbing_obj f tt (ERlc [:: "s"; "p"] [:: 0; 0] (Rlc 10%:R 0 Inf (Fin 100%:R) Inf 0 z50) : K).
Proof.
move=> Hw; apply: C62_tied => //; split; last by exists 100%:R => //; rewrite ltr0n.
split=> //=; [by split=> //=; rewrite ?ler0n|by rewrite ltr0n|].
by left; exists 100%:R => //; rewrite ltr0n.
Qed.
End Witness.

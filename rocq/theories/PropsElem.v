(** C62: circuits of rfRLC, rfTRL, rfCoupler and rfBase objects.  The class of these block
    objects and their physical laws: CircElem.v; the laws of the elements: DevSpec.v,
    TrlSpec.v. *)
From mathcomp Require Import all_ssreflect all_algebra.
From mathcomp.algebra_tactics Require Import ring.
From Coq Require Import String Ascii.
From Coq Require List.
From Verif Require Import Base MxLib ConvModel ConvSpec ConvProofs ConvArr DevModel DevSpec DevThm TrlModel TrlSpec TrlThm CircModel CircSpec CircLib CircInv CircTerm CircApp CircConn CircAdd CircDe CircFill CircSolve CircExt CircHist CircGet CircMain CircOrd CircThm CircThm2 CircThm3 CircThm4 CircNest CircFlat CircDev CircThm6 CircPow CircPowT CircElem PropsPow.
Set Implicit Arguments.
Unset Strict Implicit.
Unset Printing Implicit Defensive.
Import Order.TTheory GRing.Theory Num.Theory.
Local Open Scope string_scope.
Local Open Scope ring_scope.
Local Open Scope seq_scope.

Section Elem.
Variable C : numClosedFieldType.
Variable Fl : eqType.
Variable tau : C.
Variable exp : C -> C.
Variable M : mathlib C.
Variable c0 : C.
Hypothesis Htau : tau != 0.
Notation K := (elem_cls Fl exp M c0 Htau).
Notation freq := (freq C).
Notation om := (om tau).
Implicit Types (f : freq) (fl : Fl).

(** ** one element *)
Lemma sum2n (g : nat -> C) : \sum_(j < 2) g j = g 0%N + g 1%N.
Proof. by rewrite !big_ord_recl big_ord0 addr0. Qed.

Lemma power_in2 (v i : vi C) : power_in 2 v i = power (col2 (v 0%N) (v 1%N)) (col2 (i 0%N) (i 1%N)).
Proof. by rewrite -!col2v power_col. Qed.

Lemma elem_recip f fl (e : K) : oinv e -> recip_elem tau f e -> recip_obj f fl e.
Proof.
case: e => [ps xs o|ps xs l o|ps xs o|ps xs zb tab] Hi Hr v i v' i'.
- move=> H H'; rewrite [osize _]/= !(sum2n (fun k => _ k * _ k)).
  by have := rlc_recip H H'; rewrite [i _ * _]mulrC [i _ * v' _]mulrC => ->.
- rewrite [osize _]/= !(sum2n (fun k => _ k * _ k)) /oden /= /tl_law.
  case: eqP => HL H H'.
    by have := through_recip H H'; rewrite [i _ * _]mulrC [i _ * v' _]mulrC => ->.
  case: Hr => // -[H1 H2].
  have Hz : Zchar (l_rjwL l) (l_gjwC l) (om f) != 0.
    by rewrite mulf_neq0 // invr_neq0 // /gam np_sqrt_eq0 mulf_neq0.
  by have := line_recip Hz H H'; rewrite [i _ * _]mulrC [i _ * v' _]mulrC => ->.
- case: Hi => _ Hz; case=> Sm E H; case=> Sm'; rewrite E => -[<-] H'.
  have Hs : symmetric (mx_of 4 4 (rows_of Sm)).
    by rewrite mx_of_rows; have [_ ->] := coupler_get1S_Ok E; exact: mx4_sym.
  exact: (iffLR (recip_rows _ _ Hz) Hs _ _ _ _ H H').
case: Hi => _ Hz; case=> Sm E H; case=> Sm'; rewrite E => -[<-] H'.
have Hs : symmetric (mx_of (size ps) (size ps) (rows_of Sm)) by rewrite mx_of_rows; exact: Hr.
exact: (iffLR (recip_rows _ _ Hz) Hs _ _ _ _ H H').
Qed.

Lemma exp_inv_le (t : C) : 1 <= `|t| -> `|t^-1| <= 1.
Proof. by move=> H; rewrite normfV invf_le1 // (lt_le_trans ltr01). Qed.

Lemma elem_passive f fl (e : K) : om f \is Num.real -> oinv e -> passive_elem tau exp M c0 f e -> passive_obj f fl e.
Proof.
move=> Hw; case: e => [ps xs o|ps xs l o|ps xs o|ps xs zb tab] Hi Hp v i.
- by move=> H; rewrite [osize _]/= power_in2; exact: rlc_power Hw Hp H.
- rewrite [osize _]/= power_in2 /oden /= /tl_law; case: eqP Hp => HL Hp H.
    have [E1 E2] := H; rewrite power2 E1 subrr mul0r E2 rmorph0 mulr0 -raddfD addr0 raddf0 //.
  by case: Hp => // -[H1 H2]; exact: line_power H1 (exp_inv_le H2) H.
- case: Hp => Hz Hk Hk1 Ht [Sm E H]; have [_ Hu] := coupler_lossless Hk Hk1 Ht E.
  have Hs : unitary (mx_of 4 4 (rows_of Sm)) by rewrite mx_of_rows.
  by rewrite (iffLR (unitary_rows _ _ Hz) Hs _ _ H).
case: Hp => Hz Hp [Sm E H].
have Hs : passive (mx_of (size ps) (size ps) (rows_of Sm)) by rewrite mx_of_rows; exact: Hp.
exact: (iffLR (passive_rows _ _ Hz) Hs _ _ H).
Qed.

Lemma through_power v1 v2 i1 i2 : @through_law C v1 v2 i1 i2 -> power (col2 v1 v2) (col2 i1 i2) = 0.
Proof. by case=> E1 E2; rewrite power2 E1 subrr mul0r E2 rmorph0 mulr0 raddf0 addr0. Qed.

Lemma power_of_sum (v1 v2 i1 i2 : C) : v1 * i1^* + i1 * v1^* + (v2 * i2^* + i2 * v2^*) = 0 ->
  power (col2 v1 v2) (col2 i1 i2) = 0.
Proof.
move=> E; rewrite /power sum2 !mxE /= !ReE !rmorphM /= !conjCK -mulrDl.
by rewrite -[RHS](mul0r 2%:R^-1) -[in RHS]E; congr (_ / _); ring.
Qed.

Lemma elem_lossless f fl (e : K) : om f \is Num.real -> oinv e -> lossless_elem tau exp M c0 f e -> lossless_obj f fl e.
Proof.
move=> Hw; case: e => [ps xs o|ps xs l o|ps xs o|ps xs zb tab] Hi Hp v i.
- move=> H; rewrite [osize _]/= power_in2; case: Hp => L1 L2 [L3 L4] L5 L6.
  case: H => [[vr [vl [vc [A1 A2 A3 A4]]]] [ir [il [ic [B1 B2 B3 B4]]]]].
  rewrite power2 A4 B4 !rmorphD /= !mulrDl !mulrDr !raddfD /=.
  rewrite (ind_power (l := Fin (Ls o)) Hw L3 A2) (cap_power Hw L5 A3).
  rewrite (ind_power Hw L6 B2) (cap_power (c := Fin (Cp o)) Hw L4 B3).
  by rewrite A1 L1; move: B1; rewrite L2 /= => ->; rewrite rmorph0 !mul0r mulr0 raddf0 !addr0.
- rewrite [osize _]/= power_in2 /oden /= /tl_law; case: eqP Hp => HL Hp H; first exact: through_power.
  case: Hp => // -[H1 H2 H3]; apply: power_of_sum; apply: (line_lossless H1 H2 _ H H).
  by rewrite -normCK normfV H3 invr1 expr1n.
- case: Hp => Hz Hk Hk1 Ht [Sm E H]; have [_ Hu] := coupler_lossless Hk Hk1 Ht E.
  have Hs : unitary (mx_of 4 4 (rows_of Sm)) by rewrite mx_of_rows.
  exact: (iffLR (unitary_rows _ _ Hz) Hs _ _ H).
case: Hp => Hz Hp [Sm E H].
have Hs : unitary (mx_of (size ps) (size ps) (rows_of Sm)) by rewrite mx_of_rows; exact: Hp.
exact: (iffLR (unitary_rows _ _ Hz) Hs _ _ H).
Qed.

(** what the state of an object is after getS calls *)
Lemma trl_state l (o : trl C) w Zb : exists s,
  (trl_getS exp (l_rjwL l) (l_gjwC l) (l_nodes l) o w Zb [::]).1 = with_solved o s.
Proof.
rewrite /TrlModel.trl_getS trl_set_nil /trl_get1S /TrlModel.solveVI /=.
by case: (TrlModel.solve0 _ _ _ _ _ _ _) => [e|x] /=; eexists.
Qed.

Lemma elem_after (e e' : K) f fl z : after_getS e e' -> (ogetS f z fl e').2 = (ogetS f z fl e).2.
Proof.
elim=> // o' f1 z1 fl1 _ _ <- {e'}.
case: o' => [ps xs o|ps xs l o|ps xs o|ps xs zb tab] //=.
have [s E] := trl_state l o (om f1) (Some z1); have H := @trl_getS_fresh C exp (l_rjwL l) (l_gjwC l) (l_nodes l) o.
case E1: (trl_getS _ _ _ _ o (om f1) _ _) E => [o1 r1] /= ->.
have {}H := H (om f) (Some z) [::] s; rewrite /e_getS; move: H.
by do 2!case: (trl_getS _ _ _ _ _ _ _ _) => ? ? /=; move=> ->.
Qed.

Lemma elem_answers f fl z (e : K) : 0 < z -> om f \is Num.real -> oinv e ->
  defined_elem tau exp M c0 f fl z e -> exists S, (ogetS f z fl e).2 = Ok S.
Proof.
move=> Hz Hw; have Hz0 : z != 0 by rewrite gt_eqF.
case: e => [ps xs o|ps xs l o|ps xs o|ps xs zb tab] Hi //.
- case=> Hp Ho; have Eo : rlc_set o (no_params C) = o by case: o {Hi Hp Ho}.
  have [Sm E] := rlc_total Hz Hw Hp Ho.
  by exists (rows_of Sm); rewrite /elem_cls /= Eo E.
move=> Hd; have [H1 H2 H3] := Hi.
have H : exists Sm, (trl_getS exp (l_rjwL l) (l_gjwC l) (l_nodes l) o (om f) (Some z) [::]).2 = Ok Sm; last first.
  by case: H => Sm E; exists (rows_of Sm); rewrite /= -[rows_of Sm]/(odflt [::] (Some (rows_of Sm))); case: (trl_getS _ _ _ _ _ _ _ _) E => a b /= ->.
case: (t_L o =P 0) => HL; last first.
  case: Hd => // -[D1 D2 D3 D4 D5].
  have Hex z1 : 0 < z1 -> exists S, is_scat2 (tl_law exp (l_rjwL l) (l_gjwC l) (t_L o) (om f)) z1 S.
    move=> Hz1; rewrite /tl_law; case: eqP => // _; apply: line_scat_ex => //; first by rewrite invr_neq0.
    exact: exp_inv_le.
  apply: trl_getS_total => //; try exact/eqP; try exact: Hex.
  - by rewrite /zref0 /= (negbTE Hz0).
  - by rewrite /zref0 /= (negbTE Hz0); exact: Hex.
rewrite /TrlModel.trl_getS trl_set_nil /trl_get1S /TrlModel.solveVI /=.
rewrite HL; have [e Ee] := @solve0_zero C exp (l_rjwL l) (l_gjwC l) (l_nodes l) H3 (t_zb o) (om f) H2; rewrite Ee /= (negbTE Hz0).
case: ifP => Hne; last by eexists.
have HS := solve0_scat H3 H2 Ee.
have HT : is_scat2 (tl_law exp (l_rjwL l) (l_gjwC l) 0 (om f)) z (mx2 0 1 1 0).
  by rewrite /tl_law eqxx; exact: through_scat_ex.
by exists (mx2 0 1 1 0); apply/(scat2_convert _ H2 Hz0 HS).
Qed.

(** ** circuits *)
Variable nan : C.
Variable getpos : forall K' : vcls C freq Fl, circ K' -> string -> res C.
Notation deep := (deep K nan getpos).
Notation reach n := (CircHist.reach nan (@getpos (deep n))).
Notation every Pd Pl Pz n := (@every C freq Fl K nan getpos Pd Pl Pz n).
Notation any_z := (fun _ : C => True).
Notation any_load := (fun _ : load C => True).

Lemma every_mono (Pd Qd : K -> Prop) (Pl : load C -> Prop) (Pz : C -> Prop) :
  (forall e : K, oinv e -> Pd e -> Qd e) ->
  forall n (o : deep n), oinv o -> every Pd Pl Pz n o -> every Qd Pl Pz n o.
Proof.
move=> H; elim=> [|n IH] /=; first exact: H.
case=> [d|s]; first exact: H.
move=> Ho [H1 H2 H3 Hb]; split=> //.
have Hi : List.Forall (fun b => oinv b.2.2) (nblk (net_hist (n_h s))).
  by case: Ho => Hr _ _; exact: reach_oinv Hr.
by apply: (F2 _ Hi Hb) => b; exact: IH.
Qed.

Lemma blocks_mono (Pd Qd : K -> Prop) (Pl : load C -> Prop) (Pz : C -> Prop) n z ns h c :
  (forall e : K, oinv e -> Pd e -> Qd e) -> reach n z ns h c ->
  all_blocks (every Pd Pl Pz n) (net_hist h) -> all_blocks (every Qd Pl Pz n) (net_hist h).
Proof. by move=> H Hr Hb; apply: (F2 _ (reach_oinv Hr) Hb) => b; exact: every_mono. Qed.

(** ** C62 *)
(** A circuit of RLC elements, lines, couplers and tables: what getS returns is the
    scattering matrix (on the requested impedance) of the network whose blocks obey the
    physical laws of these elements. *)
Theorem C62_network z ns h (c : circ K) f z' fl c' S :
  CircHist.reach nan (@getpos K) z ns h c -> may_ask h f fl -> get1S f z' [::] fl c = (c', Ok S) ->
  net_S z (zreq z' z) (net_hist h) f fl (ports c') S.
Proof. by move=> Hr Hm E; have [H _] := thm_C12 Hr Hm E. Qed.

(** ... where a block called nm with ports ps imposes, on the voltages and inward currents
    at its nodes, the laws of a series-shunt RLC circuit, of a line (a direct connection
    when its length is 0) or of a scattering matrix *)
Theorem C62_laws f fl (V I : asg C) nm (ps : seq string) p q xs :
  [/\ forall o, block_law f fl V I (nm, ([:: p; q], ERlc ps xs o : K)) <->
        rlc_law ('i * (tau * val f)) o (V (dot nm p)) (V (dot nm q)) (I (dot nm p)) (I (dot nm q)),
      (forall l o, t_L o != 0 -> block_law f fl V I (nm, ([:: p; q], ETrl ps xs l o : K)) <->
        let w := tau * val f in let g := np_sqrt (l_rjwL l w * l_gjwC l w) in
        line_law (exp (g * t_L o))^-1 (l_rjwL l w / g) (V (dot nm p)) (V (dot nm q)) (I (dot nm p)) (I (dot nm q))),
      (forall l o, t_L o = 0 -> block_law f fl V I (nm, ([:: p; q], ETrl ps xs l o : K)) <->
        through_law (V (dot nm p)) (V (dot nm q)) (I (dot nm p)) (I (dot nm q))) &
      forall qs o, block_law f fl V I (nm, (qs, ECpl ps xs o : K)) <->
        exists2 Sm, coupler_get1S M c0 o (val f) = Ok Sm &
        rel_S (cp_zb o) 4 (rows_of Sm) (fun k => V (dot nm (nth "" qs k))) (fun k => I (dot nm (nth "" qs k)))].
Proof.
split=> //.
  by move=> l o /negbTE HL; rewrite /block_law /= /tl_law HL.
by move=> l o HL; rewrite /block_law /= /tl_law HL eqxx.
Qed.

(** Reciprocal: for any loads and reference impedances, and any nesting. *)
Theorem C62_reciprocal n z ns h (c : circ (deep n)) f z' fl c' S :
  reach n z ns h c -> may_ask h f fl -> get1S f z' [::] fl c = (c', Ok S) ->
  no_deembed h -> all_blocks (every (recip_elem tau f) any_load any_z n) (net_hist h) ->
  symmetric (mx_of (size (ports c')) (size (ports c')) S).
Proof.
move=> Hr Hm E Hd Hb; apply: (C61_reciprocal Hr Hm E Hd).
by apply: (blocks_mono _ Hr Hb) => e; exact: elem_recip.
Qed.

(** Passive: circuits of elements with non-negative values (f real) only take power in. *)
Theorem C62_passive n z ns h (c : circ (deep n)) f z' fl c' S :
  reach n z ns h c -> may_ask h f fl -> get1S f z' [::] fl c = (c', Ok S) ->
  tau * val f \is Num.real -> 0 < z -> 0 <= z' -> no_deembed h -> all_loads (@passive_load C) (net_hist h) ->
  all_blocks (every (passive_elem tau exp M c0 f) (@passive_load C) (fun z => 0 < z) n) (net_hist h) ->
  passive (mx_of (size (ports c')) (size (ports c')) S).
Proof.
move=> Hr Hm E Hw Hz Hz' Hd Hl Hb; apply: (C61_passive Hr Hm E Hz Hz' Hd Hl).
by apply: (blocks_mono _ Hr Hb) => e; exact: elem_passive.
Qed.

Theorem C62_lossless n z ns h (c : circ (deep n)) f z' fl c' S :
  reach n z ns h c -> may_ask h f fl -> get1S f z' [::] fl c = (c', Ok S) ->
  tau * val f \is Num.real -> 0 < z -> 0 <= z' -> no_deembed h -> all_loads (@lossless_load C) (net_hist h) ->
  all_blocks (every (lossless_elem tau exp M c0 f) (@lossless_load C) (fun z => 0 < z) n) (net_hist h) ->
  unitary (mx_of (size (ports c')) (size (ports c')) S).
Proof.
move=> Hr Hm E Hw Hz Hz' Hd Hl Hb; apply: (C61_lossless Hr Hm E Hz Hz' Hd Hl).
by apply: (blocks_mono _ Hr Hb) => e; exact: elem_lossless.
Qed.

(** getS answers on circuits of physical elements unless the network oscillates (has a
    non-zero solution without excitation). *)
Theorem C62_answers z ns h (c : circ K) f fl :
  CircHist.reach nan (@getpos K) z ns h c -> may_ask h f fl -> ns = [::] \/ perm_eq ns (ports c) ->
  tau * val f \is Num.real -> 0 < z -> (exists p, free (net_hist h) p) ->
  all_blocks (fun e : K => defined_elem tau exp M c0 f fl z e) (net_hist h) -> ~ resonant z (net_hist h) f fl ->
  exists c' S, get1S f 0 [::] fl c = (c', Ok S).
Proof.
move=> Hr Hm Hns Hw Hz Hf Hb Hn; apply: (getS_returns Hr Hm Hns _ Hf Hn) => e.
case=> nm [ps [o [o' [Hin Ha _]]]]; rewrite (elem_after f fl z Ha).
have Ho : oinv o := iffLR (List.Forall_forall _ _) (reach_oinv Hr) _ Hin.
have Hd : defined_elem tau exp M c0 f fl z o := iffLR (List.Forall_forall _ _) Hb _ Hin.
by have [S ->] := elem_answers Hz Hw Ho Hd.
Qed.
End Elem.

(** ** rfRLC objects: len(obj) *)
Section Len.
Variable C : numClosedFieldType.

(** A new object has two ports, and a getS that returns makes len(obj) 2 ... *)
Theorem C62_len_new (o : rlc C) : ro_len (new_rlc o) = Ok 2%N.
Proof. by []. Qed.

Theorem C62_len_getS (o o' : rlc_obj C) w Zb p S :
  ro_getS o w Zb p = (o', Ok S) -> ro_len o' = Ok 2%N.
Proof. by rewrite /ro_getS /rlc_getS => -[<- ->]; rewrite /ro_len /= orbT. Qed.

(** ... but after a set() that changes a value len(obj) raises until the next getS (so that
    addblock of the object fails): the claim that an RF object always has its number of
    ports as length is false of the code. *)
Theorem C62_len_refuted (o : rlc C) (x : C) : x != Rs o ->
  let o' := (ro_set (new_rlc o) [:: ("Rs", Fin x)]).1 in
  [/\ (ro_set (new_rlc o) [:: ("Rs", Fin x)]).2 = Ok true, Rs (ro_rlc o') = x & ro_len o' = Raise TypeError].
Proof.
move=> H; have E : ext_eq (Fin (Rs o)) (Fin x) = false by rewrite /ext_eq eq_sym (negbTE H).
by rewrite /ro_set [rlc_kw _ _ _]/= -/(ext_eq (Fin (Rs o)) (Fin x)) E.
Qed.

(** a set() that raises or changes nothing leaves the length alone *)
Theorem C62_len_set (o : rlc_obj C) kw r : (ro_set o kw).2 = r -> r <> Ok true ->
  ro_len (ro_set o kw).1 = ro_len o.
Proof.
rewrite /ro_set; case: (rlc_kw _ _ _) => a [[]|e] <- //= _; by rewrite /ro_len /= andbT.
Qed.
End Len.

Section Witness.
Variable C : numClosedFieldType.
Variable M : mathlib C.
Variables (c0 tau : C).
Hypothesis Htau : tau != 0.
Definition exp2 (x : C) : C := if x == 0 then 1 else 2%:R.
Notation K := (elem_cls unit_eqType exp2 M c0 Htau).
Notation gp := (fun (K' : vcls C (freq C) unit_eqType) (_ : circ K') (_ : string) => Ok (0 : C)).
Notation z50 := (50%:R : C).

(** a resistor of 10 Ohm, and a lossy 50 Ohm line with gamma = 1 *)
Definition resistor : K := ERlc [:: "s"; "p"] [:: 0; 0] (Rlc 10%:R 0 Inf Inf Inf 0 z50).
Definition par50 : lpar C := Lpar (fun _ => z50) (fun _ => z50^-1) (fun L _ => [:: 0; L]).
Definition line50 : K := ETrl [:: "1"; "2"] [:: 0; 1] par50 (Trl 1 z50 [::]).
Definition hE : seq (event K) := [:: (OAdd "a" resistor PNone 0, true); (OAdd "b" line50 PNone 0, true);
  (OConnect K [:: "a.p"; "b.1"], true)].

Lemma z50_0 : z50 != 0. Proof. by rewrite pnatr_eq0. Qed.
Lemma good50 : good_nodes (l_nodes par50).
Proof. by move=> L w; exists [::]. Qed.
Lemma gam50 w : gam (l_rjwL par50) (l_gjwC par50) w = 1.
Proof.
rewrite /gam /= divff ?z50_0 //.
have H1 := @np_sqrt_gt0 C 1 ltr01; have := np_sqrtK (1 : C) => /eqP.
rewrite sqrf_eq1 => /orP [/eqP -> //|/eqP E].
by move: H1; rewrite E oppr_gt0 lt_gtF // ltr01.
Qed.
Lemma Zchar50 w : Zchar (l_rjwL par50) (l_gjwC par50) w = z50.
Proof. by rewrite /Zchar gam50 divr1. Qed.
Lemma exp2_0 x : exp2 x != 0.
Proof. by rewrite /exp2; case: ifP => _; rewrite ?oner_eq0 ?pnatr_eq0. Qed.

Lemma hE_ok : hist_ok hE.
Proof.
rewrite /hist_ok /=; repeat split; rewrite ?z50_0 //; try (by right; split=> // ps [<-]); try (by left); exact: good50.
Qed.

Lemma exE : exists c, CircHist.reach 0 (@gp K) z50 [::] hE c.
Proof.
have : isSome (run 0 (@gp K) (new_circ K z50 [::]) hE) by vm_compute.
by case E: (run _ _ _ _) => [c|//] _; exists c; split=> //; [exact: z50_0|exact: hE_ok].
Qed.

Lemma resE (f : freq C) : ~ resonant z50 (net_hist hE) f tt.
Proof.
case=> v [i [[Hb Hj _ _ _] Hf [p Hp Hne]]]; have [Hb1 Hb'] := FC Hb; have [Hb2 _] := FC Hb'.
have [Hj1 _] := FC Hj; have [J1 J2] : join_law v i ([:: "a.p"; "b.1"], None) := Hj1.
have F1 : v "a.s" + z50 * i "a.s" = 0 by apply: Hf.
have F2 : v "b.2" + z50 * i "b.2" = 0 by apply: Hf.
have J3 : v "a.p" = v "b.1" by apply: J1.
have J4 : i "a.p" + i "b.1" = 0 by rewrite -[RHS]J2 big_cons big_seq1.
have [A1 A2] : v "a.s" - v "a.p" = 10%:R * i "a.s" /\ i "a.s" + i "a.p" = 0.
  have Hb1' : rlc_law ('i * om tau f) (Rlc 10%:R 0 Inf Inf Inf 0 z50) (v "a.s") (v "a.p") (i "a.s") (i "a.p") := Hb1.
  have [[vr [vl [vc [E1 E2 E3 E4]]]] [ir [il [ic [G1 G2 G3 G4]]]]] := Hb1'.
  split.
    by apply: etrans E4 _; move: E1 E2 E3 => /= -> -> ->; ring.
  by apply: etrans G4 _; move: G1 G2 G3 => /= -> -> ->; ring.
have [B1 B2] : line_law (2%:R^-1) z50 (v "b.1") (v "b.2") (i "b.1") (i "b.2").
  have : tl_law exp2 (l_rjwL par50) (l_gjwC par50) 1 (om tau f) (v "b.1") (v "b.2") (i "b.1") (i "b.2") := Hb2.
  rewrite /tl_law oner_eq0 gam50 Zchar50 mulr1.
  by rewrite {1}/exp2 oner_eq0.
have E1 : v "b.1" = z50 * i "b.1".
  by apply/eqP; rewrite -subr_eq0 B2 F2 mulr0.
have Ei : i "b.1" = i "a.s".
  by apply: (addrI (i "a.p")); rewrite J4 addrC A2.
have Z : (110%:R : C) * i "a.s" = 0.
  transitivity (10%:R * i "a.s" - (v "a.s" - v "a.p") + (v "a.s" + z50 * i "a.s") - (v "a.p" - z50 * i "a.s")); first by ring.
  by rewrite A1 F1 J3 E1 Ei; ring.
have I0 : i "a.s" = 0 by move/eqP: Z; rewrite mulf_eq0 pnatr_eq0 /= => /eqP.
have I1 : i "b.1" = 0 by rewrite Ei.
have I2 : i "a.p" = 0 by move: J4; rewrite I1 addr0.
have V1 : v "b.1" = 0 by rewrite E1 I1 mulr0.
have V0 : v "a.s" = 0 by move: F1; rewrite I0 mulr0 addr0.
have B3 : v "b.2" - z50 * i "b.2" = 0 by rewrite B1 V1 I1; ring.
have V2 : v "b.2" = 0.
  apply: half_inj; rewrite addr0; transitivity ((v "b.2" + z50 * i "b.2") + (v "b.2" - z50 * i "b.2")); first by ring.
  by rewrite F2 B3 addr0.
have I3 : i "b.2" = 0.
  by move/eqP: F2; rewrite V2 add0r mulf_eq0 (negbTE z50_0) /= => /eqP.
move: Hp Hne; rewrite !inE => /or4P[] /eqP ->; rewrite ?J3 ?V0 ?I0 ?V1 ?I1 ?I2 ?V2 ?I3 eqxx //.
Qed.

(** a resistor in series with a lossy line: the theorems above apply, getS answers with a
    symmetric and passive matrix *)
Example C62_witness (f : freq C) : tau * val f \is Num.real ->
  exists c c' S, [/\ CircHist.reach 0 (@gp K) z50 [::] hE c, get1S f 0 [::] tt c = (c', Ok S),
    no_deembed hE /\ all_blocks (@every C _ _ K 0 gp (recip_elem tau f) (fun _ => True) (fun _ => True) 0) (net_hist hE),
    all_blocks (@every C _ _ K 0 gp (passive_elem tau exp2 M c0 f) (@passive_load C) (fun z => 0 < z) 0) (net_hist hE) &
    symmetric (mx_of (size (ports c')) (size (ports c')) S) /\ passive (mx_of (size (ports c')) (size (ports c')) S)].
Proof.
move=> Hw; have [c Hr] := exE; have Hz : 0 < z50 by rewrite ltr0n.
have Hrec : all_blocks (@every C _ _ K 0 gp (recip_elem tau f) (fun _ => True) (fun _ => True) 0) (net_hist hE).
  constructor=> //; constructor=> //; right; split; rewrite /= ?invr_neq0 //; exact: z50_0.
have Hpas : all_blocks (@every C _ _ K 0 gp (passive_elem tau exp2 M c0 f) (@passive_load C) (fun z => 0 < z) 0) (net_hist hE).
  constructor; first by split=> //=; rewrite ler0n.
  constructor=> //; right; rewrite gam50 Zchar50; split=> //.
  by rewrite /= mul1r /exp2 oner_eq0 normr_nat ler1n.
have [c' [S E]] : exists c' S, get1S f 0 [::] tt c = (c', Ok S).
  have Hd : all_blocks (fun e : K => defined_elem tau exp2 M c0 f tt z50 e) (net_hist hE).
    constructor; first by split; [split=> //=; rewrite ler0n|split].
    constructor=> //; right; rewrite gam50 Zchar50; split=> //; rewrite ?oner_eq0 //.
      by move=> x; exact: exp2_0.
    by rewrite /= mul1r /exp2 oner_eq0 normr_nat ler1n.
  apply: (@C62_answers C unit_eqType tau exp2 M c0 Htau 0 gp z50 [::] hE c f tt Hr _ _ Hw Hz _ Hd (@resE f)) => //.
    by left.
  by exists "a.s".
exists c, c', S; split=> //; split.
  by apply: (@C62_reciprocal C unit_eqType tau exp2 M c0 Htau 0 gp 0 z50 [::] hE c f 0 tt c' S).
by apply: (@C62_passive C unit_eqType tau exp2 M c0 Htau 0 gp 0 z50 [::] hE c f 0 tt c' S) => //; constructor.
Qed.
End Witness.

(** C63: addblock(name, object, params=...).  The model: CircParm.v (the class parm_cls of the
    objects of CircElem.v with the params of their block). *)
From mathcomp Require Import all_ssreflect all_algebra.
From mathcomp.algebra_tactics Require Import ring.
From Coq Require Import String Ascii.
From Coq Require List.
From Verif Require Import Base MxLib ConvModel ConvSpec ConvProofs ConvArr DevModel DevSpec DevThm TrlModel TrlSpec TrlThm CircModel CircSpec CircLib CircInv CircTerm CircApp CircConn CircAdd CircDe CircFill CircSolve CircExt CircHist CircGet CircMain CircOrd CircThm CircThm2 CircThm3 CircThm4 CircNest CircFlat CircDev CircThm6 CircPow CircPowT CircSetP CircSetX CircElem CircParm PropsCircS PropsPow PropsElem PropsElemS.
Set Implicit Arguments.
Unset Strict Implicit.
Unset Printing Implicit Defensive.
Import Order.TTheory GRing.Theory Num.Theory.
Local Open Scope string_scope.
Local Open Scope ring_scope.
Local Open Scope seq_scope.

(** the value a dict gives to a name, d if it has none *)
Definition given (V : Type) (p : seq (string * V)) (k : string) (d : V) : V := odflt d (dget p k).

Section Obj.
Variable C : numClosedFieldType.
Variable Fl : eqType.
Variable tau : C.
Variable exp : C -> C.
Variable M : mathlib C.
Variable c0 : C.
Hypothesis Htau : tau != 0.
Notation K := (parm_cls Fl exp M c0 Htau).
Notation kws := (seq (string * DevModel.ext C)).
Implicit Types (p kw : kws).

Definition rlc_vals (o : rlc C) (Rs' Ls' Cs' Rp' Lp' Cp' : DevModel.ext C) : Prop :=
  [/\ [/\ Fin (Rs o) = Rs', Fin (Ls o) = Ls' & Cs o = Cs'] & [/\ Rp o = Rp', Lp o = Lp' & Fin (Cp o) = Cp']].
(** the six values of o1 are those of the dict p, else those of o *)
Definition rlc_with p (o o1 : rlc C) : Prop :=
  rlc_vals o1 (given p "Rs" (Fin (Rs o))) (given p "Ls" (Fin (Ls o))) (given p "Cs" (Cs o))
    (given p "Rp" (Rp o)) (given p "Lp" (Lp o)) (given p "Cp" (Fin (Cp o))).

Lemma rlc_lawE jw (o o1 o2 : rlc C) p v1 v2 i1 i2 : rlc_with p o o1 -> rlc_with p o o2 ->
  rlc_law jw o1 v1 v2 i1 i2 <-> rlc_law jw o2 v1 v2 i1 i2.
Proof.
case=> [[A1 A2 A3] [A4 A5 A6]] [[B1 B2 B3] [B4 B5 B6]].
have [E1] : Fin (Rs o1) = Fin (Rs o2) by rewrite A1 B1.
have [E2] : Fin (Ls o1) = Fin (Ls o2) by rewrite A2 B2.
have [E3] : Fin (Cp o1) = Fin (Cp o2) by rewrite A6 B6.
by rewrite /rlc_law /series_rlc /parallel_rlc E1 E2 E3 A3 A4 A5 B3 B4 B5.
Qed.

Lemma dget_Fin p k : good_params p -> k \in [:: "Rs"; "Ls"; "Cp"] -> forall d : C,
  Fin (odflt d (fin_of (dget p k))) = given p k (Fin d).
Proof.
case/and3P => _ _; rewrite /given => H Hk d; elim: p H => [|[k' [v|]] p IH] //= /andP [H0 H].
  by case: eqP => // _; exact: IH.
by case: eqP H0 => [<-|_ _]; [rewrite Hk|exact: IH].
Qed.

Lemma rlc_set_with p (o : rlc C) : good_params p -> rlc_with p o (rlc_set o (rlc_of p)).
Proof.
move=> Hp; split; split=> /=; try by rewrite /given; case: (dget p _).
- by rewrite -(dget_Fin Hp) //; case: (fin_of _).
- by rewrite -(dget_Fin Hp) //; case: (fin_of _).
by rewrite -(dget_Fin Hp) //; case: (fin_of _).
Qed.

Lemma last_given k p (d : C) : uniq (dkeys p) -> trl_good p -> Fin (last_of k p d) = given p k (Fin d).
Proof.
rewrite /given; elim: p d => [|[k' [v|]] p IH] d //= /andP [Hk Hu] /andP [_ Hg].
rewrite IH // eq_sym; case: eqP => [E|//]; subst k'.
by have -> : dget p k = None by apply/dget_None.
Qed.

(** ** the laws of the blocks *)
(** An RLC block: the values of its params, else those of the object. *)
Theorem C63_law_rlc f fl (V I : asg C) nm (qs : seq string) a b xs o p o1 : good_params p -> rlc_with p o o1 ->
  (block_law f fl V I (nm, ([:: a; b], Pobj (ERlc qs xs o) p : K)) <->
   rlc_law ('i * (tau * val f)) o1 (V (dot nm a)) (V (dot nm b)) (I (dot nm a)) (I (dot nm b))).
Proof.
move=> Hp H1; rewrite /block_law /= /p_den /= /eff /= -(rlc_lawE _ _ _ _ _ (rlc_set_with o Hp) H1).
by split=> [[]|] // H; split=> //; exists (popped p).
Qed.

(** the params a line accepts *)
Definition line_params p := forall k v, List.In (k, v) p -> (k = "L" \/ k = "Zbase") /\ v <> Inf.

Lemma line_good p : line_params p -> trl_good p.
Proof.
elim: p => [|[k v] p IH] //= Hk; rewrite IH ?andbT; last by move=> k' v' Hi; apply: Hk; right.
by have [[->|->]] := Hk k v (or_introl erefl); case: v {Hk}.
Qed.

Lemma line_den f (fl : Fl) (v i : vi C) (qs : seq string) xs l o p L1 : good_params p -> line_params p ->
  Fin L1 = given p "L" (Fin (t_L o)) ->
  p_den tau exp M c0 (Pobj (ETrl qs xs l o) p) f fl v i <->
  tl_law exp (l_rjwL l) (l_gjwC l) L1 (tau * val f) (v 0%N) (v 1%N) (i 0%N) (i 1%N).
Proof.
move=> Hp /line_good Hg; have [Hu _ _] := and3P Hp; rewrite -(last_given _ _ Hu Hg) => -[E].
rewrite /p_den /= /accepts /eff /=.
have H1 := trl_kw_ok xs o p; have := @trl_kw_L _ xs o p Hg; move: H1; rewrite Hg.
case: (trl_kw xs o p) => [[x1 o1] r] /= -> [-> _] /=; rewrite E.
by split=> [[]|] // H; split=> //; exists p.
Qed.

(** A line block: the length of its params, else that of the object. *)
Theorem C63_law_line f fl (V I : asg C) nm (qs : seq string) a b xs l o p L1 : good_params p -> line_params p ->
  Fin L1 = given p "L" (Fin (t_L o)) ->
  (block_law f fl V I (nm, ([:: a; b], Pobj (ETrl qs xs l o) p : K)) <->
   tl_law exp (l_rjwL l) (l_gjwC l) L1 (tau * val f) (V (dot nm a)) (V (dot nm b)) (I (dot nm a)) (I (dot nm b))).
Proof. by move=> Hp Hk HL; exact: line_den. Qed.

(** Couplers and tables: params have no effect. *)
Theorem C63_law_other f fl (V I : asg C) nm (qs : seq string) (e : elem C) p :
  match e with ECpl _ _ _ | ETab _ _ _ _ => True | _ => False end ->
  (block_law f fl V I (nm, (qs, Pobj e p : K)) <->
   block_law f fl V I (nm, (qs, e : elem_cls Fl exp M c0 Htau))).
Proof.
by case: e => // [ps xs o|ps xs zb tab] _; rewrite /block_law /= /p_den /= /accepts /=; split=> [[]|H] //; split=> //; exists p.
Qed.

(** No params: as if the object had been put there without (C62_laws). *)
Theorem C63_law_none f fl (V I : asg C) nm (qs : seq string) (e : elem C) :
  block_law f fl V I (nm, (qs, Pobj e [::] : K)) <->
  block_law f fl V I (nm, (qs, e : elem_cls Fl exp M c0 Htau)).
Proof.
rewrite /block_law /= /p_den /accepts; case: e => [ps xs o|ps xs l o|ps xs o|ps xs zb tab] /=; rewrite /eff /=.
- have -> : rlc_set o (rlc_of [::]) = o by case: o.
  by split=> [[]|H] //; split=> //; exists [::].
- by split=> [[]|H] //; split=> //; exists [::].
- by split=> [[]|H] //; split=> //; exists [::].
by split=> [[]|H] //; split=> //; exists [::].
Qed.

(** ** the object as its params make it (eff) *)
Theorem C63_eff_rlc (qs : seq string) xs (o : rlc C) p : good_params p ->
  exists2 o1, eff (Pobj (ERlc qs xs o) p) = ERlc qs xs o1 & rlc_with p o o1.
Proof. by move=> Hp; exists (rlc_set o (rlc_of p)) => //; exact: rlc_set_with. Qed.

Theorem C63_eff_line (qs : seq string) xs l (o : trl C) p : good_params p -> line_params p ->
  accepts (Pobj (ETrl qs xs l o) p) /\
  exists xs' o1, [/\ eff (Pobj (ETrl qs xs l o) p) = ETrl qs xs' l o1,
    Fin (t_L o1) = given p "L" (Fin (t_L o)) & Fin (t_zb o1) = given p "Zbase" (Fin (t_zb o))].
Proof.
move=> Hp /line_good Hg; have [Hu _ _] := and3P Hp; rewrite /accepts /eff /=.
have H1 := trl_kw_ok xs o p; have := @trl_kw_L _ xs o p Hg; move: H1; rewrite Hg.
case: (trl_kw xs o p) => [[x1 o1] r] /= -> [E1 [E2 _]] /=; split; first by exists p.
by exists x1, o1; rewrite E1 E2 !last_given.
Qed.

Theorem C63_eff_other (e : elem C) p : match e with ECpl _ _ _ | ETab _ _ _ _ => True | _ => False end ->
  eff (Pobj e p) = e.
Proof. by case: e. Qed.

(** ** set after getS *)
Lemma after_line (qs : seq string) xs l o p (x' : K) : line_params p -> after_getS (Pobj (ETrl qs xs l o) p : K) x' ->
  exists xs' o', x' = Pobj (ETrl qs xs' l o') p /\ (t_L o' = t_L o \/ t_L o' = last_of "L" p (t_L o)).
Proof.
move/line_good => Hg; elim=> [|o1 f z fl _ _ [xs' [o' [-> H]]]]; first by exists xs, o; split=> //; left.
rewrite [ogetS _ _ _ _]/(p_getS tau exp M c0 f z fl (Pobj (ETrl qs xs' l o') p)) /p_getS /=.
have H1 := trl_kw_ok xs' o' p; have := @trl_kw_L _ xs' o' p Hg; move: H1; rewrite Hg.
case: (trl_kw xs' o' p) => [[x1 o2] r] /= -> [E _] /=.
have [E1 _] := trl_after exp l o2 (om tau f) (Some z).
move: E1; case: (trl_getS _ _ _ _ _ _ _ _) => [o3 r3] /= E1; exists x1, o3; split=> //; right.
by rewrite E1 E; case: H => ->; rewrite ?last_of_idem.
Qed.

(** circuit.set of a line with params: the length of the params, else the length set *)
Theorem C63_set_line f fl (V I : asg C) nm (qs : seq string) a b xs l o p kw (x' : K) L1 : good_params p -> line_params p ->
  after_getS (Pobj (ETrl qs xs l o) p : K) x' -> uniq (dkeys kw) -> (p_set kw x').2 = Ok tt ->
  Fin L1 = given p "L" (given kw "L" (Fin (t_L o))) ->
  (block_law f fl V I (nm, ([:: a; b], (p_set kw x').1 : K)) <->
   tl_law exp (l_rjwL l) (l_gjwC l) L1 (tau * val f) (V (dot nm a)) (V (dot nm b)) (I (dot nm a)) (I (dot nm b))).
Proof.
move=> Hp Hk Ha Hu Hs HL; have Hg := line_good Hk; have [Hup _ _] := and3P Hp.
have [xs' [o' [E H]]] := after_line Hk Ha; move: Hs; rewrite E /p_set /=.
have H1 := trl_kw_ok xs' o' kw; have H2 := @trl_kw_L _ xs' o' kw; move: H1 H2.
case: (trl_kw xs' o' kw) => [[x1 o2] r] /= ->; case Hgk: (trl_good kw) => // /(_ isT) [E2 _] _.
apply: line_den => //; rewrite HL /given; case Ed: (dget p "L") => [v|] //=.
have EL : t_L o' = t_L o.
  case: H => // ->; have := last_given "L" (t_L o) Hup Hg; rewrite /given Ed => -[->] //.
by rewrite E2 (last_given _ _ Hu Hgk) EL.
Qed.

Lemma after_rlc (qs : seq string) xs o p (x' : K) : after_getS (Pobj (ERlc qs xs o) p : K) x' ->
  forall f z fl, (ogetS f z fl x').1 = Pobj (ERlc qs xs (rlc_set o (rlc_of p))) (popped p).
Proof.
have H a f z fl : (ogetS f z fl (Pobj (ERlc qs xs a) (popped p) : K)).1 = Pobj (ERlc qs xs a) (popped p).
  rewrite [ogetS _ _ _ _]/(p_getS tau exp M c0 f z fl (Pobj (ERlc qs xs a) (popped p))) /p_getS /=.
  by rewrite rlc_of_popped popped_idem; case: a.
have H0 f z fl : (ogetS f z fl (Pobj (ERlc qs xs o) p : K)).1 = Pobj (ERlc qs xs (rlc_set o (rlc_of p))) (popped p).
  by [].
elim=> [|o1 f z fl _ _ IH] f' z' fl' //; by rewrite IH H.
Qed.

(** the six values of o1: the first dict that has the name, else the value of o *)
Definition rlc_with2 p kw (o o1 : rlc C) : Prop :=
  rlc_vals o1 (given p "Rs" (given kw "Rs" (Fin (Rs o)))) (given p "Ls" (given kw "Ls" (Fin (Ls o))))
    (given p "Cs" (given kw "Cs" (Cs o))) (given p "Rp" (given kw "Rp" (Rp o)))
    (given p "Lp" (given kw "Lp" (Lp o))) (given p "Cp" (given kw "Cp" (Fin (Cp o)))).

Lemma rlc_set_kw p kw (qs : seq string) xs o : uniq (dkeys kw) -> (e_set kw (ERlc qs xs o)).2 = Ok tt ->
  exists2 o', (e_set kw (ERlc qs xs o)).1 = ERlc qs xs o' &
    forall o1, rlc_with2 p kw o o1 <-> rlc_with p o' o1.
Proof.
move=> Hu Hs; have [o' E [[E1 E2 E3] [E4 E5 E6] _]] := C62_set_rlc Hu Hs.
by exists o' => // o1; rewrite /rlc_with2 /rlc_with E1 E2 E3 E4 E5 E6.
Qed.

(** circuit.set of an RLC object with params: before the first getS the params win ... *)
Theorem C63_set_rlc_before f fl (V I : asg C) nm (qs : seq string) a b xs o p kw o1 : good_params p ->
  uniq (dkeys kw) -> (p_set kw (Pobj (ERlc qs xs o) p)).2 = Ok tt -> rlc_with2 p kw o o1 ->
  (block_law f fl V I (nm, ([:: a; b], (p_set kw (Pobj (ERlc qs xs o) p)).1 : K)) <->
   rlc_law ('i * (tau * val f)) o1 (V (dot nm a)) (V (dot nm b)) (I (dot nm a)) (I (dot nm b))).
Proof.
move=> Hp Hu Hs; have {}Hs : (e_set kw (ERlc qs xs o)).2 = Ok tt by move: Hs; rewrite /p_set; case: (e_set _ _).
have [o' E H] := rlc_set_kw p Hu Hs; move/H => H1.
have -> : (p_set kw (Pobj (ERlc qs xs o) p)).1 = Pobj (ERlc qs xs o') p by rewrite -E /p_set; case: (e_set _ _).
exact: C63_law_rlc.
Qed.

(** ... but after a getS the values set win: the params have been popped into the object *)
Theorem C63_set_rlc_after f fl (V I : asg C) nm (qs : seq string) a b xs o p kw (x : K) f0 z0 fl0 o1 : good_params p ->
  after_getS (Pobj (ERlc qs xs o) p : K) x -> let x' := (ogetS f0 z0 fl0 x).1 in
  uniq (dkeys kw) -> (p_set kw x').2 = Ok tt -> rlc_with2 kw p o o1 ->
  (block_law f fl V I (nm, ([:: a; b], (p_set kw x').1 : K)) <->
   rlc_law ('i * (tau * val f)) o1 (V (dot nm a)) (V (dot nm b)) (I (dot nm a)) (I (dot nm b))).
Proof.
move=> Hp Ha x' Hu Hs H2; move: Hs; rewrite /x' (after_rlc Ha) => Hs.
set o2 := rlc_set o (rlc_of p) in Hs *; have [[A1 A2 A3] [A4 A5 A6]] := rlc_set_with o Hp.
apply: (@C63_set_rlc_before f fl V I nm qs a b xs o2 (popped p) kw o1) => //; first exact: good_popped.
have G k (d : DevModel.ext C) : k \in rlc_names -> given (popped p) k d = d by move=> Hk; rewrite /given popped_none.
by rewrite /rlc_with2 /o2 A1 A2 A3 A4 A5 A6 !G.
Qed.
End Obj.


Section Circ.
Variable C : numClosedFieldType.
Variable Fl : eqType.
Variable tau : C.
Variable exp : C -> C.
Variable M : mathlib C.
Variable c0 : C.
Hypothesis Htau : tau != 0.
Notation K := (parm_cls Fl exp M c0 Htau).
Notation K0 := (elem_cls Fl exp M c0 Htau).
Notation freq := (freq C).
Notation om := (om tau).
Notation kws := (seq (string * DevModel.ext C)).
Variable nan : C.
Variable getpos : forall K' : vcls C freq Fl, circ K' -> string -> res C.
Notation deep := (deep K nan getpos).
Notation reach n := (CircHist.reach nan (@getpos (deep n))).
Notation every Pd Pl Pz n := (@every C freq Fl K nan getpos Pd Pl Pz n).
Notation any_z := (fun _ : C => True).
Notation any_load := (fun _ : load C => True).
Notation reachX := (@CircSetX.reachX C freq Fl K nan (@getpos K)).
Implicit Types (f : freq) (fl : Fl) (kw : kws).

Lemma every_monoP (Pd Qd : K -> Prop) (Pl : load C -> Prop) (Pz : C -> Prop) :
  (forall e : K, oinv e -> Pd e -> Qd e) ->
  forall n (o : deep n), oinv o -> every Pd Pl Pz n o -> every Qd Pl Pz n o.
Proof.
move=> H; elim=> [|n IH] /=; first exact: H.
case=> [d|s]; first exact: H.
move=> Ho [H1 H2 H3 Hb]; split=> //.
have Hi : List.Forall (fun b => oinv b.2.2) (nblk (net_hist (n_h s))).
  by case: Ho => Hr _ _; exact: reach_oinv Hr.
by apply: (F2 _ Hi Hb) => b; exact: IH.
Qed.

Lemma blocks_monoP (Pd Qd : K -> Prop) (Pl : load C -> Prop) (Pz : C -> Prop) n z ns h c :
  (forall e : K, oinv e -> Pd e -> Qd e) -> reach n z ns h c ->
  all_blocks (every Pd Pl Pz n) (net_hist h) -> all_blocks (every Qd Pl Pz n) (net_hist h).
Proof. by move=> H Hr Hb; apply: (F2 _ (reach_oinv Hr) Hb) => b; exact: every_monoP. Qed.

(** the laws of an object with params are those of the object as its params make it *)
Lemma eff_recip f fl (x : K) : oinv x -> recip_elem tau f (eff x) -> recip_obj f fl x.
Proof.
move=> Hi Hr v i v' i' [_ H] [_ H']; have [E _] := eff_keep x.
by have := elem_recip (eff_inv Hi : @oinv _ _ _ K0 (eff x)) Hr H H'; rewrite [osize _]/= E.
Qed.
Lemma eff_passive f fl (x : K) : om f \is Num.real -> oinv x -> passive_elem tau exp M c0 f (eff x) -> passive_obj f fl x.
Proof.
move=> Hw Hi Hr v i [_ H]; have [E _] := eff_keep x.
by have := elem_passive Hw (eff_inv Hi : @oinv _ _ _ K0 (eff x)) Hr H; rewrite [osize _]/= E.
Qed.
Lemma eff_lossless f fl (x : K) : om f \is Num.real -> oinv x -> lossless_elem tau exp M c0 f (eff x) -> lossless_obj f fl x.
Proof.
move=> Hw Hi Hr v i [_ H]; have [E _] := eff_keep x.
by have := elem_lossless Hw (eff_inv Hi : @oinv _ _ _ K0 (eff x)) Hr H; rewrite [osize _]/= E.
Qed.

(** ** C63 *)
(** getS returns the scattering matrix of the network whose blocks obey the laws of their
    objects as their params make them (C63_law_rlc, C63_law_line, C63_law_other) *)
Theorem C63_network z ns h (c : circ K) f z' fl c' S :
  CircHist.reach nan (@getpos K) z ns h c -> may_ask h f fl -> get1S f z' [::] fl c = (c', Ok S) ->
  net_S z (zreq z' z) (net_hist h) f fl (ports c') S.
Proof. by move=> Hr Hm E; have [H _] := thm_C12 Hr Hm E. Qed.

(** A line with params other than L and Zbase: getS never returns a matrix *)
Theorem C63_refused z ns h (c : circ K) f z' fl c' r nm ps qs xs l o (p : kws) k v :
  CircHist.reach nan (@getpos K) z ns h c -> may_ask h f fl -> get1S f z' [::] fl c = (c', r) ->
  List.In (nm, (ps, Pobj (ETrl qs xs l o) p : K)) (nblk (net_hist h)) ->
  List.In (k, v) p -> k <> "L" -> k <> "Zbase" -> exists e, r = Raise e.
Proof.
move=> Hr Hm E Hin Hk N1 N2; case: r E => [Sm|e] E; last by exists e.
have [_ H] := C63_network Hr Hm E.
have H0 : rel_S (zreq z' z) (size (ports c')) Sm (fun=> 0) (fun=> 0).
  by move=> k0 _; rewrite mulr0 subrr mul0r big1 // => j _; rewrite addr0 mul0r mulr0.
have [v' [i' [[Hb _ _ _ _] _]]] := iffLR (H _ _) H0.
have [[p' Ha] _] : block_law f fl v' i' (nm, (ps, Pobj (ETrl qs xs l o) p : K)) := iffLR (List.Forall_forall _ _) Hb _ Hin.
move: Ha; rewrite /=; have := trl_kw_ok xs o p; case: (trl_kw _ _ _) => [[a b] r] /= ->.
case Hg: (trl_good p) => // _; elim: p Hg Hk {Hin} => [|[k1 v1] p IH] //= /andP [H1 Hg] [[E1 E2]|]; last exact: IH.
by case: v1 H1 E2 => // a0 /orP [] /eqP E3; rewrite -E1 in N1 N2.
Qed.

Theorem C63_reciprocal n z ns h (c : circ (deep n)) f z' fl c' S :
  reach n z ns h c -> may_ask h f fl -> get1S f z' [::] fl c = (c', Ok S) ->
  no_deembed h -> all_blocks (every (fun x : K => recip_elem tau f (eff x)) any_load any_z n) (net_hist h) ->
  symmetric (mx_of (size (ports c')) (size (ports c')) S).
Proof.
move=> Hr Hm E Hd Hb; apply: (C61_reciprocal Hr Hm E Hd).
by apply: (blocks_monoP _ Hr Hb) => x; exact: eff_recip.
Qed.

Theorem C63_passive n z ns h (c : circ (deep n)) f z' fl c' S :
  reach n z ns h c -> may_ask h f fl -> get1S f z' [::] fl c = (c', Ok S) ->
  tau * val f \is Num.real -> 0 < z -> 0 <= z' -> no_deembed h -> all_loads (@passive_load C) (net_hist h) ->
  all_blocks (every (fun x : K => passive_elem tau exp M c0 f (eff x)) (@passive_load C) (fun z => 0 < z) n) (net_hist h) ->
  passive (mx_of (size (ports c')) (size (ports c')) S).
Proof.
move=> Hr Hm E Hw Hz Hz' Hd Hl Hb; apply: (C61_passive Hr Hm E Hz Hz' Hd Hl).
by apply: (blocks_monoP _ Hr Hb) => x; exact: eff_passive.
Qed.

Theorem C63_lossless n z ns h (c : circ (deep n)) f z' fl c' S :
  reach n z ns h c -> may_ask h f fl -> get1S f z' [::] fl c = (c', Ok S) ->
  tau * val f \is Num.real -> 0 < z -> 0 <= z' -> no_deembed h -> all_loads (@lossless_load C) (net_hist h) ->
  all_blocks (every (fun x : K => lossless_elem tau exp M c0 f (eff x)) (@lossless_load C) (fun z => 0 < z) n) (net_hist h) ->
  unitary (mx_of (size (ports c')) (size (ports c')) S).
Proof.
move=> Hr Hm E Hw Hz Hz' Hd Hl Hb; apply: (C61_lossless Hr Hm E Hz Hz' Hd Hl).
by apply: (blocks_monoP _ Hr Hb) => x; exact: eff_lossless.
Qed.

Lemma parm_after (x x' : K) : after_getS x x' -> accepts x -> accepts x' /\ same (eff x') (eff x).
Proof.
elim=> [|x1 f z fl _ _ IH] Ha; first by split=> //; exact: same_refl.
have [H1 H2] := IH Ha; have [S1 S2 _] := p_getS_state tau exp M c0 x1 f z fl.
by split; [exact/S2|apply: same_trans H2; exact: S1].
Qed.

(** getS answers on circuits of physical elements, as their params make them, unless the network oscillates *)
Theorem C63_answers z ns h (c : circ K) f fl :
  CircHist.reach nan (@getpos K) z ns h c -> may_ask h f fl -> ns = [::] \/ perm_eq ns (ports c) ->
  tau * val f \is Num.real -> 0 < z -> (exists p, free (net_hist h) p) ->
  all_blocks (fun x : K => accepts x /\ defined_elem tau exp M c0 f fl z (eff x)) (net_hist h) ->
  ~ resonant z (net_hist h) f fl ->
  exists c' S, get1S f 0 [::] fl c = (c', Ok S).
Proof.
move=> Hr Hm Hns Hw Hz Hf Hb Hn; apply: (getS_returns Hr Hm Hns _ Hf Hn) => e.
case=> nm [ps [x [x' [Hin Ha]]]].
have Hx : oinv x := iffLR (List.Forall_forall _ _) (reach_oinv Hr) _ Hin.
have [Hacc Hd] : accepts x /\ defined_elem tau exp M c0 f fl z (eff x) := iffLR (List.Forall_forall _ _) Hb _ Hin.
have [[p' Ha'] Hs] := parm_after Ha Hacc.
have [Sm E] := elem_answers Hz Hw (eff_inv Hx : @oinv _ _ _ K0 (eff x)) Hd.
have E' : (e_getS tau exp M c0 f z fl (eff x')).2 = Ok Sm by rewrite (same_getS _ _ _ _ _ _ _ Hs).
rewrite [ogetS _ _ _ _]/(p_getS tau exp M c0 f z fl x') /p_getS; move: Ha' E'; rewrite /eff.
by case: (e_apply _ _) => [e1 [p1|u]] //= _; case: (e_getS _ _ _ _ _ _ _ _) => [e2 r] /= ->; case.
Qed.

(** ** set *)
Lemma parm_keeps : set_keeps K.
Proof.
move=> kw x [Hi Hg]; have := @elem_keeps C Fl tau exp M c0 Htau kw (pe x) Hi.
rewrite [oset _ _]/= [oset _ _]/= /p_set; case: (e_set _ _) => [e' r] /= H.
by move/H => [H1 H2]; split.
Qed.

(** circuit.set of a block put in with params: the object (x', x after some getS) is set, and from
    then on getS gives the matrix of the network with x' so set.  What that is: C63_set_line, C63_set_rlc_before,
    C63_set_rlc_after *)
Theorem C63_set z ns h (c : circ K) nm (kw : {kw : kws | prm_ok kw}) ps (x : K) : pos_plain (@getpos K) ->
  reachX z ns h c -> dget (nblk (net_hist h)) nm = Some (ps, x) ->
  exists2 x' : K, after_getS x x' &
  (p_set (proj1_sig kw) x').2 = Ok tt ->
  exists2 c', set_all c [:: (nm, kw : oprm K)] = (c', Ok tt) &
  forall f z' fl c'' S, may_ask h f fl -> get1S f z' [::] fl c' = (c'', Ok S) ->
  let N := net_hist h in
  net_S z (zreq z' z)
    (Net (dset (nblk N) nm (ps, (p_set (proj1_sig kw) x').1 : K)) (njoin N) (nterm N) (ndi N) (nde N))
    f fl (ports c'') S.
Proof.
move=> Hp Hr HN; have [c1 [Hr1 Hsim]] := reachX_reach Hp parm_keeps Hr.
have HI := ci_inv (reach_CI Hr1).
have [b Eb Ha] : exists2 b, dget (blocks c) nm = Some b & after_getS x (bobj b).
  have [b Eb [_ _ _ [Ha _] _]] := Forall2_dget' (v_blk HI) HN.
  by exists b => //; rewrite -(sim_blocks Hsim).
exists (bobj b) => // Hs.
have [c' Es] : exists c', set_all c [:: (nm, kw : oprm K)] = (c', Ok tt).
  rewrite /set_all /= /set_blk Eb [oset _ _]/=.
  by case: (p_set _ _) Hs => [o r] /= ->; eexists.
exists c' => // f z' fl c'' Sm Hm Hg N.
have Ev : set_events c [:: (nm, kw : oprm K)] = [:: (OAdd nm ((p_set (proj1_sig kw) (bobj b)).1 : K) PNone 0, true)].
  by rewrite /= Eb.
have Hx := X_set Hr Es.
have Hm' : may_ask (h ++ set_events c [:: (nm, kw : oprm K)]) f fl.
  have [E1 E3] := past_sets h c [:: (nm, kw : oprm K)]; move: Hm.
  by rewrite /may_ask E1; case: (reterm (past_of (h ++ _))) E3 => //= E3; rewrite (E3 isT).
have [H _] := C18_sets_and_params parm_keeps Hp Hx Hm' Hg.
by move: H; rewrite Ev /net_hist map_cat /net_of foldl_cat /= -/(net_of _) -/(net_hist h) HN.
Qed.

Lemma Forall_dset f fl (V I : asg C) (bs : seq (string * (seq string * K))) nm ps (x y : K) :
  dget bs nm = Some (ps, x) -> (forall v i, oden y f fl v i <-> oden x f fl v i) ->
  List.Forall (block_law f fl V I) (dset bs nm (ps, y)) <-> List.Forall (block_law f fl V I) bs.
Proof.
move=> + H; elim: bs => [|[k w] bs IH] //=; case: eqP => [E [Ew]|_ /IH {}IH].
  subst k w; split=> HF; constructor; try exact: List.Forall_inv_tail HF.
    by apply/H; exact: (List.Forall_inv HF).
  by apply/(H _ _); exact: (List.Forall_inv HF).
by split=> HF; constructor; [exact: (List.Forall_inv HF)|apply/IH; exact: List.Forall_inv_tail HF
  |exact: (List.Forall_inv HF)|apply/IH; exact: List.Forall_inv_tail HF].
Qed.

(** A length given with addblock cannot be changed: circuit.set of the line is accepted, and getS
    goes on giving the matrix of the network with the length of the params. *)
Theorem C63_set_line_ignored z ns h (c : circ K) nm (kw : {kw : kws | prm_ok kw}) ps qs xs l o (p : kws) :
  pos_plain (@getpos K) -> reachX z ns h c ->
  dget (nblk (net_hist h)) nm = Some (ps, Pobj (ETrl qs xs l o) p : K) ->
  good_params p -> line_params p -> "L" \in dkeys p -> uniq (dkeys (proj1_sig kw)) ->
  (e_set (proj1_sig kw) (ETrl qs xs l o)).2 = Ok tt ->
  exists2 c', set_all c [:: (nm, kw : oprm K)] = (c', Ok tt) &
  forall f z' fl c'' S, may_ask h f fl -> get1S f z' [::] fl c' = (c'', Ok S) ->
  net_S z (zreq z' z) (net_hist h) f fl (ports c'') S.
Proof.
move=> Hpl Hr HN Hp Hk HL Hu Hs; have [x' Ha H] := C63_set kw Hpl Hr HN.
have Hs' : (p_set (proj1_sig kw) x').2 = Ok tt.
  have [xs' [o' [-> _]]] := after_line Hk Ha; move: Hs; rewrite /p_set /=.
  have E1 := trl_kw_ok xs o (proj1_sig kw); have E2 := trl_kw_ok xs' o' (proj1_sig kw).
  move: E1 E2; case: (trl_kw xs o _) => [[? ?] ?]; case: (trl_kw xs' o' _) => [[? ?] ?] /= -> ->.
  by [].
have {H} [c' Es H] := H Hs'; exists c' => // f z' fl c'' Sm Hm Hg.
have [L1 EL] : exists L1, dget p "L" = Some (Fin L1).
  case Ed: (dget p "L") => [[L1|]|]; first by exists L1.
    by have [_ /(_ erefl)] := Hk _ _ (dget_In Ed).
  by move/dget_None: Ed; rewrite HL.
have [H1 H2] := H f z' fl c'' Sm Hm Hg; split=> // v i; rewrite H2.
have Hd V I : oden ((p_set (proj1_sig kw) x').1 : K) f fl V I <-> oden (Pobj (ETrl qs xs l o) p : K) f fl V I.
  have G : forall d, Fin L1 = given p "L" d by move=> d; rewrite /given EL.
  have [xs' [o' [E _]]] := after_line Hk Ha; rewrite E /p_set /=.
  case: (trl_kw _ _ _) => [[x1 o2] r] /=.
  have A xx oo : p_den tau exp M c0 (Pobj (ETrl qs xx l oo) p) f fl V I <->
    tl_law exp (l_rjwL l) (l_gjwC l) L1 (tau * val f) (V 0%N) (V 1%N) (I 0%N) (I 1%N) by apply: line_den (G _).
  by apply: iff_trans (A x1 o2) _; apply: iff_sym.
have G V I := @Forall_dset f fl V I _ _ _ _ _ HN Hd.
by split=> -[v' [i' [[Hb A1 A2 A3 A4] A5]]]; exists v', i'; split=> //; split=> //; [exact: (iffLR (G _ _) Hb)|exact: (iffRL (G _ _) Hb)].
Qed.
End Circ.

(** ** witnesses *)
Section Witness.
Variable C : numClosedFieldType.
Variable M : mathlib C.
Variables (c0 tau : C).
Hypothesis Htau : tau != 0.
Notation K := (parm_cls unit_eqType (@exp2 C) M c0 Htau).
Notation K0 := (elem_cls unit_eqType (@exp2 C) M c0 Htau).
Notation gp := (fun (K' : vcls C (freq C) unit_eqType) (_ : circ K') (_ : string) => Ok (0 : C)).
Notation z50 := (50%:R : C).

(** a resistor of 5 Ohm put in with params Rs = 10, and a line of length 3 with params L = 1 *)
Definition rp : seq (string * DevModel.ext C) := [:: ("Rs", Fin 10%:R)].
Definition lp : seq (string * DevModel.ext C) := [:: ("L", Fin 1)].
Definition rlc5 : rlc C := Rlc 5%:R 0 Inf Inf Inf 0 z50.
Definition trl3 : trl C := Trl 3%:R z50 [::].
Definition resP : K := Pobj (ERlc [:: "s"; "p"] [:: 0; 0] rlc5) rp.
Definition lineP : K := Pobj (ETrl [:: "1"; "2"] [:: 0; 3%:R] (par50 C) trl3) lp.
Definition hP : seq (event K) := [:: (OAdd "a" resP PNone 0, true); (OAdd "b" lineP PNone 0, true);
  (OConnect K [:: "a.p"; "b.1"], true)].

Lemma inv_resP : p_inv resP. Proof. by split. Qed.
Lemma inv_lineP : p_inv lineP.
Proof. by split=> //; split=> //; [exact: z50_0|exact: good50]. Qed.

Lemma hP_ok : hist_ok hP.
Proof.
rewrite /hist_ok /=; repeat split; rewrite ?z50_0 //; try (by right; split=> // ps [<-]); try (by left);
  try exact: good50.
Qed.

Lemma exP : exists c, CircHist.reach 0 (@gp K) z50 [::] hP c.
Proof.
have : isSome (run 0 (@gp K) (new_circ K z50 [::]) hP) by vm_compute.
by case E: (run _ _ _ _) => [c|//] _; exists c; split=> //; [exact: z50_0|exact: hP_ok].
Qed.

Lemma eff_resP : eff resP = resistor M c0 Htau.
Proof. by []. Qed.
Lemma eff_lineP : eff lineP = ETrl [:: "1"; "2"] [:: 0; 1 + 0] (par50 C) (Trl 1 z50 [::]).
Proof. by []. Qed.

Lemma resP_not (f : freq C) : ~ resonant z50 (net_hist hP) f tt.
Proof.
case=> v [i [[Hb H1 H2 H3 H4] Hf Hp]]; apply: (@resE C M c0 tau Htau f); exists v, i; split=> //; split=> //.
have [[_ B1] Hb'] := FC Hb; have [[_ B2] _] := FC Hb'.
by constructor=> //; constructor.
Qed.

(** getS answers with a symmetric and passive matrix; set of the length is accepted *)
Example C63_witness (f : freq C) : tau * val f \is Num.real ->
  exists c c' S, [/\ CircHist.reach 0 (@gp K) z50 [::] hP c, get1S f 0 [::] tt c = (c', Ok S),
    no_deembed hP /\ all_blocks (@every C _ _ K 0 gp (fun x : K => recip_elem tau f (eff x)) (fun _ => True) (fun _ => True) 0) (net_hist hP),
    all_blocks (@every C _ _ K 0 gp (fun x : K => passive_elem tau (@exp2 C) M c0 f (eff x)) (@passive_load C) (fun z => 0 < z) 0) (net_hist hP) &
    symmetric (mx_of (size (ports c')) (size (ports c')) S) /\ passive (mx_of (size (ports c')) (size (ports c')) S)].
Proof.
move=> Hw; have [c Hr] := exP; have Hz : 0 < z50 by rewrite ltr0n.
have Hrec : all_blocks (@every C _ _ K 0 gp (fun x : K => recip_elem tau f (eff x)) (fun _ => True) (fun _ => True) 0) (net_hist hP).
  constructor=> //; constructor=> //; right; split; rewrite /= ?invr_neq0 //; exact: z50_0.
have Hpas : all_blocks (@every C _ _ K 0 gp (fun x : K => passive_elem tau (@exp2 C) M c0 f (eff x)) (@passive_load C) (fun z => 0 < z) 0) (net_hist hP).
  constructor; first by split=> //=; rewrite ler0n.
  constructor=> //; right; rewrite gam50 Zchar50; split=> //.
  by rewrite /= mul1r /exp2 oner_eq0 normr_nat ler1n.
have [c' [S E]] : exists c' S, get1S f 0 [::] tt c = (c', Ok S).
  have Hd : all_blocks (fun x : K => accepts x /\ defined_elem tau (@exp2 C) M c0 f tt z50 (eff x)) (net_hist hP).
    constructor; first by split; [by exists [::]|split; [split=> //=; rewrite ler0n|split]].
    constructor=> //; split; first by exists lp.
    right; rewrite gam50 Zchar50; split=> //; rewrite ?oner_eq0 //.
      by move=> x; exact: exp2_0.
    by rewrite /= mul1r /exp2 oner_eq0 normr_nat ler1n.
  apply: (@C63_answers C unit_eqType tau (@exp2 C) M c0 Htau 0 gp z50 [::] hP c f tt Hr _ _ Hw Hz _ Hd (@resP_not f)) => //.
    by left.
  by exists "a.s".
exists c, c', S; split=> //; split.
  by apply: (@C63_reciprocal C unit_eqType tau (@exp2 C) M c0 Htau 0 gp 0 z50 [::] hP c f 0 tt c' S).
by apply: (@C63_passive C unit_eqType tau (@exp2 C) M c0 Htau 0 gp 0 z50 [::] hP c f 0 tt c' S) => //; constructor.
Qed.

(** the hypotheses of C63_law_rlc, C63_law_line and C63_set_line_ignored *)
Definition kw7 : {kw : seq (string * DevModel.ext C) | prm_ok kw} := exist _ [:: ("L", Fin (7%:R : C))] isT.
Lemma run_reachXP z ns h (c : circ K) : CircHist.reach 0 (@gp K) z ns h c -> @CircSetX.reachX C (freq C) unit_eqType K 0 (@gp K) z ns h c.
Proof.
elim/last_ind: h c => [|h [o ok] IH] c.
  by case=> Hz _ [<-]; apply: X_new.
rewrite -cats1; case=> Hz /hist_ok_cat [H1 H2]; rewrite run_cat.
case E: (run 0 (@gp K) _ h) => [c1|] //= Hx; rewrite cats1.
have {}IH := IH c1 (And3 Hz H1 E).
move: H2 Hx => /= [H2 _]; case Ex: (exec _ _ _ _) => [c2 ok2]; case: eqP => // Eo [<-].
by apply: X_call IH _ _; [exact: H2|rewrite Ex -Eo].
Qed.

Example C63_set_witness : exists c, [/\ @CircSetX.reachX C (freq C) unit_eqType K 0 (@gp K) z50 [::] hP c,
  @pos_plain C (freq C) unit_eqType K (@gp K),
  [/\ dget (nblk (net_hist hP)) "b" = Some ([:: "1"; "2"], lineP), good_params lp, line_params lp & "L" \in dkeys lp],
  (e_set (proj1_sig kw7) (pe lineP)).2 = Ok tt /\ uniq (dkeys (proj1_sig kw7)) &
  forall f fl, may_ask hP f fl].
Proof.
have [c Hc] := exP; exists c; split=> //.
  exact: run_reachXP.
by split=> // k v [[<- <-]|//]; split; [left|].
Qed.

(** The resistor (5 Ohm) with params Rs = 10 when Rs = 30 is set: 10 Ohm if no getS has been made, else 30 Ohm. *)
Definition rlcR (x : C) : rlc C := Rlc x 0 Inf Inf Inf 0 z50.
Example C63_order_witness f z : let kw : seq (string * DevModel.ext C) := [:: ("Rs", Fin 30%:R)] in
  [/\ good_params rp, (p_set kw resP).2 = Ok tt, rlc_with2 rp kw rlc5 (rlcR 10%:R),
      (p_set kw (ogetS f z tt resP).1).2 = Ok tt & rlc_with2 kw rp rlc5 (rlcR 30%:R)].
Proof. by []. Qed.

(** a line with params R = 1: refused *)
Definition lineR : K := Pobj (ETrl [:: "1"; "2"] [:: 0; 3%:R] (par50 C) trl3) [:: ("R", Fin 1)].
Definition hR : seq (event K) := [:: (OAdd "b" lineR PNone 0, true)].
Example C63_refused_witness : exists c, [/\ CircHist.reach 0 (@gp K) z50 [::] hR c,
  List.In ("b", ([:: "1"; "2"], lineR)) (nblk (net_hist hR)), List.In ("R", Fin 1) (pp lineR) &
  forall f fl, may_ask hR f fl].
Proof.
have : isSome (run 0 (@gp K) (new_circ K z50 [::]) hR) by vm_compute.
case E: (run _ _ _ _) => [c|//] _; exists c; split=> //; try by left.
split=> //; first exact: z50_0.
by rewrite /hist_ok /=; repeat split; rewrite ?z50_0 //; try (by right; split=> // ps [<-]); try (by left); exact: good50.
Qed.
End Witness.

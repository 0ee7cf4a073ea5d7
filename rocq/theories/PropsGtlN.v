(** C52: an rfGTL is the network its description says; C53: the positions of its
    blocks and ports. *)
From mathcomp Require Import all_ssreflect all_algebra.
From mathcomp Require Import zify.
From Coq Require Import String Ascii.
From Coq Require List.
From Verif Require Import Base MxLib ConvModel ConvSpec ConvProofs ConvArr CircModel CircSpec CircLib CircInv CircTerm CircApp CircConn CircAdd CircDe CircFill CircSolve CircExt CircHist CircGet CircMain CircOrd CircThm CircThm2 CircThm3 CircThm4 CircThm5 CircThm6 CircMaxV CircNest CircFlat CircDev CircEx SetThm GtlNet GtlNetT GtlNetH GtlNetL GtlPos GtlNetA GtlNetB GtlNetP.
Set Implicit Arguments.
Unset Strict Implicit.
Unset Printing Implicit Defensive.
Import Order.TTheory GRing.Theory Num.Theory.
Local Open Scope string_scope.
Local Open Scope ring_scope.
Local Open Scope seq_scope.

Arguments gtl_block : simpl never.
Arguments place_loop : simpl never.
Arguments place : simpl never.
Arguments getpos_fuel : simpl never.
Arguments get1S : simpl never.

Section Thms.
Variable C : numClosedFieldType.
Variables F Fl : eqType.
Variable K : vcls C F Fl.
Variable nan : C.
Notation circ := (circ K).
Notation getp := (@getpos_flat C F Fl K).
Notation reach := (CircHist.reach nan getp).
Notation gtl := (gtl K).

Section One.
Variables (z : C) (ns : seq string) (rel : posns C) (G : gtl).
Hypotheses (Hz : z != 0) (Hg : gtl_ok G).

Lemma built_nd h c : reach z ns h c -> net_hist h = gnet ns G -> all_ok G ->
  forall b, b \in dkeys G -> ~~ has_char "."%char b.
Proof.
move=> Hr EN Hok b Hb; have HI := ci_inv (reach_CI Hr); rewrite EN in HI.
by apply: (v_nb HI); rewrite /= gblks_keys.
Qed.

Lemma built_sz h c : reach z ns h c -> net_hist h = gnet ns G ->
  forall b g o, List.In (b, g) G -> gobj g = Ok o -> osize o = size (gnames g).
Proof.
move=> Hr EN b g o Hi Eo; have HI := ci_inv (reach_CI Hr); rewrite EN in HI.
have Hi' : List.In (b, (gnames g, o)) (gblks G) by apply/gblksP; exists g.
have [bl _ [_ /= _ _ [Es _] [Es' _]]] := Forall2_dget' (v_blk HI) (In_dget (v_ub HI) Hi').
have Ho : oinv o by case: Hg => _ /(_ _ _ Hi) [_]; exact.
by have [_ <-] := after_size Ho Es.
Qed.

(** the network the circuit solves is the one of the description *)
Lemma gnet_S h c zz f fl (Sm : rows C) : reach z ns h c -> net_hist h = gnet ns G -> gtl_built ns G ->
  net_S z zz (gnet ns G) f fl ns Sm <->
  shape_ok (size ns) Sm /\ forall V I : vi C, rel_S zz (size ns) Sm V I <->
     exists v i u j, gtl_law z ns G f fl v i u j /\
       forall k, (k < size ns)%N -> u (nth "" ns k) = V k /\ j (nth "" ns k) = I k.
Proof.
move=> Hr EN [[Hok Hfree Hdis Hone] Hu]; have Hnd := built_nd Hr EN Hok; have Hsz := built_sz Hr EN.
have Hq (V I : vi C) : (exists v' i' : asg C, sat z (gnet ns G) f fl v' i' /\
      forall j, (j < size ns)%N -> v' (nth "" ns j) = V j /\ i' (nth "" ns j) = I j) <->
    exists v i u j, gtl_law z ns G f fl v i u j /\
       forall k, (k < size ns)%N -> u (nth "" ns k) = V k /\ j (nth "" ns k) = I k.
  split=> [[v [i [Hs Hb]]]|[v [i [u [j [Hl Hb]]]]]].
    exists v, i, (fun p => if p \in ns then v p else v (dot (head "" (users G p)) p)), i; split.
      exact: (sat_law Hg Hok Hnd Hfree Hdis Hone Hs).
    by move=> k Hk; rewrite mem_nth //; exact: Hb.
  exists (fun q => if q \in ns then u q else v q), (fun q => if q \in ns then j q else i q); split.
    by apply: law_sat.
  by move=> k Hk; rewrite mem_nth //; exact: Hb.
rewrite /net_S; split=> -[H1 H2]; split=> // V I; first by rewrite H2 Hq.
by rewrite H2 -Hq.
Qed.

Section St.
Variables (f0 : F) (fl0 : Fl) (c : circ).
Hypothesis Hst : gtl_state nan z ns rel G f0 fl0 c.
Variables (snp : option (F -> C -> Fl -> res (rows C))) (wants : Fl -> bool).
Variables (f : F) (z' : C) (fl : Fl).
Let zz := if z' == 0 then z else z'.

Lemma ports_ns h c1 f1 z1 fl1 c2 Sm : reach z ns h c1 -> net_hist h = gnet ns G -> reterm (past_of h) = false -> gtl_built ns G ->
  get1S f1 z1 [::] fl1 c1 = (c2, Ok Sm) -> ports c2 = ns.
Proof.
move=> Hr EN Ep [[_ Hfree _ _] _] E; have Hm : may_ask h f1 fl1 by rewrite /may_ask Ep.
rewrite (thm_C14 Hr Hm E) EN.
have {Hfree} -> X : [seq p <- X | free (gnet ns G) p] = [seq p <- X | p \in ns] by apply: eq_filter => p.
case: {E} (ns) => [|n l]; first by rewrite (eq_filter (a2 := pred0)) // filter_pred0.
by rewrite (eq_in_filter (a2 := predT)) ?filter_predT.
Qed.

(** C52: what getS returns (not from a touchstone file) is the S-matrix, on the asked impedance and
    in the order of 'ports', of the network the description says: the port
    voltages and inward currents it allows are exactly those that go with some voltages and
    currents in the blocks that meet all the laws *)
Theorem C52_network c' Sm : (if snp is Some _ then ~~ wants fl else true) ->
  gtl_getS snp wants fl0 f z' fl c = (c', Ok Sm) ->
  shape_ok (size ns) Sm /\ forall V I : vi C, rel_S zz (size ns) Sm V I <->
     exists v i u j, gtl_law z ns G f fl v i u j /\
       forall k, (k < size ns)%N -> u (nth "" ns k) = V k /\ j (nth "" ns k) = I k.
Proof.
move=> Hw; have [h [Hr EN Ep Hb]] := state_reach Hz Hg Hst.
rewrite /gtl_getS (ci_z (reach_CI Hr)) -/zz.
have [h1 [R1 N1 P1]] := get_step f zz fl0 Hr EN Ep.
case E1: ((get1S f zz [::] fl0 c).2) => [S1|e] //.
set c1 := (get1S f zz [::] fl0 c).1 in R1 *.
have -> : (if snp is Some s then if wants fl then (c1, s f zz fl) else get1S f zz [::] fl c1
           else get1S f zz [::] fl c1) = get1S f zz [::] fl c1.
  by case: snp Hw => // s /negbTE ->.
move=> E2; have Hm : may_ask h1 f fl by rewrite /may_ask P1.
have [H _] := thm_C12 R1 Hm E2; rewrite (ports_ns R1 N1 P1 Hb E2) N1 in H.
have Ezz : zreq zz z = zz by rewrite /zreq /zz; case E0: (z' == 0); rewrite ?E0 ?(negbTE Hz).
by rewrite Ezz in H; exact: (iffLR (gnet_S _ _ _ _ R1 N1 Hb) H).
Qed.

(** C52: a touchstone file that is wanted gives the answer, provided the circuit itself can be solved *)
Theorem C52_touchstone s : snp = Some s -> wants fl ->
  (gtl_getS snp wants fl0 f z' fl c).2 =
  if (get1S f zz [::] fl0 c).2 is Raise e then Raise e else s f zz fl.
Proof.
move=> -> Hw; have [h [Hr _ _ _]] := state_reach Hz Hg Hst.
by rewrite /gtl_getS (ci_z (reach_CI Hr)) -/zz Hw; case: ((get1S _ _ _ _ _).2).
Qed.
End St.

(** resonances in terms of the description *)
Lemma quiet_iff h c f fl : reach z ns h c -> net_hist h = gnet ns G -> gtl_built ns G ->
  gtl_quiet z ns G f fl <-> ~ resonant z (gnet ns G) f fl.
Proof.
move=> Hr EN [[Hok Hfree Hdis Hone] Hu]; have Hnd := built_nd Hr EN Hok; have Hsz := built_sz Hr EN.
split=> [Hq [v [i [Hs Hf [p Hp Hne]]]]|Hn v i u j Hl Hu0 b g p Hi Hp].
  have Hl := sat_law Hg Hok Hnd Hfree Hdis Hone Hs.
  have H0 : forall b g p, List.In (b, g) G -> p \in gnames g -> v (dot b p) = 0 /\ i (dot b p) = 0.
    by apply: (Hq _ _ _ _ Hl) => q Hq'; rewrite Hq'; apply: Hf; rewrite -Hfree.
  have {Hp} : p \in flatten (map (@blk_nodes _ _ _ K) (gblks G)) \/ p \in ns.
    move: Hp; rewrite /nodes /= cats0 mem_cat => /orP[->|]; first by left.
    rewrite /news pmap_cat mem_cat => /orP[].
      rewrite /joins mem_pmap => /mapP [x]; move: x; elim: (plist_of G) => //= -[q bs] l IH x; case: ifP => // _; rewrite ?in_cons; last exact: IH.
      by move=> /orP[/eqP -> //|]; exact: IH.
    by rewrite mem_pmap -map_comp => /mapP [x Hx [->]]; right.
  case=> [/blk_nodesP [b [ps [o [q [Hi Hq' Ep]]]]]|Hp].
    have /gblksP [g [Hi' _ Eps]] := Hi; rewrite Eps in Hq'.
    by move: Hne; rewrite Ep; have [-> ->] := H0 _ _ _ Hi' Hq'; rewrite eqxx.
  have [b Eb] : exists b, users G p = [:: b] by case: (users G p) (Hone p Hp) => [|b []] // _; exists b.
  have /usersP [g Hi /plainP [q Hq' [Eq _]]] : b \in users G p by rewrite Eb mem_head.
  have Hpg : p \in gnames g by rewrite -Eq; exact: gname_in.
  have [_ _ /(_ p) [L1 L2]] := Hl; move: L1 L2; rewrite Hp Eb big_seq1 => /(_ b (mem_head _ _)) E1 E2.
  by move: Hne; rewrite -E1 -E2; have [-> ->] := H0 _ _ _ Hi Hpg; rewrite eqxx.
have Hs : sat z (gnet ns G) f fl (fun q => if q \in ns then u q else v q) (fun q => if q \in ns then j q else i q).
  by apply: law_sat.
have Hd := node_in Hok Hi Hp.
have Hnn : (dot b p \in ns) = false by apply/negP => /Hdis; rewrite Hd.
case Ev: (v (dot b p) == 0); last first.
  exfalso; apply: Hn; exists (fun q => if q \in ns then u q else v q), (fun q => if q \in ns then j q else i q); split=> //.
    by move=> q; rewrite -Hfree => Hq; rewrite Hq; exact: Hu0.
  by exists (dot b p); [rewrite /nodes mem_cat Hd|rewrite Hnn Ev].
case Ei: (i (dot b p) == 0); first by move: Ev Ei => /eqP -> /eqP ->.
exfalso; apply: Hn; exists (fun q => if q \in ns then u q else v q), (fun q => if q \in ns then j q else i q); split=> //.
  by move=> q; rewrite -Hfree => Hq; rewrite Hq; exact: Hu0.
by exists (dot b p); [rewrite /nodes mem_cat Hd|rewrite Hnn Ei orbT].
Qed.

Lemma answers_blk ns' f fl : gtl_ok G -> gtl_answers z G f fl -> forall e, ~ blk_raises (gnet ns' G) z f fl e.
Proof.
move=> Hg' Ha e [b [ps [o [o' [/gblksP [g [Hi Eo _]] H1 H2]]]]]; exact: Ha Hi Eo H1 H2.
Qed.

(** C52: a description whose names fit is accepted, with the declared ports in the declared
    order, exactly if its network does not resonate at the frequency of the
    trial calculation *)
Theorem C52_accepted f0 fl0 : gtl_fit z ns rel G -> gtl_answers z G f0 fl0 ->
  (exists c, build nan z ns rel G f0 fl0 = Ok c /\ ports c = ns) <-> gtl_quiet z ns G f0 fl0.
Proof.
move=> Hfit Ha; have [c [X [Ea Ep _ _ _]]] := @assemble_ok _ _ _ K nan _ _ _ _ Hz Hg Hfit.
have [h [Hr EN EP Hok [Hu Hfree Hdis Hone _]]] := assemble_reach Hz Hg Ea.
have Hb : gtl_built ns G by [].
rewrite (quiet_iff f0 fl0 Hr EN Hb); have Hm : may_ask h f0 fl0 by rewrite /may_ask EP.
split=> [[c' [Eb _]]|Hn].
  move: Eb; rewrite /build Ea /=; case E: (get1S _ _ _ _ _) => [c1 [Sm|e]] //= _.
  by have [_ [H _]] := thm_C12 Hr Hm E; rewrite EN in H.
have [c' [Sm]] : exists c' Sm, get1S f0 0 [::] fl0 c = (c', Ok Sm).
  apply: (getS_returns Hr Hm).
  - by right; rewrite Ep perm_refl.
  - by rewrite EN; exact: answers_blk.
  - rewrite EN; case: (ns) (t_ns Hfit) Hfree => [[] //|n l _ Hfree]; exists n; by rewrite -Hfree mem_head.
  by rewrite EN.
rewrite -(get1S_own f0 fl0 Hr) => E; exists c'; rewrite /build Ea /= E; split=> //.
by apply: (ports_ns Hr EN _ Hb E); rewrite EP.
Qed.

(** C52: nothing else is accepted: the ports declared are those used by exactly one
    block; each block has as many names as its object has ports and at most one load *)
Theorem C52_only f0 fl0 c : build nan z ns rel G f0 fl0 = Ok c ->
  [/\ uniq ns /\ ports c = ns, (forall p, (p \in ns) = (size (users G p) == 1%N)),
    (forall b g, List.In (b, g) G -> exists2 o, gobj g = Ok o & osize o = size (gports g)),
    (forall b g, List.In (b, g) G -> (count (fun p => isSome (special p)) (gports g) <= 1)%N) &
    {subset dkeys rel <= ns} /\ gtl_quiet z ns G f0 fl0].
Proof.
move=> Eb; have [h [Hr EN EP Hok [Hu Hfree Hdis Hone [_ Hpc]]]] := build_reach Hz Hg Eb.
have Hb : gtl_built ns G by [].
have Hnd := built_nd Hr EN Hok; have Hsz := built_sz Hr EN; split=> //.
- move=> p; apply/idP/eqP => [/Hone //|].
  case E: (users G p) => [|b []] // _; exact: (plain_single Hg Hok Hnd Hfree Hdis Hone E).
- by move=> b g Hi; have [o Eo] := Hok _ _ Hi; exists o; rewrite // (Hsz _ _ _ Hi Eo) size_map.
- move=> b g Hi; have Hl q kw (Hq : List.In q (gports g)) (Es : special q = Some kw) := special_last Hg Hok Hnd Hfree Hdis Hone Hi Hq Es.
  have := (proj1 (proj2 Hg _ _ Hi)); rewrite /gnames; move: Hl; move: (last_term _) => t.
  elim: (gports g) => //= q ps IH Hl /andP[Hq Hup].
  case Es: (special q) => [kw|] /=; last by apply: IH => // r kw Hr'; apply: Hl; right.
  rewrite -[X in (_ + X <= _)%N]/(count (fun p => isSome (special p)) ps) addnC addn1 ltnS leqn0 -leqn0 leqNgt -has_count.
  apply/negP => Hh; have [r Hr' Esr] : exists2 r, List.In r ps & exists kw', special r = Some kw'.
    elim: (ps) Hh => //= r l IHl; case Er: (special r) => [kw'|] /=.
      by exists r; [left|exists kw'].
    by move=> /IHl [s H1 H2]; exists s => //; right.
  case: Esr => kw' Esr.
  have E1 := Hl q kw (or_introl erefl) Es; have := Hl r kw' (or_intror Hr') Esr; rewrite E1 => -[E2 _].
  by move: Hq; rewrite E2; move: Hr'; elim: (ps) => //= s l IHl [->|/IHl]; rewrite in_cons ?eqxx // negb_or => H /andP[_ /H].
split.
  move: Eb; rewrite /build /assemble; case Er: (all _ rel) => //= _ p /mapP [[q x] Hi ->].
  by move/allP: Er => /(_ _ Hi).
have Hq := quiet_iff f0 fl0 Hr EN Hb; apply/Hq.
move: Eb; rewrite /build; case Ea: (assemble _ _ _ _ _) => [c4|] //=; case E: (get1S _ _ _ _ _) => [c1 [Sm|e]] //= _.
have [h4 [Hr4 EN4 EP4 _ _]] := assemble_reach Hz Hg Ea.
have Hm : may_ask h4 f0 fl0 by rewrite /may_ask EP4.
by have [_ [H _]] := thm_C12 Hr4 Hm E; rewrite EN4 in H.
Qed.

(** C52: a position for a port that is not declared is refused *)
Theorem C52_relpos_refused f0 fl0 p x : List.In (p, x) rel -> p \notin ns ->
  build nan z ns rel G f0 fl0 = Raise ValueError.
Proof.
move=> Hi Hp; rewrite /build /assemble.
suff -> : all (fun px : string * C => px.1 \in ns) rel = false by [].
elim: rel Hi => //= -[q y] l IH [[-> _]|/IH ->]; by rewrite ?(negbTE Hp) ?andbF.
Qed.

(** C52: an rfGTL answers at its own impedance wherever its network does not resonate, and only there *)
Theorem C52_answers f0 fl0 c f fl : gtl_state nan z ns rel G f0 fl0 c -> ns <> [::] ->
  gtl_answers z G f fl0 -> gtl_answers z G f fl -> gtl_quiet z ns G f fl0 ->
  (exists Sm, (gtl_getS None (fun _ => false) fl0 f 0 fl c).2 = Ok Sm) <-> gtl_quiet z ns G f fl.
Proof.
move=> Hst Hn0 A0 A1 Q0; have [h [Hr EN Ep Hb]] := state_reach Hz Hg Hst.
have Hq f' fl' := quiet_iff f' fl' Hr EN Hb.
have Hne : exists p, p \in ns by case: (ns) Hn0 => [|n l] // _; exists n; rewrite mem_head.
have Hask h1 c1 fl1 : reach z ns h1 c1 -> net_hist h1 = gnet ns G -> reterm (past_of h1) = false -> gtl_answers z G f fl1 ->
  ((exists Sm, (get1S f z [::] fl1 c1).2 = Ok Sm) <-> gtl_quiet z ns G f fl1).
  move=> R1 N1 P1 A; have Hm : may_ask h1 f fl1 by rewrite /may_ask P1.
  rewrite Hq; split=> [[Sm]|Hn].
    case E: (get1S _ _ _ _ _) => [c2 r] /= Er; rewrite Er in E.
    by have [_ [H _]] := thm_C12 R1 Hm E; rewrite N1 in H.
  have [c' [Sm]] : exists c' Sm, get1S f 0 [::] fl1 c1 = (c', Ok Sm).
    apply: (getS_returns R1 Hm).
    - right; case: Hb => -[_ Hf _ _] Hu; have HI := ci_inv (reach_CI R1); rewrite N1 in HI.
      by apply: uniq_perm => //; [exact: v_up HI|move=> p; rewrite (v_fp HI)].
    - by rewrite N1; exact: answers_blk.
    - by case: Hne => p Hp; exists p; rewrite N1; case: Hb => -[_ <-].
    by rewrite N1.
  by rewrite -(get1S_own f fl1 R1) => ->; exists Sm.
rewrite /gtl_getS (ci_z (reach_CI Hr)) eqxx.
have [h1 [R1 N1 P1]] := get_step f z fl0 Hr EN Ep.
have [S0 ->] := iffRL (Hask _ _ _ Hr EN Ep A0) Q0.
exact: (Hask _ _ _ R1 N1 P1 A1).
Qed.

(** ** C53: positions *)
Lemma state_pos f0 fl0 c : gtl_state nan z ns rel G f0 fl0 c -> exists2 c4, assemble nan z ns rel G = Ok c4 & same_pos c4 c.
Proof.
have Hkey h d : reach z ns h d -> uniq (dkeys (blocks d)).
  by move=> Hr; have HI := ci_inv (reach_CI Hr); rewrite (blk_keys HI); exact: v_ub HI.
have Hstep h d f1 z1 fl1 : reach z ns h d -> same_pos d (get1S f1 z1 [::] fl1 d).1.
  by move=> Hr; case E: (get1S f1 z1 [::] fl1 d) => [d' r]; exact: (get_pos (Hkey _ _ Hr) E).
have Ht d1 d2 d3 : same_pos d1 d2 -> same_pos d2 d3 -> @same_pos C F Fl K d1 d3.
  by move=> [X1 P1] [X2 P2]; split=> [|q]; rewrite ?X2 ?P2.
elim=> [d|d snp wants f1 z1 fl1 Hd [c4 E4 S4]].
  rewrite /build; case Ea: (assemble _ _ _ _ _) => [c4|] //=; case E: (get1S _ _ _ _ _) => [c1 [Sm|e]] //= [<-].
  have [h [Hr _ _ _ _]] := assemble_reach Hz Hg Ea; exists c4 => //.
  by have := Hstep _ _ f0 z fl0 Hr; rewrite E.
have [h [Hr EN Ep _]] := state_reach Hz Hg Hd; exists c4 => //; apply: (Ht _ _ _ S4).
rewrite /gtl_getS; set zz := if z1 == 0 then _ else _.
have S1 := Hstep _ _ f1 zz fl0 Hr; have [h1 [R1 _ _]] := get_step f1 zz fl0 Hr EN Ep.
have S2 := Ht _ _ _ S1 (Hstep _ _ f1 zz fl1 R1).
case: ((get1S f1 zz [::] fl0 d).2) => [S0|e] //; case: snp => [s|] //; by case: (wants fl1).
Qed.

(** C53: the blocks that are connected to a port or block of given position are put
    where every layout that agrees with the given positions and with the distances between the
    ports of each block puts them; the others stay at -10.  Calls of
    getS move nothing. *)
Theorem C53_blocks f0 fl0 c : gtl_fit z ns rel G -> gtl_state nan z ns rel G f0 fl0 c ->
  forall b l, List.In (b, l) (goffs G) -> exists2 bl, dget (blocks c) b = Some bl &
    (~ located (goffs G) (dkeys (given rel G)) l -> bxpos bl = - 10%:R) /\
    (located (goffs G) (dkeys (given rel G)) l -> all (predC in_special) (dkeys (given rel G)) ->
        forall X P, layout (goffs G) (given rel G) X P -> bxpos bl = X b).
Proof.
move=> Hfit Hst b l Hi; have [c4 E4 [_ S4]] := state_pos Hst.
have [c5 [X [Ea _ H1 H2 _]]] := @assemble_ok _ _ _ K nan _ _ _ _ Hz Hg Hfit.
have Ec : c5 = c4 by rewrite E4 in Ea; case: Ea.
have [g [o [xs [Hig Eo _ _ _]]]] := goffsP Hg Hfit Hi.
have [bl Hbl [_ _ Ex]] := H1 _ _ _ Hig Eo; rewrite Ec in Hbl.
have := S4 b; rewrite /pvw Hbl /=; case Hd: (dget (blocks c) b) => [bl'|] //= [_ Ex'].
by exists bl' => //; rewrite Ex' Ex; exact: H2 Hi.
Qed.

(** C53: a port is where its block has it *)
Theorem C53_ports f0 fl0 c : gtl_fit z ns rel G -> gtl_state nan z ns rel G f0 fl0 c ->
  size (xpos c) = size ns /\
  forall k b l d bl, (k < size ns)%N -> List.In (b, l) (goffs G) -> b \in users G (nth "" ns k) ->
    List.In (nth "" ns k, d) l -> dget (blocks c) b = Some bl -> nth 0 (xpos c) k = bxpos bl + d.
Proof.
move=> Hfit Hst; have [c4 E4 [X4 S4]] := state_pos Hst.
have [c5 [X [Ea _ H1 H2 [H3 H4]]]] := @assemble_ok _ _ _ K nan _ _ _ _ Hz Hg Hfit.
have Ec : c5 = c4 by rewrite E4 in Ea; case: Ea.
rewrite X4 -Ec; split=> // k b l d bl Hk Hi Hu Hd Hbl.
have [g [o [xs [Hig Eo _ _ _]]]] := goffsP Hg Hfit Hi.
have [bl5 Hbl5 [_ _ Ex]] := H1 _ _ _ Hig Eo; rewrite Ec in Hbl5.
rewrite (H4 _ _ _ _ Hk Hi Hu Hd); have := S4 b; rewrite /pvw Hbl Hbl5 /= => -[_ ->]; by rewrite Ex.
Qed.

(** C53: a declared port connected to a given position is at its place in the layout;
    in particular where 'relpos' says if it is given itself *)
Theorem C53_layout f0 fl0 c : gtl_fit z ns rel G -> gtl_state nan z ns rel G f0 fl0 c ->
  all (predC in_special) (dkeys (given rel G)) ->
  forall X P, layout (goffs G) (given rel G) X P -> forall k, (k < size ns)%N -> ~~ in_special (nth "" ns k) ->
  plocated (goffs G) (dkeys (given rel G)) (nth "" ns k) -> nth 0 (xpos c) k = P (nth "" ns k).
Proof.
move=> Hfit Hst Ha X P HL k Hk Hs Hp; set p := nth "" ns k in Hs Hp *.
have [b Eb] : exists b, users G p = [:: b] by apply: (fit_one Hfit); exact: mem_nth.
have Hub : b \in users G p by rewrite Eb mem_head.
have /usersP [g Hig /plainP [q Hq [Eq _]]] := Hub.
have [_ [o [xs [Eo So Ex]]]] := t_blk Hfit Hig.
have Ho : oinv o by case: Hg => _ /(_ _ _ Hig) [_]; exact.
have Hsx := oinv_xpos Ho Ex.
have Hl : List.In (b, zip (gnames g) xs) (goffs G).
  move: Hig; rewrite /goffs; elim: (G) => //= -[b' g'] G' IH [[-> ->]|/IH H]; [by left; rewrite /= Eo Ex|by right].
have Hkeys : map fst (zip (gnames g) xs) = gnames g by apply: unzip1_zip; rewrite size_map -So.
have Hpl : p \in map fst (zip (gnames g) xs) by rewrite Hkeys -Eq; exact: gname_in.
have [d Hd] : exists d, List.In (p, d) (zip (gnames g) xs).
  by move: Hpl; elim: (zip _ _) => //= -[r e] l IH; rewrite in_cons => /orP[/eqP ->|/IH [d H]]; [exists e; left|exists d; right].
have [bl Hbl [_ H2]] := C53_blocks Hfit Hst Hl; have [_ H3] := C53_ports Hfit Hst.
rewrite (H3 _ _ _ _ _ Hk Hl Hub Hd Hbl) (H2 _ Ha _ _ HL); last by exists p.
by case: HL => L1 _; rewrite (L1 _ _ _ _ Hl Hd Hs).
Qed.

Lemma fold_given : forall (G' : gtl) c pl pos c' pl' pos',
  foldM (@gtl_block _ _ _ K nan) (c, pl, pos) G' = Ok (c', pl', pos') ->
  [/\ pos' = given pos G', pl' = foldl (fun pl bg => foldl (port_add bg.1) pl (gports bg.2)) pl G' &
      forall b g, List.In (b, g) G' -> gx g <> None -> gports g <> [::]].
Proof.
elim=> [|[b g] G' IH] c pl pos c' pl' pos' /=; first by case=> _ <- <-.
rewrite /gtl_block /given /=; case Ex: (gx g) => [x|] /=; last first.
  case: (gobj g) => [o|] //=; case: (lift _) => [c1|] //=; set r := (if last_term _ is Some _ then _ else _); case: r => [c2|] //= /IH [H1 H2 H3]; split=> //.
  by move=> b' g' [[_ <-]|/H3 //]; rewrite Ex.
case En: (gnames g) => [|n l] //=; case: (gobj g) => [o|] //=; case: (lift _) => [c1|] //=.
set r := (if last_term _ is Some _ then _ else _); case: r => [c2|] //= /IH [H1 H2 H3]; split=> //.
by move=> b' g' [[_ <-]|/H3 //] _ Eg; move: En; rewrite /gnames Eg.
Qed.

(** C53: a position is refused if it is given for a port name that no block uses;
    in particular a block with a position whose first port is "[oc]" or "[sc]" is refused *)
Lemma users_oc p : p \in [:: "[oc]"; "[sc]"] -> users G p = [::].
Proof.
move=> Hp; apply/eqP; rewrite -size_eq0; apply/eqP; case E: (users G p) => [|b l] //.
have /usersP [g _ /plainP [q _ [Eq]]] : b \in users G p by rewrite E mem_head.
by case: q Eq => [s|kw] //= ->; move: Hp; rewrite !inE => /orP[] /eqP ->.
Qed.
Theorem C53_given f0 fl0 c : build nan z ns rel G f0 fl0 = Ok c ->
  (forall p, p \in dkeys (given rel G) -> users G p <> [::]) /\
  (forall b g, List.In (b, g) G -> gx g <> None -> exists p ps, gports g = p :: ps /\ users G (gname p) <> [::]).
Proof.
rewrite /build; case Ea: (assemble _ _ _ _ _) => [c4|] //= _; move: Ea; rewrite /assemble; case: ifP => // _.
case E1: (foldM _ _ G) => [[[c1 pl] pos]|] //=; case E2: (foldM _ _ pl) => [c2|] //=; case: ifP => // _.
case E3: (place _ _ _) => [c3|] //= _; have [Ep Epl Hx] := fold_given E1.
have Hnm b g : List.In (b, g) G -> uniq (gnames g) by case: Hg => _ H /H [].
have Hpl p : p \in dkeys pos -> users G p <> [::].
  move: E3; rewrite /place; case Ef: (place_first _ _ _) => [[]|] //= _.
  move=> Hp Eu; have Hd : dget pl p = None by rewrite Epl -/(plist_of G) (plistE _ Hnm) Eu.
  move: Ef Hp; rewrite /place_first; elim: (pos) => //= -[q x] l IH.
  rewrite in_cons /=; case Eq: (p == q); first by rewrite -(eqP Eq) Hd.
  by case: (dget pl q) => [bs|] //=; case: (foldM _ _ bs) => [[]|] //=.
rewrite -Ep; split=> // b g Hi Hgx; case Eg: (gports g) (Hx _ _ Hi Hgx) => [|q qs] // _; exists q, qs; split=> //.
apply: Hpl; case Ex: (gx g) Hgx => [x|] // _.
have := given_has rel Hi Ex; by rewrite Ep /gnames Eg.
Qed.
End One.

(** C53: the search for positions ends, whatever the blocks *)
Theorem C53_ends (bs : seq (string * block K)) pos : uniq (dkeys bs) ->
  exists r, place_loop (size bs).+1 bs ([::], pos) = Some r.
Proof.
move=> Hu.
have Hpass : forall (bs' : seq (string * block K)) (st : posns C * posns C), {subset dkeys bs' <= dkeys bs} -> {subset dkeys st.1 <= dkeys bs} -> uniq (dkeys st.1) ->
  match place_pass bs' st with
  | Ok (st', fd) => [/\ {subset dkeys st'.1 <= dkeys bs}, uniq (dkeys st'.1) & (size st.1 + fd <= size st'.1)%N]
  | Raise _ => True
  end.
  elim=> [|[nm b] bs' IH] st Hs H1 H2 /=; first by split=> //; rewrite addn0.
  have Hs' : {subset dkeys bs' <= dkeys bs} by move=> q Hq; apply: Hs; rewrite in_cons Hq orbT.
  rewrite dhasE; case Hn: (nm \in dkeys st.1); first exact: IH.
  case: (place_block b st.2) => [[[x0 pos']|]|e] //=; last exact: IH.
  have Hk : dkeys (dset st.1 nm x0) = rcons (dkeys st.1) nm by rewrite dkeys_dset Hn.
  have := IH (dset st.1 nm x0, pos') Hs'; rewrite /= Hk rcons_uniq Hn H2.
  case: (place_pass _ _) => [[st' fd]|] //= H; have [||A1 A2 A3] := H => //.
    by move=> q; rewrite mem_rcons in_cons => /orP[/eqP ->|/H1 //]; apply: Hs; rewrite mem_head.
  split=> //; have := congr1 size Hk; rewrite size_rcons !size_map addn1 => <-; exact: leq_trans (leq_addr _ _) A3.
have H : forall fuel (st : posns C * posns C), {subset dkeys st.1 <= dkeys bs} -> uniq (dkeys st.1) -> (size bs - size st.1 < fuel)%N ->
  exists r, place_loop fuel bs st = Some r.
  elim=> [|n IH] st H1 H2 Hf //.
  have -> : place_loop n.+1 bs st = match place_pass bs st with
    | Raise e => Some (Raise e) | Ok (st, true) => place_loop n bs st | Ok (st, false) => Some (Ok st) end by [].
  have := Hpass bs st (fun _ H => H) H1 H2.
  case: (place_pass _ _) => [[st' []]|e] => H; [case: H => A1 A2 A3|by exists (Ok st')|by exists (Raise e)].
  apply: IH => //; have := uniq_leq_size A2 A1; rewrite !size_map.
  by move: Hf A3; rewrite /= addn1; lia.
by apply: H => //=; rewrite subn0.
Qed.
End Thms.

(** ** a description: two pieces of line in series, with an open stub between them *)
Section Ex.
Variable C : numClosedFieldType.
Notation KT := (KT C).
Notation z50 := (z50 C).
Definition piece : KT := @TDev C nat_eqType unit_eqType [:: "1"; "2"] (Some [:: 0; 2%:R]) z50 (fun _ _ => Ok [:: [:: 0; 1]; [:: 1; 0]]).
Definition nm2 (a b : string) (x : option C) : gblk KT := GBlk (Ok piece) [:: GName C a; GName C b] x.
Definition Gex : gtl KT := [:: ("A", nm2 "in" "mid" None); ("B", nm2 "mid" "out" None); ("S", nm2 "mid" "[oc]" None)].
Definition nex : seq string := [:: "in"; "out"].
Definition rex : posns C := [:: ("in", 5%:R)].

Lemma piece_inv : oinv (piece : KT).
Proof. by split=> //; [exact: z50_0|move=> xs [<-]|move=> f fl Sm [<-]]. Qed.
Lemma piece_law f fl (v i : vi C) : oden (piece : KT) f fl v i <-> v 0%N = v 1%N /\ i 0%N = - i 1%N.
Proof. exact: thruE. Qed.

Lemma Gex_ok : gtl_ok Gex.
Proof.
split=> // b g; case=> [[_ <-]|[[_ <-]|[[_ <-]|//]]]; split=> // o [<-]; exact: piece_inv.
Qed.

Lemma Gex_users p : users Gex p = if p == "in" then [:: "A"] else if p == "out" then [:: "B"]
  else if p == "mid" then [:: "A"; "B"; "S"] else [::].
Proof.
rewrite /users /plain /= !(eq_sym _ p) !andbT !andbF !orbF.
case: (p =P "in") => [->|_] //; case: (p =P "out") => [->|_] //; by case: (p =P "mid").
Qed.

Lemma Gex_fit : gtl_fit z50 nex rex Gex.
Proof.
split.
- by split=> // p; rewrite !inE => /orP[] /eqP ->.
- by split=> // p; rewrite mem_seq1 => /eqP ->.
- by move=> b g; case=> [[<- <-]|[[<- <-]|[[<- <-]|//]]]; split=> //; exists piece, [:: 0; 2%:R].
- by move=> b g; case=> [[_ <-]|[[_ <-]|[[_ <-]|//]]].
- move=> b g; case=> [[_ <-]|[[_ <-]|[[_ <-]|//]]]; split=> // p kw [<-|[<-|//]] //= [<-].
  by constructor 3; exists 0; rewrite // mul0r addr0 oner_neq0.
by move=> p; rewrite Gex_users !inE; case: (p == "in"); case: (p == "out"); case: (p == "mid").
Qed.

Lemma Gex_answers f fl : gtl_answers z50 Gex f fl.
Proof.
move=> b g o o' e Hi Eo /tab_after -> _; suff -> : o = piece by rewrite /= /rebase eqxx orbT.
by case: Hi Eo => [[_ <-]|[[_ <-]|[[_ <-]|//]]] [<-].
Qed.

(** its network: in and out are connected *)
Lemma Gex_law f fl v i u j : gtl_law z50 nex Gex f fl v i u j ->
  [/\ v (dot "A" "in") = u "in", v (dot "A" "mid") = u "in", v (dot "B" "mid") = u "in",
      v (dot "B" "out") = u "in" & v (dot "S" "mid") = u "in"] /\
  [/\ v (dot "S" "[oc]") = u "in", u "out" = u "in", i (dot "S" "[oc]") = 0, i (dot "S" "mid") = 0 &
      i (dot "A" "mid") = - j "in"] /\
  [/\ i (dot "A" "in") = j "in", i (dot "B" "mid") = j "in", i (dot "B" "out") = - j "in" & j "out" = - j "in"].
Proof.
case=> Hb Ht Hp.
have [o1 [<-] /piece_law /= [A1 A2]] := Hb "A" _ (or_introl erefl).
have [o2 [<-] /piece_law /= [B1 B2]] := Hb "B" _ (or_intror (or_introl erefl)).
have [o3 [<-] /piece_law /= [S1 S2]] := Hb "S" _ (or_intror (or_intror (or_introl erefl))).
have HS : List.In ("S", nm2 "mid" "[oc]" None) Gex by right; right; left.
have /= Hoc := Ht "S" _ (GName C "[oc]") [:: ("Y", 0)] HS (or_intror (or_introl erefl)) erefl.
have [P1 P2] := Hp "in"; have [Q1 Q2] := Hp "out"; have [R1 R2] := Hp "mid".
rewrite Gex_users /= in P1 P2; rewrite Gex_users /= in Q1 Q2; rewrite Gex_users /= in R1 R2.
rewrite !big_cons !big_nil ?addr0 in P2 Q2 R2.
have E1 := P1 "A" (mem_head _ _); have E2 := Q1 "B" (mem_head _ _).
have M1 := R1 "A" isT; have M2 := R1 "B" isT; have M3 := R1 "S" isT.
have I1 : i (dot "S" "[oc]") = 0 by rewrite Hoc mul0r oppr0.
have I2 : i (dot "S" "mid") = 0 by rewrite S2 I1 oppr0.
have I3 : i (dot "B" "mid") = j "in" by apply/eqP; rewrite -P2 A2 -subr_eq0 opprK addrC; rewrite I2 addr0 in R2; rewrite R2.
have U : u "mid" = u "in" by rewrite -E1 A1 M1.
have I4 : i (dot "B" "out") = - j "in" by rewrite -I3 B2 opprK.
split; first by split; rewrite // ?M1 ?M2 ?M3 // -B1 M2.
split; first by split; rewrite // -?S1 ?M3 -?E2 -?B1 ?M2 // -P2 A2 opprK.
by split; rewrite // -Q2.
Qed.

Lemma Gex_quiet f fl : gtl_quiet z50 nex Gex f fl.
Proof.
move=> v i u j /Gex_law [[E1 E2 E3 E4 E5] [[E6 E7 E8 E9 E10] [E11 E12 E13 E14]]] H0 b g p Hi Hp.
have H1 := H0 "in" isT; have := H0 "out" isT; rewrite E7 E14 mulrN => H2.
have [U J] := zero_vi H1 H2; rewrite U J oppr0 in E1 E2 E3 E4 E5 E6 E10 E11 E12 E13.
by case: Hi Hp => [[<- <-]|[[<- <-]|[[<- <-]|//]]]; rewrite !inE => /orP[] /eqP ->.
Qed.

(** it is accepted *)
Lemma Gex_built nan f0 fl0 : exists c, build nan z50 nex rex Gex f0 fl0 = Ok c /\ ports c = nex.
Proof. exact: (iffRL (C52_accepted nan (z50_0 C) Gex_ok Gex_fit (@Gex_answers f0 fl0)) (@Gex_quiet f0 fl0)). Qed.

(** and answers *)
Lemma Gex_asked nan f0 fl0 f fl : exists c Sm, gtl_state nan z50 nex rex Gex f0 fl0 c /\
  (gtl_getS None (fun _ => false) fl0 f 0 fl c).2 = Ok Sm.
Proof.
have [c [Hc _]] := Gex_built nan f0 fl0; have Hst := gs_new Hc; have Hn : nex <> [::] by [].
have /C52_answers H := Hst.
have [Sm E] := iffRL (H (z50_0 C) Gex_ok f fl Hn (@Gex_answers f fl0) (@Gex_answers f fl) (@Gex_quiet f fl0)) (@Gex_quiet f fl).
by exists c, Sm.
Qed.

(** with a file that is wanted the answer is the file's *)
Lemma Gex_file nan f0 fl0 f fl (s : nat -> C -> unit -> res (rows C)) : exists c, gtl_state nan z50 nex rex Gex f0 fl0 c /\
  (gtl_getS (Some s) (fun _ => true) fl0 f 0 fl c).2 = s f z50 fl.
Proof.
have [c [Hc _]] := Gex_built nan f0 fl0; have Hst := gs_new Hc; exists c; split=> //.
have [h [Hr _ _ _]] := state_reach (z50_0 C) Gex_ok Hst; have Hn : nex <> [::] by [].
have [Sm] := iffRL (C52_answers (z50_0 C) Gex_ok Hst Hn (@Gex_answers f fl0) (@Gex_answers f fl) (@Gex_quiet f fl0)) (@Gex_quiet f fl).
rewrite (C52_touchstone (z50_0 C) Gex_ok Hst (snp := Some s) (wants := fun _ => true) _ _ (s := s)) // eqxx.
rewrite /gtl_getS (ci_z (reach_CI Hr)) eqxx; by case: ((get1S _ _ _ _ _).2).
Qed.

(** where it is: A from 5 to 7, B from 7 to 9, the stub S at 7 *)
Definition Xex (b : string) : C := if b == "A" then 5%:R else 7%:R.
Definition Pex (p : string) : C := if p == "in" then 5%:R else if p == "mid" then 7%:R else 9%:R.
Lemma Gex_layout : layout (goffs Gex) (given rex Gex) Xex Pex.
Proof.
have A57 : 5%:R + 2%:R = 7%:R :> C by rewrite -natrD.
have A79 : 7%:R + 2%:R = 9%:R :> C by rewrite -natrD.
split.
  move=> b l p d; case=> [[<- <-]|[[<- <-]|[[<- <-]|//]]]; case=> [[<- <-]|[[<- <-]|//]] //= _; rewrite /Xex /Pex /= ?addr0 ?A57 ?A79 //.
by move=> p x; case=> [[<- <-]|//].
Qed.
Lemma Gex_located : forall p, p \in [:: "in"; "mid"; "out"] -> plocated (goffs Gex) (dkeys (given rex Gex)) p.
Proof.
have HA : List.In ("A", [:: ("in", 0); ("mid", 2%:R)]) (goffs Gex) by left.
have HB : List.In ("B", [:: ("mid", 0); ("out", 2%:R)]) (goffs Gex) by right; left.
have H1 : plocated (goffs Gex) (dkeys (given rex Gex)) "in" by constructor.
have H2 : plocated (goffs Gex) (dkeys (given rex Gex)) "mid" by apply: (pl_block HA _ H1).
have H3 : plocated (goffs Gex) (dkeys (given rex Gex)) "out" by apply: (pl_block HB _ H2).
by move=> p; rewrite !inE => /or3P[] /eqP ->.
Qed.
Lemma Gex_places nan f0 fl0 : exists c, build nan z50 nex rex Gex f0 fl0 = Ok c /\
  [/\ nth 0 (xpos c) 0 = 5%:R, nth 0 (xpos c) 1 = 9%:R &
      exists2 bl, dget (blocks c) "S" = Some bl & bxpos bl = 7%:R].
Proof.
have [c [Hc _]] := Gex_built nan f0 fl0; have Hst := gs_new Hc; exists c; split=> //.
have HL := C53_layout (z50_0 C) Gex_ok Gex_fit Hst erefl Gex_layout.
split.
- by rewrite (HL 0%N) //; exact: Gex_located.
- by rewrite (HL 1%N) //; exact: Gex_located.
have HS : List.In ("S", [:: ("mid", 0); ("[oc]", 2%:R)]) (goffs Gex) by right; right; left.
have [bl Hb [_ H]] := C53_blocks (z50_0 C) Gex_ok Gex_fit Hst HS.
exists bl => //; rewrite (H _ _ _ _ Gex_layout) //; exists "mid" => //; exact: Gex_located.
Qed.
End Ex.

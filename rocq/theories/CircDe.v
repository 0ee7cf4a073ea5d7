(** deembed preserves the representation invariant. *)
From mathcomp Require Import all_ssreflect all_algebra.
From mathcomp Require Import zify.
From mathcomp.algebra_tactics Require Import ring.
From Coq Require Import String Ascii.
From Coq Require List.
From Verif Require Import Base MxLib ConvModel ConvSpec CircModel CircSpec CircLib CircInv CircTerm CircApp CircConn CircAdd.
Set Implicit Arguments.
Unset Strict Implicit.
Unset Printing Implicit Defensive.
Import GRing.Theory Num.Theory.
Local Open Scope ring_scope.
Local Open Scope seq_scope.

Section De.
Variable C : numClosedFieldType.
Variables F Fl : eqType.
Variable K : vcls C F Fl.
Notation circ := (circ K).
Notation net := (net K).
Implicit Types (c : circ) (N : net) (w : string -> C) (G : seq (gr C)).

(** coefficients of  w(a) - w(b) = 0 *)
Definition dcoef (a b : string) (s : string) : C := if s == b then -1 else if s == a then 1 else 0.

Lemma pair_row ws a b : uniq ws -> a \in ws -> b \in ws ->
  upd (upd (zrow C (size ws)) (seq.index a ws) 1) (seq.index b ws) (-1) = render ws (GK (dcoef a b)).
Proof.
move=> Hu Ha Hb; rewrite zrow_render.
rewrite (@render_upd _ ws _ (GK (fupd (fun=> 0) a 1)) a 1) //.
by rewrite (@render_upd _ ws _ (GK (dcoef a b)) b (-1)) // => s _; rewrite /fupd /= /dcoef; case: eqP.
Qed.

Lemma rsum_dcoef ws a b w : uniq ws -> a \in ws -> b \in ws -> a != b ->
  rsum ws (dcoef a b) w = w a - w b.
Proof.
move=> Hu Ha Hb Hab; rewrite (@rsum_sub _ ws [:: a; b]) //=.
- rewrite /rsum !big_cons big_nil addr0 /dcoef !eqxx (negbTE Hab); ring.
- by rewrite inE Hab.
- by move=> s; rewrite !inE => /orP[] /eqP ->.
by move=> s; rewrite !inE negb_or /dcoef => /andP[/negbTE -> /negbTE ->].
Qed.

Lemma mem_catl (s : string) (a b : seq string) : s \in a -> s \in a ++ b.
Proof. by rewrite mem_cat => ->. Qed.
Lemma index_catl (s : string) (a b : seq string) : s \in a -> seq.index s a = seq.index s (a ++ b).
Proof. by rewrite index_cat => ->. Qed.

Definition di_rows (d : string * string) : seq (gr C) :=
  [:: GK (dcoef (fwd d.1) (bwd d.2)); GK (dcoef (bwd d.1) (fwd d.2))].
Definition de_rows (d : string * string) : seq (gr C) :=
  [:: GK (dcoef (fwd d.1) (fwd d.2)); GK (dcoef (bwd d.1) (bwd d.2))].

Lemma two0 : 2%:R != 0 :> C. Proof. by rewrite pnatr_eq0. Qed.

Lemma half (x y x' y' : C) : x + y = x' + y' -> x - y = x' - y' -> x = x' /\ y = y'.
Proof.
move=> H1 H2; split; apply: (mulfI two0); rewrite !mulr_natl !mulr2n.
  have -> : x + x = (x + y) + (x - y) by ring.
  by rewrite H1 H2; ring.
have -> : y + y = (x + y) - (x - y) by ring.
by rewrite H1 H2; ring.
Qed.

Lemma di_lawP ws (z : C) d w : z != 0 -> uniq ws ->
  fwd d.1 \in ws -> bwd d.1 \in ws -> fwd d.2 \in ws -> bwd d.2 \in ws ->
  (forall g, List.In (GK g) (di_rows d) -> rsum ws g w = 0) <-> di_law (Vw w) (Iw z w) d.
Proof.
move=> Hz Hu H1 H2 H3 H4; rewrite /di_law /Vw /Iw; split=> [H|[E1 E2] g].
  have := H _ (or_introl erefl); have := H _ (or_intror (or_introl erefl)).
  rewrite !rsum_dcoef // => /eqP; rewrite subr_eq0 => /eqP -> /eqP; rewrite subr_eq0 => /eqP ->.
  by split; [rewrite addrC|rewrite -mulNr opprB].
have {}E2 : w (fwd d.1) - w (bwd d.1) = w (bwd d.2) - w (fwd d.2).
  move: E2; rewrite -mulNr opprB; apply: mulIf; exact: invr_neq0.
rewrite [RHS]addrC in E1; have [E3 E4] := half E1 E2.
by case=> [[<-]|[[<-]|//]]; rewrite rsum_dcoef // ?E3 ?E4 subrr.
Qed.

Lemma de_lawP ws (z : C) d w : z != 0 -> uniq ws -> d.1 != d.2 ->
  fwd d.1 \in ws -> bwd d.1 \in ws -> fwd d.2 \in ws -> bwd d.2 \in ws ->
  (forall g, List.In (GK g) (de_rows d) -> rsum ws g w = 0) <-> de_law (Vw w) (Iw z w) d.
Proof.
move=> Hz Hu Hd H1 H2 H3 H4; rewrite /de_law /Vw /Iw.
have Hf : fwd d.1 != fwd d.2 by rewrite fwd_eq.
have Hb : bwd d.1 != bwd d.2 by rewrite bwd_eq.
split=> [H|[E1 E2] g].
  have := H _ (or_introl erefl); have := H _ (or_intror (or_introl erefl)).
  by rewrite !rsum_dcoef // => /eqP; rewrite subr_eq0 => /eqP -> /eqP; rewrite subr_eq0 => /eqP ->.
have {}E2 : w (fwd d.1) - w (bwd d.1) = w (fwd d.2) - w (bwd d.2).
  by move: E2; apply: mulIf; exact: invr_neq0.
have [E3 E4] := half E1 E2.
by case=> [[<-]|[[<-]|//]]; rewrite rsum_dcoef // ?E3 ?E4 subrr.
Qed.

Definition newW (ints : seq (string * string)) : seq string :=
  flatten [seq [:: fwd d.2; bwd d.2] | d <- ints].

Lemma newW_mem ints s : (s \in newW ints) = (s \in map fwd (map snd ints)) || (s \in map bwd (map snd ints)).
Proof.
elim: ints => //= d ints IH; rewrite !in_cons -/(newW ints) IH /=.
by do !case: (_ == _); do !case: (_ \in _).
Qed.

Lemma size_newW ints : size (newW ints) = (2 * size ints)%N.
Proof. by elim: ints => //= d ints IH; rewrite -/(newW ints) IH; lia. Qed.

Lemma uniq_newW ints : uniq (newW ints) -> uniq (map snd ints).
Proof.
elim: ints => //= d ints IH; rewrite -/(newW ints) => /and3P[H1 _ H3]; rewrite IH // andbT.
apply: contra H1 => H; rewrite in_cons newW_mem fwd_mem H orbT //.
Qed.

Lemma ports_new_uniq c ints : uniq (ports c) -> uniq (waves c ++ newW ints) ->
  (forall p, p \in ports c -> fwd p \in waves c /\ bwd p \in waves c) ->
  uniq (ports c ++ map snd ints).
Proof.
move=> Hup; rewrite cat_uniq => /and3P[_ /hasPn Hd Hn] Hpw.
rewrite cat_uniq Hup uniq_newW // andbT /=; apply/hasPn => p Hp; apply/negP => /Hpw [H _].
by have := Hd (fwd p); rewrite newW_mem fwd_mem Hp => /(_ isT); rewrite /= H.
Qed.

(** after the loop over the inner ports *)
Lemma int_loop c ints W c' : uniq (ports c) ->
  uniq (waves c ++ newW ints) -> W = waves c ++ newW ints ->
  nc c = size W -> (forall p, p \in ports c -> fwd p \in waves c /\ bwd p \in waves c) ->
  loop (@deembed_int C F Fl K) c ints = (c', Ok tt) ->
  [/\ exists es ps, c' = with_M (with_ports (with_waves c W) ps (xpos c)) (nc c)
         (mM c ++ map (render W) (flatten (map di_rows ints))) es,
      uniq (map fst ints), {subset map fst ints <= ports c ++ map snd ints},
      uniq (ports c ++ map snd ints) &
      ports c' = [seq p <- ports c ++ map snd ints | p \notin map fst ints]].
Proof.
elim: ints c c' => [|[dp ip] ints IH] c c' Hup Huw EW Hn Hpw.
  case=> <-; rewrite EW !cats0; split=> //.
    by exists (eqns c), (ports c); case: (c).
  by rewrite -[LHS]filter_predT; apply: eq_filter.
rewrite loop_cons /deembed_int; case: ifP => //= Hip.
case: ifP => // /negbFE Hdp.
have Hwi : fwd ip \notin waves c /\ bwd ip \notin waves c.
  move: Huw; rewrite cat_uniq => /and3P[_ /hasPn H _]; split; apply: H;
  by rewrite /= !inE eqxx ?orbT.
set w1 := waves c ++ [:: fwd ip; bwd ip].
have Hnd : dp != ip -> dp \in ports c.
  by move: Hdp; rewrite mem_cat inE => /orP[//|/eqP -> /eqP].
have Hw1 p : p \in ports c ++ [:: ip] -> fwd p \in w1 /\ bwd p \in w1.
  rewrite mem_cat inE /w1 => /orP[/Hpw [H1 H2]|/eqP ->]; rewrite !mem_cat ?H1 ?H2 //.
  by rewrite !inE !eqxx !orbT.
have [Hfd Hbd] := Hw1 _ Hdp.
rewrite /lindex Hfd Hbd /drop_port /= /lindex Hdp lpop_index //=.
set c1 := with_ports _ _ _ => Hl.
have EW1 : W = w1 ++ newW ints by rewrite EW /w1 -catA.
have Hu1 : uniq (ports c ++ [:: ip]).
  by rewrite cat_uniq Hup /= orbF Hip.
have [] := IH c1 c' _ _ EW1 Hn _ Hl.
- by rewrite rem_uniq.
- by rewrite -EW1 EW.
- by move=> p /= /mem_rem; exact: Hw1.
move=> [es [ps Ec']] Huf Hsub Hus Eps.
have Hus0 := ports_new_uniq Hup Huw Hpw.
have Hdps : dp \notin map snd ints.
  have : uniq ((ports c ++ [:: ip]) ++ map snd ints) by rewrite -catA.
  by rewrite cat_uniq => /and3P[_ /hasPn H _]; apply/negP => /H; rewrite /= Hdp.
have HuW : uniq W by rewrite EW.
have HinW s : s \in w1 -> s \in W by rewrite EW1; exact: mem_catl.
have Hidx s : s \in w1 -> seq.index s w1 = seq.index s W.
  by rewrite EW1; exact: index_catl.
have Hfi : fwd ip \in w1 by rewrite /w1 mem_cat !inE eqxx orbT.
have Hbi : bwd ip \in w1 by rewrite /w1 mem_cat !inE eqxx !orbT.
have Ei1 : (size w1).-1 = seq.index (bwd ip) W.
  rewrite -Hidx // /w1 index_cat (negbTE Hwi.2) size_cat /= eqxx; by rewrite addn2 addn1.
have Ei2 : (size w1 - 2)%N = seq.index (fwd ip) W.
  rewrite -Hidx // /w1 index_cat (negbTE Hwi.1) size_cat /= eqxx; by rewrite addnK addn0.
split.
- exists es, ps; rewrite Ec' /= -catA; congr (with_M _ _ (_ ++ _) _).
  rewrite /pair_rows -/w1 Hn Ei1 Ei2 !Hidx //.
  by rewrite !pair_row ?HinW // -!Hidx //.
- rewrite /= Huf andbT; apply/negP => /Hsub; rewrite mem_cat /= mem_rem_uniq // inE eqxx /=.
  by move=> H; move: Hdps; rewrite H.
- move=> p; rewrite /= in_cons => /orP[/eqP ->|/Hsub].
    by move: Hdp; rewrite !mem_cat !inE => /orP[->|->] //; rewrite orbT.
  rewrite /= !mem_cat in_cons => /orP[/mem_rem|->]; rewrite ?orbT //.
  by rewrite mem_cat inE => /orP[->|->] //; rewrite orbT.
- exact: Hus0.
- have -> : ports c ++ map snd ((dp, ip) :: ints) = (ports c ++ [:: ip]) ++ map snd ints by rewrite -catA.
  rewrite Eps [LHS]filter_cat [RHS]filter_cat; congr cat.
    rewrite [ports c1]/= rem_filter // -filter_predI.
    by apply: eq_filter => p /=; rewrite in_cons negb_or andbC.
  apply/eq_in_filter => p Hp /=; rewrite in_cons negb_or.
  by case: eqP => // E; move: Hdps; rewrite -E Hp.
Qed.

Definition pairs (exts : seq (string * string)) : seq string :=
  flatten [seq [:: d.1; d.2] | d <- exts].

Lemma pairs_mem exts p : (p \in pairs exts) = (p \in map fst exts) || (p \in map snd exts).
Proof.
elim: exts => //= d exts IH; rewrite !in_cons -/(pairs exts) IH.
by do !case: (_ == _); do !case: (_ \in _).
Qed.

Lemma size_pairs exts : size (pairs exts) = (2 * size exts)%N.
Proof. by elim: exts => //= d exts IH; rewrite -/(pairs exts) IH; lia. Qed.

Lemma with_ports_ports (c : circ) ps xs ps' xs' :
  with_ports (with_ports c ps xs) ps' xs' = with_ports c ps' xs'.
Proof. by []. Qed.

Lemma drop_port_ok c p c' : drop_port c p = (c', Ok tt) ->
  p \in ports c /\ c' = with_ports c (rem p (ports c)) (xpos c).
Proof.
rewrite /drop_port /lindex; case Hp: (p \in ports c) => //=; rewrite lpop_index //.
by case=> <-.
Qed.

Lemma ext_loop c exts c' : uniq (ports c) -> uniq (waves c) -> nc c = size (waves c) ->
  (forall p, p \in ports c -> fwd p \in waves c /\ bwd p \in waves c) ->
  loop (@deembed_ext C F Fl K) c exts = (c', Ok tt) ->
  [/\ exists es ps, c' = with_M (with_ports c ps (xpos c)) (nc c)
         (mM c ++ map (render (waves c)) (flatten (map de_rows exts))) es,
      uniq (pairs exts), {subset pairs exts <= ports c} &
      ports c' = [seq p <- ports c | p \notin pairs exts]].
Proof.
elim: exts c c' => [|[dp ep] exts IH] c c' Hup Huw Hn Hpw.
  case=> <-; rewrite cats0; split=> //.
    by exists (eqns c), (ports c); case: (c).
  by rewrite -[LHS]filter_predT; apply: eq_filter.
rewrite loop_cons /deembed_ext; case: ifP => // /negbFE Hd; case: ifP => // /negbFE He.
have [Hfd Hbd] := Hpw _ Hd; have [Hfe Hbe] := Hpw _ He.
rewrite /lindex Hfd Hbd Hfe Hbe /=; set c1 := with_M _ _ _ _.
case E1: (drop_port c1 dp) => [c2 [[]|]] //=.
have [_ Ec2] := drop_port_ok E1.
case E2: (drop_port c2 ep) => [c3 [[]|]] //= Hl.
have [He2 Ec3] := drop_port_ok E2.
have Hne : ep != dp.
  by move: He2; rewrite Ec2 /= mem_rem_uniq // inE => /andP[].
have Ep3 : ports c3 = rem ep (rem dp (ports c)) by rewrite Ec3 Ec2.
have Hu3 : uniq (ports c3) by rewrite Ep3 !rem_uniq.
have Ew3 : waves c3 = waves c by rewrite Ec3 Ec2.
have Hm3 p : (p \in ports c3) = [&& p != ep, p != dp & p \in ports c].
  by rewrite Ep3 !mem_rem_uniq ?rem_uniq // !inE mem_rem_uniq // inE.
have [] := IH c3 c' Hu3 _ _ _ Hl; rewrite ?Ew3 //.
- by rewrite Ec3 Ec2.
- by move=> p; rewrite Hm3 => /and3P[_ _ /Hpw].
move=> [es [ps Ec']] Huf Hsub Eps.
split.
- exists es, ps; rewrite Ec' Ec3 Ec2 /= -catA; congr (with_M _ _ (_ ++ _) _).
  by rewrite /pair_rows Hn !pair_row.
- rewrite /= -/(pairs exts) Huf in_cons !negb_or eq_sym Hne /= !andbT.
  by apply/andP; split; apply/negP => /Hsub; rewrite Hm3 eqxx ?andbF.
- move=> p; rewrite /= !in_cons => /or3P[/eqP ->|/eqP ->|/Hsub] //.
  by rewrite Hm3 => /and3P[].
rewrite Eps Ep3 !rem_filter ?rem_uniq // ?filter_uniq // -!filter_predI.
by apply: eq_filter => p /=; rewrite -/(pairs exts) !in_cons !negb_or; case: (p == dp); case: (p == ep); rewrite ?andbT ?andbF.
Qed.

(** inner names must be new and without a dot *)
Definition ints_ok N (ints : seq (string * string)) : Prop :=
  uniq (map snd ints) /\ forall p, p \in map snd ints -> p \notin nodes N /\ ~~ has_char "."%char p.

Lemma deembed_inv c N ints exts c' : Inv c N -> building c -> ints_ok N ints ->
  deembed c ints exts = (c', Ok tt) ->
  Inv c' (net_step N (@ODeembed C F Fl K ints exts)) /\ building c'.
Proof.
move=> HI Hbd [Hui Hfr]; rewrite /deembed; set c1 := with_M _ _ _ _.
case El: (loop _ c1 ints) => [c2 [[]|//]] /= Ee.
have [G HG] := v_G HI.
set W' := newW ints; set W := waves c ++ W'.
have Hd s : s \in W' -> s \notin waves c.
  rewrite newW_mem => /orP[] /mapP [p Hp ->]; have [H _] := Hfr _ Hp;
  by rewrite ?(fwd_wave _ HI) ?(bwd_wave _ HI).
have HuW' : uniq W'.
  rewrite /W'; elim: (ints) Hui => //= d l IH /andP[Hn Hu]; rewrite -/(newW l) IH // andbT.
  by rewrite in_cons !newW_mem !fwd_mem !bwd_mem !fwd_notin_bwd !bwd_notin_fwd !orbF /= Hn.
have HuW : uniq W.
  rewrite cat_uniq (v_uw HI) HuW' andbT /=; by apply/hasPn => s /Hd.
have Hpw p : p \in ports c1 -> fwd p \in waves c1 /\ bwd p \in waves c1.
  by move=> /(port_node HI) H; rewrite /= (fwd_wave _ HI) (bwd_wave _ HI) H.
have Hnc1 : nc c1 = size W by rewrite /= (v_nc HI) size_cat size_newW.
have [] := int_loop (v_up HI : uniq (ports c1)) HuW erefl Hnc1 Hpw El.
move=> [es2 [ps2 Ec2]] Huf Hsf Hus Ep2.
have Hu2 : uniq (ports c2) by rewrite Ep2 filter_uniq.
have EW2 : waves c2 = W by rewrite Ec2.
have Hnc2 : nc c2 = size (waves c2) by rewrite EW2 -Hnc1 Ec2.
have HfW p : p \in ports c ++ map snd ints -> fwd p \in W /\ bwd p \in W.
  rewrite mem_cat => /orP[/Hpw [H1 H2]|H]; first by split; apply: mem_catl.
  by split; rewrite /W mem_cat newW_mem ?fwd_mem ?bwd_mem H !orbT.
have Hpw2 p : p \in ports c2 -> fwd p \in waves c2 /\ bwd p \in waves c2.
  by rewrite EW2 Ep2 mem_filter => /andP[_]; exact: HfW.
have [] := ext_loop Hu2 (etrans (congr1 uniq EW2) HuW) Hnc2 Hpw2 Ee.
move=> [es3 [ps3 Ec3]] Hup Hsp Ep3.
set G' := flatten (map di_rows ints) ++ flatten (map de_rows exts).
have EW3 : waves c' = W by rewrite Ec3 /= EW2.
have HM : mM c' = map (render (waves c')) (G ++ G').
  rewrite Ec3 /= EW2 Ec2 /= !map_cat -catA (g_M HG); congr cat.
  rewrite -size_newW; apply: hpad_render => //; exact: (g_supp HG).
set N' := Net _ _ _ _ _.
have Hex d : d \in exts -> [/\ d.1 \in ports c2, d.2 \in ports c2 & d.1 != d.2].
  move=> H; split.
  - by apply: Hsp; rewrite pairs_mem map_f.
  - by apply: Hsp; rewrite pairs_mem map_f // orbT.
  elim: (exts) H Hup => //= e l IH; rewrite in_cons -/(pairs l) => /orP[/eqP ->|H] /and3P[H1 H2 H3].
    by move: H1; rewrite in_cons negb_or => /andP[].
  exact: IH.
have Hin d : d \in ints -> d.1 \in ports c ++ map snd ints /\ d.2 \in ports c ++ map snd ints.
  by move=> H; split; [apply: Hsf; apply: map_f|rewrite mem_cat map_f ?orbT].
have HInd g ds (rw : string * string -> seq (gr C)) :
  List.In g (flatten (map rw ds)) <-> exists2 d, d \in ds & List.In g (rw d).
  elim: ds => [|d ds IH] /=; first by split=> // -[].
  split=> [H|[e]].
    case: (@List.in_app_or _ _ _ _ H) => [Hd1|/IH [e He1 He2]]; first by exists d; rewrite ?mem_head.
    by exists e; rewrite // in_cons He1 orbT.
  rewrite in_cons => /orP[/eqP ->|He1] He2; apply: List.in_or_app; first by left.
  by right; apply/IH; exists e.
have HW2 : uniq W by [].
have HGK g : List.In g G' -> exists h, g = GK h.
  move=> H; case: (@List.in_app_or _ _ _ _ H) => /HInd [d _] /=;
  by case=> [<-|[<-|//]]; eexists.
have Hsupp g : List.In g G' -> forall s, s \notin W -> coef g s = 0.
  have Haux a b s : a \in W -> b \in W -> s \notin W -> coef (GK (dcoef a b)) s = 0.
    move=> Ha Hb Hs; rewrite /= /dcoef; case: eqP => [E|_]; first by rewrite E Hb in Hs.
    by case: eqP => // E; rewrite E Ha in Hs.
  move=> H; case: (@List.in_app_or _ _ _ _ H) => /HInd [d Hd1] /=.
    have [/HfW [A1 A2] /HfW [B1 B2]] := Hin _ Hd1.
    by case=> [<-|[<-|//]] s; apply: Haux.
  have [/Hpw2 [A1 A2] /Hpw2 [B1 B2] _] := Hex _ Hd1; rewrite EW2 in A1 A2 B1 B2.
  by case=> [<-|[<-|//]] s; apply: Haux.
have HF (P : string * string -> Prop) ds : List.Forall P ds <-> forall d, d \in ds -> P d.
  elim: ds => [|d ds IH]; first by split.
  split=> [H e|H].
    move: (List.Forall_inv H) (List.Forall_inv_tail H) => H1 /IH H2.
    by rewrite in_cons => /orP[/eqP -> //|/H2].
  constructor; first by apply: H; rewrite mem_head.
  by apply/IH => e He; apply: H; rewrite in_cons He orbT.
have Hz := v_zb HI.
have HKl w : (forall g, List.In (GK g) G' -> rsum W g w = 0) /\ klaw (zb c) N w <->
    klaw (zb c) N' w.
  have Hdi d : d \in ints -> (forall g, List.In (GK g) (di_rows d) -> rsum W g w = 0) <->
        di_law (Vw w) (Iw (zb c) w) d.
    by move=> /Hin [/HfW [A1 A2] /HfW [B1 B2]]; apply: di_lawP.
  have Hde d : d \in exts -> (forall g, List.In (GK g) (de_rows d) -> rsum W g w = 0) <->
        de_law (Vw w) (Iw (zb c) w) d.
    by move=> /Hex [/Hpw2 [A1 A2] /Hpw2 [B1 B2] Hne]; rewrite EW2 in A1 A2 B1 B2; apply: de_lawP.
  split=> [[H1 [H2 H3 H4]]|[H2 /List.Forall_app [H3 H5] /List.Forall_app [H4 H6]]].
    split=> //; apply/List.Forall_app; split=> //; apply/HF => d Hd1.
      apply/(Hdi _ Hd1) => g Hg; apply: H1; apply: List.in_or_app; left.
      by apply/HInd; exists d.
    apply/(Hde _ Hd1) => g Hg; apply: H1; apply: List.in_or_app; right.
    by apply/HInd; exists d.
  split=> [g H|]; last by split.
  case: (@List.in_app_or _ _ _ _ H) => /HInd [d Hd1].
    by apply: (iffRL (Hdi _ Hd1)); exact: (iffLR (HF _ _) H5 _ Hd1).
  by apply: (iffRL (Hde _ Hd1)); exact: (iffLR (HF _ _) H6 _ Hd1).
have HG' : Ginv c' N' (G ++ G').
  apply: (@ginv_app C F Fl K c N G c' N' W' G' [::]) => //.
  - by rewrite Ec3 Ec2.
  - by rewrite EW3.
  - by rewrite Ec3 Ec2.
  - by rewrite Ec3 Ec2.
  - by rewrite Ec3 Ec2 cats0.
  - move=> e nm qs k x He E.
    have : List.In (nth (g0 C) G' e) G' by apply/In_nth; exists e.
    by move/HGK => [h]; rewrite E.
  - by move=> g /HGK [h ->].
  - by rewrite EW3.
have Hnod : nodes N' =i nodes N ++ map snd ints.
  move=> q; rewrite /N' /nodes /= map_cat !(mem_cat q).
  by do !case: (_ \in _).
have Hpn : nodes N' = nodes N ++ map snd ints by rewrite /N' /nodes /= map_cat !catA.
have Hused q : (q \in used N') = [|| q \in used N, q \in map fst ints | q \in pairs exts].
  rewrite /N' /used /= !map_cat !(mem_cat q) pairs_mem; by do !case: (_ \in _).
have Hsn q : q \in ports c ++ map snd ints -> q \in nodes N'.
  by rewrite Hpn (mem_cat q) (mem_cat q) => /orP[/(port_node HI) ->|->] //; rewrite orbT.
split; last by rewrite /building Ec3 Ec2.
rewrite -/N'; split; rewrite ?EW3 //.
- by rewrite Ec3 Ec2.
- move=> s; rewrite Hpn mem_cat (v_mem HI) newW_mem; move: (nodes N) => nn.
  rewrite !map_cat !mem_cat; by do !case: (_ \in _).
- rewrite Hpn cat_uniq (v_un HI) Hui andbT /=; apply/hasPn => p /Hfr [H _] //.
- move=> p; rewrite Hpn (mem_cat p) => /orP[Hp Hdp|/Hfr [_ H1] H2]; last by rewrite H2 in H1.
  exact: (v_dot HI Hp Hdp).
- by rewrite Ec3 -EW2 -Hnc2.
- by rewrite Ec3 Ec2; exact: (v_blk HI).
- exact: (v_ub HI).
- exact: (v_nb HI).
- by rewrite Ep3 filter_uniq.
- move=> q; rewrite Ep3 mem_filter Ep2 mem_filter (mem_cat q) /free Hpn (mem_cat q) (v_fp HI) /free Hused.
  rewrite !negb_or; case Hq: (q \in map snd ints) => /=; last first.
    by rewrite !orbF; do !case: (_ \in _).
  rewrite !orbT /= andbT; have -> : q \notin used N.
    by have [H _] := Hfr _ Hq; apply: contra H; exact: (v_us HI).
  by rewrite /= andbC.
- have -> : xpos c' = xpos c by rewrite Ec3 Ec2.
  have H0 : (size [seq p <- ports c2 | p \notin pairs exts] <= size (ports c2))%N.
    by rewrite size_filter count_size.
  have := size_minus Hus Huf Hsf; rewrite -Ep2 size_cat !size_map Ep3; have := v_xp HI.
  move: H0; move: (size [seq _ <- _ | _]) (size (ports c2)) (size (ports c)) (size ints) (size (xpos c)).
  by clear; lia.
- by rewrite Ec3 Ec2; exact: (v_uE HI).
- by left; rewrite Ec3 Ec2.
- move=> q; rewrite Hused => /or3P[H|/Hsf /Hsn //|/Hsp].
    by rewrite Hpn (mem_cat q) (v_us HI H).
  by rewrite Ep2 mem_filter => /andP[_ /Hsn].
- exact: (v_uT HI).
- by rewrite Ec3 Ec2; exact: (v_T HI).
- have HsG' : size G' = (2 * size ints + 2 * size exts)%N.
    rewrite size_cat; congr addn; [elim: (ints)|elim: (exts)] => //= a l ->; lia.
  rewrite HM size_map size_cat HsG' Ep3.
  have -> : nc c' = size W by rewrite Ec3 -EW2 -Hnc2.
  have -> : size (dE c') = 0%N by rewrite Ec3 Ec2 /= [dE _]Hbd.
  have H1 := size_minus Hu2 Hup Hsp; have := size_minus Hus Huf Hsf; rewrite -Ep2.
  move: H1; rewrite size_pairs !size_cat size_newW !size_map.
  have := v_cnt HI; rewrite Hbd (g_M HG) size_map (v_nc HI) /=.
  move: (size [seq _ <- _ | _]) (size (ports c2)) (size (ports c)) (size G) (size (waves c)).
  by move: (size ints) (size exts); clear; lia.
- by exists (G ++ G').
Qed.

End De.

(** Histories in which set and getS(params=...) occur between the other calls. *)
From mathcomp Require Import all_ssreflect all_algebra.
From Coq Require Import String Ascii.
From Coq Require List.
From Verif Require Import Base MxLib ConvModel ConvSpec CircModel CircSpec CircLib CircInv CircTerm CircApp CircConn CircAdd CircDe CircFill CircSolve CircExt CircHist CircGet CircMain CircOrd CircThm CircThm2 CircThm3 CircSetP.
Set Implicit Arguments.
Unset Strict Implicit.
Unset Printing Implicit Defensive.
Import Order.TTheory GRing.Theory Num.Theory.
Local Open Scope string_scope.
Local Open Scope ring_scope.
Local Open Scope seq_scope.

Section SetX.
Variable C : numClosedFieldType.
Variables F Fl : eqType.
Variable K : vcls C F Fl.
Variable nan : C.
Variable getpos : circ K -> string -> res C.
Notation circ := (circ K).
Notation net := (net K).
Notation op := (op K).
Notation reach := (reach nan getpos).
Notation exec := (exec nan getpos).
Notation run := (run nan getpos).
Implicit Types (c : circ) (N : net) (h : seq (event K)).

(** ** specification *)
(** the position of a port does not depend on stored results *)
Definition pos_plain := forall c a b d e p, getpos (with_cache c a b d e) p = getpos c p.

(** a circuit reached by building calls, getS, successful set calls and getS with
    params; the history lists the set calls as replacements of the objects *)
Inductive reachX (z : C) (ns : seq string) : seq (event K) -> circ -> Prop :=
| X_new : z != 0 -> reachX z ns [::] (new_circ K z ns)
| X_call h c o ok c' : reachX z ns h c -> ev_ok (net_hist h) (past_of h) (o, ok) ->
    exec c o = (c', ok) -> reachX z ns (rcons h (o, ok)) c'
| X_set h c l c' : reachX z ns h c -> set_all c l = (c', Ok tt) ->
    reachX z ns (h ++ set_events c l) c'
| X_params h c prms f z' fl c' Sm : reachX z ns h c -> recomputes c f fl ->
    ev_ok (net_hist h) (past_of h) (OGetS K f z' fl, true) ->
    (forall nm b p, dget (blocks c) nm = Some b -> dget prms nm = Some p ->
       (oset p (bobj b)).2 = Ok tt) ->
    get1S f z' prms fl c = (c', Ok Sm) ->
    reachX z ns (rcons (h ++ set_events c (param_sets c prms)) (OGetS K f z' fl, true)) c'.

(** ** proof *)
Hypothesis Hpos : pos_plain.

(** equal but for stored results that are not used *)
Definition sim c1 c2 := c1 = c2 \/
  [/\ cS c1 = None, cS c2 = None & same_but_cache c2 c1].

Definition wc_ok A (op : circ -> circ * A) := forall c a b d e, exists a' b' d' e',
  op (with_cache c a b d e) = (with_cache (op c).1 a' b' d' e', (op c).2) /\
  (b = None -> b' = None) /\ (cS c = None -> cS (op c).1 = None).

Lemma wc_loop A (st : circ -> A -> circ * res unit) (xs : seq A) :
  (forall x, wc_ok (fun c => st c x)) -> wc_ok (fun c => loop st c xs).
Proof.
move=> H; elim: xs => [|x xs IH] c a b d e; first by exists a, b, d, e.
rewrite !loop_cons; have /= [a' [b' [d' [e' [-> [Hb Hc]]]]]] := H x c a b d e.
case E: (st c x) Hc => [c1 [u|y]] /= Hc; last by exists a', b', d', e'.
have /= [a2 [b2 [d2 [e2 [-> [Hb2 Hc2]]]]]] := IH c1 a' b' d' e'.
by exists a2, b2, d2, e2; split=> //; split=> H1; [apply: Hb2; apply: Hb|apply: Hc2; apply: Hc].
Qed.

Ltac wc := by do 4!eexists; split; [reflexivity|].

Lemma wc_addblock nm o pa x : wc_ok (fun c => addblock nan c nm o pa x).
Proof.
move=> c a b d e; rewrite /addblock; case: ifP => _ /=; first wc.
case: (dget (blocks c) nm) => [bl|]; first by case: ifP => _; wc.
by rewrite /addblock_new; case: (resolve_ports _ _ _) => [ops|x0]; wc.
Qed.

Lemma wc_consume p : wc_ok (fun c => consume c p).
Proof.
move=> c a b d e; rewrite /consume /=.
case: (lindex _ _) => [k|x]; last wc.
case: (lpop _ _) => [ps|x]; last wc.
by case: (lpop _ _) => [xs|x]; wc.
Qed.

Lemma wc_connect ps : wc_ok (fun c => connect getpos c ps).
Proof.
move=> c a b d e; rewrite /connect /=.
have -> : newports (with_cache c a b d e) ps = newports c ps by [].
have -> : oldports (with_cache c a b d e) ps = oldports c ps by [].
case: ifP => _; first wc. case: ifP => _; first wc.
have W1 : wc_ok (fun c0 => loop (fun c1 p => connect_new getpos c1 (oldports c ps) p) c0 (newports c ps)).
  apply: wc_loop => p c0 a0 b0 d0 e0; rewrite /connect_new.
  case: (oldports c ps) => [|o os]; first wc.
  have -> : with_ports (with_waves (with_cache c0 a0 b0 d0 e0) (waves c0 ++ [:: fwd p; bwd p])) (ports c0 ++ [:: p]) (xpos c0) =
            with_cache (with_ports (with_waves c0 (waves c0 ++ [:: fwd p; bwd p])) (ports c0 ++ [:: p]) (xpos c0)) a0 b0 d0 e0 by [].
  by rewrite Hpos /=; case: (getpos _ _) => [x|x]; wc.
have /= [a' [b' [d' [e' [-> [Hb Hc]]]]]] := W1 c a b d e; rewrite /=.
set r1 := loop _ c _ in Hc *.
case: r1.2 => [u|x]; last by exists a', b', d', e'.
case: (mapM _ _) => [iAs|x]; last by exists a', b', d', e'.
case: (mapM _ _) => [iBs|x]; last by exists a', b', d', e'.
have /= [a2 [b2 [d2 [e2 [-> [Hb2 Hc2]]]]]] := wc_loop [seq p <- ps | p \notin newports c ps] wc_consume r1.1 a' b' d' e'.
rewrite /=; set r2 := loop _ r1.1 _ in Hc2 *.
case: r2.2 => [u2|x]; last by exists a2, b2, d2, e2; split=> //; split=> H1; [apply: Hb2; apply: Hb|apply: Hc2; apply: Hc].
by wc.
Qed.

Lemma wc_terminate p kw : wc_ok (fun c => terminate c p kw).
Proof.
move=> c a b d e; rewrite /terminate /=.
case: (rho_of _ _) => [rho|x]; last wc.
case: (dget (dT c) p) => [[[iA iB] ee]|]; first wc.
case: (dget (dE c) p) => [ee|].
  case: (lindex _ _) => [iA|x]; last wc. case: (lindex _ _) => [iB|x]; last wc.
  set c1 := with_dicts _ _ _ _; set c2 := with_dicts _ _ _ _.
  have -> : c1 = with_cache c2 a b d e by [].
  have /= [a2 [b2 [d2 [e2 [-> [Hb2 Hc2]]]]]] := wc_consume p c2 a b d e.
  by rewrite /=; case: (consume c2 p).2 => [u|x] /=; [wc|exists a2, b2, d2, e2].
have /= [a2 [b2 [d2 [e2 [-> [Hb2 Hc2]]]]]] := wc_consume p c a b d e.
rewrite /=; case: (consume c p).2 => [u|x] /=; last by exists a2, b2, d2, e2.
case: (lindex _ _) => [iA|x]; last by do 4!eexists; split; [reflexivity|].
by case: (lindex _ _) => [iB|y]; do 4!eexists; split; try reflexivity.
Qed.

Lemma wc_drop p : wc_ok (fun c => drop_port c p).
Proof.
move=> c a b d e; rewrite /drop_port /=.
case: (lindex _ _) => [k|x]; last wc.
by case: (lpop _ _) => [ps|x]; wc.
Qed.

Lemma wc_deembed i x : wc_ok (fun c => deembed c i x).
Proof.
move=> c a b d e; rewrite /deembed /=.
set c0 := with_M _ _ _ _; set c0' := with_M _ _ _ _.
have E0 : c0 = with_cache c0' None None d e by [].
have Wi p : wc_ok (fun c => deembed_int c p).
  case: p => dp ip c1 a1 b1 d1 e1; rewrite /deembed_int /=; case: ifP => _; first wc.
  case: ifP => _; first wc.
  case: (lindex _ _) => [k|y]; last wc. case: (lindex _ _) => [k'|y]; last wc.
  set c2 := with_M _ _ _ _; set c3 := with_M _ _ _ _.
  have -> : c2 = with_cache c3 a1 b1 d1 e1 by [].
  exact: wc_drop.
have We p : wc_ok (fun c => deembed_ext c p).
  case: p => dp ep c1 a1 b1 d1 e1; rewrite /deembed_ext /=; case: ifP => _; first wc.
  case: ifP => _; first wc.
  case: (lindex _ _) => [k1|y]; last wc. case: (lindex _ _) => [k2|y]; last wc.
  case: (lindex _ _) => [k3|y]; last wc. case: (lindex _ _) => [k4|y]; last wc.
  set c2 := with_M _ _ _ _; set c3 := with_M _ _ _ _.
  have -> : c2 = with_cache c3 a1 b1 d1 e1 by [].
  have /= [a2 [b2 [d2 [e2 [-> [Hb2 Hc2]]]]]] := wc_drop dp c3 a1 b1 d1 e1.
  case Ed: (drop_port c3 dp) Hc2 => [c5 [u|y]] /= Hc2; last by exists a2, b2, d2, e2.
  have /= [a4 [b4 [d4 [e4 [-> [Hb4 Hc4]]]]]] := wc_drop ep c5 a2 b2 d2 e2.
  by exists a4, b4, d4, e4; split=> //; split=> H1; [apply: Hb4; apply: Hb2|apply: Hc4; apply: Hc2].
rewrite E0; have /= [a2 [b2 [d2 [e2 [-> [Hb2 Hc2]]]]]] := wc_loop i Wi c0' None None d e.
case Ed: (loop _ c0' i) Hc2 => [c5 [u|y]] /= Hc2; last by exists a2, b2, d2, e2; split=> //; split=> _; [apply: Hb2|apply: Hc2].
have /= [a4 [b4 [d4 [e4 [-> [Hb4 Hc4]]]]]] := wc_loop x We c5 a2 b2 d2 e2.
by exists a4, b4, d4, e4; split=> //; split=> H1; [apply: Hb4; apply: Hb2|apply: Hc4; apply: Hc2].
Qed.

Lemma wc_close : wc_ok (@close C F Fl K).
Proof.
move=> c a b d e; rewrite /close /=; case: ifP => _; first wc.
have W ps : wc_ok (fun c0 : circ => loop (@add_E C F Fl K) c0 ps).
  apply: wc_loop => p c0 a0 b0 d0 e0; rewrite /add_E /=.
  by case: (lindex _ _) => [k|x]; wc.
set cc := with_cache c (invM c) None (cf c) (cfl c).
case: (pn c) => [[|n ns]|] /=.
- by have [a2 [b2 [d2 [e2 [E [Hb Hc]]]]]] := W (ports c) (with_pn cc PAlias) a None d e;
    exists a2, b2, d2, e2; rewrite -E; split=> //; split=> _; [apply: Hb|apply: Hc].
- case: ifP => _; first wc. case: ifP => _; first wc.
  by have [a2 [b2 [d2 [e2 [E [Hb Hc]]]]]] := W (n :: ns) (with_pn (with_ports cc (n :: ns) (xpos c)) PAlias) a None d e;
    exists a2, b2, d2, e2; rewrite -E; split=> //; split=> _; [apply: Hb|apply: Hc].
- by have [a2 [b2 [d2 [e2 [E [Hb Hc]]]]]] := W (ports c) cc a None d e;
    exists a2, b2, d2, e2; rewrite -E; split=> //; split=> _; [apply: Hb|apply: Hc].
Qed.

Lemma sim_get f z' prms fl c1 c2 : sim c1 c2 ->
  let r1 := get1S f z' prms fl c1 in let r2 := get1S f z' prms fl c2 in
  r1.2 = r2.2 /\ sim r1.1 r2.1.
Proof.
case=> [->|[H1 H2 [a [b [d [e E2]]]]]]; first by split=> //; left.
have Eb : b = None by move: H2; rewrite E2.
subst b; subst c2; rewrite /get1S H1 /= !orbT /=.
case Es: (solve_now f fl prms c1) => [c3 [S3|x]] /=.
  by rewrite (solve_wc _ _ _ _ Es) /=; split=> //; left.
move: Es; rewrite /solve_now loop_wc /=.
have L bs : forall c0, cS c0 = None -> cS (loop (fill1 f fl prms) c0 bs).1 = None.
  elim: bs => // -[nm bl] bs IH c0 H0; rewrite loop_cons.
  have Hf : cS (fill1 f fl prms c0 (nm, bl)).1 = None.
    rewrite /fill1; set rs := (if dget _ _ is Some _ then _ else _).
    case: rs.2 => [u|y]; last case: y; rewrite //=;
    by case: (ogetS f (zb c0) fl rs.1).2 => [Sm|y] //; case: ifP.
  by case: (fill1 _ _ _ _ _) Hf => c4 [u|y] //= Hf; apply: IH.
have := L (blocks c1) c1 H1.
case: (loop _ _ _) => c4 [u|y] /= H4; last first.
  by case=> <- <-; split=> //; right; split=> //; exists a, None, d, e.
rewrite /extS; have [a2 [b2 [d2 [e2 [-> [Hb Hc]]]]]] := wc_close c4 a None d e.
have {}Hb := Hb (erefl _); subst b2; have {}Hc := Hc H4.
case: (close c4) Hc => c5 [u5|y] /= Hc; last first.
  by case=> <- <-; split=> //; right; split=> //; exists a2, None, d2, e2.
have -> : portnames (with_cache c5 a2 None d2 e2) = portnames c5 by [].
case: (mapM _ _) => [iEs|y]; last by case=> <- <-; split=> //; right; split=> //; exists a2, None, d2, e2.
case: (mapM _ _) => [iAs|y]; last by case=> <- <-; split=> //; right; split=> //; exists a2, None, d2, e2.
case: (mapM _ _) => [iBs|y]; last by case=> <- <-; split=> //; right; split=> //; exists a2, None, d2, e2.
case: (inv_rows _ _) => [iM|y]; last by case=> <- <-; split=> //; right; split=> //; exists a2, None, d2, e2.
case: ifP => _; first by case=> <- <-; split=> //; right; split=> //; exists (Some iM), None, d2, e2.
case: (np_inv _) => [iQ|y] //=.
by case=> <- <-; split=> //; right; split=> //; exists (Some iM), None, d2, e2.
Qed.

Lemma sim_exec c1 c2 o : sim c1 c2 ->
  (exec c1 o).2 = (exec c2 o).2 /\ sim (exec c1 o).1 (exec c2 o).1.
Proof.
case=> [->|Hs]; first by split=> //; left.
have W A (g : circ -> circ * A) : wc_ok g -> (g c1).2 = (g c2).2 /\ sim (g c1).1 (g c2).1.
  case: Hs => H1 H2 [a [b [d [e E2]]]] Hw.
  have Eb : b = None by move: H2; rewrite E2.
  subst b c2; have [a2 [b2 [d2 [e2 [-> [Hb Hc]]]]]] := Hw c1 a None d e.
  have {}Hb := Hb (erefl _); subst b2.
  by split=> //=; right; split=> //; [exact: Hc|exists a2, None, d2, e2].
case: o => [nm ob pa x|ps|p kw|i x|f z fl]; rewrite /CircHist.exec /=.
- by have [-> Hx] := W _ _ (wc_addblock nm ob pa x).
- by have [-> Hx] := W _ _ (wc_connect ps).
- by have [-> Hx] := W _ _ (wc_terminate p kw).
- by have [-> Hx] := W _ _ (wc_deembed i x).
- by have [-> Hx] := sim_get f z [::] fl (or_intror Hs).
Qed.

Hypothesis keeps : set_keeps K.

Lemma sim_blocks c1 c2 : sim c1 c2 -> blocks c1 = blocks c2.
Proof. by case=> [->//|[_ _ [a [b [d [e ->]]]]]]. Qed.

Lemma sim_set_blk md c1 c2 nm p : sim c1 c2 ->
  (set_blk md c1 nm p).2 = (set_blk md c2 nm p).2 /\ sim (set_blk md c1 nm p).1 (set_blk md c2 nm p).1.
Proof.
case=> [->|[H1 H2 [a [b [d [e E2]]]]]]; first by split=> //; left.
subst c2; rewrite /set_blk /=; case: (dget _ _) => [bl|]; last first.
  by split=> //; right; split=> //; exists a, b, d, e.
case: (oset p (bobj bl)) => o [u|x] /=; last first.
  case: x => /=; split=> //; right; split=> //; exists a, b, d, e; reflexivity.
case: md; split=> //; right; split=> //; first by exists None, None, None, e.
by exists a, b, d, e.
Qed.

Lemma sim_set_all c1 c2 l : sim c1 c2 ->
  (set_all c1 l).2 = (set_all c2 l).2 /\ sim (set_all c1 l).1 (set_all c2 l).1.
Proof.
elim: l c1 c2 => [|[nm p] l IH] c1 c2 Hs; first by [].
rewrite /set_all !loop_cons /=.
have [E Hx] := sim_set_blk true nm p Hs.
by rewrite -E; case: (set_blk true c1 nm p) E Hx => c3 [u|x] /= E Hx; [apply: IH|rewrite -E].
Qed.

Lemma sim_events c1 c2 l : sim c1 c2 -> set_events c1 l = set_events c2 l.
Proof.
elim: l c1 c2 => [|[nm p] l IH] c1 c2 Hs //=.
rewrite (sim_blocks Hs); case: (dget _ _) => [b|] //.
by congr (_ :: _); apply: IH; have [] := sim_set_blk true nm p Hs.
Qed.

Lemma sim_sym c1 c2 : sim c1 c2 -> sim c2 c1.
Proof.
case=> [->|[H1 H2 [a [b [d [e E2]]]]]]; [by left|right; split=> //].
by exists (invM c1), (cS c1), (cf c1), (cfl c1); rewrite E2; case: (c1).
Qed.

Lemma sim_trans c1 c2 c3 : sim c1 c2 -> sim c2 c3 -> sim c1 c3.
Proof.
case=> [->//|[H1 H2 [a [b [d [e E2]]]]]] [<-|[_ H3 [a2 [b2 [d2 [e2 E3]]]]]]; right; split=> //.
  by exists a, b, d, e.
by exists a2, b2, d2, e2; rewrite E3 E2.
Qed.

Lemma past_sets h c l : asked (past_of (h ++ set_events c l)) = asked (past_of h) /\
  (reterm (past_of (h ++ set_events c l)) -> reterm (past_of h)).
Proof.
elim: l h c => [|[nm p] l IH] h c /=; first by rewrite cats0.
case: (dget _ _) => [b|]; last by rewrite cats0.
rewrite -cat_rcons; set ev := (OAdd _ _ _ _, true).
have [H1 H2] := IH (rcons h ev) (set_blk true c nm p).1.
by rewrite H1 past_rcons /=; split=> // /H2; rewrite past_rcons.
Qed.

Theorem reachX_reach z ns h c : reachX z ns h c -> exists c0, reach z ns h c0 /\ sim c0 c.
Proof.
elim=> [Hz|{}h {}c o ok c' _ [c0 [Hr Hs]] Hok Hx|{}h {}c l c' _ [c0 [Hr Hs]] Hl|].
- by exists (new_circ K z ns); split=> //; left.
- exists (exec c0 o).1; have [E2 Es] := sim_exec o Hs; rewrite Hx /= in E2 Es.
  by split=> //; apply: reach_snoc Hr Hok _; case: (exec c0 o) E2 => a b /= ->.
- have [E2 Es] := sim_set_all l Hs; rewrite Hl /= in E2 Es.
  have Hc : same_but_cache c0 c0 by exists (invM c0), (cS c0), (cf c0), (cfl c0); case: (c0).
  case El: (set_all c0 l) E2 Es => [c2 rr] /= E2 Es; rewrite E2 in El.
  have [c3 [H1 H2 H3 H4]] := set_all_sim keeps Hr Hc (fun _ => erefl _) El.
  exists c3; rewrite -(sim_events l Hs); split=> //; apply: sim_trans Es.
  case: l H2 H3 {Hl El H4} => [|x l] H2 H3; first by left; rewrite H2.
  have [H5 H6] := H3 ltac:(by []); right; split=> //.
- move=> {}h {}c prms f z' fl c' Sm _ [c0 [Hr Hs]] Hre Hok Hset Hg.
  have Eb := sim_blocks Hs.
  have Eps : param_sets c prms = param_sets c0 prms by rewrite /param_sets Eb.
  have Hre0 : recomputes c0 f fl.
    by case: Hs => [->//|[H1 _ _]]; rewrite /recomputes H1 orbT.
  have [E2 Es] := sim_get f z' prms fl Hs; rewrite Hg /= in E2 Es.
  case Eg: (get1S f z' prms fl c0) E2 Es => [c2 rr] /= E2 Es; rewrite E2 in Eg.
  have [|c3 [H1 H2 H3]] := get_params keeps Hr Hre0 _ Eg.
    by move=> nm b p; rewrite Eb; apply: Hset.
  exists c2; split=> //; rewrite Eps -(sim_events _ Hs).
  apply: reach_snoc H1 _ _; last by rewrite /CircHist.exec H2.
  have [E1 E3] := past_sets h c0 (param_sets c0 prms).
  move: Hok; rewrite /ev_ok E1; case: (reterm (past_of (h ++ _))) E3 => //= E3.
  by rewrite (E3 isT).
Qed.

End SetX.

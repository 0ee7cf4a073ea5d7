(** Consequences for reachable circuits (lemmas behind PropsCirc.v). *)
From mathcomp Require Import all_ssreflect all_algebra.
From mathcomp Require Import zify.
From mathcomp.algebra_tactics Require Import ring.
From Coq Require Import String Ascii.
From Coq Require List.
From Verif Require Import Base MxLib ConvModel ConvSpec ConvProofs ConvArr CircModel CircSpec CircLib CircInv CircTerm CircApp CircConn CircAdd CircDe CircFill CircSolve CircExt CircHist CircGet CircMain CircOrd.
Set Implicit Arguments.
Unset Strict Implicit.
Unset Printing Implicit Defensive.
Import GRing.Theory Num.Theory.
Local Open Scope ring_scope.
Local Open Scope seq_scope.

Section Thm.
Variable C : numClosedFieldType.
Variables F Fl : eqType.
Variable K : vcls C F Fl.
Variable nan : C.
Variable getpos : circ K -> string -> res C.
Notation circ := (circ K).
Notation net := (net K).
Notation op := (op K).
Notation reach := (reach nan getpos).
Implicit Types (c : circ) (N : net) (h : seq (event K)).

Lemma reach_CI z ns h c : reach z ns h c -> CI z c (net_hist h) (past_of h).
Proof. by case=> Hz Hh Hr; exact: (run_CI (init_CI _ ns Hz) Hh Hr). Qed.

Lemma reach_OI z ns h c : reach z ns h c -> OI ns c (net_hist h) (past_of h) (made h).
Proof.
by case=> Hz Hh Hr; exact: (run_OI (init_CI _ ns Hz) Hh Hr (init_OI K ns z)).
Qed.

(** ** labels *)
Definition lab c := size (eqns c) = size (mM c).

Lemma loop_pres (A B : Type) (step : circ -> A -> circ * res unit) (ob : circ -> B) c xs :
  (forall c x, ob (step c x).1 = ob c) -> ob (loop step c xs).1 = ob c.
Proof.
move=> H; elim: xs c => //= x xs IH c; have := H c x.
by case: (step c x) => c1 [u|e] //= <-.
Qed.

Lemma loop_imp (A : Type) (step : circ -> A -> circ * res unit) (P : circ -> Prop) c xs :
  (forall c x c' , P c -> step c x = (c', Ok tt) -> P c') -> P c -> 
  forall c', loop step c xs = (c', Ok tt) -> P c'.
Proof.
move=> H; elim: xs c => [|x xs IH] c Hc c' /=; first by case=> <-.
by case E: (step c x) => [c1 [[]|e]] //=; apply: IH; exact: H Hc E.
Qed.

Lemma consume_eq c p : eqns (consume c p).1 = eqns c /\ mM (consume c p).1 = mM c.
Proof. by rewrite /consume; case: (lindex _ _) => //= k; case: (lpop _ _) => //= ps; case: (lpop _ _). Qed.

Lemma drop_eq c p : eqns (drop_port c p).1 = eqns c /\ mM (drop_port c p).1 = mM c.
Proof. by rewrite /drop_port; case: (lindex _ _) => //= k; case: (lpop _ _). Qed.

Lemma add_lab c nm o pa x c' : addblock nan c nm o pa x = (c', Ok tt) -> lab c -> lab c'.
Proof.
rewrite /addblock /lab; case: ifP => // _; case: (dget _ _) => [b|]; first by case: ifP => // _ [<-].
rewrite /addblock_new; case E: (resolve_ports _ _ _) => [ps|//] [<-] /= H.
by rewrite !size_cat !size_map size_zip !size_iota minnn H (resolve_size E).
Qed.

Lemma connect_lab c ps c' : connect getpos c ps = (c', Ok tt) -> lab c -> lab c'.
Proof.
rewrite /connect /lab; case: ifP => // _; case: ifP => // _.
set olds := oldports c ps; set nw := newports c ps.
have := @loop_pres _ _ (fun c p => connect_new getpos c olds p) (fun c => (eqns c, mM c)) c nw.
case: (loop _ c nw) => c1 [u|e] //= H1.
have [E1 E2] : eqns c1 = eqns c /\ mM c1 = mM c.
  have : (eqns c1, mM c1) = (eqns c, mM c); last by case=> -> ->.
  apply: H1 => d p; rewrite /connect_new; case: (olds) => // o l.
  by case: (getpos _ _).
case E: (mapM _ ps) => [iAs|//]; case: (mapM _ ps) => // iBs.
have [HsA _] := iffLR (mapM_Ok _ _ _) E.
set xs := [seq p <- ps | p \notin nw].
have := @loop_pres _ _ (@consume C F Fl K) (fun c => (eqns c, mM c)) c1 xs.
case: (loop _ c1 xs) => c2 [u'|e] //= H2.
have [E3 E4] : eqns c2 = eqns c1 /\ mM c2 = mM c1.
  have : (eqns c2, mM c2) = (eqns c1, mM c1); last by case=> -> ->.
  by apply: H2 => d p; have [-> ->] := consume_eq d p.
case=> <- /= H; rewrite !size_cat !size_map size_zip size_iota minnn E3 E4 E1 E2 H.
by rewrite HsA.
Qed.

Lemma size_upd2 (m : rows C) e j x : (e < size m)%N -> size (upd2 m e j x) = size m.
Proof. by move=> He; rewrite /upd2 size_set_nth; apply/maxn_idPr. Qed.

Lemma term_lab c N p kw c' : Inv c N -> terminate c p kw = (c', Ok tt) -> lab c -> lab c'.
Proof.
move=> HI; have [G HG] := v_G HI; rewrite /terminate /lab; case: (rho_of _ _) => // rho.
case ET: (dget (dT c) p) => [[[iA iB] e]|].
  have [[_ _ _ _ He] _] := g_T HG ET.
  by case=> <- /= ->; rewrite size_upd2 // (g_M HG) size_map.
case EE: (dget (dE c) p) => [e|].
  have [He _] := g_E HG EE; have HeM : (e < size (mM c))%N by rewrite (g_M HG) size_map.
  case: (lindex _ _) => // iA; case: (lindex _ _) => // iB.
  set c1 := with_dicts _ _ _ _; have [] := consume_eq c1 p.
  case: (consume c1 p) => c2 [u|e'] //= E1 E2 [<-] H /=.
  rewrite E1 E2 !size_upd2 ?size_upd2 // size_set_nth H; exact/maxn_idPr.
have [] := consume_eq c p; case: (consume c p) => c2 [u|e] //= E1 E2.
case: (lindex _ _) => // iA; case: (lindex _ _) => // iB [<-] H /=.
by rewrite !size_upd2 ?size_upd2 ?size_cat /= ?addn1 // E1 E2 H.
Qed.

Lemma deembed_lab c ints exts c' : deembed c ints exts = (c', Ok tt) -> lab c -> lab c'.
Proof.
rewrite /deembed; set c1 := with_M _ _ _ _ => H Hl.
have Hl1 : lab c1 by rewrite /lab /= size_map.
case El: (loop _ c1 ints) H => [c2 [[]|e]] //= H.
have Hl2 : lab c2.
  apply: (loop_imp _ Hl1 El) => d [dp ip] d' Hd; rewrite /deembed_int.
  case: ifP => // _; case: ifP => // _; case: (lindex _ _) => // iA; case: (lindex _ _) => // iB.
  set d2 := with_M _ _ _ _; have [] := drop_eq d2 dp.
  by case: (drop_port d2 dp) => d3 [u|e] //= E1 E2 [<-]; rewrite /lab E1 E2 /= !size_cat Hd.
apply: (loop_imp _ Hl2 H) => d [dp ip] d' Hd; rewrite /deembed_ext.
case: ifP => // _; case: ifP => // _; case: (lindex _ _) => // iA; case: (lindex _ _) => // iB.
case: (lindex _ _) => // iC; case: (lindex _ _) => // iD.
set d2 := with_M _ _ _ _; have [] := drop_eq d2 dp.
case: (drop_port d2 dp) => d3 [u|e] //= E1 E2 E.
by have [] := drop_eq d3 ip; rewrite E /= /lab E1 E2 => -> ->; rewrite /= !size_cat Hd.
Qed.

Lemma fill1_eqns f fl prms c nb : eqns (fill1 f fl prms c nb).1 = eqns c.
Proof.
case: nb => nm b; rewrite /fill1.
set rs := (if dget _ _ is Some _ then _ else _).
case: rs.2 => [u|e]; last case: e; rewrite //=;
 by case: (ogetS f (zb c) fl rs.1).2 => [Sm|e] //; case: ifP.
Qed.

Lemma addE_never_raise c p e : fwd p \in waves c -> (add_E c p).2 <> Raise e.
Proof. by rewrite /add_E /lindex => ->. Qed.

Lemma addE_lab c ps : {subset map fwd ps <= waves c} -> lab c -> lab (loop (@add_E C F Fl K) c ps).1.
Proof.
elim: ps c => [|p ps IH] c Hs Hl; rewrite ?loop_cons //.
rewrite /add_E lindex_in; last by apply: Hs; rewrite /= mem_head.
apply: IH; first by move=> q Hq; apply: Hs; rewrite /= in_cons Hq orbT.
by rewrite /lab /= !size_cat Hl.
Qed.

Lemma close_lab c N : Inv c N -> lab c -> lab (close c).1.
Proof.
move=> HI Hl; rewrite /close; case: eqP => // _.
have Hfw ns : ns =i ports c -> {subset map fwd ns <= waves c}.
  by move=> H s /mapP [p Hp ->]; rewrite (fwd_wave _ HI) (port_node HI) // -H.
rewrite /=; case Epn: (pn c) => [[|n ns]|]; try by apply: addE_lab => //; apply: Hfw.
case: ifP => // /negbFE Hs; case: ifP => // /negbFE Ha.
have [_ Hm] := @close_ports C F Fl K c N (n :: ns) HI Hs Ha.
by apply: addE_lab => //; apply: Hfw.
Qed.

Lemma extS_eq c : let r := extS c in eqns r.1 = eqns (close c).1 /\ mM r.1 = mM (close c).1.
Proof.
rewrite /extS; case: (close c) => c1 [u|e] //=.
case: (mapM _ _) => // iE; case: (mapM _ _) => // iA; case: (mapM _ _) => // iB.
case: (inv_rows _ _) => // iM; case: ifP => // _; by case: (np_inv _).
Qed.

Lemma solve_lab c N f fl : Inv c N -> lab c -> lab (solve_now f fl [::] c).1.
Proof.
move=> HI Hl; rewrite /solve_now.
have He := @loop_pres _ _ (fill1 f fl [::]) (fun c => eqns c) c (blocks c) (fill1_eqns f fl [::]).
case El: (loop _ c (blocks c)) He => [c1 r1] /= He.
have [HI1 [E1 _ E3 E4 _]] := fill_any HI El.
have Hl1 : lab c1.
  rewrite /lab He Hl; have := v_cnt HI; have := v_cnt HI1.
  rewrite E1 E3 (v_nc HI) (v_nc HI1) E4; lia.
case: r1 El => [u|e] El //=.
have [H1 H2] := extS_eq c1; case: (extS c1) H1 H2 => c2 [Sm|e] /= H1 H2;
  by rewrite /lab /= H1 H2; exact: close_lab HI1 Hl1.
Qed.

Lemma get_lab c N f z' fl : Inv c N -> lab c -> lab (get1S f z' [::] fl c).1.
Proof.
move=> HI Hl; rewrite /get1S; set t := (if _ then _ else _).
have Ht : lab t.1 by rewrite /t; case: ifP => // _; exact: solve_lab HI Hl.
by case: t Ht => c1 [Sm|e].
Qed.

Lemma step_lab z c N g o ok c' : CI z c N g -> ev_ok N g (o, ok) ->
  exec nan getpos c o = (c', ok) -> lab c -> lab c'.
Proof.
move=> HC Hok; have HI := ci_inv HC.
case: o Hok => [nm ob pa x|ps|p kw|ints exts|f z' fl] /=.
- case=> -> _ _; case E: (addblock _ _ _ _ _ _) => [c1 [[]|//]] /= [<-]; exact: add_lab E.
- case=> -> _; case E: (connect _ _ _) => [c1 [[]|//]] /= [<-]; exact: connect_lab E.
- move=> ->; case E: (terminate _ _ _) => [c1 [[]|//]] /= [<-]; exact: term_lab HI E.
- case=> -> _ _ _; case E: (deembed _ _ _) => [c1 [[]|//]] /= [<-]; exact: deembed_lab E.
- move=> _; case E: (get1S _ _ _ _ _) => [c1 r] /= [<- _] Hl.
  by have := get_lab f z' fl HI Hl; rewrite E.
Qed.

Lemma run_lab z c N g h c' : CI z c N g -> hist_ok_from N g h -> run nan getpos c h = Some c' ->
  lab c -> lab c'.
Proof.
elim: h c N g => [|[o ok] h IH] c N g HC /=; first by move=> _ [<-].
case=> H1 H2; case E: (exec _ _ _ _) => [c1 ok1] /=; case: eqP => // Eok Hr Hl.
rewrite Eok in E; exact: IH (step_CI HC H1 E) H2 Hr (step_lab HC H1 E Hl).
Qed.

(** ** C10 *)
Lemma thm_C10 z ns h c : reach z ns h c ->
  [/\ all (fun r => size r == size (waves c)) (mM c), size (eqns c) = size (mM c),
      uniq (waves c),
      (forall p, p \in ports c -> (fwd p \in waves c) && (bwd p \in waves c)) /\
      (forall p, (p \in ports c) = free (net_hist h) p) &
      tried (past_of h) = false -> size (waves c) = (size (mM c) + size (ports c))%N].
Proof.
move=> Hr; have HC := reach_CI Hr; have HI := ci_inv HC; have [G HG] := v_G HI.
split.
- by rewrite (g_M HG) all_map; elim: (G) => //= g s ->; rewrite size_map eqxx.
- case: Hr => Hz Hh Hr; exact: (run_lab (init_CI _ ns Hz) Hh Hr).
- exact: (v_uw HI).
- split; last exact: (v_fp HI).
  by move=> p Hp; rewrite (fwd_wave _ HI) (bwd_wave _ HI) (port_node HI Hp).
- move=> /(ci_b HC) [Hb _]; have := v_cnt HI; rewrite Hb (v_nc HI) /=; lia.
Qed.

(** ** C11 *)
Lemma thm_C11 z ns h c ps c' : reach z ns h c -> tried (past_of h) = false ->
  connect getpos c ps = (c', Ok tt) ->
  let olds := [seq p <- ps | p \in nodes (net_hist h)] in
  let news := [seq p <- ps | p \notin nodes (net_hist h)] in
  exists k rows, [/\ (size news <= 1)%N,
    mM c' = [seq r ++ nseq k 0 | r <- mM c] ++ rows, size rows = size ps &
    forall w, (forall r, List.In r rows -> row_holds (waves c') r w) <->
      join_law (V_of w) (I_of z w) (olds, if news is p :: _ then Some p else None)].
Proof.
move=> Hr Ht E; have HC := reach_CI Hr; have HI := ci_inv HC.
have [Hb _] := ci_b HC Ht.
have [_ [new [H1 H2 H3]]] := connect_full HI Hb E.
exists (2 * size [seq p <- ps | p \notin nodes (net_hist h)])%N, new; split=> //.
- rewrite leqNgt; apply/negP => Hs; move: E; rewrite /connect.
  have -> : newports c ps = [seq p <- ps | p \notin nodes (net_hist h)].
    by apply: eq_filter => p; rewrite (fwd_wave _ HI).
  by rewrite Hs.
- by move=> w; rewrite H3 (ci_z HC).
Qed.

End Thm.

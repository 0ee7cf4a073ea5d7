(** The order of the external ports. *)
From mathcomp Require Import all_ssreflect all_algebra.
From mathcomp Require Import zify.
From Coq Require Import String Ascii.
From Coq Require List.
From Verif Require Import Base MxLib ConvModel ConvSpec ConvProofs ConvArr CircModel CircSpec CircLib CircInv CircTerm CircApp CircConn CircAdd CircDe CircFill CircSolve CircExt CircHist CircGet CircMain.
Set Implicit Arguments.
Unset Strict Implicit.
Unset Printing Implicit Defensive.
Import GRing.Theory Num.Theory.
Local Open Scope ring_scope.
Local Open Scope seq_scope.

Section Ord.
Variable C : numClosedFieldType.
Variables F Fl : eqType.
Variable K : vcls C F Fl.
Variable nan : C.
Variable getpos : circ K -> string -> res C.
Notation circ := (circ K).
Notation net := (net K).
Notation op := (op K).
Implicit Types (c : circ) (N : net).

(** ports created by a call, in the order of their creation *)
Definition makes N (o : op) : seq string :=
  match o with
  | OAdd nm ob pa _ =>
    if nm \in dkeys (nblk N) then [::]
    else if resolve_ports (osize ob) (oports ob) pa is Ok ps then [seq dot nm p | p <- ps] else [::]
  | OConnect ps => [seq p <- ps | p \notin nodes N]
  | ODeembed ints _ => map snd ints
  | _ => [::]
  end.
Fixpoint made_from N (h : seq (event K)) : seq string :=
  if h is e :: h' then makes N e.1 ++ made_from (net_step N e.1) h' else [::].
Definition made (h : seq (event K)) : seq string := made_from (net0 K) h.

Definition base_order (ns L : seq string) := if ns is [::] then L else ns.

Record OI ns c N (g : past F Fl) (L : seq string) : Prop := {
  oi_pn : pn c = PGiven ns \/
     [/\ pn c = PAlias, uniq (base_order ns L) & subseq (ports c) (base_order ns L)];
  oi_t : tried g = false -> pn c = PGiven ns;
  oi_L : perm_eq L (nodes N);
  oi_s : pn c = PGiven ns -> subseq (ports c) L }.

Definition pnsub c c' (l : seq string) := pn c' = pn c /\ subseq (ports c') (ports c ++ l).

Lemma pnsub_refl c : pnsub c c [::]. Proof. by split; rewrite ?cats0. Qed.
Lemma pnsub_trans c1 c2 c3 l1 l2 : pnsub c1 c2 l1 -> pnsub c2 c3 l2 -> pnsub c1 c3 (l1 ++ l2).
Proof.
case=> E1 H1 [E2 H2]; split; first by rewrite E2.
apply: subseq_trans H2 _; rewrite catA; exact: cat_subseq.
Qed.

Lemma lpop_subseq (T : eqType) (s : seq T) k t : lpop s k = Ok t -> subseq t s.
Proof.
rewrite /lpop; case: ifP => // _ [<-]; rewrite -[X in subseq _ X](cat_take_drop k s).
apply: cat_subseq => //; rewrite -addn1 addnC -drop_drop.
by rewrite -[X in subseq _ X](cat_take_drop 1 (drop k s)); exact: suffix_subseq.
Qed.

Lemma pnsub_consume c p : pnsub c (consume c p).1 [::].
Proof.
rewrite /consume; case: (lindex _ _) => [k|e] /=; last exact: pnsub_refl.
case E: (lpop _ _) => [ps|e] /=; last exact: pnsub_refl.
by case: (lpop (xpos c) k) => [xs|e] /=; split=> //=; rewrite cats0; exact: lpop_subseq E.
Qed.

Lemma pnsub_loop (A : Type) (step : circ -> A -> circ * res unit) (h : A -> seq string) c xs :
  (forall c x u, (step c x).2 = Ok u -> pnsub c (step c x).1 (h x)) ->
  forall u, (loop step c xs).2 = Ok u -> pnsub c (loop step c xs).1 (flatten (map h xs)).
Proof.
move=> H; elim: xs c => [|x xs IH] c u /=; first by move=> _; exact: pnsub_refl.
have := H c x; case: (step c x) => c1 [v|e] //= /(_ v erefl) H1 Hl.
exact: (pnsub_trans H1 (IH c1 u Hl)).
Qed.

Lemma add_order c nm o pa x c' : addblock nan c nm o pa x = (c', Ok tt) ->
  nm \notin dkeys (blocks c) -> exists2 ps, resolve_ports (osize o) (oports o) pa = Ok ps &
    pnsub c c' [seq dot nm p | p <- ps].
Proof.
rewrite /addblock; case: ifP => // _ /=; case E: (dget _ _) => [b|].
  by rewrite (dget_keys E).
rewrite /addblock_new; case: (resolve_ports _ _ _) => // ps [<-] _.
by exists ps.
Qed.

Lemma add_old c nm o pa x c' : addblock nan c nm o pa x = (c', Ok tt) ->
  nm \in dkeys (blocks c) -> ports c' = ports c /\ pn c' = pn c.
Proof.
rewrite /addblock; case: ifP => // _ /=; case E: (dget _ _) => [b|]; last by move/dget_None: E => /negbTE ->.
by case: ifP => // _ [<-].
Qed.

Lemma connect_order c ps c' : connect getpos c ps = (c', Ok tt) -> pnsub c c' (newports c ps).
Proof.
rewrite /connect; case: ifP => // _; case: ifP => // _.
set olds := oldports c ps; set nw := newports c ps.
have H1 := @pnsub_loop _ (fun c p => connect_new getpos c olds p) (fun p => [:: p]) c nw.
have {}H1 u : (loop (fun c p => connect_new getpos c olds p) c nw).2 = Ok u ->
  pnsub c (loop (fun c p => connect_new getpos c olds p) c nw).1 nw.
  move=> /H1; rewrite flatten_seq1; apply=> d p v; rewrite /connect_new; case: (olds) => // o l.
  by case: (getpos _ _) => //.
case: (loop _ c nw) H1 => c1 [u|e] //= /(_ u erefl) H1.
case: (mapM _ ps) => // iAs; case: (mapM _ ps) => // iBs.
set xs := [seq p <- ps | p \notin nw].
have H2 := @pnsub_loop _ (@consume C F Fl K) (fun=> [::]) c1 xs (fun d p _ _ => pnsub_consume d p).
case: (loop _ c1 xs) H2 => c2 [u'|e] //= /(_ u' erefl) H2 [<-].
have E : flatten [seq [::] | _ <- xs] = [::] :> seq string by elim: (xs).
rewrite E in H2; rewrite -[nw]cats0; exact: pnsub_trans H1 H2.
Qed.

Lemma term_order c p kw c' : terminate c p kw = (c', Ok tt) -> pnsub c c' [::].
Proof.
rewrite /terminate; case: (rho_of _ _) => // rho.
case: (dget (dT c) p) => [[[iA iB] e]|]; first by case=> <-; exact: pnsub_refl.
case: (dget (dE c) p) => [e|].
  case: (lindex _ _) => // iA; case: (lindex _ _) => // iB.
  set c1 := with_dicts _ _ _ _; have := pnsub_consume c1 p.
  by case: (consume c1 p) => c2 [u|e'] //= H [<-].
have := pnsub_consume c p; case: (consume c p) => c2 [u|e] //= H.
by case: (lindex _ _) => // iA; case: (lindex _ _) => // iB [<-].
Qed.

Lemma pnsub_drop c p u : (drop_port c p).2 = Ok u -> pnsub c (drop_port c p).1 [::].
Proof.
rewrite /drop_port; case: (lindex _ _) => //= k; case E: (lpop _ _) => //= _.
by split=> //=; rewrite cats0; exact: lpop_subseq E.
Qed.

Lemma deembed_order c ints exts c' : deembed c ints exts = (c', Ok tt) ->
  pnsub c c' (map snd ints).
Proof.
rewrite /deembed; set c1 := with_M _ _ _ _.
have H1 := @pnsub_loop _ (@deembed_int C F Fl K) (fun d => [:: d.2]) c1 ints.
have {}H1 u : (loop (@deembed_int C F Fl K) c1 ints).2 = Ok u ->
   pnsub c1 (loop (@deembed_int C F Fl K) c1 ints).1 (map snd ints).
  have -> : map snd ints = flatten [seq [:: d.2] | d <- ints] by elim: (ints) => //= d l ->.
  apply: H1 => d [dp ip] v; rewrite /deembed_int; case: ifP => // _; case: ifP => // _.
  case: (lindex _ _) => // iA; case: (lindex _ _) => // iB.
  set d2 := with_M _ _ _ _ => /pnsub_drop H; rewrite -[[:: _]]cats0.
  by apply: pnsub_trans H.
case: (loop _ c1 ints) H1 => c2 [u|e] //= /(_ u erefl) H1 H.
have := @pnsub_loop _ (@deembed_ext C F Fl K) (fun=> [::]) c2 exts; rewrite H /=.
have E : flatten [seq [::] | _ <- exts] = [::] :> seq string by elim: (exts).
rewrite E => H2; rewrite -[map snd ints]cats0; apply: (pnsub_trans (c2 := c2)) => //.
apply: (H2 _ tt) => // d [dp ep] v; rewrite /deembed_ext; case: ifP => // _; case: ifP => // _.
case: (lindex _ _) => // iA; case: (lindex _ _) => // iB; case: (lindex _ _) => // iC; case: (lindex _ _) => // iD.
set d1 := with_M _ _ _ _; case E1: (drop_port d1 dp) => [d2 [u1|e]] //= /pnsub_drop H3.
have := @pnsub_drop d1 dp u1; rewrite E1 => /(_ erefl) /= H4.
exact: (pnsub_trans H4 H3).
Qed.

(** nodes of the next network *)
Lemma nodes_step z c N g o ok c' : CI z c N g -> ev_ok N g (o, ok) ->
  exec nan getpos c o = (c', ok) -> perm_eq (nodes (net_step N o)) (nodes N ++ makes N o).
Proof.
move=> HC; case: o => [nm ob pa x|ps|p kw|ints exts|f z' fl] /=.
- case=> -> Ho Hnew; case E: (addblock _ _ _ _ _ _) => [c1 [[]|//]] /= _.
  case Ed: (dget (nblk N) nm) => [[ps o]|].
    rewrite (dget_keys Ed) cats0 /nodes /=; rewrite (nodes_dset _ Ed) //.
  move/dget_None: Ed => Hn; rewrite (negbTE Hn).
  case Er: (resolve_ports _ _ _) => [ps|e]; last by rewrite cats0.
  rewrite /nodes /= map_cat flatten_cat /= cats0 -!catA perm_cat2l.
  by rewrite perm_catC -!catA perm_cat2l.
- case=> -> Ht; case E: (connect _ _ _) => [c1 [[]|//]] /= _.
  have Hw p : (fwd p \in waves c) = (p \in nodes N) by exact: (fwd_wave _ (ci_inv HC)).
  have Hs : (size [seq p <- ps | p \notin nodes N] <= 1)%N.
    move: E; rewrite /connect; case: ifP => // Hs _; rewrite leqNgt.
    by apply/negbT; rewrite -[RHS]Hs /newports; congr (1 < size _)%N; apply: eq_filter => p; rewrite Hw.
  rewrite /nodes /news /= pmap_cat /= -!catA perm_cat2l perm_cat2l perm_catC.
  rewrite perm_cat2l; by case: [seq p <- ps | _] Hs => [|q [|]].
- move=> _ _; rewrite cats0 //.
- by move=> _ _; rewrite /nodes /= map_cat -!catA.
- by move=> _ _; rewrite cats0.
Qed.

Lemma step_OI ns z c N g o ok c' L : CI z c N g -> ev_ok N g (o, ok) ->
  exec nan getpos c o = (c', ok) -> OI ns c N g L ->
  OI ns c' (net_step N o) (past_step N g (o, ok)) (L ++ makes N o).
Proof.
move=> HC Hev Hex HO; have Hn := nodes_step HC Hev Hex.
have HL' : perm_eq (L ++ makes N o) (nodes (net_step N o)).
  by rewrite perm_sym (perm_trans Hn) // perm_cat2r perm_sym (oi_L HO).
have HI := ci_inv HC.
have HuL : uniq L by rewrite (perm_uniq (oi_L HO)) (v_un HI).
(* the calls before the first getS *)
have Hbuild : tried g = false -> pnsub c c' (makes N o) -> past_step N g (o, ok) = g \/ tried (past_step N g (o, ok)) = false ->
  OI ns c' (net_step N o) (past_step N g (o, ok)) (L ++ makes N o).
  move=> Ht [E1 H1] Hg; have Ep := oi_t HO Ht; split=> //; try by rewrite E1 Ep; auto.
  move=> _; apply: subseq_trans H1 _; rewrite cat_subseq //; exact: (oi_s HO Ep).
have Hkeep : makes N o = [::] -> tried (past_step N g (o, ok)) = tried g -> pnsub c c' [::] ->
  OI ns c' (net_step N o) (past_step N g (o, ok)) (L ++ makes N o).
  rewrite /pnsub; move=> E Et [E1]; move: HL'; rewrite E !cats0 => HL' H1; split=> //.
  - rewrite E1; case: (oi_pn HO) => [|[H2 H3 H4]]; [by left|right]; split=> //.
    exact: subseq_trans H1 H4.
  - by rewrite Et E1; exact: (oi_t HO).
  - rewrite E1 => /(oi_s HO) H2; exact: subseq_trans H1 H2.
case: o Hev Hex Hn HL' Hbuild Hkeep => [nm ob pa x|ps|p kw|ints exts|f z' fl] Hev Hex Hn HL' Hbuild Hkeep.
- have [Eok Ho Hnew] := Hev; rewrite /exec Eok in Hex; rewrite Eok in Hbuild Hkeep *.
  case E: (addblock _ _ _ _ _ _) Hex => [c1 [[]|//]] [Ec].
  have [Hin|Hin] : nm \in dkeys (nblk N) \/ (nm \in dkeys (nblk N)) = false by case: (nm \in _); auto.
    apply: Hkeep; rewrite /makes ?Hin //; rewrite -Ec.
    have [|E1 E2] := add_old E; first by rewrite (blk_keys HI).
    by split; rewrite ?cats0 ?E1.
  case: Hnew => [|[Ht _]]; first by rewrite Hin.
  apply: Hbuild => //; rewrite /makes ?Hin; last by right.
  have [|ps -> H] := add_order E; first by rewrite (blk_keys HI) Hin.
  by rewrite -Ec.
- have [Eok Ht] := Hev; rewrite /exec Eok in Hex; rewrite Eok in Hbuild Hkeep *.
  case E: (connect _ _ _) Hex => [c1 [[]|//]] [Ec].
  apply: Hbuild => //; last by left.
  have := connect_order E; rewrite -Ec /newports /makes.
  by under eq_filter do rewrite (fwd_wave _ HI).
- have Eok : ok by []. 
  rewrite /exec Eok in Hex; rewrite Eok in Hbuild Hkeep *.
  case E: (terminate _ _ _) Hex => [c1 [[]|//]] [Ec].
  by apply: Hkeep => //; rewrite -Ec; exact: term_order E.
- have [Eok Ht _ _] := Hev; rewrite /exec Eok in Hex; rewrite Eok in Hbuild Hkeep *.
  case E: (deembed _ _ _) Hex => [c1 [[]|//]] [Ec].
  apply: Hbuild => //; last by left.
  by rewrite -Ec; exact: deembed_order E.
- move: Hex => /=; case E: (get1S _ _ _ _ _) => [c1 r] /= [Ec Er].
  have [HC1 Hp1 Hor _] := get1S_CI HC Hev E; rewrite Ec in HC1 Hp1 Hor.
  rewrite cats0; case: Hor => -[E1 E2].
    split=> //; rewrite ?E1 ?E2.
    + exact: (oi_pn HO).
    + by case: (ok).
    + by rewrite cats0 in HL'.
    + exact: (oi_s HO).
  have Hus := v_up (ci_inv HC1).
  split=> //; [right; split=> //| | |].
  + move: E1; rewrite /order; case: (oi_pn HO) => [->|[-> H1 H2]] //.
    by rewrite /base_order; case: (ns) => [|n l] // <-.
  + rewrite E1 /order; case: (oi_pn HO) => [Ep|[-> H1 H2]] //; rewrite Ep.
    by have := oi_s HO Ep; rewrite /base_order; case: (ns).
  + by case: (ok).
  + by rewrite cats0 in HL'.
  + by rewrite E2.
Qed.

Lemma run_OI ns z c N g h c' L : CI z c N g -> hist_ok_from N g h -> run nan getpos c h = Some c' ->
  OI ns c N g L ->
  OI ns c' (foldl (@net_step C F Fl K) N (map fst h)) (past_from N g h) (L ++ made_from N h).
Proof.
elim: h c N g L => [|[o ok] h IH] c N g L HC /=; first by move=> _ [<-]; rewrite cats0.
case=> H1 H2; case E: (exec _ _ _ _) => [c1 ok1] /=; case: eqP => // Eok Hr HO.
rewrite Eok in E; rewrite catA.
exact: IH (step_CI HC H1 E) H2 Hr (step_OI HC H1 E HO).
Qed.

Lemma init_OI ns z : OI ns (new_circ K z ns) (net0 K) (past0 F Fl) [::].
Proof. by split=> //; left. Qed.

(** the ports, in order *)
Lemma OI_ports ns z c N g L : CI z c N g -> OI ns c N g L ->
  ports c = [seq p <- (if pn c is PGiven _ then L else base_order ns L) | free N p].
Proof.
move=> HC HO; have HI := ci_inv HC.
have HuL : uniq L by rewrite (perm_uniq (oi_L HO)) (v_un HI).
have [s [Es Hu Hs]] : exists s, [/\ s = (if pn c is PGiven _ then L else base_order ns L), uniq s & subseq (ports c) s].
  case: (oi_pn HO) => [E|[E H1 H2]]; first by exists L; rewrite E //; split=> //; exact: (oi_s HO E).
  by exists (base_order ns L); rewrite ?E.
rewrite -Es; have /(subseq_uniqP Hu) {1}-> := Hs.
by apply: eq_filter => p; exact: (v_fp HI).
Qed.

End Ord.

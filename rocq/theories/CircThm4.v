(** Solution: C22, C23. *)
From mathcomp Require Import all_ssreflect all_algebra.
From mathcomp Require Import zify.
From mathcomp.algebra_tactics Require Import ring.
From Coq Require Import String Ascii Permutation.
From Coq Require List.
From Verif Require Import Base MxLib ConvModel ConvSpec ConvProofs ConvArr CircModel CircSpec CircLib CircInv CircTerm CircApp CircConn CircAdd CircDe CircFill CircSolve CircExt CircHist CircGet CircMain CircOrd CircThm CircThm2 CircThm3.
Set Implicit Arguments.
Unset Strict Implicit.
Unset Printing Implicit Defensive.
Import GRing.Theory Num.Theory.
Local Open Scope ring_scope.
Local Open Scope seq_scope.

Section Thm4.
Variable C : numClosedFieldType.
Variables F Fl : eqType.
Variable K : vcls C F Fl.
Variable nan : C.
Variable getpos : circ K -> string -> res C.
Notation circ := (circ K).
Notation net := (net K).
Notation op := (op K).
Notation reach := (reach nan getpos).
Implicit Types (c : circ) (N : net) (h : seq (event K)).

Lemma fwd_node_fwd p : fwd_node (fwd p) = Some p.
Proof. by []. Qed.
Lemma fwd_node_bwd p : fwd_node (bwd p) = None.
Proof. by []. Qed.

Lemma fwd_nodeP s p : fwd_node s = Some p -> s = fwd p.
Proof.
rewrite /fwd_node; case: s => [|a [|b n]] //; case: ifP => // /andP[/eqP -> /eqP ->] [<-].
by [].
Qed.

(** what the solver computes: the network's unique solution *)
Lemma sol_vec_ok z c N g f E z' fl always c' S : CI z c N g ->
  ~~ (reterm g && ((f, fl) \in asked g)) ->
  let zz := if z' == 0 then z else z' in
  {subset ports c <= dkeys E} ->
  get1S f zz [::] fl c = (c', Ok S) ->
  let e j := if dget E (nth "" (ports c) j) is Some x then x else 0 in
  exists sol (v i : asg C), [/\ sol_vec always f E z' fl c = (c', Ok (zz, sol)),
    sat z N f fl v i,
    (forall j, (j < size (ports c))%N -> let q := nth "" (ports c') j in
       (v q + zz * i q) / 2%:R = e j /\
       (v q - zz * i q) / 2%:R = \sum_(l < size (ports c)) nth 0 (nth [::] S j) l * e l) &
    forall p, p \in nodes N ->
      nth 0 sol (seq.index (fwd p) (waves c')) + nth 0 sol (seq.index (bwd p) (waves c')) = v p /\
      (nth 0 sol (seq.index (fwd p) (waves c')) - nth 0 sol (seq.index (bwd p) (waves c'))) / z = i p].
Proof.
move=> HC Hok zz HE G e; have HI := ci_inv HC; have Ez := ci_z HC.
have Hz : z != 0 by rewrite -Ez (v_zb HI).
have Hzz : zz != 0 by rewrite /zz; case: ifP => // /negbT.
have H2 : 2%:R != 0 :> C by rewrite pnatr_eq0.
have [D Hp _ [HS [_ Hsol] Hne [Eord _] [S0 [iM [E1 E2 E3 E4 E5]]]]] := get1S_CI HC Hok G.
have HI' := ci_inv D; have Ez' := ci_z D.
have Esz : size (ports c') = size (ports c).
  by apply: perm_size; apply: uniq_perm => //; [exact: (v_up HI')|exact: (v_up HI)].
have Ezr : zreq zz z = zz by rewrite /zreq (negbTE Hzz).
rewrite Ezr in HS; have [/andP[/eqP HSs _] HSr] := HS; rewrite Esz in HSs HSr.
have HEa : mapM (dget_exn E) (ports c) = Ok [seq if dget E p is Some x then x else 0 | p <- ports c].
  elim: (ports c) HE => //= p ps IH HE.
  have : p \in dkeys E by apply: HE; rewrite mem_head.
  rewrite {1}/dget_exn -dhasE /dhas; case: (dget E p) => [x|//] _ /=.
  by rewrite IH // => q Hq; apply: HE; rewrite in_cons Hq orbT.
set Ea := [seq _ | p <- ports c] in HEa.
have HEan j : (j < size (ports c))%N -> nth 0 Ea j = e j.
  by move=> Hj; rewrite /Ea (nth_map "").
have HsEa : size Ea = size (ports c) by rewrite size_map.
pose b j := \sum_(l < size (ports c)) nth 0 (nth [::] S j) l * e l.
have HEb j : (j < size (ports c))%N -> nth 0 (mat_vec S Ea) j = b j.
  move=> Hj; rewrite /mat_vec (nth_map [::]) ?HSs // HsEa.
  by apply: eq_bigr => l _; rewrite HEan.
have HsEb : size (mat_vec S Ea) = size (ports c) by rewrite /mat_vec size_map.
set Ei := [seq ((ab.1 + ab.2) + z / zz * (ab.1 - ab.2)) / 2%:R | ab <- zip Ea (mat_vec S Ea)].
have HsEi : size Ei = size (ports c') by rewrite size_map size_zip HsEb HsEa minnn.
have HEi j : (j < size (ports c))%N -> nth 0 Ei j = ((e j + b j) + z * ((e j - b j) / zz)) / 2%:R.
  move=> Hj; rewrite /Ei (nth_map (0, 0)); last by rewrite size_zip HsEb HsEa minnn.
  rewrite nth_zip ?HsEb ?HsEa //= HEan // HEb //.
  by field; rewrite ?Hzz ?H2.
have [Es [w [W1 W2 W3 W4]]] := E4 _ HsEi; rewrite Ez' in W3.
exists (mat_vec iM Es), (Vw w), (Iw z w).
(* the other solution *)
have Hrel : rel_S zz (size (ports c)) S (fun j => e j + b j) (fun j => (e j - b j) / zz).
  by apply/rel_S_waves.
have [v1 [i1 [Hs1 Hv1]]] := iffLR (HSr _ _) Hrel.
pose a (p : string) : C := (v1 p + z * i1 p) / 2%:R.
have [_ Huniq] := Hsol a.
have Hfree p : free N p -> exists2 j, (j < size (ports c))%N & p = nth "" (ports c') j.
  rewrite -(v_fp HI') => Hpp; exists (seq.index p (ports c')); first by rewrite -Esz index_mem.
  by rewrite nth_index.
have Hw p : (Vw w p + z * Iw z w p) / 2%:R = w (fwd p).
  by rewrite /Vw /Iw; field; rewrite ?Hz ?H2.
have Hsame p : p \in nodes N -> Vw w p = v1 p /\ Iw z w p = i1 p.
  apply: (Huniq _ _ _ _ W3 Hs1) => // q /Hfree [j Hj ->].
  have [Ev Ei'] := Hv1 j Hj.
  by rewrite Hw W4 ?Esz // HEi // /a Ev Ei'.
split=> //.
- rewrite /sol_vec Ez -/zz HEa G /=; rewrite HSs HsEa eqxx /= Ez' -/Ei W1 E3 /= E2 eqxx andbF /=.
  by rewrite E3.
- move=> j Hj q; have [Ev Ei'] := Hv1 j Hj.
  have Hq : q \in nodes N by apply: (port_node HI'); apply: mem_nth; rewrite Esz.
  have [-> ->] := Hsame q Hq; rewrite Ev Ei' -/(b j).
  by split; field; rewrite ?Hzz ?H2.
- move=> p Hpn; rewrite !W2 ?(fwd_wave _ HI') ?(bwd_wave _ HI') //.
Qed.

Lemma thm_C22_gen z ns h c f E z' fl c' S : reach z ns h c -> may_ask h f fl ->
  let zz := if z' == 0 then z else z' in
  {subset ports c <= dkeys E} ->
  get1S f zz [::] fl c = (c', Ok S) ->
  let e j := if dget E (nth "" (ports c) j) is Some x then x else 0 in
  exists res (v i : asg C), [/\ Solution1 f E z' fl c = (c', Ok res),
    sat z (net_hist h) f fl v i,
    (forall j, (j < size (ports c))%N -> let q := nth "" (ports c') j in
       (v q + zz * i q) / 2%:R = e j /\
       (v q - zz * i q) / 2%:R = \sum_(l < size (ports c)) nth 0 (nth [::] S j) l * e l),
    dkeys res =i nodes (net_hist h) /\ uniq (dkeys res) &
    forall p x, List.In (p, x) res ->
      x = (v p, i p, (v p + zz * i p) / 2%:R, (v p - zz * i p) / 2%:R)].
Proof.
move=> Hr Hm zz HE G e; have HC := reach_CI Hr; have [Hz _ _] := Hr.
have [sol [v [i [H1 H2 H3 H4]]]] := sol_vec_ok false HC Hm HE G.
have [D _ _ _] := get1S_CI HC Hm G; have HI' := ci_inv D; have Ez' := ci_z D.
set N := net_hist h in HC D HI' H2 H4 *.
pose tup p := (v p, i p, (v p + zz * i p) / 2%:R, (v p - zz * i p) / 2%:R).
exists [seq (p, tup p) | p <- pmap fwd_node (waves c')], v, i.
have Hkeys : dkeys [seq (p, tup p) | p <- pmap fwd_node (waves c')] = pmap fwd_node (waves c').
  by rewrite /dkeys -map_comp -[RHS]map_id; apply: eq_map.
split=> //; last first.
- by move=> p x /List.in_map_iff [q [[<- <-]]].
- rewrite Hkeys; split.
    move=> p; rewrite mem_pmap -(fwd_wave _ HI'); apply/mapP/idP => [[s Hs Es]|Hp].
      by rewrite -(fwd_nodeP (esym Es)).
    by exists (fwd p).
  apply: (pmap_uniq (g := fwd)) (v_uw HI') => s; rewrite /ocancel.
  by case E1: (fwd_node s) => [p|//] /=; rewrite (fwd_nodeP E1).
rewrite /Solution1 H1 /= Ez'; congr (_, _).
have Hsub : forall s, s \in waves c' -> forall p, fwd_node s = Some p -> p \in nodes N.
  by move=> s Hs p /fwd_nodeP Es; rewrite -(fwd_wave _ HI') -Es.
have : forall k (ws : seq string), drop k (waves c') = ws ->
  mapM (fun kw : nat * string =>
          do kr <- lindex (waves c') (bwd kw.2);
          let V := nth 0 sol kw.1 + nth 0 sol kr in
          let I := (nth 0 sol kw.1 - nth 0 sol kr) / z in
          Ok (kw.2, (V, I, (V + zz * I) / 2%:R, (V - zz * I) / 2%:R)))
     (pmap (fun kw => omap (pair kw.1) (fwd_node kw.2)) (zip (iota k (size ws)) ws)) =
  Ok [seq (p, tup p) | p <- pmap fwd_node ws].
  move=> k ws; elim: ws k => //= s ws IH k Ek.
  have Hk : (k < size (waves c'))%N.
    by rewrite ltnNge; apply/negP => Hk; rewrite drop_oversize in Ek.
  have [Es Ews] : nth "" (waves c') k = s /\ drop k.+1 (waves c') = ws.
    by move: Ek; rewrite (drop_nth "") // => -[].
  case En: (fwd_node s) => [p|] /=; last exact: IH.
  have Hs : s \in waves c' by rewrite -Es mem_nth.
  have Hp := Hsub s Hs p En.
  rewrite lindex_in ?(bwd_wave _ HI') //= IH //=.
  have Eix : seq.index (fwd p) (waves c') = k.
    by rewrite -(fwd_nodeP En) -Es index_uniq // (v_uw HI').
  have := H4 p Hp; rewrite Eix => -[-> ->]; by [].
by move/(_ 0%N (waves c')); rewrite drop0; apply.
Qed.

(** the ports are in their final order *)
Definition settled c := pn c = PAlias \/ pn c = PGiven [::] \/ pn c = PGiven (ports c).

Lemma settled_order c : settled c -> order c = ports c.
Proof.
rewrite /order; case=> [->|[->|->]] //.
by case: (ports c).
Qed.

Lemma step_alias z c N g o ok c' : CI z c N g -> ev_ok N g (o, ok) ->
  exec nan getpos c o = (c', ok) -> pn c = PAlias -> pn c' = PAlias.
Proof.
move=> HC He Hx Hp; case: o He Hx => [nm ob pa x|ps|p kw|ints exts|f z' fl]; rewrite /exec /ev_ok.
- case=> -> _ _; case E: (addblock _ _ _ _ _ _) => [c1 [[]|e]] //= [<-].
  have [Hn|Hn] : nm \in dkeys (blocks c) \/ (nm \in dkeys (blocks c)) = false by case: (_ \in _); auto.
    by have [_ ->] := add_old E Hn.
  by have [|ps _ [-> _]] := add_order E; rewrite ?Hn.
- case=> -> _; case E: (connect _ _ _) => [c1 [[]|e]] //= [<-].
  by have [-> _] := connect_order E.
- move=> ->; case E: (terminate _ _ _) => [c1 [[]|e]] //= [<-].
  by have [-> _] := term_order E.
- case=> -> _ _ _; case E: (deembed _ _ _) => [c1 [[]|e]] //= [<-].
  by have [-> _] := deembed_order E.
- move=> Hm; case E: (get1S _ _ _ _ _) => [c1 r] /= [<- _].
  by have [_ _ [[_ ->]|[_ ->]] _] := get1S_CI HC Hm E.
Qed.

Lemma run_alias z c N g h c' : CI z c N g -> hist_ok_from N g h -> run nan getpos c h = Some c' ->
  pn c = PAlias -> pn c' = PAlias.
Proof.
elim: h c N g => [|[o ok] h IH] c N g HC /=; first by move=> _ [<-].
case=> H1 H2; case E: (exec _ _ _ _) => [c1 ok1] /=; case: eqP => // Eok Hr Hp.
rewrite Eok in E; exact: IH (step_CI HC H1 E) H2 Hr (step_alias HC H1 E Hp).
Qed.

(** the order of the ports was fixed before: no Portnames, or getS returned already *)
Definition order_known (ns : seq string) h : Prop :=
  ns = [::] \/ exists a f0 z0 fl0 b, h = a ++ (@OGetS C F Fl K f0 z0 fl0, true) :: b.

Lemma reach_settled z ns h c : reach z ns h c -> order_known ns h -> settled c.
Proof.
move=> Hr [E|[a [f0 [z0 [fl0 [b Eh]]]]]].
  by rewrite /settled; case: (oi_pn (reach_OI Hr)) => [->|[-> _ _]]; rewrite ?E; [right; left|left].
left; case: Hr; rewrite Eh /hist_ok => Hz /hist_ok_cat [Ha [Hg Hb]].
rewrite run_cat; case Era: (run nan getpos _ a) => [c1|//].
have HC1 : CI z c1 (net_hist a) (past_of a) by apply: reach_CI; split; eauto.
rewrite [run _ _ _ _]/=; case E: (get1S f0 z0 [::] fl0 c1) => [c2 [S|e]] //=.
have [HC2 _ _ [_ _ _ [_ Hal] _]] := get1S_CI HC1 Hg E.
by move/(run_alias HC2 Hb)/(_ Hal).
Qed.

Lemma thm_C22 z ns h c f E z' fl c' S : reach z ns h c -> may_ask h f fl ->
  order_known ns h ->
  let zz := if z' == 0 then z else z' in
  {subset ports c <= dkeys E} ->
  get1S f zz [::] fl c = (c', Ok S) ->
  exists res (v i : asg C), [/\ Solution1 f E z' fl c = (c', Ok res),
    sat z (net_hist h) f fl v i,
    (forall p, free (net_hist h) p -> dget E p = Some ((v p + zz * i p) / 2%:R)) /\
    (forall p, free (net_hist h) p -> (v p - zz * i p) / 2%:R =
       \sum_(q <- ports c') entry (ports c') S p q * ((v q + zz * i q) / 2%:R)),
    dkeys res =i nodes (net_hist h) /\ uniq (dkeys res) &
    forall p x, List.In (p, x) res ->
      x = (v p, i p, (v p + zz * i p) / 2%:R, (v p - zz * i p) / 2%:R)].
Proof.
move=> Hr Hm Ho zz HE G; have HC := reach_CI Hr; have HI := ci_inv HC.
have [res [v [i [H1 H2 H3 H4 H5]]]] := thm_C22_gen Hr Hm HE G.
have [D _ _ [_ _ _ [Eo _] _]] := get1S_CI HC Hm G.
have Ep : ports c' = ports c by rewrite Eo (settled_order (reach_settled Hr Ho)).
exists res, v, i; split=> //; rewrite Ep in H3 *.
have Hfree p : free (net_hist h) p -> exists2 j, (j < size (ports c))%N & p = nth "" (ports c) j.
  rewrite -(v_fp HI) => Hpp; exists (seq.index p (ports c)); first by rewrite index_mem.
  by rewrite nth_index.
split=> p /Hfree [j Hj Epj]; have [A B] := H3 j Hj; rewrite Epj.
  rewrite A; have : nth "" (ports c) j \in dkeys E by apply: HE; exact: mem_nth.
  by rewrite -dhasE /dhas; case: (dget _ _).
rewrite B (big_nth "") big_mkord; apply: eq_bigr => l _.
have [-> _] := H3 l (ltn_ord l).
by rewrite /entry !index_uniq // (v_up HI).
Qed.

(** C23: calling Solution again gives the same answer *)
Lemma thm_C23 z ns h c f E z' fl c' r : reach z ns h c -> may_ask h f fl ->
  order_known ns h ->
  let zz := if z' == 0 then z else z' in
  {subset ports c <= dkeys E} ->
  Solution1 f E z' fl c = (c', Ok r) -> Solution1 f E z' fl c' = (c', Ok r).
Proof.
move=> Hr Hm Ho zz HE HS; have HC := reach_CI Hr; have HI := ci_inv HC; have Ez := ci_z HC.
case G: (get1S f zz [::] fl c) => [c1 [S|e]]; last first.
  move: HS; rewrite /Solution1 /sol_vec Ez -/zz.
  by case: (mapM _ _) => // Ea; rewrite G.
have [sol [v [i [H1 H2 H3 H4]]]] := sol_vec_ok false HC Hm HE G.
have Ec : c' = c1 by move: HS; rewrite /Solution1 H1 => -[->].
rewrite Ec in HS *.
have [D Hpp _ [_ _ _ [Eo Hal] [S0 [iM [E1 E2 E3 E4 E5]]]]] := get1S_CI HC Hm G.
have Ep : ports c1 = ports c by rewrite Eo (settled_order (reach_settled Hr Ho)).
have Efl : cfl c1 = Some fl by have [S1 [_ _ ]] := get_cached G.
have G1 : get1S f zz [::] fl c1 = (c1, Ok S).
  by rewrite /get1S E1 E2 Efl !eqxx /= (ci_z D) E5.
have Esv : sol_vec false f E z' fl c1 = sol_vec false f E z' fl c.
  rewrite H1; move: H1; rewrite /sol_vec (ci_z D) Ez -/zz Ep G G1.
  by case: (mapM (dget_exn E) (ports c)).
by rewrite -HS /Solution1 Esv.
Qed.
End Thm4.

(** addblock preserves the representation invariant. *)
From mathcomp Require Import all_ssreflect all_algebra.
From mathcomp Require Import zify.
From mathcomp.algebra_tactics Require Import ring.
From Coq Require Import String Ascii.
From Coq Require List.
From Verif Require Import Base MxLib ConvModel ConvSpec CircModel CircSpec CircLib CircInv CircTerm CircApp CircConn.
Set Implicit Arguments.
Unset Strict Implicit.
Unset Printing Implicit Defensive.
Import GRing.Theory Num.Theory.
Local Open Scope ring_scope.
Local Open Scope seq_scope.

Section Add.
Variable C : numClosedFieldType.
Variables F Fl : eqType.
Variable K : vcls C F Fl.
Variable nan : C.
Notation circ := (circ K).
Notation net := (net K).
Implicit Types (c : circ) (N : net) (w : string -> C) (G : seq (gr C)).

Lemma resolve_size n op pa ops : resolve_ports n op pa = Ok ops -> size ops = n.
Proof.
rewrite /resolve_ports; case: (match op with Some _ => _ | None => _ end) => //= -[l pa'].
case: (match _ with [::] => _ | _ => _ end) => //= l'.
by case: eqP => // E -[<-].
Qed.

Lemma mem_bwds nm ps p : p \in ps -> bwd (dot nm p) \in bwds nm ps.
Proof. exact: (map_f (fun p => bwd (dot nm p))). Qed.

Lemma mem_fwds nm ps p : p \in ps -> fwd (dot nm p) \in fwds nm ps.
Proof. exact: (map_f (fun p => fwd (dot nm p))). Qed.

Lemma render_GS ws nm ps k (x : seq C) : uniq ps -> size x = size ps ->
  (forall s, s \in fwds nm ps ++ bwds nm ps -> s \notin ws) ->
  (k < size ps)%N ->
  render (ws ++ (fwds nm ps ++ bwds nm ps)) (GS nm ps k x) =
  zrow C (size ws) ++ x ++ [seq (if j == k then -1 else 0) | j <- iota 0 (size ps)].
Proof.
move=> Hu Hx Hd Hk; rewrite /render !map_cat; congr cat; last congr cat.
- have -> : zrow C (size ws) = map (fun=> 0) ws by rewrite /zrow; elim: (ws) => //= ? ? ->.
  apply/eq_in_map => s Hs /=.
  case: ifP => [H|_]; first by have := Hd s; rewrite mem_cat H Hs => /(_ isT).
  case: eqP => // E; have := Hd s; rewrite Hs mem_cat E mem_bwds ?mem_nth // orbT.
  by move=> /(_ isT).
- apply: (@eq_from_nth _ 0); first by rewrite !size_map.
  move=> j; rewrite !size_map => Hj; rewrite (nth_map "") ?size_map //.
  rewrite {1}/coef mem_nth ?size_map // index_uniq ?size_map //; exact: uniq_fwds.
- apply: (@eq_from_nth _ 0); first by rewrite !size_map size_iota.
  move=> j; rewrite !size_map => Hj; rewrite (nth_map "") ?size_map //.
  rewrite (nth_map 0%N) ?size_iota // nth_iota // add0n (nth_map "") // {1}/coef bwd_in_fwds.
  rewrite bwd_eq (inj_eq (@dot_inj nm)) nth_uniq //.
Qed.

Lemma Forall2_app_ (A B : Type) (R : A -> B -> Prop) a b x y :
  List.Forall2 R a b -> R x y -> List.Forall2 R (a ++ [:: x]) (b ++ [:: y]).
Proof. by elim=> [|? ? ? ? H1 _ IH] H /=; constructor=> //; exact: IH. Qed.

Lemma addblock_new_inv c N name o pa x c' : Inv c N -> building c -> oinv o ->
  ~~ has_char "."%char name -> dget (nblk N) name = None ->
  (forall ops, resolve_ports (osize o) (oports o) pa = Ok ops -> uniq ops) ->
  addblock_new nan c name o pa x = (c', Ok tt) ->
  Inv c' (net_step N (OAdd name o pa x)) /\ building c'.
Proof.
move=> HI Hbd Ho Hnm Hnew Hu; rewrite /addblock_new.
case E: (resolve_ports _ _ _) => [ops|//].
have {}Hu := Hu _ E; have Hsz := resolve_size E.
have Hbn : dget (blocks c) name = None.
  by apply/dget_None; rewrite (blk_keys HI); apply/dget_None.
have [G HG] := v_G HI.
set xs := if oxpos o is Some _ then _ else _.
have Hxs : size xs = size ops.
  rewrite /xs; case Ex: (oxpos o) => [l|]; last by rewrite size_map.
  by rewrite size_map size_zip; apply/minn_idPl; rewrite Hsz; exact: (oinv_xpos Ho Ex).
case=> <-; set c3 := with_ports _ _ _.
have HN' : net_step N (OAdd name o pa x)
  = Net (nblk N ++ [:: (name, (ops, o))]) (njoin N) (nterm N) (ndi N) (nde N).
  by rewrite /= Hnew E.
rewrite HN'; set N' := Net _ _ _ _ _.
set W' := fwds name ops ++ bwds name ops.
have Hfresh p : dot name p \notin nodes N.
  apply/negP => H; have [nm [q [H1 H2]]] := v_dot HI H (dot_has _ _).
  have E1 := dot_name Hnm (v_nb HI H1) H2.
  by move/dget_None: Hnew; rewrite E1 H1.
have Hd s : s \in W' -> s \notin waves c.
  rewrite mem_cat => /orP[] /mapP [p _ ->];
  by rewrite ?(fwd_wave _ HI) ?(bwd_wave _ HI) Hfresh.
have HuW : uniq (waves c ++ W').
  rewrite cat_uniq (v_uw HI) /=; apply/andP; split; first by apply/hasPn => s /Hd.
  rewrite cat_uniq uniq_fwds // uniq_bwds // andbT /=.
  by apply/hasPn => s /mapP [p _ ->]; apply/negP; rewrite /= -[_ \in _]/(bwd (dot name p) \in fwds name ops) bwd_in_fwds.
set G' := [seq GS name ops k (nseq (size ops) nan) | k <- iota 0 (size ops)].
have EG' k : (k < size ops)%N -> nth (g0 C) G' k = GS name ops k (nseq (size ops) nan).
  by move=> Hk; rewrite (nth_map 0%N) ?size_iota // nth_iota.
have HsG' : size G' = size ops by rewrite size_map size_iota.
have EW : waves c3 = waves c ++ W' by [].
have HM : mM c3 = map (render (waves c3)) (G ++ G').
  rewrite EW map_cat /= -Hsz (g_M HG); congr cat.
    have -> : (2 * size ops)%N = size W' by rewrite size_cat !size_map; lia.
    apply: hpad_render => //; exact: (g_supp HG).
  rewrite /G' -map_comp; apply/eq_in_map => k; rewrite mem_iota add0n => /= Hk.
  by rewrite render_GS ?size_nseq // (v_nc HI).
have Hb3 : blocks c3 = blocks c ++ [:: (name, Block ops (size (mM c), nc c) o x)].
  by rewrite /= dset_new //; apply/dget_None.
have Hnod : nodes N' =i nodes N ++ map (dot name) ops.
  move=> q; rewrite /nodes /= map_cat flatten_cat /= cats0 !mem_cat /blk_nodes /=.
  by do !case: (_ \in _).
have Hpn : perm_eq (nodes N') (nodes N ++ map (dot name) ops).
  by rewrite /nodes /= map_cat flatten_cat /= cats0 -!catA perm_cat2l perm_catC catA.
have Hused : used N' = used N by [].
have Hfr' q : q \in map (dot name) ops -> q \notin nodes N.
  by case/mapP => p _ ->; exact: Hfresh.
have HG' : Ginv c3 N' (G ++ G').
  apply: (@ginv_app C F Fl K c N G c3 N' W' G' [:: (name, Block ops (size (mM c), nc c) o x)]) => //.
  - move=> g /In_nth [i]; rewrite HsG' => Hi; rewrite EG' // => <- s.
    rewrite EW mem_cat negb_or => /andP[_]; rewrite mem_cat negb_or => /andP[/negbTE H1 H2] /=.
    rewrite H1; case: eqP => // E1; move: H2; rewrite E1 mem_bwds ?mem_nth //.
  - move=> nm b /=; case: eqP => // -> [<-] _ /=; split.
    + rewrite (v_nc HI) drop_size_cat // take_oversize //.
      by rewrite size_cat !size_map; lia.
    + by rewrite size_cat HsG' (g_M HG) size_map.
    + move=> k Hk; exists (nseq (size ops) nan); first by rewrite size_nseq.
      by rewrite (g_M HG) size_map nth_cat ltnNge leq_addr /= addKn EG'.
  - move=> e nm ps k y; rewrite HsG' => He; rewrite EG' // => -[<- <- <- _].
    eexists; split; [by rewrite Hb3 dget_cat Hbn /= eqxx|by []| |by []].
    by rewrite /= (g_M HG) size_map.
  - by move=> g /In_nth [i]; rewrite HsG' => Hi; rewrite EG' // => <-.
  - move=> w; split=> [[]//|H]; split=> // g /In_nth [i]; rewrite HsG' => Hi.
    by rewrite EG'.
split; last by rewrite /building.
have Eports : ports c3 = ports c ++ map (dot name) ops by [].
split=> //.
- exact: (v_zb HI).
- move=> s; rewrite EW mem_cat (v_mem HI).
  have -> : (s \in map fwd (nodes N') ++ map bwd (nodes N'))
    = (s \in map fwd (nodes N ++ map (dot name) ops) ++ map bwd (nodes N ++ map (dot name) ops)).
    by rewrite !(mem_cat s); congr orb; apply: eq_mem_map.
  rewrite !map_cat !mem_cat -!map_comp /W'.
  by rewrite /fwds /bwds; do !case: (_ \in _).
- rewrite (perm_uniq Hpn) cat_uniq (v_un HI) map_inj_uniq ?Hu ?andbT /=; last exact: dot_inj.
  by apply/hasPn => q /Hfr'.
- move=> p; rewrite Hnod mem_cat => /orP[Hp Hdp|/mapP [q _ ->] _].
    have [nm [q [H1 H2]]] := v_dot HI Hp Hdp; exists nm, q; split=> //.
    by rewrite /= dkeys_cat mem_cat H1.
  by exists name, q; rewrite /= dkeys_cat mem_cat mem_head orbT.
- by rewrite EW size_cat /= (v_nc HI) -Hsz !size_cat !size_map; lia.
- rewrite Hb3; apply: Forall2_app_; first exact: (v_blk HI).
  by split=> //=; rewrite ?Hsz //; split=> //; constructor.
- rewrite /= dkeys_cat cat_uniq (v_ub HI) /= orbF andbT; exact/dget_None.
- move=> nm; rewrite /= dkeys_cat mem_cat inE => /orP[|/eqP -> //]; exact: (v_nb HI).
- rewrite Eports cat_uniq (v_up HI) map_inj_uniq ?Hu ?andbT /=; last exact: dot_inj.
  apply/hasPn => q /Hfr'; by apply: contra => /(port_node HI).
- move=> q; rewrite Eports mem_cat /free Hnod mem_cat (v_fp HI) /free Hused.
  case H: (q \in map _ _); last by rewrite !orbF.
  rewrite !orbT /=; apply/esym; apply: contra (Hfr' _ H); exact: (v_us HI).
- by rewrite Eports !size_cat Hxs size_map leq_add2r (v_xp HI).
- exact: (v_uE HI).
- by left.
- move=> q H; rewrite Hnod mem_cat; apply/orP; left; exact: (v_us HI H).
- exact: (v_uT HI).
- exact: (v_T HI).
- rewrite HM size_map size_cat HsG' Eports size_cat size_map /= -Hsz.
  have := v_cnt HI; rewrite (g_M HG) size_map.
  by move: (size _) (size _) (size _) (size _) (nc c); lia.
- by exists (G ++ G').
Qed.

(** *** replacing a block *)
Lemma ginv_same c N G c' N' : Ginv c N G ->
  zb c' = zb c -> waves c' = waves c -> mM c' = mM c -> dT c' = dT c -> dE c' = dE c ->
  njoin N' = njoin N -> nterm N' = nterm N -> ndi N' = ndi N -> nde N' = nde N ->
  (forall nm, omap (fun b => (bports b, bloc b)) (dget (blocks c') nm)
            = omap (fun b => (bports b, bloc b)) (dget (blocks c) nm)) ->
  Ginv c' N' G.
Proof.
move=> HG Ez Ew EM ET EE Ej Et Ed Ee Eb.
split; rewrite ?Ez ?Ew ?EM ?ET ?EE ?Et //.
- exact: (g_M HG).
- exact: (g_supp HG).
- move=> nm b H; have := Eb nm; rewrite H /=; case H': (dget _ _) => [b'|] //= [E1 E2].
  by have := g_blk HG H'; rewrite E1 E2.
- move=> e nm ps k x He H; have [b [H1 H2 H3 H4]] := g_blk' HG He H.
  have := Eb nm; rewrite H1 /=; case H': (dget _ _) => [b'|] //= [E1 E2].
  by exists b'; rewrite E1 E2.
- exact: (g_T HG).
- exact: (g_T' HG).
- exact: (g_E HG).
- exact: (g_E' HG).
- by move=> w; rewrite (g_K HG) /klaw Ej Ed Ee.
Qed.

Lemma Forall2_dset bs nbs nm b ps o o' bl x : uniq (dkeys nbs) ->
  List.Forall2 (@blk_ok C F Fl K) bs nbs ->
  dget bs nm = Some b -> dget nbs nm = Some (ps, o) -> oinv o' -> osize o' = size ps ->
  forall o2, oeq o' o2 ->
  List.Forall2 (@blk_ok C F Fl K) (dset bs nm (Block (bports b) bl o' x)) (dset nbs nm (ps, o2)).
Proof.
move=> Hu H; elim: H Hu => //= -[n1 b1] [n2 [ps2 o2']] bs' nbs' Hb Hf IH /andP[Hn Hu].
have /= En := (let: And5 E _ _ _ _ := Hb in E).
rewrite -{n2}En in Hb Hn *.
case: (nm =P n1) => [Enm [<-] [<- _] Ho Hs o2 Heq|Hne H1 H2 Ho Hs o2 Heq].
  by constructor=> //; case: Hb => /= _ E2 _ _ [_ Hup]; split.
by constructor=> //; apply: IH.
Qed.

Lemma nodes_dset (nb : seq (string * (seq string * K))) nm ps o o' :
  dget nb nm = Some (ps, o) ->
  map (@blk_nodes _ _ _ K) (dset nb nm (ps, o')) = map (@blk_nodes _ _ _ K) nb.
Proof.
elim: nb => //= -[n1 [ps1 o1]] nb IH /=; case: eqP => [E [<- _]|_ /IH H] //=; by rewrite H.
Qed.

Lemma replace_inv c N name b ps o o1 o2 xp c' : Inv c N -> dget (blocks c) name = Some b ->
  dget (nblk N) name = Some (ps, o) -> oinv o1 -> osize o1 = size ps -> oeq o1 o2 ->
  zb c' = zb c -> waves c' = waves c -> mM c' = mM c -> dT c' = dT c -> dE c' = dE c ->
  nc c' = nc c -> ports c' = ports c -> xpos c' = xpos c -> pn c' = pn c ->
  blocks c' = dset (blocks c) name (Block (bports b) (bloc b) o1 xp) ->
  Inv c' (Net (dset (nblk N) name (ps, o2)) (njoin N) (nterm N) (ndi N) (nde N)).
Proof.
move=> HI Hb Hnb Ho1 Hs Heq Ez Ew EM ET EE En Ep Ex Epn Ebl.
set N' := Net _ _ _ _ _.
have Hnod : nodes N' = nodes N by rewrite /nodes /= (nodes_dset _ Hnb).
have Hk : dkeys (nblk N') = dkeys (nblk N) by rewrite /= dkeys_dset (dget_keys Hnb).
have [G HG] := v_G HI.
split; rewrite ?Ez ?Ew ?EM ?ET ?EE ?En ?Ep ?Ex ?Epn ?Hnod ?Hk //; try by case: HI.
- by rewrite Ebl; apply: (@Forall2_dset _ _ name b ps o o1 (bloc b) xp (v_ub HI) (v_blk HI) Hb Hnb Ho1 Hs o2 Heq).
- by move=> p; rewrite (v_fp HI) /free Hnod.
- exists G; apply: (ginv_same HG) => // nm; rewrite Ebl dget_dset.
  by case: eqP => [->|] //; rewrite Hb.
Qed.

Lemma addblock_inv c N name o pa x c' : Inv c N -> oinv o ->
  (dget (nblk N) name = None -> building c) ->
  (dget (nblk N) name = None ->
     forall ops, resolve_ports (osize o) (oports o) pa = Ok ops -> uniq ops) ->
  addblock nan c name o pa x = (c', Ok tt) ->
  Inv c' (net_step N (OAdd name o pa x)) /\ dE c' = dE c.
Proof.
move=> HI Ho Hbd Hu; rewrite /addblock; case: ifP => // Hdot.
have HIu : Inv (uncache c) N.
  have [G HG] := v_G HI; split; try by case: HI.
  by exists G; apply: (ginv_same HG).
rewrite [blocks (uncache c)]/=; case Hb: (dget (blocks c) name) => [b|].
  have [ps [o0 [Hnb [_ /= Eps _ _ [Hsz Hup]] _]]] := Forall2_dget (v_blk HI) Hb.
  case: eqP => //= Es -[<-]; rewrite Hnb; split=> //.
  have Es' : osize o = size ps by rewrite Es Hsz.
  have Hoo : oeq o o by split=> //; constructor.
  by apply: (@replace_inv c N name b ps o0 o o (bxpos b) _ HI Hb Hnb Ho Es' Hoo).
have Hnb : dget (nblk N) name = None.
  by apply/dget_None; rewrite -(blk_keys HI); apply/dget_None.
move=> H.
have [H1 H2] := addblock_new_inv HIu (Hbd Hnb) Ho (negbT Hdot) Hnb (Hu Hnb) H.
by split=> //; rewrite (Hbd Hnb) H2.
Qed.

End Add.

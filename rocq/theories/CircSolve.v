(** Closing and inverting the equation matrix (extS): the result is the
    scattering matrix of the network. *)
From mathcomp Require Import all_ssreflect all_algebra.
From mathcomp Require Import zify.
From mathcomp.algebra_tactics Require Import ring.
From Coq Require Import String Ascii.
From Coq Require List.
From Verif Require Import Base MxLib ConvModel ConvSpec ConvProofs CircModel CircSpec CircLib CircInv CircTerm CircApp CircConn CircAdd CircFill.
Set Implicit Arguments.
Unset Strict Implicit.
Unset Printing Implicit Defensive.
Import GRing.Theory Num.Theory.
Local Open Scope ring_scope.
Local Open Scope seq_scope.

Section Solve.
Variable C : numClosedFieldType.
Variables F Fl : eqType.
Variable K : vcls C F Fl.
Notation circ := (circ K).
Notation net := (net K).
Implicit Types (c : circ) (N : net) (w : string -> C) (G : seq (gr C)).

(** *** close *)
Lemma close_ports c N ns : Inv c N -> (size ns == size (ports c))%N ->
  all (fun p => p \in ns) (ports c) -> uniq ns /\ ns =i ports c.
Proof.
move=> HI /eqP Hs /allP Ha.
have Hu : uniq ns.
  by apply: (leq_size_uniq (v_up HI)) => //; rewrite Hs.
split=> //; have [_ H] := uniq_min_size (v_up HI) Ha (eq_leq Hs).
by move=> p; rewrite H.
Qed.

Definition GEs (ps : seq string) : seq (gr C) := map (@GE C) ps.

(** the state after the loop over the ports *)
Lemma addE_loopE c ps c' : uniq (waves c) -> nc c = size (waves c) ->
  uniq (dkeys (dE c) ++ ps) ->
  loop (@add_E C F Fl K) c ps = (c', Ok tt) ->
  {subset map fwd ps <= waves c} /\
  exists es, c' = with_dicts (with_M c (nc c) (mM c ++ map (render (waves c)) (GEs ps)) es)
      (dC c) (dT c) (dE c ++ zip ps (iota (size (mM c)) (size ps))).
Proof.
elim: ps c => [|p ps IH] c Hu Hn Hd; rewrite ?loop_cons.
  by case=> <-; split=> //; exists (eqns c); rewrite !cats0; case: (c).
rewrite /add_E /lindex; case: ifP => // Hp /= H.
have Hnew : p \notin dkeys (dE c).
  by move: Hd; rewrite cat_uniq /= negb_or => /and3P[_ /andP[]].
have Hd' : uniq (dkeys (dset (dE c) p (size (mM c))) ++ ps).
  by rewrite dkeys_dset (negbTE Hnew) -cats1 -catA.
have [H1 [es ->]] := IH (with_dicts (with_M c (nc c) (mM c ++ [:: upd (zrow C (nc c)) (seq.index (fwd p) (waves c)) 1])
   (eqns c ++ [:: "E: " +s+ p])) (dC c) (dT c) (dset (dE c) p (size (mM c)))) Hu Hn Hd' H.
split; first by move=> s; rewrite in_cons => /orP[/eqP ->|/H1].
exists es => /=; rewrite -!catA /= size_cat /= addn1 dset_new // -catA /=.
congr (with_dicts (with_M _ _ (_ ++ _ :: _) _) _ _ _).
rewrite Hn zrow_render; by apply: render_upd.
Qed.

Lemma dget_zip (ps : seq string) k p e : uniq ps ->
  dget (zip ps (iota k (size ps))) p = Some e <-> p \in ps /\ e = (k + seq.index p ps)%N.
Proof.
elim: ps k => [|q ps IH] k /=; first by move=> _; split=> // -[].
case/andP=> Hq Hu; rewrite in_cons [q == p]eq_sym; case: eqP => [->|_] /=.
  by rewrite addn0; split=> [[->]|[_ ->]].
by rewrite IH // addSnnS.
Qed.

Lemma dkeys_zip (ps : seq string) k : dkeys (zip ps (iota k (size ps))) = ps.
Proof. by elim: ps k => //= p ps IH k; rewrite IH. Qed.

Definition closed c := [/\ pn c = PAlias, dkeys (dE c) =i ports c & size (mM c) = nc c].

(** the port order chosen by extS *)
Definition order c : seq string := if pn c is PGiven (n :: ns) then n :: ns else ports c.

Lemma with_pn_inv c N p : Inv c N -> building c -> Inv (with_pn c p) N.
Proof.
move=> HI Hb; have [G HG] := v_G HI; split; try by case: HI.
- by left.
- by exists G; apply: (ginv_same HG).
Qed.

Lemma reorder_inv c N ps : Inv c N -> building c -> uniq ps -> ps =i ports c -> Inv (with_ports c ps (xpos c)) N.
Proof.
move=> HI Hb Hu Hm; have Hs : size ps = size (ports c).
  by apply: perm_size; apply: uniq_perm => //; exact: (v_up HI).
have [G HG] := v_G HI; split; try by case: HI.
- by move=> q; rewrite /= Hm (v_fp HI).
- by rewrite /= Hs; exact: (v_xp HI).
- by left.
- by rewrite /= Hs; exact: (v_cnt HI).
- by exists G; apply: (ginv_same HG).
Qed.

(** closing a building circuit whose ports are listed in the final order *)
Lemma goE c N c' : Inv c N -> building c -> pn c = PAlias ->
  loop (@add_E C F Fl K) c (ports c) = (c', Ok tt) ->
  [/\ Inv c' N, waves c' = waves c, zb c' = zb c, blocks c' = blocks c &
   [/\ closed c', ports c' = ports c &
      forall G, Ginv c N G -> Ginv c' N (G ++ GEs (ports c))]].
Proof.
move=> HI Hb Hpn H.
have Hdu : uniq (dkeys (dE c) ++ ports c) by rewrite Hb /= (v_up HI).
have [Hsub [es Ec']] := addE_loopE (v_uw HI) (v_nc HI) Hdu H.
have EE : dE c' = zip (ports c) (iota (size (mM c)) (size (ports c))).
  by rewrite Ec' /= [dE c]Hb.
have Hk : dkeys (dE c') = ports c by rewrite EE dkeys_zip.
have Hcnt : size (mM c') = nc c'.
  rewrite Ec' /= size_cat !size_map; have := v_cnt HI; rewrite Hb /=; lia.
have HGG G : Ginv c N G -> Ginv c' N (G ++ GEs (ports c)).
  move=> HG; set G' := GEs (ports c).
  have HsM : size (mM c) = size G by rewrite (g_M HG) size_map.
  have Hg' k : (k < size (ports c))%N -> nth (g0 C) G' k = GE (nth "" (ports c) k).
    by move=> Hlt; rewrite (nth_map "").
  have HsG' : size G' = size (ports c) by rewrite size_map.
  have Hleft e : (e < size (G ++ G'))%N -> (e < size G)%N \/
     exists2 k, (k < size (ports c))%N & e = (size G + k)%N.
    rewrite size_cat HsG'; case: (ltnP e (size G)) => [|H1 H2]; first by left.
    by right; exists (e - size G)%N; [rewrite ltn_subLR|rewrite subnKC].
  have Hnl e : (e < size G)%N -> nth (g0 C) (G ++ G') e = nth (g0 C) G e.
    by move=> He; rewrite nth_cat He.
  have Hnr e : nth (g0 C) (G ++ G') (size G + e)%N = nth (g0 C) G' e.
    by rewrite nth_cat ltnNge leq_addr /= addKn.
  have Hsz : (size G <= size (G ++ G'))%N by rewrite size_cat leq_addr.
  have HGE g : List.In g G' -> exists2 p, p \in ports c & g = GE p.
    move/In_nth => [k]; rewrite HsG' => Hlt; rewrite Hg' // => <-.
    by exists (nth "" (ports c) k) => //; rewrite mem_nth.
  split; rewrite ?Ec' /=.
  - by rewrite (g_M HG) map_cat.
  - move=> g Hg s Hs; case: (@List.in_app_or _ _ _ _ Hg) => [Hg1|/HGE [p Hp ->]].
      exact: (g_supp HG Hg1).
    rewrite /=; case: eqP => // E; move: Hs; rewrite Hsub // E map_f //.
  - move=> nm b /(g_blk HG) [H1 H2 H3]; split=> //; first exact: leq_trans H2 Hsz.
    move=> k Hlt; have [x Hx E] := H3 k Hlt; exists x => //; rewrite Hnl //.
    by apply: leq_trans H2; rewrite ltn_add2l.
  - move=> e nm ps k x /Hleft [He|[j Hj ->]]; first by rewrite Hnl //; exact: (g_blk' HG).
    by rewrite Hnr Hg'.
  - move=> p iA iB e /(g_T HG) [[H1 H2 H3 H4 He] [r [ld [H5 H6 H7]]]].
    split; first by split=> //; exact: leq_trans He Hsz.
    by exists r, ld; rewrite Hnl.
  - move=> e p rho /Hleft [He|[j Hj ->]]; first by rewrite Hnl //; exact: (g_T' HG).
    by rewrite Hnr Hg'.
  - move=> p e; rewrite [dE c]Hb /= => /(iffLR (dget_zip _ _ _ (v_up HI))) [Hp ->].
    have Hi : (seq.index p (ports c) < size (ports c))%N by rewrite index_mem.
    rewrite HsM Hnr Hg' // nth_index //; split=> //.
    by rewrite size_cat HsG' ltn_add2l.
  - move=> e p /Hleft [He|[j Hj ->]].
      by rewrite Hnl // => E; have := g_E' HG He E; rewrite Hb.
    rewrite Hnr Hg' // => -[<-]; rewrite [dE c]Hb /=; apply/(dget_zip _ _ _ (v_up HI)).
    by rewrite mem_nth // index_uniq // ?(v_up HI) // HsM.
  - move=> w; rewrite -(g_K HG); split=> HH g Hg; apply: HH.
      by apply: List.in_or_app; left.
    by case: (@List.in_app_or _ _ _ _ Hg) => // /HGE [p _].
have [G HG] := v_G HI.
split; try by rewrite Ec'.
- split; try (by rewrite ?Ec'; case: HI).
  + by rewrite Hk (v_up HI).
  + by right; rewrite Hk Ec'.
  + rewrite Hcnt; congr addn; rewrite Ec' /= [dE c]Hb /= size_zip size_iota minnn //.
  + by exists (G ++ GEs (ports c)); exact: HGG.
split=> //; last by rewrite Ec'.
by split=> //; rewrite ?Hk Ec'.
Qed.

Definition fillG f fl c N := exists2 G, Ginv c N G & forall nm, filled1 f fl c G nm.

Lemma close_inv c N c' f fl : Inv c N -> close c = (c', Ok tt) -> fillG f fl c N ->
  [/\ Inv c' N, waves c' = waves c, zb c' = zb c, blocks c' = blocks c &
   [/\ closed c' \/ (dE c' = [::] /\ ports c' = [::]),
      ports c' =i ports c,
      (building c -> ports c' <> [::] -> ports c' = order c),
      (~ building c -> ports c' = ports c) & fillG f fl c' N]].
Proof.
move=> HI; rewrite /close; case: eqP => [Hsq [<-] Hf|Hsq].
  split=> //; split=> //.
  - case: (v_E HI) => [E|[H1 H2]]; last by left.
    right; split=> //; apply: size0nil; have := v_cnt HI; rewrite E Hsq /=; lia.
  - move=> Hb; have := v_cnt HI; rewrite Hb Hsq /= addn0 => H1 H2; case: H2.
    apply: size0nil; lia.
have Hb : building c.
  case: (v_E HI) => // -[H1 H2]; case: Hsq; have := v_cnt HI.
  have -> : size (ports c) = size (dE c); last by lia.
  have -> : size (dE c) = size (dkeys (dE c)) by rewrite size_map.
  by apply/esym/perm_size/uniq_perm => //; [exact: (v_uE HI)|exact: (v_up HI)].
set c0 := with_cache c _ _ _ _.
have HI0 : Inv c0 N.
  have [G HG] := v_G HI; split; try by case: HI.
  by exists G; apply: (ginv_same HG).
have Hfin c1 : Inv c1 N -> building c1 -> pn c1 = PAlias -> mM c1 = mM c -> dT c1 = dT c -> 
   waves c1 = waves c -> zb c1 = zb c -> blocks c1 = blocks c -> ports c1 = order c -> ports c1 =i ports c ->
   loop (@add_E C F Fl K) c1 (ports c1) = (c', Ok tt) -> fillG f fl c N ->
  [/\ Inv c' N, waves c' = waves c, zb c' = zb c, blocks c' = blocks c &
   [/\ closed c' \/ (dE c' = [::] /\ ports c' = [::]),
      ports c' =i ports c,
      (building c -> ports c' <> [::] -> ports c' = order c),
      (~ building c -> ports c' = ports c) & fillG f fl c' N]].
  move=> HI1 Hb1 Hpn1 EM1 ET1 Ew1 Ez1 Ebl1 Eo1 Hm1 Hl [G HG Hfl].
  have [H1 H2 H3 H4 [H5 H6 H7]] := goE HI1 Hb1 Hpn1 Hl.
  split; rewrite ?H2 ?H3 ?H4 //; split; rewrite ?H6 //; first by left.
  have HG1 : Ginv c1 N G.
    apply: (ginv_same HG) => //; first by rewrite Hb.
    by move=> nm; rewrite Ebl1.
  exists (G ++ GEs (ports c1)); first exact: H7.
  move=> nm b; rewrite H4 Ebl1 => Hbl; have [Sm Hg Hr] := Hfl nm b Hbl.
  exists Sm; first by rewrite H3 Ez1.
  move=> k Hk; rewrite nth_cat; have [_ Hlt _] := g_blk HG Hbl.
  have -> : ((bloc b).1 + k < size G)%N; last exact: Hr.
  by apply: leq_trans Hlt; rewrite ltn_add2l.
case Epn: (pn c) => [[|n ns]|] /=.
- by apply: (Hfin (with_pn c0 PAlias)) => //; [apply: with_pn_inv|rewrite /order Epn].
- case: ifP => // /negbFE Hs; case: ifP => // /negbFE Ha.
  have [Hu Hm] := @close_ports c N (n :: ns) HI Hs Ha.
  apply: (Hfin (with_pn (with_ports c0 (n :: ns) (xpos c0)) PAlias)) => //; last by rewrite /order Epn.
  by apply: with_pn_inv => //; apply: reorder_inv.
- by apply: (Hfin c0) => //; rewrite /order Epn.
Qed.

End Solve.

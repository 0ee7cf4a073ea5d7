(** getS: every matrix it returns is the scattering matrix of the network. *)
From mathcomp Require Import all_ssreflect all_algebra.
From mathcomp Require Import zify.
From Coq Require Import String Ascii.
From Coq Require List.
From Verif Require Import Base MxLib ConvModel ConvSpec ConvProofs ConvArr CircModel CircSpec CircLib CircInv CircTerm CircApp CircConn CircAdd CircDe CircFill CircSolve CircExt CircHist.
Set Implicit Arguments.
Unset Strict Implicit.
Unset Printing Implicit Defensive.
Import GRing.Theory Num.Theory.
Local Open Scope ring_scope.
Local Open Scope seq_scope.

(** ** change of reference impedance *)
Section Rebase.
Variable C : numClosedFieldType.

Lemma rel_S_mx (z : C) n (S : rows C) v i :
  rel_S z n S v i <->
  relates "V" (const_mx z) (mx_of n n S) (\col_k v (val k)) (\col_k i (val k)).
Proof.
rewrite /rel_S /relates /wave_a /wave_b /=; split=> H.
  move=> k; rewrite !mxE (H k (ltn_ord k)); apply: eq_bigr => j _; by rewrite !mxE.
move=> k Hk; have := H (Ordinal Hk); rewrite !mxE /= => ->.
by apply: eq_bigr => j _; rewrite !mxE.
Qed.

Lemma mx_of_rows n (A : 'M[C]_n) : mx_of n n (rows_of A) = A.
Proof. by apply/matrixP => i j; rewrite mxE nth_rows_of. Qed.

Definition zreq (z' z : C) : C := if z' == 0 then z else z'.

Lemma rebase_ok (z' z : C) n S S' : z != 0 -> shape_ok n S -> rebase z' z S = Ok S' ->
  shape_ok n S' /\ forall v i, rel_S (zreq z' z) n S' v i <-> rel_S z n S v i.
Proof.
move=> Hz /andP[/eqP HS Hr]; rewrite /rebase /zreq; case: (z' =P 0) => [->|Hz'] /=.
  by case=> <-; rewrite /shape_ok HS eqxx Hr.
case: eqP => [->|_]; first by case=> <-; rewrite /shape_ok HS eqxx Hr.
rewrite HS; case E: (ConvertGeneral _ _ _ _ _) => [r|//] /=.
rewrite ConvertGeneral_matrix // in E; move/rmap_Nd2: E => [S2 [Er E]].
rewrite Er => -[<-]; split; first exact: rows_shape.
move=> v i; rewrite !rel_S_mx mx_of_rows; apply: iff_sym.
apply: (iffLR (convert1_iff _ _ _ _ _ _) E) => //; apply: admV => //.
by apply/eqP.
Qed.

End Rebase.

Section Get.
Variable C : numClosedFieldType.
Variables F Fl : eqType.
Variable K : vcls C F Fl.
Notation circ := (circ K).
Notation net := (net K).
Implicit Types (c : circ) (N : net) (G : seq (gr C)).

(** ** frames *)
Definition caches c := (invM c, cS c, cf c, cfl c).
Definition frame c c' := [/\ dE c' = dE c, pn c' = pn c, ports c' = ports c, waves c' = waves c & zb c' = zb c].

Lemma frame_refl c : frame c c. Proof. by []. Qed.
Lemma frame_trans c1 c2 c3 : frame c1 c2 -> frame c2 c3 -> frame c1 c3.
Proof. by case=> a1 a2 a3 a4 a5 [b1 b2 b3 b4 b5]; split; congruence. Qed.

Lemma fill1_cache f fl prms c nb : caches (fill1 f fl prms c nb).1 = caches c.
Proof.
case: nb => nm b; rewrite /fill1.
set rs := (if dget _ _ is Some _ then _ else _).
case: rs.2 => [u|e]; last case: e; rewrite //=;
 by case: (ogetS f (zb c) fl rs.1).2 => [Sm|e] //; case: ifP.
Qed.

Lemma loop_cache f fl prms c bs : caches (loop (fill1 f fl prms) c bs).1 = caches c.
Proof.
elim: bs c => //= nb bs IH c; have := fill1_cache f fl prms c nb.
by case: (fill1 _ _ _ _ _) => c1 [u|e] //= <-; apply: IH.
Qed.

Lemma fill1_any f fl c N nm b c' r : Inv c N -> dget (blocks c) nm = Some b ->
  fill1 f fl [::] c (nm, b) = (c', r) -> [/\ Inv c' N, frame c c' &
   forall q, q != nm -> dget (blocks c') q = dget (blocks c) q].
Proof.
move=> HI Hb; case: r => [[]|e] H.
  have [G HG] := v_G HI; have Hd q : q \in [::] -> filled1 f fl c G q by [].
  by have [H1 H2 H3 H4 [H5 H6 H7 _]] := fill1_inv HI HG Hb Hd H.
move: H; rewrite /fill1 /=.
have [ps [o0 [Hnb [_ /= Eps Hoi Heq [Hsz Hup]] _]]] := Forall2_dget (v_blk HI) Hb.
have [Hi' Hsz' Hop' Hden' Hgood] := oget_law f fl Hoi (v_zb HI).
have Ho1 : oeq (ogetS f (zb c) fl (bobj b)).1 o0 by split; [constructor; [exact: (v_zb HI)|exact: Heq.1]|move=> f' fl' v i; rewrite Hden'; exact: Heq.2].
have HIr : Inv (with_blocks c (dset (blocks c) nm (Block (bports b) (bloc b)
               (ogetS f (zb c) fl (bobj b)).1 (bxpos b)))) N.
  have Hs1 : osize (ogetS f (zb c) fl (bobj b)).1 = size ps by rewrite Hsz'.
  have := @replace_inv C F Fl K c N nm b ps o0 _ o0 (bxpos b)
     (with_blocks c (dset (blocks c) nm (Block (bports b) (bloc b) _ (bxpos b)))) HI Hb Hnb Hi' Hs1 Ho1.
  rewrite (dset_id Hnb); case: (N) => /= ? ? ? ? ? H; exact: H.
case: (ogetS f (zb c) fl (bobj b)).2 => [Sm|e']; first case: ifP => // _;
  case=> <- _; split=> // q /negbTE Hq; by rewrite /= dget_dset Hq.
Qed.

Lemma fill_any_loop f fl c N bs c' r : Inv c N -> uniq (dkeys bs) ->
  (forall nm b, List.In (nm, b) bs -> dget (blocks c) nm = Some b) ->
  loop (fill1 f fl [::]) c bs = (c', r) -> Inv c' N /\ frame c c'.
Proof.
elim: bs c => [|[nm b] bs IH] c HI Hu Hbs; rewrite ?loop_cons.
  by case=> <- _.
case E1: (fill1 _ _ _ _ _) => [c1 r1] /=.
have Hb : dget (blocks c) nm = Some b by apply: Hbs; left.
have [HI1 Hf1 Hbl1] := fill1_any HI Hb E1.
case: r1 E1 => [u|e] E1 /=; last by case=> <- _.
move: Hu => /= /andP[Hn Hu] El.
have Hbs1 nm' b' : List.In (nm', b') bs -> dget (blocks c1) nm' = Some b'.
  move=> Hin; rewrite Hbl1; first by apply: Hbs; right.
  apply/eqP => E; move: Hn; rewrite -E -[_ \in _]/(nm' \in dkeys bs).
  by rewrite (dget_keys (In_dget Hu Hin)).
have [H1 H2] := IH _ HI1 Hu Hbs1 El.
by split=> //; exact: frame_trans Hf1 H2.
Qed.

Lemma fill_any f fl c N c' r : Inv c N ->
  loop (fill1 f fl [::]) c (blocks c) = (c', r) -> Inv c' N /\ frame c c'.
Proof.
move=> HI; apply: fill_any_loop => //; first by rewrite (blk_keys HI) (v_ub HI).
by move=> nm b; apply: In_dget; rewrite (blk_keys HI) (v_ub HI).
Qed.

Lemma closed_frame c N c' : Inv c N -> Inv c' N -> frame c c' -> closed c -> closed c'.
Proof.
move=> HI HI' [H1 H2 H3 H4 H5] [Hp Hk Hs]; split; rewrite ?H2 ?H1 ?H3 //.
have := v_cnt HI'; have := v_cnt HI; rewrite H1 H3 (v_nc HI') (v_nc HI) H4.
rewrite (v_nc HI) in Hs; rewrite Hs; lia.
Qed.

(** ** close, whatever its outcome *)
Lemma addE_never c ps : {subset map fwd ps <= waves c} -> (loop (@add_E C F Fl K) c ps).2 = Ok tt.
Proof.
elim: ps c => [|p ps IH] c Hs; rewrite ?loop_cons //.
rewrite /add_E lindex_in; last by apply: Hs; rewrite /= mem_head.
by apply: IH => /= q Hq; apply: Hs; rewrite /= in_cons Hq orbT.
Qed.

Lemma cache_inv c N iM Sm f fl : Inv c N -> Inv (with_cache c iM Sm f fl) N.
Proof.
move=> HI; have [G HG] := v_G HI; split; try by case: HI.
by exists G; apply: (ginv_same HG).
Qed.

Lemma addE_cache c ps : caches (loop (@add_E C F Fl K) c ps).1 = caches c.
Proof.
elim: ps c => [|p ps IH] c; rewrite ?loop_cons //.
by rewrite /add_E; case: (lindex _ _) => //= i; rewrite IH.
Qed.

Definition pn_ok c := if pn c is PGiven (n :: ns) then
  (size (n :: ns) == size (ports c)) && all (fun p => p \in n :: ns) (ports c) else true.

Lemma close_raise c N c' e : Inv c N -> close c = (c', Raise e) ->
  [/\ Inv c' N, frame c c', cf c' = cf c /\ cfl c' = cfl c, cS c' = None &
      [/\ e = ValueError, ~ closed c & ~~ pn_ok c]].
Proof.
move=> HI; rewrite /close; case: eqP => // Hsq.
have Hncl : ~ closed c by case.
have Hfw ns : {subset ns <= ports c} -> {subset map fwd ns <= waves c}.
  by move=> H s /mapP [p Hp ->]; rewrite (fwd_wave _ HI) (port_node HI) // H.
have Hgo c1 : ports c1 =i ports c -> waves c1 = waves c ->
  loop (@add_E C F Fl K) c1 (ports c1) <> (c', Raise e).
  move=> Hp Hw Hl; have := @addE_never c1 (ports c1); rewrite Hl Hw /=.
  by move/(_ (Hfw _ _)) => H; have: Raise e = Ok tt :> res unit by apply: H => p; rewrite Hp.
set c0 := with_cache c _ _ _ _.
have HI0 : Inv c0 N by apply: cache_inv.
have -> : pn c0 = pn c by []. 
rewrite /pn_ok; case Epn: (pn c) => [[|n ns]|].
- by move=> H; exfalso; move: H; apply: Hgo.
- case: ifP => [Hs|/negbFE Hs]; first by case=> <- <-; split=> //; split=> //; rewrite (negbTE Hs).
  case: ifP => [Ha|/negbFE Ha]; first by case=> <- <-; split=> //; split=> //; rewrite (negbTE Ha) andbF.
  have [_ Hm] := @close_ports C F Fl K c N (n :: ns) HI Hs Ha.
  by move=> H; exfalso; move: H; apply: Hgo.
- by move=> H; exfalso; move: H; apply: Hgo.
Qed.

Lemma close_cache c c' r : close c = (c', r) ->
  [/\ cf c' = cf c, cfl c' = cfl c, invM c' = invM c & (closed c -> c' = c)].
Proof.
rewrite /close; case: eqP => [_ [<-] //|Hsq].
have Hcl : closed c -> c' = c by case.
have Hgo c1 : cf c1 = cf c -> cfl c1 = cfl c -> invM c1 = invM c -> loop (@add_E C F Fl K) c1 (ports c1) = (c', r) ->
  [/\ cf c' = cf c, cfl c' = cfl c, invM c' = invM c & (closed c -> c' = c)].
  move=> E1 E2 E3 Hl; have := addE_cache c1 (ports c1); rewrite Hl /= /caches E1 E2 E3.
  by case=> -> _ -> ->.
rewrite /=; case Epn: (pn c) => [[|n ns]|]; try exact: Hgo.
case: ifP => _; first by case=> E _; split=> //; rewrite -E.
by case: ifP => _; [case=> E _; split=> //; rewrite -E|exact: Hgo].
Qed.

(** which order the ports have afterwards *)
Definition ordered c c' := (ports c' = ports c /\ pn c' = pn c) \/
                           (ports c' = order c /\ pn c' = PAlias).

Lemma addE_ports c ps : ports (loop (@add_E C F Fl K) c ps).1 = ports c /\
  pn (loop (@add_E C F Fl K) c ps).1 = pn c.
Proof.
elim: ps c => [|p ps IH] c; rewrite ?loop_cons //.
by rewrite /add_E; case: (lindex _ _) => //= i; have [-> ->] := IH (with_dicts
  (with_M c (nc c) (mM c ++ [:: upd (zrow C (nc c)) i 1]) (eqns c ++ [:: "E: " +s+ p]))
  (dC c) (dT c) (dset (dE c) p (size (mM c)))).
Qed.

Lemma close_ord c c' r : close c = (c', r) -> ordered c c' /\
  (r = Ok tt -> (c' = c /\ size (mM c) = nc c) \/ (ports c' = order c /\ pn c' = PAlias)).
Proof.
rewrite /close; case: eqP => [Hsq [<- _]|Hsq]; first by split; left.
have Hgo c1 : ports c1 = order c -> pn c1 = PAlias -> loop (@add_E C F Fl K) c1 (ports c1) = (c', r) ->
  ordered c c' /\ (r = Ok tt -> (c' = c /\ size (mM c) = nc c) \/ (ports c' = order c /\ pn c' = PAlias)).
  move=> E1 E2 Hl; have := addE_ports c1 (ports c1); rewrite Hl /= E1 E2 => H.
  by split; [right|move=> _; right].
rewrite /=; case Epn: (pn c) => [[|n ns]|].
- by apply: Hgo; rewrite //= /order Epn.
- case: ifP => _; first by case=> E <-; split=> //; left; rewrite -E.
  case: ifP => _; first by case=> E <-; split=> //; left; rewrite -E.
  by apply: Hgo; rewrite //= /order Epn.
- by apply: Hgo; rewrite //= /order Epn.
Qed.

(** ** the solve step *)
Lemma with_cache_frame c iM Sm f fl : frame c (with_cache c iM Sm f fl). Proof. by []. Qed.

Lemma extS_noports c c1 c' r : close c = (c1, Ok tt) -> dE c1 = [::] -> ports c1 = [::] ->
  extS c = (c', r) ->
  (exists iM, c' = with_cache c1 iM (cS c1) (cf c1) (cfl c1)) /\ exists e, r = Raise e.
Proof.
move=> Hc HE Hp; rewrite /extS Hc /= /portnames HE.
have Hid : c1 = with_cache c1 (invM c1) (cS c1) (cf c1) (cfl c1) by case: (c1).
have Hgo : (match inv_rows (nc c1) (mM c1) with
   | Raise e => (c1, Raise e)
   | Ok iM => (with_cache c1 (Some iM) (cS c1) (cf c1) (cfl c1), Raise IndexError)
   end : circ * res (rows C)) = (c', r) ->
   (exists iM, c' = with_cache c1 iM (cS c1) (cf c1) (cfl c1)) /\ exists e, r = Raise e.
  case: (inv_rows _ _) => [iM|e] [<- <-]; split; try by eexists.
  by exists (invM c1).
case: (pn c1) => [[|n ns]|] /=; [exact: Hgo| |by rewrite Hp; exact: Hgo].
by case=> <- <-; split; [exists (invM c1)|eexists].
Qed.

(** outcome of a solve: what getS guarantees about the new state *)
Record solved_ok (f : F) (fl : Fl) c c' N (Sm : rows C) : Prop := {
  so_cl : closed c';
  so_S : net_S (zb c) (zb c) N f fl (ports c') Sm;
  so_c : [/\ cS c' = Some Sm, cf c' = Some f & cfl c' = Some fl];
  so_res : well_posed (zb c) N f fl;
  so_ord : ports c' = order c;
  so_M : exists2 iM, invM c' = Some iM & sol_ok c' N f fl iM;
  so_ne : ports c' <> [::] }.

Lemma solve_ok f fl c N c' r : Inv c N -> solve_now f fl [::] c = (c', r) ->
  [/\ Inv c' N, zb c' = zb c, ports c' =i ports c,
      ordered c c' /\ (closed c -> closed c' /\ frame c c') &
   match r with
   | Ok Sm => solved_ok f fl c c' N Sm
   | Raise e => [/\ cf c' = cf c, cfl c' = cfl c,
       cS c' = None \/ cS c' = cS c, (ports c <> [::] -> invM c' = invM c) &
       (exists c1, loop (fill1 f fl [::]) c (blocks c) = (c1, Raise e)) \/
       [\/ e = ValueError /\ ~~ pn_ok c, ports c = [::] |
            e = LinAlgError /\ ill_posed (zb c) N f fl]]
   end].
Proof.
move=> HI; rewrite /solve_now.
have := loop_cache f fl [::] c (blocks c).
case El: (loop _ c (blocks c)) => [c1 r1] /= Hca.
have [HI1 Hfr1] := fill_any HI El; have [E1 E2 E3 E4 E5] := Hfr1.
have Hcl1 : closed c -> closed c1 by exact: (closed_frame HI HI1 Hfr1).
have Hcl1' : closed c1 -> closed c.
  move=> H; by apply: (closed_frame HI1 HI _ H).
have [HiM HcS Hcf Hcfl] : [/\ invM c1 = invM c, cS c1 = cS c, cf c1 = cf c & cfl c1 = cfl c] by case: Hca.
have Hord1 c3 : ordered c1 c3 -> ordered c c3 by rewrite /ordered /order E2 E3.
case: r1 El => [[]|e] El; last first.
  case=> <- <-; split=> //; rewrite ?E3 //.
    by split; [left; rewrite E2|move=> H; split=> //; apply: Hcl1].
  by split=> //; [right|left; exists c1].
have [_ _ _ _ [_ _ [G1 HG1 Hfl1]]] := fill_all HI El.
have HfG : fillG f fl c1 N by exists G1.
case Ec: (close c1) => [c2 rc].
have [Hcf2 Hcfl2 HiM2 Hid2] := close_cache Ec.
have [/Hord1 Hord2 Hord2'] := close_ord Ec.
case: rc Ec Hord2' => [[]|e] Ec Hord2'; last first.
  rewrite /extS Ec /= => -[<- <-].
  have [HI2 Hfr2 _ HS2 [-> Hncl Hpn]] := close_raise HI1 Ec.
  have [F1 F2 F3 F4 F5] := frame_trans Hfr1 Hfr2.
  split=> //; rewrite ?F3 //; first by split=> // /Hcl1.
  split; rewrite ?Hcf2 ?Hcfl2 ?HiM2 //; first by left.
  right; constructor 1; split=> //; move: Hpn; rewrite /pn_ok E2 E3 //.
have [HI2 Hw2 Hz2 Hb2 [Hcl2 Hp2 Hord Hsame HfG2]] := close_inv HI1 Ec HfG.
have Hcl2' : closed c1 -> closed c2 by move=> H; rewrite (Hid2 H).
have Hfr12 : closed c1 -> frame c c2 by move=> H; rewrite (Hid2 H).
have HcS2 : cS c2 = cS c1 \/ cS c2 = None.
  move: Ec; rewrite /close; case: eqP => [_ [<-]|_]; first by left.
  have Hgo c3 : cS c3 = None -> loop (@add_E C F Fl K) c3 (ports c3) = (c2, Ok tt) -> cS c2 = None.
    by move=> E Hl; have := addE_cache c3 (ports c3); rewrite Hl /= /caches E; case.
  case: (pn c1) => [[|n ns]|]; try by move=> /Hgo ->; auto.
  by case: ifP => // _; case: ifP => // _ /Hgo ->; auto.
have HcSn : cS c2 = None \/ cS c2 = cS c by rewrite -HcS; case: HcS2; auto.
case Er: (extS c1) => [c3 r3].
case Epo: (ports c2 == [::]).
  move/eqP: Epo => Epo.
  have HE2 : dE c2 = [::].
    case: Hcl2 => [[_ Hk _]|[] //]; case: (dE c2) Hk => // -[k v] d /(_ k) /=.
    by rewrite Epo in_cons eqxx.
  have [[iM E3c] [e Ee]] := extS_noports Ec HE2 Epo Er.
  rewrite Ee => -[<- <-]; rewrite E3c.
  have Ep1 : ports c1 = [::].
    by case: (ports c1) Hp2 => // p ps /(_ p); rewrite Epo in_cons eqxx.
  split=> /=; rewrite ?Hz2 ?E5 //.
  - exact: cache_inv.
  - by move=> p; rewrite Hp2 E3.
  - split=> // /Hcl1 H; split; last exact: Hfr12.
    by case: (Hcl2' H).
  split; rewrite /= ?Hcf2 ?Hcfl2 //; first by rewrite -E3 Ep1.
  by right; constructor 2; rewrite -E3.
move/eqP: Epo => Epo.
have Hcl : closed c2 by case: Hcl2 => // -[].
have HextE : extS c1 = extS c2.
  by rewrite /extS Ec closed_close.
rewrite HextE in Er.
have [[Sm [iM [-> -> Hinv HS Hres]]]|[-> -> Hres]] := extS_closed HI2 HfG2 Hcl Epo Er.
  rewrite /=; set c3' := with_cache (with_cache _ _ _ _ _) _ _ _ _.
  have Ec3 : c3' = with_cache c2 (Some iM) (Some Sm) (Some f) (Some fl) by [].
  have HI3 : Inv c3' N by rewrite Ec3; exact: cache_inv.
  case=> <- <-; split; rewrite ?Ec3 /= ?Hz2 ?E5 //.
  - by move=> p; rewrite Hp2 E3.
  - by split=> // /Hcl1 H; split; [case: (Hcl2' H)|exact: Hfr12].
  rewrite Hz2 E5 in HS Hres; split=> //.
    case: (Hord2' erefl) => [[-> Hsq]|[-> _]]; last by rewrite /order E2 E3.
    rewrite /= E3 /order; case: (v_E HI) => [Hb|[-> _]] //.
    have := v_cnt HI1; rewrite E1 Hb E3 Hsq /= addn0 => H.
    case: Epo; apply/eqP; rewrite -size_eq0; have -> : size (ports c2) = size (ports c1).
      by apply: perm_size; apply: uniq_perm; [exact: (v_up HI2)|exact: (v_up HI1)|].
    rewrite E3; apply/eqP; lia.
  exists iM => //; exact: (extS_sol HI2 HfG2 Hcl Hinv).
case=> <- <-; split; rewrite ?Hz2 ?E5 //.
- by move=> p; rewrite Hp2 E3.
- by split=> // /Hcl1 H; split; [exact: (Hcl2' H)|exact: Hfr12].
split; rewrite ?Hcf2 ?Hcfl2 ?HiM2 //.
by right; constructor 3; rewrite Hz2 E5 in Hres.
Qed.

End Get.

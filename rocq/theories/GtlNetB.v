(** A description that fits is built, with the positions it gives. *)
From mathcomp Require Import all_ssreflect all_algebra.
From mathcomp Require Import zify.
From Coq Require Import String Ascii.
From Coq Require List.
From Verif Require Import Base MxLib ConvModel ConvSpec ConvProofs ConvArr CircModel CircSpec CircLib CircInv CircTerm CircApp CircConn CircAdd CircDe CircFill CircSolve CircExt CircHist CircGet CircMain CircOrd CircThm CircThm2 CircThm3 CircThm4 CircThm6 CircMaxV CircFlat SetThm GtlNet GtlNetT GtlNetH GtlNetL GtlPos GtlNetA.
Set Implicit Arguments.
Unset Strict Implicit.
Unset Printing Implicit Defensive.
Import GRing.Theory Num.Theory.
Local Open Scope string_scope.
Local Open Scope ring_scope.
Local Open Scope seq_scope.

Arguments gtl_block : simpl never.
Arguments place_loop : simpl never.
Arguments place : simpl never.
Arguments getpos_fuel : simpl never.

Section Acc.
Variable C : numClosedFieldType.
Variables F Fl : eqType.
Variable K : vcls C F Fl.
Variable nan : C.
Notation circ := (circ K).
Notation getp := (@getpos_flat C F Fl K).
Notation gtl := (gtl K).
Notation bview := (@bview C F Fl K).
Variables (z : C) (ns : seq string) (rel : posns C) (G : gtl).
Hypotheses (Hz : z != 0) (Hg : gtl_ok G) (Hfit : gtl_fit z ns rel G).

Lemma fit_nm b g : List.In (b, g) G -> uniq (gnames g).
Proof. by case: Hg => _ H /H []. Qed.
Let Hnm := fit_nm.
Lemma fit_u : uniq (dkeys G). Proof. by case: Hg. Qed.
Let Hu := fit_u.
Lemma fit_ok : all_ok G.
Proof. by move=> b g /(t_blk Hfit) [_ [o [xs [H _ _]]]]; exists o. Qed.
Let Hok := fit_ok.
Lemma fit_nd b : b \in dkeys G -> ~~ has_char "."%char b.
Proof.
move=> Hb; have [g Hi] : exists g, List.In (b, g) G.
  move: Hb; rewrite /dkeys; elim: (G) => //= -[k g] l IH; rewrite in_cons => /orP[/eqP ->|/IH [g' H]]; [by exists g; left|by exists g'; right].
by have [] := t_blk Hfit Hi.
Qed.

Lemma users_uniq p : uniq (users G p).
Proof.
have H : forall l : gtl, subseq (users l p) (dkeys l).
  elim=> //= -[b g] l IH; rewrite /users /=; case: ifP => _ /=; rewrite -/(users l p) ?eqxx //.
  exact: subseq_trans IH (subseq_cons _ _).
exact: subseq_uniq (H G) Hu.
Qed.

Lemma fit_one p : p \in ns -> exists b, users G p = [:: b].
Proof. by rewrite (t_use Hfit); case: (users G p) => [|b []] //; exists b. Qed.

Lemma plist_users p bs : List.In (p, bs) (plist_of G) -> bs = users G p /\ users G p <> [::].
Proof.
move=> Hi; have := In_dget (plist_uniq G) Hi; rewrite (plistE _ Hnm).
by case: (users G p) => // u us [<-].
Qed.

Lemma fit_singles : singles (plist_of G) = size ns.
Proof.
rewrite /singles -size_filter -(size_map fst); apply: perm_size; apply: uniq_perm.
- have H : forall l : plist, subseq (map fst [seq pb : string * seq string <- l | (size pb.2 <= 1)%N]) (dkeys l).
    by elim=> //= -[p bs] l IH; case: ifP => _ /=; rewrite ?eqxx //; exact: subseq_trans IH (subseq_cons _ _).
  exact: subseq_uniq (H _) (plist_uniq G).
- by case: (t_ns Hfit).
move=> p; apply/mapP/idP => [[[p' bs]]|Hp].
  rewrite mem_filter /= => /andP[Hs /inP /plist_users [Eb Hn]] ->; rewrite (t_use Hfit) -Eb.
  by case: bs Eb Hs Hn => [|b []] //= ->.
have [b Eb] := fit_one Hp; exists (p, [:: b]) => //; rewrite mem_filter /=; apply/inP.
by rewrite -Eb; apply: plist_in; rewrite ?Eb.
Qed.

Let bx0 : string -> C := fun _ => 0.
Lemma new_S1 : S1 nan z ns bx0 [::] (new_circ K z ns) [::] (Net [::] [::] [::] [::] [::]).
Proof. by split=> //; exists [::]; split. Qed.

Lemma plain_not_last b g p t : List.In (b, g) G -> plain g p -> last_term (gports g) = Some t -> t.1 <> p.
Proof.
move=> Hi /plainP [q Hq [E1 E2]] /last_termP [q' Hq' [E3 E4]] E.
have Eq : q = q' by apply: (gname_inj (Hnm Hi)) => //; rewrite E1 E3.
by rewrite Eq E4 in E2.
Qed.

Lemma free1 b p : b \in users G p -> free (Net (gblks G) [::] (gterms G) [::] [::]) (dot b p).
Proof.
move=> Hb; rewrite /free /nodes mem_cat (users_node Hok Hb) /= /used /= cats0.
apply/negP => /memP [[q l] /gtermsP [b' [g [t [Hi El -> _]]]] /= E].
have Hk := users_sub Hb; have Hd' := fit_nd (key_in Hi).
have Eb := dot_name (fit_nd Hk) Hd' E; rewrite -Eb in E Hi; have Ep := dot_inj E.
exact: (plain_not_last Hi (user_plain Hg Hi Hb) El).
Qed.

(** the first two stages *)
Lemma two_stages : exists c1 c2, [/\
  foldM (@gtl_block _ _ _ _ nan) (new_circ K z ns, [::], rel) G = Ok (c1, plist_of G, given rel G),
  foldM (@gtl_join _ _ _ K) c1 (plist_of G) = Ok c2, map bview (blocks c2) = gview G &
  exists h2, S1 nan z ns bx0 G c2 h2 (Net (gblks G) (joins (plist_of G)) (gterms G) [::] [::])].
Proof.
have [|||c1 [E1 V1]] := @acc1 _ _ _ K nan z ns bx0 G [::] (new_circ K z ns) [::] [::] rel new_S1.
- by [].
- exact: Hg.
- move=> b g Hi; have [H1 H2] := t_blk Hfit Hi; have [_ H3] := t_load Hfit Hi; split=> //; exact: (t_pos Hfit Hi).
have [[h1 HS1] _ _] : [/\ exists h', S1 nan z ns bx0 ([::] ++ G) c1 h' (Net (gblks ([::] ++ G)) [::] (gterms ([::] ++ G)) [::] [::]),
      all_ok ([::] ++ G) & plist_of G = plist_of G].
  by have [] := @stage1 _ _ _ K nan z ns bx0 G [::] _ [::] _ _ _ _ _ new_S1 _ Hg E1.
rewrite /= in HS1.
have [||c2 [E2 B2]] := acc2 HS1 (plist_uniq G).
- by move=> b; rewrite gblks_keys //; exact: fit_nd.
- move=> p bs /plist_users [-> _]; split; first exact: users_uniq.
  move=> b Hb; split; first by rewrite gblks_keys //; exact: users_sub Hb.
  by split; [exact: free1|exact: users_node].
exists c1, c2; split=> //; first by rewrite B2 V1.
apply: (stage2 HS1 _ E2) => p bs b /plist_users [-> _]; exact: users_node.
Qed.

Lemma given_mono p : forall G' r, p \in dkeys r -> p \in dkeys (@given C F Fl K r G').
Proof.
elim=> //= -[b g] G' IH r Hp; rewrite /given /=; apply: IH; case: (gx g) => // x.
by rewrite dkeys_dset; case: ifP => // _; rewrite mem_rcons in_cons Hp orbT.
Qed.
Lemma given_has b g x : List.In (b, g) G -> gx g = Some x -> head "" (gnames g) \in dkeys (given rel G).
Proof.
rewrite /given => Hi Ex; elim: (G) rel Hi => //= -[b' g'] G' IH r [[_ ->]|/IH]; last exact.
rewrite Ex; apply: given_mono; rewrite dkeys_dset; case: ifP => // _; by rewrite mem_rcons mem_head.
Qed.

Lemma goffsP b l : List.In (b, l) (goffs G) -> exists g o xs, [/\ List.In (b, g) G, gobj g = Ok o, oxpos o = Some xs,
  l = zip (gnames g) xs & (size (gnames g) <= size xs)%N /\ (osize o <= size xs)%N].
Proof.
move=> Hi; have [g Hig El] : exists2 g, List.In (b, g) G & l = if gobj g is Ok o then zip (gnames g) (odflt [::] (oxpos o)) else [::].
  by move: Hi; rewrite /goffs; elim: (G) => //= -[b' g'] G' IH [[<- <-]|/IH [g H1 H2]]; [exists g'; [left|]|exists g; [right|]].
have [_ [o [xs [Eo So Ex]]]] := t_blk Hfit Hig; exists g, o, xs; rewrite El Eo Ex; split=> //.
have Ho : oinv o by case: Hg => _ /(_ _ _ Hig) [_]; exact.
by rewrite size_map -So; have := oinv_xpos Ho Ex.
Qed.
Lemma zip_keys (A : Type) (xs : seq string) (ys : seq A) : (size xs <= size ys)%N -> map fst (zip xs ys) = xs.
Proof. by move=> H; exact: unzip1_zip. Qed.
Lemma zip_in (xs : seq string) (ys : seq C) p d : uniq xs -> (size xs <= size ys)%N -> List.In (p, d) (zip xs ys) ->
  p \in xs /\ nth 0 ys (seq.index p xs) = d.
Proof.
elim: xs ys => [|x xs IH] [|y ys] //= /andP[Hx Hux] Hs [[<- <-]|Hi]; first by rewrite eqxx in_cons eqxx.
have [H1 H2] := IH _ Hux Hs Hi; rewrite in_cons H1 orbT; case: eqP => // E; by rewrite E H1 in Hx.
Qed.

Lemma dget_setpos (c : circ) (xs : posns C) b : dget (blocks (set_pos c xs)) b =
  omap (fun bl => Block (bports bl) (bloc bl) (bobj bl) (odflt (bxpos bl) (dget xs b))) (dget (blocks c) b).
Proof. by rewrite /set_pos /=; elim: (blocks c) => //= -[k bl] bs IH /=; case: eqP => [->|]. Qed.

Theorem assemble_ok : exists c X, [/\ assemble nan z ns rel G = Ok c, ports c = ns,
  (forall b g o, List.In (b, g) G -> gobj g = Ok o -> exists2 bl, dget (blocks c) b = Some bl &
     [/\ bports bl = gnames g, bobj bl = o & bxpos bl = X b]),
  (forall b l, List.In (b, l) (goffs G) ->
     (~ located (goffs G) (dkeys (given rel G)) l -> X b = - 10%:R) /\
     (located (goffs G) (dkeys (given rel G)) l -> all (predC in_special) (dkeys (given rel G)) ->
        forall XL P, layout (goffs G) (given rel G) XL P -> X b = XL b)) &
  size (xpos c) = size ns /\ forall k b l d, (k < size ns)%N -> List.In (b, l) (goffs G) -> b \in users G (nth "" ns k) ->
     List.In (nth "" ns k, d) l -> nth 0 (xpos c) k = X b + d].
Proof.
have [c1 [c2 [E1 E2 V2 [h2 HS2]]]] := two_stages.
have [[xs0 [Hr Sx]] Sc EN EP] := HS2; have HI := ci_inv (reach_CI Hr); rewrite EN in HI.
have Hub : uniq (dkeys (blocks c2)) by rewrite -bview_keys V2 gview_keys.
have Eoff : boffs (blocks c2) = goffs G by rewrite -bview_offs V2 gview_offs.
have Hblk b g o : List.In (b, g) G -> gobj g = Ok o -> exists2 bl, dget (blocks c2) b = Some bl &
   [/\ bports bl = gnames g, bobj bl = o & bxpos bl = odflt (- 10%:R) (gx g)].
  move=> Hi Eo; have : dget (gview G) b = Some (Block (gnames g) (0%N, 0%N) o (odflt (- 10%:R) (gx g))).
    by apply: In_dget; [rewrite gview_keys|apply/gviewP => //; exists g, o].
  by rewrite -V2 => /bview_get.
have Hxp : has_xpos (blocks c2).
  move=> b bl Hi; have : b \in dkeys (gview G) by rewrite -V2 bview_keys; exact: In_keys Hi.
  rewrite gview_keys // => Hb; have [g Hgi] : exists g, dget G b = Some g by exact: dget_mem.
  have Hig := dget_In Hgi; have [_ [o [xs [Eo _ Ex]]]] := t_blk Hfit Hig.
  have [bl' Ebl [_ Eob _]] := Hblk _ _ _ Hig Eo; move: (In_dget Hub Hi); rewrite Ebl => -[<-].
  by exists xs; rewrite Eob.
have Hgu : uniq (dkeys (given rel G)) by apply: given_uniq; case: (t_rel Hfit).
have [st [EL HPI Hloc]] := place_all Hub Hxp Hgu.
rewrite Eoff in Hloc.
have Hpf : place_first c2 (plist_of G) (given rel G) = Ok tt.
  apply: first_ok => p Hp.
  have Hup : users G p <> [::].
    case: (given_keys Hp) => [/(proj2 (t_rel Hfit)) /fit_one [b ->]|[b [g [Hi Hx ->]]]] //.
    have [q [qs [Eg Es]]] := t_pos Hfit Hi Hx; have : b \in users G (head "" (gnames g)).
      by apply/usersP; exists g => //; rewrite /plain /gnames Eg /= eqxx Es.
    by case: (users G _).
  exists (users G p); first by rewrite (plistE _ Hnm); case: (users G p) Hup.
  move=> b /usersP [g Hi Hp']; have [_ [o [xs [Eo So Ex]]]] := t_blk Hfit Hi.
  have [bl Ebl [Ep Eob _]] := Hblk _ _ _ Hi Eo; exists bl, xs; rewrite Ep Eob; split=> //.
    by have /plainP [q Hq [<- _]] := Hp'; exact: gname_in.
  have Ho : oinv o by case: Hg => _ /(_ _ _ Hi) [_]; exact.
  by rewrite size_map -So; have := oinv_xpos Ho Ex.
pose c3 := set_pos c2 st.1.
have E3 : place c2 (plist_of G) (given rel G) = Ok c3 by rewrite /place Hpf /= EL.
pose X (b : string) : C := odflt (odflt (- 10%:R) (if dget G b is Some g then gx g else None)) (dget st.1 b).
have Hb3 b g o : List.In (b, g) G -> gobj g = Ok o -> exists2 bl, dget (blocks c3) b = Some bl &
     [/\ bports bl = gnames g, bobj bl = o & bxpos bl = X b].
  move=> Hi Eo; have [bl Ebl [H1 H2 H3]] := Hblk _ _ _ Hi Eo.
  rewrite dget_setpos Ebl /=; eexists; first reflexivity; split=> //=.
  by rewrite /X (In_dget Hu Hi) /= H3.
pose usr (p : string) : string := head "" (users G p).
pose Xp (p : string) : C := X (usr p) + (if dget G (usr p) is Some g then if gobj g is Ok o then nth 0 (odflt [::] (oxpos o)) (seq.index p (gnames g)) else 0 else 0).
pose nds := flatten (map (@blk_nodes _ _ _ K) (gblks G)).
have Enode q : (q \in nodes (Net (gblks G) (joins (plist_of G)) (gterms G) [::] [::])) = (q \in nds).
  rewrite /nodes mem_cat /= cats0; have -> : news (joins (plist_of G)) = [::]; last by rewrite in_nil orbF.
  by rewrite /news /joins; elim: [seq _ <- _ | _].
have Hwf q : (fwd q \in waves c3) = (q \in nds) by have := fwd_wave q HI; rewrite Enode.
have Hwb q : (bwd q \in waves c3) = (q \in nds) by have := bwd_wave q HI; rewrite Enode.
have Hnsu p b : p \in ns -> b \in users G p -> usr p = b /\ dget (plist_of G) p = Some [:: b].
  by move=> /fit_one [b' Eu]; rewrite /usr (plistE _ Hnm) Eu in_cons in_nil orbF => /eqP ->.
have Hfr p b : p \in ns -> users G p = [:: b] -> dot b p \in ports c3.
  move=> Hp Eu; have Hb : b \in users G p by rewrite Eu mem_head.
  have := v_fp HI (dot b p); rewrite /= => ->; move: (free1 Hb); rewrite /free => /andP[_ Hn1].
  rewrite Enode (users_node Hok Hb) /=; move: Hn1; rewrite /used /= !cats0 mem_cat negb_or => ->; rewrite andbT.
  apply/negP => /flattenP [l /mapP[j /mapP[[p' bs]]]]; rewrite mem_filter /= => /andP[Hs /inP /plist_users [Ebs _]] -> -> /mapP[b' Hb' E].
  rewrite Ebs in Hs Hb'; have Eb := dot_name (fit_nd (users_sub Hb)) (fit_nd (users_sub Hb')) E.
  by rewrite -Eb in E; move: Hs; rewrite -(dot_inj E) Eu.
have Sc3 : size (xpos c3) = size (ports c3) by exact: Sc.
have [|||||||||c4 [R' [XR' [E4 P4 X4 S4 [B4 HR]]]]] := @acc3 _ _ _ K (plist_of G) usr Xp nds ns (ports c3) [::] (xpos c3) c3.
- by rewrite cats0.
- by rewrite cats0.
- by [].
- by case: (t_ns Hfit).
- by move=> q; rewrite in_nil orbF.
- by move=> q; rewrite Hwb.
- move=> p Hp; have [b Eu] := fit_one Hp; have Hb : b \in users G p by rewrite Eu mem_head.
  have [Eus Epl] := Hnsu _ _ Hp Hb; rewrite Eus; have [_ _ Hndp] := t_ns Hfit.
  split=> //; [exact: fit_nd (users_sub Hb)|exact: Hndp| |].
    apply/negP => /mem_fl [[b' [ps o]] _ /mapP[q _ E]]; move: (Hndp _ Hp).
    by rewrite E dot_has.
  split; first exact: users_node.
  split; first exact: Hfr.
  move=> c' Ec'; have /usersP [g Hi Hpl] := Hb; have [Hdb [o [xs [Eo So Ex]]]] := t_blk Hfit Hi.
  have [bl Ebl [B1 B2 B3]] := Hb3 _ _ _ Hi Eo.
  have Ho : oinv o by case: Hg => _ /(_ _ _ Hi) [_]; exact.
  rewrite (getp_blk (bl := bl) (xs := xs)) ?Ec' ?B1 ?B2 ?B3 //.
  + by rewrite /Xp Eus (In_dget Hu Hi) Eo Ex.
  + by have /plainP [q Hq [<- _]] := Hpl; exact: gname_in.
  + by rewrite size_map -So; have := oinv_xpos Ho Ex.
- by have := v_up HI.
- move=> p q Hp Hq; have [b Eu] := fit_one Hp; have [b' Eu'] := fit_one Hq; rewrite /usr Eu Eu' /= => E.
  have Hb : b \in users G p by rewrite Eu mem_head.
  have Hb' : b' \in users G q by rewrite Eu' mem_head.
  have Eb := dot_name (fit_nd (users_sub Hb)) (fit_nd (users_sub Hb')) E.
  by rewrite -Eb in E; exact: dot_inj E.
have ER : R' = [::].
  case: R' HR {P4 S4} => // q R' /(_ q (mem_head _ _)) [Hq Hne]; exfalso.
  have := v_fp HI q; rewrite /= => Hv; have {Hv Hq} := etrans (esym Hv) Hq.
  rewrite /free Enode => /andP[/mem_fl [[b [ps o]] /gblksP [g [Hi Eo ->]] /= /mapP[p Hp Eq]]].
  rewrite /used /= !cats0 mem_cat negb_or => /andP[Hj Ht].
  have [r Hr' Er] : exists2 r, List.In r (gports g) & gname r = p.
    move: Hp; rewrite /gnames; elim: (gports g) => //= r l IH; rewrite in_cons => /orP[/eqP ->|/IH [r' H1 H2]]; [by exists r; [left|]|by exists r'; [right|]].
  case Es: (special r) => [kw|].
    have [Hc _] := t_load Hfit Hi; move/negP: Ht; apply; apply/memP; exists (dot b p, load_of kw); last by rewrite Eq.
    apply/gtermsP; exists b, g, (p, kw); split=> //; move: Hc Hr'; rewrite -Er; clear -Es.
    elim/last_ind: (gports g) => // l q IH; rewrite -cats1 count_cat /last_term foldl_cat /= addn0.
    case Eq': (special q) => [kw'|] Hc Hin; case: (List.in_app_or _ _ _ Hin) => [Hl|[Hl|//]].
    + have : (0 < count (fun p => isSome (special p)) l)%N.
        by elim: l Hl {Hin Hc IH} => //= y l IHl [->|/IHl H]; rewrite ?Es // addn_gt0 H orbT.
      by move: Hc; rewrite addn1 ltnS leqn0 => /eqP ->.
    + by move: Eq'; rewrite Hl Es => -[->].
    + by rewrite addn0 in Hc; exact: IH.
    + by rewrite Hl Es in Eq'.
  have Hb : b \in users G p by apply/usersP; exists g => //; apply/plainP; exists r.
  case Esz: (1 < size (users G p))%N.
    move/negP: Hj; apply; apply/flattenP; exists [seq dot b p | b <- users G p]; last by rewrite Eq; apply/mapP; exists b.
    apply/mapP; exists ([seq dot b p | b <- users G p], None) => //; apply/mapP; exists (p, users G p) => //.
    rewrite mem_filter /= Esz /=; apply/inP; apply: plist_in => // Eu; by rewrite Eu in Esz.
  have Hpn : p \in ns by rewrite (t_use Hfit) eqn_leq leqNgt Esz /=; case: (users G p) Hb.
  by have := Hne _ Hpn; rewrite (Hnsu _ _ Hpn Hb).1 Eq eqxx.
have EXR : XR' = [::] by apply/eqP; rewrite -size_eq0 S4 ER.
rewrite ER /= in P4; rewrite EXR /= in X4.
exists c4, X; split=> //.
- rewrite /assemble; have -> /= : all (fun px : string * C => px.1 \in ns) rel.
    have := proj2 (t_rel Hfit); elim: (rel) => //= -[p x] l IH H; rewrite (H p) ?mem_head //=.
    by apply: IH => q Hq; apply: H; rewrite in_cons Hq orbT.
  by rewrite E1 /= E2 /= fit_singles eqxx /= E3 /= E4 /= P4 eqxx.
- by move=> b g o Hi Eo; have [bl H1 H2] := Hb3 _ _ _ Hi Eo; exists bl; rewrite ?B4.
- move=> b l Hi; have [g [o [xs [Hig Eo Ex El [Sg _]]]]] := goffsP Hi.
  have [bl Ebl [Q1 Q2 Q3]] := Hblk _ _ _ Hig Eo.
  have Hl : List.In (b, bl) (blocks c2) by exact: dget_In.
  have Eol : offs bl = l by rewrite /offs Q1 Q2 Ex El.
  have := Hloc _ _ Hl; rewrite Eol => Hlb; split=> [Hn|Hlo Hsp XL P HL].
    have /dget_None Hd : b \notin dkeys st.1 by apply/negP => /Hlb.
    rewrite /X Hd (In_dget Hu Hig) /=; case Egx: (gx g) => [x|] //; exfalso; apply: Hn.
    exists (head "" (gnames g)); last by apply: pl_given; exact: given_has Hig Egx.
    rewrite El zip_keys //; have [|q [qs [Eg _]]] := t_pos Hfit Hig; first by rewrite Egx.
    by rewrite /gnames Eg /= mem_head.
  have := Hlb.2 Hlo; rewrite inkeys; case Ed: (dget st.1 b) => [x|] // _; rewrite /X Ed /=.
  by have [_ H] := p_lay HPI Hsp; rewrite Eoff in H; have [_ H2] := H _ _ HL; rewrite (H2 _ _ Ed).
split; first by rewrite X4 size_map.
move=> k b l d Hk Hi Hb Hd; rewrite X4 (nth_map "") //.
have [g [o [xs [Hig Eo Ex El [Sg _]]]]] := goffsP Hi; have Hp : nth "" ns k \in ns by exact: mem_nth.
rewrite /Xp (Hnsu _ _ Hp Hb).1 (In_dget Hu Hig) Eo Ex /=; congr (_ + _).
by rewrite El in Hd; have [_ <-] := zip_in (Hnm Hig) Sg Hd.
Qed.
End Acc.

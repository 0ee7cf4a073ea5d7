(** The history of calls behind an rfGTL, and its network. *)
From mathcomp Require Import all_ssreflect all_algebra.
From mathcomp Require Import zify.
From Coq Require Import String Ascii.
From Coq Require List.
From Verif Require Import Base MxLib ConvModel ConvSpec ConvProofs ConvArr CircModel CircSpec CircLib CircInv CircTerm CircApp CircConn CircAdd CircDe CircFill CircSolve CircExt CircHist CircGet CircMain CircOrd CircThm CircThm2 CircThm3 CircThm4 CircMaxV SetThm GtlNet GtlNetT.
Set Implicit Arguments.
Unset Strict Implicit.
Unset Printing Implicit Defensive.
Import GRing.Theory Num.Theory.
Local Open Scope string_scope.
Local Open Scope ring_scope.
Local Open Scope seq_scope.

Arguments gtl_block : simpl never.
Arguments place_loop : simpl never.
Arguments place : simpl never.

Section Hist.
Variable C : numClosedFieldType.
Variables F Fl : eqType.
Variable K : vcls C F Fl.
Variable nan : C.
Notation circ := (circ K).
Notation getp := (@getpos_flat C F Fl K).
Notation reach := (CircHist.reach nan getp).
Notation gtl := (gtl K).
Implicit Types (c : circ) (G : gtl) (h : seq (event K)).
Variables (z : C) (ns : seq string).

Definition gblks G : seq (string * (seq string * K)) :=
  pmap (fun bg => if gobj bg.2 is Ok o then Some (bg.1, (gnames bg.2, o)) else None) G.
Definition gterms G : seq (string * load C) :=
  pmap (fun bg => omap (fun t : string * seq (string * C) => (dot bg.1 t.1, load_of t.2)) (last_term (gports bg.2))) G.
Definition plist_of G : plist := foldl (fun pl bg => foldl (port_add bg.1) pl (gports bg.2)) [::] G.
Definition all_ok G := forall b g, List.In (b, g) G -> exists o, gobj g = Ok o.

Lemma gblks_keys G : all_ok G -> dkeys (gblks G) = dkeys G.
Proof.
elim: G => //= -[b g] G IH H; have [|o Eo] := H b g; first by left.
by rewrite /gblks /= Eo /= -/(gblks G) IH // => b' g' Hg; apply: (H b' g'); right.
Qed.
Lemma all_ok_rcons G b g o : all_ok G -> gobj g = Ok o -> all_ok (rcons G (b, g)).
Proof.
move=> H E b' g'; rewrite -cats1 => Hi; case: (List.in_app_or _ _ _ Hi) => [/H //|[[_ <-]|//]]; by exists o.
Qed.

Record S1 (bx : string -> C) G c h (N : net K) : Prop := {
  s_reach : exists xs, reach z ns h (repos c xs bx) /\ size xs = size (ports c);
  s_size : size (xpos c) = size (ports c);
  s_net : net_hist h = N;
  s_past : past_of h = past0 F Fl }.

Lemma resolve_list n op l r : resolve_ports n op (PList l) = Ok r -> r = l.
Proof. by rewrite /resolve_ports; case: op => [ps|] /=; case: eqP => // _ [<-]. Qed.

Lemma lift_ok (r : circ * res unit) c : lift r = Ok c -> r = (c, Ok tt).
Proof. by case: r => c' [[]|e] // [<-]. Qed.

Lemma S1_blk_keys bx G c h N : S1 bx G c h N -> dkeys (blocks c) = dkeys (nblk N).
Proof.
case=> [[xs [Hr _]] _ EN _]; have := blk_keys (ci_inv (reach_CI Hr)); rewrite EN => <- /=.
by elim: (blocks c) => //= -[n b] bs ->.
Qed.

Lemma gterms_keys G p : p \in dkeys (gterms G) -> exists b q, b \in dkeys G /\ p = dot b q.
Proof.
elim: G => //= -[b g] G IH; rewrite /gterms /=; case: (last_term _) => [t|] /=.
  rewrite in_cons => /orP[/eqP ->|/IH [b' [q [H1 ->]]]]; first by exists b, t.1; rewrite in_cons eqxx.
  by exists b', q; rewrite in_cons H1 orbT.
by move=> /IH [b' [q [H1 ->]]]; exists b', q; rewrite in_cons H1 orbT.
Qed.

Lemma step_block bx G c h b g c' pl pos pl' pos' :
  S1 bx G c h (Net (gblks G) [::] (gterms G) [::] [::]) -> all_ok G ->
  b \notin dkeys G -> uniq (gnames g) -> (forall o, gobj g = Ok o -> oinv o) ->
  gtl_block nan (c, pl, pos) (b, g) = Ok (c', pl', pos') ->
  [/\ exists h', S1 bx (rcons G (b, g)) c' h' (Net (gblks (rcons G (b, g))) [::] (gterms (rcons G (b, g))) [::] [::]),
      all_ok (rcons G (b, g)) & pl' = foldl (port_add b) pl (gports g)].
Proof.
move=> HS Hok Hb Hu Ho; rewrite /gtl_block; case: (match gx g with Some _ => _ | None => _ end) => //= pos1.
case Eo: (gobj g) => [o|] //=; case Ea: (lift _) => [c1|] //=.
have HbN : b \notin dkeys (gblks G) by rewrite gblks_keys.
have Hbc : dget (blocks c) b = None by apply/dget_None; rewrite (S1_blk_keys HS).
have [[xs [Hr Sx]] Sc EN EP] := HS.
have Ea' := lift_ok Ea.
have [xs1 [A1 Sx1 Sc1]] := R_add bx Ea' Hbc (Ho _ Eo) Sc Sx.
have Hdot : ~~ has_char "."%char b by move: Ea'; rewrite /addblock; case: ifP.
have Er : resolve_ports (osize o) (oports o) (PList (gnames g)) = Ok (gnames g).
  move: Ea'; rewrite /addblock; case: ifP => // _; rewrite /= Hbc /addblock_new.
  by case Er: (resolve_ports _ _ _) => [r|] // _; rewrite {1}(resolve_list Er).
have Hr1 : reach z ns (rcons h (OAdd b o (PList (gnames g)) (bx b), true)) (repos c1 xs1 bx).
  apply: (reach_snoc Hr); last by rewrite /exec A1.
  split=> //; first exact: Ho.
  by right; rewrite EP; split=> // ps; rewrite Er => -[<-].
have EN1 : net_hist (rcons h (OAdd b o (PList (gnames g)) (bx b), true)) =
   Net (gblks (rcons G (b, g))) [::] (gterms G) [::] [::].
  rewrite net_rcons EN /=; have /dget_None -> := HbN.
  by rewrite Er /gblks -[rcons _ _]cats1 pmap_cat /= Eo.
have EP1 : past_of (rcons h (OAdd b o (PList (gnames g)) (bx b), true)) = past0 F Fl by rewrite past_rcons EP.
case Et: (last_term (gports g)) => [t|]; last first.
  case=> <- <- _; split=> //; last exact: all_ok_rcons Eo.
  eexists; split; [by exists xs1; split; [exact: Hr1|]|by []| |exact: EP1].
  by rewrite EN1 /gterms -[rcons _ _]cats1 pmap_cat /= Et /= cats0.
case El: (lift _) => [c2|] //= -[<- <- _]; split=> //; last exact: all_ok_rcons Eo.
have [xs2 [A2 Sx2 Sc2]] := R_term bx (lift_ok El) Sc1 Sx1.
eexists; split; [exists xs2; split; last by []| by []| |].
- by apply: (reach_snoc Hr1 (o := OTerm K (dot b t.1) t.2) (ok := true)) => //; rewrite /exec A2.
- rewrite net_rcons EN1 /= /gterms -[rcons _ _]cats1 pmap_cat /= Et /= dset_new //.
  apply/negP => /gterms_keys [b' [q [Hb' E]]].
  have Hd' : ~~ has_char "."%char b'.
    by apply: (v_nb (ci_inv (reach_CI Hr))); rewrite EN /= gblks_keys.
  by move: Hb; rewrite (dot_name Hdot Hd' E) Hb'.
by rewrite past_rcons EP1 /= andbF.
Qed.

Lemma stage1 bx G2 : forall G c h pl pos c' pl' pos',
  S1 bx G c h (Net (gblks G) [::] (gterms G) [::] [::]) -> all_ok G -> gtl_ok (G ++ G2) ->
  foldM (@gtl_block _ _ _ _ nan) (c, pl, pos) G2 = Ok (c', pl', pos') ->
  [/\ exists h', S1 bx (G ++ G2) c' h' (Net (gblks (G ++ G2)) [::] (gterms (G ++ G2)) [::] [::]),
      all_ok (G ++ G2) & pl' = foldl (fun pl bg => foldl (port_add bg.1) pl (gports bg.2)) pl G2].
Proof.
elim: G2 => [|[b g] G2 IH] G c h pl pos c' pl' pos' HS Hok Hg /=.
  by case=> <- <- _; rewrite cats0; split=> //; exists h.
case Eb: (gtl_block _ _ _) => [[[c1 pl1] pos1]|] //= E.
have [U Hg'] := Hg.
have Hin : List.In (b, g) (G ++ (b, g) :: G2) by apply: List.in_or_app; right; left.
have [Hu Ho] := Hg' _ _ Hin.
have Hb : b \notin dkeys G.
  by move: U; rewrite /dkeys map_cat cat_uniq /= => /and3P[_ /norP[]].
have [[h1 H1] Hok1 Epl] := step_block HS Hok Hb Hu Ho Eb.
rewrite -cat_rcons in Hg *; rewrite -Epl; exact: IH H1 Hok1 Hg E.
Qed.

(** ** the port list *)
Definition pplain (q : gport C) := ~~ isSome (special q).
Lemma has_no p (ps : seq (gport C)) : p \notin map (@gname C) ps -> has (fun q => (gname q == p) && pplain q) ps = false.
Proof. by elim: ps => //= q ps IH; rewrite in_cons eq_sym => /norP[/negbTE -> /IH]. Qed.
Lemma port_addE b pl (ps : seq (gport C)) p : uniq (map (@gname C) ps) ->
  dget (foldl (port_add b) pl ps) p =
  if has (fun q => (gname q == p) && pplain q) ps then Some (odflt [::] (dget pl p) ++ [:: b]) else dget pl p.
Proof.
elim: ps pl => //= q ps IH pl /andP[Hq Hu]; rewrite IH //.
have Ed : dget (port_add b pl q) p = if (gname q == p) && pplain q then Some (odflt [::] (dget pl p) ++ [:: b]) else dget pl p.
  rewrite /port_add /pplain; case Es: (special q) => [kw|] /=; first by rewrite andbF.
  by rewrite andbT dget_dset eq_sym; case: eqP => [->|].
case Ep: ((gname q == p) && pplain q); rewrite Ed Ep //=.
by case/andP: Ep Hq => /eqP -> _ Hq; rewrite has_no.
Qed.

Lemma users_rcons G b (g : gblk K) p : users (rcons G (b, g)) p = users G p ++ (if plain g p then [:: b] else [::]).
Proof. by rewrite /users filter_rcons; case: ifP; rewrite ?map_rcons -?cats1 ?cats0. Qed.

Lemma plist_rcons G b g : plist_of (rcons G (b, g)) = foldl (port_add b) (plist_of G) (gports g).
Proof. by rewrite /plist_of -cats1 foldl_cat. Qed.

Lemma plistE G p : (forall b g, List.In (b, g) G -> uniq (gnames g)) ->
  dget (plist_of G) p = if users G p is [::] then None else Some (users G p).
Proof.
elim/last_ind: G => [|G [b g] IH] //= H; rewrite plist_rcons port_addE; last first.
  by apply: (H b g); rewrite -cats1; apply: List.in_or_app; right; left.
rewrite IH; last by move=> b' g' Hi; apply: (H b'); rewrite -cats1; apply: List.in_or_app; left.
rewrite users_rcons -/(plain g p); case: (plain g p); last by rewrite cats0.
by case: (users G p).
Qed.

Lemma port_add_uniq b pl (ps : seq (gport C)) : uniq (dkeys pl) -> uniq (dkeys (foldl (port_add b) pl ps)).
Proof.
elim: ps pl => //= q ps IH pl Hu; apply: IH; rewrite /port_add; case: (special q) => // .
by rewrite uniq_dset.
Qed.
Lemma plist_uniq G : uniq (dkeys (plist_of G)).
Proof. by elim/last_ind: G => // G [b g] IH; rewrite plist_rcons; exact: port_add_uniq. Qed.

Lemma users_node G p b : all_ok G -> b \in users G p -> dot b p \in flatten (map (@blk_nodes _ _ _ K) (gblks G)).
Proof.
rewrite /users; elim: G => //= -[b' g] G IH Hok; have [|o Eo] := Hok b' g; first by left.
rewrite /gblks /= Eo /= -/(gblks G) mem_cat.
have {}IH : b \in users G p -> dot b p \in flatten (map (@blk_nodes _ _ _ K) (gblks G)).
  by apply: IH => b1 g1 Hi; apply: (Hok b1); right.
case: ifP => [Hp|_ /IH ->]; last by rewrite orbT.
rewrite /= in_cons => /orP[/eqP ->|/IH ->]; last by rewrite orbT.
rewrite /blk_nodes /= mem_map; last exact: dot_inj.
suff -> : p \in gnames g by [].
move: Hp; rewrite /plain /gnames; elim: (gports g) => //= q ps IHp; rewrite in_cons eq_sym.
by case: eqP => //= _ /IHp.
Qed.

Lemma users_sub G p b : b \in users G p -> b \in dkeys G.
Proof.
rewrite /users; elim: G => //= -[b' g] G IH; case: ifP => _ /=; rewrite !in_cons => // H.
  by case/orP: H => [->//|/IH ->]; rewrite orbT.
by rewrite IH ?orbT.
Qed.

(** ** the joins *)
Definition joins (pl : plist) : seq (seq string * option string) :=
  [seq ([seq dot b pb.1 | b <- pb.2], None) | pb : string * seq string <- pl & (1 < size pb.2)%N].
Lemma stage2 bx G B T pl : forall J c h c', S1 bx G c h (Net B J T [::] [::]) ->
  (forall p bs b, List.In (p, bs) pl -> b \in bs -> dot b p \in flatten (map (@blk_nodes _ _ _ K) B)) ->
  foldM (@gtl_join _ _ _ K) c pl = Ok c' ->
  exists h', S1 bx G c' h' (Net B (J ++ joins pl) T [::] [::]).
Proof.
elim: pl => [|[p bs] pl IH] J c h c' HS Hn /=; first by case=> <-; exists h; rewrite cats0.
case Ej: (gtl_join c (p, bs)) => [c1|] //= E.
have Hn' : forall p0 bs0 b, List.In (p0, bs0) pl -> b \in bs0 -> dot b p0 \in flatten (map (@blk_nodes _ _ _ K) B).
  by move=> p0 bs0 b Hi; apply: Hn; right.
move: Ej; rewrite /gtl_join /joins /=; case: ifP => [Hs /lift_ok Ec|_ [Ec]]; last first.
  by rewrite -Ec in E; exact: IH HS Hn' E.
have [[xs [Hr Sx]] Sc EN EP] := HS; have HI := ci_inv (reach_CI Hr); rewrite EN in HI.
have Hnd q : q \in [seq dot b p | b <- bs] -> q \in nodes (Net B J T [::] [::]).
  by case/mapP=> b Hb ->; rewrite /nodes /= mem_cat (Hn _ _ _ (or_introl erefl) Hb).
have Hnew : newports c [seq dot b p | b <- bs] = [::].
  rewrite /newports; elim: [seq _ | _ <- _] Hnd => //= q l IHl H.
  rewrite (_ : fwd q \in waves c) /=; last by have := fwd_wave q HI; rewrite H ?mem_head.
  by apply: IHl => r Hr'; apply: H; rewrite in_cons Hr' orbT.
have [xs1 [A1 Sx1 Sc1]] := R_conn bx Ec Hnew Sc Sx.
have HS1 : S1 bx G c1 (rcons h (OConnect K [seq dot b p | b <- bs], true)) (Net B (J ++ [:: ([seq dot b p | b <- bs], None)]) T [::] [::]).
  split=> //.
  - exists xs1; split=> //; apply: (reach_snoc Hr); last by rewrite /exec A1.
    by rewrite EP.
  - rewrite net_rcons EN /=; have -> : [seq q <- [seq dot b p | b <- bs] | q \in nodes (Net B J T [::] [::])] = [seq dot b p | b <- bs].
      by apply/all_filterP/allP => q /Hnd.
    by have -> : [seq q <- [seq dot b p | b <- bs] | q \notin nodes (Net B J T [::] [::])] = [::];
       [rewrite (eq_in_filter (a2 := pred0)) ?filter_pred0 // => q /Hnd ->|].
  by rewrite past_rcons EP.
have [h' H'] := IH _ _ _ _ HS1 Hn' E.
by exists h'; rewrite -catA in H'.
Qed.

(** ** the declared ports *)
Definition ext (pl : plist) (p : string) : seq string * option string :=
  ([:: dot (head "" (odflt [::] (dget pl p))) p], Some p).

Lemma stage3 P0 B T pl : (forall p b, dget pl p = Some [:: b] -> b \in dkeys B) ->
  (forall p b, dget pl p = Some [:: b] -> dot b p \in flatten (map (@blk_nodes _ _ _ K) B)) ->
  forall ns2 J c1 c0 h c2, reach z ns h c0 -> near P0 c1 c0 ->
  net_hist h = Net B J T [::] [::] -> past_of h = past0 F Fl ->
  foldM (gtl_ext pl) c1 ns2 = Ok c2 ->
  exists h' c0' J', [/\ reach z ns h' c0', near P0 c2 c0',
    net_hist h' = Net B (J ++ J') T [::] [::], past_of h' = past0 F Fl &
    (forall p, p \in ns2 -> free (Net B (J ++ J') T [::] [::]) p) ->
    [/\ J' = map (ext pl) ns2, uniq ns2 & forall p, p \in ns2 -> p \notin nodes (Net B J T [::] [::])]].
Proof.
move=> HplB Hpln; elim=> [|p ns2 IH] J c1 c0 h c2 Hr Hn EN EP /=.
  by case=> <-; exists h, c0, [::]; rewrite cats0; split.
case Ee: (gtl_ext pl c1 p) => [c1'|] //= E.
move: Ee; rewrite /gtl_ext; case Epl: (dget pl p) => [[|b []]|] // /lift_ok Ec.
have HI := ci_inv (reach_CI Hr); rewrite EN in HI.
have Hb : b \in dkeys B by exact: HplB Epl.
have Hd : ~~ has_char "."%char b by exact: (v_nb HI).
have [bl Hbl] : exists bl, dget (blocks c1) b = Some bl.
  apply: dget_mem; have [xs [E0 _ _ _]] := Hn.
  by have := blk_keys HI; rewrite E0 /= => ->.
have [c0' A0 Hn'] := near_conn Hn Hd Hbl Ec.
have Hr' : reach z ns (rcons h (OConnect K [:: dot b p; p], true)) c0'.
  by apply: (reach_snoc Hr); [rewrite EP|rewrite /exec A0].
have EP' : past_of (rcons h (OConnect K [:: dot b p; p], true)) = past0 F Fl by rewrite past_rcons EP.
have Hbn : dot b p \in nodes (Net B J T [::] [::]) by rewrite /nodes mem_cat Hpln.
pose j := if p \in nodes (Net B J T [::] [::]) then ([:: dot b p; p], None) else ([:: dot b p], Some p).
have EN' : net_hist (rcons h (OConnect K [:: dot b p; p], true)) = Net B (J ++ [:: j]) T [::] [::].
  by rewrite net_rcons EN [net_step _ _]/= !Hbn /j /=; case: ifP.
have [h' [c2' [J' [H1 H2 H3 H4 H5]]]] := IH _ _ _ _ _ Hr' Hn' EN' EP' E.
rewrite -catA in H3 H5; exists h', c2', ([:: j] ++ J'); split=> //.
move=> Hf; have [|E1 E2 E3] := H5; first by move=> q Hq; apply: Hf; rewrite in_cons Hq orbT.
have Hp : p \notin nodes (Net B J T [::] [::]).
  apply/negP => Hp; have := Hf p (mem_head _ _); rewrite /free /used /= => /andP[_].
  by rewrite /j Hp map_cat flatten_cat /= !mem_cat !in_cons eqxx !orbT.
have Ej : j = ext pl p by rewrite /j (negbTE Hp) /ext Epl.
split; first by rewrite /= Ej E1.
- rewrite /= E2 andbT; apply/negP => /E3; rewrite /nodes /= /news pmap_cat /= Ej /=.
  by rewrite !mem_cat mem_head !orbT.
move=> q; rewrite in_cons => /orP[/eqP -> //|/E3].
rewrite /nodes /= /news pmap_cat !mem_cat !negb_or => /and3P[-> /andP[-> _] ->] //.
Qed.

Lemma near_eq P0 c1 c0 : near P0 c1 c0 -> (forall p, p \in ports c1 -> p \notin P0) -> c0 = c1.
Proof.
case=> xs [-> H1 H2 H3] H; have -> : xs = xpos c1.
  apply: (@eq_from_nth _ 0); first by rewrite H1 H2.
  by rewrite H1 => k Hk; apply: H3 => //; apply: H; exact: mem_nth.
by case: (c1).
Qed.

(** ** all together *)
Definition gnet G := Net (gblks G) (joins (plist_of G) ++ map (ext (plist_of G)) ns) (gterms G) [::] [::].

Theorem assemble_reach rel G c : z != 0 -> gtl_ok G -> assemble nan z ns rel G = Ok c ->
  exists h, [/\ reach z ns h c, net_hist h = gnet G, past_of h = past0 F Fl,
    all_ok G & [/\ uniq ns, (forall p, (p \in ns) = free (gnet G) p),
    (forall p, p \in ns -> p \notin flatten (map (@blk_nodes _ _ _ K) (gblks G))),
    (forall p, p \in ns -> size (users G p) = 1%N) &
    singles (plist_of G) = size ns /\ ports c = ns]].
Proof.
move=> Hz Hg; rewrite /assemble; case: ifP => // _.
case E1: (foldM _ _ G) => [[[c1 pl] pos]|] //=.
case E2: (foldM _ _ pl) => [c2|] //=; case: eqP => //= Hsing.
case E3: (place _ _ _) => [c3|] //=; case E4: (foldM _ _ ns) => [c4|] //=; case: eqP => //= Hpn [<-].
have Hnm b g : List.In (b, g) G -> uniq (gnames g) by case: Hg => _ H /H [].
have [bx Ebx] : exists bx, c3 = repos c2 (xpos c2) bx.
  move: E3; rewrite /place; case: (place_first _ _ _) => //= _.
  case: (place_loop _ _ _) => [[st|]|] // [<-].
  have [[h1 HS1] Hok _] : [/\ exists h', S1 (fun _ => 0) ([::] ++ G) c1 h' (Net (gblks ([::] ++ G)) [::] (gterms ([::] ++ G)) [::] [::]),
      all_ok ([::] ++ G) & pl = plist_of G].
    apply: (@stage1 _ G [::] _ [::] _ _ _ _ _ _ _ Hg E1) => //; split=> //.
    by exists [::].
  have Ek2 : forall pl' d1 d2, foldM (@gtl_join _ _ _ K) d1 pl' = Ok d2 -> dkeys (blocks d2) = dkeys (blocks d1).
    elim=> [|pb pl' IH] d1 d2 /=; first by case=> <-.
    case Ej: (gtl_join d1 pb) => [d3|] //= /IH ->; move: Ej; rewrite /gtl_join; case: ifP => [_ /lift_ok|_ [<- //]].
    rewrite /connect; case: ifP => // _; case: ifP => // _; move: (newports _ _) (oldports _ _) => n1 o1.
    have Kb : forall A (stp : circ -> A -> circ * res unit) ys e, (forall e y, blocks (stp e y).1 = blocks e) -> blocks (loop stp e ys).1 = blocks e.
      by move=> A stp ys e H; elim: ys e => //= y ys IHy e; case Es: (stp e y) => [e1 [u|]] /=; rewrite ?IHy -(H e y) Es.
    have Kc e y : blocks (@connect_new C F Fl K (@getpos_flat C F Fl K) e o1 y).1 = blocks e.
      by rewrite /connect_new; case: (o1) => [|o l] //=; case: (getpos_flat _ _).
    set r := loop _ d1 _; have Hb : blocks r.1 = blocks d1 by apply: Kb => e y; exact: Kc.
    case: r Hb => e1 [u|] //= Hb; case: (mapM _ _) => // iAs; case: (mapM _ _) => // iBs.
    set r2 := loop _ _ _; have Hb2 : blocks r2.1 = blocks e1.
      apply: Kb => e y; rewrite /consume; case: (lindex _ _) => //= k; case: (lpop _ _) => //= l.
      by case: (lpop _ _).
    by case: r2 Hb2 => e2 [u2|] //= Hb2 [<-] /=; rewrite Hb2 Hb.
  have Hub : uniq (dkeys (blocks c2)).
    by rewrite (Ek2 _ _ _ E2) (S1_blk_keys HS1) /= gblks_keys //; case: Hg.
  exists (fun nm => odflt (if dget (blocks c2) nm is Some b then bxpos b else 0) (dget st.1 nm)).
  rewrite /set_pos /repos /=; case: (c2) Hub => zb' po pn' wa eq' nc' mm bs dC' dT' dE' iM cS' cf' cfl' xp /= Hub.
  rewrite /with_blocks /with_ports /=; congr Circ.
  have H : forall nb, List.In nb bs -> dget bs nb.1 = Some nb.2 by move=> [nm b] /(In_dget Hub).
  have Hm : forall (A B : Type) (f g : A -> B) l, (forall x, List.In x l -> f x = g x) -> map f l = map g l.
    by move=> A B f g; elim=> //= x l IH Hl; rewrite (Hl x (or_introl erefl)) IH // => y Hy; apply: Hl; right.
  by apply: Hm => nb Hi; rewrite /rb (H nb Hi).
have [[h1 HS1] Hok Epl] : [/\ exists h', S1 bx ([::] ++ G) c1 h' (Net (gblks ([::] ++ G)) [::] (gterms ([::] ++ G)) [::] [::]),
      all_ok ([::] ++ G) & pl = plist_of G].
  apply: (@stage1 _ G [::] _ [::] _ _ _ _ _ _ _ Hg E1) => //; split=> //.
  by exists [::].
rewrite /= in HS1 Hok.
have Hin p bs b : List.In (p, bs) pl -> b \in bs -> b \in users G p.
  rewrite Epl => Hi; have := In_dget (plist_uniq G) Hi; rewrite (plistE _ Hnm).
  by case: (users G p) => // u us [<-].
have [h2 HS2] := stage2 HS1 (fun p bs b Hi Hb => users_node Hok (Hin p bs b Hi Hb)) E2.
have [[xs [Hr2 Sx2]] Sc2 EN2 EP2] := HS2; rewrite /= in EN2.
have Hone p b : dget pl p = Some [:: b] -> b \in users G p.
  by move=> Hd; have Hi := dget_In Hd; apply: (Hin _ _ _ Hi); rewrite mem_head.
have Hne : near (ports c2) c3 (repos c2 xs bx).
  rewrite Ebx; exists xs; split=> // k Hk; rewrite mem_nth //.
have [|p b Hd|h3 [c4' [J' [H1 H2 H3 H4 H5]]]] := stage3 _ _ Hr2 Hne EN2 EP2 E4.
- by move=> p b /Hone /users_sub; rewrite gblks_keys.
- by apply: users_node => //; exact: Hone.
have HI4 := ci_inv (reach_CI H1); rewrite H3 in HI4.
have Epo : ports c4' = ns by have [ys [-> _ _ _]] := H2.
have Hfree p : (p \in ns) = free (Net (gblks G) (joins pl ++ J') (gterms G) [::] [::]) p.
  by rewrite -Epo (v_fp HI4).
have [|EJ Hu Hnn] := H5; first by move=> p; rewrite Hfree.
have Ec4 : c4' = c4.
  apply: (near_eq H2) => p; rewrite Hpn => /Hnn Hp; apply/negP => Hp2; move/negP: Hp; apply.
  have := ci_inv (reach_CI Hr2); rewrite EN2 => HI2.
  exact: (port_node HI2 (p := p)).
rewrite Ec4 in H1.
exists h3; split=> //; first by rewrite H3 EJ Epl.
split=> //.
- by move=> p; rewrite Hfree EJ Epl.
- by move=> p /Hnn; rewrite /nodes mem_cat => /norP[].
- move=> p Hp; move: E4 Hp; clear -Hone Epl Hnm; rewrite Epl in Hone *; elim: ns c3 => //= q l IH c3.
  case Ee: (gtl_ext _ c3 q) => [c3'|] //= /IH Hi; rewrite in_cons => /orP[/eqP ->|//].
  move: Ee; rewrite /gtl_ext (plistE _ Hnm); case: (users G q) => [|b [|]] //.
by rewrite -Epl.
Qed.

Theorem build_reach rel G f0 fl0 c : z != 0 -> gtl_ok G -> build nan z ns rel G f0 fl0 = Ok c ->
  exists h, [/\ reach z ns h c, net_hist h = gnet G, past_of h = Past true [:: (f0, fl0)] false,
    all_ok G & [/\ uniq ns, (forall p, (p \in ns) = free (gnet G) p),
    (forall p, p \in ns -> p \notin flatten (map (@blk_nodes _ _ _ K) (gblks G))),
    (forall p, p \in ns -> size (users G p) = 1%N) &
    singles (plist_of G) = size ns /\ ports c = ns]].
Proof.
move=> Hz Hg; rewrite /build; case E4: (assemble _ _ _ _ _) => [c4|] //=.
case E5: (get1S _ _ _ _ _) => [c5 [Sm|]] //= [<-].
have [h3 [H1 H3 H4 Hok [Hu Hfree Hdis Hone [Hs Hpn]]]] := assemble_reach Hz Hg E4.
have Hr5 : reach z ns (rcons h3 (OGetS K f0 z fl0, true)) c5.
  by apply: (reach_snoc H1); [rewrite H4|rewrite /exec E5].
exists (rcons h3 (OGetS K f0 z fl0, true)); split=> //.
- by rewrite net_rcons H3.
- by rewrite past_rcons H4.
split=> //; split=> //.
have [|HD _ _ [_ _ _ [Eo _] _]] := get1S_CI (reach_CI H1) _ E5; first by rewrite H4.
by rewrite Eo /order; case: (oi_pn (reach_OI H1)) => [->|[-> _ _]] //; case: (ns) Hpn.
Qed.
End Hist.

(** Descriptions that are accepted, and the positions in the result. *)
From mathcomp Require Import all_ssreflect all_algebra.
From mathcomp Require Import zify.
From Coq Require Import String Ascii.
From Coq Require List.
From Verif Require Import Base MxLib ConvModel ConvSpec ConvProofs ConvArr CircModel CircSpec CircLib CircInv CircTerm CircApp CircConn CircAdd CircDe CircFill CircSolve CircExt CircHist CircGet CircMain CircOrd CircThm CircThm2 CircThm3 CircThm4 CircThm6 CircMaxV CircFlat SetThm GtlNet GtlNetT GtlNetH GtlNetL GtlPos.
Set Implicit Arguments.
Unset Strict Implicit.
Unset Printing Implicit Defensive.
Import GRing.Theory Num.Theory.
Local Open Scope string_scope.
Local Open Scope ring_scope.
Local Open Scope seq_scope.

Arguments gtl_block : simpl never.
Arguments place_loop : simpl never.
Arguments place : simpl never.
Arguments getpos_fuel : simpl never.

Section Acc.
Variable C : numClosedFieldType.
Variables F Fl : eqType.
Variable K : vcls C F Fl.
Variable nan : C.
Notation circ := (circ K).
Notation getp := (@getpos_flat C F Fl K).
Notation gtl := (gtl K).
Implicit Types (c : circ) (G : gtl).

(** ** calls that succeed *)
Lemma consume_loop c ps : uniq ps -> {subset ps <= ports c} -> size (xpos c) = size (ports c) -> uniq (ports c) ->
  exists xs, loop (@consume C F Fl K) c ps = (with_ports c [seq p <- ports c | p \notin ps] xs, Ok tt) /\
     size xs = size [seq p <- ports c | p \notin ps].
Proof.
elim: ps c => [|p ps IH] c /= Hu Hs Hx Hup.
  by exists (xpos c); rewrite filter_predT; case: (c) Hx.
case/andP: Hu => Hp Hu.
have Hpc : p \in ports c by apply: Hs; rewrite mem_head.
have [ys Ey Sy] : exists2 t, lpop (xpos c) (seq.index p (ports c)) = Ok t & (size t).+1 = size (xpos c).
  by apply: lpop_ok; rewrite Hx index_mem.
have -> : consume c p = (with_ports c (rem p (ports c)) ys, Ok tt).
  by rewrite /consume /lindex Hpc lpop_index // Ey.
cbn [fst snd]; set c1 := with_ports c _ _.
have E1 : ports c1 = rem p (ports c) by [].
have [|||xs [E2 S2]] := IH c1 Hu.
- by move=> q Hq; rewrite E1 rem_filter // mem_filter /= Hs ?in_cons ?Hq ?orbT // andbT; apply/eqP => E; rewrite -E Hq in Hp.
- rewrite /c1 /= size_rem //; move: Sy; rewrite Hx => /(congr1 predn) /=.
  by [].
- by rewrite E1 rem_uniq.
have Ef : [seq q <- ports c1 | q \notin ps] = [seq q <- ports c | q \notin p :: ps].
  by rewrite E1 rem_filter // -filter_predI; apply: eq_filter => q /=; rewrite in_cons negb_or andbC.
by exists xs; rewrite E2 S2 Ef.
Qed.

Lemma term_fn c p kw rho : rho_of (zb c) kw = Ok rho -> p \in ports c -> fwd p \in waves c -> bwd p \in waves c ->
  size (xpos c) = size (ports c) -> uniq (ports c) -> exists c', terminate c p kw = (c', Ok tt).
Proof.
move=> Er Hp Hf Hb Hx Hu; rewrite /terminate Er.
case: (dget (dT c) p) => [[[i1 i2] e]|]; first by eexists.
have Hs : (size (ports c) <= size (xpos c))%N by rewrite Hx.
case: (dget (dE c) p) => [e|].
  rewrite !lindex_in //; set c1 := with_dicts _ _ _ _.
  have [xs -> _] := consume_ok (c := c1) (p := p) Hp Hs; by eexists.
have [xs -> _] := consume_ok Hp Hs; rewrite /= !lindex_in //; by eexists.
Qed.

Lemma conn_old c ps : uniq ps -> {subset ps <= ports c} -> size (xpos c) = size (ports c) -> uniq (ports c) ->
  (forall p, p \in ps -> fwd p \in waves c /\ bwd p \in waves c) ->
  exists c', connect getp c ps = (c', Ok tt).
Proof.
move=> Hu Hs Hx Hup Hw; rewrite /connect.
have -> : newports c ps = [::].
  by rewrite /newports (eq_in_filter (a2 := pred0)) ?filter_pred0 // => p /Hw [-> _].
cbn [size loop fst snd].
rewrite (mapM_lindex (h := fun p => if p \in [::] then bwd p else fwd p)); last by move=> p /mapP[q /Hw [H _] ->].
rewrite (mapM_lindex (h := fun p => if p \in [::] then fwd p else bwd p)); last by move=> p /mapP[q /Hw [_ H] ->].
have [xs [E _]] : exists xs, loop (@consume C F Fl K) c [seq p <- ps | p \notin [::]] = (with_ports c [seq p <- ports c | p \notin [seq p <- ps | p \notin [::]]] xs, Ok tt) /\ size xs = size [seq p <- ports c | p \notin [seq p <- ps | p \notin [::]]].
  by apply: consume_loop => //; rewrite filter_predT.
by rewrite E; eexists.
Qed.

Lemma getp_blk c b p bl xs : ~~ has_char "."%char b -> dget (blocks c) b = Some bl -> p \in bports bl ->
  oxpos (bobj bl) = Some xs -> (size (bports bl) <= size xs)%N ->
  getp c (dot b p) = Ok (bxpos bl + nth 0 xs (seq.index p (bports bl))).
Proof.
move=> Hb Hbl Hp Ex Hs; have Esp : split_dot (dot b p) = Some (b, p) by exact: split_dot_dot.
have Hk : (seq.index p (bports bl) < size xs)%N by rewrite (leq_trans _ Hs) // index_mem.
by rewrite /getpos_flat; case: (String.length _) => [|n]; rewrite /getpos_fuel Esp Hbl lindex_in //= Ex Hk.
Qed.

(** a block port gets an outer name *)
Lemma conn_ext c b p x : ~~ has_char "."%char b -> (forall c', blocks c' = blocks c -> getp c' (dot b p) = Ok x) ->
  dot b p \in ports c -> fwd (dot b p) \in waves c -> bwd (dot b p) \in waves c -> ~~ has_char "."%char p ->
  fwd p \notin waves c -> size (xpos c) = size (ports c) ->
  let k := seq.index (dot b p) (ports c) in
  exists c', [/\ connect getp c [:: dot b p; p] = (c', Ok tt),
    ports c' = take k (ports c) ++ drop k.+1 (ports c) ++ [:: p],
    xpos c' = take k (xpos c) ++ drop k.+1 (xpos c) ++ [:: x],
    blocks c' = blocks c & waves c' = waves c ++ [:: fwd p; bwd p]].
Proof.
move=> Hb Hg Hdp Hf Hbw Hp Hn Hx; rewrite /connect.
have En : newports c [:: dot b p; p] = [:: p] by rewrite /newports /= Hf Hn.
have Eo : oldports c [:: dot b p; p] = [:: dot b p] by rewrite /oldports /= Hf (negbTE Hn).
have Hdn : dot b p != p by apply/eqP => E; move: Hp; rewrite -E dot_has.
rewrite En Eo; cbn [size]; rewrite ltnn (negbTE Hp).
have -> : loop (fun c q => connect_new getp c [:: dot b p] q) c [:: p] = (with_ports (with_waves c (waves c ++ [:: fwd p; bwd p])) (ports c ++ [:: p]) (xpos c ++ [:: x]), Ok tt).
  by rewrite /= /connect_new; set c2 := with_ports _ _ (xpos c); rewrite (Hg c2).
cbn [fst snd]; set c1 := with_ports _ _ _.
have Ew : waves c1 = waves c ++ [:: fwd p; bwd p] by [].
rewrite (mapM_lindex (h := fun q => if q \in [:: p] then bwd q else fwd q)); last first.
  move=> q; rewrite /= !in_cons in_nil !orbF eqxx (negbTE Hdn) => /orP[]/eqP ->; by rewrite mem_cat ?Hf // !in_cons eqxx !orbT.
rewrite (mapM_lindex (h := fun q => if q \in [:: p] then fwd q else bwd q)); last first.
  move=> q; rewrite /= !in_cons in_nil !orbF eqxx (negbTE Hdn) => /orP[]/eqP ->; by rewrite mem_cat ?Hbw // !in_cons eqxx !orbT.
have -> : [seq q <- [:: dot b p; p] | q \notin [:: p]] = [:: dot b p] by rewrite /= !in_cons !in_nil !orbF eqxx Hdn.
set k := seq.index (dot b p) (ports c); have Hk : (k < size (ports c))%N by rewrite index_mem.
have Ec : consume c1 (dot b p) = (with_ports c1 (take k (ports c) ++ drop k.+1 (ports c) ++ [:: p]) (take k (xpos c) ++ drop k.+1 (xpos c) ++ [:: x]), Ok tt).
  have Hdc : (dot b p \in ports c1) by rewrite /= mem_cat Hdp.
  rewrite /consume /lindex Hdc; have -> : seq.index (dot b p) (ports c1) = k by rewrite /= index_cat Hdp.
  rewrite /lpop /= !size_cat /= !addn1 Hx !ltnS (ltnW Hk) !take_cat !drop_cat Hx Hk.
  have Hdr (T : Type) (l : seq T) (y : T) : size l = size (ports c) -> (if (k.+1 < size (ports c))%N then drop k.+1 l ++ [:: y] else drop (k.+1 - size (ports c)) [:: y]) = drop k.+1 l ++ [:: y].
    move=> El; case: ltnP => // Hk'; have -> : k.+1 = size l by apply/eqP; rewrite El eqn_leq Hk' andbT.
    by rewrite drop_size El subnn.
  by rewrite !Hdr.
by rewrite /= Ec; eexists.
Qed.

Lemma consume_blocks c p : blocks (consume c p).1 = blocks c.
Proof. by rewrite /consume; case: (lindex _ _) => //= k; case: (lpop _ _) => //= l; case: (lpop _ _). Qed.
Lemma term_blocks c p kw c' : terminate c p kw = (c', Ok tt) -> blocks c' = blocks c.
Proof.
rewrite /terminate; case: (rho_of _ _) => // rho; case: (dget (dT c) p) => [[[i1 i2] e]|]; first by case=> <-.
case: (dget (dE c) p) => [e|].
  case: (lindex _ _) => // iA; case: (lindex _ _) => // iB; set c1 := with_dicts _ _ _ _.
  by have := consume_blocks c1 p; case: (consume c1 p) => d [[]|] //= Eb [<-].
have := consume_blocks c p; case: (consume c p) => d [[]|] //= Eb.
by case: (lindex _ _) => // iA; case: (lindex _ _) => // iB [<-].
Qed.
Lemma loop_blocks A (stp : circ -> A -> circ * res unit) ys c : (forall c y, blocks (stp c y).1 = blocks c) -> blocks (loop stp c ys).1 = blocks c.
Proof. by move=> H; elim: ys c => //= y ys IHy e; case Es: (stp e y) => [e1 [u|]] /=; rewrite ?IHy -(H e y) Es. Qed.
Lemma conn_blocks c ps c' : connect getp c ps = (c', Ok tt) -> blocks c' = blocks c.
Proof.
rewrite /connect; case: ifP => // _; case: ifP => // _; move: (newports _ _) (oldports _ _) => n1 o1.
have Kc e y : blocks (connect_new getp e o1 y).1 = blocks e.
  by rewrite /connect_new; case: (o1) => [|o l] //=; case: (getpos_flat _ _).
set r := loop _ c _; have Hb : blocks r.1 = blocks c by apply: loop_blocks.
case: r Hb => e1 [u|] //= Hb; case: (mapM _ _) => // iAs; case: (mapM _ _) => // iBs.
set r2 := loop _ _ _; have Hb2 : blocks r2.1 = blocks e1 by apply: loop_blocks => e y; exact: consume_blocks.
by case: r2 Hb2 => e2 [u2|] //= Hb2 [<-] /=; rewrite Hb2 Hb.
Qed.

Lemma load_rho_ok (z : C) kw : load_fits z kw -> exists rho, rho_of z kw = Ok rho.
Proof.
case=> [->|[Z -> H]|[Y -> H]|[R ->]]; rewrite /rho_of /=; try by eexists.
  by rewrite (negbTE H) /=; eexists.
by rewrite (negbTE H) /=; eexists.
Qed.

(** ** stage 1: the blocks *)
Definition bview (nb : string * block K) : string * block K :=
  (nb.1, Block (bports nb.2) (0%N, 0%N) (bobj nb.2) (bxpos nb.2)).
Definition gview G : seq (string * block K) :=
  pmap (fun bg => if gobj bg.2 is Ok o then Some (bg.1, Block (gnames bg.2) (0%N, 0%N) o (odflt (- 10%:R) (gx bg.2))) else None) G.

Variables (z : C) (ns : seq string).
Hypothesis Hz : z != 0.

Lemma acc_block bx G c h b g pl pos :
  S1 nan z ns bx G c h (Net (gblks G) [::] (gterms G) [::] [::]) -> all_ok G ->
  b \notin dkeys G -> uniq (gnames g) ->
  ~~ has_char "."%char b ->
  (exists o xs, [/\ gobj g = Ok o, osize o = size (gports g) & oxpos o = Some xs]) ->
  (forall o, gobj g = Ok o -> oinv o) ->
  (gx g <> None -> exists p ps, gports g = p :: ps /\ special p = None) ->
  (forall p kw, List.In p (gports g) -> special p = Some kw -> load_fits z kw) ->
  exists c', gtl_block nan (c, pl, pos) (b, g) = Ok (c', foldl (port_add b) pl (gports g),
      if gx g is Some x then dset pos (head "" (gnames g)) x else pos) /\
    map bview (blocks c') = map bview (blocks c) ++ gview [:: (b, g)].
Proof.
move=> HS Hok Hb Hu Hd [o [xo [Eo So Ex]]] Hi Hp Hl.
have HbN : b \notin dkeys (gblks G) by rewrite gblks_keys.
have Hbc : dget (blocks c) b = None by apply/dget_None; rewrite (S1_blk_keys HS).
have [[xs [Hr Sx]] Sc EN EP] := HS; have HI := ci_inv (reach_CI Hr); rewrite EN in HI.
rewrite /gtl_block Eo.
have -> : (if gx g is Some x then if gnames g is n :: _ then Ok (dset pos n x) else Raise IndexError else Ok pos) =
  Ok (if gx g is Some x then dset pos (head "" (gnames g)) x else pos).
  by case: (gx g) Hp => // x [|p [ps [E _]]] //; rewrite /gnames E.
cbn [bind]; rewrite {1}/addblock (negbTE Hd) /= Hbc /addblock_new.
have Er : resolve_ports (osize o) (oports o) (PList (gnames g)) = Ok (gnames g).
  by rewrite /resolve_ports So; case: (oports o) => [ps|] /=; rewrite size_map eqxx.
rewrite Er /lift; cbn [fst snd bind]; set c1 := with_ports _ _ _.
have Eb1 : blocks c1 = blocks c ++ [:: (b, Block (gnames g) (size (mM c), nc c) o (odflt (- 10%:R) (gx g)))].
  by rewrite /c1 /= dset_new //; apply/dget_None.
have Ev : map bview (blocks c1) = map bview (blocks c) ++ gview [:: (b, g)].
  by rewrite Eb1 map_cat /gview /= Eo.
case El: (last_term (gports g)) => [t|]; last by exists c1.
have [q Hq [E1 E2]] := last_termP El; have [rho Erho] := load_rho_ok (Hl _ _ Hq E2).
have Hqn : dot b t.1 \in [seq dot b p | p <- gnames g] by rewrite map_f // -E1 gname_in.
have Sxo : (osize o <= size xo)%N := oinv_xpos (Hi _ Eo) Ex.
have [||||||c2 Ec2] := @term_fn c1 (dot b t.1) t.2 rho.
- by rewrite /= (_ : zb c = z) //; have := ci_z (reach_CI Hr).
- by rewrite /= mem_cat Hqn orbT.
- by rewrite /= !mem_cat; apply/or3P/Or32/mapP; case/mapP: Hqn => p Hp' E; exists p; rewrite ?E.
- by rewrite /= !mem_cat; apply/or3P/Or33/mapP; case/mapP: Hqn => p Hp' E; exists p; rewrite ?E.
- rewrite /= !size_cat Sc Ex !size_map; congr addn; rewrite size_zip size_map.
  by apply/minn_idPl; rewrite -So.
- rewrite /= cat_uniq; have := v_up HI; rewrite /= => ->; rewrite map_inj_uniq ?Hu ?andbT; last exact: dot_inj.
  apply/hasPn => r /mapP[p Hp' ->]; apply/negP => /(port_node HI (p := _)); rewrite /nodes /= cats0.
  by move=> /mem_fl [[b' [ps' o']] /gblksP [g' [Hi' _ _]]] /mapP[p' _ E];
     move: Hb; rewrite (dot_name Hd _ E) ?(key_in Hi') //; apply: (v_nb HI); rewrite /= gblks_keys // (key_in Hi').
rewrite Ec2; cbn [bind]; exists c2; split=> //; rewrite -Ev.
by rewrite (term_blocks Ec2).
Qed.

Lemma acc1 bx G2 : forall G c h pl pos,
  S1 nan z ns bx G c h (Net (gblks G) [::] (gterms G) [::] [::]) -> all_ok G -> gtl_ok (G ++ G2) ->
  (forall b g, List.In (b, g) G2 -> [/\ ~~ has_char "."%char b,
     exists o xs, [/\ gobj g = Ok o, osize o = size (gports g) & oxpos o = Some xs],
     (gx g <> None -> exists p ps, gports g = p :: ps /\ special p = None) &
     forall p kw, List.In p (gports g) -> special p = Some kw -> load_fits z kw]) ->
  exists c', foldM (@gtl_block _ _ _ _ nan) (c, pl, pos) G2 =
      Ok (c', foldl (fun pl bg => foldl (port_add bg.1) pl (gports bg.2)) pl G2, given pos G2) /\
    map bview (blocks c') = map bview (blocks c) ++ gview G2.
Proof.
elim: G2 => [|[b g] G2 IH] G c h pl pos HS Hok Hg Hc /=; first by exists c; rewrite cats0.
have [U Hg'] := Hg.
have Hin : List.In (b, g) (G ++ (b, g) :: G2) by apply: List.in_or_app; right; left.
have [Hu Ho] := Hg' _ _ Hin.
have Hb : b \notin dkeys G by move: U; rewrite /dkeys map_cat cat_uniq /= => /and3P[_ /norP[]].
have [Hd Hx Hp Hl] := Hc _ _ (or_introl erefl).
have [c1 [E1 V1]] := acc_block pl pos HS Hok Hb Hu Hd Hx Ho Hp Hl.
have [[h1 H1] Hok1 Epl] := step_block HS Hok Hb Hu Ho E1.
rewrite -cat_rcons in Hg.
have [|c2 [E2 V2]] := IH _ _ _ (foldl (port_add b) pl (gports g)) (if gx g is Some x then dset pos (head "" (gnames g)) x else pos) H1 Hok1 Hg.
  by move=> b' g' Hi; apply: Hc; right.
exists c2; rewrite E1 /= E2; split=> //.
rewrite V2 V1 -catA; congr cat; rewrite /gview /=; by case: Hx => o [xs [-> _ _]].
Qed.

(** ** stage 2: the joins *)
Lemma acc2 bx G B T pl : forall J c h, S1 nan z ns bx G c h (Net B J T [::] [::]) ->
  uniq (dkeys pl) -> (forall b, b \in dkeys B -> ~~ has_char "."%char b) ->
  (forall p bs, List.In (p, bs) pl -> uniq bs /\ forall b, b \in bs -> b \in dkeys B /\ free (Net B J T [::] [::]) (dot b p) /\
      dot b p \in flatten (map (@blk_nodes _ _ _ K) B)) ->
  exists c', foldM (@gtl_join _ _ _ K) c pl = Ok c' /\ blocks c' = blocks c.
Proof.
elim: pl => [|[p bs] pl IH] J c h HS Hu Hnd Hc /=; first by exists c.
case/andP: Hu => Hp Hu.
have Hc' : forall p0 bs0, List.In (p0, bs0) pl -> uniq bs0 /\ forall b, b \in bs0 -> b \in dkeys B /\ free (Net B J T [::] [::]) (dot b p0) /\
      dot b p0 \in flatten (map (@blk_nodes _ _ _ K) B).
  by move=> p0 bs0 Hi; apply: Hc; right.
case Es: (1 < size bs)%N; last by rewrite {1}/gtl_join /= Es /=; exact: IH HS Hu Hnd Hc'.
have [Hub Hb] := Hc _ _ (or_introl erefl).
have [[xs [Hr Sx]] Sc EN EP] := HS; have HI := ci_inv (reach_CI Hr); rewrite EN in HI.
have [|||||c1 E1] := @conn_old c [seq dot b p | b <- bs].
- rewrite map_inj_in_uniq // => b1 b2 /Hb [/Hnd D1 _] /Hb [/Hnd D2 _] E; exact: dot_name E.
- move=> q /mapP[b /Hb [_ [Hf _]] ->]; by have := v_fp HI (dot b p); rewrite Hf.
- exact: Sc.
- by have := v_up HI.
- move=> q /mapP[b /Hb [_ [/andP[Hf _] _]] ->]; have := fwd_wave (dot b p) HI; have := bwd_wave (dot b p) HI.
  by rewrite Hf.
have Ej : gtl_join c (p, bs) = Ok c1 by rewrite /gtl_join /= Es E1.
have [||h1 H1] := @stage2 _ _ _ K nan z ns bx G B T [:: (p, bs)] J c h c1 HS.
- by move=> p0 bs0 b0 [[<- <-]|//] /Hb [_ []].
- by rewrite /= Ej.
have [|c2 [E2 B2]] := IH _ _ _ H1 Hu Hnd.
- move=> p0 bs0 Hi; have [U0 H0] := Hc' _ _ Hi; split=> // b /H0 [D0 [F0 N0]]; split=> //; split=> //.
  move: F0; rewrite /free /nodes /used /joins /= Es /= map_cat flatten_cat /= !mem_cat N0 /= !in_nil !orbF.
  rewrite !negb_or => /andP[-> ->]; rewrite !andbT; apply/mapP => -[b' /Hb [D' _] E].
  have Eb := dot_name (Hnd _ D0) (Hnd _ D') E; rewrite Eb in E; move/negP: Hp; apply.
  by rewrite -(dot_inj E); exact: In_keys Hi.
by exists c2; rewrite Ej /= E2 B2 (conn_blocks E1).
Qed.

(** ** stage 3: the positions and the outer names *)
Lemma gviewP G b bl : all_ok G -> List.In (b, bl) (gview G) <-> exists g o, [/\ List.In (b, g) G, gobj g = Ok o &
   bl = Block (gnames g) (0%N, 0%N) o (odflt (- 10%:R) (gx g))].
Proof.
elim: G => [|[b' g'] G IH] Hok /=; first by split=> // -[g [o []]].
have [|o' Eo] := Hok b' g'; first by left.
have {}IH := IH (fun b g H => Hok b g (or_intror H)).
rewrite /gview /= Eo /= -/(gview G) IH; split=> [[[<- <-]|[g [o [H1 H2 H3]]]]|[g [o [[[<- <-]|Hi] H2 ->]]]].
- by exists g', o'; split=> //; left.
- by exists g, o; split=> //; right.
- by left; move: H2; rewrite Eo => -[->].
- by right; exists g, o.
Qed.

Lemma gview_keys G : all_ok G -> dkeys (gview G) = dkeys G.
Proof.
elim: G => //= -[b g] G IH H; have [|o Eo] := H b g; first by left.
by rewrite /gview /= Eo /= -/(gview G) IH // => b' g' Hg; apply: (H b' g'); right.
Qed.
Lemma bview_keys bs : dkeys (map bview bs) = dkeys bs.
Proof. by elim: bs => //= nb bs ->. Qed.
Lemma bview_offs bs : boffs (map bview bs) = boffs bs.
Proof. by elim: bs => //= nb bs ->. Qed.
Lemma gview_offs G : all_ok G -> boffs (gview G) = goffs G.
Proof.
elim: G => //= -[b g] G IH H; have [|o Eo] := H b g; first by left.
by rewrite /gview /= Eo /= -/(gview G) IH // => b' g' Hg; apply: (H b' g'); right.
Qed.
Lemma bview_get bs b v : dget (map bview bs) b = Some v -> exists2 bl, dget bs b = Some bl &
  [/\ bports bl = bports v, bobj bl = bobj v & bxpos bl = bxpos v].
Proof. by elim: bs => //= -[k bl] bs IH /=; case: eqP => // _ [<-]; exists bl. Qed.

Lemma given_keys rel G p : p \in dkeys (given rel G) -> p \in dkeys rel \/
  exists b g, [/\ List.In (b, g) G, gx g <> None & p = head "" (gnames g)].
Proof.
rewrite /given; elim: G rel => [|[b g] G IH] rel /=; first by left.
move/IH => [H|[b' [g' [H1 H2 H3]]]]; last by right; exists b', g'; split=> //; right.
move: H; case Eg: (gx g) => [x|]; last by left.
rewrite dkeys_dset; case: ifP => Hk; first by left.
rewrite mem_rcons in_cons => /orP[/eqP ->|]; last by left.
by right; exists b, g; split=> //; [left|rewrite Eg].
Qed.
Lemma given_uniq rel G : uniq (dkeys rel) -> uniq (dkeys (given rel G)).
Proof.
rewrite /given; elim: G rel => [|[b g] G IH] rel //= Hu; apply: IH; case: (gx g) => // x.
by rewrite uniq_dset.
Qed.

Lemma first_ok c pl pos : (forall p, p \in dkeys pos -> exists2 bs, dget pl p = Some bs &
    forall b, b \in bs -> exists bl xs, [/\ dget (blocks c) b = Some bl, p \in bports bl, oxpos (bobj bl) = Some xs &
      (size (bports bl) <= size xs)%N]) -> place_first c pl pos = Ok tt.
Proof.
rewrite /place_first => H.
have H1 : forall (l : posns C), (forall p, p \in dkeys l -> p \in dkeys pos) ->
  foldM (fun _ (px : string * C) =>
    if dget pl px.1 is Some bs then
      foldM (fun _ b => if dget (blocks c) b is Some bl then
                          do k <- lindex (bports bl) px.1;
                          if k == 0%N then Ok tt
                          else if oxpos (bobj bl) is Some xs then
                            if (1 < size xs)%N then Ok tt else Raise IndexError
                          else Raise AttributeError
                        else Raise KeyError) tt bs
    else Raise KeyError) tt l = Ok tt; last exact: H1.
elim=> [|[p x] l IH] Hl //=; have [bs -> Hbs] := H p (Hl p (mem_head _ _)).
have -> : foldM (fun (_ : unit) (b : string) => if dget (blocks c) b is Some bl then
                          do k <- lindex (bports bl) p;
                          if k == 0%N then Ok tt
                          else if oxpos (bobj bl) is Some xs then
                            if (1 < size xs)%N then Ok tt else Raise IndexError
                          else Raise AttributeError
                        else Raise KeyError) tt bs = Ok tt.
  elim: bs Hbs => //= b bs IHb Hbs; have [bl [xs [-> Hp -> Hs]]] := Hbs b (mem_head _ _).
  rewrite lindex_in //=; have Hk : (seq.index p (bports bl) < size xs)%N by rewrite (leq_trans _ Hs) // index_mem.
  have -> : (if seq.index p (bports bl) == 0%N then Ok tt else if (1 < size xs)%N then Ok tt else Raise IndexError) = Ok tt.
    by case: eqP => // /eqP; rewrite -lt0n => Hk0; rewrite (leq_ltn_trans Hk0 Hk).
  by apply: IHb => b' Hb'; apply: Hbs; rewrite in_cons Hb' orbT.
by apply: IH => q Hq; apply: Hl; rewrite in_cons Hq orbT.
Qed.

(** the outer names *)
Lemma acc3 pl (usr : string -> string) (Xp : string -> C) (nds : seq string) ns2 : forall R D XR c,
  ports c = R ++ D -> xpos c = XR ++ map Xp D -> size XR = size R -> uniq (D ++ ns2) ->
  (forall q, (fwd q \in waves c) = (q \in nds) || (q \in D)) -> (forall q, q \in nds -> bwd q \in waves c) ->
  (forall p, p \in ns2 -> [/\ dget pl p = Some [:: usr p], ~~ has_char "."%char (usr p), ~~ has_char "."%char p, p \notin nds &
     dot (usr p) p \in nds /\ dot (usr p) p \in R /\ forall c', blocks c' = blocks c -> getp c' (dot (usr p) p) = Ok (Xp p)]) ->
  uniq R -> (forall p q, p \in ns2 -> q \in ns2 -> dot (usr p) p = dot (usr q) q -> p = q) ->
  exists c' R' XR', [/\ foldM (gtl_ext pl) c ns2 = Ok c', ports c' = R' ++ D ++ ns2, xpos c' = XR' ++ map Xp (D ++ ns2),
    size XR' = size R' & blocks c' = blocks c /\ forall q, q \in R' -> q \in R /\ forall p, p \in ns2 -> q != dot (usr p) p].
Proof.
elim: ns2 => [|p ns2 IH] R D XR c EP EX ES Hu Hf Hb Hp HuR Hinj /=.
  by exists c, R, XR; rewrite !cats0; split=> //; split.
have [Epl Hdu Hdp Hpn [Hdn [HdR Hg]]] := Hp p (mem_head _ _).
have Hpu : p \notin D by move: Hu; rewrite cat_uniq /= => /and3P[_ /norP[]].
have [||||||c1 [E1 P1 X1 B1 W1]] := @conn_ext c (usr p) p (Xp p) Hdu Hg.
- by rewrite EP mem_cat HdR.
- by rewrite Hf Hdn.
- exact: Hb.
- by [].
- by rewrite Hf negb_or Hpn Hpu.
- by rewrite EP EX !size_cat ES size_map.
set d := dot (usr p) p in P1 X1 HdR Hdn; have Ek : seq.index d (ports c) = seq.index d R by rewrite EP index_cat HdR.
have Hk : (seq.index d R < size R)%N by rewrite index_mem.
rewrite Ek in P1 X1; set k := seq.index d R in P1 X1 Hk.
have Hdr (T : Type) (A B : seq T) : size A = size R -> take k (A ++ B) ++ drop k.+1 (A ++ B) = (take k A ++ drop k.+1 A) ++ B.
  move=> EA; rewrite take_cat drop_cat EA Hk -catA; congr cat; case: ltnP => // Hk'.
  have EkA : k.+1 = size A by rewrite EA; apply/eqP; rewrite eqn_leq Hk Hk'.
  by rewrite EkA drop_size EA subnn drop0.
have Erm : take k R ++ drop k.+1 R = rem d R.
  by have := lpop_index HdR; rewrite /lpop -/k Hk => -[].
have Ej : gtl_ext pl c p = Ok c1 by rewrite /gtl_ext Epl E1.
have [|||||||||c2 [R' [XR' [E2 P2 X2 S2 [B2 H2]]]]] := IH (take k R ++ drop k.+1 R) (D ++ [:: p]) (take k XR ++ drop k.+1 XR) c1.
- by rewrite P1 EP catA Hdr // catA.
- by rewrite X1 EX catA Hdr // map_cat catA.
- by rewrite !size_cat !size_take !size_drop ES.
- by rewrite -catA.
- by move=> q; rewrite W1 mem_cat Hf !in_cons !in_nil fwd_bwd fwd_eq !orbF mem_cat in_cons in_nil orbF orbA.
- by move=> q Hq; rewrite W1 mem_cat Hb.
- move=> q Hq; have [G1 G2 G3 G4 [G5 [G6 G7]]] := Hp q (mem_behead (s := p :: ns2) Hq); split=> //; split=> //; split; last first.
    by move=> c' Hc'; apply: G7; rewrite Hc'.
  have Hne : dot (usr q) q != d.
    apply/eqP => /(Hinj _ _ (mem_behead (s := p :: ns2) Hq) (mem_head _ _)) Eqp.
    by move: Hu; rewrite cat_uniq /= -Eqp Hq !andbF.
  by rewrite Erm mem_rem_uniq // inE Hne.
- by rewrite Erm rem_uniq.
- by move=> q r Hq Hr; apply: Hinj; rewrite in_cons ?Hq ?Hr orbT.
exists c2, R', XR'; rewrite Ej /= E2; rewrite -catA in P2 X2; split=> //; split; first by rewrite B2.
move=> q /H2 [Hq H3]; split.
  by move: Hq; rewrite mem_cat => /orP[/mem_take|/mem_drop].
move=> r; rewrite in_cons => /orP[/eqP ->|/H3 //]; move: Hq; rewrite Erm mem_rem_uniq // inE => /andP[//].
Qed.
End Acc.

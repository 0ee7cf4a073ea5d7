(** connect preserves the representation invariant. *)
From mathcomp Require Import all_ssreflect all_algebra.
From mathcomp Require Import zify.
From mathcomp.algebra_tactics Require Import ring.
From Coq Require Import String Ascii.
From Coq Require List.
From Verif Require Import Base MxLib ConvModel ConvSpec CircModel CircSpec CircLib CircInv CircTerm CircApp.
Set Implicit Arguments.
Unset Strict Implicit.
Unset Printing Implicit Defensive.
Import GRing.Theory Num.Theory.
Local Open Scope ring_scope.
Local Open Scope seq_scope.

Section Conn.
Variable C : numClosedFieldType.
Variables F Fl : eqType.
Variable K : vcls C F Fl.
Variable getpos : circ K -> string -> res C.
Notation circ := (circ K).
Notation net := (net K).
Implicit Types (c : circ) (N : net) (w : string -> C) (G : seq (gr C)).

Definition jn (nw : seq string) : option string := if nw is p :: _ then Some p else None.

Lemma perm_news (ps : seq string) (a : pred string) n : uniq ps -> filter (predC a) ps = [:: n] ->
  perm_eq ps (n :: filter a ps).
Proof.
move=> Hu E; rewrite -(perm_filterC a ps) E perm_catC /= perm_refl //.
Qed.

Lemma join_rows (ws nw ps : seq string) (z : C) w (a : pred string) : z != 0 -> uniq ws -> uniq ps ->
  {subset map (aw nw) ps <= ws} -> {subset map (bw nw) ps <= ws} ->
  nw = filter (predC a) ps -> (size nw <= 1)%N ->
  (forall i, (i < size ps)%N -> rsum ws (jcoef C nw ps i) w = 0) <->
  join_law (Vw w) (Iw z w) (filter a ps, jn nw).
Proof.
move=> Hz Hu Hp HA HB En Hs; rewrite junction_law // /join_law /=.
have HV p : w (aw nw p) + w (bw nw p) = Vw w p.
  by rewrite /aw /bw /Vw; case: ifP => // _; rewrite addrC.
have HIo p : p \notin nw -> w (aw nw p) - w (bw nw p) = z * Iw z w p.
  by move=> /negbTE H; rewrite /aw /bw H /Iw mulrCA divff // mulr1.
have HIn p : p \in nw -> w (aw nw p) - w (bw nw p) = - (z * Iw z w p).
  by move=> H; rewrite /aw /bw H /Iw mulrCA divff // mulr1 opprB.
have Ho p : p \in ps -> (p \notin nw) = a p.
  by move=> H; rewrite En mem_filter H andbT negbK.
have HS : \sum_(p <- filter a ps) (w (aw nw p) - w (bw nw p)) = z * \sum_(p <- filter a ps) Iw z w p.
  rewrite mulr_sumr; apply: eq_big_seq => p; rewrite mem_filter => /andP[Hap Hpp].
  by rewrite HIo // Ho.
have HVV (A B : seq string) : {in A & B, forall p q, w (aw nw p) + w (bw nw p) = w (aw nw q) + w (bw nw q)}
    <-> {in A & B, forall p q, Vw w p = Vw w q}.
  by split=> H p q H1 H2; have := H p q H1 H2; rewrite !HV.
have Hz0 (x : C) : (z * x = 0) <-> (x = 0).
  by split=> [/eqP|->]; rewrite ?mulr0 // mulf_eq0 (negbTE Hz) => /eqP.
rewrite HVV.
have [E|[n E]] : nw = [::] \/ exists n, nw = [:: n].
  by case: (nw) Hs => [|n [|//]]; [left|right; exists n].
  have -> : jn nw = None by rewrite E.
  have -> : filter a ps = ps.
    by apply/all_filterP/allP => p Hpp; rewrite -Ho // E.
  rewrite -(Hz0 (\sum_(p <- ps) Iw z w p)) mulr_sumr; split=> -[H1 H2]; split=> //; apply: (etrans _ H2); apply: eq_big_seq => p _.
    by rewrite -HIo // E.
  by rewrite HIo // E.
have -> : jn nw = Some n by rewrite E.
have Hpm := perm_news Hp (esym (etrans (esym E) En)).
have Hn : n \in nw by rewrite E mem_head.
rewrite (perm_big _ Hpm) /= big_cons HS HIn // -mulrN -mulrDr Hz0 addrC.
have Hin p : (p \in ps) = (p == n) || (p \in filter a ps) by rewrite (perm_mem Hpm) in_cons.
split=> [[H1 /eqP]|[H1 [H2 ->]]].
  rewrite subr_eq0 => /eqP ->; split; last split=> //.
    by move=> p q Hpp Hq; apply: H1; rewrite Hin ?Hpp ?Hq orbT.
  by move=> p Hpp; apply: H1; rewrite Hin ?Hpp ?eqxx ?orbT.
rewrite subrr; split=> // p q; rewrite !Hin => /orP[/eqP ->|Hpp] /orP[/eqP ->|Hq] //.
- by rewrite H2.
- by rewrite H2.
exact: H1.
Qed.

Lemma size_minus (s t : seq string) : uniq s -> uniq t -> {subset t <= s} ->
  (size [seq q <- s | q \notin t] + size t = size s)%N.
Proof.
move=> Hs Ht H; rewrite -(count_predC (mem t) s) addnC -!size_filter; congr addn.
apply: perm_size; apply: uniq_perm => //; first exact: filter_uniq.
by move=> q; rewrite mem_filter; apply/esym/andb_idr => /H.
Qed.

Definition building c := dE c = [::].

(** 804-811 *)
Lemma connect_new_ok c olds p c' : connect_new getpos c olds p = (c', Ok tt) ->
  exists x, c' = with_ports (with_waves c (waves c ++ [:: fwd p; bwd p]))
                   (ports c ++ [:: p]) (xpos c ++ [:: x]).
Proof.
rewrite /connect_new; case: olds => // o _; case: (getpos _ _) => // x -[<-].
by exists x.
Qed.

Lemma mapM_lindex (ws : seq string) (h : string -> string) ps : {subset map h ps <= ws} ->
  mapM (fun p => lindex ws (h p)) ps = Ok [seq seq.index (h p) ws | p <- ps].
Proof.
elim: ps => [|p ps IH] //= H; rewrite /lindex H ?mem_head //= IH //.
by move=> q Hq; apply: H; rewrite in_cons Hq orbT.
Qed.

Lemma mapM_lindex_ok (ws : seq string) (h : string -> string) ps r :
  mapM (fun p => lindex ws (h p)) ps = Ok r ->
  {subset map h ps <= ws} /\ r = [seq seq.index (h p) ws | p <- ps].
Proof.
elim: ps r => [|p ps IH] r //=; first by case=> <-.
rewrite {1}/lindex; case: ifP => //= Hp; case E: (mapM _ _) => [r'|] //= -[<-].
have [H1 ->] := IH _ E; split=> // s; rewrite in_cons => /orP[/eqP ->|/H1] //.
Qed.

Lemma row_holds_render W g w : row_holds W (render W (GK g)) w <-> rsum W g w = 0.
Proof.
rewrite /row_holds /rsum (big_nth "") big_mkord.
suff -> : \sum_(j < size W) nth 0 (render W (GK g)) j * w (nth "" W j) =
  \sum_(i < size W) g (nth "" W i) * w (nth "" W i) by [].
by apply: eq_bigr => j _; rewrite (nth_map "").
Qed.

Lemma connect_full c N ps c' : Inv c N -> building c -> connect getpos c ps = (c', Ok tt) ->
  (Inv c' (net_step N (@OConnect C F Fl K ps)) /\ building c') /\
  exists new, [/\ mM c' = hpad (2 * size [seq p <- ps | p \notin nodes N]) (mM c) ++ new, size new = size ps &
    forall w, (forall r, List.In r new -> row_holds (waves c') r w) <->
      join_law (V_of w) (I_of (zb c) w)
        ([seq p <- ps | p \in nodes N], jn [seq p <- ps | p \notin nodes N])].
Proof.
move=> HI Hbd; rewrite /connect; set nw := newports c ps; set olds := oldports c ps.
case: ifP => // /negbT; rewrite -leqNgt => Hn1; case: ifP => // Hdot.
have Enw : nw = [seq p <- ps | p \notin nodes N].
  by apply: eq_filter => p; rewrite (fwd_wave _ HI).
have Eol : olds = [seq p <- ps | p \in nodes N].
  by apply: eq_filter => p; rewrite (fwd_wave _ HI).
case El: (loop _ c nw) => [c1 [[]|e]] //=.
set W' := flatten [seq [:: fwd p; bwd p] | p <- nw].
have HW' : size W' = (2 * size nw)%N by rewrite /W'; elim: (nw) => //= p s ->; lia.
(* the state after the new port *)
have [xs1 Ec1 Hx1] : exists2 xs, c1 = with_ports (with_waves c (waves c ++ W')) (ports c ++ nw) xs &
    (size (ports c ++ nw) <= size xs)%N.
  rewrite /W'; clearbody olds; clear -Hn1 El HI.
  have Hx := v_xp HI.
  case: nw Hn1 El => [|p [|//]] _ /=.
    by case=> <-; exists (xpos c); rewrite ?cats0 //; case: (c).
  case E: (connect_new _ _ _ _) => [c2 [[]|]] //= -[<-].
  have [x ->] := connect_new_ok E; exists (xpos c ++ [:: x]) => //.
  by rewrite !size_cat /= leq_add2r.
case EA: (mapM _ ps) => [iAs|//]; case EB: (mapM _ ps) => [iBs|//].
have [HA EiA] := mapM_lindex_ok EA; have [HB EiB] := mapM_lindex_ok EB.
have Eo : [seq p <- ps | p \notin nw] = olds.
  rewrite Eol Enw; apply: eq_in_filter => p Hp; by rewrite mem_filter Hp andbT negbK.
rewrite Eo; case Ec: (loop _ c1 olds) => [c2 [[]|e]] //=.
have Hnwn p : p \in nw -> p \notin nodes N by rewrite Enw mem_filter => /andP[].
have Hunw : uniq nw by case: (nw) Hn1 => [|p [|]].
have Hup1 : uniq (ports c1).
  rewrite Ec1 /= cat_uniq (v_up HI) Hunw andbT /=; apply/hasPn => p /Hnwn.
  by apply: contra => /(port_node HI).
have Hxp1 : (size (ports c1) <= size (xpos c1))%N by rewrite Ec1.
have [Huo Hso [xs2 Ec2 Hx2]] := consume_loop Hup1 Hxp1 Ec.
have Hups : uniq ps.
  rewrite -(perm_uniq (permEl (perm_filterC (fun p => p \in nodes N) ps))) cat_uniq -Eol Huo.
  rewrite -[X in _ && (_ && uniq X)]Enw Hunw andbT /=.
  apply/hasPn => p; rewrite /= mem_filter => /andP[H1 _]; apply: contra H1.
  by rewrite Eol mem_filter => /andP[].
(* the equation rows *)
set W := waves c ++ W'.
have EW : waves c1 = W by rewrite Ec1.
have Hd s : s \in W' -> s \notin waves c.
  move=> /flattenP [l /mapP [p Hp ->]]; rewrite !inE => /orP[] /eqP ->;
  by rewrite ?(fwd_wave _ HI) ?(bwd_wave _ HI) Hnwn.
have HuW : uniq W.
  rewrite cat_uniq (v_uw HI) /=; apply/andP; split; first by apply/hasPn => s /Hd.
  by rewrite /W'; case: (nw) Hn1 => [|p [|]].
have HpA : {subset map (aw nw) ps <= W} by rewrite -EW; exact: HA.
have HpB : {subset map (bw nw) ps <= W} by rewrite -EW; exact: HB.
have Hol p : p \in olds -> p \in ports c.
  move=> Hp; have := Hso _ Hp; rewrite Ec1 /= mem_cat => /orP[//|/Hnwn].
  by move: Hp; rewrite Eol mem_filter => /andP[->].
set G' := [seq GK (jcoef C nw ps i) | i <- iota 0 (size ps)].
have [G HG] := v_G HI.
case=> <-; set c3 := uncache _.
set N' := net_step N (@OConnect C F Fl K ps).
have EN' : N' = Net (nblk N) (njoin N ++ [:: (olds, jn nw)]) (nterm N) (ndi N) (nde N).
  by rewrite /N' /= -Enw -Eol.
have Hnc3 : nc c3 = size W.
  by rewrite /= Ec2 Ec1 /= (v_nc HI) size_cat HW'.
have Hz := v_zb HI.
have HM3 : mM c3 = map (render W) (G ++ G').
  rewrite /= Ec2 Ec1 /= (g_M HG) map_cat; congr cat.
    rewrite -HW'; apply: hpad_render => //; exact: (g_supp HG).
  rewrite /G' -map_comp EiA EiB EW size_map.
  have -> : (nc c + 2 * size nw)%N = size W by rewrite size_cat HW' (v_nc HI).
  apply: (@eq_from_nth _ [::]); first by rewrite !size_map size_zip size_iota size_map minnn.
  move=> i; rewrite size_map size_zip size_iota size_map minnn => Hi.
  rewrite (nth_map (0%N, 0%N)) ?size_zip ?size_iota ?size_map ?minnn //.
  rewrite (nth_map 0%N) ?size_iota // nth_zip ?size_iota ?size_map // nth_iota //= add0n.
  rewrite (nth_map "") //; exact: junction_rowE.
have HKl w : (forall g, List.In (GK g) G' -> rsum W g w = 0) /\ klaw (zb c) N w <->
    klaw (zb c) N' w.
  have -> : (forall g, List.In (GK g) G' -> rsum W g w = 0) <->
     (forall i, (i < size ps)%N -> rsum W (jcoef C nw ps i) w = 0).
    split=> [H i Hi|H g].
      apply: H; apply/In_nth; exists i; first by rewrite size_map size_iota.
      by rewrite (nth_map 0%N) ?size_iota // nth_iota.
    move/In_nth => [i]; rewrite size_map size_iota => Hi.
    rewrite (nth_map 0%N) ?size_iota // nth_iota // add0n => -[<-]; exact: H.
  rewrite (@join_rows _ _ _ (zb c) w (fun p => p \in nodes N)) // -Eol EN' /klaw /=.
  split=> [[H1 [H2 H3 H4]]|[/List.Forall_app [H1 H2] H3 H4]].
    by split=> //; apply/List.Forall_app; split=> //; constructor.
  by split; [inversion H2|split].
have HG' : Ginv c3 N' (G ++ G').
  apply: (@ginv_app C F Fl K c N G c3 N' W' G' [::]) => //.
  - by rewrite /= Ec2 Ec1.
  - by rewrite /= Ec2 Ec1.
  - by rewrite HM3 /= Ec2 Ec1.
  - move=> g /In_nth [i]; rewrite size_map size_iota => Hi.
    rewrite (nth_map 0%N) ?size_iota // nth_iota // add0n => <- s.
    have -> : waves c3 = W by rewrite /= Ec2 Ec1.
    move=> Hs; rewrite /= /jcoef; case: ifP => [/HpB H|_]; first by rewrite H in Hs.
    case: eqP => // E; have : s \in W by apply: HpA; rewrite E; apply: map_f; rewrite mem_nth.
    by rewrite (negbTE Hs).
  - by rewrite /= Ec2 Ec1.
  - by rewrite /= Ec2 Ec1.
  - by rewrite /= Ec2 Ec1 cats0.
  - move=> e nm qs k x; rewrite size_map size_iota => He.
    by rewrite (nth_map 0%N) ?size_iota.
  - by move=> g /In_nth [i]; rewrite size_map size_iota => Hi; rewrite (nth_map 0%N) ?size_iota // => <-.
  - have -> : waves c3 = W by rewrite /= Ec2 Ec1.
    exact: HKl.
have Hnod : nodes N' =i nodes N ++ nw.
  move=> q; rewrite EN' /nodes /news /= !mem_cat pmap_cat mem_cat /=.
  have -> : (q \in oapp (cons^~ [::]) [::] (jn nw)) = (q \in nw).
    by case: (nw) Hn1 => [|p [|]].
  by rewrite -!orbA; do 2!congr orb; rewrite orbC.
have Hpn : perm_eq (nodes N') (nodes N ++ nw).
  rewrite EN' /nodes /news /= pmap_cat /=.
  have -> : oapp (cons^~ [::]) [::] (jn nw) = nw by case: (nw) Hn1 => [|p [|]].
  by rewrite -!catA !perm_cat2l perm_catC.
have Hused q : (q \in used N') = (q \in used N) || (q \in olds).
  rewrite EN' /used /= map_cat flatten_cat /= cats0 !mem_cat; by do !case: (_ \in _).
have Eports : ports c3 = [seq q <- ports c ++ nw | q \notin olds] by rewrite /= Ec2 Ec1.
split; last first.
  exists (map (render W) G'); split.
  - rewrite HM3 map_cat; congr cat; rewrite -Enw -HW' (g_M HG); symmetry.
    by apply: hpad_render => //; exact: (g_supp HG).
  - by rewrite !size_map size_iota.
  - move=> w; rewrite -Eol -Enw.
    have -> : waves c3 = W by rewrite /= Ec2 Ec1.
    have <- : (forall i, (i < size ps)%N -> rsum W (jcoef C nw ps i) w = 0) <->
       join_law (V_of w) (I_of (zb c) w) (olds, jn nw).
      by rewrite Eol; apply: (@join_rows _ _ _ (zb c) w (fun p => p \in nodes N)).
    split=> [H i Hi|H r].
      apply/row_holds_render/H; apply: List.in_map; apply/In_nth; exists i; first by rewrite size_map size_iota.
      by rewrite (nth_map 0%N) ?size_iota // nth_iota.
    move/List.in_map_iff => [g [<-]] /In_nth [i]; rewrite size_map size_iota => Hi.
    rewrite (nth_map 0%N) ?size_iota // nth_iota // add0n => <-.
    by apply/row_holds_render; exact: H.
split; last by rewrite /building /= Ec2 Ec1.
split=> //.
- by rewrite /= Ec2 Ec1.
- by rewrite /= Ec2 Ec1.
- move=> s; have -> : waves c3 = W by rewrite /= Ec2 Ec1.
  rewrite mem_cat (v_mem HI) !mem_cat.
  have -> : (s \in map fwd (nodes N')) = (s \in map fwd (nodes N)) || (s \in map fwd nw).
    by rewrite (eq_mem_map fwd Hnod) map_cat mem_cat.
  have -> : (s \in map bwd (nodes N')) = (s \in map bwd (nodes N)) || (s \in map bwd nw).
    by rewrite (eq_mem_map bwd Hnod) map_cat mem_cat.
  have -> : (s \in W') = (s \in map fwd nw) || (s \in map bwd nw).
    rewrite /W'; case: (nw) Hn1 => [|p [|//]] _ //=; by rewrite !inE.
  by do !case: (_ \in _).
- rewrite (perm_uniq Hpn) cat_uniq (v_un HI) Hunw andbT /=; apply/hasPn => p; exact: Hnwn.
- move=> p; rewrite Hnod mem_cat => /orP[Hp Hdp|Hp].
    exact: (v_dot HI Hp Hdp).
  by move: Hdot Hp; case: (nw) Hn1 => [|q [|//]] _ // Hq; rewrite inE => /eqP ->; rewrite Hq.
- by rewrite Hnc3 /= Ec2 Ec1.
- by rewrite /= Ec2 Ec1; exact: (v_blk HI).
- exact: (v_ub HI).
- exact: (v_nb HI).
- by rewrite Eports filter_uniq // -[_ ++ _]/(ports (with_ports c (ports c ++ nw) xs1)); move: Hup1; rewrite Ec1.
- move=> q; rewrite Eports mem_filter mem_cat /free Hnod mem_cat (v_fp HI) /free.
  rewrite Hused negb_or; case Hq: (q \in nw) => /=; last by rewrite !orbF; do !case: (_ \in _).
  rewrite !orbT /= andbT; have -> // : q \notin used N.
  by apply: contra (Hnwn _ Hq); exact: (v_us HI).
- by rewrite /= Ec2.
- by rewrite /= Ec2 Ec1; exact: (v_uE HI).
- by left; rewrite /= Ec2 Ec1.
- suff : forall q, q \in used N' -> q \in nodes N' by move=> H q; exact: H.
  move=> q; rewrite Hused Hnod => Hq; rewrite (mem_cat q); apply/orP; left.
  case/orP: Hq => [H|]; first exact: (v_us HI H).
  by rewrite Eol mem_filter => /andP[].
- exact: (v_uT HI).
- by rewrite /= Ec2 Ec1; exact: (v_T HI).
- rewrite HM3 size_map size_cat Hnc3 Eports size_map size_iota.
  have Hsub : {subset olds <= ports c ++ nw} by move=> q /Hol H; rewrite mem_cat H.
  have HuP : uniq (ports c ++ nw) by move: Hup1; rewrite Ec1.
  have := size_minus HuP Huo Hsub.
  have -> : size (dE c3) = 0%N by rewrite /= Ec2 Ec1 [dE _]Hbd.
  have : size ps = (size olds + size nw)%N by rewrite Eol Enw !size_filter count_predC.
  have := v_cnt HI; rewrite Hbd (g_M HG) size_map (v_nc HI) !size_cat HW' /=.
  by move: (size _) (size _) (size _) (size _) (size _) (size _); lia.
- by exists (G ++ G').
Qed.

Lemma connect_inv c N ps c' : Inv c N -> building c -> connect getpos c ps = (c', Ok tt) ->
  Inv c' (net_step N (@OConnect C F Fl K ps)) /\ building c'.
Proof. by move=> HI Hb /(connect_full HI Hb) []. Qed.

End Conn.

(** Filling in the scattering matrices of the blocks (first half of getS). *)
From mathcomp Require Import all_ssreflect all_algebra.
From mathcomp Require Import zify.
From mathcomp.algebra_tactics Require Import ring.
From Coq Require Import String Ascii.
From Coq Require List.
From Verif Require Import Base MxLib ConvModel ConvSpec CircModel CircSpec CircLib CircInv CircTerm CircApp CircConn CircAdd.
Set Implicit Arguments.
Unset Strict Implicit.
Unset Printing Implicit Defensive.
Import GRing.Theory Num.Theory.
Local Open Scope ring_scope.
Local Open Scope seq_scope.

Section Fill.
Variable C : numClosedFieldType.
Variables F Fl : eqType.
Variable K : vcls C F Fl.
Notation circ := (circ K).
Notation net := (net K).
Implicit Types (c : circ) (N : net) (w : string -> C) (G : seq (gr C)).

Definition gsize (G : seq (gr C)) := size G.

(** replacing the matrix entries of block rows *)
Lemma ginv_rows c N G c' N' G' : Inv c N -> Ginv c N G -> size G' = size G ->
  (forall e, (e < size G)%N -> nth (g0 C) G' e = nth (g0 C) G e \/
     exists nm ps k x x', [/\ nth (g0 C) G e = GS nm ps k x, nth (g0 C) G' e = GS nm ps k x' &
                              size x' = size ps]) ->
  zb c' = zb c -> waves c' = waves c -> mM c' = map (render (waves c)) G' ->
  dT c' = dT c -> dE c' = dE c ->
  njoin N' = njoin N -> nterm N' = nterm N -> ndi N' = ndi N -> nde N' = nde N ->
  (forall nm, omap (fun b => (bports b, bloc b)) (dget (blocks c') nm)
            = omap (fun b => (bports b, bloc b)) (dget (blocks c) nm)) ->
  Ginv c' N' G'.
Proof.
move=> HI HG Hsz Hr Ez Ew EM ET EE Ej Et Ed Ee Eb.
have Hin e : (e < size G)%N -> List.In (nth (g0 C) G e) G by move=> H; apply/In_nth; exists e.
have Hnot e g : (e < size G)%N -> (forall nm ps k x, g <> GS nm ps k x) ->
   nth (g0 C) G' e = g <-> nth (g0 C) G e = g.
  move=> He Hg; case: (Hr e He) => [-> //|[nm [ps [k [x [x' [-> -> _]]]]]]].
  by split=> E; case: (Hg _ _ _ _ (esym E)).
have HK h : List.In (GK h) G' <-> List.In (GK h) G.
  rewrite !In_nth Hsz; split=> -[e He E]; exists e => //; by apply/(Hnot e).
split; rewrite ?Ez ?Ew ?ET ?EE ?Et //.
- move=> g /In_nth [e]; rewrite Hsz => He <- s Hs; case: (Hr e He) => [->|].
    exact: (g_supp HG (Hin e He)).
  move=> [nm [ps [k [x [x' [E1 -> Hx]]]]]].
  have [b [Hb Ep _ Hk]] := g_blk' HG He E1.
  have [H1 _ _] := g_blk HG Hb; rewrite Ep in H1.
  have Hsub u : u \in fwds nm ps ++ bwds nm ps -> u \in waves c.
    by rewrite -H1 => /mem_take /mem_drop.
  rewrite /coef; case: ifP => [H|_]; first by move: Hs; rewrite Hsub // mem_cat H.
  case: eqP => // E; move: Hs; rewrite Hsub // E mem_cat mem_bwds ?orbT // mem_nth //.
- move=> nm b H; have := Eb nm; rewrite H /=; case H': (dget _ _) => [b'|] //= [E1 E2].
  have [H1 H2 H3] := g_blk HG H'; rewrite E1 E2 Hsz; split=> // k Hk.
  have [x Hx Ex] := H3 _ Hk.
  have He : ((bloc b').1 + k < size G)%N by apply: leq_trans H2; rewrite ltn_add2l.
  case: (Hr _ He) => [->|]; first by exists x.
  move=> [nm' [ps' [k' [y [y' [E3 -> Hy]]]]]]; move: E3; rewrite Ex => -[<- Eps <- _].
  by exists y'; [rewrite Hy Eps|rewrite Eps].
- move=> e nm ps k x; rewrite Hsz => He H.
  have [y Ey] : exists y, nth (g0 C) G e = GS nm ps k y.
    case: (Hr e He) => [<-|]; first by exists x.
    move=> [nm' [ps' [k' [y [y' [E1 E2 _]]]]]]; move: H; rewrite E2 => -[<- <- <- _].
    by exists y.
  have [b [H1 H2 H3 H4]] := g_blk' HG He Ey.
  have := Eb nm; rewrite H1 /=; case H': (dget _ _) => [b'|] //= [E1 E2].
  by exists b'; rewrite E1 E2.
- move=> p iA iB e H; have [[Hf Hb EA EB He] [r [ld [H1 H2 H3]]]] := g_T HG H.
  rewrite Hsz; split=> //; exists r, ld; split=> //.
  by apply/Hnot.
- move=> e p rho; rewrite Hsz => He /Hnot H; apply: (g_T' HG He); exact: H.
- move=> p e H; have [H1 H2] := g_E HG H; rewrite Hsz; split=> //; exact/Hnot.
- move=> e p; rewrite Hsz => He /Hnot H; apply: (g_E' HG He); exact: H.
- move=> w; have <- : klaw (zb c) N w <-> klaw (zb c) N' w by rewrite /klaw Ej Ed Ee.
  rewrite -(g_K HG); split=> H g /HK; exact: H.
Qed.

(** the matrix of block nm as found in the rows *)
Definition good f fl (z : C) (o : K) n (Sm : rows C) :=
  shape_ok n Sm /\ forall v i, oden o f fl v i <-> rel_S z n Sm v i.

Definition filled1 f fl c G nm := forall b, dget (blocks c) nm = Some b ->
  exists2 Sm, good f fl (zb c) (bobj b) (size (bports b)) Sm &
    forall k, (k < size (bports b))%N ->
      nth (g0 C) G ((bloc b).1 + k) = GS nm (bports b) k (nth [::] Sm k).

Lemma put_row_render W l nm ps k (x y : seq C) : uniq W -> uniq ps -> (k < size ps)%N ->
  take (2 * size ps) (drop l W) = fwds nm ps ++ bwds nm ps ->
  size x = size ps -> size y = size ps ->
  put_row (render W (GS nm ps k x)) l (size ps) y = render W (GS nm ps k y).
Proof.
move=> HW Hp Hk Ht Hx Hy; set n := size ps.
have Hd : drop l W = fwds nm ps ++ (bwds nm ps ++ drop (2 * n) (drop l W)).
  by rewrite catA -Ht cat_take_drop.
have Hl : (l <= size W)%N.
  rewrite leqNgt; apply/negP => H; move: Ht; rewrite drop_oversize ?(ltnW H) //.
  by move/(congr1 size); rewrite size_cat !size_map /=; move: Hk; case: (size ps).
set A := take l W; set B := bwds nm ps ++ drop (2 * n) (drop l W).
have EW : W = A ++ (fwds nm ps ++ B) by rewrite -Hd cat_take_drop.
have HsA : size A = l by rewrite size_takel.
clearbody A B.
move: HW; rewrite EW cat_uniq => /and3P[_ /hasPn HA].
rewrite cat_uniq => /and3P[HuF /hasPn HB _].
have Hout z s : s \notin fwds nm ps -> coef (GS nm ps k z) s = coef (GS nm ps k y) s.
  by move=> /negbTE H; rewrite /coef H.
have Hren z : size z = size ps -> render (A ++ (fwds nm ps ++ B)) (GS nm ps k z)
   = map (coef (GS nm ps k y)) A ++ (z ++ map (coef (GS nm ps k y)) B).
  move=> Hz; rewrite /render !map_cat; congr cat; last congr cat.
  - apply/eq_in_map => s Hs; apply: Hout; apply/negP => H.
    have : s \notin A by apply: HA; rewrite mem_cat H.
    by rewrite Hs.
  - apply: (@eq_from_nth _ 0); first by rewrite !size_map.
    move=> j; rewrite !size_map => Hj; rewrite (nth_map "") ?size_map //.
    by rewrite {1}/coef mem_nth ?size_map // index_uniq ?size_map.
  - by apply/eq_in_map => s Hs; apply: Hout; apply/negP => H; move/negP: (HB _ Hs); apply; exact: H.
rewrite !Hren // /put_row take_size_cat ?size_map //; congr (_ ++ (_ ++ _)).
rewrite -HsA addnC -drop_drop drop_size_cat ?size_map // drop_size_cat //.
Qed.

Lemma put_block_render W G loc nm ps (Sm : rows C) : uniq W -> uniq ps ->
  take (2 * size ps) (drop loc.2 W) = fwds nm ps ++ bwds nm ps ->
  (loc.1 + size ps <= size G)%N ->
  (forall k, (k < size ps)%N -> exists2 x, size x = size ps & nth (g0 C) G (loc.1 + k) = GS nm ps k x) ->
  shape_ok (size ps) Sm ->
  put_block (map (render W) G) loc (size ps) Sm =
  map (render W) (take loc.1 G ++ [seq GS nm ps k (nth [::] Sm k) | k <- iota 0 (size ps)]
                  ++ drop (loc.1 + size ps) G).
Proof.
move=> HW Hp Ht Hl Hg /andP[/eqP HS /allP Hr].
rewrite /put_block !map_cat map_take map_drop; congr (_ ++ (_ ++ _)).
have Hsz : size (take (size ps) (drop loc.1 (map (render W) G))) = size ps.
  by rewrite size_takel // size_drop size_map; lia.
apply: (@eq_from_nth _ [::]); first by rewrite !size_map size_zip Hsz HS minnn size_iota.
move=> k; rewrite size_map size_zip Hsz HS minnn => Hk.
rewrite (nth_map ([::], [::])) ?size_zip ?Hsz ?HS ?minnn // nth_zip ?Hsz ?HS //=.
rewrite nth_take // nth_drop (nth_map (g0 C)); last by apply: leq_trans Hl; rewrite ltn_add2l.
have [x Hx ->] := Hg k Hk.
rewrite put_row_render //; last by apply/eqP; apply: Hr; rewrite mem_nth // HS.
rewrite (nth_map (g0 C)) ?size_map ?size_iota //.
by rewrite (nth_map 0%N) ?size_iota // nth_iota.
Qed.

Lemma nth_put G a n (h : nat -> gr C) e : (a + n <= size G)%N -> (e < size G)%N ->
  nth (g0 C) (take a G ++ [seq h k | k <- iota 0 n] ++ drop (a + n) G) e =
  if (a <= e < a + n)%N then h (e - a)%N else nth (g0 C) G e.
Proof.
move=> Ha He; rewrite nth_cat size_takel; last by lia.
case: ltnP => H1 /=; first by rewrite nth_take // .
rewrite nth_cat size_map size_iota; case: ltnP => H2.
  rewrite (nth_map 0%N) ?size_iota // nth_iota // add0n; case: ltnP => //; lia.
rewrite ltnNge; have -> : (a + n <= e)%N by lia.
by rewrite nth_drop; congr nth; lia.
Qed.

Lemma fill1_inv f fl c N nm b c' (done : seq string) G : Inv c N -> Ginv c N G ->
  dget (blocks c) nm = Some b ->
  (forall q, q \in done -> filled1 f fl c G q) ->
  fill1 f fl [::] c (nm, b) = (c', Ok tt) ->
  [/\ Inv c' N, dE c' = dE c, pn c' = pn c, ports c' = ports c &
  [/\ waves c' = waves c, zb c' = zb c,
     (forall q, q != nm -> dget (blocks c') q = dget (blocks c) q) &
  exists2 G', Ginv c' N G' & forall q, q \in nm :: done -> filled1 f fl c' G' q]].
Proof.
move=> HI HG Hb Hdone; rewrite /fill1 /=.
have [ps [o0 [Hnb [_ /= Eps Hoi Heq [Hsz Hup]] _]]] := Forall2_dget (v_blk HI) Hb.
have [Hi' Hsz' Hop' Hden' Hgood] := oget_law f fl Hoi (v_zb HI).
case Eg: (ogetS f (zb c) fl (bobj b)) => [o1 [Sm|//]] /=.
rewrite Eg /= in Hi' Hsz' Hop' Hden' Hgood.
case: ifP => // Hsh -[<-].
have [_ Hrel] := Hgood _ erefl.
have [Ht Hl Hrow] := g_blk HG Hb; rewrite /= in Ht Hl Hrow.
have Hup' : uniq (bports b) by rewrite Eps.
have Hszp : osize (bobj b) = size (bports b) by rewrite Hsz Eps.
set G' := take (bloc b).1 G ++ [seq GS nm (bports b) k (nth [::] Sm k) | k <- iota 0 (size (bports b))]
                  ++ drop ((bloc b).1 + size (bports b)) G.
have HM' : put_block (mM c) (bloc b) (size (bports b)) Sm = map (render (waves c)) G'.
  by rewrite (g_M HG) (put_block_render (v_uw HI) Hup' Ht).
have HsG' : size G' = size G.
  rewrite !size_cat size_map size_iota size_takel ?size_drop; lia.
have HnG' e : (e < size G)%N -> nth (g0 C) G' e =
   if ((bloc b).1 <= e < (bloc b).1 + size (bports b))%N
   then GS nm (bports b) (e - (bloc b).1) (nth [::] Sm (e - (bloc b).1)) else nth (g0 C) G e.
  by move=> He; rewrite nth_put.
have HrS k : (k < size (bports b))%N -> size (nth [::] Sm k) = size (bports b).
  by move=> Hk; case/andP: Hsh => /eqP HS /allP Hr; apply/eqP; apply: Hr; rewrite mem_nth // HS.
set c1 := with_M _ _ _ _.
have Hb1 q : dget (blocks c1) q = if q == nm then Some (Block (bports b) (bloc b) o1 (bxpos b))
                                  else dget (blocks c) q by rewrite /= dget_dset.
have HG1 : Ginv c1 N G'.
  apply: (ginv_rows HI HG HsG') => //.
  - move=> e He; rewrite HnG' //; case: ifP => [/andP[H1 H2]|_]; last by left.
    have Hk : (e - (bloc b).1 < size (bports b))%N by lia.
    have [x Hx E] := Hrow _ Hk; rewrite subnKC // in E.
    by right; exists nm, (bports b), (e - (bloc b).1)%N, x, (nth [::] Sm (e - (bloc b).1)); rewrite HrS.
  - by move=> q; rewrite Hb1; case: eqP => [->|//]; rewrite Hb.
have Ho1 : oeq o1 o0.
  split; last by move=> f' fl' v i; rewrite Hden'; exact: Heq.2.
  have E1 : o1 = (ogetS f (zb c) fl (bobj b)).1 by rewrite Eg.
  by rewrite E1; constructor; [exact: (v_zb HI)|exact: Heq.1].
have HIr : Inv (with_blocks c (dset (blocks c) nm (Block (bports b) (bloc b) o1 (bxpos b)))) N.
  have Hs1 : osize o1 = size ps by rewrite Hsz'.
  have := @replace_inv C F Fl K c N nm b ps o0 o1 o0 (bxpos b)
     (with_blocks c (dset (blocks c) nm (Block (bports b) (bloc b) o1 (bxpos b)))) HI Hb Hnb Hi' Hs1 Ho1.
  rewrite (dset_id Hnb); case: (N) => /= ? ? ? ? ? H; exact: H.
split=> //.
- split; try by case: HIr.
  + by rewrite /= HM' size_map HsG'; have := v_cnt HI; rewrite (g_M HG) size_map.
  + by exists G'.
split=> //; first by move=> q /negbTE Hq; rewrite Hb1 Hq.
exists G' => // q; rewrite in_cons => /orP Hq b'; rewrite Hb1.
case: (q =P nm) => [-> [<-] /=|Hne Hb'].
  exists Sm; first by split=> // v i; rewrite Hden' Hrel Hszp.
  move=> k Hk; rewrite HnG'; last by lia.
  by rewrite leq_addr ltn_add2l Hk /= addKn.
case: Hq => [/eqP //|Hq]; have [Sq Hgq Hrq] := Hdone _ Hq _ Hb'; exists Sq => // k Hk.
have [_ Hlq _] := g_blk HG Hb'; rewrite /= in Hlq.
rewrite HnG'; last by lia.
case: ifP => [/andP[H1 H2]|_]; last exact: Hrq.
have Hk' : ((bloc b').1 + k - (bloc b).1 < size (bports b))%N by lia.
have [x _] := Hrow _ Hk'; rewrite subnKC // Hrq // => -[E]; by case: Hne.
Qed.

Lemma fill_loop f fl c N (bs : seq (string * block K)) c' (done : seq string) G :
  Inv c N -> Ginv c N G -> uniq (dkeys bs) ->
  (forall nm b, List.In (nm, b) bs -> dget (blocks c) nm = Some b) ->
  (forall q, q \in done -> filled1 f fl c G q) ->
  loop (fill1 f fl [::]) c bs = (c', Ok tt) ->
  [/\ Inv c' N, dE c' = dE c, pn c' = pn c, ports c' = ports c &
  [/\ waves c' = waves c, zb c' = zb c &
  exists2 G', Ginv c' N G' & forall q, q \in dkeys bs ++ done -> filled1 f fl c' G' q]].
Proof.
elim: bs c done G => [|[nm b] bs IH] c done G HI HG Hu Hbs Hd; rewrite ?loop_cons.
  by case=> <-; split=> //; split=> //; exists G.
case E1: (fill1 _ _ _ _ _) => [c1 [[]|//]] /=.
have Hb : dget (blocks c) nm = Some b by apply: Hbs; left.
have [HI1 HE1 Hp1 Hpo1 [Hw1 Hz1 Hbl1 [G1 HG1 Hf1]]] := fill1_inv HI HG Hb Hd E1.
move: Hu => /= /andP[Hn Hu] El.
have Hbs1 nm' b' : List.In (nm', b') bs -> dget (blocks c1) nm' = Some b'.
  move=> Hin; rewrite Hbl1; first by apply: Hbs; right.
  apply/eqP => E; move: Hn; rewrite -E -[_ \in _]/(nm' \in dkeys bs).
  by rewrite (dget_keys (In_dget Hu Hin)).
have [H1 H2 H3 H4 [H5 H6 [G' H7 H8]]] := IH _ _ _ HI1 HG1 Hu Hbs1 Hf1 El.
split; rewrite ?H2 ?H3 ?H4 //; split; rewrite ?H5 ?H6 //; exists G' => // q Hq; apply: H8.
move: Hq; rewrite /= mem_cat !in_cons mem_cat.
by case: (q == nm); rewrite ?orbT.
Qed.

Lemma fill_all f fl c N c' : Inv c N ->
  loop (fill1 f fl [::]) c (blocks c) = (c', Ok tt) ->
  [/\ Inv c' N, dE c' = dE c, pn c' = pn c, ports c' = ports c &
  [/\ waves c' = waves c, zb c' = zb c &
  exists2 G', Ginv c' N G' & forall nm, filled1 f fl c' G' nm]].
Proof.
move=> HI; have [G HG] := v_G HI.
have Hu : uniq (dkeys (blocks c)) by rewrite (blk_keys HI) (v_ub HI).
have Hbs nm b : List.In (nm, b) (blocks c) -> dget (blocks c) nm = Some b by exact: In_dget.
have Hd q : q \in [::] -> filled1 f fl c G q by [].
move=> H; have [H1 H2 H3 H4 [H5 H6 [G' H7 H8]]] := fill_loop HI HG Hu Hbs Hd H.
split=> //; split=> //; exists G' => // nm b Hb.
apply: (H8 nm) => //; rewrite cats0; have := dget_keys Hb; rewrite (blk_keys H1) (blk_keys HI) //.
Qed.

End Fill.

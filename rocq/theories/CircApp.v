(** Appending waves and equation rows keeps the representation invariant;
    connect preserves it. *)
From mathcomp Require Import all_ssreflect all_algebra.
From mathcomp Require Import zify.
From mathcomp.algebra_tactics Require Import ring.
From Coq Require Import String Ascii.
From Coq Require List.
From Verif Require Import Base MxLib ConvModel ConvSpec CircModel CircSpec CircLib CircInv CircTerm.
Set Implicit Arguments.
Unset Strict Implicit.
Unset Printing Implicit Defensive.
Import GRing.Theory Num.Theory.
Local Open Scope ring_scope.
Local Open Scope seq_scope.

Section App.
Variable C : numClosedFieldType.
Variables F Fl : eqType.
Variable K : vcls C F Fl.
Variable getpos : circ K -> string -> res C.
Notation circ := (circ K).
Notation net := (net K).
Implicit Types (c : circ) (N : net) (w : string -> C) (G : seq (gr C)).

Lemma take_drop_cat (T : Type) (s t : seq T) l m : size (take m (drop l s)) = m ->
  take m (drop l (s ++ t)) = take m (drop l s).
Proof.
case: m => [|m]; first by rewrite !take0.
rewrite size_take size_drop => H.
have Hl : (l < size s)%N by move: H; case: ltnP; lia.
have Hm : (m.+1 <= size (drop l s))%N by rewrite size_drop; move: H; case: ltnP; lia.
by rewrite drop_cat Hl takel_cat.
Qed.

Lemma ginv_app c N G c' N' ws' G' nbs : Inv c N -> Ginv c N G ->
  zb c' = zb c -> waves c' = waves c ++ ws' ->
  mM c' = map (render (waves c')) (G ++ G') ->
  (forall g, List.In g G' -> forall s, s \notin waves c' -> coef g s = 0) ->
  (forall s, s \in ws' -> s \notin waves c) ->
  dT c' = dT c -> dE c' = dE c -> nterm N' = nterm N ->
  blocks c' = blocks c ++ nbs ->
  (forall nm b, dget nbs nm = Some b -> dget (blocks c) nm = None ->
    let ps := bports b in let n := size ps in
    [/\ take (2 * n) (drop (bloc b).2 (waves c')) = fwds nm ps ++ bwds nm ps,
        ((bloc b).1 + n <= size (G ++ G'))%N &
        forall k, (k < n)%N -> exists2 x, size x = n &
          nth (g0 C) (G ++ G') ((bloc b).1 + k) = GS nm ps k x]) ->
  (forall e nm ps k x, (e < size G')%N -> nth (g0 C) G' e = GS nm ps k x ->
    exists b, [/\ dget (blocks c') nm = Some b, bports b = ps,
       (size G + e = (bloc b).1 + k)%N & (k < size ps)%N]) ->
  (forall g, List.In g G' -> match g with GT _ _ | GE _ => False | _ => True end) ->
  (forall w, (forall g, List.In (GK g) G' -> rsum (waves c') g w = 0) /\ klaw (zb c) N w
             <-> klaw (zb c) N' w) ->
  Ginv c' N' (G ++ G').
Proof.
move=> HI HG Ez Ew EM Hs Hd ET EE Ent Eb Hn Hn' Hk HK.
have Hsup g : List.In g G -> forall s, s \notin waves c' -> coef g s = 0.
  move=> Hg s; rewrite Ew mem_cat negb_or => /andP[H _]; exact: (g_supp HG Hg).
have Hleft e : (e < size (G ++ G'))%N -> (e < size G)%N \/
   exists2 k, (k < size G')%N & e = (size G + k)%N.
  rewrite size_cat; case: (ltnP e (size G)) => [|H1 H2]; first by left.
  by right; exists (e - size G)%N; [rewrite ltn_subLR|rewrite subnKC].
have Hnl e : (e < size G)%N -> nth (g0 C) (G ++ G') e = nth (g0 C) G e.
  by move=> H; rewrite nth_cat H.
have Hnr e : nth (g0 C) (G ++ G') (size G + e)%N = nth (g0 C) G' e.
  by rewrite nth_cat ltnNge leq_addr /= addKn.
have Hsz : (size G <= size (G ++ G'))%N by rewrite size_cat leq_addr.
have Hmem s : s \in waves c -> s \in waves c' by move=> H; rewrite Ew mem_cat H.
have Hidx s : s \in waves c -> seq.index s (waves c') = seq.index s (waves c).
  by move=> H; rewrite Ew index_cat H.
have Hno k : (k < size G')%N -> List.In (nth (g0 C) G' k) G'.
  by move=> H; apply/In_nth; exists k.
split.
- by [].
- by move=> g /(@List.in_app_or _ _ _ _) [Hg|Hg]; [exact: Hsup|exact: Hs].
- move=> nm b; rewrite Eb dget_cat; case E: (dget (blocks c) nm) => [b'|]; last first.
    by move=> H; apply: Hn.
  case=> <-; have [H1 H2 H3] := g_blk HG E.
  split; last 1 first.
  - move=> k Hk'; have [x Hx Ex] := H3 k Hk'; exists x => //; rewrite Hnl //.
    by apply: leq_trans H2; rewrite ltn_add2l.
  - by rewrite Ew take_drop_cat // H1 size_cat !size_map addnn mul2n.
  - exact: leq_trans H2 Hsz.
- move=> e nm ps k x /Hleft [He|[j Hj ->]]; [rewrite Hnl //|rewrite Hnr].
    move=> E; have [b [H1 H2 H3 H4]] := g_blk' HG He E; exists b; split=> //.
    by rewrite Eb dget_cat H1.
  exact: Hn'.
- move=> p iA iB e; rewrite ET Ez Ent => E; have [[Hf Hb EA EB He] [r [ld [H1 H2 H3]]]] := g_T HG E.
  split; first by rewrite !Hidx // !Hmem //; split=> //; exact: leq_trans He Hsz.
  by exists r, ld; rewrite Hnl.
- move=> e p rho /Hleft [He|[j Hj ->]]; [rewrite Hnl //|rewrite Hnr]; rewrite ET; first exact: (g_T' HG).
  by move=> E; have := Hk _ (Hno _ Hj); rewrite E.
- move=> p e; rewrite EE => E; have [H1 H2] := g_E HG E; rewrite Hnl //; split=> //.
  exact: leq_trans H1 Hsz.
- move=> e p /Hleft [He|[j Hj ->]]; [rewrite Hnl //|rewrite Hnr]; rewrite EE; first exact: (g_E' HG).
  by move=> E; have := Hk _ (Hno _ Hj); rewrite E.
- move=> w; rewrite Ez; split=> [H|/HK [H1 H2] g /(@List.in_app_or _ _ _ _) [Hg|]]; last exact: H1.
    apply/HK; split=> [g Hg|]; first by apply: H; apply: List.in_or_app; right.
    apply/(g_K HG) => g Hg; have := H g (List.in_or_app _ _ _ (or_introl Hg)).
    rewrite Ew rsum_pad // => s /Hd Hs'; exact: (g_supp HG Hg).
  rewrite Ew rsum_pad //; last by move=> s /Hd Hs'; exact: (g_supp HG Hg).
  by apply: (iffRL (g_K HG w) H2).
Qed.

(** *** the ports consumed by connect *)
Lemma consume_loop c ps : uniq (ports c) -> (size (ports c) <= size (xpos c))%N ->
  forall c', loop (@consume C F Fl K) c ps = (c', Ok tt) ->
  [/\ uniq ps, {subset ps <= ports c} &
      exists2 xs, c' = with_ports c [seq q <- ports c | q \notin ps] xs &
        (size [seq q <- ports c | q \notin ps] <= size xs)%N].
Proof.
elim: ps c => [|p ps IH] c Hu Hx c'.
  case=> <-; split=> //; have -> : [seq q <- ports c | q \notin [::]] = ports c.
    by rewrite -[RHS]filter_predT; apply: eq_filter.
  by exists (xpos c) => //; case: (c).
rewrite loop_cons; case Hp: (p \in ports c); last by rewrite consume_ko ?Hp.
have [xs -> Hxs] := consume_ok Hp Hx.
have Hu' : uniq (ports (with_ports c (rem p (ports c)) xs)) by rewrite rem_uniq.
move=> /(IH _ Hu' Hxs) [H1 H2 [xs' -> Hxs']].
have Ef : [seq q <- ports (with_ports c (rem p (ports c)) xs) | q \notin ps]
  = [seq q <- ports c | q \notin p :: ps].
  rewrite /= rem_filter // -filter_predI; apply: eq_filter => q /=.
  by rewrite in_cons negb_or andbC.
split.
- rewrite /= H1 andbT; apply/negP => /H2; by rewrite mem_rem_uniq // inE eqxx.
- move=> q; rewrite in_cons => /orP[/eqP -> //|/H2]; exact: mem_rem.
by exists xs'; [rewrite Ef|rewrite -Ef].
Qed.

(** *** the junction *)
Definition aw (nw : seq string) p := if p \in nw then bwd p else fwd p.
Definition bw (nw : seq string) p := if p \in nw then fwd p else bwd p.

Definition jcoef (nw ps : seq string) (i : nat) (s : string) : C :=
  if s \in map (bw nw) ps then SJ C (size ps) i (seq.index s (map (bw nw) ps))
  else if s == aw nw (nth "" ps i) then -1 else 0.

Lemma bw_inj nw : injective (bw nw).
Proof. by rewrite /bw => p q; case: ifP; case: ifP => _ _ // /eqP; rewrite ?fwd_eq ?bwd_eq => /eqP. Qed.

Lemma aw_bw nw p q : (aw nw p == bw nw q) = false.
Proof.
rewrite /aw /bw; case: ifP => Hp; case: ifP => Hq //; rewrite ?fwd_eq ?bwd_eq;
  by apply/eqP => E; rewrite E Hq in Hp.
Qed.

Lemma aw_notin nw p ps : (aw nw p \in map (bw nw) ps) = false.
Proof. by apply/mapP => -[q _ /eqP]; rewrite aw_bw. Qed.

Lemma foldl_upd ws (g : string -> C) Bs h : uniq ws -> uniq Bs -> {subset Bs <= ws} ->
  forall k, 
  foldl (fun r jb => upd r jb.2 (h jb.1)) (map g ws)
        (zip (iota k (size Bs)) (map (fun b => seq.index b ws) Bs))
  = map (fun s => if s \in Bs then h (k + seq.index s Bs)%N else g s) ws.
Proof.
move=> Hu; elim: Bs g => [|b Bs IH] g //=.
case/andP=> Hb HB Hs k; rewrite /upd set_nth_map ?Hs ?mem_head //.
rewrite IH //; last by move=> s H; apply: Hs; rewrite in_cons H orbT.
apply: eq_map => s; rewrite in_cons [b == s]eq_sym /fupd.
case: (s =P b) => [->|_] /=; first by rewrite (negbTE Hb) addn0.
by case: ifP => // _; rewrite addSnnS.
Qed.

Lemma junction_rowE ws nw ps i : uniq ws -> uniq ps -> (i < size ps)%N ->
  {subset map (aw nw) ps <= ws} -> {subset map (bw nw) ps <= ws} ->
  junction_row C (size ws) (size ps) i (seq.index (aw nw (nth "" ps i)) ws)
     [seq seq.index (bw nw p) ws | p <- ps]
  = render ws (GK (jcoef nw ps i)).
Proof.
move=> Hu Hp Hi HA HB; rewrite /junction_row zrow_render.
rewrite (@render_upd _ ws _ (GK (fupd (fun=> 0) (aw nw (nth "" ps i)) (-1)))) //; last first.
  by apply: HA; apply: map_f; rewrite mem_nth.
have -> : [seq seq.index (bw nw p) ws | p <- ps] = map (fun b => seq.index b ws) (map (bw nw) ps).
  by rewrite -map_comp.
have Hub : uniq (map (bw nw) ps) by rewrite map_inj_uniq //; exact: bw_inj.
have := fun g => @foldl_upd ws g (map (bw nw) ps) (SJ C (size ps) i) Hu Hub HB 0%N.
rewrite size_map => E; apply: etrans (E _) _; by apply: eq_map => s /=.
Qed.

Lemma rsum_jcoef ws nw ps i w : uniq ws -> uniq ps -> (i < size ps)%N ->
  {subset map (aw nw) ps <= ws} -> {subset map (bw nw) ps <= ws} ->
  rsum ws (jcoef nw ps i) w =
  2%:R / (size ps)%:R * (\sum_(p <- ps) w (bw nw p)) - w (bw nw (nth "" ps i)) - w (aw nw (nth "" ps i)).
Proof.
move=> Hu Hp Hi HA HB; set A := aw nw (nth "" ps i).
rewrite (@rsum_sub _ ws (map (bw nw) ps ++ [:: A])) //; last 3 first.
- by rewrite cat_uniq (map_inj_uniq (@bw_inj nw)) Hp /= aw_notin.
- move=> s; rewrite mem_cat inE => /orP[/HB|/eqP ->] //.
  by apply: HA; apply: map_f; rewrite mem_nth.
- by move=> s; rewrite mem_cat inE negb_or /jcoef => /andP[/negbTE -> /negbTE ->].
rewrite /rsum big_cat /= big_cons big_nil addr0 {2}/jcoef aw_notin eqxx mulN1r; congr (_ - _).
rewrite big_map (big_nth "") big_mkord.
rewrite (eq_bigr (fun j : 'I_(size ps) => 2%:R / (size ps)%:R * w (bw nw (nth "" ps j))
   - (if (j : nat) == i then w (bw nw (nth "" ps i)) else 0))); last first.
  move=> j _; rewrite /jcoef map_f ?mem_nth // index_map; last exact: bw_inj.
  rewrite index_uniq // /SJ mulrBl; congr (_ - _).
  by case: eqP => [->|]; rewrite ?mul1r ?mul0r.
rewrite sumrB -mulr_sumr; congr (_ * _ - _); first by rewrite (big_nth "") big_mkord.
rewrite (bigD1 (Ordinal Hi)) //= eqxx big1 ?addr0 // => j.
by rewrite -val_eqE /= => /negbTE ->.
Qed.

(** the N junction rows say Kirchhoff's laws *)
Lemma junction_law (ws nw ps : seq string) w : uniq ws -> uniq ps ->
  {subset map (aw nw) ps <= ws} -> {subset map (bw nw) ps <= ws} ->
  (forall i, (i < size ps)%N -> rsum ws (jcoef nw ps i) w = 0) <->
  {in ps & ps, forall p q, w (aw nw p) + w (bw nw p) = w (aw nw q) + w (bw nw q)} /\
  \sum_(p <- ps) (w (aw nw p) - w (bw nw p)) = 0.
Proof.
move=> Hu Hp HA HB; set SB := \sum_(p <- ps) w (bw nw p).
have Hrow i : (i < size ps)%N -> rsum ws (jcoef nw ps i) w = 0 <->
   w (aw nw (nth "" ps i)) + w (bw nw (nth "" ps i)) = 2%:R / (size ps)%:R * SB.
  move=> Hi; rewrite rsum_jcoef // -/SB; split=> [/eqP|<-]; last by rewrite addrK subrr.
  by rewrite subr_eq0 => /eqP <-; rewrite subrK.
case: (posnP (size ps)) => [/size0nil E|Hn].
  by rewrite /SB E big_nil; split=> // _; split.
have Hn0 : (size ps)%:R != 0 :> C by rewrite pnatr_eq0 -lt0n.
have Hsum (V : C) : {in ps, forall p, w (aw nw p) + w (bw nw p) = V} ->
   \sum_(p <- ps) (w (aw nw p) - w (bw nw p)) = (size ps)%:R * V - 2%:R * SB.
  move=> H; rewrite sumrB big_seq (eq_bigr (fun p => V - w (bw nw p))); last first.
    by move=> p /H <-; rewrite addrK.
  by rewrite -big_seq sumrB big_const_seq count_predT iter_addr addr0 -/SB -addrA -opprD !mulr_natl mulr2n.
have He (p : string) : p \in ps -> exists2 i, (i < size ps)%N & nth "" ps i = p.
  by move=> H; exists (seq.index p ps); rewrite ?index_mem ?nth_index.
split=> [H|[H1 H2] i Hi].
  have HV : {in ps, forall p, w (aw nw p) + w (bw nw p) = 2%:R / (size ps)%:R * SB}.
    by move=> p /He [i Hi <-]; apply/Hrow => //; apply: H.
  split; first by move=> p q /HV -> /HV ->.
  by rewrite (Hsum _ HV); field.
apply/Hrow => //; set V := _ + _.
have HV : {in ps, forall p, w (aw nw p) + w (bw nw p) = V} by move=> p Hpp; apply: H1; rewrite ?mem_nth.
move: H2; rewrite (Hsum _ HV) => /eqP; rewrite subr_eq0 => /eqP E.
by apply: (mulfI Hn0); rewrite E; field.
Qed.
End App.

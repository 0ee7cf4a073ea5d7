(** Get_internalSmatrix (C51): proofs. *)
From mathcomp Require Import all_ssreflect all_algebra.
From mathcomp Require Import zify algebra_tactics.ring.
From Coq Require Import String Ascii.
From Coq Require List.
From Verif Require Import Base MxLib ConvModel ConvSpec ConvProofs ConvArr CircModel CircSpec CircLib CircInv CircTerm CircApp CircConn CircAdd CircDe CircFill CircSolve CircExt CircHist CircGet CircMain CircOrd CircThm CircThm2 CircThm3 CircThm4 CircMaxV CircNest CircFlat SetThm CircSub CircSubT CircLin CircInt.
Set Implicit Arguments.
Unset Strict Implicit.
Unset Printing Implicit Defensive.
Import Order.TTheory GRing.Theory Num.Theory.
Local Open Scope string_scope.
Local Open Scope ring_scope.
Local Open Scope seq_scope.

Section Pinv.
Variable C : numClosedFieldType.
Implicit Types m n r : nat.

Lemma adjM m n p (A : 'M[C]_(m, n)) (B : 'M_(n, p)) : adj (A *m B) = adj B *m adj A.
Proof. by rewrite /adj map_mxM trmx_mul. Qed.
Lemma adjK m n (A : 'M[C]_(m, n)) : adj (adj A) = A.
Proof. by apply/matrixP => i j; rewrite !mxE conjCK. Qed.
Lemma adj_inv n (A : 'M[C]_n) : adj (invmx A) = invmx (adj A).
Proof. by rewrite /adj map_invmx trmx_inv. Qed.
Lemma adj0 m n : adj (0 : 'M[C]_(m, n)) = 0.
Proof. by rewrite /adj map_mx0 trmx0. Qed.

Lemma norm0 n (y : 'cV[C]_n) : adj y *m y = 0 -> y = 0.
Proof.
move=> /matrixP /(_ 0 0); rewrite !mxE => H; apply/matrixP => i j; rewrite (ord1 j) mxE.
have {}H : \sum_k `|y k 0| ^+ 2 = 0.
  by rewrite -[RHS]H; apply: eq_bigr => k _; rewrite !mxE normCK mulrC.
have /allP /(_ i) : all (fun k => `|y k 0| ^+ 2 == 0) (index_enum (ordinal_finType n)).
  by rewrite -(@psumr_eq0 _ _ _ xpredT) ?H // => k _; rewrite exprn_ge0.
by rewrite mem_index_enum expf_eq0 normr_eq0 /= => /(_ isT) /eqP.
Qed.

Lemma gram_l m r (L : 'M[C]_(m, r)) : row_full L -> adj L *m L \in unitmx.
Proof.
case/row_fullP => B HB; apply/unitmx_kerP => x Hx.
have H0 : L *m x = 0 by apply: norm0; rewrite adjM mulmxA -(mulmxA _ (adj L)) -mulmxA Hx mulmx0.
by rewrite -[x]mul1mx -HB -mulmxA H0 mulmx0.
Qed.
Lemma gram_r r n (R : 'M[C]_(r, n)) : row_free R -> R *m adj R \in unitmx.
Proof.
case/row_freeP => B HB; have : adj (adj R) *m adj R \in unitmx.
  apply: gram_l; apply/row_fullP; exists (adj B).
  by rewrite -adjM HB /adj map_mx1 trmx1.
by rewrite adjK.
Qed.

Lemma penrose_fact m n r (L : 'M[C]_(m, r)) (R : 'M[C]_(r, n))
  (P := adj R *m invmx (R *m adj R) *m invmx (adj L *m L) *m adj L) : row_full L -> row_free R ->
  [/\ L *m R *m P *m (L *m R) = L *m R, P *m (L *m R) *m P = P,
      adj (L *m R *m P) = L *m R *m P & adj (P *m (L *m R)) = P *m (L *m R)].
Proof.
move=> /gram_l HL /gram_r HR.
rewrite {}/P; set G := R *m adj R in HR *; set H := adj L *m L in HL *.
set P0 := adj R *m invmx G *m invmx H *m adj L.
have EAP : L *m R *m P0 = L *m (invmx H *m adj L).
  by rewrite /P0 !mulmxA -(mulmxA L R) -/G -(mulmxA L G) mulmxV // mulmx1.
have EPA : P0 *m (L *m R) = adj R *m invmx G *m R.
  by rewrite /P0 !mulmxA -(mulmxA _ (adj L) L) -/H -(mulmxA _ (invmx H) H) mulVmx // mulmx1.
have aG : adj G = G by rewrite /G adjM adjK.
have aH : adj H = H by rewrite /H adjM adjK.
split.
- by rewrite EAP !mulmxA -(mulmxA _ (adj L) L) -/H -(mulmxA L (invmx H)) mulVmx // mulmx1.
- by rewrite EPA /P0 !mulmxA -(mulmxA _ R (adj R)) -/G -(mulmxA _ (invmx G) G) mulVmx // mulmx1.
- by rewrite EAP !adjM adj_inv aH adjK mulmxA.
- by rewrite EPA !adjM adj_inv aG adjK mulmxA.
Qed.

(** the four conditions of Moore and Penrose *)
Lemma pinv_penrose m n (A : 'M[C]_(m, n)) (P := pinv A) :
  [/\ A *m P *m A = A, P *m A *m P = P, adj (A *m P) = A *m P & adj (P *m A) = P *m A].
Proof.
have := penrose_fact (col_base_full A) (row_base_free A).
by rewrite mulmx_base.
Qed.

(** they single out one matrix *)
Lemma penrose_uniq m n (A : 'M[C]_(m, n)) (P Q : 'M[C]_(n, m)) :
  A *m P *m A = A -> P *m A *m P = P -> adj (A *m P) = A *m P -> adj (P *m A) = P *m A ->
  A *m Q *m A = A -> Q *m A *m Q = Q -> adj (A *m Q) = A *m Q -> adj (Q *m A) = Q *m A -> P = Q.
Proof.
move=> a1 a2 a3 a4 b1 b2 b3 b4.
have E1 : A *m P = A *m Q.
  rewrite -[LHS]a3 -{1}b1 -mulmxA adjM a3 b3 !mulmxA; by rewrite a1.
have E2 : P *m A = Q *m A.
  rewrite -[LHS]a4 -{1}b1 mulmxA mulmxA -(mulmxA _ Q A) adjM a4 b4 -mulmxA (mulmxA A P) a1; by [].
by rewrite -a2 -mulmxA E1 mulmxA E2 b2.
Qed.
End Pinv.

Section Expand.
Variable C : numClosedFieldType.
Variables F Fl : eqType.
Variable K : vcls C F Fl.
Variable nan : C.
Variable getpos : circ K -> string -> res C.
Notation reach := (reach nan getpos).
Notation vi2 := (asg C * asg C)%type.
Definition d2 : vi2 := (fun _ => 0, fun _ => 0).

(** incident wave *)
Definition inc (zz : C) (w : vi2) (q : string) : C := (w.1 q + zz * w.2 q) / 2%:R.

Lemma inc_mix zz s (w w' : vi2) q : inc zz (mix s w.1 w'.1, mix s w.2 w'.2) q = inc zz w q + s * inc zz w' q.
Proof. by rewrite /inc /mix /= mulrA -mulrDl; congr (_ / _); ring. Qed.

Definition unit_at (zz : C) (N : net K) z f fl (ps : seq string) (vs : seq vi2) : Prop :=
  size vs = size ps /\ forall k, (k < size ps)%N -> let w := nth d2 vs k in
    sat z N f fl w.1 w.2 /\ forall q, free N q -> inc zz w q = if q == nth "" ps k then 1 else 0.

(** partial sums *)
Definition psum (e : nat -> C) (vs : seq vi2) (w : vi2) (m : nat) : vi2 :=
  foldl (fun u j => (mix (e j) u.1 (nth d2 vs j).1, mix (e j) u.2 (nth d2 vs j).2)) w (iota 0 m).

Lemma psumS e vs w m : psum e vs w m.+1 =
  (mix (e m) (psum e vs w m).1 (nth d2 vs m).1, mix (e m) (psum e vs w m).2 (nth d2 vs m).2).
Proof. by rewrite /psum -[m.+1]addn1 iotaD foldl_cat. Qed.
Lemma psum1 e vs w m p : (psum e vs w m).1 p = w.1 p + \sum_(j < m) e j * (nth d2 vs j).1 p.
Proof.
elim: m => [|m IH]; first by rewrite big_ord0 addr0.
by rewrite psumS /= /mix IH big_ord_recr /= addrA.
Qed.
Lemma psum2 e vs w m p : (psum e vs w m).2 p = w.2 p + \sum_(j < m) e j * (nth d2 vs j).2 p.
Proof.
elim: m => [|m IH]; first by rewrite big_ord0 addr0.
by rewrite psumS /= /mix IH big_ord_recr /= addrA.
Qed.
Lemma psum_inc zz e vs w m q : inc zz (psum e vs w m) q = inc zz w q + \sum_(j < m) e j * inc zz (nth d2 vs j) q.
Proof.
elim: m => [|m IH]; first by rewrite big_ord0 addr0.
by rewrite psumS inc_mix IH big_ord_recr /= addrA.
Qed.

Lemma psum_sat z ns h c f z' fl c' S zz ps vs e (w : vi2) m : reach z ns h c ->
  get1S f z' [::] fl c = (c', Ok S) -> unit_at zz (net_hist h) z f fl ps vs -> (m <= size ps)%N ->
  sat z (net_hist h) f fl w.1 w.2 -> sat z (net_hist h) f fl (psum e vs w m).1 (psum e vs w m).2.
Proof.
move=> Hr G [_ Hu] Hm Hw; elim: m Hm => [|m IH] Hm //.
by rewrite psumS; apply: (sat_mix _ Hr G) => //=; [apply: IH; lia|case: (Hu m Hm)].
Qed.

(** the sum of the unit solutions with the waves e at the ports *)
Lemma sum_unit zz N z f fl ps vs (e : nat -> C) q : unit_at zz N z f fl ps vs -> uniq ps -> (forall p, free N p = (p \in ps)) ->
  free N q -> \sum_(j < size ps) e j * inc zz (nth d2 vs j) q = e (seq.index q ps).
Proof.
move=> [_ Hu] Hps Hf Hq; have Hi : (seq.index q ps < size ps)%N by rewrite index_mem -Hf.
rewrite (bigD1 (Ordinal Hi)) //= big1 ?addr0.
  have [_ ->] := Hu _ Hi; rewrite ?nth_index -?Hf ?eqxx ?mulr1 //.
move=> j Hj; have [_ ->] := Hu _ (ltn_ord j) => //; case: eqP => [E|_]; last by rewrite mulr0.
case/eqP: Hj; apply: val_inj => /=; by rewrite E index_uniq.
Qed.

Lemma expand z ns h c f zz fl c' S ps vs (v i : asg C) : reach z ns h c -> may_ask h f fl -> zz != 0 ->
  get1S f zz [::] fl c = (c', Ok S) -> unit_at zz (net_hist h) z f fl ps vs -> uniq ps ->
  (forall p, free (net_hist h) p = (p \in ps)) ->
  sat z (net_hist h) f fl v i -> forall p, p \in nodes (net_hist h) ->
  v p = \sum_(j < size ps) inc zz (v, i) (nth "" ps j) * (nth d2 vs j).1 p /\
  i p = \sum_(j < size ps) inc zz (v, i) (nth "" ps j) * (nth d2 vs j).2 p.
Proof.
move=> Hr Hm Hzz G Hu Hps Hf Hs p Hp; set e := fun j => inc zz (v, i) (nth "" ps j).
pose w0 : vi2 := (mix (-1) v v, mix (-1) i i).
have H0 : sat z (net_hist h) f fl w0.1 w0.2 by exact: (sat_mix (-1) Hr G Hs Hs).
have E01 q : w0.1 q = 0 by rewrite /w0 /mix /=; ring.
have E02 q : w0.2 q = 0 by rewrite /w0 /mix /=; ring.
have HW := psum_sat e Hr G Hu (leqnn _) H0.
have H2 : 2%:R != 0 :> C by rewrite pnatr_eq0.
have [|Ev Ei] := uniq_zz Hr Hm Hzz G Hs HW _ Hp.
  move=> q Hq; have := psum_inc zz e vs w0 (size ps) q; rewrite (sum_unit e Hu Hps Hf Hq).
  rewrite {2}/inc E01 E02 mulr0 addr0 mul0r add0r /e nth_index -?Hf // /inc /=.
  by move/(mulIf (invr_neq0 H2)).
by rewrite Ev Ei psum1 psum2 E01 E02 !add0r.
Qed.
End Expand.

Section Many.
Variable C : numClosedFieldType.
Variables F Fl : eqType.
Variable K : vcls C F Fl.
Variable nan : C.
Variable getpos : forall K' : vcls C F Fl, circ K' -> string -> res C.
Notation deep := (deep K nan getpos).
Notation reach := (reach nan (@getpos _)).

(** only nodes of the circuit itself are wanted *)
Lemma sol_own n f E z' tn fl (c : circ (deep n)) c1 t : Solution1 f E z' fl c = (c1, Ok t) ->
  {subset tn <= dkeys t} -> Solution f E z' (Some tn) fl c = (c1, Ok t).
Proof.
case: n c c1 => [|n] c c1 E1 Hs; first by rewrite /Solution E1.
rewrite SolutionS /Solution_lv E1 /=.
by rewrite (@eq_in_filter _ _ pred0) ?filter_pred0 // => p /Hs ->.
Qed.
Lemma sol_raise n f E z' nd fl (c : circ (deep n)) c1 e : Solution1 f E z' fl c = (c1, Raise e) ->
  Solution f E z' nd fl c = (c1, Raise e).
Proof.
case: n c c1 => [|n] c c1 E1; first by rewrite /Solution E1.
by rewrite SolutionS /Solution_lv E1.
Qed.

Lemma markE nd b t : mark nd = Ok (b, t) -> b = marked nd /\ t = node_of nd.
Proof. by case: nd => [|a r] //=; case: ifP => _ [<- <-]. Qed.

Lemma marks nds tn : mapM (fun nd => rmap snd (mark nd)) nds = Ok tn -> tn = map node_of nds.
Proof.
elim: nds tn => [|nd nds IH] tn /=; first by case=> <-.
case Em: (mark nd) => [[b t]|] //=; case E: (mapM _ _) => [tn'|] //= [<-].
by rewrite (IH _ E); have [_ ->] := markE Em.
Qed.

Lemma unit_dget (ps : seq string) (p q : string) : q \in ps -> dget [seq (x, if x == p then 1 else 0 : C) | x <- ps] q = Some (if q == p then 1 else 0).
Proof.
elim: ps => //= x ps IH; rewrite in_cons; case: (q =P x) => [->|_] //=.
Qed.

Lemma units_ok n z ns h (c : circ (deep n)) f nds z' fl ps c' ts :
  let zz := if z' == 0 then z else z' in
  reach z ns h c -> order_known ns h -> reterm (past_of h) = false ->
  {subset map node_of nds <= nodes (net_hist h)} ->
  unit_sols f nds z' fl ps c = (c', Ok ts) ->
  size ts = size ps /\ exists vs, [/\ unit_at zz (net_hist h) z f fl ps vs,
    (forall k p, (k < size ps)%N -> p \in nodes (net_hist h) ->
       dget (nth [::] ts k) p = Some (tup zz (nth (d2 C) vs k).1 (nth (d2 C) vs k).2 p)) &
    ps <> [::] -> exists c2 S2, get1S f zz [::] fl c = (c2, Ok S2)].
Proof.
move=> zz; elim: ps h c ts => [|p ps IH] h c ts Hr Ho Ht Hn /=.
  by case=> _ <-; split=> //; exists [::].
have Hm : may_ask h f fl by rewrite /may_ask Ht.
have Hz : z != 0 by case: Hr.
have Hzz : zz != 0 by rewrite /zz; case: ifP => // /negbT.
case Em: (mapM _ _) => [tn|] //; have En := marks Em.
case E1: (Solution1 f [seq (q, if q == p then 1 else 0) | q <- ports c] z' fl c) => [c1 [t|e]]; last first.
  by rewrite (sol_raise _ E1).
have [HE [S2 G]] := sol1_inv Hr Hm E1; rewrite -/zz in G.
have [t0 [v [i [E0 Hs [Hx _] [Hk Hu] Ht0]]]] := thm_C22 Hr Hm Ho HE G.
have Et : t0 = t by move: E0; rewrite E1 => -[].
rewrite {}Et in Hk Hu Ht0 E0.
have Hsub : {subset tn <= dkeys t} by move=> q; rewrite En => /Hn; rewrite Hk.
rewrite (sol_own E1 Hsub) /=.
case Eu: (unit_sols _ _ _ _ _ _) => [c3 [ts'|e]] //= [E3 <-]; rewrite E3 in Eu.
pose ev := (@OGetS C F Fl (deep n) f zz fl, true).
have Hr1 : reach z ns (rcons h ev) c1 by apply: (reach_snoc Hr) => //=; rewrite G.
have Enet : net_hist (rcons h ev) = net_hist h by rewrite net_rcons.
have [|||Hsz [vs [[Hsv Hv] Hd _]]] := IH _ _ _ Hr1 _ _ _ Eu.
- exact: known_rcons.
- by rewrite past_rcons.
- by rewrite Enet.
rewrite Enet in Hv Hd.
split; first by rewrite /= Hsz.
exists ((v, i) :: vs); split; last by move=> _; exists c1, S2.
- split; first by rewrite /= Hsv.
  move=> [|k] Hk' /=; last exact: Hv.
  split=> // q Hq; have := Hx q Hq; rewrite unit_dget; last by rewrite (v_fp (ci_inv (reach_CI Hr))).
  by rewrite /inc /= => -[<-].
- move=> [|k] q Hk' Hq /=; last exact: Hd.
  have Hq' : q \in dkeys t by rewrite Hk.
  move: Hq'; rewrite -dhasE /dhas; case Ed: (dget t q) => [x|] // _.
  by rewrite (Ht0 _ _ (dget_In Ed)).
Qed.

Lemma ab_rowE zz ts nd r (vs : seq (asg C * asg C)) : ab_row ts nd = Ok r ->
  (forall k, (k < size ts)%N -> dget (nth [::] ts k) (node_of nd) =
     Some (tup zz (nth (d2 C) vs k).1 (nth (d2 C) vs k).2 (node_of nd))) ->
  forall k, (k < size ts)%N ->
    nth 0 r.1 k = wave_a zz (nth (d2 C) vs k).1 (nth (d2 C) vs k).2 nd /\
    nth 0 r.2 k = wave_b zz (nth (d2 C) vs k).1 (nth (d2 C) vs k).2 nd.
Proof.
rewrite /ab_row; case Em: (mark nd) => [[b t]|] //=; have [-> ->] := markE Em.
case Ex: (mapM _ _) => [xs|] //= [<-] Hd k Hk.
have [Esz Hx] := iffLR (mapM_Ok _ _ _) Ex.
have Hk' : (k < size xs)%N by rewrite -Esz.
have := Hx k [::] (0, 0, 0, 0) Hk; rewrite /dget_exn (Hd k Hk) => -[Exk].
rewrite /wave_a /wave_b; case: (marked nd) => /=;
  by rewrite !(nth_map (0, 0, 0, 0)) // -Exk.
Qed.

(** what is computed: the waves at the nodes for the unit excitations *)
Lemma internal_inv n z ns h (c : circ (deep n)) f nds z' fl c' r :
  let zz := if z' == 0 then z else z' in
  reach z ns h c -> may_ask h f fl -> {subset map node_of nds <= nodes (net_hist h)} ->
  internal_S f nds z' fl c = (c', Ok r) ->
  exists ns' h' (c1 : circ (deep n)) ps vs c2 S2, [/\ reach z ns' h' c1 /\ may_ask h' f fl, net_hist h' = net_hist h,
    get1S f zz [::] fl c1 = (c2, Ok S2) /\ unit_at zz (net_hist h) z f fl ps vs,
    [/\ uniq ps, forall p, free (net_hist h) p = (p \in ps) & size ps = size (ports c)] &
    let k := size nds in let m := size ps in
    let MA : 'M[C]_(k, m) := \matrix_(a, b) wave_a zz (nth (d2 C) vs b).1 (nth (d2 C) vs b).2 (nth "" nds a) in
    let MB : 'M[C]_(k, m) := \matrix_(a, b) wave_b zz (nth (d2 C) vs b).1 (nth (d2 C) vs b).2 (nth "" nds a) in
    if k == m then exists2 X : 'M[C]_(m, k), MA *m X = 1%:M /\ X *m MA = 1%:M & r = rows_of (MB *m X)
    else (k < m)%N /\ r = rows_of (MB *m pinv MA)].
Proof.
move=> zz Hr Hm Hn; rewrite /internal_S.
have Hz : z != 0 by case: Hr.
case G0: (get1S f 0 [::] fl c) => [c0 [S0|e]] //=.
case Eu: (unit_sols _ _ _ _ _ _) => [c3 [ts|e]] //=.
case Em: (mapM _ _) => [AB|] //=.
case: ifP => // /negbT Hk0.
pose ev := (@OGetS C F Fl (deep n) f 0 fl, true).
have Hr0 : reach z ns (rcons h ev) c0 by apply: (reach_snoc Hr) => //=; rewrite G0.
have Enet : net_hist (rcons h ev) = net_hist h by rewrite net_rcons.
have Ht0 : reterm (past_of (rcons h ev)) = false by rewrite past_rcons.
have Ho0 : order_known ns (rcons h ev) by right; exists h, f, 0, fl, [::]; rewrite cats1.
have [D Hpp _ [_ _ Hne _ _]] := get1S_CI (reach_CI Hr) Hm G0.
have [|Hsz [vs [Hu Hd Hg]]] := units_ok Hr0 Ho0 Ht0 _ Eu; first by rewrite Enet.
rewrite Enet -/zz in Hu Hd.
have [c2 [S2 G2]] := Hg Hne; rewrite -/zz in G2.
have HI0 := ci_inv D.
have [Esz HAB] := iffLR (mapM_Ok _ _ _) Em.
move=> Hres; exists ns, (rcons h ev), c0, (ports c0), vs, c2, S2; split=> //.
- by split=> //; rewrite /may_ask Ht0.
- split=> //; first exact: (v_up HI0).
    by move=> p; rewrite (v_fp HI0).
  by apply: perm_size; apply: uniq_perm => //; [exact: (v_up HI0)|exact: (v_up (ci_inv (reach_CI Hr)))].
move: Hres; rewrite Hsz /=; set k := size nds; set m := size (ports c0).
have Hrow a b : (a < k)%N -> (b < m)%N ->
    nth 0 (nth [::] (map fst AB) a) b = wave_a zz (nth (d2 C) vs b).1 (nth (d2 C) vs b).2 (nth "" nds a) /\
    nth 0 (nth [::] (map snd AB) a) b = wave_b zz (nth (d2 C) vs b).1 (nth (d2 C) vs b).2 (nth "" nds a).
  move=> Ha Hb; rewrite !(nth_map ([::], [::])) -?Esz //.
  apply: (ab_rowE (HAB a "" ([::], [::]) Ha)); rewrite ?Hsz // => j Hj.
  by apply: Hd => //; apply: Hn; apply: map_f; exact: mem_nth.
have EA m' (Hm' : (m' <= m)%N) : mx_of k m' (map fst AB) = \matrix_(a, b) wave_a zz (nth (d2 C) vs b).1 (nth (d2 C) vs b).2 (nth "" nds a).
  by apply/matrixP => a b; rewrite !mxE; have [] := Hrow a b (ltn_ord a) (leq_trans (ltn_ord b) Hm').
have EB m' (Hm' : (m' <= m)%N) : mx_of k m' (map snd AB) = \matrix_(a, b) wave_b zz (nth (d2 C) vs b).1 (nth (d2 C) vs b).2 (nth "" nds a).
  by apply/matrixP => a b; rewrite !mxE; have [] := Hrow a b (ltn_ord a) (leq_trans (ltn_ord b) Hm').
case: ifP => [/eqP Ekm|_]; last first.
  case: ifP => // Hkm [_ <-]; split=> //; by rewrite EA // EB.
have Hkm : (k <= m)%N by rewrite Ekm.
rewrite EA // EB //; clear EA EB Hrow Hkm; move: (m) Ekm => m' <-.
rewrite /np_inv; case: ifP => // HU /= [_ <-].
by eexists; [|reflexivity]; rewrite ?mulmxV ?mulVmx.
Qed.

(** a result that was stored is found again *)
Lemma get_again n (c : circ (deep n)) f z1 fl c1 S1 : get1S f z1 [::] fl c = (c1, Ok S1) ->
  exists S0, rebase z1 (zb c1) S0 = Ok S1 /\ forall z2,
    get1S f z2 [::] fl c1 = (c1, rebase z2 (zb c1) S0) /\ get1S f z2 [::] fl c = (c1, rebase z2 (zb c1) S0).
Proof.
rewrite /get1S; set b := ((Some f != cf c) || _ || _); case Eb0: b.
  case Es: (solve_now _ _ _ _) => [c2 [S0|e]] //= [E2 Eb]; rewrite -E2; exists S0; split=> // z2; split=> //.
  move: Es; rewrite /solve_now; case: (loop _ _ _) => [d [u|e]] //=; case: (extS _) => [d2 [S2|e]] //= [<- <-].
  by rewrite /= !eqxx.
case Ec: (cS c) => [S0|] //= -[E1 Eb]; exists S0; rewrite -E1; split=> // z2.
by rewrite -/b Eb0 Ec.
Qed.

Lemma units_fw n z ns h (c : circ (deep n)) f nds z' fl ps c2 S2 :
  let zz := if z' == 0 then z else z' in
  reach z ns h c -> order_known ns h -> reterm (past_of h) = false ->
  {subset map node_of nds <= nodes (net_hist h)} -> "" \notin nds ->
  get1S f zz [::] fl c = (c2, Ok S2) ->
  exists c' ts, unit_sols f nds z' fl ps c = (c', Ok ts).
Proof.
move=> zz; elim: ps h c => [|p ps IH] h c Hr Ho Ht Hn He G; first by exists c, [::].
have Hm : may_ask h f fl by rewrite /may_ask Ht.
set E := [seq (q, if q == p then 1 else 0 : C) | q <- ports c].
have HE : {subset ports c <= dkeys E}.
  by move=> q Hq; rewrite -dhasE /dhas /E unit_dget.
have [t [v [i [E1 _ _ [Hk _] _]]]] := thm_C22 Hr Hm Ho HE G.
have Em : mapM (fun nd => rmap snd (mark nd)) nds = Ok (map node_of nds).
  move: He; elim: nds {Hn IH} => //= nd nds IH; rewrite in_cons negb_or => /andP[Hd /IH ->].
  by case: nd Hd => [|a r] //= _; case: ifP.
rewrite /= Em (sol_own (tn := map node_of nds) E1) /=; last by move=> q /Hn; rewrite Hk.
pose ev := (@OGetS C F Fl (deep n) f zz fl, true).
have Hr1 : reach z ns (rcons h ev) c2 by apply: (reach_snoc Hr) => //=; rewrite G.
have [S0 [Eb Hag]] := get_again G; have [G2 _] := Hag zz; rewrite Eb in G2.
have [|||c' [ts ->]] := IH _ _ Hr1 _ _ _ He G2.
- exact: known_rcons.
- by rewrite past_rcons.
- by rewrite net_rcons.
by exists c', (t :: ts).
Qed.

Lemma ab_row_fw ts nd : nd <> "" -> (forall t, List.In t ts -> node_of nd \in dkeys t) ->
  exists r, ab_row (C := C) ts nd = Ok r.
Proof.
move=> Hd Ht; rewrite /ab_row.
have [b Em] : exists b, mark nd = Ok (b, node_of nd).
  by case: nd Hd {Ht} => [|a r] //= _; case: ifP => _; eexists.
rewrite Em /=; have [xs ->] : exists xs, mapM (fun t => dget_exn t (node_of nd)) ts = Ok xs.
  elim: ts Ht => [|t ts IH] Ht /=; first by exists [::].
  have := Ht t (or_introl erefl); rewrite -dhasE /dhas /dget_exn; case: (dget _ _) => [x|] //= _.
  by have [|xs ->] := IH; [move=> u Hu; apply: Ht; right|exists (x :: xs)].
by eexists.
Qed.

(** what Get_internalSmatrix does once getS returned on both impedances *)
Lemma internal_out n z ns h (c : circ (deep n)) f nds z' fl c2 S2 :
  let zz := if z' == 0 then z else z' in
  reach z ns h c -> may_ask h f fl -> {subset map node_of nds <= nodes (net_hist h)} ->
  "" \notin nds -> nds <> [::] -> get1S f zz [::] fl c = (c2, Ok S2) ->
  exists c' r, internal_S f nds z' fl c = (c', r) /\
  if (size nds < size (ports c))%N then exists S, r = Ok S
  else if (size (ports c) < size nds)%N then r = Raise ValueError
  else (exists S, r = Ok S) \/
    r = Raise LinAlgError /\ exists v i : asg C, [/\ sat z (net_hist h) f fl v i,
      exists2 p, free (net_hist h) p & v p + zz * i p != 0 & forall nd, nd \in nds -> wave_a zz v i nd = 0].
Proof.
move=> zz Hr Hm Hn He Hne G; rewrite /internal_S.
have Hz : z != 0 by case: Hr.
have Hzz : zz != 0 by rewrite /zz; case: ifP => // /negbT.
have [S0 [Eb Hag]] := get_again G; have [_ G0] := Hag 0; have [Gz _] := Hag zz; rewrite Eb in Gz.
rewrite /rebase eqxx /= in G0; rewrite G0 /=.
pose ev := (@OGetS C F Fl (deep n) f 0 fl, true).
have Hr0 : reach z ns (rcons h ev) c2 by apply: (reach_snoc Hr) => //=; rewrite G0.
have Enet : net_hist (rcons h ev) = net_hist h by rewrite net_rcons.
have Ht0 : reterm (past_of (rcons h ev)) = false by rewrite past_rcons.
have Ho0 : order_known ns (rcons h ev) by right; exists h, f, 0, fl, [::]; rewrite cats1.
have [D Hpp _ [_ _ Hpne _ _]] := get1S_CI (reach_CI Hr) Hm G0.
have HI0 := ci_inv D; have Hup := v_up HI0.
have Hn0 : {subset map node_of nds <= nodes (net_hist (rcons h ev))} by rewrite Enet.
have [c' [ts Eu]] := units_fw (ports c2) Hr0 Ho0 Ht0 Hn0 He Gz.
rewrite Eu /=; exists c'; eexists; split; first reflexivity.
have [Hsz [vs [Hu Hd _]]] := units_ok Hr0 Ho0 Ht0 Hn0 Eu; rewrite Enet -/zz in Hu Hd.
have Epz : size (ports c) = size (ports c2).
  by symmetry; apply: perm_size; apply: uniq_perm => //; exact: (v_up (ci_inv (reach_CI Hr))).
have [AB Em] : exists AB, mapM (ab_row ts) nds = Ok AB.
  have Hs x : x \in nds -> exists r, ab_row ts x = Ok r.
    move=> Hx; apply: ab_row_fw; first by move=> E0; rewrite E0 in Hx; rewrite Hx in He.
    move=> t Ht; have [k Hk <-] : exists2 k, (k < size ts)%N & nth [::] ts k = t.
      elim: ts Ht {Eu Hsz Hd} => //= u us IH [<-|/IH [k Hk <-]]; [by exists 0%N|by exists k.+1].
    rewrite Hsz in Hk; apply: dget_keys; apply: Hd Hk _; apply: Hn; exact: map_f.
  elim: nds Hs {Hn He Hne Hn0 Eu} => [|nd nds IH] Hs /=; first by exists [::].
  have [r ->] := Hs nd (mem_head _ _); have [|AB ->] := IH; first by move=> x Hx; apply: Hs; rewrite in_cons Hx orbT.
  by exists (r :: AB).
rewrite Em /=; have -> : (size nds == 0)%N = false by case: (nds) Hne.
rewrite Epz Hsz; case: ltngtP => // Hkm; first by eexists.
have [Esz HAB] := iffLR (mapM_Ok _ _ _) Em.
rewrite /np_inv; case: ifP => HU /=; first by left; eexists.
right; split=> //; have [e HMe He0] := notunit_ker (negbT HU).
have [x0 [y0 Hs0]] : exists x0 y0, sat z (net_hist h) f fl x0 y0.
  case: (ports c2) Hpne Hu => [|p ps] // _ [_ /(_ 0%N erefl) /= [H _]]; by exists (nth (d2 C) vs 0).1, (nth (d2 C) vs 0).2.
pose w0 : asg C * asg C := (mix (-1) x0 x0, mix (-1) y0 y0).
have H0 : sat z (net_hist h) f fl w0.1 w0.2 by exact: (sat_mix (-1) Hr G Hs0 Hs0).
have E01 q : w0.1 q = 0 by rewrite /w0 /mix /=; ring.
have E02 q : w0.2 q = 0 by rewrite /w0 /mix /=; ring.
pose ee (j : nat) : C := if insub j is Some j' then e j' 0 else 0.
have Eee (j : 'I_(size nds)) : ee j = e j 0 by rewrite /ee valK.
have Hf p : free (net_hist h) p = (p \in ports c2) by rewrite (v_fp HI0).
set W := psum ee vs w0 (size (ports c2)).
exists W.1, W.2; split; first exact: (psum_sat ee Hr G Hu (leqnn _) H0).
  have [j Hj] : exists j, e j 0 != 0.
    apply/existsP; apply: contraR He0 => /existsPn H; apply/eqP/matrixP => a b.
    by rewrite (ord1 b) mxE; apply/eqP; rewrite -[_ == _]negbK.
  have Hj' : (j < size (ports c2))%N by rewrite -Hkm.
  have Hfp : free (net_hist h) (nth "" (ports c2) j) by rewrite Hf mem_nth.
  exists (nth "" (ports c2) j) => //; apply: contra Hj => /eqP Ew; rewrite -Eee.
  have := psum_inc zz ee vs w0 (size (ports c2)) (nth "" (ports c2) j).
  rewrite (sum_unit ee Hu Hup Hf Hfp) index_uniq // -/W {2}/inc E01 E02 mulr0 addr0 mul0r add0r => <-.
  by rewrite /inc Ew mul0r.
move=> nd Hnd; pose a := seq.index nd nds.
have Ha : (a < size nds)%N by rewrite index_mem.
have Ea : nth "" nds a = nd by rewrite nth_index.
have EW : wave_a zz W.1 W.2 nd = \sum_(j < size (ports c2)) wave_a zz (nth (d2 C) vs j).1 (nth (d2 C) vs j).2 nd * ee j.
  rewrite /wave_a /W psum1 psum2 E01 E02 !add0r; case: (marked nd).
    rewrite mulr_sumr -sumrB mulr_suml; apply: eq_bigr => j _; ring.
  rewrite mulr_sumr -big_split mulr_suml; apply: eq_bigr => j _ /=; ring.
rewrite EW; have := congr1 (fun M : 'cV[C]_(size nds) => M (Ordinal Ha) 0) HMe; rewrite !mxE => E0; apply: etrans E0.
rewrite (big_ord_widen_cond (size nds) xpredT (fun j => wave_a zz (nth (d2 C) vs j).1 (nth (d2 C) vs j).2 nd * ee j)) ?Hkm //=.
apply: eq_big => [j|j _]; first by rewrite -Hkm ltn_ord.
rewrite Eee !mxE /=; congr (_ * _).
rewrite (nth_map ([::], [::])) -?Esz //.
have Er : ab_row ts nd = Ok (nth ([::], [::]) AB a) by rewrite -{1}Ea; exact: HAB.
have Hdk k : (k < size ts)%N -> dget (nth [::] ts k) (node_of nd) = Some (tup zz (nth (d2 C) vs k).1 (nth (d2 C) vs k).2 (node_of nd)).
  by move=> Hk; apply: Hd; rewrite -?Hsz //; apply: Hn; exact: map_f.
by have [|-> _] := ab_rowE Er Hdk (k := j); rewrite ?Hsz -?Hkm.
Qed.
End Many.

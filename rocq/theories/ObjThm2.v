(** Proofs about rfObject: sortports, deembed. *)
From mathcomp Require Import all_ssreflect all_algebra.
From mathcomp.algebra_tactics Require Import ring.
From Coq Require Import String.
From Verif Require Import Base ConvModel ConvSpec MxLib ConvProofs ConvArr DevModel DevSpec DevThm TrlSpec TrlThm ObjModel ObjSpec ObjThm.
Set Implicit Arguments.
Unset Strict Implicit.
Unset Printing Implicit Defensive.
Import Order.TTheory GRing.Theory Num.Theory.
Local Open Scope ring_scope.
Local Open Scope seq_scope.

Lemma Ok_inj A (x y : A) : Ok x = Ok y -> x = y.
Proof. by case. Qed.

Arguments deembed1 : simpl never.
Section Sort.
Variables (C : numClosedFieldType) (F : realFieldType).

Lemma AM_inj n (M N : 'M[C]_n) : AM M = AM N -> M = N.
Proof. by move=> E; apply: (Eqdep_dec.inj_pair2_eq_dec _ PeanoNat.Nat.eq_dec _ _ _ _ E). Qed.

Lemma mget_in n (M : 'M[C]_n) (i j : 'I_n) : mget (AM M) i j = M i j.
Proof. by rewrite /mget /= !valK. Qed.

Lemma perm_between (ports : seq string) idxs (A : amx C) p q : uniq ports -> perm_eq idxs (iota 0 (size ports)) ->
  p \in ports -> q \in ports ->
  between (take_idx ""%string ports idxs) (perm_amx idxs A) p q = between ports A p q.
Proof.
move=> Hu Hp Hi Hj; rewrite /between.
have H r : r \in ports -> (seq.index r (take_idx ""%string ports idxs) < size idxs)%N /\
    nth 0%N idxs (seq.index r (take_idx ""%string ports idxs)) = seq.index r ports.
  move=> Hr; set k := seq.index _ (take_idx _ _ _).
  have Hin : r \in take_idx ""%string ports idxs by rewrite (perm_mem (take_idx_perm _ Hp)).
  have Hk : (k < size idxs)%N by move: Hin; rewrite -index_mem size_map.
  split=> //; have Hn : nth ""%string ports (nth 0%N idxs k) = r.
    by have := nth_index ""%string Hin; rewrite -/k (nth_map 0%N).
  have Hlt : (nth 0%N idxs k < size ports)%N.
    by have := mem_nth 0%N Hk; rewrite (perm_mem Hp) mem_iota.
  by rewrite -[in RHS]Hn index_uniq.
have [Hip Eip] := H _ Hi; have [Hjq Ejq] := H _ Hj.
by rewrite /perm_amx -[X in mget _ X _]/(val (Ordinal Hip)) -[X in mget _ _ X]/(val (Ordinal Hjq)) mget_in mxE /= Eip Ejq.
Qed.

Lemma list_idxs_ok (ports order : seq string) idxs : uniq ports -> list_idxs ports order = Ok idxs ->
  [/\ perm_eq idxs (iota 0 (size ports)), take_idx ""%string ports idxs = order ++ [seq p <- ports | p \notin order],
     uniq order & {subset order <= ports}].
Proof.
move=> Hu; rewrite /list_idxs.
case E1: (mapM _ order) => [i1|] //=.
have [Hsub Hi1] : {subset order <= ports} /\ i1 = [seq seq.index p ports | p <- order].
  elim: order i1 E1 => [|p order IH] i1 /=; first by case=> <-.
  case Hp: (p \in ports) => //=; case E: (mapM _ order) => [i2|] //= [<-].
  have [H1 H2] := IH _ E; split; last by rewrite H2.
  by move=> q; rewrite in_cons => /orP [/eqP ->|/H1].
case: ifP => // /negbFE /eqP Hs [<-].
have Hio : {subset i1 <= iota 0 (size ports)}.
  by move=> k; rewrite Hi1 => /mapP [p /Hsub Hp ->]; rewrite mem_iota /= index_mem.
set rest := [seq k <- iota 0 (size ports) | k \notin i1] in Hs *.
have Hu1 : uniq i1.
  have Hc : perm_eq [seq k <- iota 0 (size ports) | k \in i1] (undup i1).
    apply: uniq_perm; rewrite ?filter_uniq ?iota_uniq ?undup_uniq // => k.
    rewrite mem_filter mem_undup; case Hk: (k \in i1) => //=; by rewrite Hio.
  have Hn : (size [seq k <- iota 0 (size ports) | k \in i1] + size rest = size ports)%N.
    by rewrite /rest !size_filter (count_predC (fun k => k \in i1)) size_iota.
  have Heq : size i1 = size (undup i1).
    by apply/eqP; rewrite -(perm_size Hc) -(eqn_add2r (size rest)) Hn -Hs size_cat.
  by apply/negPn; rewrite -ltn_size_undup -Heq ltnn.
have Hp : perm_eq (i1 ++ rest) (iota 0 (size ports)).
  apply: uniq_perm; rewrite ?iota_uniq //.
    rewrite cat_uniq Hu1 filter_uniq ?iota_uniq // andbT /=.
    by apply/hasPn => k; rewrite mem_filter => /andP [].
  move=> k; rewrite mem_cat mem_filter; case Hk: (k \in i1) => //=; by rewrite Hio.
split=> //; last first.
  by move: Hu1; rewrite Hi1 => /map_uniq.
rewrite /take_idx map_cat; congr (_ ++ _).
  rewrite Hi1 -map_comp -[RHS]map_id; apply/eq_in_map => p /Hsub Hp' /=.
  by rewrite nth_index.
rewrite /rest.
have Hf : forall k, k \in iota 0 (size ports) -> (k \notin i1) = (nth ""%string ports k \notin order).
  move=> k; rewrite mem_iota /= add0n => Hk; congr (~~ _); rewrite Hi1.
  apply/mapP/idP => [[p Ho ->]|Ho]; first by rewrite nth_index // Hsub.
  by exists (nth ""%string ports k); rewrite // index_uniq.
rewrite (eq_in_filter Hf) -(filter_map (nth ""%string ports) (fun p => p \notin order)).
by rewrite -[X in filter _ X]/(mkseq (nth ""%string ports) (size ports)) mkseq_nth.
Qed.

Lemma list_idxs_total (ports order : seq string) : uniq ports -> uniq order -> {subset order <= ports} ->
  exists idxs, list_idxs ports order = Ok idxs.
Proof.
move=> Hu Ho Hs; rewrite /list_idxs.
have -> : mapM (fun p => if p \in ports then Ok (seq.index p ports) else Raise ValueError) order = Ok [seq seq.index p ports | p <- order].
  elim: order Hs {Ho} => [|p l IH] Hs //=; rewrite (Hs p (mem_head _ _)) /= IH // => q Hq.
  by apply: Hs; rewrite in_cons Hq orbT.
rewrite /=; set i1 := map _ order.
have Hu1 : uniq i1.
  rewrite map_inj_in_uniq // => p q /Hs Hp /Hs Hq E.
  by rewrite -(nth_index ""%string Hp) E nth_index.
have Hio : {subset i1 <= iota 0 (size ports)}.
  by move=> k /mapP [p /Hs Hp ->]; rewrite mem_iota /= index_mem.
have Hc : perm_eq [seq k <- iota 0 (size ports) | k \in i1] i1.
  apply: uniq_perm; rewrite ?filter_uniq ?iota_uniq // => k.
  rewrite mem_filter; case Hk: (k \in i1) => //=; by rewrite Hio.
have Hn : (size [seq k <- iota 0 (size ports) | k \in i1] + size [seq k <- iota 0 (size ports) | k \notin i1] = size ports)%N.
  by rewrite !size_filter (count_predC (fun k => k \in i1)) size_iota.
by rewrite size_cat -(perm_size Hc) Hn eqxx /=; eexists.
Qed.
End Sort.

Section Deembed.
Variables (C : numClosedFieldType) (F : realFieldType).

Definition updc n (V : 'cV[C]_n) (k : 'I_n) (x : C) : 'cV[C]_n := \col_j (if j == k then x else V j 0).

(** relates in terms of waves *)
Lemma relates_waves n z (S : 'M[C]_n) V I : relates "V" (const_mx z) S V I <->
  forall k, (V k 0 - z * I k 0) = \sum_j S k j * (V j 0 + z * I j 0).
Proof.
have H k : (wave_b "V" ((const_mx z : 'rV[C]_n) 0 k) (V k 0) (I k 0) = \sum_j S k j * wave_a "V" ((const_mx z : 'rV[C]_n) 0 j) (V j 0) (I j 0)) <->
    (V k 0 - z * I k 0) = \sum_j S k j * (V j 0 + z * I j 0).
  rewrite mxE /wave_b /wave_a /=.
  have -> : \sum_j S k j * ((V j 0 + (const_mx z : 'rV[C]_n) 0 j * I j 0) / 2%:R) = (\sum_j S k j * (V j 0 + z * I j 0)) / 2%:R.
    by rewrite mulr_suml; apply: eq_bigr => j _; rewrite mxE mulrA.
  split=> [E|->] //; have H2 : (2%:R : C)^-1 != 0 by rewrite invr_eq0 pnatr_eq0.
  exact: (mulIf H2 E).
by split=> Hr k; apply/H.
Qed.

Lemma deembed_wave n (T : 'M[C]_2) (S : 'M[C]_n) (k : 'I_n) S' (a b : 'I_n -> C) : 
  deembed1 T k (AM S) = Ok (AM S') ->
  (forall i, b i = \sum_j S' i j * a j) <->
  exists x y, [/\ (forall i, (if i == k then y else b i) = \sum_j S i j * (if j == k then x else a j)),
     x = T 0 0 * y + T 0 1 * a k & b k = T 1 0 * y + T 1 1 * a k].
Proof.
rewrite /deembed1 [AM _]/AM /= valK; case: ifP => // /negbT Hq E.
have {E} <- := AM_inj (Ok_inj E).
have [q Eq] : exists q, q = 1 - T 0 0 * S k k by eexists.
rewrite -Eq in Hq *.
have [r Er] : exists r, r = \sum_(j | j != k) S k j * a j by eexists.
have HS i x : \sum_j S i j * (if j == k then x else a j) = S i k * x + \sum_(j | j != k) S i j * a j.
  rewrite (bigD1 k) //= eqxx; congr (_ + _); by apply: eq_bigr => j /negbTE ->.
have HS' i : \sum_j (\matrix_(i, j) (if i == k then
      (\row_j0 (if j0 == k then T 1 0 / q * S k j0 * T 0 1 + T 1 1 else T 1 0 / q * S k j0)) 0 j
     else if j == k then (\col_i0 (T 0 1 / q * S i0 k)) i 0
     else (S + (\col_i0 S i0 k) *m (\row_j0 (T 0 0 / q * S k j0))) i j)) i j * a j =
   if i == k then T 1 0 / q * (r + S k k * T 0 1 * a k) + T 1 1 * a k
   else \sum_(j | j != k) S i j * a j + S i k * (T 0 0 / q * r + T 0 1 / q * a k).
  rewrite (bigD1 k) //= mxE.
  case: (i =P k) => [->|/eqP Hik].
    rewrite mxE eqxx (eq_bigr (fun j => T 1 0 / q * (S k j * a j))).
      by rewrite -mulr_sumr -Er; ring.
    by move=> j /negbTE Hj; rewrite !mxE eqxx Hj mulrA.
  rewrite eqxx mxE (eq_bigr (fun j => S i j * a j + S i k * (T 0 0 / q) * (S k j * a j))).
    by rewrite big_split /= -mulr_sumr -Er; ring.
  move=> j /negbTE Hj; rewrite !mxE (negbTE Hik) Hj ?mxE big_ord1 ?mxE.
  rewrite mulrDl; congr (_ + _); rewrite -!mulrA. by [].
split=> [H|[x [y [H Hx Hy]]] i].
  have [y Ey] : exists y, y = (r + S k k * T 0 1 * a k) / q by eexists.
  exists (T 0 0 * y + T 0 1 * a k), y; split=> //.
    move=> i; rewrite HS; case: (i =P k) => [->|/eqP Hik].
      rewrite -Er; have E : y * q = r + S k k * T 0 1 * a k by rewrite Ey divfK.
      by transitivity (y * q + T 0 0 * S k k * y); [rewrite Eq; ring|rewrite E; ring].
    rewrite H HS' (negbTE Hik) Ey addrC; congr (_ + _).
    have E : q + T 0 0 * S k k = 1 by rewrite Eq; ring.
    transitivity (S i k * (T 0 0 / q * r + (q + T 0 0 * S k k) * T 0 1 / q * a k)); first by rewrite E mul1r.
    by field; exact: Hq.
  by rewrite H HS' eqxx Ey; ring.
have Ek := H k; rewrite eqxx HS -Er in Ek.
have Ey : y = (r + S k k * T 0 1 * a k) / q.
  apply: (mulIf Hq); rewrite divfK // Eq.
  transitivity (y - T 0 0 * S k k * y); first by ring.
  by rewrite {1}Ek Hx; ring.
rewrite HS'; case: (i =P k) => [->|/eqP Hik].
  by rewrite Hy Ey; ring.
have := H i; rewrite (negbTE Hik) HS => ->; rewrite addrC Hx Ey; congr (_ + _).
have E : q + T 0 0 * S k k = 1 by rewrite Eq; ring.
transitivity (S i k * (T 0 0 / q * r + (q + T 0 0 * S k k) * T 0 1 / q * a k)); last by rewrite E mul1r.
by field; exact: Hq.
Qed.

Lemma updcE n (V : 'cV[C]_n) k x j : updc V k x j 0 = if j == k then x else V j 0.
Proof. by rewrite mxE. Qed.

Lemma deembed1_line n z (T : 'M[C]_2) (S : 'M[C]_n) (k : 'I_n) S' V I : z != 0 -> deembed1 T k (AM S) = Ok (AM S') ->
  relates "V" (const_mx z) S' V I <->
  exists v i, relates "V" (const_mx z) S (updc V k v) (updc I k i) /\ scat_law z T v (V k 0) (- i) (I k 0).
Proof.
move=> Hz HD; rewrite relates_waves.
rewrite (deembed_wave (fun j => V j 0 + z * I j 0) (fun j => V j 0 - z * I j 0) HD); split.
  case=> x [y [H Hx Hy]]; exists ((x + y) / 2%:R), ((x - y) / (2%:R * z)).
  have Ex : (x + y) / 2%:R + z * ((x - y) / (2%:R * z)) = x by field; rewrite Hz.
  have Ey : (x + y) / 2%:R - z * ((x - y) / (2%:R * z)) = y by field; rewrite Hz.
  split.
    apply/relates_waves => i; rewrite !updcE; transitivity (if i == k then y else V i 0 - z * I i 0).
      by case: (i == k).
    rewrite H; apply: eq_bigr => j _; rewrite !updcE; by case: (j == k); rewrite ?Ex.
  by apply/rel2; rewrite !mulrN opprK Ex Ey.
case=> v [i [/relates_waves H /rel2]]; rewrite !mulrN opprK => -[H1 H2].
exists (v + z * i), (v - z * i); split=> // j.
transitivity (updc V k v j 0 - z * updc I k i j 0); first by rewrite !updcE; case: (j == k).
by rewrite H; apply: eq_bigr => l _; rewrite !updcE; case: (l == k).
Qed.

Lemma deembed1_dim n (T : 'M[C]_2) kp (M : 'M[C]_n) A' : deembed1 T kp (AM M) = Ok A' ->
  exists2 k : 'I_n, kp = k & exists M' : 'M[C]_n, A' = AM M'.
Proof.
rewrite /deembed1 [AM _]/AM /=; case: insubP => [k Hk Ek|] //; case: ifP => // _ [<-].
by exists k => //; eexists.
Qed.

Lemma line1_through (Zc v1 v2 i1 i2 : C) : Zc != 0 -> line_law 1 Zc v1 v2 i1 i2 <-> through_law v1 v2 i1 i2.
Proof.
move=> Hz; rewrite /line_law /through_law !mul1r; split; last first.
  move=> [-> E]; have -> : i1 = - i2 by apply/eqP; rewrite -addr_eq0 E.
  by rewrite mulrN opprK.
case=> A B.
have H2 : (2%:R : C) != 0 by rewrite pnatr_eq0.
have Ev : v1 = v2.
  apply: (mulfI H2); transitivity ((v1 + Zc * i1) + (v1 - Zc * i1)); first by ring.
  by rewrite -A B; ring.
split=> //; apply: (mulfI Hz); rewrite mulr0.
by transitivity ((v1 + Zc * i1) - (v2 - Zc * i2) - (v1 - v2)); [ring|rewrite A Ev; ring].
Qed.

Lemma line_undo (t Zc v1 v2 i1 i2 : C) : Zc != 0 -> t != 0 ->
  cascade (line_law t Zc) (line_law t^-1 Zc) v1 v2 i1 i2 <-> through_law v1 v2 i1 i2.
Proof. by move=> Hz Ht; rewrite line_cascade ?invr_neq0 // divff // line1_through. Qed.

Definition drop_line n (ls : 'I_n -> option (C -> C -> C -> C -> Prop)) k := fun j => if j == k then None else ls j.

Lemma deembed_step n z (T : 'M[C]_2) (S : 'M[C]_n) (k : 'I_n) S' ls R law law' : z != 0 ->
  deembed1 T k (AM S) = Ok (AM S') -> is_scat (with_lines ls R) z S -> ls k = Some law -> is_scat2 law' z T ->
  (forall v1 v2 i1 i2, cascade law law' v1 v2 i1 i2 <-> through_law v1 v2 i1 i2) ->
  is_scat (with_lines (drop_line ls k) R) z S'.
Proof.
move=> Hz HD HS Hk HT Hc V I; rewrite (deembed1_line V I Hz HD); split.
  case=> v [i [HR Hl]].
  have Hl0 := Hl k; rewrite /drop_line eqxx in Hl0; case: Hl0 => E1 E2.
  have [vm [im [C1 C2]]] : cascade law law' (V k 0) (V k 0) (- I k 0) (I k 0).
    by apply/Hc; split=> //; rewrite addNr.
  exists vm, im; split; last first.
    by apply/HT.
  apply/HS; exists v, i; split=> // j; have := Hl j; rewrite /drop_line !updcE.
  case: (j =P k) => [->|] //; by rewrite Hk E1 E2.
case=> vm [im [/HS [v [i [HR Hl]]] /HT HT1]].
exists v, i; split=> // j; have := Hl j; rewrite /drop_line !updcE.
case: (j =P k) => [->|] //; rewrite Hk => H1.
have : cascade law law' (v k 0) (V k 0) (- i k 0) (I k 0) by exists vm, im.
by case/Hc => -> /eqP; rewrite addrC subr_eq0 => /eqP ->.
Qed.

Lemma dget_ddel_neq (K : eqType) (V : Type) (e : seq (K * V)) k k' : k' != k -> dget (ddel e k) k' = dget e k'.
Proof.
move=> Hne; elim: e => [|[k1 v1] e IH] //=; case: (k =P k1) => [<-|Hk] /=; first by rewrite (negbTE Hne).
by rewrite IH.
Qed.

(** the whole table *)
Variable trlS : C -> C -> C -> F -> res 'M[C]_2.

Lemma deembed_tab_ok n (trl : F -> res 'M[C]_2) kp (fs : seq F) (Ms : seq 'M[C]_n) Ss' : size fs = size Ms ->
  deembed_tab trl kp fs [seq AM M | M <- Ms] = (Ss', Ok tt) -> exists2 Ms' : seq 'M[C]_n, Ss' = [seq AM M | M <- Ms'] &
    size Ms' = size Ms /\ forall m, (m < size fs)%N -> exists T, trl (nth 0 fs m) = Ok T /\ deembed1 T kp (AM (nth 0 Ms m)) = Ok (AM (nth 0 Ms' m)).
Proof.
elim: fs Ms Ss' => [|f fs IH] [|M Ms] //= Ss'; first by move=> _ [<-]; exists [::].
case=> Hs; case ET: (trl f) => [T|] //=; case ED: (deembed1 T kp (AM M)) => [A'|] //=.
case Er: (deembed_tab trl kp fs [seq AM M | M <- Ms]) => [r x] /= [<- Ex]; rewrite Ex in Er.
have [Ms' -> [Hs' Hm]] := IH _ _ Hs Er.
have [k _ [M' EM]] := deembed1_dim ED.
exists (M' :: Ms') => /=; first by rewrite EM.
split; first by rewrite Hs'.
by case=> [|m] Hlt /=; [exists T; rewrite -EM|apply: Hm].
Qed.

Definition line_of (t : C -> C -> F -> C) (d : seq (string * dval C)) (p : string) (f : F) :=
  if dget d p is Some (DPair L Z) then Some (line_law (t L Z f) Z) else None.

Lemma is_scat_ext n (R R' : 'cV[C]_n -> 'cV[C]_n -> Prop) z S : (forall V I, R V I <-> R' V I) -> is_scat R z S -> is_scat R' z S.
Proof. by move=> H HS V I; rewrite -H. Qed.
Lemma with_lines_ext n (ls ls' : 'I_n -> option (C -> C -> C -> C -> Prop)) R V I : ls =1 ls' -> with_lines ls R V I <-> with_lines ls' R V I.
Proof. by move=> H; split=> -[v [i [HR Hl]]]; exists v, i; split=> // k; have := Hl k; rewrite H. Qed.

Lemma deembed_ports_ok n z (t : C -> C -> F -> C) (ports : seq string) (d0 d d' : seq (string * dval C)) fs Rs (Ms : seq 'M[C]_n) o o' kp :
  z != 0 -> uniq ports -> size ports = n -> o_zb o = z -> o_fs o = fs -> o_Ss o = [seq AM M | M <- Ms] -> size fs = size Ms -> (kp <= n)%N ->
  (forall p, p \in drop kp ports -> dget d p = dget d0 p) ->
  (forall p L Z f T, dget d0 p = Some (DPair L Z) -> trlS (- L) Z z f = Ok T -> [/\ Z != 0, t L Z f != 0 & is_scat2 (line_law (t L Z f)^-1 Z) z T]) ->
  (forall m, (m < size fs)%N -> is_scat (with_lines (fun k : 'I_n => if (k < kp)%N then None else line_of t d0 (nth ""%string ports k) (nth 0 fs m)) (Rs m)) z (nth 0 Ms m)) ->
  deembed_ports trlS o (drop kp ports) kp d = (o', d', Ok tt) ->
  exists2 Ms' : seq 'M[C]_n, o_Ss o' = [seq AM M | M <- Ms'] & [/\ size Ms' = size Ms, o_fs o' = fs, o_zb o' = z /\ o_ports o' = o_ports o &
    forall m, (m < size fs)%N -> is_scat (Rs m) z (nth 0 Ms' m)].
Proof.
move=> Hz Hu Hn; move: {2}(n - kp)%N (erefl (n - kp)%N) => l.
elim: l kp Ms o d => [|l IH] kp Ms o d Hl Ezb Efs ESs Hsz Hkp Hd HT HS.
  have Ekp : kp = n by apply/eqP; rewrite eqn_leq Hkp -subn_eq0 Hl.
  rewrite drop_oversize ?Hn ?Ekp //= => -[<- _]; exists Ms => //; split=> // m Hm.
  apply: (is_scat_ext _ (HS m Hm)) => V I; rewrite Ekp; split.
    case=> v [i [HR Hv]].
    have -> : V = v by apply/cV_extP => k; have := Hv k; rewrite ltn_ord => -[].
    by have -> : I = i by apply/cV_extP => k; have := Hv k; rewrite ltn_ord => -[].
  by move=> HR; exists V, I; split=> // k; rewrite ltn_ord.
have Hlt : (kp < n)%N by rewrite -subn_gt0 Hl.
have Hl' : (n - kp.+1)%N = l by rewrite subnS Hl.
rewrite (drop_nth ""%string) ?Hn // /=; set p := nth ""%string ports kp.
have Hp0 : dget d p = dget d0 p by apply: Hd; rewrite (drop_nth ""%string) ?Hn // mem_head.
have Hpn : p \notin drop kp.+1 ports.
  have : uniq (drop kp ports) by apply: drop_uniq.
  by rewrite (drop_nth ""%string) ?Hn //= => /andP [].
have Hd1 q : q \in drop kp.+1 ports -> dget d q = dget d0 q.
  by move=> Hq; apply: Hd; rewrite (drop_nth ""%string) ?Hn // in_cons Hq orbT.
case Ep: (dget d p) => [[L Z|]|] //; last first.
  apply: IH => // m Hm; apply: (is_scat_ext _ (HS m Hm)) => V I; apply: with_lines_ext => k.
  case Hk: (k < kp)%N; first by rewrite ltnS (ltnW Hk).
  by rewrite ltnS leq_eqVlt Hk orbF; case: eqP => // ->; rewrite /line_of -/p -Hp0 Ep.
case Et: (deembed_tab _ kp (o_fs o) (o_Ss o)) => [Ss' [[]|e]] //.
rewrite Efs ESs Ezb in Et.
have [Ms' ESs' [Hs' Hm']] := deembed_tab_ok Hsz Et.
move=> Hrest.
have := IH kp.+1 Ms' (set_tab o (o_fs o) Ss') (ddel d p) Hl' Ezb Efs ESs'.
case=> //; last by move=> Ms'' E1 [E2 E3 E4 E5]; exists Ms'' => //; split=> //; rewrite E2.
- by rewrite Hs'.
- move=> q Hq; rewrite -Hd1 //; apply: dget_ddel_neq.
  by apply: contraNneq Hpn => <-.
- move=> m Hm; have [T [HTm HDm]] := Hm' m Hm.
  have [Zn tn HTl] := HT p L Z _ T (etrans (esym Hp0) Ep) HTm.
  have Hk : (if (Ordinal Hlt < kp)%N then None else line_of t d0 (nth ""%string ports (Ordinal Hlt)) (nth 0 fs m)) =
      Some (line_law (t L Z (nth 0 fs m)) Z) by rewrite /= ltnn /line_of -/p -Hp0 Ep.
  have := @deembed_step n z T (nth 0 Ms m) (Ordinal Hlt) (nth 0 Ms' m) _ (Rs m) _ _ Hz HDm (HS m Hm) Hk HTl (fun v1 v2 i1 i2 => line_undo v1 v2 i1 i2 Zn tn).
  apply: is_scat_ext => V I; apply: with_lines_ext => k; rewrite /drop_line -val_eqE /= ltnS [in RHS]leq_eqVlt.
  by case: eqP.
Qed.

Lemma relates_ex_wave n z (S : 'M[C]_n) (a : 'I_n -> C) : z != 0 -> exists V I,
  relates "V" (const_mx z) S V I /\ forall j, V j 0 + z * I j 0 = a j.
Proof.
move=> Hz; pose b i := \sum_j S i j * a j.
exists (\col_j ((a j + b j) / 2%:R)), (\col_j ((a j - b j) / (2%:R * z))).
have Ha j : (\col_j ((a j + b j) / 2%:R) : 'cV[C]_n) j 0 + z * (\col_j ((a j - b j) / (2%:R * z)) : 'cV[C]_n) j 0 = a j.
  by rewrite !mxE; move: (a j) (b j) => x y; field; rewrite Hz.
split=> //; apply/relates_waves => k; rewrite [RHS](eq_bigr (fun j => S k j * a j)) => [|j _]; last by rewrite Ha.
by rewrite !mxE -/(b k); move: (a k) (b k) => x y; field; rewrite Hz.
Qed.

Lemma scat_wave0 n z (S : 'M[C]_n) V I : z != 0 -> relates "V" (const_mx z) S V I -> (forall j, V j 0 + z * I j 0 = 0) ->
  V = 0 /\ I = 0.
Proof.
move=> Hz /relates_waves H H0.
have Hb k : V k 0 - z * I k 0 = 0 by rewrite H big1 // => j _; rewrite H0 mulr0.
have H2 : (2%:R : C) != 0 by rewrite pnatr_eq0.
have HV k : V k 0 = 0.
  apply: (mulfI H2); rewrite mulr0; transitivity ((V k 0 - z * I k 0) + (V k 0 + z * I k 0)); [ring|by rewrite Hb H0 addr0].
split; apply/cV_extP => k; rewrite mxE ?HV //.
by apply: (mulfI Hz); rewrite mulr0 -(H0 k) HV add0r.
Qed.

(** a line with transmission t <> 0 lets waves through *)
Lemma line_T10 (t Zc z : C) T : z != 0 -> Zc != 0 -> t != 0 -> is_scat2 (line_law t Zc) z T -> T 1 0 != 0.
Proof.
move=> Hz HZ Ht HT; apply/eqP => E.
have [V [I [HR Ha]]] := relates_ex_wave T (fun j : 'I_2 => if j == 0 then 1 else 0) Hz.
have Hr : relates "V" (const_mx z) T (col2 (V 0 0) (V 1 0)) (col2 (I 0 0) (I 1 0)) by rewrite -!col2E.
have Ha0 := Ha 0; have Ha1 := Ha 1; rewrite /= in Ha0 Ha1.
have [_ Eb] := iffLR (rel2 _ _ _ _ _ _) Hr; rewrite E mul0r add0r Ha1 mulr0 in Eb.
have H2 : (2%:R : C) != 0 by rewrite pnatr_eq0.
have HV1 : V 1 0 = 0.
  apply: (mulfI H2); rewrite mulr0; transitivity ((V 1 0 - z * I 1 0) + (V 1 0 + z * I 1 0)); [ring|by rewrite Eb Ha1 addr0].
have HI1 : I 1 0 = 0 by apply: (mulfI Hz); rewrite mulr0 -Ha1 HV1 add0r.
have [A B] := iffRL (HT _ _ _ _) Hr.
rewrite HV1 HI1 !mulr0 subr0 addr0 mulr0 in A B.
have A' : V 0 0 + Zc * I 0 0 = 0 by apply: (mulfI Ht); rewrite mulr0 -A.
have HV0 : V 0 0 = 0.
  apply: (mulfI H2); rewrite mulr0; transitivity ((V 0 0 - Zc * I 0 0) + (V 0 0 + Zc * I 0 0)); [ring|by rewrite B A' addr0].
have HI0 : I 0 0 = 0 by apply: (mulfI HZ); rewrite mulr0 -A' HV0 add0r.
by move: Ha0; rewrite HV0 HI0 mulr0 addr0 => /eqP; rewrite eq_sym oner_eq0.
Qed.

Lemma deembed1_defined n z (T : 'M[C]_2) (S S' : 'M[C]_n) (k : 'I_n) ls R law law' : z != 0 ->
  is_scat (with_lines ls R) z S -> ls k = Some law -> is_scat2 law' z T -> T 1 0 != 0 ->
  (forall v1 v2 i1 i2, cascade law law' v1 v2 i1 i2 <-> through_law v1 v2 i1 i2) ->
  is_scat (with_lines (drop_line ls k) R) z S' -> deembed1 T k (AM S) = Ok (AM S').
Proof.
move=> Hz HS Hk HT HT10 Hc HS'.
suff [S'' HD] : exists S'' : 'M[C]_n, deembed1 T k (AM S) = Ok (AM S'').
  rewrite HD; congr (Ok (AM _)); have HS'' := deembed_step Hz HD HS Hk HT Hc.
  apply/matrixP => i j.
  have [V [I [HR Ha]]] := relates_ex_wave S'' (fun l => if l == j then 1 else 0) Hz.
  have HR' : relates "V" (const_mx z) S' V I by apply/HS'; apply/HS''.
  have E X : \sum_l X i l * (V l 0 + z * I l 0) = X i j.
    rewrite (bigD1 j) //= Ha eqxx mulr1 big1 ?addr0 // => l /negbTE Hl; by rewrite Ha Hl mulr0.
  by rewrite -(E S'') -(E S') -(iffLR (relates_waves _ _ _ _) HR) -(iffLR (relates_waves _ _ _ _) HR').
rewrite /deembed1 [AM _]/AM /= valK; case: eqP => [Hq|_]; last by eexists.
exfalso; have Eq : T 0 0 * S k k = 1 by apply/esym/eqP; rewrite -subr_eq0 Hq.
have [V [I [HR Ha]]] := relates_ex_wave S (fun l => if l == k then T 0 0 else 0) Hz.
have [W [J [HRT HaT]]] := relates_ex_wave T (fun l : 'I_2 => if l == 0 then 1 else 0) Hz.
have Hr : relates "V" (const_mx z) T (col2 (W 0 0) (W 1 0)) (col2 (J 0 0) (J 1 0)) by rewrite -!col2E.
have [Eb0 Eb1] := iffLR (rel2 _ _ _ _ _ _) Hr.
have Ha0 := HaT 0; have Ha1 := HaT 1; rewrite /= in Ha0 Ha1.
rewrite Ha0 Ha1 !mulr0 !mulr1 !addr0 in Eb0 Eb1.
have Hb : V k 0 - z * I k 0 = 1.
  rewrite (iffLR (relates_waves _ _ _ _) HR) (bigD1 k) //= Ha eqxx big1 ?addr0 => [|l /negbTE Hl]; last by rewrite Ha Hl mulr0.
  by rewrite mulrC.
have Hak := Ha k; rewrite eqxx in Hak.
have H2 : (2%:R : C) != 0 by rewrite pnatr_eq0.
have EV : W 0 0 = V k 0.
  apply: (mulfI H2); transitivity ((W 0 0 - z * J 0 0) + (W 0 0 + z * J 0 0)); first by ring.
  by rewrite Eb0 Ha0 -Hak -[X in _ + X = _]Hb; ring.
have EI : J 0 0 = - I k 0.
  apply: (mulfI Hz); have := Ha0; have := Hb; rewrite EV => {1}<- E; move: E; rewrite mulrN => /addrI ->. by [].
have : with_lines (drop_line ls k) R (updc V k (W 1 0)) (updc I k (J 1 0)).
  have [v [i [HRv Hl]]] := iffRL (HS V I) HR.
  exists v, i; split=> // j; have := Hl j; rewrite /drop_line !updcE; case: (j =P k) => [->|] //.
  rewrite Hk => Hlaw.
  have : cascade law law' (v k 0) (W 1 0) (- i k 0) (J 1 0).
    by exists (V k 0), (I k 0); split=> //; apply/HT; rewrite -EV -EI.
  by case/Hc => -> /eqP; rewrite addrC subr_eq0 => /eqP ->.
move/HS' => /(scat_wave0 Hz) [|EV0 EI0].
  move=> j; rewrite !updcE; case: (j =P k) => // /eqP /negbTE Hj; by rewrite Ha Hj.
have W0 : W 1 0 = 0 by have := congr1 (fun M : 'cV[C]_n => M k 0) EV0; rewrite updcE eqxx mxE.
have J0 : J 1 0 = 0 by have := congr1 (fun M : 'cV[C]_n => M k 0) EI0; rewrite updcE eqxx mxE.
by move: Eb1; rewrite W0 J0 mulr0 subr0 => /esym /eqP; rewrite (negbTE HT10).
Qed.

Lemma deembed_tab_total n (trl : F -> res 'M[C]_2) kp (fs : seq F) (Ms : seq 'M[C]_n) : size fs = size Ms ->
  (forall m, (m < size fs)%N -> exists T A, trl (nth 0 fs m) = Ok T /\ deembed1 T kp (AM (nth 0 Ms m)) = Ok A) ->
  exists Ss', deembed_tab trl kp fs [seq AM M | M <- Ms] = (Ss', Ok tt).
Proof.
elim: fs Ms => [|f fs IH] [|M Ms] //=; first by eexists.
case=> Hs H; have [T [A [HT HD]]] := H 0%N isT; rewrite /= in HT HD.
have [m Hm|Ss' E] := IH _ Hs; first exact: (H m.+1 Hm).
by rewrite HT /= HD E; eexists.
Qed.

Lemma dkeys_ddel (K : eqType) (V : Type) (e : seq (K * V)) k : uniq (dkeys e) -> dkeys (ddel e k) = [seq x <- dkeys e | x != k].
Proof.
elim: e => [|[k1 v1] e IH] //= /andP [Hn Hu]; case: (k =P k1) => [->|/eqP Hk] /=; last by rewrite eq_sym Hk /= IH.
rewrite eqxx /=.
rewrite -[LHS]filter_predT; apply: eq_in_filter => x Hx /=; apply/esym.
by apply: contraNneq Hn => <-.
Qed.

(** everything returned, when the partly deembedded objects have scattering matrices *)
Lemma deembed_ports_total n z (t : C -> C -> F -> C) (ports : seq string) (d0 d : seq (string * dval C)) fs Rs (Ms : seq 'M[C]_n) o kp :
  z != 0 -> uniq ports -> size ports = n -> o_zb o = z -> o_fs o = fs -> o_Ss o = [seq AM M | M <- Ms] -> size fs = size Ms -> (kp <= n)%N ->
  (forall p, p \in drop kp ports -> dget d p = dget d0 p) -> uniq (dkeys d) -> {subset dkeys d <= drop kp ports} ->
  (forall p v, dget d0 p = Some v -> exists L Z, v = DPair L Z) ->
  (forall p L Z f, dget d0 p = Some (DPair L Z) -> exists T, trlS (- L) Z z f = Ok T /\ [/\ Z != 0, t L Z f != 0 & is_scat2 (line_law (t L Z f)^-1 Z) z T]) ->
  (forall m q, (m < size fs)%N -> exists S, is_scat (with_lines (fun k : 'I_n => if (k < q)%N then None else line_of t d0 (nth ""%string ports k) (nth 0 fs m)) (Rs m)) z S) ->
  (forall m, (m < size fs)%N -> is_scat (with_lines (fun k : 'I_n => if (k < kp)%N then None else line_of t d0 (nth ""%string ports k) (nth 0 fs m)) (Rs m)) z (nth 0 Ms m)) ->
  exists o', deembed_ports trlS o (drop kp ports) kp d = (o', [::], Ok tt).
Proof.
move=> Hz Hu Hn; move: {2}(n - kp)%N (erefl (n - kp)%N) => l.
elim: l kp Ms o d => [|l IH] kp Ms o d Hl Ezb Efs ESs Hsz Hkp Hd Hud Hsub Hpair HT Hex HS.
  have Ekp : kp = n by apply/eqP; rewrite eqn_leq Hkp -subn_eq0 Hl.
  move: Hsub; rewrite drop_oversize ?Hn ?Ekp //= => Hsub.
  by case: d Hsub {Hd Hud} => [|[k v] d] Hsub; [eexists|have := Hsub k; rewrite inE eqxx => /(_ isT)].
have Hlt : (kp < n)%N by rewrite -subn_gt0 Hl.
have Hl' : (n - kp.+1)%N = l by rewrite subnS Hl.
move: Hsub; rewrite (drop_nth ""%string) ?Hn // /=; set p := nth ""%string ports kp => Hsub.
have Hp0 : dget d p = dget d0 p by apply: Hd; rewrite (drop_nth ""%string) ?Hn // mem_head.
have Hpn : p \notin drop kp.+1 ports.
  have : uniq (drop kp ports) by apply: drop_uniq.
  by rewrite (drop_nth ""%string) ?Hn //= => /andP [].
have Hd1 q : q \in drop kp.+1 ports -> dget d q = dget d0 q.
  by move=> Hq; apply: Hd; rewrite (drop_nth ""%string) ?Hn // in_cons Hq orbT.
case Ep: (dget d p) => [v|]; last first.
  apply: (IH _ Ms) => //.
    move=> q Hq; have := Hsub q Hq; rewrite in_cons => /orP [/eqP E|] //.
    by move: Hq; rewrite E -dhasE /dhas Ep.
  move=> m Hm; apply: (is_scat_ext _ (HS m Hm)) => V I; apply: with_lines_ext => k.
  case Hk: (k < kp)%N; first by rewrite ltnS (ltnW Hk).
  by rewrite ltnS leq_eqVlt Hk orbF; case: eqP => // ->; rewrite /line_of -/p -Hp0 Ep.
have [L [Z Ev]] := Hpair p v (etrans (esym Hp0) Ep); rewrite Ev in Ep *.
have Hdrop m : (m < size fs)%N -> forall S', is_scat (with_lines (fun k : 'I_n => if (k < kp.+1)%N then None else line_of t d0 (nth ""%string ports k) (nth 0 fs m)) (Rs m)) z S' <->
  is_scat (with_lines (drop_line (fun k : 'I_n => if (k < kp)%N then None else line_of t d0 (nth ""%string ports k) (nth 0 fs m)) (Ordinal Hlt)) (Rs m)) z S'.
  move=> Hm S'; have E : (fun k : 'I_n => if (k < kp.+1)%N then None else line_of t d0 (nth ""%string ports k) (nth 0 fs m)) =1
     drop_line (fun k : 'I_n => if (k < kp)%N then None else line_of t d0 (nth ""%string ports k) (nth 0 fs m)) (Ordinal Hlt).
    by move=> k; rewrite /drop_line -val_eqE /= ltnS leq_eqVlt; case: eqP.
  by split=> H V I; rewrite -(H V I); apply: with_lines_ext => k; rewrite E.
have Hone m : (m < size fs)%N -> exists T A, trlS (- L) Z z (nth 0 fs m) = Ok T /\ deembed1 T kp (AM (nth 0 Ms m)) = Ok A.
  move=> Hm; have [T [HTm [Zn tn HTl]]] := HT p L Z (nth 0 fs m) (etrans (esym Hp0) Ep).
  have [S' HS'] := Hex m kp.+1 Hm; exists T, (AM S'); split=> //.
  have Hk : (if (Ordinal Hlt < kp)%N then None else line_of t d0 (nth ""%string ports (Ordinal Hlt)) (nth 0 fs m)) =
      Some (line_law (t L Z (nth 0 fs m)) Z) by rewrite /= ltnn /line_of -/p -Hp0 Ep.
  apply: (@deembed1_defined n z T (nth 0 Ms m) S' (Ordinal Hlt) _ (Rs m) _ _ Hz (HS m Hm) Hk HTl).
  - by apply: line_T10 HTl; rewrite ?invr_neq0.
  - by move=> *; apply: line_undo.
  - exact/(Hdrop m Hm).
have [Ss' Et] := deembed_tab_total Hsz Hone.
rewrite Ezb Efs ESs Et.
have [Ms' ESs' [Hs' Hm']] := deembed_tab_ok Hsz Et.
apply: (IH kp.+1 Ms' (set_tab o fs Ss') (ddel d p) Hl' Ezb (erefl fs) ESs') => //.
- by rewrite Hs'.
- move=> q Hq; rewrite -Hd1 //; apply: dget_ddel_neq.
  by apply: contraNneq Hpn => <-.
- by rewrite dkeys_ddel ?filter_uniq.
- move=> q; rewrite dkeys_ddel // mem_filter => /andP [Hq /Hsub].
  by rewrite in_cons (negbTE Hq).
- move=> m Hm; have [T [HTm HDm]] := Hm' m Hm.
  have [T' [HTm' [Zn tn HTl]]] := HT p L Z (nth 0 fs m) (etrans (esym Hp0) Ep).
  have ET : T' = T by move: HTm'; rewrite HTm => -[].
  rewrite ET in HTl; apply/(Hdrop m Hm).
  have Hk : (if (Ordinal Hlt < kp)%N then None else line_of t d0 (nth ""%string ports (Ordinal Hlt)) (nth 0 fs m)) =
      Some (line_law (t L Z (nth 0 fs m)) Z) by rewrite /= ltnn /line_of -/p -Hp0 Ep.
  exact: (@deembed_step n z T (nth 0 Ms m) (Ordinal Hlt) (nth 0 Ms' m) _ (Rs m) _ _ Hz HDm (HS m Hm) Hk HTl (fun v1 v2 i1 i2 => line_undo v1 v2 i1 i2 Zn tn)).
Qed.
End Deembed.

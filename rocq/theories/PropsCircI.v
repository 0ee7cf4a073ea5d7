(** C51: the S-matrix between internal nodes (Get_internalSmatrix). *)
From mathcomp Require Import all_ssreflect all_algebra.
From mathcomp Require Import zify algebra_tactics.ring.
From Coq Require Import String Ascii.
From Coq Require List.
From Verif Require Import Base MxLib ConvModel ConvSpec ConvProofs ConvArr CircModel CircSpec CircLib CircInv CircTerm CircApp CircConn CircAdd CircDe CircFill CircSolve CircExt CircHist CircGet CircMain CircOrd CircThm CircThm2 CircThm3 CircThm4 CircThm5 CircMaxV CircNest CircFlat CircDev CircThm6 CircEx CircSub CircSubT CircLin CircInt CircIntT.
Set Implicit Arguments.
Unset Strict Implicit.
Unset Printing Implicit Defensive.
Import Order.TTheory GRing.Theory Num.Theory.
Local Open Scope string_scope.
Local Open Scope ring_scope.
Local Open Scope seq_scope.

Section Thms.
Variable C : numClosedFieldType.
Variables F Fl : eqType.
Variable K : vcls C F Fl.
Variable nan : C.
Variable getpos : forall K' : vcls C F Fl, circ K' -> string -> res C.
Notation deep := (deep K nan getpos).
Notation reach := (CircHist.reach nan (@getpos _)).
Notation internal_S := (@internal_S C F Fl K nan getpos _).

Section Common.
Variable n : nat.
Variables (z : C) (ns : seq string) (h : seq (event (deep n))) (c : circ (deep n)) (f : F) (z' : C) (fl : Fl).
Let zz := if z' == 0 then z else z'.
Let N := net_hist h.

Let waves_sum zs ps (vs : seq (asg C * asg C)) (v i : asg C) nd :
  v (node_of nd) = \sum_(j < size ps) inc zs (v, i) (nth "" ps j) * (nth (d2 C) vs j).1 (node_of nd) ->
  i (node_of nd) = \sum_(j < size ps) inc zs (v, i) (nth "" ps j) * (nth (d2 C) vs j).2 (node_of nd) ->
  wave_a zs v i nd = \sum_(j < size ps) wave_a zs (nth (d2 C) vs j).1 (nth (d2 C) vs j).2 nd * inc zs (v, i) (nth "" ps j) /\
  wave_b zs v i nd = \sum_(j < size ps) wave_b zs (nth (d2 C) vs j).1 (nth (d2 C) vs j).2 nd * inc zs (v, i) (nth "" ps j).
Proof.
move=> Ev Ei; rewrite {1}/wave_a {1}/wave_b Ev Ei.
case Em: (marked nd); split; rewrite mulr_sumr -?sumrB -?big_split mulr_suml;
  apply: eq_bigr => j _; rewrite /wave_a /wave_b Em /=; ring.
Qed.

(** the waves at the nodes in any solution, from those of the unit excitations *)
Let through_units ps vs c1 h' ns' c2 S2 nds : reach z ns' h' c1 -> may_ask h' f fl -> net_hist h' = N ->
  get1S f zz [::] fl c1 = (c2, Ok S2) -> unit_at zz N z f fl ps vs -> uniq ps ->
  (forall p, free N p = (p \in ps)) -> {subset map node_of nds <= nodes N} ->
  forall v i : asg C, sat z N f fl v i -> exists e : 'cV[C]_(size ps),
  (\col_(a < size nds) wave_a zz v i (nth "" nds a) =
     (\matrix_(a, b) wave_a zz (nth (d2 C) vs b).1 (nth (d2 C) vs b).2 (nth "" nds a)) *m e) /\
  (\col_(a < size nds) wave_b zz v i (nth "" nds a) =
     (\matrix_(a, b) wave_b zz (nth (d2 C) vs b).1 (nth (d2 C) vs b).2 (nth "" nds a)) *m e).
Proof.
move=> Hr Hm En G Hu Hps Hf Hn v i Hs.
have Hz : z != 0 by case: Hr.
have Hzz : zz != 0 by rewrite /zz; case: ifP => // /negbT.
rewrite -En in Hu Hf Hs; exists (\col_b inc zz (v, i) (nth "" ps b)).
have Hx (a : 'I_(size nds)) := expand Hr Hm Hzz G Hu Hps Hf Hs (p := node_of (nth "" nds a)).
split; apply/matrixP => a b; rewrite !mxE.
  have [|Ev Ei] := Hx a; first by rewrite En; apply: Hn; apply: map_f; exact: mem_nth.
  by have [-> _] := waves_sum Ev Ei; apply: eq_bigr => j _; rewrite !mxE.
have [|Ev Ei] := Hx a; first by rewrite En; apply: Hn; apply: map_f; exact: mem_nth.
by have [_ ->] := waves_sum Ev Ei; apply: eq_bigr => j _; rewrite !mxE.
Qed.

(** a matrix relates the waves of all solutions iff it does so column by column *)
Let relates_mx nds (S : rows C) : relates_nodes z zz N f fl nds S <->
  forall v i : asg C, sat z N f fl v i ->
    \col_(a < size nds) wave_b zz v i (nth "" nds a) =
    mx_of (size nds) (size nds) S *m (\col_(a < size nds) wave_a zz v i (nth "" nds a)).
Proof.
split=> H v i Hs.
  apply/matrixP => a b; rewrite !mxE (H v i Hs a (ltn_ord a)).
  by apply: eq_bigr => j _; rewrite !mxE.
move=> k Hk; have := congr1 (fun M : 'cV[C]_(size nds) => M (Ordinal Hk) 0) (H v i Hs); rewrite !mxE => ->.
by apply: eq_bigr => j _; rewrite !mxE.
Qed.

Let col_units nds ps vs (S : rows C) : unit_at zz N z f fl ps vs -> relates_nodes z zz N f fl nds S ->
  \matrix_(a, b) wave_b zz (nth (d2 C) vs b).1 (nth (d2 C) vs b).2 (nth "" nds a) =
  mx_of (size nds) (size nds) S *m
  (\matrix_(a < size nds, b < size ps) wave_a zz (nth (d2 C) vs b).1 (nth (d2 C) vs b).2 (nth "" nds a)).
Proof.
move=> [_ Hu] H; apply/matrixP => a b; rewrite !mxE; have [Hs _] := Hu b (ltn_ord b).
by rewrite (H _ _ Hs a (ltn_ord a)); apply: eq_bigr => j _; rewrite !mxE.
Qed.

Let mx_rows m (A : 'M[C]_m) : mx_of m m (rows_of A) = A.
Proof. by apply/matrixP => a b; rewrite mxE nth_rows_of. Qed.
Let rows_of_mx m (S : rows C) : shape_ok m S -> rows_of (mx_of m m S) = S.
Proof.
case/andP=> /eqP Es /allP Hr; apply: (@eq_from_nth _ [::]); first by rewrite size_map size_enum_ord.
rewrite size_map size_enum_ord => k Hk; have HSk : size (nth [::] S k) = m.
  by apply/eqP; apply: Hr; rewrite mem_nth // Es.
have Ek : size (nth [::] (rows_of (mx_of m m S)) k) = m.
  by rewrite (nth_map (Ordinal Hk)) ?size_enum_ord // size_map size_enum_ord.
apply: (@eq_from_nth _ 0); first by rewrite Ek HSk.
rewrite Ek => j Hj; by rewrite (nth_rows_of (mx_of m m S) (Ordinal Hk) (Ordinal Hj)) mxE.
Qed.

(** As many nodes (of the circuit itself, each possibly marked with '<') as the circuit
    has ports: the matrix returned gives, in every solution of the network, the waves away
    from the nodes from the waves towards them. *)
Theorem C51_relates nds c' S : reach z ns h c -> may_ask h f fl ->
  {subset map node_of nds <= nodes N} -> size nds = size (ports c) ->
  internal_S f nds z' fl c = (c', Ok S) ->
  shape_ok (size nds) S /\ relates_nodes z zz N f fl nds S.
Proof.
move=> Hr Hm Hn Esz H; have [ns' [h' [c1 [ps [vs [c2 [S2 [[Hr1 Hm1] En [G Hu] [Hps Hf Eps] HX]]]]]]]] := internal_inv Hr Hm Hn H.
have Ek : size nds == size ps by rewrite Esz Eps.
move: HX => /=; case: ifP => [_|]; last by rewrite Ek.
case=> X [XA AX] ->; split; first exact: rows_shape.
apply/relates_mx => v i Hs; rewrite mx_rows.
have [e [-> ->]] := through_units Hr1 Hm1 En G Hu Hps Hf Hn Hs.
by rewrite -mulmxA (mulmxA X) AX mul1mx.
Qed.

(** It is the only matrix that does. *)
Theorem C51_unique nds c' S S' : reach z ns h c -> may_ask h f fl ->
  {subset map node_of nds <= nodes N} -> size nds = size (ports c) ->
  internal_S f nds z' fl c = (c', Ok S) ->
  shape_ok (size nds) S' -> relates_nodes z zz N f fl nds S' -> S' = S.
Proof.
move=> Hr Hm Hn Esz H Hsh HR; have [ns' [h' [c1 [ps [vs [c2 [S2 [[Hr1 Hm1] En [G Hu] [Hps Hf Eps] HX]]]]]]]] := internal_inv Hr Hm Hn H.
have Ek : size nds == size ps by rewrite Esz Eps.
move: HX => /=; case: ifP => [_|]; last by rewrite Ek.
case=> X [XA AX] ->; rewrite (col_units Hu HR) -mulmxA XA mulmx1.
by rewrite rows_of_mx.
Qed.

(** Fewer nodes than ports: if any matrix gives the waves away from the nodes from the
    waves towards them in every solution, then the matrix returned does. *)
Theorem C51_fewer nds c' S S0 : reach z ns h c -> may_ask h f fl ->
  {subset map node_of nds <= nodes N} -> (size nds < size (ports c))%N ->
  internal_S f nds z' fl c = (c', Ok S) ->
  relates_nodes z zz N f fl nds S0 -> shape_ok (size nds) S /\ relates_nodes z zz N f fl nds S.
Proof.
move=> Hr Hm Hn Esz H HR; have [ns' [h' [c1 [ps [vs [c2 [S2 [[Hr1 Hm1] En [G Hu] [Hps Hf Eps] HX]]]]]]]] := internal_inv Hr Hm Hn H.
rewrite -Eps in Esz; move: HX => /=; case: ifP => [/eqP E|_]; first by move: Esz; rewrite E ltnn.
case=> _ ->; split; first exact: rows_shape.
apply/relates_mx => v i Hs; rewrite mx_rows.
have [e [-> ->]] := through_units Hr1 Hm1 En G Hu Hps Hf Hn Hs.
rewrite (col_units Hu HR); set A := \matrix_(_, _) _; have [HA _ _ _] := pinv_penrose A.
by rewrite -{1}HA !mulmxA.
Qed.

(** More nodes than ports: nothing is returned. *)
Theorem C51_more nds c' S : reach z ns h c -> may_ask h f fl ->
  {subset map node_of nds <= nodes N} -> (size (ports c) < size nds)%N ->
  internal_S f nds z' fl c <> (c', Ok S).
Proof.
move=> Hr Hm Hn Esz H; have [ns' [h' [c1 [ps [vs [c2 [S2 [_ _ _ [_ _ Eps] HX]]]]]]]] := internal_inv Hr Hm Hn H.
by rewrite -Eps in Esz; move: HX => /=; case: ifP => [/eqP E|_ []]; lia.
Qed.

(** When it returns, once getS does on the wanted impedance: always with fewer nodes than
    ports, never with more (ValueError); with as many, unless the network has a solution
    that is excited at a port but has no wave towards any of the nodes (LinAlgError). *)
Theorem C51_outcomes nds c2 S2 : reach z ns h c -> may_ask h f fl ->
  {subset map node_of nds <= nodes N} -> "" \notin nds -> nds <> [::] ->
  get1S f zz [::] fl c = (c2, Ok S2) ->
  exists c' r, internal_S f nds z' fl c = (c', r) /\
  if (size nds < size (ports c))%N then exists S, r = Ok S
  else if (size (ports c) < size nds)%N then r = Raise ValueError
  else (exists S, r = Ok S) \/
    r = Raise LinAlgError /\ exists v i : asg C, [/\ sat z N f fl v i,
      exists2 p, free N p & v p + zz * i p != 0 & forall nd, nd \in nds -> wave_a zz v i nd = 0].
Proof. exact: internal_out. Qed.

(** The nodes are the ports, in the order of getS: the matrix is that of getS. *)
Theorem C51_ports c2 S2 : reach z ns h c -> may_ask h f fl ->
  get1S f zz [::] fl c = (c2, Ok S2) -> (forall p, p \in ports c2 -> p <> "" /\ ~~ marked p) ->
  exists c', internal_S f (ports c2) z' fl c = (c', Ok S2).
Proof.
move=> Hr Hm G Hmk; have [D Hpp _ [HS _ Hne _ _]] := get1S_CI (reach_CI Hr) Hm G.
have Hz : z != 0 by case: Hr.
have Hzz : zz != 0 by rewrite /zz; case: ifP => // /negbT.
have HI := ci_inv D.
have Hid p : p \in ports c2 -> node_of p = p.
  by move=> /Hmk; case: p => [|a r] // [_] /=; case: ifP.
have Em : map node_of (ports c2) = ports c2 by rewrite -[RHS]map_id; apply/eq_in_map.
have Hn : {subset map node_of (ports c2) <= nodes N}.
  by rewrite Em => p Hp; exact: (port_node HI).
have He : "" \notin ports c2 by apply/negP => /Hmk [].
have Esz : size (ports c2) = size (ports c).
  by apply: perm_size; apply: uniq_perm => //; [exact: (v_up HI)|exact: (v_up (ci_inv (reach_CI Hr)))].
rewrite /zreq (negbTE Hzz) in HS; have [Hsh HSr] := HS.
have HR : relates_nodes z zz N f fl (ports c2) S2.
  move=> v i Hs k Hk.
  have Hw q : q \in ports c2 -> wave_a zz v i q = (v q + zz * i q) / 2%:R /\ wave_b zz v i q = (v q - zz * i q) / 2%:R.
    by move=> Hq; have [_ Hq2] := Hmk _ Hq; rewrite /wave_a /wave_b (negbTE Hq2) Hid.
  have [_ ->] := Hw _ (mem_nth "" Hk).
  have := iffRL (HSr (fun j => v (nth "" (ports c2) j)) (fun j => i (nth "" (ports c2) j))).
  move=> /(_ (ex_intro _ v (ex_intro _ i (conj Hs (fun _ _ => conj erefl erefl))))) /(_ k Hk) /= ->.
  by apply: eq_bigr => j _; have [-> _] := Hw _ (mem_nth "" (ltn_ord j)).
have [c' [r [Hi]]] := C51_outcomes Hr Hm Hn He Hne G; rewrite Esz !ltnn.
case=> [[S ES]|[_ [v [i [Hs [p Hp Hpz] H0]]]]].
  rewrite ES in Hi; exists c'; rewrite Hi; congr (_, Ok _).
  by rewrite -(C51_unique Hr Hm Hn Esz Hi Hsh HR).
exfalso; move/negP: Hpz; apply; have Hp2 : p \in ports c2 by rewrite (v_fp HI).
have := H0 p Hp2; have [_ Hq2] := Hmk _ Hp2; rewrite /wave_a (negbTE Hq2) (Hid _ Hp2) => /eqP.
by rewrite mulf_eq0 invr_eq0 pnatr_eq0 orbF.
Qed.
End Common.
(** Superposition: what Solution returns is linear in the excitation. *)
Section Super.
Variable getp : circ K -> string -> res C.
Theorem C22_superposition z ns h (c : circ K) f E1 E2 E s z' fl c1 t1 c2 t2 c3 t :
  CircHist.reach nan getp z ns h c -> may_ask h f fl -> order_known ns h ->
  (forall p x, free (net_hist h) p -> dget E p = Some x ->
     exists x1 x2, [/\ dget E1 p = Some x1, dget E2 p = Some x2 & x = x1 + s * x2]) ->
  Solution1 f E1 z' fl c = (c1, Ok t1) -> Solution1 f E2 z' fl c = (c2, Ok t2) ->
  Solution1 f E z' fl c = (c3, Ok t) ->
  forall p, p \in nodes (net_hist h) -> exists V1 I1 A1 B1 V2 I2 A2 B2,
    [/\ dget t1 p = Some (V1, I1, A1, B1), dget t2 p = Some (V2, I2, A2, B2) &
        dget t p = Some (V1 + s * V2, I1 + s * I2, A1 + s * A2, B1 + s * B2)].
Proof.
move=> Hr Hm Ho HE H1 H2 H3 p Hp; set zz := if z' == 0 then z else z'.
have Hz : z != 0 by case: Hr.
have Hzz : zz != 0 by rewrite /zz; case: ifP => // /negbT.
have N2 : 2%:R != 0 :> C by rewrite pnatr_eq0.
have [K1 [S1 G1]] := sol1_inv Hr Hm H1; have [K2 [S2 G2]] := sol1_inv Hr Hm H2; have [K3 [S3 G3]] := sol1_inv Hr Hm H3.
have [u1 [v1 [i1 [Q1 A1 [X1 _] [D1 _] T1]]]] := thm_C22 Hr Hm Ho K1 G1; move: Q1; rewrite H1 => -[Q1]; rewrite -{}Q1 -?/zz in D1 T1; rewrite -/zz in X1 G1.
have [u2 [v2 [i2 [Q2 A2 [X2 _] [D2 _] T2]]]] := thm_C22 Hr Hm Ho K2 G2; move: Q2; rewrite H2 => -[Q2]; rewrite -{}Q2 -?/zz in D2 T2; rewrite -/zz in X2 G2.
have [u3 [v3 [i3 [Q3 A3 [X3 _] [D3 _] T3]]]] := thm_C22 Hr Hm Ho K3 G3; move: Q3; rewrite H3 => -[Q3]; rewrite -{}Q3 -?/zz in D3 T3; rewrite -/zz in X3 G3.
have Hs := sat_mix s Hr G1 A1 A2.
have [|Ev Ei] := uniq_zz Hr Hm Hzz G1 A3 Hs _ Hp.
  move=> q Hq; have [x1 [x2 [F1 F2 F3]]] := HE q _ Hq (X3 q Hq).
  move: F1 F2; rewrite X1 // X2 // => -[F1] [F2]; apply: (mulIf (invr_neq0 N2)).
  by rewrite F3 -F1 -F2 /mix mulrA -mulrDl; congr (_ / _); ring.
have get (t' : seq (string * (C * C * C * C))) : dkeys t' =i nodes (net_hist h) -> exists x, dget t' p = Some x.
  by move=> D; have := Hp; rewrite -D -dhasE /dhas; case: (dget t' p) => // x _; exists x.
have [x1 F1] := get _ D1; have [x2 F2] := get _ D2; have [x3 F3] := get _ D3.
rewrite F1 F2 F3 (T1 _ _ (dget_In F1)) (T2 _ _ (dget_In F2)) (T3 _ _ (dget_In F3)).
do 8!eexists; split; [reflexivity|reflexivity|rewrite Ev Ei /mix; congr Some].
by congr (_, _, _, _); rewrite mulrA -mulrDl; congr (_ / _); ring.
Qed.
End Super.
End Thms.

Section Wit.
Variable C : numClosedFieldType.
Notation KT := (KT C).
Notation z50 := (z50 C).
Notation reach := (CircHist.reach 0 (gpn (K' := KT))).
Notation internal_S := (@internal_S C nat_eqType unit_eqType KT 0 (@gpn C) 0%N).
Let N := net_hist (hB C).
Let H2 : 2%:R != 0 :> C. Proof. by rewrite pnatr_eq0. Qed.

(** a through: both its ends *)
Example C51_witness : exists (c : circ KT) c' S, [/\ reach z50 [::] (hB C) c, may_ask (hB C) 7%N tt,
  {subset map node_of [:: "a.1"; "a.2"] <= nodes N}, size [:: "a.1"; "a.2"] = size (ports c) &
  internal_S 7%N [:: "a.1"; "a.2"] 0 tt c = (c', Ok S)].
Proof.
have [c Hr] := exB C [::]; have [c2 [S2 G]] := getB 7%N Hr.
have Ep := portsB Hr.
have Ep2 : ports c2 = ports c.
  have [_ _ _ [_ _ _ [Eo _] _]] := get1S_CI (reach_CI Hr) (isT : may_ask (hB C) 7%N tt) G.
  by rewrite Eo (settled_order (reach_settled Hr (or_introl erefl))).
have [c' Hi] : exists c', internal_S 7%N (ports c2) 0 tt c = (c', Ok S2).
  apply: (@C51_ports C nat_eqType unit_eqType KT 0 (@gpn C) 0%N z50 [::] (hB C) c 7%N 0 tt c2 S2 Hr) => //.
    by rewrite eqxx (get1S_own _ _ Hr).
  by move=> p; rewrite Ep2 Ep !inE => /orP[/eqP ->|/eqP ->].
rewrite Ep2 Ep in Hi; exists c, c', S2; split=> //; last by rewrite Ep.
Qed.

(** the same through, one of its ends only: a matrix is returned (fewer nodes than
    ports), but no matrix relates the waves there *)
Theorem C51_fewer_refuted : exists (c : circ KT) c' S, [/\ reach z50 [::] (hB C) c, may_ask (hB C) 7%N tt,
  internal_S 7%N [:: "a.1"] 0 tt c = (c', Ok S) &
  forall S0, ~ relates_nodes z50 z50 N 7%N tt [:: "a.1"] S0].
Proof.
have [c Hr] := exB C [::]; have [c2 [S2 G]] := getB 7%N Hr.
have Ep := portsB Hr.
have [||||c' [r [Hi]]] := @C51_outcomes C nat_eqType unit_eqType KT 0 (@gpn C) 0%N z50 [::] (hB C) c 7%N 0 tt [:: "a.1"] c2 S2 Hr isT => //.
- by move=> p; rewrite !inE => /eqP ->.
- by rewrite eqxx (get1S_own _ _ Hr).
rewrite Ep /= => -[S ES]; rewrite ES in Hi; exists c, c', S; split=> // S0 HR.
pose v : asg C := fun _ => z50.
pose i : asg C := fun p => if p == "a.1" then -1 else 1.
have Hs : sat z50 N 7%N tt v i.
  by split; repeat constructor; apply/thruE.
have := HR v i Hs 0%N isT; rewrite big_ord_recl big_ord0 /wave_a /wave_b /= /i /v /=.
rewrite mulrN1 subrr mul0r mulr0 addr0 opprK => /eqP.
rewrite mulf_eq0 invr_eq0 (negbTE H2) orbF.
by rewrite -mulr2n mulrn_eq0 /= (negbTE (z50_0 C)).
Qed.

(** one port of a matched two-port without transmission: the matrix [0] relates the waves *)
Definition hW : seq (event KT) := [:: Add "a" (wall C)].
Example C51_fewer_witness : exists (c : circ KT) c' S, [/\ reach z50 [::] hW c, may_ask hW 7%N tt,
  (size [:: "a.1"] < size (ports c))%N, internal_S 7%N [:: "a.1"] 0 tt c = (c', Ok S) &
  relates_nodes z50 z50 (net_hist hW) 7%N tt [:: "a.1"] [:: [:: 0]]].
Proof.
have Hk : hist_ok hW.
  by rewrite /hist_ok /=; repeat (first [by []|exact: dev_inv|split]); right; split=> // ps [<-].
have Hw : isSome (run 0 (gpn (K' := KT)) (new_circ KT z50 [::]) hW) by vm_compute.
case Er: (run _ _ _ _) Hw => [c|//] _.
have Hr : reach z50 [::] hW c by split=> //; exact: z50_0.
have Hwall (v i : asg C) : block_law 7%N tt v i ("a", ([:: "1"; "2"], wall C)) ->
    v "a.1" - z50 * i "a.1" = 0 /\ v "a.2" - z50 * i "a.2" = 0.
  case=> S' [<-] /rel2; rewrite !mul0r addr0 /= => -[E1 E2].
  by split; apply: (mulIf (invr_neq0 H2)); rewrite mul0r; [exact: E1|exact: E2].
have [c2 [S2 G]] : exists c2 S2, get1S 7%N 0 [::] tt c = (c2, Ok S2).
  apply: (getS_returns (h := hW) Hr) => //; first by left.
  - by apply: tab_no_raise; repeat constructor; exists [:: [:: 0; 0]; [:: 0; 0]].
  - by exists "a.1".
  case=> v [i [[Hb _ _ _ _] Hf [p Hp Hne]]].
  have [Hb1 _] := FC Hb; have [E1 E2] := Hwall _ _ Hb1.
  have F1 : v "a.1" + z50 * i "a.1" = 0 by apply: Hf.
  have F2 : v "a.2" + z50 * i "a.2" = 0 by apply: Hf.
  have [E3 E4] := zero_vi F1 E1; have [E5 E6] := zero_vi F2 E2.
  move: Hp; rewrite !inE => /orP[] /eqP Ep; move: Hne; rewrite Ep; by rewrite ?E3 ?E4 ?E5 ?E6 eqxx.
have Ep : size (ports c) = 2%N.
  have HI := ci_inv (reach_CI Hr).
  suff -> : size (ports c) = size [:: "a.1"; "a.2"] by [].
  apply: perm_size; apply: uniq_perm => //; first exact: (v_up HI).
  by move=> p; rewrite (v_fp HI) /free /= andbT.
have [||||c' [r [Hi]]] := @C51_outcomes C nat_eqType unit_eqType KT 0 (@gpn C) 0%N z50 [::] hW c 7%N 0 tt [:: "a.1"] c2 S2 Hr isT => //.
- by move=> p; rewrite !inE => /eqP ->.
- by rewrite eqxx (get1S_own _ _ Hr).
rewrite Ep /= => -[S ES]; rewrite ES in Hi; exists c, c', S; split=> //; first by rewrite Ep.
move=> v i [Hb _ _ _ _] [|k] // _; have [Hb1 _] := FC Hb; have [E1 _] := Hwall _ _ Hb1.
by rewrite big_ord_recl big_ord0 /= mul0r addr0 /wave_b /= E1 mul0r.
Qed.

(** both ends of the through, one of them looked at from the other side: the waves towards
    the two nodes are the same wave *)
Example C51_singular_witness : exists (c : circ KT) c', reach z50 [::] (hB C) c /\
  internal_S 7%N [:: "<a.1"; "a.2"] 0 tt c = (c', Raise LinAlgError).
Proof.
have [c Hr] := exB C [::]; have [c2 [S2 G]] := getB 7%N Hr.
have Ep := portsB Hr; have Hm : may_ask (hB C) 7%N tt by [].
have Hn : {subset map node_of [:: "<a.1"; "a.2"] <= nodes N} by move=> p; rewrite !inE.
have [|||c' [r [Hi]]] := @C51_outcomes C nat_eqType unit_eqType KT 0 (@gpn C) 0%N z50 [::] (hB C) c 7%N 0 tt [:: "<a.1"; "a.2"] c2 S2 Hr Hm Hn => //.
- by rewrite eqxx (get1S_own _ _ Hr).
rewrite Ep /= => -[[S ES]|[ES _]]; rewrite ES in Hi; last by exists c, c'.
exfalso; have Esz : size [:: "<a.1"; "a.2"] = size (ports c) by rewrite Ep.
have [Hsh HR] := @C51_relates C nat_eqType unit_eqType KT 0 (@gpn C) 0%N z50 [::] (hB C) c 7%N 0 tt _ _ _ Hr Hm Hn Esz Hi.
pose S' : rows C := [:: [:: nth 0 (nth [::] S 0) 0 + 1; nth 0 (nth [::] S 0) 1 - 1]; nth [::] S 1].
have Hsh' : shape_ok 2 S'.
  by case/andP: Hsh => /eqP E1 /allP E2; rewrite /shape_ok /= andbT; apply: E2; rewrite mem_nth // E1.
have HR' : relates_nodes z50 (if (0 : C) == 0 then z50 else 0) N 7%N tt [:: "<a.1"; "a.2"] S'.
  move=> v i Hs [|[|k]] // Hk; rewrite (HR v i Hs _ Hk) !big_ord_recl big_ord0 //=.
  have [Hb _ _ _ _] := Hs; have [Hb1 _] := FC Hb.
  have [E1 E2] : v "a.1" = v "a.2" /\ i "a.1" = - i "a.2" := iffLR (thruB _ _ _ _ _) Hb1.
  have -> w : wave_a w v i "<a.1" = wave_a w v i "a.2" by rewrite /wave_a /= E1 E2 mulrN opprK.
  move: (wave_a _ v i "a.2") => w.
  rewrite big_ord0; set s1 := nth 0 _ (bump _ _); ring.
have E := @C51_unique C nat_eqType unit_eqType KT 0 (@gpn C) 0%N z50 [::] (hB C) c 7%N 0 tt _ _ _ _ Hr Hm Hn Esz Hi Hsh' HR'.
have : nth 0 (nth [::] S' 0) 0 = nth 0 (nth [::] S 0) 0 by rewrite E.
rewrite /= => /eqP; rewrite -subr_eq0 addrC addKr oner_eq0 //.
Qed.
(** C22_superposition: the sum of two excitations of a through *)
Example C22_superposition_witness : exists (c : circ KT) c' t1 t,
  [/\ reach z50 [::] (hB C) c, may_ask (hB C) 7%N tt, order_known [::] (hB C),
      (forall p x, free (net_hist (hB C)) p -> dget [:: ("a.1", 2%:R); ("a.2", 4%:R)] p = Some x ->
        exists x1 x2, [/\ dget [:: ("a.1", 1); ("a.2", 2%:R)] p = Some x1,
                          dget [:: ("a.1", 1); ("a.2", 2%:R)] p = Some x2 & x = x1 + 1 * x2 :> C]) &
      Solution1 7%N [:: ("a.1", 1); ("a.2", 2%:R)] 0 tt c = (c', Ok t1) /\
      Solution1 7%N [:: ("a.1", 2%:R); ("a.2", 4%:R)] 0 tt c = (c', Ok t)].
Proof.
have [c Hr] := exB C [::]; have [c2 [S2 G]] := getB 7%N Hr.
have Ho : order_known [::] (hB C) by left.
have Hm : may_ask (hB C) 7%N tt by [].
have G' : get1S 7%N (if (0 : C) == 0 then z50 else 0) [::] tt c = (c2, Ok S2) by rewrite eqxx (get1S_own _ _ Hr).
have sub (x y : C) : {subset ports c <= dkeys [:: ("a.1", x); ("a.2", y)]}.
  by rewrite (portsB Hr) => p; rewrite !inE.
have [t1 [v [i [E1 _ _ _ _]]]] := thm_C22 Hr Hm Ho (sub 1 2%:R) G'.
have [t [v' [i' [E2 _ _ _ _]]]] := thm_C22 Hr Hm Ho (sub 2%:R 4%:R) G'.
exists c, c2, t1, t; split=> // p x _; rewrite /=.
case: (_ == _) => [[<-]|].
  by exists 1, 1; split=> //; rewrite mul1r.
case: (_ == _) => // -[<-].
by exists 2%:R, 2%:R; split=> //; rewrite mul1r -natrD.
Qed.
End Wit.

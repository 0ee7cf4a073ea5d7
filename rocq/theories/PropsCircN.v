(** C50: Solution with the nodes of the sub-circuits. *)
From mathcomp Require Import all_ssreflect all_algebra.
From mathcomp Require Import algebra_tactics.ring.
From Coq Require Import String Ascii.
From Coq Require List.
From Verif Require Import Base MxLib ConvModel ConvSpec ConvProofs ConvArr CircModel CircSpec CircLib CircInv CircTerm CircApp CircConn CircAdd CircDe CircFill CircSolve CircExt CircHist CircGet CircMain CircOrd CircThm CircThm2 CircThm3 CircThm4 CircThm5 CircMaxV CircNest CircFlat CircDev CircThm6 CircEx CircSub CircSubT.
Set Implicit Arguments.
Unset Strict Implicit.
Unset Printing Implicit Defensive.
Import Order.TTheory GRing.Theory Num.Theory.
Local Open Scope string_scope.
Local Open Scope ring_scope.
Local Open Scope seq_scope.

Section Thms.
Variable C : numClosedFieldType.
Variables F Fl : eqType.
Variable K : vcls C F Fl.
Variable nan : C.
Variable getpos : forall K' : vcls C F Fl, circ K' -> string -> res C.
Notation deep := (deep K nan getpos).
Notation nest n := (nest_cls nan (@getpos (deep n))).
Notation reach := (CircHist.reach nan (@getpos _)).
Notation Solution := (@Solution C F Fl K nan getpos _).

(** What Solution returns are the voltages and currents, and the waves on the wanted
    impedance, of one joint solution of the network of the circuit and of the networks
    of all its sub-circuits, excited at the free ports as asked; no node twice, no node
    that does not exist, every wanted node that exists. *)
Theorem C50_solution n z ns h (c : circ (deep n)) f E z' nds fl c' t :
  reach z ns h c -> may_ask h f fl -> order_known ns h -> own_names (net_hist h) ->
  let zz := if z' == 0 then z else z' in
  Solution f E z' nds fl c = (c', Ok t) ->
  exists V I : asg C, [/\ deep_sat z (net_hist h) f fl V I,
    (forall p, free (net_hist h) p -> dget E p = Some ((V p + zz * I p) / 2%:R)),
    (forall p x, List.In (p, x) t -> x = (V p, I p, (V p + zz * I p) / 2%:R, (V p - zz * I p) / 2%:R)),
    uniq (dkeys t) /\ {subset dkeys t <= deep_nodes (net_hist h)} &
    forall p, (p \in nodes (net_hist h)) ||
      (p \in deep_nodes (net_hist h)) && (if nds is Some l then p \in l else true) -> p \in dkeys t].
Proof.
move=> Hr Hm Ho Hown zz H.
have [c1 [t1 E1]] : exists c1 t1, Solution1 f E z' fl c = (c1, Ok t1).
  move: H; case: n h c c' Hr Hm Ho Hown => [|n] h c c' Hr Hm Ho Hown; first by move=> H; exists c', t.
  by rewrite SolutionS /Solution_lv; case: (Solution1 _ _ _ _ _) => [c1 [t1|e]] //= _; exists c1, t1.
have [HE [S G]] := sol1_inv Hr Hm E1.
have [t0 [v [i [_ Hs [Hx _] _ _]]]] := thm_C22 Hr Hm Ho HE G.
have [V [I [HD Ev]]] := deepen Hr Hown Hs.
have Hfree p : free (net_hist h) p -> p \in nodes (net_hist h) by case/andP.
have HX p : free (net_hist h) p -> dget E p = Some ((V p + zz * I p) / 2%:R).
  by move=> Hp; have [-> ->] := Ev _ (Hfree _ Hp); exact: Hx.
have [[Hv Hu Hn Hd] Hw] := sub_main Hr Hm Ho Hown HD HX H.
exists V, I; split=> //; first by move=> p x Hin; exact: Hv (In_dget Hu Hin).
by move=> p /orP[/Hn //|/andP[]]; exact: Hw.
Qed.

(** They are the values of every such joint solution. *)
Theorem C50_every_solution n z ns h (c : circ (deep n)) f E z' nds fl c' t (V I : asg C) :
  reach z ns h c -> may_ask h f fl -> order_known ns h -> own_names (net_hist h) ->
  let zz := if z' == 0 then z else z' in
  Solution f E z' nds fl c = (c', Ok t) ->
  deep_sat z (net_hist h) f fl V I ->
  (forall p, free (net_hist h) p -> dget E p = Some ((V p + zz * I p) / 2%:R)) ->
  forall p x, List.In (p, x) t -> x = (V p, I p, (V p + zz * I p) / 2%:R, (V p - zz * I p) / 2%:R).
Proof.
move=> Hr Hm Ho Hown zz H HD HX; have [[Hv Hu Hn Hd] Hw] := sub_main Hr Hm Ho Hown HD HX H.
by move=> p x Hin; exact: Hv (In_dget Hu Hin).
Qed.

(** It returns whenever the excitation names all ports and no getS of the circuit or of
    a sub-circuit fails. *)
Theorem C50_returns n z ns h (c : circ (deep n)) f E z' nds fl :
  reach z ns h c -> may_ask h f fl -> own_names (net_hist h) ->
  let zz := if z' == 0 then z else z' in
  {subset ports c <= dkeys E} -> (exists c1 S, get1S f zz [::] fl c = (c1, Ok S)) ->
  subs_return zz (net_hist h) f fl ->
  exists c' t, Solution f E z' nds fl c = (c', Ok t).
Proof. exact: sub_returns. Qed.

(** A sub-circuit under other port names: asking for all nodes always raises. *)
Theorem C50_renamed n z ns h (c : circ (deep n.+1)) f E z' fl nm ps (o : nest n) p :
  reach z ns h c -> may_ask h f fl ->
  List.In (nm, (ps, inr o)) (nblk (net_hist h)) -> p \in ports (n_c o) -> p \notin ps ->
  exists c' e, Solution f E z' None fl c = (c', Raise e).
Proof.
move=> Hr Hm Hin Hp Hps; case H: (Solution _ _ _ _ _ _) => [c' [t|e]]; last by exists c', e.
by have [] := sub_renamed Hr Hm Hin Hp Hps H.
Qed.
End Thms.

Section Wit.
Variable C : numClosedFieldType.
Notation z50 := (z50 C).
Notation KT := (KT C).
Notation gp := (@gp C).
Notation gpn := (@gpn C).
Notation hB := (hB C).
Notation Solution := (@Solution C nat_eqType unit_eqType KT 0 gpn 1%N).
Definition EJ : seq (string * C) := [:: ("x.a.1", 1)].

Lemma subsJ c f : CircHist.reach 0 gp z50 [::] hB c ->
  subs_return (K := KT) (nan := 0) (getpos := gpn) (n := 1) z50 (net_hist (hJ c)) f tt.
Proof.
move=> Hr; rewrite (net_hJ Hr) /=; constructor=> //=; split=> // o' Ha.
have : exists n : ncirc KT, [/\ o' = n, n_inv 0 gp n, n_z n = z50, n_ns n = [::] & net_hist (n_h n) = net_hist hB].
  elim: Ha => [|o1 f1 z1 fl1 Hz1 _ [n [-> Hn Ez Ens En1]]].
    by exists (NCirc z50 [::] hB c); split=> //; split=> //; left.
  exists (n_getS f1 z1 fl1 n).1; split=> //.
    by have [] := @nest_law C nat_eqType unit_eqType KT 0 gp n f1 z1 fl1 Hn Hz1.
  by rewrite /= net_rcons.
case=> n [-> [Hn Hk Ht] Ez Ens En1] /=.
have [|||||c' [S E]] := getS_returns (f := f) (fl := tt) Hn.
- by rewrite /may_ask Ht.
- by left.
- by rewrite Ez En1; exact: noraise.
- by exists "a.1"; rewrite En1.
- by rewrite Ez En1; exact: resB.
by exists S; rewrite -Ez (get1S_own _ _ Hn) E.
Qed.

Lemma ownJ c : CircHist.reach 0 gp z50 [::] hB c ->
  own_names (K := KT) (nan := 0) (getpos := gpn) (n := 1) (net_hist (hJ c)).
Proof. by move=> Hr; rewrite (net_hJ Hr) /=; constructor=> //=; rewrite (portsB Hr). Qed.

(** the circuit of C24_witness: a through in a circuit, that is block x of another one,
    excited with 1 V at x.a.1 *)
Example C50_witness : exists c (d : circ (deep KT 0 gpn 1)) d' t, [/\ CircHist.reach 0 gp z50 [::] hB c,
  CircHist.reach 0 (gpn (K' := K1 C)) z50 [::] (hJ c) d, may_ask (hJ c) 7%N tt /\ order_known [::] (hJ c),
  own_names (n := 1) (net_hist (hJ c)) & Solution 7%N EJ 0 None tt d = (d', Ok t)].
Proof.
have [c [d [Hc Hd]]] := exJ C; have Hm : may_ask (hJ c) 7%N tt by rewrite /may_ask /= andbF.
have Ho : order_known [::] (hJ c) by left.
have [d1 [S G]] := getJ 7%N Hc Hd.
have G' : get1S 7%N (if 0 == 0 :> C then z50 else 0) [::] tt d = (d1, Ok S) by rewrite eqxx (get1S_own _ _ Hd) G.
have HE : {subset ports d <= dkeys EJ}.
  move=> p; rewrite (v_fp (ci_inv (reach_CI Hd))) (net_hJ Hc) => /andP[].
  by rewrite !inE => /orP[/eqP ->|/eqP ->].
have HS : subs_return (K := KT) (nan := 0) (getpos := gpn) (n := 1%N) (if 0 == 0 :> C then z50 else 0) (net_hist (hJ c)) 7%N tt.
  by rewrite eqxx; exact: subsJ.
have [d' [t Ht]] := @C50_returns C nat_eqType unit_eqType KT 0 gpn 1%N z50 [::] (hJ c) d 7%N EJ 0 None tt Hd Hm (ownJ Hc) HE (ex_intro _ d1 (ex_intro _ S G')) HS.
exists c, d, d', t; split=> //; exact: ownJ.
Qed.

(** the same circuit under the port names p and q *)
Definition hJ' (c : circ KT) : seq (CircHist.event (K1 C)) := [:: (OAdd "x" (box c) (PList [:: "p"; "q"]) 0, true)].
Example C50_renamed_witness : exists c (d : circ (deep KT 0 gpn 1)), [/\ CircHist.reach 0 gp z50 [::] hB c,
  CircHist.reach 0 (gpn (K' := K1 C)) z50 [::] (hJ' c) d, may_ask (hJ' c) 7%N tt,
  List.In ("x", ([:: "p"; "q"], box c)) (nblk (net_hist (hJ' c))) &
  "a.1" \in ports c].
Proof.
have Ec : isSome (obind (fun c => run 0 (gpn (K' := K1 C)) (new_circ (K1 C) z50 [::]) (hJ' c))
                   (run 0 gp (new_circ KT z50 [::]) hB)) by vm_compute.
case Ec0: (run 0 gp (new_circ KT z50 [::]) hB) Ec => [c|//]; rewrite [obind _ _]/obind /oapp.
have Hc : CircHist.reach 0 gp z50 [::] hB c by apply: reach_run Ec0; exact: hB_ok.
case Ed: (run 0 (gpn (K' := K1 C)) (new_circ (K1 C) z50 [::]) (hJ' c)) => [d|//] _.
have Er : resolve_ports (osize (box c)) (oports (box c)) (PList [:: "p"; "q"]) = Ok [:: "p"; "q"].
  by rewrite /= (portsB Hc).
exists c, d; split=> //.
- split=> //; first exact: z50_0.
  rewrite /hist_ok /=; split=> //; split=> //; first exact: box_inv.
  by right; split=> // ps; rewrite Er => -[<-].
- have -> : net_hist (hJ' c) = net_step (net0 (K1 C)) (OAdd "x" (box c) (PList [:: "p"; "q"]) 0) by [].
  by rewrite /net_step Er; left.
- by rewrite (portsB Hc).
Qed.
End Wit.

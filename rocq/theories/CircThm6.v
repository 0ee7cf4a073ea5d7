(** The outcome (returns / raises) of getS is a function of the network, too. *)
From mathcomp Require Import all_ssreflect all_algebra.
From Coq Require Import String Ascii.
From Coq Require List.
From Verif Require Import Base MxLib ConvModel ConvSpec ConvProofs ConvArr CircModel CircSpec CircLib CircInv CircTerm CircApp CircConn CircAdd CircDe CircFill CircSolve CircExt CircHist CircGet CircMain CircOrd CircThm CircThm2 CircThm3 CircThm4 CircDev.
Set Implicit Arguments.
Unset Strict Implicit.
Unset Printing Implicit Defensive.
Import Order.TTheory GRing.Theory Num.Theory.
Local Open Scope ring_scope.
Local Open Scope seq_scope.

Section Thm6.
Variable C : numClosedFieldType.
Variables F Fl : eqType.
Variable K : vcls C F Fl.
Variable nan : C.
Variable getpos : circ K -> string -> res C.
Notation circ := (circ K).
Notation net := (net K).
Notation reach := (reach nan getpos).
Implicit Types (c : circ) (N : net) (h : seq (event K)).

Lemma wp_same z N1 N2 f fl : same_sat z N1 N2 f fl -> free N1 =1 free N2 -> nodes N1 =i nodes N2 ->
  well_posed z N1 f fl -> well_posed z N2 f fl.
Proof.
move=> Hs Hf Hn [H1 H2]; split.
  move=> [v [i [G1 G2 [p Hp G3]]]]; apply: H1; exists v, i; split; first exact/Hs.
    by move=> q; rewrite Hf; exact: G2.
  by exists p; rewrite ?Hn.
move=> a; have [[v [i [G1 G2]]] G3] := H2 a; split.
  by exists v, i; split; [exact/Hs|move=> p; rewrite -Hf; exact: G2].
move=> v1 i1 v2 i2 /Hs G4 /Hs G5 G6 G7 p; rewrite -Hn => Hp.
by apply: (G3 _ _ _ _ G4 G5) => // q; rewrite Hf => Hq; [exact: G6|exact: G7].
Qed.

Lemma thm_returns z ns1 ns2 h1 h2 c1 c2 f z' fl :
  reach z ns1 h1 c1 -> reach z ns2 h2 c2 ->
  same_sat z (net_hist h1) (net_hist h2) f fl -> free (net_hist h1) =1 free (net_hist h2) ->
  nodes (net_hist h1) =i nodes (net_hist h2) ->
  may_ask h1 f fl -> may_ask h2 f fl ->
  (forall e, ~ blk_raises (net_hist h1) z f fl e) -> (forall e, ~ blk_raises (net_hist h2) z f fl e) ->
  (ns1 = [::] \/ perm_eq ns1 (ports c1)) -> (ns2 = [::] \/ perm_eq ns2 (ports c2)) ->
  (exists S1, (get1S f z' [::] fl c1).2 = Ok S1) -> exists S2, (get1S f z' [::] fl c2).2 = Ok S2.
Proof.
move=> H1 H2 Hs Hf Hn M1 M2 B1 B2 P1 P2 Hok.
have HI1 := ci_inv (reach_CI H1); have HI2 := ci_inv (reach_CI H2).
have Hm : ports c2 =i ports c1 by move=> p; rewrite (v_fp HI1) (v_fp HI2) Hf.
have [p Hp] : exists p, free (net_hist h1) p.
  case: Hok => S1; case E: (get1S f z' [::] fl c1) => [c1' r] /= Er; rewrite Er in E.
  have HC := reach_CI H1.
  have [D Hpi _ Hr] := get1S_CI HC M1 E; case: Hr => _ _ Hne _ _.
  case Ep: (ports c1') Hne => [|p ps] // _.
  by exists p; rewrite -(v_fp (ci_inv D)) Ep inE eqxx.
have [G1 _] := thm_C12_iff z' H1 M1 B1 P1 (ex_intro _ p Hp).
rewrite Hf in Hp; have [G2 _] := thm_C12_iff z' H2 M2 B2 P2 (ex_intro _ p Hp).
apply/G2; have [W [->|[S' HS]]] := iffLR G1 Hok; split; try exact: (wp_same Hs Hf Hn W).
  by left.
right; have [S2 [H3 _]] := net_S_perm (v_up HI1) (v_up HI2) Hm HS.
by exists S2; apply: net_S_same H3.
Qed.

(** getS on the circuit's own impedance returns on every network that does not
    oscillate and whose blocks answer *)
Lemma getS_returns z ns h c f fl : reach z ns h c -> may_ask h f fl ->
  (ns = [::] \/ perm_eq ns (ports c)) ->
  (forall e, ~ blk_raises (net_hist h) z f fl e) -> (exists p, free (net_hist h) p) ->
  ~ resonant z (net_hist h) f fl -> exists c' S, get1S f 0 [::] fl c = (c', Ok S).
Proof.
move=> Hr Hm Hns Hb [p Hp] Hn; case E: (get1S f 0 [::] fl c) => [c' [S|e]]; first by exists c', S.
have := thm_C12 Hr Hm E; case=> [/Hb|[_ H1 H2]|/(_ p)|[_ [[/Hn]|]]] //.
- by case: Hns => [/H1|] //; rewrite (negbTE H2).
- by rewrite Hp.
- by rewrite eqxx => -[].
Qed.

(** asking for the circuit's own impedance is the same as not asking for one *)
Lemma get1S_own z ns h c f fl : reach z ns h c -> get1S f z [::] fl c = get1S f 0 [::] fl c.
Proof.
move=> Hr; have HC := reach_CI Hr; have HI := ci_inv HC; have Ez := ci_z HC.
rewrite /get1S; case: ifP => _; last by case: (cS c) => //= S; rewrite /rebase Ez !eqxx orbT.
case E: (solve_now f fl [::] c) => [c' r] /=.
have [_ Ez' _ _ _] := solve_ok HI E.
by case: r E => //= S E; rewrite /rebase Ez' Ez !eqxx orbT.
Qed.
End Thm6.

(** a tabulated device on the circuit's own impedance answers *)
Lemma tab_after (C : numClosedFieldType) (F Fl : eqType) (o o' : tab_cls C F Fl) : after_getS o o' -> o' = o.
Proof. by elim. Qed.

Lemma tab_no_raise (C : numClosedFieldType) (F Fl : eqType) (N : net (tab_cls C F Fl)) z f fl :
  List.Forall (fun b => t_z b.2.2 = z /\ exists S, t_S b.2.2 f fl = Ok S) (nblk N) ->
  forall e, ~ blk_raises N z f fl e.
Proof.
move=> /List.Forall_forall H e [nm [ps [o [o' [Hin /tab_after -> _]]]]].
by have [/= <- [S ->]] := H _ Hin; rewrite /= /rebase eqxx orbT.
Qed.


(** C61: circuits of reciprocal / passive / lossless elements.  Vocabulary: CircPow.v
    (reciprocal, passive and lossless objects and loads; [every]: all elements of a
    circuit, through its sub-circuits at all levels), ConvSpec.v (symmetric, passive,
    unitary matrices). *)
From mathcomp Require Import all_ssreflect all_algebra.
From Coq Require Import String Ascii.
From Coq Require List.
From Verif Require Import Base MxLib ConvModel ConvSpec ConvProofs ConvArr CircModel CircSpec CircLib CircInv CircTerm CircApp CircConn CircAdd CircDe CircFill CircSolve CircExt CircHist CircGet CircMain CircOrd CircThm CircThm2 CircThm3 CircThm4 CircNest CircFlat CircDev CircThm6 CircPow CircPowT CircEx PropsCircW.
Set Implicit Arguments.
Unset Strict Implicit.
Unset Printing Implicit Defensive.
Import Order.TTheory GRing.Theory Num.Theory.
Local Open Scope string_scope.
Local Open Scope ring_scope.
Local Open Scope seq_scope.

Section Thms.
Variable C : numClosedFieldType.
Variables F Fl : eqType.
Variable K : vcls C F Fl.
Variable nan : C.
Variable getpos : forall K' : vcls C F Fl, circ K' -> string -> res C.
Notation deep := (deep K nan getpos).
Notation reach n := (CircHist.reach nan (@getpos (deep n))).
Notation every Pd Pl Pz n := (@every C F Fl K nan getpos Pd Pl Pz n).
Notation any_z := (fun _ : C => True).
Notation any_load := (fun _ : load C => True).

Lemma every_all (Pd : K -> Prop) (Pl : load C -> Prop) (Pz : C -> Prop) (P : forall n, deep n -> Prop) :
  (forall d : K, Pd d -> P 0%N d) ->
  (forall n (d : K), Pd d -> P n.+1 (inl d)) ->
  (forall n (s : nest_cls nan (@getpos (deep n))), oinv s ->
     Pz (n_z s) -> no_deembed (n_h s) -> all_loads Pl (net_hist (n_h s)) ->
     all_blocks (@P n) (net_hist (n_h s)) -> P n.+1 (inr s)) ->
  forall n (o : deep n), oinv o -> every Pd Pl Pz n o -> P n o.
Proof.
move=> H0 H1 H2; elim=> [|n IH] /=; first by move=> o _; exact: H0.
case=> [d _|s Ho]; first exact: H1.
case=> Hz Hd Hl Hb; apply: (H2 n s Ho Hz Hd Hl).
have Hi : List.Forall (fun b => oinv b.2.2) (nblk (net_hist (n_h s))).
  by case: Ho => Hr _ _; exact: reach_oinv Hr.
by apply: (F2 _ Hi Hb) => b; exact: IH.
Qed.

Lemma blocks_all (Pd : K -> Prop) (Pl : load C -> Prop) (Pz : C -> Prop) (P : forall n, deep n -> Prop) n z ns h c :
  (forall o : deep n, oinv o -> every Pd Pl Pz n o -> P n o) ->
  reach n z ns h c -> all_blocks (every Pd Pl Pz n) (net_hist h) -> all_blocks (@P n) (net_hist h).
Proof. by move=> H Hr Hb; apply: (F2 _ (reach_oinv Hr) Hb) => b; exact: H. Qed.

Lemma every_recip f fl n (o : deep n) : oinv o ->
  every (recip_obj f fl) any_load any_z n o -> recip_obj f fl o.
Proof.
apply: (every_all (P := fun n => @recip_obj C F Fl (deep n) f fl)) => // {o}n s [Hr _ _] _ Hd _ Hb.
move=> v i v' i' [w [j [Hs E]]] [w' [j' [Hs' E']]].
exact: (net_recip_gen Hr Hd Hb erefl Hs Hs' E E').
Qed.

Lemma every_passive f fl n (o : deep n) : oinv o ->
  every (passive_obj f fl) (@passive_load C) (fun z => 0 < z) n o -> passive_obj f fl o.
Proof.
apply: (every_all (P := fun n => @passive_obj C F Fl (deep n) f fl)) => // {o}n s [Hr _ _] Hz Hd Hl Hb.
move=> v i [w [j [Hs E]]].
by rewrite (power_ports E); exact: sat_passive Hz Hr Hd Hb Hl Hs.
Qed.

Lemma every_lossless f fl n (o : deep n) : oinv o ->
  every (lossless_obj f fl) (@lossless_load C) (fun z => 0 < z) n o -> lossless_obj f fl o.
Proof.
apply: (every_all (P := fun n => @lossless_obj C F Fl (deep n) f fl)) => // {o}n s [Hr _ _] Hz Hd Hl Hb.
move=> v i [w [j [Hs E]]].
by rewrite (power_ports E); exact: sat_lossless Hz Hr Hd Hb Hl Hs.
Qed.

(** the ports of the circuit getS leaves behind, in their new order *)
Lemma got n z ns h (c : circ (deep n)) f z' fl c' S : reach n z ns h c -> may_ask h f fl ->
  get1S f z' [::] fl c = (c', Ok S) ->
  exists h', [/\ reach n z ns h' c', net_hist h' = net_hist h, no_deembed h' = no_deembed h &
    net_S z (zreq z' z) (net_hist h) f fl (ports c') S].
Proof.
move=> Hr Hm E; have [H _] := thm_C12 Hr Hm E.
exists (rcons h (@OGetS C F Fl (deep n) f z' fl, true)); split=> //.
- apply: (@reach_snoc _ _ _ _ _ _ _ _ h c (@OGetS C F Fl (deep n) f z' fl) true c' Hr Hm).
  by rewrite /exec E.
- by rewrite net_rcons.
by rewrite /no_deembed all_rcons.
Qed.

(** ** C61 *)
(** The matrix getS returns for a circuit of reciprocal elements (sub-circuits of such
    elements included, at any depth) is symmetric, whatever the loads. *)
Theorem C61_reciprocal n z ns h (c : circ (deep n)) f z' fl c' S :
  reach n z ns h c -> may_ask h f fl -> get1S f z' [::] fl c = (c', Ok S) ->
  no_deembed h -> all_blocks (every (recip_obj f fl) any_load any_z n) (net_hist h) ->
  symmetric (mx_of (size (ports c')) (size (ports c')) S).
Proof.
move=> Hr Hm E Hd Hb; have [h' [Hr' En Ed [_ HS]]] := got Hr Hm E; have [Hz _ _] := Hr.
rewrite -En in Hb HS; rewrite -Ed in Hd.
have Hb' := blocks_all (P := fun n => @recip_obj C F Fl (deep n) f fl) (@every_recip f fl n) Hr' Hb.
have Hz' : zreq z' z != 0 by rewrite /zreq; case: ifP => // ->.
apply/(recip_rows _ _ Hz') => v i v' i' /HS [w [j [Hs E1]]] /HS [w' [j' [Hs' E2]]].
exact: (net_recip_gen Hr' Hd Hb' erefl Hs Hs' E1 E2).
Qed.

(** A circuit of passive elements and loads (on positive reference impedances) is passive:
    no wave vector comes out of it stronger than it goes in. *)
Theorem C61_passive n z ns h (c : circ (deep n)) f z' fl c' S :
  reach n z ns h c -> may_ask h f fl -> get1S f z' [::] fl c = (c', Ok S) ->
  0 < z -> 0 <= z' -> no_deembed h -> all_loads (@passive_load C) (net_hist h) ->
  all_blocks (every (passive_obj f fl) (@passive_load C) (fun z => 0 < z) n) (net_hist h) ->
  passive (mx_of (size (ports c')) (size (ports c')) S).
Proof.
move=> Hr Hm E Hz Hz0 Hd Hl Hb; have [h' [Hr' En Ed [_ HS]]] := got Hr Hm E.
rewrite -En in Hb HS Hl; rewrite -Ed in Hd.
have Hb' := blocks_all (P := fun n => @passive_obj C F Fl (deep n) f fl) (@every_passive f fl n) Hr' Hb.
have Hz' : 0 < zreq z' z by rewrite /zreq; case: eqP => [//|/eqP H]; rewrite lt_def H.
apply/(passive_rows _ _ Hz') => v i /HS [w [j [Hs E1]]].
by rewrite (power_ports E1); exact: sat_passive Hz Hr' Hd Hb' Hl Hs.
Qed.

(** A circuit of lossless elements and loads is lossless: its matrix is unitary. *)
Theorem C61_lossless n z ns h (c : circ (deep n)) f z' fl c' S :
  reach n z ns h c -> may_ask h f fl -> get1S f z' [::] fl c = (c', Ok S) ->
  0 < z -> 0 <= z' -> no_deembed h -> all_loads (@lossless_load C) (net_hist h) ->
  all_blocks (every (lossless_obj f fl) (@lossless_load C) (fun z => 0 < z) n) (net_hist h) ->
  unitary (mx_of (size (ports c')) (size (ports c')) S).
Proof.
move=> Hr Hm E Hz Hz0 Hd Hl Hb; have [h' [Hr' En Ed [_ HS]]] := got Hr Hm E.
rewrite -En in Hb HS Hl; rewrite -Ed in Hd.
have Hb' := blocks_all (P := fun n => @lossless_obj C F Fl (deep n) f fl) (@every_lossless f fl n) Hr' Hb.
have Hz' : 0 < zreq z' z by rewrite /zreq; case: eqP => [//|/eqP H]; rewrite lt_def H.
apply/(unitary_rows _ _ Hz') => v i /HS [w [j [Hs E1]]].
by rewrite (power_ports E1); exact: sat_lossless Hz Hr' Hd Hb' Hl Hs.
Qed.

(** What these conditions are for a device: its getS, on any (positive) impedance on which
    it returns, gives a symmetric, passive or unitary matrix. *)
Theorem C61_element (o : K) f z fl S : oinv o -> z != 0 -> (ogetS f z fl o).2 = Ok S ->
  let M := mx_of (osize o) (osize o) S in
  (recip_obj f fl o <-> symmetric M) /\
  (0 < z -> (passive_obj f fl o <-> passive M) /\ (lossless_obj f fl o <-> unitary M)).
Proof.
move=> Ho Hz E; have [_ _ _ _ /(_ _ E) [_ H]] := oget_law f fl Ho Hz.
split=> [|Hz'].
  rewrite (recip_rows _ _ Hz); split=> G v i v' i' /H H1 /H H2; exact: G H1 H2.
by rewrite (passive_rows _ _ Hz') (unitary_rows _ _ Hz'); split; split=> G v i /H; exact: G.
Qed.
End Thms.

Section Witness.
Variable C : numClosedFieldType.
Notation KT := (KT C).
Notation gpn := (@gpn C).
Notation every Pd Pl Pz n := (@every C nat_eqType unit_eqType KT 0 gpn Pd Pl Pz n).

(** a through connection is reciprocal, passive and lossless *)
Lemma thru_kind f fl : [/\ recip_obj f fl (thru C : KT), passive_obj f fl (thru C : KT) & lossless_obj f fl (thru C : KT)].
Proof.
have E (v i : vi C) : v 0%N = v 1%N /\ i 0%N = - i 1%N -> power_in 2 v i = 0.
  case=> H1 H2; rewrite /power_in !big_ord_recl big_ord0 addr0 /= /bump /= H1 H2.
  by rewrite rmorphN mulrN raddfN /= addNr.
split.
- move=> v i v' i' /thruE [H1 H2] /thruE [H3 H4].
  rewrite [osize _]/= !big_ord_recl !big_ord0 !addr0 /= /bump /= H1 H2 H3 H4.
  by rewrite !mulrN !addNr.
- by move=> v i /thruE H; rewrite [osize _]/= (E _ _ H).
- by move=> v i /thruE H; rewrite [osize _]/= (E _ _ H).
Qed.

(** two throughs in series; a circuit with a through in it as block of one with a load *)
Example C61_witness : exists c c' S, [/\ CircHist.reach 0 (gpn (K' := KT)) (z50 C) [::] (hC C) c,
  get1S 7%N 0 [::] tt c = (c', Ok S) /\ no_deembed (hC C),
  all_blocks (every (recip_obj 7%N tt) (fun _ => True) (fun _ => True) 0) (net_hist (hC C)),
  all_blocks (every (lossless_obj 7%N tt) (@lossless_load C) (fun z => 0 < z) 0) (net_hist (hC C)) &
  all_loads (@lossless_load C) (net_hist (hC C)) /\ 0 < z50 C].
Proof.
have [c H] := exC C; have [T1 T2 T3] := thru_kind 7%N tt.
have [c' [S G]] : exists c' S, get1S 7%N 0 [::] tt c = (c', Ok S).
  apply: (getS_returns (h := hC C) H) => //; [by left|by move=> e; case: (noraiseC C 7%N tt e)|by exists "a.1"|by case: (resC C 7%N tt)].
exists c, c', S; split=> //; try by repeat constructor.
by split; [constructor|rewrite ltr0n].
Qed.

Example C61_nested_witness : exists c d d' S, [/\ CircHist.reach 0 (@gp C) (z50 C) [::] (hB C) c,
  CircHist.reach 0 (gpn (K' := K1 C)) (z50 C) [::] (hJ c) d,
  get1S 7%N 0 [::] tt d = (d', Ok S) /\ no_deembed (hJ c),
  all_loads (@passive_load C) (net_hist (hJ c)) &
  all_blocks (every (passive_obj 7%N tt) (@passive_load C) (fun z => 0 < z) 1) (net_hist (hJ c))].
Proof.
have [c [d [Hc Hd]]] := exJ C; have [d' [S G]] := getJ 7%N Hc Hd.
have [_ T2 _] := thru_kind 7%N tt.
exists c, d, d', S; rewrite (net_hJ Hc); split=> //.
  constructor; last by constructor.
  by rewrite /= normfV normr_nat invf_le1 ?ltr0n // ler1n.
constructor; last by constructor.
by split=> //; [rewrite ltr0n|constructor|constructor=> //; constructor].
Qed.
End Witness.

(** Circuits as blocks of circuits (C24).  A circuit is an instance of the record
    of block objects, so that everything proved about circuits holds for circuits
    of circuits, at any depth. *)
From mathcomp Require Import all_ssreflect all_algebra.
From mathcomp Require Import zify algebra_tactics.ring.
From Coq Require Import String Ascii.
From Coq Require List.
From Verif Require Import Base MxLib ConvModel ConvSpec ConvProofs ConvArr CircModel CircSpec CircLib CircInv CircTerm CircApp CircConn CircAdd CircDe CircFill CircSolve CircExt CircHist CircGet CircMain CircOrd CircThm CircThm2 CircThm3 CircThm4.
Set Implicit Arguments.
Unset Strict Implicit.
Unset Printing Implicit Defensive.
Import Order.TTheory GRing.Theory Num.Theory.
Local Open Scope ring_scope.
Local Open Scope seq_scope.

Section Nest.
Variable C : numClosedFieldType.
Variables F Fl : eqType.
Variable K : vcls C F Fl.
Variable nan : C.
Variable getpos : circ K -> string -> res C.

(** a circuit together with the history that made it (the history is not used by
    the methods, it only says which network the circuit stands for) *)
Record ncirc := NCirc { n_z : C; n_ns : seq string; n_h : seq (event K); n_c : circ K }.

(** the circuit is the one made by its history; the order of its ports is settled
    (no Portnames, or getS has returned before); no load was changed since getS *)
Definition n_inv (o : ncirc) : Prop :=
  [/\ reach nan getpos (n_z o) (n_ns o) (n_h o) (n_c o), order_known (n_ns o) (n_h o) &
      reterm (past_of (n_h o)) = false].

(** the port voltages and currents for which the inner network has a solution *)
Definition n_den (o : ncirc) (f : F) (fl : Fl) (v i : vi C) : Prop :=
  exists v' i' : asg C, sat (n_z o) (net_hist (n_h o)) f fl v' i' /\
    forall j, (j < size (ports (n_c o)))%N ->
      v' (nth "" (ports (n_c o)) j) = v j /\ i' (nth "" (ports (n_c o)) j) = i j.

(** len(circuit), circuit.ports, circuit.xpos, circuit.getS (rfCircuit.py 264-265,
    1249-1345); keyword params is not passed on (see CircModel) *)
Definition n_getS (f : F) (z : C) (fl : Fl) (o : ncirc) : ncirc * res (rows C) :=
  let r := get1S f z [::] fl (n_c o) in
  (NCirc (n_z o) (n_ns o) (rcons (n_h o) (@OGetS C F Fl K f z fl, is_ok r.2)) r.1, r.2).

Definition nest_ocls : ocls C F Fl := {|
  ocar := ncirc;
  osize := fun o => size (ports (n_c o));
  oports := fun o => Some (ports (n_c o));
  oxpos := fun o => Some (xpos (n_c o));
  oprm := unit;
  oset := fun _ o => (o, Ok tt);
  ogetS := n_getS |}.

Lemma known_rcons ns h (e : event K) : order_known ns h -> order_known ns (rcons h e).
Proof.
case=> [->|[a [f0 [z0 [fl0 [b ->]]]]]]; first by left.
by right; exists a, f0, z0, fl0, (rcons b e); rewrite rcons_cat.
Qed.

Lemma nest_law (o : nest_ocls) f z fl : n_inv o -> z != 0 ->
  let r := ogetS f z fl o in
  [/\ n_inv r.1, osize r.1 = osize o, oports r.1 = oports o,
      (forall f' fl' v i, n_den r.1 f' fl' v i <-> n_den o f' fl' v i) &
      (forall S, r.2 = Ok S -> shape_ok (osize o) S /\
         forall v i, n_den o f fl v i <-> rel_S z (osize o) S v i)].
Proof.
case: o => z0 ns h c [/= Hr Hk Ht] Hz; rewrite /n_getS /n_den /=.
case G: (get1S f z [::] fl c) => [c' r] /=.
have HC := reach_CI Hr; have HI := ci_inv HC.
have Hm : ~~ (reterm (past_of h) && ((f, fl) \in asked (past_of h))) by rewrite Ht.
have [D Hpi Hord Hres] := get1S_CI HC Hm G.
have Hset := settled_order (reach_settled Hr Hk).
have Ep : ports c' = ports c by case: Hord => -[-> _].
have Hr' : reach nan getpos z0 ns (rcons h (@OGetS C F Fl K f z fl, is_ok r)) c'.
  apply: (@reach_snoc _ _ _ _ _ _ _ _ h c (@OGetS C F Fl K f z fl) (is_ok r) c' Hr Hm).
  by rewrite /exec G.
split; rewrite ?Ep //.
- split=> //=; first exact: known_rcons.
  by rewrite past_rcons /=; case: (r).
- by move=> f' fl' v i; rewrite net_rcons.
move=> S Er; rewrite Er in Hres; have [HS _ _ _ _] := Hres.
case: HS; rewrite Ep /zreq (negbTE Hz) => Hsh Hrel; split=> // v i.
by rewrite Hrel.
Qed.

Definition nest_cls : vcls C F Fl.
Proof.
refine (@Vcls C F Fl nest_ocls n_inv n_den _ _ nest_law).
  move=> o f fl v i v' i' H [w [j [Hs Hv]]]; exists w, j; split=> // k Hk.
  by have [<- <-] := H k Hk; exact: Hv.
move=> o [/reach_CI HC _ _] xs [<-]; exact: (v_xp (ci_inv HC)).
Defined.
End Nest.

(** blocks of two kinds in one circuit *)
Section Sum.
Variable C : numClosedFieldType.
Variables F Fl : eqType.
Variables K1 K2 : vcls C F Fl.

Definition sum_ocls : ocls C F Fl := {|
  ocar := K1 + K2;
  osize := fun o => match o with inl o => osize o | inr o => osize o end;
  oports := fun o => match o with inl o => oports o | inr o => oports o end;
  oxpos := fun o => match o with inl o => oxpos o | inr o => oxpos o end;
  oprm := oprm K1 + oprm K2;
  oset := fun p o => match p, o with
    | inl p, inl o => let r := oset p o in (inl r.1, r.2)
    | inr p, inr o => let r := oset p o in (inr r.1, r.2)
    | _, _ => (o, Raise TypeError) end;
  ogetS := fun f z fl o => match o with
    | inl o => let r := ogetS f z fl o in (inl r.1, r.2)
    | inr o => let r := ogetS f z fl o in (inr r.1, r.2) end |}.

Definition sum_cls : vcls C F Fl.
Proof.
refine (@Vcls C F Fl sum_ocls
  (fun o => match o with inl o => oinv o | inr o => oinv o end)
  (fun o => match o with inl o => oden o | inr o => oden o end) _ _ _).
- by case=> o f fl v i v' i' H; [exact: oden_ext|exact: oden_ext].
- by case=> o; [exact: oinv_xpos|exact: oinv_xpos].
- by case=> o f z fl Ho Hz /=; [exact: (oget_law f fl Ho Hz)|exact: (oget_law f fl Ho Hz)].
Defined.
End Sum.

(** devices and circuits nested up to depth n *)
Section Deep.
Variable C : numClosedFieldType.
Variables F Fl : eqType.
Variable K : vcls C F Fl.
Variable nan : C.
Variable getpos : forall K' : vcls C F Fl, circ K' -> string -> res C.

Fixpoint deep (n : nat) : vcls C F Fl :=
  if n is n'.+1 then sum_cls K (nest_cls nan (@getpos (deep n'))) else K.
End Deep.

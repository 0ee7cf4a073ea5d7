(** C64: rfCircuit.resolve_xpos.  The model: CircXpos.v. *)
From mathcomp Require Import all_ssreflect all_algebra.
From Coq Require Import String Ascii.
From Coq Require List.
From Verif Require Import Base MxLib CircModel CircSpec CircLib CircInv CircHist CircGet CircMain CircOrd CircThm CircThm2 CircThm3 CircFlat CircXpos CircEx.
Set Implicit Arguments.
Unset Strict Implicit.
Unset Printing Implicit Defensive.
Import Order.TTheory GRing.Theory Num.Theory.
Local Open Scope string_scope.
Local Open Scope ring_scope.
Local Open Scope seq_scope.

Section C64.
Variable C : numClosedFieldType.
Variables F Fl : eqType.
Variable K : vcls C F Fl.
Variable nan : C.
Variable getpos : circ K -> string -> res C.
Notation reach := (reach nan getpos).
Notation dotted := (has_char "."%char).

Lemma split_none s : ~~ dotted s -> split_dot s = (s, None).
Proof.
elim: s => [|d s IH] //=; rewrite negb_or => /andP [Hd /IH ->].
by rewrite eq_sym (negbTE Hd).
Qed.
Lemma split_some s : dotted s -> exists b q, [/\ split_dot s = (b, Some q), s = dot b q & ~~ dotted b].
Proof.
elim: s => [|d s IH] //=; rewrite [_ == d]eq_sym; case: eqP => [->|Hd] /=; first by exists "", s.
move/IH => [b [q [-> -> Hb]]]; exists (String d b), q; split=> //=.
by rewrite negb_or Hb andbT eq_sym; apply/eqP.
Qed.
Lemma split_dotK b q : ~~ dotted b -> split_dot (dot b q) = (b, Some q).
Proof.
elim: b => [|d b IH] //=; rewrite negb_or => /andP [Hd /IH]; rewrite /dot /= => ->.
by rewrite eq_sym (negbTE Hd).
Qed.

Lemma one_plain (c : circ K) p : ~~ dotted p -> xpos_one c p = Ok 0.
Proof. by move=> H; rewrite /xpos_one split_none. Qed.
Lemma one_dotted (c : circ K) p : dotted p -> exists e, xpos_one c p = Raise e.
Proof.
case/split_some => b [q [E _ _]]; rewrite /xpos_one E.
by case: dget => [k|]; [case: oports => [ops|]; [case: ifP => _|]|]; eexists.
Qed.

Lemma all_plain (c : circ K) ps : (forall p, p \in ps -> ~~ dotted p) -> mapM (xpos_one c) ps = Ok (nseq (size ps) 0).
Proof.
elim: ps => [|p ps IH] //= H; rewrite one_plain ?H ?mem_head // IH // => q Hq.
by apply: H; rewrite inE Hq orbT.
Qed.
Lemma first_dotted (c : circ K) a p r : (forall p, p \in a -> ~~ dotted p) -> dotted p ->
  exists2 e, xpos_one c p = Raise e & mapM (xpos_one c) (a ++ p :: r) = Raise e.
Proof.
move=> Ha Hp; have [e E] := one_dotted c Hp; exists e => //; elim: a Ha => [|q a IH] Ha /=; first by rewrite E.
by rewrite one_plain ?Ha ?mem_head // IH // => s Hs; apply: Ha; rewrite inE Hs orbT.
Qed.
Lemma split_seq (ps : seq string) : (forall p, p \in ps -> ~~ dotted p) \/
  exists a p r, [/\ ps = a ++ p :: r, (forall q, q \in a -> ~~ dotted q) & dotted p].
Proof.
elim: ps => [|p ps [IH|[a [q [r [-> Ha Hq]]]]]]; first by left.
- case Hp: (dotted p); first by right; exists [::], p, ps.
  by left=> q; rewrite inE => /orP [/eqP ->|/IH //]; rewrite Hp.
case Hp: (dotted p); first by right; exists [::], p, (a ++ q :: r).
by right; exists (p :: a), q, r; split=> // s; rewrite inE => /orP [/eqP ->|/Ha //]; rewrite Hp.
Qed.

(** ** C64 *)
(** It returns only if no free port is a port of a block, and then puts every port at 0
    and changes nothing else. *)
Theorem C64_accepts z ns h c : reach z ns h c ->
  ((resolve_xpos c).2 = Ok tt <-> forall p, free (net_hist h) p -> ~~ has_char "."%char p).
Proof.
move=> Hr; have [_ _ _ [_ Hf] _] := thm_C10 Hr; rewrite /resolve_xpos.
split=> [|H]; last by rewrite all_plain // => p; rewrite Hf; exact: H.
case: (split_seq (ports c)) => [H|[a [p [r [E Ha Hp]]]]].
  by move=> _ p; rewrite -Hf; exact: H.
by rewrite E; have [e _ ->] := first_dotted c r Ha Hp.
Qed.

Theorem C64_result z ns h c c' : reach z ns h c -> resolve_xpos c = (c', Ok tt) ->
  c' = with_ports c (ports c) (nseq (size (ports c)) 0).
Proof.
move=> Hr E; have H : (resolve_xpos c).2 = Ok tt by rewrite E.
have [_ _ _ [_ Hf] _] := thm_C10 Hr; move/(C64_accepts Hr): H => H; move: E.
by rewrite /resolve_xpos all_plain => [[<-]|p] //; rewrite Hf; exact: H.
Qed.

Lemma after_ports (o o' : K) : oinv o -> after_getS o o' -> oinv o' /\ oports o' = oports o.
Proof. by move=> Ho; elim=> // o1 f z fl Hz _ [H1 <-]; have [] := oget_law f fl H1 Hz. Qed.

(** Otherwise the first such port b.q decides: RuntimeError if b is a block whose object has a port q or
    no ports attribute, ValueError if the object calls its ports otherwise (the block was given other names), KeyError if
    there is no block b; the circuit is as before. *)
Theorem C64_raises z ns h c a b q r : reach z ns h c -> ports c = a ++ dot b q :: r ->
  (forall p, p \in a -> ~~ has_char "."%char p) -> ~~ has_char "."%char b ->
  resolve_xpos c = (c, Raise match dget (nblk (net_hist h)) b with
    | Some (_, o) => if oports o is Some l then if q \in l then RuntimeError else ValueError else RuntimeError
    | None => KeyError end).
Proof.
move=> Hr E Ha Hb; have HI := ci_inv (reach_CI Hr).
have Hd : has_char "."%char (dot b q).
  by elim: {E Hb} b => [|d b IH] //=; rewrite /dot /= in IH *; rewrite IH orbT.
have [e E1 E2] := first_dotted c r Ha Hd; rewrite /resolve_xpos E E2; congr (_, Raise _).
move: E1; rewrite /xpos_one split_dotK //.
case En: (dget (nblk _) b) => [[ps o]|].
  have [bl -> [_ _ _ [Hg _] _]] := Forall2_dget' (v_blk HI) En.
  have Ho : oinv o := iffLR (List.Forall_forall _ _) (reach_oinv Hr) _ (dget_In En).
  have [_ ->] := after_ports Ho Hg.
  by case: (oports o) => [l|] /=; [case: ifP => _|] => -[].
case Eb: (dget (blocks c) b) => [bl|]; last by case.
by have [w [o [Ew _ _]]] := Forall2_dget (v_blk HI) Eb; rewrite Ew in En.
Qed.

(** So it never does what it is for: with a free port of a block it raises. *)
Theorem C64_refuted z ns h c b q : reach z ns h c -> free (net_hist h) (dot b q) ->
  exists e, resolve_xpos c = (c, Raise e).
Proof.
move=> Hr Hf; have Hd : has_char "."%char (dot b q).
  by elim: {Hf} b => [|d b IH] //=; rewrite /dot /= in IH *; rewrite IH orbT.
have H : (resolve_xpos c).2 <> Ok tt by move/(C64_accepts Hr)/(_ _ Hf); rewrite Hd.
by move: H; rewrite /resolve_xpos; case: mapM => [xs|e] //= _; exists e.
Qed.
End C64.

Section Witness.
Variable C : numClosedFieldType.
Notation z50 := (z50 C).

Example C64_witness : exists c, [/\ reach 0 (@gp C) z50 [::] (hB C) c, free (net_hist (hB C)) "a.1",
  ports c = [::] ++ dot "a" "1" :: [:: "a.2"], dget (nblk (net_hist (hB C))) "a" = Some ([:: "1"; "2"], thru C) &
  oports (thru C : KT C) = Some [:: "1"; "2"]].
Proof.
have [c Hc] : exists c, reach 0 (@gp C) z50 [::] (hB C) c.
  have [c E] : exists c, run 0 (@gp C) (new_circ (KT C) z50 [::]) (hB C) = Some c by apply: some_run.
  by exists c; apply: reach_run E; exact: hB_ok.
exists c; split=> //.
by have [_ _ E] := Hc; move: E => /= [<-].
Qed.

(** the ports of the block given new names of their own: accepted *)
Definition hX : seq (event (KT C)) := [:: Add "a" (thru C); Conn C [:: "a.1"; "x"]; Conn C [:: "a.2"; "y"]].
Example C64_accepts_witness : exists c, [/\ reach 0 (@gp C) z50 [::] hX c, ports c = [:: "x"; "y"] &
  (resolve_xpos c).2 = Ok tt].
Proof.
have [c Hc] : exists c, reach 0 (@gp C) z50 [::] hX c.
  have [c E] : exists c, run 0 (@gp C) (new_circ (KT C) z50 [::]) hX = Some c by apply: some_run.
  exists c; apply: reach_run E; rewrite /hist_ok /=.
  repeat (first [by [] | by apply: (@dev_inv C [:: "1"; "2"]) | split]); try (by right; split=> // ps [<-]); by left.
exists c; have [_ _ E] := Hc; have Ep : ports c = [:: "x"; "y"].
  have : omap (@ports _ _ _ _) (run 0 (@gp C) (new_circ (KT C) z50 [::]) hX) = Some [:: "x"; "y"] by vm_compute.
  by rewrite E => -[].
by split=> //; rewrite /resolve_xpos Ep.
Qed.
End Witness.

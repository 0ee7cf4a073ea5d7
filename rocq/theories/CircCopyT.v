(** A port terminated on the copy of a solved circuit (C54) *)
From mathcomp Require Import all_ssreflect all_algebra.
From mathcomp Require Import zify.
From Coq Require Import String Ascii.
From Coq Require List.
From Verif Require Import Base MxLib ConvModel ConvSpec ConvProofs ConvArr CircModel CircSpec CircLib CircInv CircTerm CircApp CircConn CircAdd CircDe CircFill CircSolve CircExt CircHist CircGet CircMain CircOrd CircThm CircThm2 CircThm3 CircThm4 CircNest CircCopy.
Set Implicit Arguments.
Unset Strict Implicit.
Unset Printing Implicit Defensive.
Import Order.TTheory GRing.Theory Num.Theory.
Local Open Scope string_scope.
Local Open Scope ring_scope.
Local Open Scope seq_scope.

Section T.
Variable C : numClosedFieldType.
Variables F Fl : eqType.
Variable K : vcls C F Fl.
Variable R : K -> K -> Prop.
Hypothesis HR : forall (o o' : K) f z fl, R o o' ->
  (ogetS f z fl o').2 = (ogetS f z fl o).2 /\ R (ogetS f z fl o).1 (ogetS f z fl o').1.
Notation circ := (circ K).

(** d: the copy with p taken off the ports but not off Portnames *)
Definition bad (p : string) (d : circ) : Prop := exists c N bs l,
  [/\ d = upd_bp c bs (PGiven l), Inv c N, List.Forall2 (brel R) (blocks c) bs, p \in l &
      [/\ p \notin dkeys (dE c), size (mM c) = nc c & cS c = None]].

Lemma mapM_key (V : Type) (d : seq (string * V)) ps p : p \in ps -> p \notin dkeys d ->
  mapM (dget_exn d) ps = Raise KeyError.
Proof.
move=> Hp Hd; elim: ps Hp => [//|q ps IH]; rewrite inE /= /dget_exn.
case: (p =P q) => [<- _|_ /IH]; first by rewrite (iffRL (dget_None _ _) Hd).
by rewrite /dget_exn => ->; case: (dget d q).
Qed.

Lemma bad_solve p c N bs l f fl : Inv c N -> List.Forall2 (brel R) (blocks c) bs -> p \in l ->
  p \notin dkeys (dE c) -> size (mM c) = nc c -> cS c = None ->
  exists d1 e, [/\ solve_now f fl [::] (upd_bp c bs (PGiven l)) = (d1, Raise e), bad p d1 &
    e = KeyError \/ (loop (fill1 f fl [::]) c (blocks c)).2 = Raise e].
Proof.
move=> HI Hb Hp Hd Hm HS; rewrite /solve_now.
have [bs1 [-> Hb1]] := fill_w HR f fl Hb (PGiven l) Hb.
have Hc := loop_cache f fl [::] c (blocks c).
case E: (loop (fill1 f fl [::]) c (blocks c)) => [c1 r1]; rewrite E in Hb1 Hc; cbn [fst snd] in Hb1, Hc; cbn [fst snd].
have [HI1 [E1 E2 E3 E4 E5]] := fill_any HI E.
have HS1 : cS c1 = None by move: Hc; rewrite /caches => -[_ -> _ _].
have Hm1 : size (mM c1) = nc c1.
  have := v_cnt HI1; rewrite E1 E3 (v_nc HI1) E4 -(v_nc HI) => H1; have := v_cnt HI; rewrite Hm; lia.
have Hbad : bad p (upd_bp c1 bs1 (PGiven l)) by exists c1, N, bs1, l; split=> //; rewrite E1.
case: r1 E => [u|e] E; cbn [fst snd]; last by exists (upd_bp c1 bs1 (PGiven l)), e; split=> //; right.
exists (upd_bp c1 bs1 (PGiven l)), KeyError; split=> //; last by left.
have -> : extS (upd_bp c1 bs1 (PGiven l)) = (upd_bp c1 bs1 (PGiven l), Raise KeyError) => //.
rewrite /extS /close /=; rewrite Hm1 eqxx; cbn [fst snd]; rewrite /portnames /=.
by rewrite (mapM_key (d := dE c1) Hp) // E1.
Qed.

Lemma bad_get p d f z fl : bad p d -> bad p (get1S f z [::] fl d).1 /\ is_ok (get1S f z [::] fl d).2 = false.
Proof.
case=> c [N [bs [l [-> HI Hb Hp [Hd Hm HS]]]]].
have [d1 [e [E H1 _]]] := bad_solve f fl HI Hb Hp Hd Hm HS.
by rewrite /get1S; have -> : cS (upd_bp c bs (PGiven l)) = None by []; rewrite orbT E.
Qed.

Lemma bad_ask p q d : bad p d -> bad p (ask q d).1 /\ is_ok (ask q d).2 = false.
Proof.
move=> H; case: q => [f z fl|f E z fl] /=.
  by have := bad_get f z fl H; case: (get1S f z [::] fl d) => d1 [Sm|e] [].
rewrite /Solution1 /sol_vec; case: (mapM _ _) => [Ea|e] //=.
set zz := if z == 0 then _ else _; have := bad_get f zz fl H.
by case: (get1S f zz [::] fl d) => d1 [Sm|e] [].
Qed.
Lemma bad_asks p qs : forall d, bad p d -> ~~ has (fun r => is_ok r) (asks qs d).2.
Proof.
elim: qs => [//|q qs IH] d H /=; have [H1 ->] := bad_ask q H; exact: IH.
Qed.

(** terminate, on a circuit that differs in its blocks' objects and Portnames only *)
Lemma consume_upd (c : circ) bs p q : consume (upd_bp c bs p) q = (upd_bp (consume c q).1 bs p, (consume c q).2).
Proof.
rewrite /consume; have -> : ports (upd_bp c bs p) = ports c by [].
have -> : xpos (upd_bp c bs p) = xpos c by [].
case: (lindex _ _) => // k; case: (lpop _ _) => // l; by case: (lpop _ _).
Qed.
Lemma term_upd (c : circ) bs p q kw : terminate (upd_bp c bs p) q kw = (upd_bp (terminate c q kw).1 bs p, (terminate c q kw).2).
Proof.
rewrite /terminate; have -> : zb (upd_bp c bs p) = zb c by [].
case: (rho_of _ _) => // rho; have -> : dT (upd_bp c bs p) = dT c by [].
case: (dget (dT c) q) => [[[iA iB] e]|] //; have -> : dE (upd_bp c bs p) = dE c by [].
have -> : waves (upd_bp c bs p) = waves c by [].
case: (dget (dE c) q) => [e|].
  case: (lindex _ _) => // iA; case: (lindex _ _) => // iB.
  set c1 := with_dicts _ _ _ _; set c2 := with_dicts _ _ _ _.
  have -> : c1 = upd_bp c2 bs p by [].
  by rewrite consume_upd; case: (consume c2 q) => c3 [].
rewrite consume_upd; case: (consume c q) => c1 [u|e] //; cbn [fst snd].
have -> : waves (upd_bp c1 bs p) = waves c1 by [].
by case: (lindex _ _) => // iA; case: (lindex _ _).
Qed.
Lemma term_blocks (c : circ) q kw : blocks (terminate c q kw).1 = blocks c.
Proof.
have Hc (c1 : circ) : blocks (consume c1 q).1 = blocks c1.
  by rewrite /consume; case: (lindex _ _) => // k; case: (lpop _ _) => // l; case: (lpop _ _).
rewrite /terminate; case: (rho_of _ _) => // rho; case: (dget _ _) => [[[iA iB] e]|] //.
case: (dget _ _) => [e|].
  case: (lindex _ _) => // iA; case: (lindex _ _) => // iB; set c1 := with_dicts _ _ _ _.
  by have := Hc c1; case: (consume c1 q) => c2 [].
have := Hc c; case: (consume c q) => c1 [u|e] //; cbn [fst snd] => <-.
by case: (lindex _ _) => // iA; case: (lindex _ _).
Qed.
Lemma term_E (c : circ) p kw c2 : terminate c p kw = (c2, Ok tt) -> p \notin dkeys (dT c) -> p \in dkeys (dE c) ->
  dE c2 = ddel (dE c) p /\ size (ports c2) = (size (ports c)).-1.
Proof.
rewrite /terminate; case: (rho_of _ _) => // rho H HT HE; move: H.
rewrite (iffRL (dget_None _ _) HT); case E: (dget (dE c) p) => [e|]; last by move/dget_None: E; rewrite HE.
case: (lindex _ _) => // iA; case: (lindex _ _) => // iB; set c1 := with_dicts _ _ _ _.
have -> : ports c = ports c1 by []; have -> : ddel (dE c) p = dE c1 by [].
rewrite /consume; case El: (lindex _ _) => [k|] //; case Ep: (lpop _ _) => [l|] //; case: (lpop (xpos c1) k) => // xs [<-].
split=> //=; move: Ep; rewrite /lpop; case: ifP => // Hk [<-].
by rewrite size_cat size_take size_drop; move: Hk; case: ifP; lia.
Qed.
End T.

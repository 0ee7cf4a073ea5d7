(** C18, second part: set and getS(params=...) between the other calls. *)
From mathcomp Require Import all_ssreflect all_algebra.
From mathcomp Require Import algebra_tactics.ring.
From Coq Require Import String Ascii.
From Coq Require List.
From Verif Require Import Base MxLib ConvModel ConvSpec ConvProofs ConvArr CircModel CircSpec CircLib CircInv CircTerm CircApp CircConn CircAdd CircDe CircFill CircSolve CircExt CircHist CircGet CircMain CircOrd CircThm CircThm2 CircThm3 CircThm4 CircThm5 CircDev CircThm6 CircEx CircSetP CircSetX.
Set Implicit Arguments.
Unset Strict Implicit.
Unset Printing Implicit Defensive.
Import Order.TTheory GRing.Theory Num.Theory.
Local Open Scope string_scope.
Local Open Scope ring_scope.
Local Open Scope seq_scope.

Section C18S.
Variable C : numClosedFieldType.
Variables F Fl : eqType.
Variable K : vcls C F Fl.
Variable nan : C.
Variable getpos : circ K -> string -> res C.
Notation circ := (circ K).
Notation reachX := (reachX nan getpos).
Implicit Types (c : circ) (h : seq (event K)).

(** in any history of building calls, getS, set and getS(params=...), getS gives the
    matrix of the network as it is now: the objects are those the last set or
    addblock made *)
Theorem C18_sets_and_params z ns h c f z' fl c' r : set_keeps K -> pos_plain getpos ->
  reachX z ns h c -> may_ask h f fl -> get1S f z' [::] fl c = (c', r) ->
  match r with
  | Ok Sm => net_S z (zreq z' z) (net_hist h) f fl (ports c') Sm /\ well_posed z (net_hist h) f fl
  | Raise e => causes z z' ns (net_hist h) (ports c) f fl e
  end.
Proof.
move=> Hk Hp Hx Hm Hg; have [c0 [Hr Hs]] := reachX_reach Hp Hk Hx.
have [E2 Es] := sim_get f z' [::] fl Hs; rewrite Hg /= in E2 Es.
case Eg: (get1S f z' [::] fl c0) E2 Es => [c2 r2] /= E2 Es; subst r2.
have Ep (c1 c3 : circ) : sim c1 c3 -> ports c1 = ports c3.
  by case=> [->//|[_ _ [a [b [d [e ->]]]]]].
by have := thm_C12 Hr Hm Eg; rewrite (Ep _ _ Es) (Ep _ _ Hs).
Qed.

(** getS(f, params=...) for a frequency that is not the stored one: the matrix of the
    network with the modified objects *)
Theorem C18_params z ns h c prms f z' fl c' Sm : set_keeps K -> pos_plain getpos ->
  reachX z ns h c -> may_ask h f fl -> recomputes c f fl ->
  (forall nm b p, dget (blocks c) nm = Some b -> dget prms nm = Some p ->
     (oset p (bobj b)).2 = Ok tt) ->
  get1S f z' prms fl c = (c', Ok Sm) ->
  net_S z (zreq z' z) (net_hist (h ++ set_events c (param_sets c prms))) f fl (ports c') Sm.
Proof.
move=> Hk Hp Hx Hm Hre Hset Hg.
have [c0 [Hr Hs]] := reachX_reach Hp Hk Hx; have Eb := sim_blocks Hs.
have [E2 Es] := sim_get f z' prms fl Hs; rewrite Hg /= in E2 Es.
case Eg: (get1S f z' prms fl c0) E2 Es => [c2 rr] /= E2 Es; subst rr.
have Hre0 : recomputes c0 f fl.
  by case: Hs => [->//|[H1 _ _]]; rewrite /recomputes H1 orbT.
have [|c3 [H1 H2 H3]] := get_params Hk Hr Hre0 _ Eg.
  by move=> nm b p; rewrite Eb; apply: Hset.
have Eps : param_sets c prms = param_sets c0 prms by rewrite /param_sets Eb.
have Hm3 : may_ask (h ++ set_events c0 (param_sets c0 prms)) f fl.
  have [E1 E3] := past_sets h c0 (param_sets c0 prms).
  move: Hm; rewrite /may_ask E1; case: (reterm (past_of (h ++ _))) E3 => //= E3.
  by rewrite (E3 isT).
have [HN _] := thm_C12 H1 Hm3 H2.
have Ep : ports c2 = ports c' by case: Es => [->//|[_ _ [a [b [d [e ->]]]]]].
by rewrite Eps -(sim_events _ Hs) -Ep.
Qed.

(** at the stored frequency and flags params= is ignored *)
Theorem C18_params_ignored f z' fl c prms : ~~ recomputes c f fl ->
  get1S f z' prms fl c = get1S f z' [::] fl c.
Proof. by rewrite /get1S /recomputes => /negbTE ->. Qed.

Theorem C18_stored f z' prms0 fl c c1 Sm : get1S f z' prms0 fl c = (c1, Ok Sm) -> ~~ recomputes c1 f fl.
Proof.
rewrite /get1S /recomputes; case: ifP => Hn; last by case: (cS c) => [S0|] //= [<- _]; rewrite Hn.
case Es: (solve_now f fl prms0 c) => [c2 [S2|x]] //= [<- _].
move: Es; rewrite /solve_now; case: (loop _ _ _) => c3 [u|x] //=.
by case: (extS c3) => c4 [S4|x] //= [<- _]; rewrite /= !eqxx.
Qed.
End C18S.

(** ** witness: reflecting one-ports whose reflection coefficient can be set *)
Section Wit.
Variable C : numClosedFieldType.
Notation z50 := (z50 C).
Definition r_ocls : ocls C nat_eqType unit_eqType := {|
  ocar := C; osize := fun _ => 1%N; oports := fun _ => Some [:: "1"]; oxpos := fun _ => None;
  oprm := C; oset := fun p _ => (p, Ok tt);
  ogetS := fun f z fl o => (o, rebase z z50 [:: [:: o]]) |}.
Definition KR : vcls C nat_eqType unit_eqType.
Proof.
refine (@Vcls C nat_eqType unit_eqType r_ocls (fun _ => True)
          (fun o _ _ v i => rel_S z50 1 [:: [:: o]] v i) _ _ _).
- by move=> o f fl v i v' i' H; exact: rel_S_ext.
- by [].
move=> o f z fl _ Hz /=; split=> //.
move=> Sm Eb.
have [Hs HS] := rebase_ok (z50_0 C) (isT : shape_ok 1 [:: [:: o]]) Eb; split=> // v i.
have Ez : zreq z z50 = z by rewrite /zreq (negbTE Hz).
by rewrite Ez in HS; rewrite HS.
Defined.

Lemma KR_keeps : set_keeps KR. Proof. by []. Qed.
Definition gpR : circ KR -> string -> res C := fun _ _ => Ok 0.
Lemma gpR_plain : pos_plain gpR. Proof. by []. Qed.

Notation AddR r := ((@OAdd C nat_eqType unit_eqType KR "a" (r : C) PNone 0, true) : event KR).

Lemma exR (r : C) : exists2 c, reach 0 gpR z50 [::] [:: AddR r] c & forall f, exists c' S, get1S f 0 [::] tt c = (c', Ok S).
Proof.
case E: (run 0 gpR (new_circ KR z50 [::]) [:: AddR r]) => [c|//].
have Hr : reach 0 gpR z50 [::] [:: AddR r] c.
  split=> //; first exact: z50_0.
  by split=> //; split=> //; right; split=> // ps [<-].
exists c => // f; apply: (getS_returns (h := [:: AddR r]) Hr) => //.
- by left.
- by move=> e [nm [ps [o [o' [_ _ _]]]]]; rewrite /= /rebase eqxx orbT.
- by exists "a.1".
case=> v [i [[Hb _ _ _ _] Hf [p Hp Hne]]]; have Hb1 := List.Forall_inv Hb.
have E4 : v "a.1" + z50 * i "a.1" = 0 by apply: Hf.
have E5 : v "a.1" - z50 * i "a.1" = 0.
  have := Hb1 0%N isT; rewrite big_ord_recl big_ord0 /= E4 mul0r mulr0 addr0 => E5.
  by apply: (mulIf (invr_neq0 (two_0 C))); rewrite E5 mul0r.
have [E7 E8] := zero_vi E4 E5.
by move: Hp Hne; rewrite !inE => /eqP ->; rewrite E7 E8 eqxx.
Qed.

(** block a with reflection 1/2, getS(params a = 1/4) at 7, then set a to 1/3: three
    different networks *)
Example C18_sets_witness : exists c1 c2 S c3 h2 h3,
  [/\ reachX 0 gpR z50 [::] [:: AddR (2%:R^-1)] c1, recomputes c1 7%N tt,
      get1S 7%N 0 [:: ("a", (4%:R^-1 : C) : oprm KR)] tt c1 = (c2, Ok S),
      [/\ reachX 0 gpR z50 [::] h2 c2, net_hist h2 = net_hist [:: AddR (4%:R^-1)] :> net KR &
           ~~ recomputes c2 7%N tt] &
      [/\ set_all (c2 : circ KR) [:: ("a", (3%:R^-1 : C) : oprm KR)] = (c3, Ok tt), reachX 0 gpR z50 [::] h3 c3,
          net_hist h3 = net_hist [:: AddR (3%:R^-1)] :> net KR & may_ask h3 7%N tt]].
Proof.
have [c0 [_ _ /= [E0]] Hg] := exR (4%:R^-1); have [c2 [S E]] := Hg 7%N.
pose c1 : circ KR := (addblock 0 (new_circ KR z50 [::]) "a" (2%:R^-1 : C) PNone 0).1.
have H1 : reachX 0 gpR z50 [::] [:: AddR (2%:R^-1)] c1.
  apply: (@X_call _ _ _ _ 0 gpR z50 [::] [::] _ (OAdd "a" ((2%:R^-1 : C) : KR) PNone 0) true c1 (X_new _ _ _ (z50_0 C))) => //.
  by split=> //; right; split=> // ps [<-].
have E2 : get1S 7%N 0 [:: ("a", (4%:R^-1 : C) : oprm KR)] tt c1 = (c2, Ok S).
  by rewrite -E -E0.
have H2 := @X_params _ _ _ _ 0 gpR z50 [::] _ c1 _ 7%N 0 tt c2 S H1 isT isT
   (fun _ _ _ _ _ => erefl _) E2.
have Hb : dget (blocks c2) "a" <> None.
  have [c2' [Hr Hs]] := reachX_reach gpR_plain KR_keeps H2.
  have HI := ci_inv (reach_CI Hr); rewrite -(sim_blocks Hs) => Hn.
  have := blk_keys HI; move/(congr1 (fun s => "a" \in s)); rewrite -dhasE /dhas Hn.
  by [].
have Hm := C18_stored E2.
case Eb: (dget (blocks c2) "a") Hb => [b|//] _.
have Es : exists c3, set_all (c2 : circ KR) [:: ("a", (3%:R^-1 : C) : oprm KR)] = (c3, Ok tt).
  by rewrite /set_all /= /set_blk Eb /=; eexists.
have [c3 E3] := Es.
have H3 := X_set H2 E3.
exists c1, c2, S, c3; do 2!eexists; split; [exact: H1|by []|exact: E2| |].
  by split; [exact: H2| |].
split; [exact: E3|exact: H3| |].
  by rewrite /= Eb.
by rewrite /= Eb.
Qed.
End Wit.

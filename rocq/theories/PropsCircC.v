(** C54: copies of circuits (copy.copy, copy.deepcopy, circuit.copy()). *)
From mathcomp Require Import all_ssreflect all_algebra.
From mathcomp Require Import zify.
From Coq Require Import String Ascii.
From Coq Require List.
From Verif Require Import Base MxLib ConvModel ConvSpec ConvProofs ConvArr CircModel CircSpec CircLib CircInv CircTerm CircApp CircConn CircAdd CircDe CircFill CircSolve CircExt CircHist CircGet CircMain CircOrd CircThm CircThm2 CircThm3 CircThm4 CircThm5 CircMaxV CircNest CircFlat CircDev CircThm6 CircEx CircCopy CircCopyT.
Set Implicit Arguments.
Unset Strict Implicit.
Unset Printing Implicit Defensive.
Import Order.TTheory GRing.Theory Num.Theory.
Local Open Scope string_scope.
Local Open Scope ring_scope.
Local Open Scope seq_scope.

Section Thms.
Variable C : numClosedFieldType.
Variables F Fl : eqType.
Variable K : vcls C F Fl.
Variable nan : C.
Variable getpos : forall K' : vcls C F Fl, circ K' -> string -> res C.
Notation deep := (deep K nan getpos).
Notation reach := (CircHist.reach nan (@getpos _)).
Notation copy n := (copy_circ (@dupn C F Fl K nan getpos n)).

(** ** C54 *)
(** Whatever was done with a circuit (of devices and circuits, nested to any depth), its copy
    answers any sequence of getS and Solution calls exactly as the circuit would, results and
    exceptions. *)
Theorem C54_same n (c : circ (deep n)) (qs : seq (question C F Fl)) : (asks qs (copy n c)).2 = (asks qs c).2.
Proof. exact: copy_same. Qed.

(** So the first S-matrix it returns is that of the network the calls on the original
    describe. *)
Theorem C54_law n z ns h (c : circ (deep n)) f z' fl d' S : reach z ns h c -> may_ask h f fl ->
  get1S f z' [::] fl (copy n c) = (d', Ok S) ->
  net_S z (if z' == 0 then z else z') (net_hist h) f fl (ports d') S.
Proof.
move=> Hr Hm G; have Hs := @copy_sim C F Fl (deep n) (@simn _ _ _ K nan getpos n) (@dupn _ _ _ K nan getpos n) c (@simn_dup _ _ _ K nan getpos n).
have := get_sim (@simn_get _ _ _ K nan getpos n) f z' fl Hs; rewrite G.
case Gc: (get1S f z' [::] fl c) => [c' r] /= [Er [bs [p [-> _ _]]]]; rewrite -Er in Gc.
have [H1 _] := thm_C12 Hr Hm Gc; exact: H1.
Qed.

(** A circuit of devices that was not solved yet has a copy that cannot be told from it by
    anything called afterwards. *)
Theorem C54_before z ns h (c : circ K) : CircHist.reach nan (@getpos K) z ns h c ->
  ~~ has (fun e => if e.1 is OGetS _ _ _ then true else false) h -> copy_circ id c = c.
Proof.
move=> Hr Hh; have Ht : tried (past_of h) = false.
  rewrite /past_of; suff H g N : tried g = false -> tried (past_from N g h) = false by exact: H.
  elim: h g N {Hr} Hh => [//|[o ok] h IH] g N /= ; rewrite negb_or => /andP[Ho Hh] Hg.
  by apply: IH => //; case: o Ho.
have := oi_t (reach_OI Hr) Ht; case: c {Hr Ht Hh} => a1 a2 a3 a4 a5 a6 a7 a8 a9 a10 a11 a12 a13 a14 a15 a16 /= ->.
rewrite /copy_circ /upd_bp /with_pn /with_blocks /=; have -> // : map (copy_blk id) a8 = a8.
by elim: a8 => [//|[nm [b1 b2 b3 b4]] bs IH] /=; rewrite IH.
Qed.

(** But not once it was solved: a port terminated on the copy of a circuit that has been
    solved stays in Portnames, which is a list of its own in the copy; from then on nothing
    the copy is asked is answered, and where the original, with the same load on the same
    port, returns an S-matrix (C16), the copy raises KeyError. *)
Theorem C54_terminated_refuted n z ns h (c : circ (deep n)) f0 z0 fl0 c1 S0 p kw d2 :
  reach z ns h c -> may_ask h f0 fl0 -> get1S f0 z0 [::] fl0 c = (c1, Ok S0) -> p \in ports c1 ->
  terminate (copy n c1) p kw = (d2, Ok tt) ->
  (forall qs : seq (question C F Fl), ~~ has (fun r => is_ok r) (asks qs d2).2) /\
  exists c2, terminate c1 p kw = (c2, Ok tt) /\
    forall f z' fl c3 S, get1S f z' [::] fl c2 = (c3, Ok S) -> exists d3, get1S f z' [::] fl d2 = (d3, Raise KeyError).
Proof.
move=> Hr Hm G Hp.
have HR := @simn_get _ _ _ K nan getpos n.
have [D _ _ [_ _ _ [_ Epn] [S1 [iM [ES _ _ _ _]]]]] := get1S_CI (reach_CI Hr) Hm G.
have [Hcl _ _] := ci_S D ES.
have Hr1 : reach z ns (rcons h (@OGetS C F Fl (deep n) f0 z0 fl0, true)) c1.
  by apply: (@reach_snoc _ _ _ _ _ _ _ _ h c (@OGetS C F Fl (deep n) f0 z0 fl0) true c1 Hr) => //; rewrite /exec G.
rewrite /copy_circ Epn term_upd; case T: (terminate c1 p kw) => [c2 r2] [Ed Er]; subst r2.
have Hr2 : reach z ns (rcons (rcons h (@OGetS C F Fl (deep n) f0 z0 fl0, true)) (OTerm (deep n) p kw, true)) c2.
  by apply: (@reach_snoc _ _ _ _ _ _ _ _ _ c1 (OTerm (deep n) p kw) true c2 Hr1) => //; rewrite /exec T.
have HI1 := ci_inv D; have HI2 := ci_inv (reach_CI Hr2).
have Hfree : free (net_hist h) p by rewrite -(v_fp HI1).
have HnT : p \notin dkeys (dT c1).
  rewrite (v_T HI1); move: Hfree; rewrite /free /used => /andP[_]; rewrite !mem_cat !negb_or.
  by case/and4P.
have [_] := term_frame T; rewrite (negbTE HnT) => -[HS2 _].
have HbE : p \in dkeys (dE c1) by case: Hcl => _ -> _.
have Hfull : p \notin dkeys (dE c2) /\ size (mM c2) = nc c2.
  have [HdE Hsz] := term_E T HnT HbE; split.
    rewrite HdE; apply/dget_None; rewrite dget_ddel ?eqxx //; exact: (v_uE HI1).
  have := v_cnt HI2; rewrite Hsz HdE size_ddel //.
  have : size (dE c1) = size (ports c1).
    rewrite -(size_map fst); apply/eqP; rewrite -uniq_size_uniq ?(v_uE HI1) ?(v_up HI1) //.
    by case: Hcl => _ H _ q; rewrite H.
  by move=> ->; move/addIn ->.
have HB : List.Forall2 (brel (@simn _ _ _ K nan getpos n)) (blocks c2) (map (copy_blk (@dupn _ _ _ K nan getpos n)) (blocks c1)).
  have -> : blocks c2 = blocks c1 by have := term_blocks c1 p kw; rewrite T.
  elim: (blocks c1) => [|nb bs IH]; first exact: List.Forall2_nil.
  by apply: List.Forall2_cons; [split=> //; exact: (@simn_dup _ _ _ K nan getpos n)|exact: IH].
rewrite -Ed; split=> [qs|].
  by apply: (bad_asks HR (p := p)); do 4 eexists; split; [reflexivity|exact: HI2|exact: HB|exact: Hp|case: Hfull].
exists c2; split=> // f z' fl c3 S G2.
have [d3 [e [E3 _ He]]] := bad_solve HR f fl HI2 HB Hp Hfull.1 Hfull.2 HS2.
exists d3; move: G2; rewrite /get1S HS2; cbn [cS upd_bp with_pn with_blocks]; rewrite HS2 orbT E3; cbn [fst snd].
rewrite /solve_now; case: He => [->|Hl]; first by [].
by rewrite Hl.
Qed.
End Thms.

(** a through block, solved, its second port terminated with reflection 1/2: the circuit then
    returns an S-matrix, its copy raises KeyError *)
Example C54_witness (C : numClosedFieldType) :
  let KT := KT C in let gpn := fun (K' : vcls C nat_eqType unit_eqType) (_ : circ K') (_ : string) => Ok (0 : C) in
  exists (c c1 c2 d2 c3 : circ KT) S0 S3,
  [/\ CircHist.reach 0 (@gpn KT) (z50 C) [::] (hB C) c, get1S 7%N 0 [::] tt c = (c1, Ok S0), "a.2" \in ports c1,
      terminate (copy_circ (@dupn C _ _ KT 0 gpn 0) c1) "a.2" [:: ("RC", 2%:R^-1)] = (d2, Ok tt) &
      [/\ terminate c1 "a.2" [:: ("RC", 2%:R^-1)] = (c2, Ok tt), get1S 7%N 0 [::] tt c2 = (c3, Ok S3) &
          exists d3, get1S 7%N 0 [::] tt d2 = (d3, Raise KeyError)]].
Proof.
move=> KT gpn; have [c Hr] := exB C [::]; have [c1 [S E]] := getB 7%N Hr.
have Hr1 : CircHist.reach 0 (gp (C:=C)) (z50 C) [::] [:: Add "a" (thru C); GetS C] c1.
  by apply: (@reach_snoc _ _ _ _ _ _ _ _ (hB C) c (@OGetS C nat_eqType unit_eqType KT 7%N 0 tt) true c1 Hr);
   rewrite // /exec E.
have [|c2 Et] := @term_ok C nat_eqType unit_eqType KT 0 (gp (C:=C)) (z50 C) [::] [:: Add "a" (thru C); GetS C] c1 "a.2" [:: ("RC", 2%:R^-1)] 2%:R^-1 Hr1 isT.
  by rewrite /rho_of.
have Hr2 : CircHist.reach 0 (gp (C:=C)) (z50 C) [::] (hD C) c2.
  apply: (@reach_snoc _ _ _ _ _ _ _ _ [:: Add "a" (thru C); GetS C] c1 (@OTerm C nat_eqType unit_eqType KT "a.2" [:: ("RC", 2%:R^-1)]) true c2 Hr1) => //.
  by rewrite /exec Et.
have [c3 [S3 G3]] := getD 7%N Hr2.
have Hp : "a.2" \in ports c1 by rewrite (v_fp (ci_inv (reach_CI Hr1))).
case Ed: (terminate (copy_circ (@dupn C _ _ KT 0 gpn 0) c1) "a.2" [:: ("RC", 2%:R^-1)]) => [d2 r2].
have Er : r2 = Ok tt by move: Ed; rewrite /copy_circ term_upd Et => -[_ <-].
rewrite Er in Ed.
have [_ [c2' [Et' H]]] := @C54_terminated_refuted C _ _ KT 0 gpn 0 (z50 C) [::] (hB C) c 7%N 0 tt c1 S "a.2" [:: ("RC", 2%:R^-1)] d2 Hr isT E Hp Ed.
have E2 : c2' = c2 by move: Et'; rewrite Et => -[].
exists c, c1, c2, d2, c3, S, S3; split=> //; split=> //.
by rewrite E2 in H; exact: H G3.
Qed.

(** The solutions of a network whose getS returned form a vector space. *)
From mathcomp Require Import all_ssreflect all_algebra.
From mathcomp Require Import zify algebra_tactics.ring.
From Coq Require Import String Ascii.
From Coq Require List.
From Verif Require Import Base MxLib ConvModel ConvSpec ConvProofs ConvArr CircModel CircSpec CircLib CircInv CircTerm CircApp CircConn CircAdd CircDe CircFill CircSolve CircExt CircHist CircGet CircMain CircOrd CircThm CircThm2 CircThm3 CircThm4 CircMaxV CircNest CircFlat.
Set Implicit Arguments.
Unset Strict Implicit.
Unset Printing Implicit Defensive.
Import Order.TTheory GRing.Theory Num.Theory.
Local Open Scope string_scope.
Local Open Scope ring_scope.
Local Open Scope seq_scope.

Section Lin.
Variable C : numClosedFieldType.
Variables F Fl : eqType.
Variable K : vcls C F Fl.
Variable nan : C.
Variable getpos : circ K -> string -> res C.
Notation circ := (circ K).
Notation net := (net K).
Notation reach := (reach nan getpos).
Notation exec := (exec nan getpos).
Notation run := (run nan getpos).
Implicit Types (c : circ) (N : net) (h : seq (event K)).

(** getS of the object has returned for f and fl *)
Definition ret (f : F) (fl : Fl) (o : K) : Prop := exists o' z S,
  [/\ after_getS o o', oinv o', z != 0 & (ogetS f z fl o').2 = Ok S].
Definition rets f fl N : Prop := forall nm ps o, List.In (nm, (ps, o)) (nblk N) -> ret f fl o.

Lemma fill_ret_loop f fl c N bs c' : Inv c N -> uniq (dkeys bs) ->
  (forall nm b, List.In (nm, b) bs -> dget (blocks c) nm = Some b) ->
  loop (fill1 f fl [::]) c bs = (c', Ok tt) ->
  forall nm ps o, nm \in dkeys bs -> List.In (nm, (ps, o)) (nblk N) -> ret f fl o.
Proof.
elim: bs c => [|[nm b] bs IH] c HI Hu Hbs; rewrite ?loop_cons //.
have Hb : dget (blocks c) nm = Some b by apply: Hbs; left.
case E1: (fill1 _ _ _ _ _) => [c1 r1] /=.
have [HI1 Hf1 Hbl1] := fill1_any HI Hb E1.
case: r1 E1 => [u|e1] E1 //=.
move: Hu => /= /andP[Hn Hu] El nm1 ps1 o1; rewrite in_cons => /orP[/eqP -> Hin|]; last first.
  apply: IH El _ _ _ => // nm' b' Hin.
  rewrite Hbl1; first by apply: Hbs; right.
  apply/eqP => E; move: Hn; rewrite -E -[_ \in _]/(nm' \in dkeys bs).
  by rewrite (dget_keys (In_dget Hu Hin)).
have [ps [o0 [Hnb [_ /= Eps Hoi Heq [Hsz Hup]] _]]] := Forall2_dget (v_blk HI) Hb.
have Eo : o1 = o0 by have := In_dget (v_ub HI) Hin; rewrite Hnb => -[_ ->].
move: E1; rewrite /fill1 /=; case Eg: (ogetS f (zb c) fl (bobj b)).2 => [Sm|//] _.
exists (bobj b), (zb c), Sm; split=> //; [rewrite Eo; exact: Heq.1|exact: (v_zb HI)].
Qed.

Lemma fill_ret f fl c N c' : Inv c N -> loop (fill1 f fl [::]) c (blocks c) = (c', Ok tt) -> rets f fl N.
Proof.
move=> HI El nm ps o Hin; apply: (fill_ret_loop HI _ _ El _ Hin).
- by rewrite (blk_keys HI) (v_ub HI).
- by move=> q b; apply: In_dget; rewrite (blk_keys HI) (v_ub HI).
- by rewrite (blk_keys HI); apply/memP; exists (nm, (ps, o)).
Qed.

Lemma solve_ret f fl c N c' S : Inv c N -> solve_now f fl [::] c = (c', Ok S) -> rets f fl N.
Proof.
move=> HI; rewrite /solve_now; case El: (loop _ c (blocks c)) => [c1 [[]|e]] //= _.
exact: fill_ret HI El.
Qed.

(** what a stored result says about the blocks *)
Definition LB c N : Prop := forall S f fl, cS c = Some S -> cf c = Some f -> cfl c = Some fl -> rets f fl N.

Lemma get_LB z c N g f z' fl c' r : CI z c N g -> LB c N -> get1S f z' [::] fl c = (c', r) ->
  LB c' N /\ forall S, r = Ok S -> rets f fl N.
Proof.
move=> HC HL; have HI := ci_inv HC; rewrite /get1S; case: ifP => [Hneed|Hhit].
  case Es: (solve_now _ _ _ _) => [c1 [S1|e]] /= [<- <-].
    have Hret := solve_ret HI Es.
    have [_ _ _ _ [_ _ [E1 E2 E3] _ _ _ _]] := solve_ok HI Es.
    by split=> // S2 f2 fl2 _; rewrite E2 E3 => -[<-] [<-].
  have [_ _ _ _ [E1 E2 E3 _ _]] := solve_ok HI Es.
  split=> // S2 f2 fl2; rewrite E1 E2; case: E3 => ->; [by []|exact: HL].
move/negbT: Hhit; rewrite !negb_or !negbK => /andP[/andP[/eqP Ef Hs] /eqP Efl].
case EcS: (cS c) Hs => [Sm|//] _ /= [<- <-]; split=> // S _.
exact: (HL Sm).
Qed.

Lemma step_LB z c N g o ok c' : CI z c N g -> LB c N -> ev_ok N g (o, ok) ->
  exec c o = (c', ok) -> LB c' (net_step N o).
Proof.
move=> HC HL Hok; have HI := ci_inv HC.
case: o Hok => [nm ob pa x|ps|p kw|ints exts|f z' fl] /=.
- case=> -> _ _; case E: (addblock _ _ _ _ _ _) => [c1 [[]|//]] /= [<-].
  by have [E1 _] := addblock_frame E => S f fl; rewrite E1.
- case=> -> _; case E: (connect _ _ _) => [c1 [[]|//]] /= [<-].
  by have [E1 _] := connect_frame E => S f fl; rewrite E1.
- move=> ->; case E: (terminate _ _ _) => [c1 [[]|//]] /= [<-].
  have [_ ] := term_frame E; case: ifP => _; last by case=> E1 _ S f fl; rewrite E1.
  case=> -[E1 E2 E3 _ _] _ S f fl; rewrite E1 E2 E3 => A B D nm ps o Hin.
  exact: (HL _ _ _ A B D nm ps o).
- case=> -> _ _ _; case E: (deembed _ _ _) => [c1 [[]|//]] /= [<-].
  by have [E1 _] := deembed_frame E => S f fl; rewrite E1.
- move=> _; case E: (get1S _ _ _ _ _) => [c1 r] /= [<- _].
  by have [] := get_LB HC HL E.
Qed.

Lemma run_LB z c N g h c' : CI z c N g -> LB c N -> hist_ok_from N g h -> run c h = Some c' ->
  LB c' (foldl (@net_step C F Fl K) N (map fst h)).
Proof.
elim: h c N g => [|[o ok] h IH] c N g HC HL /=; first by move=> _ [<-].
case=> H1 H2; case E: (exec _ _) => [c1 ok1] /=; case: eqP => // Eok Hr.
rewrite Eok in E; exact: IH (step_CI HC H1 E) (step_LB HC HL H1 E) H2 Hr.
Qed.

Lemma reach_LB z ns h c : reach z ns h c -> LB c (net_hist h).
Proof. by case=> Hz Hh Hr; apply: (run_LB (init_CI K ns Hz) _ Hh Hr). Qed.

(** after a getS that returned, all blocks' getS have returned *)
Lemma get_rets z ns h c f z' fl c' S : reach z ns h c ->
  get1S f z' [::] fl c = (c', Ok S) -> rets f fl (net_hist h).
Proof. by move=> Hr G; have [_] := get_LB (reach_CI Hr) (reach_LB Hr) G; apply. Qed.

(** ** sums *)
Definition mix (s : C) (v v' : asg C) : asg C := fun p => v p + s * v' p.

Lemma after_den (o o' : K) : oinv o -> after_getS o o' ->
  [/\ oinv o', osize o' = osize o & forall f fl v i, oden o' f fl v i <-> oden o f fl v i].
Proof.
move=> Ho; elim=> [|x f z fl Hz _ [Hi Es Hd]] //.
have [H1 H2 _ H3 _] := oget_law f fl Hi Hz; split=> //; first by rewrite H2.
by move=> f' fl' v i; rewrite H3 Hd.
Qed.

Lemma ret_lin f fl (o : K) s (v i v' i' : vi C) : oinv o -> ret f fl o -> oden o f fl v i -> oden o f fl v' i' ->
  oden o f fl (fun k => v k + s * v' k) (fun k => i k + s * i' k).
Proof.
move=> Ho [o' [z [S [Ha Hi Hz Eg]]]]; have [_ Es Hd] := after_den Ho Ha.
have [_ _ _ _ /(_ _ Eg) [_ Hr]] := oget_law f fl Hi Hz.
rewrite -!Hd !Hr => H1 H2 k Hk.
have E (a b x y : C) : ((a + s * b) - z * (x + s * y)) / 2%:R = (a - z * x) / 2%:R + s * ((b - z * y) / 2%:R).
  by rewrite mulrA -mulrDl; congr (_ / _); ring.
have E' (a b x y : C) : ((a + s * b) + z * (x + s * y)) / 2%:R = (a + z * x) / 2%:R + s * ((b + z * y) / 2%:R).
  by rewrite mulrA -mulrDl; congr (_ / _); ring.
rewrite E (H1 k Hk) (H2 k Hk) mulr_sumr -big_split; apply: eq_bigr => j _ /=.
by rewrite E' mulrDr (mulrCA (nth _ _ _) s).
Qed.

Lemma sat_mix z ns h c f z' fl c' S s (v i v' i' : asg C) : reach z ns h c ->
  get1S f z' [::] fl c = (c', Ok S) ->
  sat z (net_hist h) f fl v i -> sat z (net_hist h) f fl v' i' ->
  sat z (net_hist h) f fl (mix s v v') (mix s i i').
Proof.
move=> Hr G [A1 A2 A3 A4 A5] [B1 B2 B3 B4 B5]; have Hret := get_rets Hr G; have Hoi := reach_oinv Hr.
have F2 T (P Q R : T -> Prop) l : List.Forall P l -> List.Forall Q l -> (forall x, List.In x l -> P x -> Q x -> R x) -> List.Forall R l.
  move=> HP HQ HR; apply/List.Forall_forall => x Hx; apply: HR => //.
    exact: (iffLR (List.Forall_forall _ _) HP).
  exact: (iffLR (List.Forall_forall _ _) HQ).
split.
- apply: F2 A1 B1 _ => -[nm [ps o]] Hin HA HB; rewrite /block_law /mix /=.
  apply: (@ret_lin f fl o s) HA HB; last exact: Hret Hin.
  exact: (iffLR (List.Forall_forall _ _) Hoi _ Hin).
- apply: F2 A2 B2 _ => -[ps nw] _ [P1 P2] [Q1 Q2]; split.
    by move=> p q Hp Hq; rewrite /mix /= (P1 p q) // (Q1 p q).
  have Es : \sum_(p <- ps) mix s i i' p = \sum_(p <- ps) i p + s * \sum_(p <- ps) i' p.
    by rewrite mulr_sumr -big_split.
  case: nw P2 Q2 {P1 Q1} => [nw|] /=; last by rewrite Es => -> ->; ring.
  case=> P2 P3 [Q2 Q3]; split; first by move=> p Hp; rewrite /mix (P2 p) // (Q2 p).
  by rewrite Es P3 Q3.
- apply: F2 A3 B3 _ => -[p l] _ /=; rewrite /mix; case: l => l /=.
  + by move=> -> ->; ring.
  + by move=> -> ->; ring.
  + move=> P Q; have -> : v p + s * v' p + z * (i p + s * i' p) = (v p + z * i p) + s * (v' p + z * i' p) by ring.
    by rewrite P Q; ring.
- apply: F2 A4 B4 _ => -[p q] _ [/= P1 P2] [/= Q1 Q2]; split; rewrite /mix /= ?P1 ?Q1 ?P2 ?Q2 //; ring.
- by apply: F2 A5 B5 _ => -[p q] _ [/= P1 P2] [/= Q1 Q2]; split; rewrite /mix /= ?P1 ?Q1 ?P2 ?Q2.
Qed.
End Lin.

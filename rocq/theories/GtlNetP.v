(** rfGTL: states, and what getS leaves alone. *)
From mathcomp Require Import all_ssreflect all_algebra.
From mathcomp Require Import zify.
From Coq Require Import String Ascii.
From Coq Require List.
From Verif Require Import Base MxLib ConvModel ConvSpec ConvProofs ConvArr CircModel CircSpec CircLib CircInv CircTerm CircApp CircConn CircAdd CircDe CircFill CircSolve CircExt CircHist CircGet CircMain CircOrd CircThm CircThm2 CircThm3 CircThm4 CircThm6 CircMaxV CircFlat SetThm GtlNet GtlNetT GtlNetH GtlNetL GtlPos GtlNetA GtlNetB.
Set Implicit Arguments.
Unset Strict Implicit.
Unset Printing Implicit Defensive.
Import GRing.Theory Num.Theory.
Local Open Scope string_scope.
Local Open Scope ring_scope.
Local Open Scope seq_scope.

Arguments gtl_block : simpl never.
Arguments place_loop : simpl never.
Arguments place : simpl never.
Arguments getpos_fuel : simpl never.
Arguments get1S : simpl never.

Section P.
Variable C : numClosedFieldType.
Variables F Fl : eqType.
Variable K : vcls C F Fl.
Variable nan : C.
Notation circ := (circ K).
Notation getp := (@getpos_flat C F Fl K).
Notation reach := (CircHist.reach nan getp).
Notation gtl := (gtl K).
Implicit Types (c : circ) (G : gtl).

Definition pvw c nm := omap (fun b : block K => (bports b, bxpos b)) (dget (blocks c) nm).
Definition same_pos c c' := xpos c' = xpos c /\ forall nm, pvw c' nm = pvw c nm.

Lemma fill_pos f fl bs : forall c c' r, (forall nm b, List.In (nm, b) bs -> pvw c nm = Some (bports b, bxpos b)) ->
  loop (fill1 f fl [::]) c bs = (c', r) -> same_pos c c'.
Proof.
elim: bs => [|[nm b] bs IH] c c' r H; first by rewrite /= => -[<- _].
rewrite loop_cons; case E: (fill1 f fl [::] c (nm, b)) => [c1 r1].
have S1 : same_pos c c1.
  have Hd o q : pvw (with_blocks c (dset (blocks c) nm (Block (bports b) (bloc b) o (bxpos b)))) q = pvw c q.
    rewrite /pvw /= dget_dset; case: eqP => [->|] //=; by rewrite -/(pvw c nm) (H _ _ (or_introl erefl)).
  move: E; rewrite /fill1 /=; set rg := ogetS _ _ _ _; case: (rg.2) => [Sm|e]; last by case=> <- _; split.
  by case: ifP => _ [<- _]; split=> //= q; exact: Hd.
have [X1 P1] := S1; case: r1 E => [[]|e] E /=; last by case=> <- _.
move=> /IH [|X2 P2]; first by move=> nm' b' Hi; rewrite P1; apply: H; right.
by split=> [|q]; rewrite ?X2 ?P2.
Qed.

Lemma close_pos c c' r : close c = (c', r) -> same_pos c c'.
Proof.
have Ha : forall ps c, same_pos c (loop (@add_E C F Fl K) c ps).1.
  elim=> [|p ps IH] d; first by split.
  rewrite loop_cons; case E: (add_E d p) => [d1 r1].
  have S1 : same_pos d d1 by move: E; rewrite /add_E; case: (lindex _ _) => [i|e] [<- _].
  case: r1 E => [[]|e] E //=; have [X1 P1] := S1; have [X2 P2] := IH d1.
  by split=> [|q]; rewrite ?X2 ?P2.
rewrite /close; case: ifP => _; first by case=> <- _; split.
have Hw d ps e r' : loop (@add_E C F Fl K) d ps = (e, r') -> same_pos c d -> same_pos c e.
  by move=> E [X1 P1]; have [X2 P2] := Ha ps d; rewrite E in X2 P2; split=> [|q]; rewrite ?X2 ?P2.
cbn [pn with_cache]; case: (pn _) => [[|n l]|]; cbv beta zeta.
- by move=> /Hw; apply; split.
- case: ifP => _; first by case=> <- _; split.
  case: ifP => _; first by case=> <- _; split.
  by move=> /Hw; apply; split.
- by move=> /Hw; apply; split.
Qed.

Lemma get_pos f z fl c c' r : uniq (dkeys (blocks c)) -> get1S f z [::] fl c = (c', r) -> same_pos c c'.
Proof.
move=> Hu; rewrite /get1S; case: ifP => _; last by case: (cS c) => [Sm|] [<- _]; split.
case E: (solve_now f fl [::] c) => [c1 r1].
have S1 : same_pos c c1.
  move: E; rewrite /solve_now; case El: (loop _ _ _) => [d rl].
  have [X1 P1] : same_pos c d by apply: (fill_pos _ El) => nm b Hi; rewrite /pvw (In_dget Hu Hi).
  case: rl El => [[]|e] El /=; last by case=> <- _; split.
  case Ee: (extS d) => [d' re].
  have [X2 P2] : same_pos d d'.
    move: Ee; rewrite /extS; case Ec: (close d) => [e rc]; have [Xe Pe] := close_pos Ec.
    case: rc Ec => [[]|er] Ec /=; last by case=> <- _; split.
    set m1 := mapM (dget_exn _) _; set m2 := mapM _ _; set m3 := mapM _ _.
    case: m1 => [iEs|er]; last by case=> <- _; split.
    case: m2 => [iAs|er]; last by case=> <- _; split.
    case: m3 => [iBs|er]; last by case=> <- _; split.
    case: (inv_rows _ _) => [iM|er]; last by case=> <- _; split.
    case: ifP => _; first by case=> <- _; split.
    by case: (np_inv _) => [iQ|er] [<- _]; split.
  have Hq q : pvw d' q = pvw c q by rewrite P2 P1.
  have Hx : xpos d' = xpos c by rewrite X2 X1.
  by case: re Ee => [Sm|er] Ee /= [<- _]; split.
by case: r1 E => [Sm|e] E /= [<- _].
Qed.

(** ** the states of an rfGTL: as built, and after calls of getS *)
Section St.
Variables (z : C) (ns : seq string) (rel : posns C) (G : gtl) (f0 : F) (fl0 : Fl).
Inductive gtl_state : circ -> Prop :=
  | gs_new c : build nan z ns rel G f0 fl0 = Ok c -> gtl_state c
  | gs_get c snp wants f z' fl : gtl_state c -> gtl_state (gtl_getS snp wants fl0 f z' fl c).1.

Lemma get_step h c f z' fl : reach z ns h c -> net_hist h = gnet ns G -> reterm (past_of h) = false ->
  exists h', [/\ reach z ns h' (get1S f z' [::] fl c).1, net_hist h' = gnet ns G & reterm (past_of h') = false].
Proof.
move=> Hr EN Ep; case E: (get1S f z' [::] fl c) => [c' r].
exists (rcons h (OGetS K f z' fl, is_ok r)); split.
- by apply: (reach_snoc Hr); [rewrite /ev_ok Ep|rewrite /exec E].
- by rewrite net_rcons EN.
by rewrite past_rcons; case: r E => [Sm|e] _ //=.
Qed.

Hypotheses (Hz : z != 0) (Hg : gtl_ok G).

(** what a built object has *)
Definition gtl_built := [/\ all_ok G, (forall p, (p \in ns) = free (gnet ns G) p),
    (forall p, p \in ns -> p \notin flatten (map (@blk_nodes _ _ _ K) (gblks G))) &
    (forall p, p \in ns -> size (users G p) = 1%N)] /\ uniq ns.

Lemma state_reach c : gtl_state c -> exists h, [/\ reach z ns h c, net_hist h = gnet ns G, reterm (past_of h) = false &
  gtl_built].
Proof.
elim=> [d Eb|d snp wants f z' fl _ [h [H1 H2 H3 H4]]].
  have [h [H1 H2 H3 H4 [H5 H6 H7 H8 [H9 H10]]]] := build_reach Hz Hg Eb.
  by exists h; split=> //; rewrite ?H3.
rewrite /gtl_getS; set zz := if z' == 0 then _ else _.
have [h1 [R1 N1 P1]] := get_step f zz fl0 H1 H2 H3.
case E1: ((get1S f zz [::] fl0 d).2) => [S1|e]; last by exists h1.
have [h2 [R2 N2 P2]] := get_step f zz fl R1 N1 P1.
case: snp => [s|]; last by exists h2.
by case: (wants fl); [exists h1|exists h2].
Qed.
End St.
End P.

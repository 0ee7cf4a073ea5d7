(** Copies of circuits (C54): rfBase.copy, __copy__, __deepcopy__ (rfBase.py 190-207), inherited by rfCircuit. *)
From mathcomp Require Import all_ssreflect all_algebra.
From Coq Require Import String Ascii.
From Coq Require List.
From Verif Require Import Base ConvModel CircModel CircSpec CircLib CircHist CircNest.
Set Implicit Arguments.
Unset Strict Implicit.
Unset Printing Implicit Defensive.
Import GRing.Theory Num.Theory.
Local Open Scope string_scope.
Local Open Scope ring_scope.
Local Open Scope seq_scope.

Section Copy.
Variable C : numClosedFieldType.
Variables F Fl : eqType.
Variable K : ocls C F Fl.
Notation circ := (circ K).
Notation block := (block K).

(** the attributes are deep-copied one by one (199-205), the copies of two attributes
    that were one list are therefore two lists.  [dup]: the copy of a block's object.  Not
    modelled: Id, which gets '(copy)' appended, and the object being one of several blocks. *)
Definition copy_blk (dup : K -> K) (nb : string * block) : string * block :=
  (nb.1, Block (bports nb.2) (bloc nb.2) (dup (bobj nb.2)) (bxpos nb.2)).
Definition upd_bp (c : circ) (bs : seq (string * block)) p : circ := with_pn (with_blocks c bs) p.
Definition copy_circ (dup : K -> K) (c : circ) : circ :=
  upd_bp c (map (copy_blk dup) (blocks c)) (if pn c is PGiven ns then PGiven ns else PGiven (ports c)).

(** ** simulation *)
Variable R : K -> K -> Prop.
Hypothesis HR : forall o o' f z fl, R o o' ->
  (ogetS f z fl o').2 = (ogetS f z fl o).2 /\ R (ogetS f z fl o).1 (ogetS f z fl o').1.
Definition brel (x y : string * block) : Prop :=
  [/\ y.1 = x.1, bports y.2 = bports x.2, bloc y.2 = bloc x.2, bxpos y.2 = bxpos x.2 & R (bobj x.2) (bobj y.2)].
Definition pnrel (c : circ) p : Prop := p = pn c \/ pn c = PAlias /\ p = PGiven (ports c).
Definition csim (c d : circ) : Prop := exists bs p, [/\ d = upd_bp c bs p, pnrel c p & List.Forall2 brel (blocks c) bs].

Lemma brel_dset bs bs' nm b b' : List.Forall2 brel bs bs' -> brel (nm, b) (nm, b') ->
  List.Forall2 brel (dset bs nm b) (dset bs' nm b').
Proof.
move=> H Hb; elim: H => [|[n x] [n' x'] l l' Hx Hl IH] /=; first by constructor=> //; constructor.
have En : n' = n by case: Hx.
rewrite En; case: (nm == n); constructor=> //; last by rewrite -{2}En.
by case: Hb => /= _ *; split.
Qed.

Lemma fill_sim f fl l l' : List.Forall2 brel l l' -> forall c d, csim c d ->
  (loop (fill1 f fl [::]) d l').2 = (loop (fill1 f fl [::]) c l).2 /\
  csim (loop (fill1 f fl [::]) c l).1 (loop (fill1 f fl [::]) d l').1.
Proof.
elim=> [c d Hs|[n b] [n' b'] l0 l0' H Hl IH c d Hs]; first by split.
have [E1 [H1 [H2 [H3 H4]]]] : n' = n /\ bports b' = bports b /\ bloc b' = bloc b /\ bxpos b' = bxpos b /\ R (bobj b) (bobj b').
  by case: H.
move: H1 H2 H3 H4; rewrite E1 !loop_cons; case: Hs => bs [p [-> Hp Hb]].
case: b' {H} => bp lo ob xp; cbn [bports bloc bxpos bobj] => -> -> -> {bp lo xp} H4.
have [Er Hr] := HR f (zb c) fl H4.
rewrite /fill1; cbn [dget fst snd bports bloc bxpos bobj zb upd_bp with_pn with_blocks nc mM eqns blocks]; rewrite Er.
have Hd : List.Forall2 brel (dset (blocks c) n (Block (bports b) (bloc b) (ogetS f (zb c) fl (bobj b)).1 (bxpos b)))
   (dset bs n (Block (bports b) (bloc b) (ogetS f (zb c) fl ob).1 (bxpos b))).
  by apply: brel_dset.
case: ((ogetS f (zb c) fl (bobj b)).2) => [Sm|e]; last by split=> //; do 2 eexists; split; [reflexivity|exact: Hp|exact: Hd].
case: (shape_ok _ _); last by split=> //; do 2 eexists; split; [reflexivity|exact: Hp|exact: Hd].
by apply: IH; do 2 eexists; split; [reflexivity|exact: Hp|exact: Hd].
Qed.

(** the same without a relation between the Portnames *)
Lemma fill_w f fl l l' : List.Forall2 brel l l' -> forall c bs p, List.Forall2 brel (blocks c) bs ->
  exists bs', loop (fill1 f fl [::]) (upd_bp c bs p) l' =
    (upd_bp (loop (fill1 f fl [::]) c l).1 bs' p, (loop (fill1 f fl [::]) c l).2) /\
    List.Forall2 brel (blocks (loop (fill1 f fl [::]) c l).1) bs'.
Proof.
elim=> [c bs p Hb|[n b] [n' b'] l0 l0' H Hl IH c bs p Hb]; first by exists bs; split.
have [E1 [H1 [H2 [H3 H4]]]] : n' = n /\ bports b' = bports b /\ bloc b' = bloc b /\ bxpos b' = bxpos b /\ R (bobj b) (bobj b').
  by case: H.
move: H1 H2 H3 H4; rewrite E1 !loop_cons.
case: b' {H} => bp lo ob xp; cbn [bports bloc bxpos bobj] => -> -> -> {bp lo xp} H4.
have [Er Hr] := HR f (zb c) fl H4.
rewrite /fill1; cbn [dget fst snd bports bloc bxpos bobj zb upd_bp with_pn with_blocks nc mM eqns blocks]; rewrite Er.
have Hd : List.Forall2 brel (dset (blocks c) n (Block (bports b) (bloc b) (ogetS f (zb c) fl (bobj b)).1 (bxpos b)))
   (dset bs n (Block (bports b) (bloc b) (ogetS f (zb c) fl ob).1 (bxpos b))).
  by apply: brel_dset.
case: ((ogetS f (zb c) fl (bobj b)).2) => [Sm|e]; last by eexists; split; [reflexivity|exact: Hd].
case: (shape_ok _ _); last by eexists; split; [reflexivity|exact: Hd].
set d1 := with_M _ _ _ _; set c1 := with_M _ _ _ _.
have -> : d1 = upd_bp c1 (dset bs n (Block (bports b) (bloc b) (ogetS f (zb c) fl ob).1 (bxpos b))) p by [].
exact: (IH c1 _ p Hd).
Qed.

Notation addE := (@add_E C F Fl K).
Lemma add1 bs p q c : addE (upd_bp c bs p) q = (upd_bp (addE c q).1 bs p, (addE c q).2).
Proof. by rewrite /add_E; cbn [upd_bp with_pn with_blocks waves nc mM eqns]; case: (lindex _ _). Qed.
Lemma add1_keep q c : [/\ pn (addE c q).1 = pn c, ports (addE c q).1 = ports c & blocks (addE c q).1 = blocks c].
Proof. by rewrite /add_E; case: (lindex _ _). Qed.

Lemma add_upd bs p ps : forall c, loop addE (upd_bp c bs p) ps = (upd_bp (loop addE c ps).1 bs p, (loop addE c ps).2) /\
  [/\ pn (loop addE c ps).1 = pn c, ports (loop addE c ps).1 = ports c & blocks (loop addE c ps).1 = blocks c].
Proof.
elim: ps => [|q ps IH] c; first by split.
rewrite !loop_cons add1; have := add1_keep q c; case: (addE c q) => c1 r1; cbn [fst snd] => -[E1 E2 E3].
case: r1 => [u|e]; last by split.
by rewrite -E1 -E2 -E3; exact: (IH c1).
Qed.

Lemma close_sim c d : csim c d -> (close d).2 = (close c).2 /\ csim (close c).1 (close d).1.
Proof.
case=> bs [p [-> Hp Hb]]; rewrite /close /=; case: ifP => _ /=; first by split=> //; exists bs, p.
set c0 := with_cache c (invM c) None (cf c) (cfl c).
have -> : with_cache (upd_bp c bs p) (invM c) None (cf c) (cfl c) = upd_bp c0 bs p by [].
have Hgo c1 q : pnrel c1 q -> blocks c1 = blocks c ->
  (loop (@add_E C F Fl K) (upd_bp c1 bs q) (ports c1)).2 = (loop (@add_E C F Fl K) c1 (ports c1)).2 /\
  csim (loop (@add_E C F Fl K) c1 (ports c1)).1 (loop (@add_E C F Fl K) (upd_bp c1 bs q) (ports c1)).1.
  move=> Hq E1; have [-> [E2 E3 E4]] := add_upd bs q (ports c1) c1; split=> //=.
  by exists bs, q; split=> //; [rewrite /pnrel E2 E3|rewrite E4 E1].
case: Hp => [->|[Ea ->]].
  case E: (pn c) => [[|n l]|].
  - by apply: (Hgo (with_pn c0 PAlias)) => //; left.
  - case: ifP => _ /=; first by split=> //; exists bs, (PGiven (n :: l)); split=> //; left.
    case: ifP => _ /=; first by split=> //; exists bs, (PGiven (n :: l)); split=> //; left.
    by apply: (Hgo (with_pn (with_ports c0 (n :: l) (xpos c)) PAlias)) => //; left.
  by apply: (Hgo c0) => //; left.
rewrite Ea; case Ep: (ports c) => [|n l].
  have -> : with_pn (upd_bp c0 bs (PGiven [::])) PAlias = upd_bp c0 bs PAlias by [].
  by have := Hgo c0 PAlias; rewrite /= Ep; apply=> //; left.
have -> : (size (n :: l) != size (n :: l)) = false by rewrite eqxx.
have -> : ~~ all (fun q => q \in n :: l) (n :: l) = false by apply/negbTE; rewrite negbK; apply/allP.
have -> : with_pn (with_ports (upd_bp c0 bs (PGiven (n :: l))) (n :: l) (xpos c)) PAlias = upd_bp c0 bs PAlias.
  by rewrite /upd_bp /with_ports /with_pn /= Ep.
by have := Hgo c0 PAlias; rewrite /= Ep; apply=> //; left.
Qed.

Lemma portnames_upd c bs p : pnrel c p -> portnames (upd_bp c bs p) = portnames c.
Proof. by rewrite /portnames /=; case=> [->|[-> ->]]. Qed.

Lemma extS_sim c d : csim c d -> (extS d).2 = (extS c).2 /\ csim (extS c).1 (extS d).1.
Proof.
move=> /close_sim; rewrite /extS; case: (close c) => [c1 r1]; case: (close d) => [d1 r1'] /= [-> Hs].
case: r1 => [_|e] //=; have [bs [p [-> Hp Hb]]] := Hs; rewrite (portnames_upd bs Hp) /=.
have Hs' iM cs f' fl' : csim (with_cache c1 iM cs f' fl') (with_cache (upd_bp c1 bs p) iM cs f' fl').
  by exists bs, p; split.
have Hs0 : csim c1 (upd_bp c1 bs p) by exists bs, p; split.
set m1 := mapM (dget_exn _) _; set m2 := mapM _ _; set m3 := mapM _ _.
case: m1 => [iEs|er] //; case: m2 => [iAs|er] //; case: m3 => [iBs|er] //.
case: (inv_rows _ _) => [iM|er] //=; case: ifP => _; first by split=> //; exact: Hs'.
by case: (np_inv _) => [iQ|er]; split=> //; exact: Hs'.
Qed.

Lemma get_sim f z' fl c d : csim c d ->
  (get1S f z' [::] fl d).2 = (get1S f z' [::] fl c).2 /\ csim (get1S f z' [::] fl c).1 (get1S f z' [::] fl d).1.
Proof.
move=> Hs; have Hz : zb d = zb c by case: Hs => bs [p [-> _ _]].
have Hsol : (solve_now f fl [::] d).2 = (solve_now f fl [::] c).2 /\
   csim (solve_now f fl [::] c).1 (solve_now f fl [::] d).1.
  rewrite /solve_now; have Hbl : List.Forall2 brel (blocks c) (blocks d) by case: Hs => bs [p [-> _ H]].
  have := fill_sim f fl Hbl Hs; case: (loop _ c _) => [c1 r1]; case: (loop _ d _) => [d1 r1'] /= [-> H1].
  case: r1 => [_|e] //=; have := extS_sim H1; case: (extS c1) => [c2 r2]; case: (extS d1) => [d2 r2'] /= [-> H2].
  by case: r2 => [Sm|e] //=; split=> //; have [bs [p [-> Hp Hb]]] := H2; exists bs, p; split.
rewrite /get1S.
have -> : (Some f != cf d) || ~~ cS d || (Some fl != cfl d) = (Some f != cf c) || ~~ cS c || (Some fl != cfl c).
  by case: Hs => bs [p [-> _ _]].
case: ifP => _.
  move: Hsol; case Ec: (solve_now f fl [::] c) => [c1 r1]; case: (solve_now f fl [::] d) => [d1 r1'] /= [-> H1].
  by case: r1 Ec => [Sm|e] //= _; split=> //; case: H1 => bs [p [-> _ _]].
have -> : cS d = cS c by case: Hs => bs [p [-> _ _]].
by case: (cS c) => [Sm|] //=; rewrite Hz.
Qed.

Lemma sol_sim always f E z' fl c d : csim c d ->
  (sol_vec always f E z' fl d).2 = (sol_vec always f E z' fl c).2 /\
  csim (sol_vec always f E z' fl c).1 (sol_vec always f E z' fl d).1.
Proof.
move=> Hs; rewrite /sol_vec.
have -> : zb d = zb c by case: Hs => bs [p [-> _ _]].
have -> : ports d = ports c by case: Hs => bs [p [-> _ _]].
case: (mapM _ _) => [Ea|e] //=; set zz := if z' == 0 then _ else _.
have := get_sim f zz fl Hs; case: (get1S f zz [::] fl c) => [c1 r1]; case: (get1S f zz [::] fl d) => [d1 r1'] /= [-> H1].
case: r1 => [Sm|e] //=; have [bs [p [Ed Hp Hb]]] := H1.
have -> : zb d1 = zb c1 by rewrite Ed.
have -> : forall v, exc_vec d1 v = exc_vec c1 v by rewrite Ed.
have -> : invM d1 = invM c1 by rewrite Ed.
have -> : cf d1 = cf c1 by rewrite Ed.
case: (size Sm != size Ea); first by split.
case: (exc_vec _ _) => [Es|e]; last by split.
case: (~~ isSome _ || _); last by cbn [fst snd]; have -> : invM d1 = invM c1 by [rewrite Ed]; case: (invM c1).
have := extS_sim H1; case: (extS c1) => [c2 r2]; case: (extS d1) => [d2 r2'] /= [-> H2].
have -> : invM d2 = invM c2 by case: H2 => bs2 [p2 [-> _ _]].
by case: r2 => [_|e] //=; case: (invM c2).
Qed.

Lemma Solution_sim f E z' fl c d : csim c d ->
  (Solution1 f E z' fl d).2 = (Solution1 f E z' fl c).2 /\ csim (Solution1 f E z' fl c).1 (Solution1 f E z' fl d).1.
Proof.
move=> /(sol_sim false f E z' fl); rewrite /Solution1.
case: (sol_vec _ _ _ _ _ c) => [c1 r1]; case: (sol_vec _ _ _ _ _ d) => [d1 r1'] /= [-> H1].
by case: r1 => [[zz sol]|e] //=; have [bs [p [-> Hp Hb]]] := H1; split=> //; exists bs, p.
Qed.
End Copy.

(** ** questions put to a circuit: getS(f, Zbase, flags) and Solution(f, E, Zbase, flags) (see
    CircModel); the answers of a sequence of questions *)
Section Ask.
Variable C : numClosedFieldType.
Variables F Fl : eqType.
Variable K : ocls C F Fl.
Inductive question := QS of F & C & Fl | QSol of F & seq (string * C) & C & Fl.
Inductive answer := AS of rows C | ASol of seq (string * (C * C * C * C)).
Definition ask (q : question) (c : circ K) : circ K * res answer :=
  match q with
  | QS f z fl => let r := get1S f z [::] fl c in (r.1, rmap AS r.2)
  | QSol f E z fl => let r := Solution1 f E z fl c in (r.1, rmap ASol r.2)
  end.
Fixpoint asks (qs : seq question) (c : circ K) : circ K * seq (res answer) :=
  if qs is q :: qs' then let r := ask q c in let s := asks qs' r.1 in (s.1, r.2 :: s.2) else (c, [::]).
End Ask.

Section Ask2.
Variable C : numClosedFieldType.
Variables F Fl : eqType.
Variable K : ocls C F Fl.
Variable R : K -> K -> Prop.
Hypothesis HR : forall o o' f z fl, R o o' ->
  (ogetS f z fl o').2 = (ogetS f z fl o).2 /\ R (ogetS f z fl o).1 (ogetS f z fl o').1.
Lemma ask_sim q c d : csim R c d -> (ask q d).2 = (ask q c).2 /\ csim R (ask q c).1 (ask q d).1.
Proof.
case: q => [f z fl|f E z fl] H /=; first by have [-> H'] := get_sim HR f z fl H.
by have [-> H'] := Solution_sim HR f E z fl H.
Qed.
Lemma asks_sim qs : forall c d, csim R c d -> (asks qs d).2 = (asks qs c).2 /\ csim R (asks qs c).1 (asks qs d).1.
Proof.
elim: qs => [|q qs IH] c d H /=; first by split.
by have [-> H1] := ask_sim q H; have [-> H2] := IH _ _ H1.
Qed.
Lemma copy_sim (dup : K -> K) c : (forall o, R o (dup o)) -> csim R c (copy_circ dup c).
Proof.
move=> Hd; do 2 eexists; split; first by reflexivity.
  by rewrite /pnrel; case: (pn c) => [ns|]; [left|right].
elim: (blocks c) => [|nb bs IH]; first exact: List.Forall2_nil.
by apply: List.Forall2_cons; [split=> //; exact: Hd|exact: IH].
Qed.
End Ask2.

(** ** circuits of circuits: the copy of a circuit block is made by the same method; the
    answers of the devices (kind K) do not depend on which copy is asked: their copies are
    the objects themselves *)
Section DeepCopy.
Variable C : numClosedFieldType.
Variables F Fl : eqType.
Variable K : vcls C F Fl.
Variable nan : C.
Variable getpos : forall K' : vcls C F Fl, circ K' -> string -> res C.
Notation deep := (deep K nan getpos).
Fixpoint dupn (n : nat) : deep n -> deep n :=
  match n return deep n -> deep n with
  | 0%N => id
  | n'.+1 => fun o => match o with
    | inl d => inl d
    | inr k => inr (NCirc (n_z k) (n_ns k) (n_h k) (copy_circ (@dupn n') (n_c k)))
    end
  end.
Fixpoint simn (n : nat) : deep n -> deep n -> Prop :=
  match n return deep n -> deep n -> Prop with
  | 0%N => eq
  | n'.+1 => fun o o' => match o, o' with
    | inl d, inl d' => d = d'
    | inr k, inr k' => csim (@simn n') (n_c k) (n_c k')
    | _, _ => False
    end
  end.
Lemma simn_get n : forall (o o' : deep n) f z fl, simn o o' ->
  (ogetS f z fl o').2 = (ogetS f z fl o).2 /\ simn (ogetS f z fl o).1 (ogetS f z fl o').1.
Proof.
elim: n => [|n IH] o o' f z fl; first by move=> /= ->.
case: o => [d|k]; case: o' => [d'|k'] //=; first by move=> ->.
by move=> H; exact: (get_sim IH f z fl H).
Qed.
Lemma simn_dup n : forall o : deep n, simn o (dupn o).
Proof.
elim: n => [|n IH] o //; case: o => [d|k] //.
exact: (@copy_sim C F Fl (deep n) (@simn n) (@dupn n) (n_c k) IH).
Qed.
Lemma copy_same n qs (c : circ (deep n)) : (asks qs (copy_circ (@dupn n) c)).2 = (asks qs c).2.
Proof. by have [] := asks_sim (@simn_get n) qs (@copy_sim C F Fl (deep n) (@simn n) (@dupn n) c (@simn_dup n)). Qed.
End DeepCopy.

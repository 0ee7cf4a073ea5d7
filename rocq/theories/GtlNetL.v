(** The network of an rfGTL and the laws of its description. *)
From mathcomp Require Import all_ssreflect all_algebra.
From mathcomp Require Import zify.
From Coq Require Import String Ascii.
From Coq Require List.
From Verif Require Import Base MxLib ConvModel ConvSpec ConvProofs ConvArr CircModel CircSpec CircLib CircInv CircTerm CircApp CircConn CircAdd CircDe CircFill CircSolve CircExt CircHist CircGet CircMain CircOrd CircThm CircThm2 CircThm3 CircThm4 CircMaxV CircFlat SetThm GtlNet GtlNetT GtlNetH.
Set Implicit Arguments.
Unset Strict Implicit.
Unset Printing Implicit Defensive.
Import GRing.Theory Num.Theory.
Local Open Scope string_scope.
Local Open Scope ring_scope.
Local Open Scope seq_scope.

Section Law.
Variable C : numClosedFieldType.
Variables F Fl : eqType.
Variable K : vcls C F Fl.
Variable nan : C.
Notation gtl := (gtl K).
Implicit Types (G : gtl) (g : gblk K).
Variables (z : C) (ns : seq string).

Lemma gblksP G b ps o : List.In (b, (ps, o)) (gblks G) <-> exists g, [/\ List.In (b, g) G, gobj g = Ok o & ps = gnames g].
Proof.
elim: G => [|[b' g'] G IH] /=; first by split=> // -[g []].
rewrite /gblks /=; case Eo: (gobj g') => [o'|e] /=; rewrite -/(gblks G).
  split=> [[[<- <- <-]|/IH [g [H1 H2 H3]]]|[g [[[<- <-]|Hi] Eg Ep]]].
  - by exists g'; split=> //; left.
  - by exists g; split=> //; right.
  - by left; move: Eg Eo => -> [->]; rewrite Ep.
  - by right; apply/IH; exists g.
rewrite IH; split=> [[g [H1 H2 H3]]|[g [[[<- <-]|Hi] Eg Ep]]]; first by exists g; split=> //; right.
  by rewrite Eo in Eg.
by exists g.
Qed.

Lemma last_termP (ps : seq (gport C)) t : last_term ps = Some t ->
  exists2 q, List.In q ps & gname q = t.1 /\ special q = Some t.2.
Proof.
rewrite /last_term; elim/last_ind: ps t => //= ps q IH t; rewrite foldl_rcons.
case Es: (special q) => [kw|].
  case=> <-; exists q => //; rewrite -cats1; apply: List.in_or_app; right; by left.
by move=> /IH [q' H1 H2]; exists q' => //; rewrite -cats1; apply: List.in_or_app; left.
Qed.

Lemma gtermsP G p l : List.In (p, l) (gterms G) <->
  exists b g t, [/\ List.In (b, g) G, last_term (gports g) = Some t, p = dot b t.1 & l = load_of t.2].
Proof.
elim: G => [|[b' g'] G IH] /=; first by split=> // -[b [g [t []]]].
rewrite /gterms /=; case Eo: (last_term _) => [t'|] /=; rewrite -/(gterms G).
  split=> [[[<- <-]|/IH [b [g [t [H1 H2 H3 H4]]]]]|[b [g [t [[[<- <-]|Hi] Eg Ep El]]]]].
  - by exists b', g', t'; split=> //; left.
  - by exists b, g, t; split=> //; right.
  - by left; rewrite Eo in Eg; case: Eg Ep El => <- -> ->.
  - by right; apply/IH; exists b, g, t.
rewrite IH; split=> [[b [g [t [H1 H2 H3 H4]]]]|[b [g [t [[[<- <-]|Hi] Eg Ep El]]]]].
- by exists b, g, t; split=> //; right.
- by rewrite Eo in Eg.
by exists b, g, t.
Qed.

Lemma gname_inj (ps : seq (gport C)) p q : uniq (map (@gname C) ps) -> List.In p ps -> List.In q ps ->
  gname p = gname q -> p = q.
Proof.
have Hm : forall r (l : seq (gport C)), List.In r l -> gname r \in map (@gname C) l.
  by move=> r; elim=> //= s l IH [->|/IH H]; rewrite in_cons ?eqxx ?H ?orbT.
elim: ps => //= r ps IH /andP[Hr Hu] [<-|Hp] [<-|Hq] // E.
- by move: Hr; rewrite E Hm.
- by move: Hr; rewrite -E Hm.
exact: IH.
Qed.

Lemma plainP g p : reflect (exists2 q, List.In q (gports g) & gname q = p /\ special q = None) (plain g p).
Proof.
rewrite /plain; elim: (gports g) => [|r ps IH] /=; first by constructor=> -[].
case E: ((gname r == p) && ~~ special r) => /=.
  by constructor; exists r; [left|case/andP: E => /eqP -> ; case: (special r)].
apply: (iffP IH) => [[q H1 H2]|[q [<-|Hq] [H1 H2]]]; first by exists q => //; right.
  by rewrite H1 H2 eqxx in E.
by exists q.
Qed.

Lemma usersP G b p : b \in users G p <-> exists2 g, List.In (b, g) G & plain g p.
Proof.
rewrite /users; elim: G => [|[b' g'] G IH] /=; first by split=> // -[].
case: ifP => Hp /=; rewrite ?in_cons; last first.
  rewrite IH; split=> [[g H1 H2]|[g [[<- <-]|H1] H2]]; [by exists g => //; right|by rewrite Hp in H2|by exists g].
split=> [/orP[/eqP ->|/IH [g H1 H2]]|[g [[<- <-]|H1] H2]].
- by exists g' => //; left.
- by exists g => //; right.
- by rewrite eqxx.
by apply/orP; right; apply/IH; exists g.
Qed.

Lemma inP (A : eqType) (x : A) l : reflect (List.In x l) (x \in l).
Proof.
elim: l => [|y l IH] /=; first by constructor.
by rewrite in_cons eq_sym; apply: (iffP orP) => [[/eqP ->|/IH]|[->|/IH]]; [left|right|left|right].
Qed.
Lemma key_inj (A : Type) (d : seq (string * A)) k x y : uniq (dkeys d) -> List.In (k, x) d -> List.In (k, y) d -> x = y.
Proof. by move=> Hu /(In_dget Hu) H1 /(In_dget Hu); rewrite H1 => -[]. Qed.

Variable G : gtl.
Hypotheses (Hok : gtl_ok G) (Hobj : all_ok G).
Hypothesis (Hnd : forall b, b \in dkeys G -> ~~ has_char "."%char b).
Hypothesis Hfree : forall p, (p \in ns) = free (gnet ns G) p.
Hypothesis Hdis : forall p, p \in ns -> p \notin flatten (map (@blk_nodes _ _ _ K) (gblks G)).
Hypothesis Hone : forall p, p \in ns -> size (users G p) = 1%N.

Hypothesis Hsz : forall b g o, List.In (b, g) G -> gobj g = Ok o -> osize o = size (gnames g).

Let Hnm b g : List.In (b, g) G -> uniq (gnames g).
Proof. by case: Hok => _ H /H []. Qed.

Lemma node_in b g q : List.In (b, g) G -> q \in gnames g -> dot b q \in flatten (map (@blk_nodes _ _ _ K) (gblks G)).
Proof.
move=> Hi Hq; have [o Eo] := Hobj Hi.
have : List.In (b, (gnames g, o)) (gblks G) by apply/gblksP; exists g.
elim: (gblks G) => //= b' bs IH [->|/IH H]; rewrite mem_cat; last by rewrite H orbT.
by rewrite /blk_nodes /= map_f.
Qed.

Lemma gname_in g q : List.In q (gports g) -> gname q \in gnames g.
Proof. by rewrite /gnames; elim: (gports g) => //= r l IH [->|/IH H]; rewrite in_cons ?eqxx ?H ?orbT. Qed.

Lemma key_in b g : List.In (b, g) G -> b \in dkeys G.
Proof. by rewrite /dkeys; elim: (G) => //= -[b' g'] l IH [[-> _]|/IH H]; rewrite in_cons ?eqxx ?H ?orbT. Qed.

(** every port of a block is used *)
Lemma node_used b g q : List.In (b, g) G -> q \in gnames g ->
  (b \in users G q /\ ((1 < size (users G q))%N \/ q \in ns)) \/
  (exists2 t, last_term (gports g) = Some t & t.1 = q).
Proof.
move=> Hi Hq; have Hn := node_in Hi Hq; have Hb := Hnd (key_in Hi).
have : ~~ free (gnet ns G) (dot b q) by rewrite -Hfree; apply/negP => /Hdis; rewrite Hn.
rewrite /free /nodes mem_cat Hn /= negbK /used /= !cats0 map_cat flatten_cat !mem_cat => /orP[/orP[]|].
- case/flattenP=> l /mapP[jn /mapP[[p bs]]]; rewrite mem_filter /= => /andP[Hs Hpb] -> -> /= /mapP[b' Hb' E].
  have Ed := In_dget (plist_uniq G) (elimT (inP _ _) Hpb).
  have Hi' : b' \in users G p by move: Ed; rewrite (plistE _ Hnm); case: (users G p) => // u us [->].
  have Eb : b = b' by apply: (dot_name Hb _ E); apply: Hnd; exact: users_sub Hi'.
  have Eq : q = p by rewrite Eb in E; exact: dot_inj E.
  left; rewrite Eb Eq; split=> //; left; move: Ed; rewrite (plistE _ Hnm); case: (users G p) => // u us [->] //.
- case/flattenP=> l /mapP[jn /mapP[p Hp ->] ->] /=; rewrite in_cons in_nil orbF => /eqP E.
  rewrite (plistE _ Hnm) in E; move: E (Hone Hp); case Eu: (users G p) => [|b' [|]] //= E _.
  have Hi' : b' \in users G p by rewrite Eu mem_head.
  have Eb : b = b' by apply: (dot_name Hb _ E); apply: Hnd; exact: users_sub Hi'.
  have Eq : q = p by rewrite Eb in E; exact: dot_inj E.
  by left; rewrite Eb Eq; split=> //; right.
move=> /memP [[p l] /gtermsP [b' [g' [t [H1 H2 -> _]]]] E]; right.
have Eb : b = b' by apply: (dot_name Hb _ E); apply: Hnd; exact: key_in H1.
have Eq : q = t.1 by rewrite Eb in E; exact: dot_inj E.
by exists t => //; rewrite -Eb in H1; rewrite (key_inj (proj1 Hok) Hi H1).
Qed.

Lemma user_plain b g p : List.In (b, g) G -> b \in users G p -> plain g p.
Proof. by move=> Hi /usersP [g' H1 H2]; rewrite (key_inj (proj1 Hok) Hi H1). Qed.

Lemma plain_single b p : users G p = [:: b] -> p \in ns.
Proof.
move=> Eu; have /usersP [g Hi Hp] : b \in users G p by rewrite Eu mem_head.
have /plainP [q Hq [Eq Es]] := Hp; have Hg : p \in gnames g by rewrite -Eq gname_in.
case: (node_used Hi Hg) => [[_ []]|[t /last_termP [q' Hq' [E1 E2]] Et]] //; first by rewrite Eu.
by move: Es; rewrite (gname_inj (Hnm Hi) Hq Hq') ?E2 // Eq E1 Et.
Qed.

Lemma special_last b g q kw : List.In (b, g) G -> List.In q (gports g) -> special q = Some kw ->
  last_term (gports g) = Some (gname q, kw).
Proof.
move=> Hi Hq Es; case: (node_used Hi (gname_in Hq)) => [[Hu _]|[t El Et]].
  have /plainP [q' Hq' [E1 E2]] := user_plain Hi Hu.
  by move: E2; rewrite (gname_inj (Hnm Hi) Hq' Hq E1) Es.
have [q' Hq' [E1 E2]] := last_termP El.
have Eq : q' = q by apply: (gname_inj (Hnm Hi)) => //; rewrite E1 Et.
by rewrite El -Et; move: E2; rewrite Eq Es => -[->]; case: (t).
Qed.

Lemma plist_in p : users G p <> [::] -> List.In (p, users G p) (plist_of G).
Proof. by move=> Hu; apply: dget_In; rewrite (plistE _ Hnm); case: (users G p) Hu. Qed.

Lemma sat_law f fl (V I : asg C) : sat z (gnet ns G) f fl V I ->
  gtl_law z ns G f fl V I (fun p => if p \in ns then V p else V (dot (head "" (users G p)) p)) I.
Proof.
case=> Hb Hj Ht _ _; split.
- move=> b g Hi; have [o Eo] := Hobj Hi; exists o => //.
  by apply: (List.Forall_forall _ _).1 Hb (b, (gnames g, o)) _; apply/gblksP; exists g.
- move=> b g p kw Hi Hp Es; have El := special_last Hi Hp Es.
  apply: (List.Forall_forall _ _).1 Ht (dot b (gname p), load_of kw) _.
  by apply/gtermsP; exists b, g, (gname p, kw).
move=> p; case Hp: (p \in ns).
  have [_ [H1 H2]] : join_law V I (ext (plist_of G) p).
    apply: (List.Forall_forall _ _).1 Hj _ _; apply: List.in_or_app; right.
    by apply: List.in_map; apply/inP.
  move: H1 H2 (Hone Hp); rewrite /= (plistE _ Hnm); case: (users G p) => [|b [|]] //= H1 H2 _.
  split=> [b'|]; last by rewrite -H2 !big_cons !big_nil.
  by rewrite in_cons in_nil orbF => /eqP ->; apply: H1; rewrite mem_head.
case Eu: (users G p) => [|b [|b' bs]] //=; first by rewrite big_nil.
  by rewrite (plain_single Eu) in Hp.
have [H1 H2] : join_law V I ([seq dot b p | b <- users G p], None).
  apply: (List.Forall_forall _ _).1 Hj _ _; apply: List.in_or_app; left.
  apply/inP/mapP; exists (p, users G p) => //; rewrite mem_filter Eu /= -Eu.
  by apply/inP; apply: plist_in; rewrite Eu.
rewrite -Eu; split; last by move: H2; rewrite /= big_map.
move=> b0 Hb0; apply: H1; apply/mapP; first by exists b0.
by exists b => //; rewrite Eu mem_head.
Qed.

Lemma law_sat f fl (v i u j : asg C) : gtl_law z ns G f fl v i u j ->
  sat z (gnet ns G) f fl (fun q => if q \in ns then u q else v q) (fun q => if q \in ns then j q else i q).
Proof.
move=> [Hb Ht Hp]; set V := fun q => if q \in ns then u q else v q; set I := fun q => if q \in ns then j q else i q.
have Hn q : q \in flatten (map (@blk_nodes _ _ _ K) (gblks G)) -> V q = v q /\ I q = i q.
  by move=> Hq; rewrite /V /I; case: ifP => // /Hdis; rewrite Hq.
have Hub p b : b \in users G p -> V (dot b p) = v (dot b p) /\ I (dot b p) = i (dot b p).
  by move=> /(users_node Hobj) /Hn.
split=> //=.
- apply/List.Forall_forall => -[b [ps o]] /gblksP [g [Hi Eo ->]]; have [o' Eo' Hd] := Hb _ _ Hi.
  have Eoo : o' = o by move: Eo'; rewrite Eo => -[].
  rewrite Eoo in Hd; apply: oden_ext Hd => k; rewrite (Hsz Hi Eo) => Hk /=.
  by have [-> ->] := Hn _ (node_in Hi (mem_nth "" Hk)).
- apply/List.Forall_forall => jn Hj; case: (List.in_app_or _ _ _ Hj) => [/inP|] {Hj}.
    case/mapP=> -[p bs]; rewrite mem_filter => /andP[/= Hs /inP Hpb] ->.
    have Ed := In_dget (plist_uniq G) Hpb; rewrite (plistE _ Hnm) in Ed.
    have {Ed} Ed : bs = users G p by case: (users G p) Ed => // ? ? [].
    have [H1 H2] := Hp p; split=> /=.
      move=> q r /mapP[b1 Hb1 ->] /mapP[b2 Hb2 ->]; rewrite -> Ed in Hb1, Hb2.
      by rewrite (Hub _ _ Hb1).1 (Hub _ _ Hb2).1 !H1.
    rewrite big_map Ed; have Hpn : (p \in ns) = false by apply/negP => /Hone; rewrite -Ed => E; rewrite E in Hs.
    by rewrite Hpn in H2; rewrite -[RHS]H2; apply: eq_big_seq => b Hb'; rewrite (Hub _ _ Hb').2.
  move=> /inP /mapP[p Hpn ->]; rewrite /ext (plistE _ Hnm); have [H1 H2] := Hp p.
  case: (users G p) (Hone Hpn) (Hub p) H1 H2 => [|b [|]] //= _ /(_ b (mem_head _ _)) [E1 E2] /(_ b (mem_head _ _)) H1.
  rewrite Hpn big_cons big_nil addr0 => H2; split=> /=.
    by move=> q r; rewrite !in_cons !in_nil !orbF => /eqP -> /eqP ->.
  split; last by rewrite big_cons big_nil addr0 E2 H2 /I Hpn.
  by move=> q; rewrite in_cons in_nil orbF => /eqP ->; rewrite E1 H1 /V Hpn.
- apply/List.Forall_forall => -[q l] /gtermsP [b [g [t [Hi El -> ->]]]] /=.
  have [p Hpp [E1 E2]] := last_termP El; rewrite -E1.
  by have [-> ->] := Hn _ (node_in Hi (gname_in Hpp)); exact: Ht Hi Hpp E2.
Qed.
End Law.

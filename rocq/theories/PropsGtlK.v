(** Property C60: the keywords of the blocks of an rfGTL. *)
From mathcomp Require Import all_ssreflect all_algebra.
From Coq Require Import String.
From Verif Require Import Base CircLib ConvModel ConvSpec DevModel DevSpec DevThm PropsDev GtlKw.
Set Implicit Arguments.
Unset Strict Implicit.
Unset Printing Implicit Defensive.
Import GRing.Theory Num.Theory.
Local Open Scope string_scope.
Local Open Scope ring_scope.
Local Open Scope seq_scope.

(** * Specification *)
Section Spec.
Variables (C : numClosedFieldType) (P : Type).
Notation kval := (kval C P).
Notation kdict := (kdict C P).
Variable eval : string -> res kval.

(** the second name of a keyword *)
Definition synonyms : seq (string * string) :=
  [:: ("ports", "Portnames"); ("L", "length"); ("Z0TL", "Z"); ("xpos", "relpos")].
Definition second_names : seq string := map snd synonyms.
(** what is written for a keyword, under either name *)
Definition written (d : kdict) (kw : string) : option kval :=
  if dget d kw is Some v then Some v else if dget synonyms kw is Some a then dget d a else None.
(** under one of them only *)
Definition once (d : kdict) : Prop := forall p a, dget synonyms p = Some a -> ~~ (dhas d p && dhas d a).
(** the units of the description: mm, pF, nH, micro Ohm m; SI for all others *)
Definition milli : C := 10%:R ^- 3.
Definition micro : C := 10%:R ^- 6.
Definition nano : C := 10%:R ^- 9.
Definition pico : C := 10%:R ^- 12.
Definition unit_of (kw : string) : option C :=
  if kw \in [:: "ID"; "OD"] then Some milli else if kw == "rho" then Some micro else
  if kw \in [:: "LTL"; "Ls"; "Lp"; "Larc"] then Some nano else
  if kw \in [:: "CTL"; "Cs"; "Cp"] then Some pico else None.
(** the value v written for kw stands for the value w: a text for what it evaluates to, a
    number (or each of a list) for so many units *)
Definition means (kw : string) (v w : kval) : Prop :=
  exists2 u, (if v is KStr s then eval s = Ok u else u = v) &
  match unit_of kw, u, w with
  | None, _, _ => w = u
  | Some c, KNum x, KNum y => y = x * c
  | Some c, KList l, KList m => m = [seq x * c | x <- l]
  | _, _, _ => False
  end.
Definition given (kw : string) (v w : option kval) : Prop :=
  match v, w with Some v, Some w => means kw v w | None, None => True | _, _ => False end.
(** the same object *)
Definition same_dev (o o' : kdev C P) : Prop :=
  match o, o' with
  | DRlc k, DRlc k' | DTrl k, DTrl k' => forall kw, dget k kw = dget k' kw
  | DArc v, DArc v' => v = v'
  | _, _ => False
  end.
End Spec.

Section Props.
Variables (C : numClosedFieldType) (P : Type).
Notation kval := (kval C P).
Notation kdict := (kdict C P).
Variable eval : string -> res kval.
Local Notation prepare := (prepare eval).
Local Notation means := (means eval).
Local Notation given := (given eval).

Lemma remap1_Ok (d d' : kdict) p a m : uniq (dkeys d) -> p != a -> remap1 d (p, a, m) = Ok d' ->
  [/\ uniq (dkeys d'), ~~ (dhas d p && dhas d a), (m -> dhas d p || dhas d a) &
   forall k, dget d' k = if k == p then (if dget d p is Some v then Some v else dget d a)
                         else if k == a then None else dget d k].
Proof.
move=> Hu Hpa; rewrite /remap1 /dhas; case Ep: (dget d p) => [v|] /=; case Ea: (dget d a) => [w|] //=.
- move=> [<-]; split=> // k; case: eqP => [->|_]; first by rewrite Ep.
  by case: eqP => [->|].
- move=> [<-]; split=> //.
    rewrite dkeys_dset dkeys_ddel; case: ifP => _; first exact: rem_uniq.
    rewrite rcons_uniq rem_uniq // andbT mem_rem_uniq // inE /= negb_and.
    by rewrite (iffLR (dget_None _ _) Ep) orbT.
  move=> k; rewrite dget_dset; case: eqP => // _; by rewrite dget_ddel.
- case: m => //= -[<-]; split=> // k; case: eqP => [->|_]; first by rewrite Ep.
  by case: eqP => [->|].
Qed.
Lemma remap1_ex (d : kdict) p a (m : bool) : ~~ (dhas d p && dhas d a) -> (m -> dhas d p || dhas d a) ->
  exists d', remap1 d (p, a, m) = Ok d'.
Proof.
rewrite /remap1 /dhas; case Ep: (dget d p) => [v|] /=; case Ea: (dget d a) => [w|] //= _ H; try by eexists.
by case: m H => [/(_ erefl)|_] //; eexists.
Qed.

Definition ev1 (v : kval) : res kval := if v is KStr s then eval s else Ok v.
Lemma subst_Ok (d d' : kdict) : subst eval d = Ok d' -> dkeys d' = dkeys d /\
  forall k, match dget d k with Some v => exists2 u, ev1 v = Ok u & dget d' k = Some u | None => dget d' k = None end.
Proof.
elim: d d' => [|[k v] d IH] d' /=; first by move=> [<-].
rewrite /subst /= -/(subst eval d) -/(ev1 v); case Ev: (ev1 v) => [u|] //=.
case Es: (subst eval d) => [d1|] //= [<-]; have [H1 H2] := IH _ Es; split; first by rewrite /= H1.
by move=> k1 /=; case: eqP => [_|_]; [exists u|exact: H2].
Qed.
Lemma subst_ex (d : kdict) : uniq (dkeys d) -> (forall k v, dget d k = Some v -> exists u, ev1 v = Ok u) ->
  exists d', subst eval d = Ok d'.
Proof.
elim: d => [|[k v] d IH] /=; first by exists [::].
move=> /andP [Hn Hu] H; rewrite /subst /= -/(subst eval d) -/(ev1 v).
have [|u ->] := H k v; first by rewrite eqxx.
have [|d' /= ->] := IH Hu; last by eexists.
move=> k1 v1 E; apply: (H k1); case: eqP => // Ek.
by move: Hn; rewrite -Ek (dget_keys E).
Qed.

Lemma convert_Ok (l : seq (string * C)) (d d' : kdict) : uniq (dkeys l) -> convert d l = Ok d' -> dkeys d' = dkeys d /\
  forall k, match dget d k with
            | Some v => exists2 u, (if dget l k is Some c then scale c v else Ok v) = Ok u & dget d' k = Some u
            | None => dget d' k = None end.
Proof.
elim: l d => [|[k c] l IH] d /=.
  by move=> _ [<-]; split=> // k; case: (dget d k) => // v; exists v.
move=> /andP [Hn Hu]; case Ek: (dget d k) => [v|] /=.
  case Es: (scale c v) => [u|] //= /(IH _ Hu) [H1 H2]; split.
    by rewrite H1 dkeys_dset (dget_keys Ek).
  move=> k1; have := H2 k1; rewrite dget_dset; case: (k1 =P k) => [->|_] //.
  rewrite Ek; have -> : dget l k = None by apply/dget_None.
  by move=> [w [<-] H]; exists u.
move=> /(IH _ Hu) [H1 H2]; split=> // k1; have := H2 k1; case: (k1 =P k) => [->|_] //.
by rewrite Ek.
Qed.
Lemma convert_ex (l : seq (string * C)) (d : kdict) : uniq (dkeys l) ->
  (forall k v c, dget d k = Some v -> dget l k = Some c -> exists u, scale c v = Ok u) ->
  exists d', convert d l = Ok d'.
Proof.
elim: l d => [|[k c] l IH] d /=; first by exists d.
move=> /andP [Hn Hu] H.
have Hl k1 v c1 : dget d k1 = Some v -> dget l k1 = Some c1 -> exists u, scale c1 v = Ok u.
  move=> E1 E2; apply: (H k1) => //; case: eqP => // Ek.
  by move: Hn; rewrite -Ek (dget_keys E2).
case Ek: (dget d k) => [v|] /=; last exact: IH.
have [|u Eu] := H k v c Ek; first by rewrite eqxx.
rewrite Eu /=; apply: IH => // k1 v1 c1; rewrite dget_dset; case: eqP => [->|_]; last exact: Hl.
by move=> _ E; move: Hn; rewrite (dget_keys E).
Qed.

Lemma unit_ofE kw : dget (conv C) kw = unit_of C kw.
Proof.
rewrite /conv /unit_of /milli /micro /nano /pico !inE.
repeat (case: (kw =P _) => [->|?]; first by []); by rewrite /=;
  repeat (case: eqP => //).
Qed.

Lemma meansE kw v w : means kw v w <->
  exists2 u, ev1 v = Ok u & (if unit_of C kw is Some c then scale c u else Ok u) = Ok w.
Proof.
rewrite /PropsGtlK.means /ev1; split=> -[u E H]; exists u.
- by case: v E => //= *; congruence.
- case: (unit_of C kw) H => [c|->] //; case: u E => // x _; case: w => // y ->; exact: erefl.
- by case: v E => //= *; congruence.
- case: (unit_of C kw) H => [c|[->]] //; by case: u E => //= x _ [<-].
Qed.
Lemma means_inj kw v w w' : means kw v w -> means kw v w' -> w = w'.
Proof. by rewrite !meansE => -[u -> E] [u' [<-]]; rewrite E => -[]. Qed.

Lemma uconv : uniq (dkeys (conv C)). Proof. by []. Qed.
(** evaluation and units together *)
Lemma values_Ok (d d2 d3 : kdict) : subst eval d = Ok d2 -> convert d2 (conv C) = Ok d3 ->
  dkeys d3 = dkeys d /\ forall k, given k (dget d k) (dget d3 k).
Proof.
move=> /subst_Ok [K1 V1] /(convert_Ok uconv) [K2 V2]; split; first by rewrite K2.
move=> k; have := V1 k; case: (dget d k) => [v|] => [[u Eu E2]|E2]; have := V2 k; rewrite E2.
  by move=> [w Ew ->]; apply/meansE; exists u => //; rewrite -unit_ofE.
by move=> ->.
Qed.
Lemma values_ex (d : kdict) : uniq (dkeys d) -> (forall k v, dget d k = Some v -> exists w, means k v w) ->
  exists d2, subst eval d = Ok d2 /\ exists d3, convert d2 (conv C) = Ok d3.
Proof.
move=> Hu H; have [|d2 E2] := subst_ex Hu.
  by move=> k v /H [w /meansE [u Eu _]]; exists u.
exists d2; split=> //; have [K V] := subst_Ok E2; apply: (convert_ex uconv) => k u c Eu.
have := V k; case Ev: (dget d k) => [v|]; last by rewrite Eu.
move=> [u' Eu' E']; have [w /meansE [u2 E2' Ew]] := H _ _ Ev.
rewrite unit_ofE => Ec; exists w; move: Ew; rewrite Ec; congruence.
Qed.

Definition prep1 (d : kdict) : res kdict :=
  do d <- remap d [:: ("ports", "Portnames", true)];
  do d <- subst eval d; do d <- convert d (conv C);
  remap d [:: ("L", "length", false); ("Z0TL", "Z", false); ("xpos", "relpos", false)].
Lemma prepareE ctor (d : kdict) : prepare ctor d =
  do d <- prep1 d; do o <- choose ctor (ddel (ddel d "xpos") "plotkws");
  Ok (dget (ddel (ddel d "xpos") "plotkws") "ports", dget d "xpos", o).
Proof.
rewrite /GtlKw.prepare /prep1; case: (remap d _) => [d1|//]; cbn [bind].
case: (subst _ d1) => [d2|//]; cbn [bind]; case: (convert d2 _) => [d3|//]; cbn [bind]; exact: erefl.
Qed.

Lemma dhas_keys (d d' : kdict) k : dkeys d = dkeys d' -> dhas d k = dhas d' k.
Proof. by move=> E; rewrite !dhasE E. Qed.

Lemma prep1_Ok (d d' : kdict) : uniq (dkeys d) -> prep1 d = Ok d' ->
  [/\ uniq (dkeys d'), once d, written d "ports" <> None,
     forall kw, kw \in second_names -> dget d' kw = None &
     forall kw, kw \notin second_names -> given kw (written d kw) (dget d' kw)].
Proof.
move=> Hu; rewrite /prep1 /remap; case R1: (remap1 d _) => [d1|] //; cbn [bind].
have [U1 O1 M1 G1] := remap1_Ok Hu (isT : "ports" != "Portnames") R1.
cbn [bind]; case R2: (subst _ d1) => [d2|] //; cbn [bind]; case R3: (convert d2 _) => [d3|] //.
have [K3 G3] := values_Ok R2 R3; have U3 : uniq (dkeys d3) by rewrite K3.
cbn [bind]; case R4: (remap1 d3 _) => [d4|] //; have [U4 O4 _ G4] := remap1_Ok U3 (isT : "L" != "length") R4.
cbn [bind]; case R5: (remap1 d4 _) => [d5|] //; have [U5 O5 _ G5] := remap1_Ok U4 (isT : "Z0TL" != "Z") R5.
cbn [bind]; case R6: (remap1 d5 _) => [d6|] //; have [U6 O6 _ G6] := remap1_Ok U5 (isT : "xpos" != "relpos") R6.
rewrite /= => -[<-].
have D1 k : k != "ports" -> k != "Portnames" -> dget d1 k = dget d k.
  by move=> H1 H2; rewrite G1 (negbTE H1) (negbTE H2).
have H1 k : k != "ports" -> k != "Portnames" -> dhas d3 k = dhas d k.
  by move=> A B; rewrite (dhas_keys k K3) /dhas D1.
have H4 k : k != "L" -> k != "length" -> dhas d4 k = dhas d3 k by move=> /negbTE A /negbTE B; rewrite /dhas G4 A B.
have H5 k : k != "Z0TL" -> k != "Z" -> dhas d5 k = dhas d4 k by move=> /negbTE A /negbTE B; rewrite /dhas G5 A B.
split=> //.
- move=> p a; rewrite /synonyms /=; case: eqP => [-> [<-]|_] //; case: eqP => [-> [<-]|_].
    by rewrite -!H1.
  case: eqP => [-> [<-]|_]; first by rewrite -!H1 // -!H4.
  by case: eqP => [-> [<-]|_] //; rewrite -!H1 // -!H4 // -!H5.
- move: (M1 isT); rewrite /written /dhas /=; case: (dget d "ports") => //; by case: (dget d "Portnames").
- move=> kw; rewrite !inE => /or4P [] /eqP ->; rewrite G6 /= ?G5 /= ?G4 //=.
  by have := G3 "Portnames"; rewrite G1 /=; case: (dget d3 _).
- move=> kw; rewrite !inE !negb_or => /and4P [n1 n2 n3 n4].
  have gU (a b : string) (v w : option kval) : unit_of C a = unit_of C b -> given a v w -> given b v w.
    move=> E; case: v => [v|]; case: w => [w|] //=; by rewrite !meansE E.
  have gor k1 k2 : k1 != "ports" -> k1 != "Portnames" -> k2 != "ports" -> k2 != "Portnames" -> unit_of C k1 = unit_of C k2 ->
    given k1 (if dget d k1 is Some v then Some v else dget d k2) (if dget d3 k1 is Some v then Some v else dget d3 k2).
    move=> A1 A2 A3 A4 E; have g1 := G3 k1; have g2 := G3 k2; rewrite !D1 // in g1 g2.
    case: (dget d k1) (dget d3 k1) g1 => [v|] [w|] //= _; exact: (gU k2).
  rewrite G6 /written /synonyms /= (negbTE n4) !G5 /= (negbTE n3) !G4 /= (negbTE n2).
  case: (kw =P "xpos") => [->|m4] /=; first exact: gor.
  case: (kw =P "Z0TL") => [->|m3] /=; first exact: gor.
  case: (kw =P "L") => [->|m2] /=; first exact: gor.
  have := G3 kw; case: (kw =P "ports") => [->|m1]; first by rewrite G1 /=.
  by rewrite D1 //; [case: (dget d kw) | apply/eqP].
Qed.
Lemma prep1_ex (d : kdict) : uniq (dkeys d) -> once d -> written d "ports" <> None ->
  (forall k v, dget d k = Some v -> exists w, means k v w) -> exists d', prep1 d = Ok d'.
Proof.
move=> Hu Ho Hp Hv; rewrite /prep1 /remap.
have [|d1 R1] := @remap1_ex d "ports" "Portnames" true (Ho "ports" "Portnames" erefl).
  move=> _; move: Hp; rewrite /written /dhas /=; case: (dget d "ports") => //; by case: (dget d "Portnames").
have [U1 _ _ G1] := remap1_Ok Hu (isT : "ports" != "Portnames") R1; rewrite R1; cbn [bind].
have [|d2 [R2 [d3 R3]]] := @values_ex d1 U1.
  move=> k v; rewrite G1; case: eqP => [->|_]; last by case: eqP => // _; exact: Hv.
  case Ed: (dget d "ports") => [v'|]; first by move=> [<-]; exact: Hv.
  by move=> /Hv [w]; rewrite meansE => -[u A B]; exists w; rewrite meansE; exists u.
rewrite R2; cbn [bind]; rewrite R3; cbn [bind]; have [K3 G3] := values_Ok R2 R3.
have U3 : uniq (dkeys d3) by rewrite K3.
have D1 k : k != "ports" -> k != "Portnames" -> dget d1 k = dget d k.
  by move=> H1 H2; rewrite G1 (negbTE H1) (negbTE H2).
have H1 k : k != "ports" -> k != "Portnames" -> dhas d3 k = dhas d k.
  by move=> A B; rewrite (dhas_keys k K3) /dhas D1.
have [||d4 R4] := @remap1_ex d3 "L" "length" false; rewrite ?H1 ?(Ho "L" "length") //.
have [U4 _ _ G4] := remap1_Ok U3 (isT : "L" != "length") R4; rewrite R4; cbn [bind].
have H4 k : k != "L" -> k != "length" -> dhas d4 k = dhas d3 k by move=> /negbTE A /negbTE B; rewrite /dhas G4 A B.
have [||d5 R5] := @remap1_ex d4 "Z0TL" "Z" false; rewrite ?H4 ?H1 ?(Ho "Z0TL" "Z") //.
have [U5 _ _ G5] := remap1_Ok U4 (isT : "Z0TL" != "Z") R5; rewrite R5; cbn [bind].
have H5 k : k != "Z0TL" -> k != "Z" -> dhas d5 k = dhas d4 k by move=> /negbTE A /negbTE B; rewrite /dhas G5 A B.
have [||d6 R6] := @remap1_ex d5 "xpos" "relpos" false; rewrite ?H5 ?H4 ?H1 ?(Ho "xpos" "relpos") //.
by exists d6; rewrite R6.
Qed.

Definition dropped (kw : string) : bool := (kw \in second_names) || (kw \in [:: "xpos"; "plotkws"]).
(** a single keyword Larc in the call of rfGTL itself *)
Definition arc_call (ctor : kdict) : bool := (size ctor == 1%N) && dhas ctor "Larc".

Lemma choose_Ok ctor (d : kdict) o : choose ctor d = Ok o ->
  if has (dhas d) rlc_keys then o = DRlc d else
  if arc_call ctor then exists2 v, dget ctor "Larc" = Some v & o = DArc v else o = DTrl d.
Proof.
rewrite /choose /arc_call; case: (has _ _); first by case: (dhas d _) => // -[<-].
case: (_ && _); last by case: (dhas d _) => // -[<-].
by case: (dget ctor _) => // v [<-]; exists v.
Qed.
Lemma choose_ex ctor (d : kdict) : (exists o, choose ctor d = Ok o) <->
  (~~ dhas d "Zbase" \/ (~~ has (dhas d) rlc_keys && arc_call ctor)).
Proof.
rewrite /choose /arc_call; case: (has _ _); case: (dhas d "Zbase") => /=.
- by split=> [[]|[]].
- by split=> [_|_]; [left|eexists].
- case: (_ =P _) => /= H; last by split=> [[]|[]].
  rewrite /dhas; case: (dget ctor _) => [v|]; last by split=> [[]|[]].
  by split=> [_|_]; [right|eexists].
- split=> [_|_]; first by left.
  case: (_ =P _) => /= H; last by eexists.
  by rewrite /dhas; case: (dget ctor _) => [v|]; eexists.
Qed.

Lemma given_has kw v w : given kw v w -> (if v is Some _ then true else false) = (if w is Some _ then true else false).
Proof. by case: v => [v|]; case: w. Qed.

Lemma kws_get (d : kdict) kw : uniq (dkeys d) ->
  dget (ddel (ddel d "xpos") "plotkws") kw = if kw \in [:: "xpos"; "plotkws"] then None else dget d kw.
Proof.
move=> Hu; have U1 : uniq (dkeys (ddel d "xpos")) by rewrite dkeys_ddel rem_uniq.
by rewrite dget_ddel // dget_ddel // !inE; case: eqP => // _; rewrite ?orbT // orbF; case: eqP.
Qed.

(** what prepare makes of a description *)
Lemma prepare_Ok ctor (d : kdict) p x o : uniq (dkeys d) -> prepare ctor d = Ok (p, x, o) ->
  exists k : kdict, [/\ once d, written d "ports" <> None, given "ports" (written d "ports") p,
    given "xpos" (written d "xpos") x &
    [/\ choose ctor k = Ok o, p = dget k "ports" & forall kw, if dropped kw then dget k kw = None else given kw (written d kw) (dget k kw)]].
Proof.
move=> Hu; rewrite prepareE; case E1: (prep1 d) => [d1|] //; cbn [bind].
have [U1 O1 W1 N1 G1] := prep1_Ok Hu E1.
case E2: (choose _ _) => [o1|] //; cbn [bind] => -[<- <- <-].
exists (ddel (ddel d1 "xpos") "plotkws"); split=> //; last split=> //.
- by rewrite kws_get //=; exact: G1.
- exact: G1.
- move=> kw; rewrite kws_get // /dropped; case: (boolP (kw \in second_names)) => [H|H] /=.
    by rewrite N1 // if_same.
  by case: (kw \in _) => //; exact: G1.
Qed.

Lemma kept (d k : kdict) : (forall kw, if dropped kw then dget k kw = None else given kw (written d kw) (dget k kw)) ->
  forall kw, kw \in "Zbase" :: rlc_keys -> dhas k kw = dhas d kw.
Proof.
move=> Gk kw H; have := Gk kw.
have -> : dropped kw = false by move: H; rewrite !inE => /or4P [/eqP ->|/eqP ->|/eqP ->|/or4P [/eqP ->|/eqP ->|/eqP ->|/eqP ->]].
have -> : written d kw = dget d kw.
  rewrite /written; case: (dget d kw) => //; have -> // : dget synonyms kw = None.
  by move: H; rewrite !inE => /or4P [/eqP ->|/eqP ->|/eqP ->|/or4P [/eqP ->|/eqP ->|/eqP ->|/eqP ->]].
by move=> /given_has; rewrite /dhas.
Qed.
Lemma kept_rlc (d k : kdict) : (forall kw, if dropped kw then dget k kw = None else given kw (written d kw) (dget k kw)) ->
  has (dhas k) rlc_keys = has (fun kw => dhas d kw) rlc_keys.
Proof. by move=> Gk; apply: eq_in_has => kw H; apply: kept => //; rewrite inE H orbT. Qed.

Lemma means_unit a b v w : unit_of C a = unit_of C b -> means a v w -> means b v w.
Proof. by rewrite !meansE => ->. Qed.
Lemma syn_unit p a : dget synonyms p = Some a -> [/\ unit_of C p = unit_of C a, p \notin second_names & a \in second_names].
Proof. by rewrite /synonyms /=; do 4 (case: eqP => [->|_]; first by case=> <-). Qed.
Lemma second_syn a : a \in second_names -> exists p, dget synonyms p = Some a.
Proof. by rewrite !inE => /or4P [] /eqP ->; [exists "ports"|exists "L"|exists "Z0TL"|exists "xpos"]. Qed.

Lemma written_all (d : kdict) : once d -> (forall kw, kw \notin second_names -> forall v, written d kw = Some v -> exists w, means kw v w) <->
  (forall kw v, dget d kw = Some v -> exists w, means kw v w).
Proof.
move=> Ho; split=> H kw.
  move=> v E; case: (boolP (kw \in second_names)) => Hk.
    have [p Ep] := second_syn Hk; have [Eu Np _] := syn_unit Ep.
    have := Ho _ _ Ep; rewrite /dhas E andbT; case Edp: (dget d p) => // _.
    have [|w Hw] := H _ Np v; first by rewrite /written Edp Ep.
    by exists w; apply: means_unit Hw.
  by apply: H => //; rewrite /written E.
move=> Hn v; rewrite /written; case E: (dget d kw) => [v'|]; first by move=> [<-]; exact: H E.
case Ea: (dget synonyms kw) => [a|] // /H [w Hw]; exists w; apply: means_unit Hw.
by have [-> _ _] := syn_unit Ea.
Qed.

(** ** the theorems *)

(** the ports, the position and every keyword of the object are what is written for them,
    under one name or the other, with texts evaluated and units converted to SI; the object
    gets no other keywords *)
Theorem C60_values ctor (d : kdict) p x o : uniq (dkeys d) -> prepare ctor d = Ok (p, x, o) ->
  [/\ given "ports" (written d "ports") p, given "xpos" (written d "xpos") x &
   forall k, o = DRlc k \/ o = DTrl k -> forall kw,
     if kw \in [:: "Portnames"; "length"; "Z"; "relpos"; "xpos"; "plotkws"] then dget k kw = None
     else given kw (written d kw) (dget k kw)].
Proof.
move=> Hu /(prepare_Ok Hu) [k [_ _ Gp Gx [Ec _ Gk]]]; split=> // k' Ho kw.
have Ek : k' = k.
  have := choose_Ok Ec; case: (has _ _); first by case: Ho => -> // [].
  by case: (arc_call _) => [[v _]|]; case: Ho => -> // -[].
by have := Gk kw; rewrite /dropped Ek !inE -!orbA.
Qed.

(** which object is made *)
Theorem C60_object ctor (d : kdict) p x o : uniq (dkeys d) -> prepare ctor d = Ok (p, x, o) ->
  if has (fun kw => dhas d kw) [:: "Ls"; "Cs"; "Rs"; "Lp"; "Cp"; "Rp"] then exists k, o = DRlc k else
  if arc_call ctor then exists2 v, dget ctor "Larc" = Some v & o = DArc v else exists k, o = DTrl k.
Proof.
move=> Hu /(prepare_Ok Hu) [k [_ _ _ _ [Ec _ Gk]]].
rewrite -(kept_rlc Gk).
have := choose_Ok Ec; case: (has _ _); first by move=> ->; exists k.
by case: (arc_call _) => // ->; exists k.
Qed.

(** ... and the descriptions that are accepted *)
Theorem C60_accepts ctor (d : kdict) : uniq (dkeys d) ->
  (exists r, prepare ctor d = Ok r) <->
  [/\ once d, written d "ports" <> None, forall kw v, dget d kw = Some v -> exists w, means kw v w &
      dhas d "Zbase" -> arc_call ctor && ~~ has (fun kw => dhas d kw) [:: "Ls"; "Cs"; "Rs"; "Lp"; "Cp"; "Rp"]].
Proof.
move=> Hu; split=> [[[[p x] o] E]|[Ho Hp Hv Hz]].
  have [k [O1 W1 _ _ [Ec _ Gk]]] := prepare_Ok Hu E; split=> //.
    move: E; rewrite prepareE; case E1: (prep1 d) => [d1|] // _.
    have [_ _ _ _ G1] := prep1_Ok Hu E1; apply/written_all => // kw Hk v Ev.
    by have := G1 _ Hk; rewrite Ev; case: (dget d1 kw) => // w Hw; exists w.
  have [|/andP [A B]] := iffLR (choose_ex ctor k) (ex_intro _ _ Ec).
    by rewrite (kept Gk) // => /negbTE ->.
  by rewrite -(kept_rlc Gk) A B.
have [d1 E1] := prep1_ex Hu Ho Hp Hv; have [U1 O1 W1 N1 G1] := prep1_Ok Hu E1.
have Gk : forall kw, if dropped kw then dget (ddel (ddel d1 "xpos") "plotkws") kw = None
   else given kw (written d kw) (dget (ddel (ddel d1 "xpos") "plotkws") kw).
  move=> kw; rewrite kws_get // /dropped; case: (boolP (kw \in second_names)) => [H|H] /=.
    by rewrite N1 // if_same.
  by case: (kw \in _) => //; exact: G1.
have [|o Eo] := iffRL (choose_ex ctor (ddel (ddel d1 "xpos") "plotkws")).
  rewrite (kept Gk) // (kept_rlc Gk); case: (dhas d "Zbase") Hz => [/(_ isT)|_]; last by left.
  by rewrite andbC; right.
by eexists; rewrite prepareE E1; cbn [bind]; rewrite Eo; cbn [bind].
Qed.

(** both names of a keyword, or no ports: ValueError *)
Theorem C60_refused ctor (d : kdict) : uniq (dkeys d) ->
  (forall kw v, dget d kw = Some v -> exists w, means kw v w) -> ~ once d \/ written d "ports" = None ->
  prepare ctor d = Raise ValueError.
Proof.
move=> Hu Hv Hbad; rewrite prepareE; suff -> : prep1 d = Raise ValueError by [].
case E: (prep1 d) => [d1|e]; first by have [_ O1 W1 _ _] := prep1_Ok Hu E; case: Hbad.
congr Raise; move: E; have V (d0 : kdict) t e0 : remap1 d0 t = Raise e0 -> e0 = ValueError.
  rewrite /remap1; case: t => [[a b] m]; case: (dhas d0 a) => /=; first by case: (dhas d0 b) => // -[].
  by case: (dget d0 b) => //; case: m => // -[].
rewrite /prep1 /remap; case R1: (remap1 d _) => [d1|e1]; cbn [bind]; last by move=> [<-]; exact: V R1.
have [U1 _ _ G1] := remap1_Ok Hu (isT : "ports" != "Portnames") R1.
have [|d2 [R2 [d3 R3]]] := @values_ex d1 U1.
  move=> k v; rewrite G1; case: eqP => [->|_]; last by case: eqP => // _; exact: Hv.
  case Ed: (dget d "ports") => [v'|]; first by move=> [<-]; exact: Hv.
  by move=> /Hv [w]; rewrite meansE => -[u A B]; exists w; rewrite meansE; exists u.
rewrite R2; cbn [bind]; rewrite R3; cbn [bind].
case R4: (remap1 d3 _) => [d4|e4]; cbn [bind]; last by move=> [<-]; exact: V R4.
case R5: (remap1 d4 _) => [d5|e5]; cbn [bind]; last by move=> [<-]; exact: V R5.
case R6: (remap1 d5 _) => [d6|e6]; cbn [bind]; last by move=> [<-]; exact: V R6.
by [].
Qed.

(** the order of the keywords and the choice between the two names of a keyword do not
    matter *)
Theorem C60_synonyms ctor (d d' : kdict) p x o : uniq (dkeys d) -> uniq (dkeys d') -> once d' ->
  (forall kw, kw \notin [:: "Portnames"; "length"; "Z"; "relpos"] -> written d kw = written d' kw) ->
  prepare ctor d = Ok (p, x, o) -> exists2 o', prepare ctor d' = Ok (p, x, o') & same_dev o o'.
Proof.
move=> Hu Hu' Ho' Hw E; have [|O1 W1 V1 Z1] := iffLR (C60_accepts ctor Hu); first by eexists; exact: E.
have Hh kw : kw \in "Zbase" :: rlc_keys -> dhas d kw = dhas d' kw.
  move=> Hk; have Hn : kw \notin second_names /\ dget synonyms kw = None.
    by move: Hk; rewrite !inE => /or4P [/eqP ->|/eqP ->|/eqP ->|/or4P [/eqP ->|/eqP ->|/eqP ->|/eqP ->]].
  by have := Hw kw Hn.1; rewrite /written Hn.2 /dhas; case: (dget d kw); case: (dget d' kw).
have [|[[p' x'] o'] E'] := iffRL (C60_accepts ctor Hu').
  split=> //.
  - by rewrite -Hw.
  - apply/written_all => // kw Hk v; rewrite -(Hw _ Hk); exact: (iffRL (written_all O1)).
  - by rewrite -Hh // => /Z1; rewrite (eq_in_has (a2 := fun kw => dhas d' kw)) // => kw Hk; apply: Hh; rewrite inE Hk orbT.
have [k [_ _ P1 X1 [C1 _ G1]]] := prepare_Ok Hu E; have [k' [_ _ P2 X2 [C2 _ G2]]] := prepare_Ok Hu' E'.
have given_inj kw v w w' : given kw v w -> given kw v w' -> w = w'.
  by case: v w w' => [v|] [w|] [w'|] //= A B; rewrite (means_inj A B).
have Ek kw : dget k kw = dget k' kw.
  case: (boolP (dropped kw)) => Edr; have A := G1 kw; have B := G2 kw; first by rewrite Edr in A B; rewrite A B.
  rewrite (negbTE Edr) in A B; apply: (given_inj kw (written d kw)) => //; rewrite Hw //.
  by apply/negP => H; move/negP: Edr; apply; rewrite /dropped; apply/orP; left; exact: H.
have -> : p = p' by apply: given_inj P1 _; rewrite Hw.
have -> : x = x' by apply: given_inj X1 _; rewrite Hw.
exists o' => //; have := choose_Ok C1; have := choose_Ok C2.
rewrite (kept_rlc G1) (kept_rlc G2).
have -> : has (fun kw => dhas d kw) rlc_keys = has (fun kw => dhas d' kw) rlc_keys.
  by apply: eq_in_has => kw Hk; apply: Hh; rewrite inE Hk orbT.
case: (has _ _) => [-> -> //|]; case: (arc_call _) => [[v Ev ->] [v' Ev' ->]|-> -> //].
by move: Ev; rewrite Ev' => -[].
Qed.

(** a lumped block: resistances in Ohm, inductances in nH, capacities in pF *)
Theorem C60_rlc ctor (d : kdict) p x k z (rs ls cs rp lp cp : option C) : uniq (dkeys d) ->
  prepare ctor d = Ok (p, x, DRlc k) ->
  [/\ dget d "Rs" = omap KNum rs, dget d "Ls" = omap KNum ls & dget d "Cs" = omap KNum cs] ->
  [/\ dget d "Rp" = omap KNum rp, dget d "Lp" = omap KNum lp & dget d "Cp" = omap KNum cp] ->
  let o := Rlc (odflt 0 rs) (odflt 0 ls * nano C) (if cs is Some c then Fin (c * pico C) else Inf)
               (if rp is Some r then Fin r else Inf) (if lp is Some l then Fin (l * nano C) else Inf)
               (odflt 0 cp * pico C) z in
  rlc_of z k = Ok o /\
  forall w S Zb, zref z Zb != 0 -> ~ dc_unscaled o w -> (rlc_getS o w Zb (no_params C)).2 = Ok S ->
    is_scat2 (rlc_law ('i * w) o) (zref z Zb) S.
Proof.
move=> Hu /(C60_values Hu) [_ _ /(_ k (or_introl erefl)) V] [E1 E2 E3] [E4 E5 E6] o; split; last first.
  by move=> w S Zb Hz Hd HS; have := @C36_two_port _ o w Zb (no_params C) S Hz; rewrite /rlc_set /=; apply.
have G kw (e : option C) : kw \in rlc_keys -> dget d kw = omap KNum e ->
  dget k kw = omap (fun c => KNum (if unit_of C kw is Some u then c * u else c)) e.
  move=> Hk Ee; have := V kw.
  have -> : (kw \in [:: "Portnames"; "length"; "Z"; "relpos"; "xpos"; "plotkws"]) = false.
    by move: Hk; rewrite !inE => /or4P [/eqP ->|/eqP ->|/eqP ->|/or3P [/eqP ->|/eqP ->|/eqP ->]].
  have -> : written d kw = dget d kw.
    rewrite /written; case: (dget d kw) => //; have -> // : dget synonyms kw = None.
    by move: Hk; rewrite !inE => /or4P [/eqP ->|/eqP ->|/eqP ->|/or3P [/eqP ->|/eqP ->|/eqP ->]].
  rewrite Ee; case: e {Ee} => [c|] /=; case: (dget k kw) => //= w; rewrite meansE /= => -[u [<-]].
  by case: (unit_of C kw) => [t|] /= [<-].
rewrite /rlc_of (G _ _ _ E1) // (G _ _ _ E2) // (G _ _ _ E3) // (G _ _ _ E4) // (G _ _ _ E5) // (G _ _ _ E6) //.
rewrite /o; case: rs {E1 o} => [rs|]; case: ls {E2} => [ls|]; case: cs {E3} => [cs|]; case: rp {E4} => [rp|];
  case: lp {E5} => [lp|]; case: cp {E6} => [cp|] //=; by rewrite ?mul0r.
Qed.

(** no block can describe an arc: a Larc of a block goes to a line ... *)
Theorem C60_arc_refuted ctor (d : kdict) p x o : uniq (dkeys d) -> ~~ arc_call ctor ->
  prepare ctor d = Ok (p, x, o) ->
  (forall v, o <> DArc v) /\
  forall c, dget d "Larc" = Some (KNum c) -> dkeys d =i [:: "ports"; "Larc"] ->
    exists2 k, o = DTrl k & dget k "Larc" = Some (KNum (c * nano C)).
Proof.
move=> Hu Ha E; have := C60_object Hu E; rewrite (negbTE Ha) => Ho; split.
  by move=> v Ev; move: Ho; rewrite Ev; case: (has _ _) => -[].
move=> c Hc Hk; move: Ho; have -> : has (fun kw => dhas d kw) rlc_keys = false by rewrite /= !dhasE !Hk.
move=> [k Ek]; exists k => //; have [_ _ /(_ k (or_intror Ek) "Larc")] := C60_values Hu E.
rewrite /written Hc /=; case: (dget k _) => //= w; rewrite meansE /= => -[u [<-]]; by move=> [<-].
Qed.
(** ... and rfGTL(..., Larc = v) makes an arc of every block without lumped elements, lines
    included *)
Theorem C60_arc_all ctor (d : kdict) v p x o : uniq (dkeys d) -> ctor = [:: ("Larc", v)] ->
  ~~ has (dhas d) rlc_keys -> prepare ctor d = Ok (p, x, o) -> o = DArc v.
Proof.
move=> Hu Ec Hn /(C60_object Hu); rewrite (negbTE Hn : has (fun kw => dhas d kw) _ = false).
by rewrite /arc_call Ec /= => -[w [<-]].
Qed.
End Props.

Section Witness.
Variable C : numClosedFieldType.
(** R = 2 is a variable *)
Definition kw_eval (s : string) : res (kval C unit) := if s == "R" then Ok (KNum 2%:R) else Raise NameError.
Definition kw_block : kdict C unit :=
  [:: ("relpos", KNum 1); ("Portnames", KObj tt); ("Cs", KNum 100%:R); ("Rs", KStr "R"); ("Lp", KList [:: 1; 2%:R])].
Example C60_witness : uniq (dkeys kw_block) /\
  prepare kw_eval [::] kw_block =
    Ok (Some (KObj tt), Some (KNum 1),
        DRlc [:: ("Cs", KNum (100%:R * pico C)); ("Rs", KNum 2%:R); ("Lp", KList [:: 1 * nano C; 2%:R * nano C]);
                 ("ports", KObj tt)]).
Proof. by []. Qed.
(** a line described with the second names, and an arc *)
Example C60_witness_line :
  prepare kw_eval [::] [:: ("length", KStr "R"); ("ports", KObj tt); ("Z", KNum 50%:R)] =
    Ok (Some (KObj tt), None, DTrl [:: ("ports", KObj tt); ("L", KNum (2%:R : C)); ("Z0TL", KNum 50%:R)]) /\
  prepare kw_eval [::] [:: ("Larc", KNum 20%:R); ("ports", KObj tt)] =
    Ok (Some (KObj tt), None, DTrl [:: ("Larc", KNum (20%:R * nano C)); ("ports", KObj tt)]).
Proof. by []. Qed.
End Witness.

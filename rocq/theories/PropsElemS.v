(** C62 (continued): set on circuits of rfRLC, rfTRL, rfCoupler and rfBase objects. *)
From mathcomp Require Import all_ssreflect all_algebra.
From Coq Require Import String Ascii.
From Coq Require List.
From Verif Require Import Base MxLib ConvModel ConvSpec DevModel TrlModel CircModel CircSpec CircLib CircInv CircHist CircGet CircMain CircOrd CircThm CircThm2 CircThm3 CircSetP CircSetX CircThm6 CircElem PropsCircS PropsElem.
Set Implicit Arguments.
Unset Strict Implicit.
Unset Printing Implicit Defensive.
Import Order.TTheory GRing.Theory Num.Theory.
Local Open Scope string_scope.
Local Open Scope ring_scope.
Local Open Scope seq_scope.

(** ** the set methods *)
Section Set1.
Variable C : numClosedFieldType.
Notation kws := (seq (string * ext C)).
Implicit Types (kw : kws) (e : elem C).

Lemma rlc_kw_cat (o o1 : rlc C) a b m m1 : rlc_kw o a m = (o1, Ok m1) ->
  rlc_kw o (a ++ b) m = rlc_kw o1 b m1.
Proof.
elim: a o m => [|[k v] a IH] o m /=; first by case=> -> ->.
case: (rlc_get o k) => [v0|] //; case: (rlc_put o k v) => [o'|] //; exact: IH.
Qed.

Lemma trl_kw_cat xs (o : trl C) xs1 o1 a b : trl_kw xs o a = (xs1, o1, Ok tt) ->
  exists o2, [/\ t_L o2 = t_L o1, t_zb o2 = t_zb o1 & trl_kw xs o (a ++ b) = trl_kw xs1 o2 b].
Proof.
elim: a xs o => [|[k [v|]] a IH] xs o //=.
  by case=> <- <-; exists o.
by do 2!(case: ifP => _; first exact: IH).
Qed.

Definition values_set (o o' : rlc C) kw : Prop :=
  let given k d := odflt d (dget kw k) in
  [/\ [/\ Fin (Rs o') = given "Rs" (Fin (Rs o)), Fin (Ls o') = given "Ls" (Fin (Ls o)) & Cs o' = given "Cs" (Cs o)],
      [/\ Rp o' = given "Rp" (Rp o), Lp o' = given "Lp" (Lp o) & Fin (Cp o') = given "Cp" (Fin (Cp o))] &
      rlc_zb o' = rlc_zb o].

Lemma rlc_kw_values (o : rlc C) kw m : uniq (dkeys kw) -> rmap (fun _ => tt) (rlc_kw o kw m).2 = Ok tt ->
  values_set o (rlc_kw o kw m).1 kw.
Proof.
elim: kw o m => [|[k v] kw IH] o m //= /andP [Hk Hu].
have Hn k1 : k1 = k -> dget kw k1 = None by move=> ->; apply/dget_None.
rewrite /rlc_get /rlc_put.
case: (k =P "Rs") => [E|?]; first (subst k; case: v => [x|] //= Hr; have [[E1 E2 E3] [E4 E5 E6] E7] := IH _ _ Hu Hr;
  by rewrite /values_set E1 E2 E3 E4 E5 E6 E7 /= ?(Hn _ erefl)).
case: (k =P "Ls") => [E|?]; first (subst k; case: v => [x|] //= Hr; have [[E1 E2 E3] [E4 E5 E6] E7] := IH _ _ Hu Hr;
  by rewrite /values_set E1 E2 E3 E4 E5 E6 E7 /= ?(Hn _ erefl)).
case: (k =P "Cs") => [E|?]; first (subst k; rewrite /= => Hr; have [[E1 E2 E3] [E4 E5 E6] E7] := IH _ _ Hu Hr;
  by rewrite /values_set E1 E2 E3 E4 E5 E6 E7 /= ?(Hn _ erefl)).
case: (k =P "Rp") => [E|?]; first (subst k; rewrite /= => Hr; have [[E1 E2 E3] [E4 E5 E6] E7] := IH _ _ Hu Hr;
  by rewrite /values_set E1 E2 E3 E4 E5 E6 E7 /= ?(Hn _ erefl)).
case: (k =P "Lp") => [E|?]; first (subst k; rewrite /= => Hr; have [[E1 E2 E3] [E4 E5 E6] E7] := IH _ _ Hu Hr;
  by rewrite /values_set E1 E2 E3 E4 E5 E6 E7 /= ?(Hn _ erefl)).
case: (k =P "Cp") => [E|?]; first (subst k; case: v => [x|] //= Hr; have [[E1 E2 E3] [E4 E5 E6] E7] := IH _ _ Hu Hr;
  by rewrite /values_set E1 E2 E3 E4 E5 E6 E7 /= ?(Hn _ erefl)).
by [].
Qed.

(** each of the six values of an RLC object is the one given for it, or unchanged *)
Theorem C62_set_rlc ps xs (o : rlc C) kw :
  let given k d := odflt d (dget kw k) in
  uniq (dkeys kw) -> (e_set kw (ERlc ps xs o)).2 = Ok tt ->
  exists2 o', (e_set kw (ERlc ps xs o)).1 = ERlc ps xs o' &
    [/\ [/\ Fin (Rs o') = given "Rs" (Fin (Rs o)), Fin (Ls o') = given "Ls" (Fin (Ls o)) & Cs o' = given "Cs" (Cs o)],
        [/\ Rp o' = given "Rp" (Rp o), Lp o' = given "Lp" (Lp o) & Fin (Cp o') = given "Cp" (Fin (Cp o))] &
        rlc_zb o' = rlc_zb o].
Proof. by move=> given Hu H; exists (rlc_kw o kw false).1 => //; exact: rlc_kw_values. Qed.

Lemma rlc_put_get (o o1 : rlc C) k v : rlc_put o k v = Some o1 ->
  rlc_get o1 k = Some v /\ (forall k', k' != k -> rlc_get o1 k' = rlc_get o k') /\ (rlc_get o k = Some v -> o1 = o).
Proof.
rewrite /rlc_put /rlc_get.
case: (k =P "Rs") => [->|_]; first by case: v => // x [<-]; split=> //; split=> [k' /negbTE ->|[<-]]; last case: (o).
case: (k =P "Ls") => [->|_]; first by case: v => // x [<-]; split=> //; split=> [k' /negbTE ->|[<-]]; last case: (o).
case: (k =P "Cs") => [->|_]; first by case=> <-; split=> //; split=> [k' /negbTE ->|[<-]]; last case: (o).
case: (k =P "Rp") => [->|_]; first by case=> <-; split=> //; split=> [k' /negbTE ->|[<-]]; last case: (o).
case: (k =P "Lp") => [->|_]; first by case=> <-; split=> //; split=> [k' /negbTE ->|[<-]]; last case: (o).
case: (k =P "Cp") => [->|_] //; by case: v => // x [<-]; split=> //; split=> [k' /negbTE ->|[<-]]; last case: (o).
Qed.

Lemma ext_eqP (x y : ext C) : reflect (x = y) (ext_eq x y).
Proof.
case: x => [a|]; case: y => [b|] /=; try by constructor.
by apply: (iffP eqP) => [->|[]].
Qed.

Lemma rlc_kw_mod (o o' : rlc C) kw m m' : uniq (dkeys kw) -> rlc_kw o kw m = (o', Ok m') ->
  (forall k, k \notin dkeys kw -> rlc_get o' k = rlc_get o k) /\ (m' = false <-> m = false /\ o' = o).
Proof.
elim: kw o m => [|[k v] kw IH] o m /=; first by move=> _ [<- <-]; split=> //; split=> [|[]].
case/andP=> Hk Hu; case Eg: (rlc_get o k) => [v0|] //; case Ep: (rlc_put o k v) => [o1|] // E.
have [H1 H2] := IH _ _ Hu E; have [G1 [G2 G3]] := rlc_put_get Ep.
split=> [k'|]; first by rewrite inE negb_or => /andP [Hk' Hk'']; rewrite H1 // G2.
rewrite H2; split=> [[/orP HF ->]|[-> Eo]].
  have Hv : v0 = v by apply/ext_eqP/negPn/negP => Hn; apply: HF; right.
  by split; [case: (m) HF => // HF; case: HF; left|apply: G3; rewrite Eg Hv].
have Hv : v0 = v by move: (H1 _ Hk); rewrite Eo Eg G1 => -[].
by rewrite Hv (introT (ext_eqP _ _) erefl); split=> //; rewrite Eo G3 // Eg Hv.
Qed.

(** set reports whether the object has changed *)
Theorem C62_set_modified (o : rlc_obj C) kw m : uniq (dkeys kw) -> (ro_set o kw).2 = Ok m ->
  (m = false <-> ro_rlc (ro_set o kw).1 = ro_rlc o).
Proof.
rewrite /ro_set; case E: (rlc_kw _ _ _) => [o' r] /= Hu Er; rewrite Er in E.
by have [_ ->] := rlc_kw_mod Hu E; split=> [[]|].
Qed.

Lemma rlc_kw_accepts (o : rlc C) kw m : rmap (fun _ => tt) (rlc_kw o kw m).2 = Ok tt <->
  List.Forall (fun kv => kv.1 \in [:: "Cs"; "Rp"; "Lp"] \/ kv.1 \in [:: "Rs"; "Ls"; "Cp"] /\ exists x, kv.2 = Fin x) kw.
Proof.
elim: kw o m => [|[k v] kw IH] o m /=; first by split=> // _.
have F (P : string * ext C -> Prop) x l : List.Forall P (x :: l) <-> P x /\ List.Forall P l.
  by split=> [H|[H1 H2]]; [split; [exact: (List.Forall_inv H)|exact: (List.Forall_inv_tail H)]|constructor].
rewrite F /= !inE /rlc_get /rlc_put.
case: (k =P "Rs") => [E|?].
  subst k.
  case: v => [x|] /=; last by split=> // -[[//|[_ [x]]]].
  by rewrite IH; split=> [H|[_ H]] //; split=> //; right; split=> //; exists x.
case: (k =P "Ls") => [E|?].
  subst k.
  case: v => [x|] /=; last by split=> // -[[//|[_ [x]]]].
  by rewrite IH; split=> [H|[_ H]] //; split=> //; right; split=> //; exists x.
case: (k =P "Cs") => [E|?].
  subst k.
  by rewrite IH; split=> [H|[_ H]] //; split=> //; left.
case: (k =P "Rp") => [E|?].
  subst k.
  by rewrite IH; split=> [H|[_ H]] //; split=> //; left.
case: (k =P "Lp") => [E|?].
  subst k.
  by rewrite IH; split=> [H|[_ H]] //; split=> //; left.
case: (k =P "Cp") => [E|?].
  subst k.
  case: v => [x|] /=; last by split=> // -[[//|[_ [x]]]].
  by rewrite IH; split=> [H|[_ H]] //; split=> //; right; split=> //; exists x.
by split=> // -[[]//] [].
Qed.

(** accepted: the six names, with finite Rs, Ls, Cp *)
Theorem C62_set_rlc_accepts ps xs (o : rlc C) kw :
  (e_set kw (ERlc ps xs o)).2 = Ok tt <->
  List.Forall (fun kv => kv.1 \in [:: "Cs"; "Rp"; "Lp"] \/ kv.1 \in [:: "Rs"; "Ls"; "Cp"] /\ exists x, kv.2 = Fin x) kw.
Proof.
exact: rlc_kw_accepts.
Qed.

(** an unknown name: ValueError, the ones before it are set, the ones after it not *)
Theorem C62_set_rlc_unknown ps xs (o : rlc C) e1 a k v b :
  k \notin [:: "Rs"; "Ls"; "Cs"; "Rp"; "Lp"; "Cp"] -> e_set a (ERlc ps xs o) = (e1, Ok tt) ->
  e_set (a ++ (k, v) :: b) (ERlc ps xs o) = (e1, Raise ValueError).
Proof.
rewrite !inE !negb_or => /and5P [/negbTE K1 /negbTE K2 /negbTE K3 /negbTE K4 /andP [/negbTE K5 /negbTE K6]].
rewrite /e_set; case E: (rlc_kw o a false) => [o1 [m1|]] //= -[<-].
by rewrite (rlc_kw_cat _ E) /= /rlc_get K1 K2 K3 K4 K5 K6.
Qed.

(** a line: L, with the position of the second port, and Zbase *)
Theorem C62_set_trl ps xs l (o : trl C) kw :
  let given k d := odflt d (dget kw k) in
  uniq (dkeys kw) -> (e_set kw (ETrl ps xs l o)).2 = Ok tt ->
  exists xs' o', [/\ (e_set kw (ETrl ps xs l o)).1 = ETrl ps xs' l o',
    Fin (t_L o') = given "L" (Fin (t_L o)), Fin (t_zb o') = given "Zbase" (Fin (t_zb o)), t_solved o' = [::] &
    xs' = if "L" \in dkeys kw then [:: xs`_0; t_L o' + xs`_0] else xs].
Proof.
move=> given Hu H; exists (trl_kw xs o kw).1.1, (trl_kw xs o kw).1.2.
suff: [/\ Fin (t_L (trl_kw xs o kw).1.2) = given "L" (Fin (t_L o)),
  Fin (t_zb (trl_kw xs o kw).1.2) = given "Zbase" (Fin (t_zb o)), t_solved (trl_kw xs o kw).1.2 = [::] &
  (trl_kw xs o kw).1.1 = if "L" \in dkeys kw then [:: xs`_0; t_L (trl_kw xs o kw).1.2 + xs`_0] else xs].
  by rewrite /e_set; case: (trl_kw _ _ _) => [[a b] r] /= [H1 H2 H3 H4]; split.
have {}H : (trl_kw xs o kw).2 = Ok tt by move: H; rewrite /e_set; case: (trl_kw _ _ _) => [[a b] r].
rewrite /given {given}; elim: kw xs o Hu H => [|[k v] kw IH] xs o //= /andP [Hk Hu].
have Hn : dget kw k = None by apply/dget_None.
case: v => [v|] //; case: eqP => [E|N1].
  subst k => Hr; have [E1 -> -> E2] := IH _ _ Hu Hr.
  by split; rewrite ?E1 ?Hn // E2 (negbTE Hk) /=; move: E1; rewrite Hn /= => -[->].
case: eqP => // E; subst k => Hr; have [-> -> -> ->] := IH _ _ Hu Hr.
by rewrite Hn inE.
Qed.

Theorem C62_set_trl_accepts ps xs l (o : trl C) kw :
  (e_set kw (ETrl ps xs l o)).2 = Ok tt <->
  List.Forall (fun kv => kv.1 \in [:: "L"; "Zbase"] /\ exists x, kv.2 = Fin x) kw.
Proof.
have -> : (e_set kw (ETrl ps xs l o)).2 = (trl_kw xs o kw).2 by rewrite /e_set; case: (trl_kw _ _ _) => [[a b] r].
elim: kw xs o => [|[k v] kw IH] xs o /=; first by split=> // _.
have F (P : string * ext C -> Prop) x m : List.Forall P (x :: m) <-> P x /\ List.Forall P m.
  by split=> [H|[H1 H2]]; [split; [exact: (List.Forall_inv H)|exact: (List.Forall_inv_tail H)]|constructor].
rewrite F /= !inE; case: v => [v|]; last by split=> // -[[_ [x]]].
case: eqP => _ /=; first by rewrite IH; split=> [H|[_ H]] //; split=> //; split=> //; exists v.
case: eqP => _ /=; first by rewrite IH; split=> [H|[_ H]] //; split=> //; split=> //; exists v.
by split=> // -[[]].
Qed.

(** couplers and tables have nothing to set *)
Theorem C62_set_none e kw : match e with ECpl _ _ _ | ETab _ _ _ _ => True | _ => False end ->
  e_set kw e = (e, if kw is [::] then Ok tt else Raise ValueError).
Proof. by case: e. Qed.
End Set1.

(** ** circuits *)
Section SetC.
Variable C : numClosedFieldType.
Variable Fl : eqType.
Variable tau : C.
Variable exp : C -> C.
Variable M : mathlib C.
Variable c0 : C.
Hypothesis Htau : tau != 0.
Notation K := (elem_cls Fl exp M c0 Htau).
Notation freq := (freq C).
Variable nan : C.
Variable getpos : circ K -> string -> res C.
Notation reachX := (@CircSetX.reachX C freq Fl K nan getpos).

Lemma trl_kw_inv xs (o : trl C) kw : prm_ok kw -> (2 <= size xs)%N -> t_zb o != 0 ->
  (2 <= size (trl_kw xs o kw).1.1)%N /\ t_zb (trl_kw xs o kw).1.2 != 0.
Proof.
elim: kw xs o => [|[k [v|]] kw IH] xs o //= /andP [H0 H] Hs Hz.
case: eqP => [_|_]; first exact: IH.
by case: eqP H0 => //= _ H0; apply: IH.
Qed.

Lemma elem_keeps : set_keeps K.
Proof.
case=> [kw Hkw] [ps xs o|ps xs l o|ps xs o|ps xs zb tab] //=.
- by case=> H1 H2 H3; have := trl_kw_inv Hkw H1 H2; case: (trl_kw _ _ _) => [[a b] r] /= [].
Qed.

(** getS calls do not matter for what set makes of an object *)
Lemma after_state (e e' : K) : after_getS e e' ->
  match e with ETrl ps xs l o => exists s, e' = ETrl ps xs l (with_solved o s) | _ => e' = e end.
Proof.
elim=> [|o' f z fl _ _ H].
  by case: e => // ps xs l [a b s]; exists s.
case: e H => [ps xs o|ps xs l o|ps xs o|ps xs zb tab] => [->|[s ->]|->|->] //=.
  by case: o.
have [s' E] := trl_state exp l (with_solved o s) (om tau f) (Some z).
by exists s'; move: E; case: (trl_getS _ _ _ _ _ _ _ _) => [a b] /= ->.
Qed.

Lemma trl_kw_solved xs (o o2 : trl C) kw : t_L o2 = t_L o -> t_zb o2 = t_zb o ->
  (trl_kw xs o2 kw).2 = (trl_kw xs o kw).2 /\
  ((trl_kw xs o kw).2 = Ok tt -> trl_kw xs o2 kw = trl_kw xs o kw).
Proof.
elim: kw xs o o2 => [|[k [v|]] kw IH] xs o o2 EL EZ //=.
  by rewrite /with_solved EL EZ.
case: eqP => _; first by apply: IH.
by case: eqP => _ //; apply: IH.
Qed.

Lemma set_after kw (e e' : K) : after_getS e e' -> (e_set kw e').2 = (e_set kw e).2 /\ ((e_set kw e).2 = Ok tt -> (e_set kw e').1 = (e_set kw e).1).
Proof.
move/after_state; case: e => [ps xs o|ps xs l o|ps xs o|ps xs zb tab] => [->|[s ->]|->|->] //=.
have [H1 H2] := @trl_kw_solved xs o (with_solved o s) kw erefl erefl; move: H1 H2.
case E1: (trl_kw _ (with_solved _ _) _) => [[a b] r]; case E2: (trl_kw _ _ _) => [[a' b'] r'] /= H1 H2.
by split=> // /H2; case=> -> ->.
Qed.

Lemma sets_ask h (c : circ K) l f fl : may_ask h f fl -> may_ask (h ++ set_events c l) f fl.
Proof.
have [E1 E3] := past_sets h c l.
by rewrite /may_ask E1; case: (reterm (past_of (h ++ _))) E3 => //= E3; rewrite (E3 isT).
Qed.

(** circ.set(nm, kw): accepted when the set method of the object in the block accepts, and
    from then on getS gives the matrix of the network with the object that set makes of the
    one put there (C62_set_rlc, C62_set_trl, C62_laws), everything else being the same *)
Theorem C62_set z ns h c nm kw ps (e : K) : pos_plain getpos ->
  reachX z ns h c -> dget (nblk (net_hist h)) nm = Some (ps, e) -> (e_set (proj1_sig kw) e).2 = Ok tt ->
  exists2 c', set_all c [:: (nm, kw)] = (c', Ok tt) &
  forall f z' fl c'' S, may_ask h f fl -> get1S f z' [::] fl c' = (c'', Ok S) ->
  let N := net_hist h in
  net_S z (zreq z' z)
    (Net (dset (nblk N) nm (ps, (e_set (proj1_sig kw) e).1 : K)) (njoin N) (nterm N) (ndi N) (nde N))
    f fl (ports c'') S.
Proof.
move=> Hp Hr HN Hs; have [c1 [Hr1 Hsim]] := reachX_reach Hp elem_keeps Hr.
have HI := ci_inv (reach_CI Hr1).
have Hb : exists2 b, dget (blocks c) nm = Some b & after_getS e (bobj b).
  have [b Eb [_ _ _ [Ha _] _]] := Forall2_dget' (v_blk HI) HN.
  by exists b => //; rewrite -(sim_blocks Hsim).
have [b Eb Ha] := Hb; have [S1 S2] := set_after (proj1_sig kw) Ha.
have [c' Es] : exists c', set_all c [:: (nm, kw)] = (c', Ok tt).
  by rewrite /set_all /= /set_blk Eb /= S1 Hs; eexists.
exists c' => // f z' fl c'' Sm Hm Hg N.
have Ev : set_events c [:: (nm, kw)] = [:: (OAdd nm ((e_set (proj1_sig kw) e).1 : K) PNone 0, true)].
  by rewrite /= Eb -(S2 Hs).
have Hx := X_set Hr Es.
have [H _] := C18_sets_and_params elem_keeps Hp Hx (@sets_ask h c _ f fl Hm) Hg.
by move: H; rewrite Ev /net_hist map_cat /net_of foldl_cat /= -/(net_of _) -/(net_hist h) HN.
Qed.
End SetC.

(** ** witnesses *)
Section Witness.
Variable C : numClosedFieldType.
Variable M : mathlib C.
Variables (c0 tau : C).
Hypothesis Htau : tau != 0.
Notation K := (elem_cls unit_eqType (@exp2 C) M c0 Htau).
Notation gp := (fun (_ : circ K) (_ : string) => Ok (0 : C)).

Definition kw20 : oprm K := exist _ [:: ("Rs", Fin (20%:R : C)); ("Lp", Inf)] isT.
Definition kwL : oprm K := exist _ [:: ("L", Fin (3%:R : C))] isT.

Lemma run_reachX z ns h (c : circ K) : reach 0 gp z ns h c -> @CircSetX.reachX C (freq C) unit_eqType K 0 gp z ns h c.
Proof.
elim/last_ind: h c => [|h [o ok] IH] c.
  by case=> Hz _ [<-]; apply: X_new.
rewrite -cats1; case=> Hz /hist_ok_cat [H1 H2]; rewrite run_cat.
case E: (run 0 gp _ h) => [c1|] //= Hx; rewrite cats1.
have {}IH := IH c1 (And3 Hz H1 E).
move: H2 Hx => /= [H2 _]; case Ex: (exec _ _ _ _) => [c2 ok2]; case: eqP => // Eo [<-].
by apply: X_call IH _ _; [exact: H2|rewrite Ex -Eo].
Qed.

(** the circuit of C62_witness; set of the resistance of "a" and of the length of "b" is
    accepted *)
Example C62_set_witness : exists c, [/\ @CircSetX.reachX C (freq C) unit_eqType K 0 gp (50%:R : C) [::] (hE M c0 Htau) c,
  @pos_plain C (freq C) unit_eqType K gp,
  dget (nblk (net_hist (hE M c0 Htau))) "a" = Some ([:: "s"; "p"], resistor M c0 Htau) /\
  e_set (proj1_sig kw20) (resistor M c0 Htau) = (ERlc [:: "s"; "p"] [:: 0; 0] (Rlc 20%:R 0 Inf Inf Inf 0 50%:R), Ok tt),
  dget (nblk (net_hist (hE M c0 Htau))) "b" = Some ([:: "1"; "2"], line50 M c0 Htau) /\
  e_set (proj1_sig kwL) (line50 M c0 Htau) = (ETrl [:: "1"; "2"] [:: 0; 3%:R + 0] (par50 C) (Trl 3%:R 50%:R [::]), Ok tt) &
  forall f fl, may_ask (hE M c0 Htau) f fl].
Proof.
have [c Hc] := exE M c0 Htau; exists c; split=> //.
exact: run_reachX.
Qed.

Example C62_unknown_witness : e_set [:: ("Rs", Fin (1 : C)); ("R", Fin 2%:R); ("Ls", Fin 1)] (resistor M c0 Htau) =
  (ERlc [:: "s"; "p"] [:: 0; 0] (Rlc 1 0 Inf Inf Inf 0 50%:R), Raise ValueError).
Proof. by []. Qed.
End Witness.

(** addblock(name, obj, params=...), rfCircuit.py 538-671: the params are kept with the block
    (675) and are passed to obj.getS at every getS (1297-1299).  The class of the block
    objects of CircElem.v together with such params. *)
From mathcomp Require Import all_ssreflect all_algebra.
From Coq Require Import String Ascii.
From Coq Require List.
From Verif Require Import Base MxLib ConvModel ConvSpec ConvProofs ConvArr CircApp CircExt CircFill CircSolve DevModel DevSpec DevThm TrlModel TrlSpec TrlThm CircModel CircSpec CircLib CircGet CircDev CircElem.
Set Implicit Arguments.
Unset Strict Implicit.
Unset Printing Implicit Defensive.
Import Order.TTheory GRing.Theory Num.Theory.
Local Open Scope ring_scope.
Local Open Scope seq_scope.

Section Parm.
Variable C : numClosedFieldType.
Variable Fl : eqType.
Variable tau : C.
Variable exp : C -> C.
Variable M : mathlib C.
Variable c0 : C.
Notation kws := (seq (string * ext C)).

(** an object in a block and the block's params dict (self.blocks[name]['params'], 675) *)
Record pobj := Pobj { pe : elem C; pp : kws }.

(** params.pop(p, self.p), rfRLC.py 186-187; an infinite Rs, Ls, Cp is refused by p_inv *)
Definition fin_of (x : option (ext C)) : option C := if x is Some (Fin v) then Some v else None.
Definition rlc_of (p : kws) : rlc_params C :=
  RlcParams (fin_of (dget p "Rs"%string)) (fin_of (dget p "Ls"%string)) (dget p "Cs"%string)
    (dget p "Rp"%string) (dget p "Lp"%string) (fin_of (dget p "Cp"%string)).
Definition rlc_names : seq string := [:: "Rs"%string; "Ls"%string; "Cs"%string; "Rp"%string; "Lp"%string; "Cp"%string].
Definition popped (p : kws) : kws := [seq kv <- p | kv.1 \notin rlc_names].

(** what getS(..., params=p) does with p before it evaluates: rfRLC.py 186-187 (the values are
    popped into the object), rfTRL.py 556 (self.set with the params, which are kept), rfBase.py 270-287
    (params is not used).  The result is the params afterwards. *)
Definition e_apply (p : kws) (e : elem C) : elem C * res kws :=
  match e with
  | ERlc ps xs o => (ERlc ps xs (rlc_set o (rlc_of p)), Ok (popped p))
  | ETrl _ _ _ _ => let: (e', r) := e_set p e in (e', rmap (fun _ => p) r)
  | _ => (e, Ok p)
  end.
(** obj.getS(f, Zbase=z, params=p, flags=...).  (e_getS again sets the empty list, which
    changes nothing after e_apply.) *)
Definition p_getS (f : freq C) (z : C) (fl : Fl) (x : pobj) : pobj * res (rows C) :=
  match e_apply (pp x) (pe x) with
  | (e', Raise err) => (Pobj e' (pp x), Raise err)
  | (e', Ok p') => let: (e'', r) := e_getS tau exp M c0 f z fl e' in (Pobj e'' p', r)
  end.
(** circuit.set, rfCircuit.py 1190-1246: the set of the object; the params stay *)
Definition p_set (kw : kws) (x : pobj) : pobj * res unit :=
  let: (e', r) := e_set kw (pe x) in (Pobj e' (pp x), r).

Definition parm_ocls : ocls C (freq C) Fl := {|
  ocar := pobj;
  osize := fun x => e_size (pe x);
  oports := fun x => Some (e_ports (pe x));
  oxpos := fun x => Some (e_xpos (pe x));
  oprm := {kw : kws | prm_ok kw};
  oset := fun kw => p_set (proj1_sig kw);
  ogetS := p_getS |}.

(** the params considered: a dict, with finite Rs, Ls, Cp and a non-zero Zbase *)
Definition good_params (p : kws) : bool :=
  [&& uniq (dkeys p), prm_ok p & all (fun kv => (kv.1 \in [:: "Rs"%string; "Ls"%string; "Cp"%string]) ==> ~~ ext_eq kv.2 Inf) p].
(** the object as its params make it, and whether it accepts them *)
Definition eff (x : pobj) : elem C := (e_apply (pp x) (pe x)).1.
Definition accepts (x : pobj) : Prop := exists p', (e_apply (pp x) (pe x)).2 = Ok p'.
Definition p_inv (x : pobj) : Prop := e_inv (pe x) /\ good_params (pp x).
Definition p_den (x : pobj) (f : freq C) (fl : Fl) (v i : vi C) : Prop :=
  accepts x /\ e_den tau exp M c0 (eff x) f fl v i.

(** ** the class *)
Hypothesis Htau : tau != 0.
Notation K0 := (elem_cls Fl exp M c0 Htau).

(** the last value given for a name *)
Fixpoint last_of (k : string) (p : kws) (d : C) : C :=
  match p with
  | (k', Fin v) :: p' => last_of k p' (if k' == k then v else d)
  | (_, Inf) :: p' => last_of k p' d
  | [::] => d
  end.
Definition trl_good (p : kws) : bool :=
  all (fun kv => if kv.2 is Fin _ then (kv.1 == "L"%string) || (kv.1 == "Zbase"%string) else false) p.

Lemma trl_kw_ok xs o p : (trl_kw xs o p).2 = if trl_good p then Ok tt else Raise ValueError.
Proof.
elim: p xs o => [|[k [v|]] p IH] xs o //=.
by case: (k =P "L"%string) => [->|_]; [rewrite IH|case: eqP => _; [rewrite IH|]].
Qed.

Lemma trl_kw_L xs o p : trl_good p ->
  t_L (trl_kw xs o p).1.2 = last_of "L" p (t_L o) /\ t_zb (trl_kw xs o p).1.2 = last_of "Zbase" p (t_zb o) /\ 
  t_solved (trl_kw xs o p).1.2 = [::].
Proof.
elim: p xs o => [|[k [v|]] p IH] xs o //=.
by case: (k =P "L"%string) => [->|_] /=; [apply: IH|case: eqP => //= _; apply: IH].
Qed.

Lemma last_of_idem k p d : last_of k p (last_of k p d) = last_of k p d.
Proof.
suff [H|[v H]] : (forall d, last_of k p d = d) \/ exists v, forall d, last_of k p d = v by rewrite !H.
elim: p => [|[k' [v|]] p IH] /=; [by left| |exact: IH].
case: eqP => _; last exact: IH.
by right; case: IH => [H|[w H]]; [exists v|exists w] => d'; rewrite H.
Qed.

Lemma trl_kw_inv xs (o : trl C) p : prm_ok p -> (2 <= size xs)%N -> t_zb o != 0 ->
  (2 <= size (trl_kw xs o p).1.1)%N /\ t_zb (trl_kw xs o p).1.2 != 0.
Proof.
elim: p xs o => [|[k [v|]] p IH] xs o //= /andP [H0 H] Hs Hz.
case: eqP => [_|_]; first exact: IH.
by case: eqP H0 => //= _ H0; apply: IH.
Qed.

Lemma eff_inv x : p_inv x -> e_inv (eff x).
Proof.
case: x => [[ps xs o|ps xs l o|ps xs o|ps xs zb tab] p] [] //= [H1 H2 H3] /and3P [_ H _].
by rewrite /eff /=; have := trl_kw_inv H H1 H2; case: (trl_kw _ _ _) => [[a b] r] /= [].
Qed.

Lemma popped_none (p : kws) k : k \in rlc_names -> dget (popped p) k = None.
Proof.
move=> Hk; elim: p => [|[k' v] p IH] //=; case: ifP => H //=.
by case: eqP => // E; move: H; rewrite /= -E Hk.
Qed.

Lemma popped_idem (p : kws) : popped (popped p) = popped p.
Proof. by rewrite /popped -filter_predI; apply: eq_filter => kv /=; rewrite andbb. Qed.

Lemma rlc_of_popped p : rlc_of (popped p) = no_params C.
Proof. by rewrite /rlc_of !popped_none. Qed.

Lemma popped_keys (p : kws) k : k \in dkeys (popped p) -> k \in dkeys p.
Proof.
elim: p => [|[k' v] p IH] //=; case: ifP => _ /=; rewrite !inE; last by move/IH => ->; rewrite orbT.
by case/orP => [->|/IH ->] //; rewrite orbT.
Qed.

Lemma good_popped p : good_params p -> good_params (popped p).
Proof.
rewrite /good_params; elim: p => [|[k v] p IH] //= /and3P [/andP [H1 H2] /andP [H3 H4] /andP [H5 H6]].
have {}IH := IH (introT and3P (And3 H2 H4 H6)).
case: ifP => _ //=; case/and3P: IH => -> E1 E2; rewrite H3 H5 E1 E2 !andbT.
by apply: contra H1; exact: popped_keys.
Qed.

(** the same object up to the stored solutions and the positions *)
Definition same (a b : elem C) : Prop :=
  match a, b with
  | ETrl ps xs l o, ETrl ps' xs' l' o' => [/\ ps = ps', l = l', t_L o = t_L o' & t_zb o = t_zb o']
  | _, _ => a = b
  end.
Lemma same_refl a : same a a. Proof. by case: a. Qed.
Lemma same_sym a b : same a b -> same b a.
Proof. by case: a => [ps xs o|ps xs l o|ps xs o|ps xs zb tab]; case: b => [ps' xs' o'|ps' xs' l' o'|ps' xs' o'|ps' xs' zb' tab'] //= []. Qed.
Lemma same_trans a b c : same a b -> same b c -> same a c.
Proof.
case: a => [ps xs o|ps xs l o|ps xs o|ps xs zb tab]; case: b => [ps' xs' o'|ps' xs' l' o'|ps' xs' o'|ps' xs' zb' tab'] // H; rewrite ?H //.
by case: c => // ps2 xs2 l2 o2; case: H => ? ? ? ? [? ? ? ?]; split; congruence.
Qed.
Lemma same_den a b f (fl : Fl) v i : same a b -> e_den tau exp M c0 a f fl v i <-> e_den tau exp M c0 b f fl v i.
Proof.
case: a => [ps xs o|ps xs l o|ps xs o|ps xs zb tab]; case: b => [ps' xs' o'|ps' xs' l' o'|ps' xs' o'|ps' xs' zb' tab'] // H; rewrite ?H //.
by case: H => H1 /= H2 H3 H4; rewrite H2 H3.
Qed.
Lemma same_getS a b f z (fl : Fl) : same a b ->
  (e_getS tau exp M c0 f z fl a).2 = (e_getS tau exp M c0 f z fl b).2.
Proof.
case: a => [ps xs o|ps xs l o|ps xs o|ps xs zb tab]; case: b => [ps' xs' o'|ps' xs' l' o'|ps' xs' o'|ps' xs' zb' tab'] // H; rewrite ?H //.
case: H => _ -> HL HZ; rewrite /e_getS /TrlModel.trl_getS !trl_set_nil.
have -> : with_solved o [::] = with_solved o' [::] by rewrite /with_solved HL HZ.
by case: (TrlModel.trl_get1S _ _ _ _ _ _ _).
Qed.
Lemma same_getS1 a f z (fl : Fl) : same (e_getS tau exp M c0 f z fl a).1 a.
Proof.
case: a => [ps xs o|ps xs l o|ps xs o|ps xs zb tab] //=; first by case: o.
have [E1 E2] := trl_after exp l o (om tau f) (Some z).
by move: E1 E2; case: (trl_getS _ _ _ _ _ _ _ _).
Qed.

(** params applied again change nothing *)
Lemma eff_idem x p' a : (e_apply (pp x) (pe x)).2 = Ok p' -> same a (eff x) ->
  same (eff (Pobj a p')) (eff x) /\ (e_apply p' a).2 = Ok p'.
Proof.
case: x => [[ps xs o|ps xs l o|ps xs o|ps xs zb tab] p]; rewrite /eff /=; case: a => [ps' xs' o'|ps' xs' l' o'|ps' xs' o'|ps' xs' zb' tab'] //=.
- case=> <- [-> -> ->]; rewrite rlc_of_popped; split; last first.
    by rewrite popped_idem.
  by rewrite /rlc_set /=.
- by case: (trl_kw _ _ _) => [[a b] r].
- have H1 := trl_kw_ok xs o p; have H2 := @trl_kw_L xs o p.
  have H3 := trl_kw_ok xs' o' p; have H4 := @trl_kw_L xs' o' p.
  move: H1 H2; case: (trl_kw xs o p) => [[a b] r] /= ->; case Hg: (trl_good p) => // /(_ isT) [E1 [E2 _]] [<-] [-> -> E3 E4].
  move: H3 H4; case: (trl_kw xs' o' p) => [[a2 b2] r2] /=; rewrite Hg => -> /(_ isT) [F1 [F2 _]].
  by split=> //; split=> //; rewrite ?F1 ?F2 ?E3 ?E4 ?E1 ?E2 last_of_idem.
Qed.

(** one getS *)
Lemma p_getS_state x f z (fl : Fl) : let x' := (p_getS f z fl x).1 in
  [/\ accepts x -> same (eff x') (eff x), accepts x' <-> accepts x & good_params (pp x) -> good_params (pp x')].
Proof.
rewrite /p_getS; case E: (e_apply (pp x) (pe x)) => [e' [p'|err]].
  have E' : (e_apply (pp x) (pe x)).2 = Ok p' by rewrite E.
  have Ee : eff x = e' by rewrite /eff E.
  have Hs := same_getS1 e' f z fl; case E2: (e_getS _ _ _ _ f z fl e') Hs => [e2 r] /= Hs.
  rewrite -Ee in Hs; have [H1 H2] := eff_idem E' Hs; split=> //.
    by split=> _; exists p'.
  move: E; case: x {E' Ee Hs H1} => [[ps xs o|ps xs l o|ps xs o|ps xs zb tab] p] /=.
  - by case=> _ <-; exact: good_popped.
  - by case: (trl_kw _ _ _) => [[a b] [u|u]] //= [_ <-].
  - by case=> _ <-.
  by case=> _ <-.
have Hn : ~ accepts x by case=> p'; rewrite E.
split=> //; split=> // Ha; case: Hn.
move: E Ha; case: x => [[ps xs o|ps xs l o|ps xs o|ps xs zb tab] p] //=; rewrite /accepts /=.
have H1 := trl_kw_ok xs o p; case: (trl_kw xs o p) H1 => [[a b] r] /= -> + [p'].
case Hg: (trl_good p) => // -[<- _] /=; have := trl_kw_ok a b p; rewrite Hg.
by case: (trl_kw a b p) => [[a2 b2] r2] /= ->.
Qed.

Lemma e_getS_keep e f z (fl : Fl) : e_inv e -> z != 0 ->
  let e' := (e_getS tau exp M c0 f z fl e).1 in [/\ e_inv e', e_size e' = e_size e & e_ports e' = e_ports e].
Proof. by move=> He Hz; have [H1 H2 [H3] _ _] := @oget_law _ _ _ K0 e f z fl He Hz. Qed.

Lemma eff_keep x : e_size (eff x) = e_size (pe x) /\ e_ports (eff x) = e_ports (pe x).
Proof. by case: x => [[ps xs o|ps xs l o|ps xs o|ps xs zb tab] p] //=; rewrite /eff /=; case: (trl_kw _ _ _) => [[a b] r]. Qed.

Lemma p_getS_keep x f z (fl : Fl) : p_inv x -> z != 0 ->
  let x' := (p_getS f z fl x).1 in [/\ p_inv x', e_size (pe x') = e_size (pe x) & e_ports (pe x') = e_ports (pe x)].
Proof.
move=> Hx Hz; have Hi := eff_inv Hx; have [S1 S2] := eff_keep x.
have [_ _ Hg] := p_getS_state x f z fl; have {}Hg := Hg (proj2 Hx); move: Hg.
have := e_getS_keep f fl Hi Hz; move: Hi S1 S2; rewrite /p_inv /p_getS /eff.
case: (e_apply _ _) => [e' [p'|err]] /= Hi <- <-.
  by case: (e_getS _ _ _ _ _ _ _ _) => [e2 r] /= [A1 A2 A3] Hg; split.
by move=> _ Hg; split.
Qed.

Definition parm_cls : vcls C (freq C) Fl.
Proof.
refine (@Vcls C (freq C) Fl parm_ocls p_inv p_den _ _ _).
- move=> x f fl v i v' i' H [Ha Hd]; split=> //.
  apply: (@oden_ext _ _ _ K0 (eff x) f fl v i v' i') => // k Hk; apply: H.
  by move: Hk; rewrite [osize _]/=; have [-> _] := eff_keep x.
- by move=> x [He _] ys; exact: (@oinv_xpos _ _ _ K0 (pe x) He ys).
move=> x f z fl Hx Hz.
have [H1 H2 H3] := p_getS_keep f fl Hx Hz; have [Hs Ha _] := p_getS_state x f z fl.
split=> //; first by congr Some.
  move=> f' fl' v i; split=> -[Hax Hd]; split; try exact/Ha.
    by apply/(same_den _ _ _ _ (Hs _)) => //; exact/Ha.
  by apply/(same_den _ _ _ _ (Hs _)).
move=> Sm; rewrite [ogetS _ _ _ _]/(p_getS f z fl x) /p_getS.
case E: (e_apply _ _) => [e' [p'|err]] //.
have Ea : accepts x by exists p'; rewrite E.
have Ee : eff x = e' by rewrite /eff E.
have Hl : forall S, (e_getS tau exp M c0 f z fl (eff x)).2 = Ok S -> shape_ok (e_size (eff x)) S /\
    forall v i, e_den tau exp M c0 (eff x) f fl v i <-> rel_S z (e_size (eff x)) S v i.
  by have [_ _ _ _ Hl] := @oget_law _ _ _ K0 (eff x) f z fl (eff_inv Hx) Hz.
have [Es _] := eff_keep x; rewrite Es in Hl; move: Hl; rewrite Ee.
case: (e_getS _ _ _ _ _ _ _ _) => [e2 r] Hl Er; have [L1 L2] := Hl _ Er.
by split=> // v i; rewrite -L2 -Ee; split; [case|split].
Defined.
End Parm.

(** TLresolver: which sets of parameters can be solved, when it raises, and the consistency of
    the four line constants (continued). *)
From mathcomp Require Import all_ssreflect all_algebra.
From mathcomp.algebra_tactics Require Import ring.
From Coq Require Import String Lia.
From Verif Require Import Base ConvModel ConvProofs TlModel TlThm TlPhys TlLoop.
Set Implicit Arguments.
Unset Strict Implicit.
Unset Printing Implicit Defensive.
Import Order.TTheory GRing.Theory Num.Theory.
Local Open Scope string_scope.
Local Open Scope ring_scope.
Local Open Scope seq_scope.
Arguments any : simpl never.
Arguments avail : simpl never.
Arguments TlModel.scan : simpl never.

Section Tl.
Variable C : numClosedFieldType.
Variables log exp pow10 : C -> C.
Variables pi c0 mu0 e0 eta0coax : C.
Variable Zbase : C.
Variable forget : seq (seq string * string).
Variable fcheck : C.
Notation EQNS := (EQNS log exp pow10 pi c0 mu0 e0 eta0coax Zbase).
Notation value := (value log exp pow10 pi c0 mu0 e0 eta0coax Zbase).
Notation wf := (wf log exp pow10 pi c0 mu0 e0 eta0coax Zbase).
Notation inv := (inv log exp pow10 pi c0 mu0 e0 eta0coax Zbase).
Notation scan := (scan log exp pow10 pi c0 mu0 e0 eta0coax Zbase forget fcheck).
Notation loop := (loop log exp pow10 pi c0 mu0 e0 eta0coax Zbase forget fcheck).
Notation TLresolver := (TLresolver log exp pow10 pi c0 mu0 e0 eta0coax Zbase forget fcheck).
Notation eqn := (eqn C).
Notation eqn0 := (eqn0 C).
Notation table := (table C).
Notation sv := (sv C).
Notation kwargs := (seq (string * (C -> C -> res C))).

Lemma missing_keys (kws : kwargs) tb kw : inputs [::] kws = Ok tb -> uniq (map fst kws) ->
  let G := map fst kws in
  (kw \in dkeys (missing tb)) =
  [|| (kw == "rTL") && no_rTL G, (kw == "gTL") && no_gTL G,
      (kw \in [:: "rhoI"; "rhoO"]) && both_rho G | kw \in G].
Proof.
move=> E U G; rewrite -dhasE /dhas (missing_get kw E U) -/G orbA.
have [H1 H2 H3 H4] := inputs_spec E U.
case: (_ || _) => //=; case: ifP => [/andP [_]|_] /=.
  rewrite /both_rho => /andP [K _]; have := H4 "rho"; rewrite K orbT -dhasE /dhas.
  by case: dget.
by have := H4 kw; rewrite -dhasE /dhas -/G => ->.
Qed.

Lemma any_cat G a b : any G (a ++ b) = any G a || any G b.
Proof. exact: has_cat. Qed.
Lemma Kin_start (kws : kwargs) tb : inputs [::] kws = Ok tb -> uniq (map fst kws) ->
  {subset dkeys (missing tb) <= [pred kw | Kin (map fst kws) kw]}.
Proof.
move=> E U kw; rewrite (missing_keys kw E U); set G := map fst kws.
have [H1 _ _ _] := inputs_spec E U.
move=> HH; suff : Kin G kw by []; move: HH; case/or4P => [/andP [/eqP -> H]|/andP [/eqP -> H]|/andP [K H]|K].
- rewrite -[Kin G _]/(solvable G) /solvable; move: H; rewrite /no_rTL => /andP [/negbTE -> ->].
  by rewrite orbT.
- rewrite -[Kin G _]/(~~ any G [:: "A"; "AdB"] || solvable G) /solvable.
  move: H; rewrite /no_gTL any_cat negb_or; case: ifP => //= _ /andP [H _].
  by rewrite H orbT.
- by move: K; rewrite !inE => /orP [] /eqP -> /=; rewrite /Kin /= H orbT.
have := H1 _ K; move: K; rewrite !inE.
have X p ps : p \in G -> p \in ps -> any G ps by move=> P1 P2; apply/hasP; exists p.
have In : "rTLI" \in G -> inner G by rewrite /inner => ->.
have Out : "rTLO" \in G -> outer G by rewrite /outer => ->.
have R : "rTL" \in G -> solvable G.
  by move=> H; rewrite /solvable H (X _ [:: "gTL"; "sigma"; "tand"; "rTL"] H) //; case: ifP.
have Gt : "gTL" \in G -> ~~ any G [:: "A"; "AdB"] || solvable G.
  by move=> H; rewrite /solvable; case: ifP => //= _; rewrite (X _ [:: "gTL"; "sigma"; "tand"; "rTL"] H).
have HD p : p \in [:: "ID"; "OD"] -> p \in G -> any G [:: "ID"; "OD"].
  by move=> P1 P2; apply: X P2 P1.
have HA p : p \in [:: "A"; "AdB"] -> p \in G -> any G [:: "A"; "AdB"].
  by move=> P1 P2; apply: X P2 P1.
have HS p : p \in [:: "sigma"; "tand"] -> p \in G -> any G [:: "sigma"; "tand"].
  by move=> P1 P2; apply: X P2 P1.
have Fin p : p \in G -> p \in accepted -> Kin G p.
  move=> K; rewrite /accepted !inE.
  do 27!(case/orP; [move/eqP => Ek; move: K; rewrite Ek => K; (first [ by []
    | exact: R K | exact: Gt K | exact: HD K | by rewrite /Kin [dget _ _]/= (HA _ _ K)
    | by rewrite /Kin [dget _ _]/= (HS _ _ K) | by rewrite /Kin [dget _ _]/= (In K)
    | by rewrite /Kin [dget _ _]/= (Out K) | by rewrite /Kin [dget _ _]/= K ])|]).
  by move/eqP => ->.
by move=> K _; apply: Fin (H1 _ K).
Qed.

(** ** when nothing can be used any more *)
Lemma scan_closed st k : inv st -> forget = [::] -> scan st 0 EQNS = Ok None ->
  (k < 49)%N -> known (v_tab st) (e_deps (nth eqn0 EQNS k)) ->
  e_kw (nth eqn0 EQNS k) \in dkeys (v_tab st).
Proof.
move=> [_ _ Us] F0 E Hk K.
have [] := scan_skipped E Hk.
- move=> /hasP [u Hu /perm_mem P]; apply: (Us _ Hu); rewrite P.
  by rewrite /sig mem_rcons mem_head.
- by rewrite F0.
- by [].
- by rewrite K.
Qed.

Lemma solved_iff n kws tb : uniq (map fst kws) -> forget = [::] ->
  TLresolver n kws = Some (Ok tb) ->
  ("Zc" \in dkeys tb) && ("gamma" \in dkeys tb) = solvable (map fst kws).
Proof.
move=> U F0 E; set G := map fst kws.
pose P (st : sv) := {subset dkeys (v_tab st) <= [pred kw | Kin G kw]}.
have [|st j Pst I Sc Hj|tb0 [st [E0 -> [Pst I] Sub Fin]]] := @TLresolver_inv _ log exp pow10 pi c0 mu0 e0
    eta0coax Zbase forget fcheck P n kws tb U _ _ E.
- by move=> tb0 E0; apply: Kin_start.
- have [i [H1 H2 H3 H4 H5]] := scan_some Sc.
  move=> a; rewrite use_keys // mem_rcons inE => /orP [/eqP ->|/Pst //].
  by rewrite inE; apply: Kin_closed => //; apply/allP => d /(allP H5) /Pst.
apply/idP/idP => [/andP [_ /Pst]|Hs]; first by [].
case: Fin => [|Fin]; first by rewrite /avail /= !orbF.
have cl k := @scan_closed st k I F0 Fin.
have Sub' kw : kw \in dkeys (missing tb0) -> kw \in dkeys (v_tab st).
  by case/keys_dget => x Hx; apply: dget_keys (Sub _ _ Hx).
have MK kw : kw \in G -> kw \in dkeys (v_tab st).
  by move=> K; apply: Sub'; rewrite (missing_keys kw E0 U) -/G K !orbT.
have MB kw : kw \in [:: "rhoI"; "rhoO"] -> both_rho G -> kw \in dkeys (v_tab st).
  by move=> K1 K2; apply: Sub'; rewrite (missing_keys kw E0 U) -/G K1 K2 !orbT.
have kmurI : "murI" \in dkeys (v_tab st) by apply: (cl 0%N).
have kmurO : "murO" \in dkeys (v_tab st) by apply: (cl 1%N).
have kmur : "mur" \in dkeys (v_tab st) by apply: (cl 41%N).
have kepsr : "epsr" \in dkeys (v_tab st) by apply: (cl 42%N).
have kZ0 : "Z0TL" \in dkeys (v_tab st) by apply: (cl 43%N).
have ketar : "etar" \in dkeys (v_tab st) by apply: (cl 26%N); rewrite //= kmur kepsr.
have kvr : "vr" \in dkeys (v_tab st) by apply: (cl 29%N); rewrite //= kmur kepsr.
have kL : "LTL" \in dkeys (v_tab st) by apply: (cl 4%N); rewrite //= kZ0 kvr.
have kC : "CTL" \in dkeys (v_tab st) by apply: (cl 5%N); rewrite //= kZ0 kvr.
have kD : any G [:: "ID"; "OD"] -> "ID" \in dkeys (v_tab st) /\ "OD" \in dkeys (v_tab st).
  rewrite /any /= orbF => /orP [] /MK K; split=> //.
    by apply: (cl 14%N); rewrite //= ketar K kZ0.
  by apply: (cl 13%N); rewrite //= ketar K kZ0.
have kI : inner G -> "rTLI" \in dkeys (v_tab st).
  rewrite /inner => /orP [/MK //|/andP [H1 H2]].
  have kR : "RsI" \in dkeys (v_tab st).
    move: H1; rewrite /any /= orbF -orbA => /or3P [/MK //|/MK K|/MB K].
      by apply: (cl 24%N); rewrite //= K kmurI.
    by apply: (cl 24%N); rewrite //= K // kmurI.
  have kq : "qTLI" \in dkeys (v_tab st).
    move: H2; rewrite /any -cat1s has_cat => /orP [|/kD [K _]].
      by rewrite /= orbF => /MK.
    by apply: (cl 22%N); rewrite //= K.
  by apply: (cl 20%N); rewrite //= kR kq.
have kO : outer G -> "rTLO" \in dkeys (v_tab st).
  rewrite /outer => /orP [/MK //|/andP [H1 H2]].
  have kR : "RsO" \in dkeys (v_tab st).
    move: H1; rewrite /any /= orbF -orbA => /or3P [/MK //|/MK K|/MB K].
      by apply: (cl 25%N); rewrite //= K kmurO.
    by apply: (cl 25%N); rewrite //= K // kmurO.
  have kq : "qTLO" \in dkeys (v_tab st).
    move: H2; rewrite /any -cat1s has_cat => /orP [|/kD [_ K]].
      by rewrite /= orbF => /MK.
    by apply: (cl 23%N); rewrite //= K.
  by apply: (cl 21%N); rewrite //= kR kq.
have kIO : inner G && outer G -> "rTL" \in dkeys (v_tab st).
  by case/andP => /kI K1 /kO K2; apply: (cl 17%N); rewrite //= K1 K2.
have ksg : any G [:: "sigma"; "tand"] -> "gTL" \in dkeys (v_tab st).
  move=> H; have ks : "sigma" \in dkeys (v_tab st).
    move: H; rewrite /any /= orbF => /orP [/MK //|/MK K].
    by apply: (cl 40%N); rewrite //= K kepsr.
  by apply: (cl 16%N); rewrite //= ks kZ0 ketar.
have [kr kg] : "rTL" \in dkeys (v_tab st) /\ "gTL" \in dkeys (v_tab st).
  move: Hs; rewrite /solvable; case: ifP => HA.
    have kA : "A" \in dkeys (v_tab st).
      move: HA; rewrite /any /= orbF => /orP [/MK //|/MK K].
      by apply: (cl 36%N); rewrite //= K.
    have rg : "rTL" \in dkeys (v_tab st) -> "gTL" \in dkeys (v_tab st).
      by move=> K; apply: (cl 38%N); rewrite //= K kL kC kA.
    have gr : "gTL" \in dkeys (v_tab st) -> "rTL" \in dkeys (v_tab st).
      by move=> K; apply: (cl 37%N); rewrite //= K kL kC kA.
    move=> H; suff : "rTL" \in dkeys (v_tab st) \/ "gTL" \in dkeys (v_tab st).
      by case=> K; split=> //; [apply: rg | apply: gr].
    move: H; rewrite -orbA => /or3P [H|H|/kIO K]; last by left.
      move: H; rewrite /any /= orbF => /or4P [/MK K|K|K|/MK K]; [by right| | |by left].
        by right; apply: ksg; rewrite /any /= K.
      by right; apply: ksg; rewrite /any /= K orbT.
    case Sg: (any G [:: "sigma"; "tand"]); first by right; apply: ksg.
    right; apply: Sub'; rewrite (missing_keys _ E0 U) -/G /no_gTL HA.
    by rewrite eqxx any_cat (negbTE H) Sg orbT.
  split; last first.
    case Sg: (any G [:: "sigma"; "tand"]); first exact: ksg.
    by apply: Sub'; rewrite (missing_keys _ E0 U) -/G /no_gTL HA Sg orbT.
  move: Hs; rewrite -orbA => /or3P [/MK //|H|/kIO //].
  by apply: Sub'; rewrite (missing_keys _ E0 U) -/G /no_rTL HA H.
have kz : "rjwL" \in dkeys (v_tab st) by apply: (cl 2%N); rewrite //= kr kL.
have ky : "gjwC" \in dkeys (v_tab st) by apply: (cl 3%N); rewrite //= kg kC.
by apply/andP; split; [apply: (cl 46%N) | apply: (cl 47%N)]; rewrite //= kz ky.
Qed.

(** ** no exception *)
Definition okv (r : res C) : Prop := exists y, r = Ok y.
Notation reads := (reads log exp pow10 pi c0 mu0 e0 eta0coax Zbase).
Lemma e_fun_tot k (h : string -> C) w : (k < 49)%N -> okv (e_fun (nth eqn0 EQNS k) (fun p => Ok (h p)) w).
Proof. by do 49!(case: k => [|k]; first by (move=> _; eexists)). Qed.
Lemma e_fun_ok k g w : (k < 49)%N -> {in reads k, forall p, okv (g p)} ->
  okv (e_fun (nth eqn0 EQNS k) g w).
Proof.
move=> Hk H; rewrite (@e_fun_ext _ _ _ _ _ _ _ _ _ _ k g (fun p => Ok (if g p is Ok y then y else 0))) //.
  exact: e_fun_tot.
by move=> p /H [y ->].
Qed.
(** every parameter of the table has a value *)
Lemma value_ok tb w x : wf tb -> small log exp pow10 pi c0 mu0 e0 eta0coax Zbase tb ->
  (forall kw f, dget tb kw = Some (Given f) -> okv (f w x)) ->
  ("RsO" \in dkeys tb -> "RsI" \in dkeys tb) ->
  forall kw, kw \in dkeys tb -> okv (value tb w x kw).
Proof.
move=> W Sm Hg HR; suff H i kw : kw \in dkeys tb -> (seq.index kw (dkeys tb) < i)%N -> okv (value tb w x kw).
  by move=> kw K; apply: H K (ltnSn _).
have RI : "RsI" \in dkeys tb -> okv (value tb w x "RsI").
  move=> K; have [[f|k] E] := keys_dget K; first by rewrite (value_given _ _ _ _ _ _ _ _ _ _ _ E); apply: Hg E.
  rewrite (value_computed _ _ W Sm E).
  have Ek := wf_RsI W E; subst k; have [Hk _ D] := W _ _ E.
  apply: e_fun_ok => // p; rewrite /TlThm.reads /= !inE => /orP [] /eqP ->.
    have /keys_dget [s Es] := idx_keys K (D "rhoI" isT).
    have [f Ef] := wf_rhoI W Es; subst s; rewrite (value_given _ _ _ _ _ _ _ _ _ _ _ Es); apply: Hg Es.
  have /keys_dget [[f|k] Es] := idx_keys K (D "murI" isT); first by rewrite (value_given _ _ _ _ _ _ _ _ _ _ _ Es); apply: Hg Es.
  by rewrite (value_computed _ _ W Sm Es) (wf_murI W Es); exists 1.
elim: i kw => [|i IH] kw K //; rewrite ltnS => Hi.
have [[f|k] E] := keys_dget K; first by rewrite (value_given _ _ _ _ _ _ _ _ _ _ _ E); apply: Hg E.
rewrite (value_computed _ _ W Sm E); have [Hk _ D] := W _ _ E.
have Dp d : d \in e_deps (nth eqn0 EQNS k) -> okv (value tb w x d).
  by move=> Hd; apply: IH; [apply: idx_keys K (D _ Hd) | apply: leq_trans (D _ Hd) Hi].
apply: e_fun_ok => // p; rewrite /TlThm.reads; case: ifP => [/eqP E21|_]; last exact: Dp.
subst k; rewrite !inE => /orP [] /eqP ->; first exact: Dp.
by apply: RI; apply: HR; apply: idx_keys K (D "RsO" isT).
Qed.

Lemma scan_raise st k es e : inv st ->
  (forall kw f, dget (v_tab st) kw = Some (Given f) -> okv (f fcheck 0)) ->
  ("RsO" \in dkeys (v_tab st) -> "RsI" \in dkeys (v_tab st)) ->
  (forall i, (i < size es)%N -> (k + i < 49)%N /\ nth eqn0 es i = nth eqn0 EQNS (k + i)) ->
  scan st k es <> Raise e.
Proof.
move=> [W Sm _] Hg HR; elim: es k => [|e' es IH] k //= H.
have [Hk Ee] := H 0%N isT; rewrite addn0 /= in Hk Ee.
have {}IH : scan st k.+1 es <> Raise e.
  by apply: IH => i Hi; have := H i.+1 Hi; rewrite addnS -addSn.
rewrite /TlModel.scan -/TlModel.scan.
case: ifP => // _; case: ifP => // N; case: ifP => // /andP [Kn _].
have V := value_ok W Sm Hg HR.
have Kk : e_kw e' \in dkeys (v_tab st).
  by move/negbT: N; rewrite negb_and negbK Kn orbF.
have [y1 ->] := V _ Kk; rewrite /=.
have [|y2] := @e_fun_ok k (value (v_tab st) fcheck 0) fcheck Hk; last by rewrite -Ee => ->.
move=> p; rewrite /TlThm.reads; case: ifP => [/eqP E21|_] Hp.
  subst k; apply: V; move: Hp; rewrite !inE => /orP [] /eqP ->.
    by apply: (allP Kn); rewrite Ee.
  by apply: HR; apply: (allP Kn); rewrite Ee.
by apply: V; apply: (allP Kn); rewrite Ee.
Qed.
End Tl.

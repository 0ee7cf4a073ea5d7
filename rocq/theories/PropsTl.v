(** C42, C43: TLresolver, the parameters of a transmission line from any subset of them.

    [TLresolver n kws]: the constructor with the keyword arguments kws (a name and a function of
    the angular frequency w and the position x each), run for at most n turns of its loop.
    [value tb w x p]: the attribute p of the object, called with w and x. *)
From mathcomp Require Import all_ssreflect all_algebra.
From mathcomp.algebra_tactics Require Import ring.
From Coq Require Import String.
From Verif Require Import Base ConvModel ConvProofs TlModel TlThm TlPhys TlLoop TlSolve TlLC.
Set Implicit Arguments.
Unset Strict Implicit.
Unset Printing Implicit Defensive.
Import Order.TTheory GRing.Theory Num.Theory.
Local Open Scope string_scope.
Local Open Scope ring_scope.
Local Open Scope seq_scope.
Arguments any : simpl never.
Arguments avail : simpl never.
Arguments TlModel.scan : simpl never.

Section Props.
Variable C : numClosedFieldType.
Variables log exp pow10 : C -> C.
Variables pi c0 mu0 e0 eta0coax : C.
Variable Zbase : C.
Notation EQNS := (EQNS log exp pow10 pi c0 mu0 e0 eta0coax Zbase).
Notation value := (value log exp pow10 pi c0 mu0 e0 eta0coax Zbase).
Notation TLresolver := (TLresolver log exp pow10 pi c0 mu0 e0 eta0coax Zbase).
Notation eqn0 := (eqn0 C).
Notation kwargs := (seq (string * (C -> C -> res C))).
Implicit Types (kws : kwargs) (forget : seq (seq string * string)) (tb : table C).

(** * C42 *)
(** it terminates, whatever is given, whatever is to be forgotten *)
Theorem C42_terminates forget f0 kws : exists r, forall n, (49 <= n)%N ->
  TLresolver forget f0 n kws = Some r.
Proof.
rewrite /TLresolver; case: inputs => [tb|e]; last by exists (Raise e).
set st := Sv _ _.
have : TlModel.loop log exp pow10 pi c0 mu0 e0 eta0coax Zbase forget f0 49 st <> None.
  by apply: loop_total; apply: count_size.
case E: (TlModel.loop _ _ _ _ _ _ _ _ _ _ _ _ _) => [r|] // _.
exists (do st <- r; Ok (v_tab st)) => n Hn.
by rewrite (loop_mono Hn E).
Qed.
(** a keyword that is not a parameter of a line: ValueError *)
Theorem C42_unknown forget f0 n kws : ~ {subset map fst kws <= accepted} ->
  TLresolver forget f0 n kws = Some (Raise ValueError).
Proof.
move=> H; rewrite /TLresolver; case E: inputs => [tb|e]; last by rewrite (inputs_raise E).
by case: H; apply/(inputs_ok [::]); exists tb.
Qed.
(** what is given keeps its value, except gTL *)
Theorem C42_kept forget f0 n kws tb p f w x : uniq (map fst kws) ->
  TLresolver forget f0 n kws = Some (Ok tb) -> List.In (p, f) kws ->
  p != "gTL" \/ ~~ no_gTL (map fst kws) -> value tb w x p = f w x.
Proof.
move=> U E I H; have D := dget_In U I.
have [//|//|tb0 [st [E0 _ _ Sub _]]] := @TLresolver_inv _ log exp pow10 pi c0 mu0 e0
    eta0coax Zbase forget f0 (fun _ => True) n kws tb U _ _ E.
apply: value_given; apply: Sub; rewrite (missing_get p E0 U).
have [_ H2 _ H4] := inputs_spec E0 U.
have K : p \in map fst kws by have := dhasE kws p; rewrite /dhas D.
have NA ps : p \in ps -> ~~ any (map fst kws) ps -> false.
  by move=> P1 /hasPn /(_ _ P1) /=; rewrite K.
case: ifP => [/orP [] /andP [/eqP Ep Hn]|_].
- by move: Hn; rewrite /no_rTL => /andP [_ /(NA cond_loss)]; rewrite Ep => /(_ isT).
- by case: H; rewrite ?Ep ?Hn.
case: ifP => [/andP [K2]|_]; last by rewrite H2 D.
by rewrite /both_rho => /andP [_ /(NA _ K2)].
Qed.
(** what is assumed: no conductor losses if none of their parameters is given, no medium losses
    if none of theirs is, and rho is for both conductors *)
Theorem C42_assumed forget f0 n kws tb w x : uniq (map fst kws) ->
  TLresolver forget f0 n kws = Some (Ok tb) ->
  [/\ no_rTL (map fst kws) -> value tb w x "rTL" = Ok 0,
      no_gTL (map fst kws) -> value tb w x "gTL" = Ok 0
    & both_rho (map fst kws) -> forall f, List.In ("rho", f) kws ->
      value tb w x "rhoI" = f w x /\ value tb w x "rhoO" = f w x].
Proof.
move=> U E.
have [//|//|tb0 [st [E0 _ _ Sub _]]] := @TLresolver_inv _ log exp pow10 pi c0 mu0 e0
    eta0coax Zbase forget f0 (fun _ => True) n kws tb U _ _ E.
have [_ H2 _ _] := inputs_spec E0 U.
split=> [H|H|H f If].
- by rewrite (@value_given _ _ _ _ _ _ _ _ _ _ _ _ _ "rTL" (fun _ _ => Ok 0)) //;
    apply: Sub; rewrite (missing_get _ E0 U) H.
- by rewrite (@value_given _ _ _ _ _ _ _ _ _ _ _ _ _ "gTL" (fun _ _ => Ok 0)) //;
    apply: Sub; rewrite (missing_get _ E0 U) H.
have D := dget_In U If.
by split; apply: value_given; apply: Sub; rewrite (missing_get _ E0 U) H /= H2 D.
Qed.
(** every other parameter comes from an equation of the list, used when all its parameters were
    there, and has the value of its formula *)
Theorem C42_computed forget f0 n kws tb p : uniq (map fst kws) ->
  TLresolver forget f0 n kws = Some (Ok tb) -> p \in dkeys tb ->
  [\/ p \in map fst kws, (p == "rTL") && no_rTL (map fst kws) \/ (p == "gTL") && no_gTL (map fst kws),
      (p \in [:: "rhoI"; "rhoO"]) && both_rho (map fst kws)
    | exists k, let e := nth eqn0 EQNS k in
      [/\ (k < size EQNS)%N, e_kw e = p,
          {in e_deps e, forall d, d \in dkeys tb /\ (seq.index d (dkeys tb) < seq.index p (dkeys tb))%N}
        & forall w x, value tb w x p = e_fun e (value tb w x) w]].
Proof.
move=> U E K.
have [//|//|tb0 [st [E0 Et [_ [W Sm _]] Sub _]]] := @TLresolver_inv _ log exp pow10 pi c0 mu0 e0
    eta0coax Zbase forget f0 (fun _ => True) n kws tb U _ _ E.
rewrite -Et in W Sm.
case K0: (p \in dkeys (missing tb0)).
  move: K0; rewrite (missing_keys p E0 U) => /or4P [H|H|H|H].
  - by constructor 2; left.
  - by constructor 2; right.
  - by constructor 3.
  - by constructor 1.
have [s Es] := keys_dget K.
case: s Es => [f|k] Es; last first.
  have [Hk Kw D] := W _ _ Es.
  constructor 4; exists k; split=> //; first by move=> d Hd; split; [apply: idx_keys K (D _ Hd)|apply: D].
  by move=> w x; apply: value_computed.
(* a given parameter was there at the start *)
have [||tb1 [st1 [E1 Et1 [P1 _] _ _]]] := @TLresolver_inv _ log exp pow10 pi c0 mu0 e0
    eta0coax Zbase forget f0 (fun st => forall q g, dget (v_tab st) q = Some (Given g) -> q \in dkeys (missing tb0))
    n kws tb U _ _ E.
- by rewrite E0 => tb1 [<-] q g Eq; apply: dget_keys Eq.
- by move=> st' j P' _ _ _ q g; rewrite use_dget; case: eqP => // _; apply: P'.
by move: (P1 p f); rewrite -Et1 Es => /(_ erefl); rewrite K0.
Qed.
(** the line equations: gamma and Zc are those of the wave that travels forward, and give back
    the impedance and the admittance per metre *)
Lemma given_accepted forget f0 n kws tb p : uniq (map fst kws) ->
  TLresolver forget f0 n kws = Some (Ok tb) -> p \notin accepted -> p \in dkeys tb ->
  exists k, let e := nth eqn0 EQNS k in
      [/\ (k < size EQNS)%N, e_kw e = p, {subset e_deps e <= dkeys tb}
        & forall w x, value tb w x p = e_fun e (value tb w x) w].
Proof.
move=> U E N K; have [H|H|H|[k [H1 H2 H3 H4]]] := C42_computed U E K; last first.
- by exists k; split=> // d /H3 [].
- by case/negP: N; case/andP: H; rewrite !inE => /orP [] /eqP ->.
- by case/negP: N; case: H => /andP [/eqP ->].
case/negP: N; move: E; rewrite /TLresolver; case E0: inputs => [tb0|] // _.
by have [S _ _ _] := inputs_spec E0 U; apply: S.
Qed.
Theorem C42_line forget f0 n kws tb w x r l g c : uniq (map fst kws) ->
  TLresolver forget f0 n kws = Some (Ok tb) ->
  "Zc" \in dkeys tb -> "gamma" \in dkeys tb ->
  value tb w x "rTL" = Ok r -> value tb w x "LTL" = Ok l ->
  value tb w x "gTL" = Ok g -> value tb w x "CTL" = Ok c ->
  0 <= r -> 0 <= g -> 0 < w * l -> 0 < w * c ->
  exists gam Z, [/\ value tb w x "gamma" = Ok gam, value tb w x "Zc" = Ok Z,
     gam * Z = r + 'i * (w * l) /\ gam / Z = g + 'i * (w * c)
   & [/\ 0 <= 'Re gam, 0 <= 'Im gam & 0 < 'Re Z]].
Proof.
move=> U E KZ KG Er El Eg Ec Hr Hg Hl Hc.
have [k1 [L1 N1 D1 V1]] := given_accepted U E (isT : "Zc" \notin accepted) KZ.
have [k2 [L2 N2 _ V2]] := given_accepted U E (isT : "gamma" \notin accepted) KG.
have {L1 N1} E1 : k1 = 46%N by move: L1 N1; clear; do 49!(case: k1 => [|k1] //).
have {L2 N2} E2 : k2 = 47%N by move: L2 N2; clear; do 49!(case: k2 => [|k2] //).
subst k1 k2.
have [k3 [L3 N3 _ V3]] := given_accepted U E (isT : "rjwL" \notin accepted) (D1 "rjwL" isT).
have [k4 [L4 N4 _ V4]] := given_accepted U E (isT : "gjwC" \notin accepted) (D1 "gjwC" isT).
have {L3 N3} E3 : k3 = 2%N by move: L3 N3; clear; do 49!(case: k3 => [|k3] //).
have {L4 N4} E4 : k4 = 3%N by move: L4 N4; clear; do 49!(case: k4 => [|k4] //).
subst k3 k4.
move: (V1 w x) (V2 w x) (V3 w x) (V4 w x); rewrite /= /f2 Er El Eg Ec /= => W1 W2 W3 W4.
rewrite {}W3 {}W4 /= -!mulrA in W1 W2.
rewrite W1 W2; exists (np_sqrt ((g + 'i * (w * c)) * (r + 'i * (w * l)))).
exists (np_sqrt ((r + 'i * (w * l)) / (g + 'i * (w * c)))).
rewrite [(g + _) * (r + _)]mulrC.
split=> //; first by split; [apply: line_prod | apply: line_quot].
by split; [apply: np_sqrt_Re_ge0 | apply: line_Im | apply: line_ReZ].
Qed.
(** the inductance, the capacitance, the impedance and the relative velocity belong together,
    if no more than two of them are given *)
Theorem C42_constants f0 n kws tb w x L Cc Z v : uniq (map fst kws) ->
  TLresolver [::] f0 n kws = Some (Ok tb) ->
  (count (mem (map fst kws)) [:: "LTL"; "CTL"; "Z0TL"; "vr"] <= 2)%N -> c0 != 0 ->
  value tb w x "LTL" = Ok L -> value tb w x "CTL" = Ok Cc -> value tb w x "Z0TL" = Ok Z ->
  value tb w x "vr" = Ok v -> L != 0 -> Cc != 0 -> Z != 0 -> v != 0 ->
  Z ^+ 2 = L / Cc /\ (v * c0) ^+ 2 = 1 / (L * Cc).
Proof.
move=> U E Cn c0n EL EC EZ Ev Ln Cc_n Zn vn.
have [||tb0 [st [_ Et [Q [W Sm _]] _ _]]] := @TLresolver_inv _ log exp pow10 pi c0 mu0 e0
    eta0coax Zbase [::] f0 (fun st => lineq (v_tab st)) n kws tb U _ _ E.
- by move=> tb0 E0; apply: (lineq_start E0 U).
- by move=> st j Q I Sc Hj; apply: (lineq_use erefl I Sc Hj Q).
rewrite -Et in Q W Sm.
have [H1 H2] := lineq_final W Sm Q c0n EL EC EZ Ev Ln Cc_n Zn vn.
have LC : L * Cc != 0 by rewrite mulf_neq0.
by split; [rewrite -H1 mulfK | apply: (mulIf LC); rewrite H2 mulfVK].
Qed.
(** which sets of parameters can be solved: exactly these *)
Theorem C42_solved f0 n kws tb : uniq (map fst kws) ->
  TLresolver [::] f0 n kws = Some (Ok tb) ->
  ("Zc" \in dkeys tb) && ("gamma" \in dkeys tb) = solvable (map fst kws).
Proof. by move=> U E; apply: solved_iff E. Qed.
(** it returns an object if the functions given have a value for the check, and the surface
    resistance of the inner conductor is known when that of the outer one is *)
Theorem C42_returns f0 n kws : (49 <= n)%N -> uniq (map fst kws) -> {subset map fst kws <= accepted} ->
  (forall p f, List.In (p, f) kws -> exists y, f f0 0 = Ok y) ->
  ("RsO" \in map fst kws -> "RsI" \in map fst kws) ->
  ("rhoO" \in map fst kws -> any (map fst kws) [:: "rhoI"; "RsI"]) ->
  exists tb, TLresolver [::] f0 n kws = Some (Ok tb).
Proof.
move=> Hn U S Hf HR Hm; have [r Er] := C42_terminates [::] f0 kws.
have := Er n Hn; case: r {Er} => [tb|e] E; first by exists tb.
move: E; rewrite /TLresolver; have [tb0 E0] := (inputs_ok [::] kws).2 S; rewrite E0.
case L: TlModel.loop => [[st|e']|] //= _.
have := @loop_noraise _ log exp pow10 pi c0 mu0 e0 eta0coax Zbase [::] f0 n (Sv (missing tb0) [::]) e'
  (@inv0 _ log exp pow10 pi c0 mu0 e0 eta0coax Zbase kws tb0 E0 U) erefl.
have [_ H2 _ H4] := inputs_spec E0 U.
have F p f : dget (missing tb0) p = Some (Given f) -> exists y, f f0 0 = Ok y.
  have G q : dget tb0 q = Some (Given f) -> exists y, f f0 0 = Ok y.
    rewrite H2; case D: (dget kws q) => [f'|] //= [Ef]; subst f'.
    apply: (Hf q); elim: (kws) D => [|[k' f'] l IH] //=.
    by case: eqP => [-> [->]|_ /IH]; [left | right].
  rewrite (missing_get p E0 U); case: ifP => _; first by move=> [<-]; exists 0.
  by case: ifP => _ /G.
move=> /(_ F) []; last by [].
- rewrite !(missing_keys _ E0 U) /=.
  by move/HR => ->; rewrite ?orbT.
- rewrite !(missing_keys _ E0 U) /=.
  case/orP => [->|/Hm]; first by [].
  by rewrite /any /= orbF => /orP [] ->; rewrite !orbT.
Qed.

(** * C43 *)
(** the formulas are those of the physics ([physical]): whenever the parameters of an equation
    are those of a line, its formula gives the right parameter of that line.  So going from some
    parameters to others and back changes nothing.  The four equations [wrong] are left out, and
    the attenuation from rTL and gTL needs rTL gTL < (w LTL)(w CTL). *)
Theorem C43_sound w g k : 0 < w -> [/\ 0 < pi, 0 < c0, 0 < e0 & 0 < eta0coax] ->
  (forall y, 0 < y -> exp (log y) = y) -> physical log pi c0 mu0 e0 eta0coax w g ->
  let e := nth eqn0 EQNS k in
  (k < size EQNS)%N -> e_deps e != [::] -> (e_kw e, e_deps e) \notin wrong ->
  ((e_kw e, e_deps e) = ("A", [:: "rTL"; "gTL"; "LTL"; "CTL"]) ->
     g "rTL" * g "gTL" < w ^+ 2 * (g "LTL" * g "CTL")) ->
  e_fun e (fun p => Ok (g p)) w = Ok (g (e_kw e)).
Proof.
move=> Hw Hc Ek P e Hk D W HA.
apply: (@phys_sound _ log exp pow10 pi c0 mu0 e0 eta0coax Zbase w g Hw Hc Ek P k Hk D W) => E.
by apply: HA; rewrite /e E.
Qed.
(** so the resolver finds the parameters of a line from any of them: all it computes is right if
    what it is given ([g], a physical line) and what it assumes is, and it has not used one of the
    wrong equations *)
Theorem C43_recover forget f0 n kws tb w x g : uniq (map fst kws) ->
  TLresolver forget f0 n kws = Some (Ok tb) ->
  0 < w -> [/\ 0 < pi, 0 < c0, 0 < e0 & 0 < eta0coax] ->
  (forall y, 0 < y -> exp (log y) = y) -> physical log pi c0 mu0 e0 eta0coax w g ->
  g "rTL" * g "gTL" < w ^+ 2 * (g "LTL" * g "CTL") ->
  (forall p f, List.In (p, f) kws -> f w x = Ok (g p)) ->
  (no_rTL (map fst kws) -> g "rTL" = 0) -> (no_gTL (map fst kws) -> g "gTL" = 0) ->
  (both_rho (map fst kws) -> g "rhoI" = g "rho" /\ g "rhoO" = g "rho") ->
  (forall p k, dget tb p = Some (Computed _ k) -> let e := nth eqn0 EQNS k in
     if e_deps e is [::] then e_fun e (fun q => Ok (g q)) w = Ok (g p)
     else (e_kw e, e_deps e) \notin wrong) ->
  forall p, p \in dkeys tb -> value tb w x p = Ok (g p).
Proof.
move=> U E Hw Hc Ek P HA Hg H1 H2 H3 HE.
have [||tb0 [st [E0 Et [Gv [W Sm _]] Sub _]]] := @TLresolver_inv _ log exp pow10 pi c0 mu0 e0
    eta0coax Zbase forget f0 (fun st => forall q f, dget (v_tab st) q = Some (Given f) -> f w x = Ok (g q))
    n kws tb U _ _ E.
- move=> tb0 E0 q f /=; rewrite (missing_get q E0 U).
  case: ifP => [/orP [] /andP [/eqP -> K] [<-]|_]; rewrite ?(H1 K) ?(H2 K) //.
  have [_ H _ _] := inputs_spec E0 U.
  have In' r h : dget kws r = Some h -> List.In (r, h) kws.
    elim: (kws) => [|[k' f'] l IH] //=.
    by case: eqP => [-> [->]|_ /IH]; [left | right].
  case: ifP => [/andP [K1 K2]|_]; rewrite H; case D: (dget kws _) => [h|] //= [<-];
    rewrite (Hg _ _ (In' _ _ D)) //.
  by have [G1 G2] := H3 K2; move: K1; rewrite !inE => /orP [] /eqP ->; rewrite ?G1 ?G2.
- by move=> st j Pst _ _ _ q f; rewrite use_dget; case: eqP => // _; apply: Pst.
rewrite -Et in Gv W Sm.
suff Hi i p : p \in dkeys tb -> (seq.index p (dkeys tb) < i)%N -> value tb w x p = Ok (g p).
  by move=> p K; apply: Hi K (ltnSn _).
elim: i p => [|i IH] p K //; rewrite ltnS => Hp.
have [[f|k] Es] := keys_dget K; first by rewrite (value_given _ _ _ _ _ _ _ _ _ _ _ Es) (Gv _ _ Es).
rewrite (value_computed _ _ W Sm Es); have [Hk Kw D] := W _ _ Es.
have := HE _ _ Es; cbv zeta.
case Ed: (e_deps (nth eqn0 EQNS k)) => [|d ds] => [<-|Nw].
  apply: e_fun_ext => // a; rewrite /reads Ed; case: ifP => // /eqP E21.
  by move: Ed; rewrite E21.
rewrite -Kw -(@C43_sound w g k) ?Ed //.
apply: e_fun_ext => // a; rewrite /reads; case: ifP => [/eqP E21|_] Ha.
  by move: Nw; rewrite -Ed E21.
by apply: IH; [apply: idx_keys K (D _ Ha) | apply: leq_trans (D _ Ha) Hp].
Qed.
(** in particular: a coaxial line in a known medium, of one metal, given by its impedance or by
    its diameters *)
Theorem C43_recover_coax f0 n kws tb w x g : uniq (map fst kws) ->
  TLresolver [::] f0 n kws = Some (Ok tb) ->
  0 < w -> [/\ 0 < pi, 0 < c0, 0 < e0 & 0 < eta0coax] ->
  (forall y, 0 < y -> exp (log y) = y) -> physical log pi c0 mu0 e0 eta0coax w g ->
  g "rTL" * g "gTL" < w ^+ 2 * (g "LTL" * g "CTL") ->
  (forall p f, List.In (p, f) kws -> f w x = Ok (g p)) ->
  {subset [:: "mur"; "epsr"; "Z0TL"; "rTL"] <= map fst kws} ->
  any (map fst kws) [:: "AdB"; "A"; "RsO"; "rhoO"; "rho"] = false ->
  (no_gTL (map fst kws) -> g "gTL" = 0) -> g "murI" = 1 -> g "murO" = 1 ->
  exists gam Z, [/\ value tb w x "gamma" = Ok gam, value tb w x "Zc" = Ok Z, gam = g "gamma" & Z = g "Zc"].
Proof.
move=> U E Hw Hc Ek P HA Hg Sb No Hgt M1 M2.
have NG p : p \in [:: "AdB"; "A"; "RsO"; "rhoO"; "rho"] -> p \notin map fst kws.
  by move=> Hp; apply/negP => K; move/hasPn: (negbT No) => /(_ _ Hp) /=; rewrite K.
have NoR : no_rTL (map fst kws) = false.
  rewrite /no_rTL; apply/negP => /andP [_ /hasPn /(_ "rTL" isT) /=]; by rewrite Sb.
have NoB : both_rho (map fst kws) = false by rewrite /both_rho (negbTE (NG "rho" isT)).
have V := C43_recover U E Hw Hc Ek P HA Hg.
have kin : solvable (map fst kws).
  by rewrite /solvable Sb // orTb; case: ifP => // /hasP [p]; rewrite !inE => /orP [] /eqP -> /=; rewrite (negbTE (NG _ _)).
rewrite -(C42_solved U E) in kin; case/andP: kin => kZ kG.
have Gn p k : p \in map fst kws -> dget tb p <> Some (Computed _ k).
  move=> K; have [//|//|tb0 [st [E0 _ _ Sub _]]] := @TLresolver_inv _ log exp pow10 pi c0 mu0 e0
    eta0coax Zbase [::] f0 (fun _ => True) n kws tb U _ _ E.
  have [H1 H2 H3 H4] := inputs_spec E0 U.
  have S : {subset dkeys tb0 <= accepted} by move=> a; rewrite H4 => /H1.
  have Gg q j : dget tb0 q <> Some (Computed _ j) by rewrite H2; case: dget.
  have [_ _ M3 M4 _] := avail_missing0 S (H3 isT) Gg.
  have /M4 /keys_dget [s Es] : p \in dkeys tb0 by rewrite H4 K orbT.
  by rewrite (Sub _ _ Es) => -[Ess]; case: (M3 p k); rewrite Es Ess.
have Cm p : p \in dkeys tb -> p \notin map fst kws -> p \notin [:: "rTL"; "gTL"] ->
    exists2 k, (k < 49)%N & e_kw (nth eqn0 EQNS k) = p /\ {subset e_deps (nth eqn0 EQNS k) <= dkeys tb}.
  move=> K N1 N2; have [H|H|H|[k [A1 A2 A3 _]]] := C42_computed U E K.
  - by case/negP: N1.
  - by case/negP: N2; case: H => /andP [/eqP ->].
  - by rewrite NoB andbF in H.
  - by exists k => //; split=> // d /A3 [].
have NrhoO : "rhoO" \notin dkeys tb.
  apply/negP => K; have [k Hk [Kw _]] := Cm _ K (NG "rhoO" isT) isT.
  by move: Hk Kw; clear; do 49!(case: k => [|k] //).
have NRsO : "RsO" \notin dkeys tb.
  apply/negP => K; have [k Hk [Kw D]] := Cm _ K (NG "RsO" isT) isT.
  have Ek' : k = 25%N by move: Hk Kw; clear; do 49!(case: k => [|k] //).
  by subst k; case/negP: NrhoO; apply: D.
have NAdB : "AdB" \notin dkeys tb.
  apply/negP => K; have [k Hk [Kw _]] := Cm _ K (NG "AdB" isT) isT.
  by move: Hk Kw; clear; do 49!(case: k => [|k] //).
have VV : forall p, p \in dkeys tb -> value tb w x p = Ok (g p).
  apply: V; rewrite ?NoR ?NoB // => p k Es.
  have [//|//|tb0 [st [_ Et [_ [W _ _]] _ _]]] := @TLresolver_inv _ log exp pow10 pi c0 mu0 e0
    eta0coax Zbase [::] f0 (fun _ => True) n kws tb U _ _ E.
  rewrite -Et in W; have [Hk Kw D] := W _ _ Es; have K := dget_keys Es.
  have Ng : p \notin map fst kws by apply/negP => /(@Gn p k).
  have Nm q : q \in [:: "mur"; "epsr"; "Z0TL"; "rTL"] -> p != q.
    by move=> /Sb Hq; apply/eqP => X; move: Ng; rewrite X Hq.
  have n1 := Nm "mur" isT; have n2 := Nm "epsr" isT; have n3 := Nm "Z0TL" isT.
  have Dk q : q \in e_deps (nth eqn0 EQNS k) -> q \in dkeys tb.
    by move=> /D; apply: idx_keys.
  move: Hk Kw n1 n2 n3 Dk; clear -M1 M2 NRsO NAdB.
  case: k => [|k]; first by move=> _ <- *; rewrite /= /f0_ M1.
  case: k => [|k]; first by move=> _ <- *; rewrite /= /f0_ M2.
  do 19!(case: k => [|k]; first by []).
  case: k => [|k]; first by move=> _ _ _ _ _ /(_ "RsO" isT); rewrite (negbTE NRsO).
  do 8!(case: k => [|k]; first by []).
  case: k => [|k]; first by move=> _ <-.
  case: k => [|k]; first by move=> _ <-.
  do 4!(case: k => [|k]; first by []).
  case: k => [|k]; first by move=> _ _ _ _ _ /(_ "AdB" isT); rewrite (negbTE NAdB).
  do 4!(case: k => [|k]; first by []).
  case: k => [|k]; first by move=> _ <-.
  case: k => [|k]; first by move=> _ <-.
  case: k => [|k]; first by move=> _ <-.
  by do 5!(case: k => [|k] //).
by exists (g "gamma"), (g "Zc"); rewrite !VV.
Qed.
End Props.

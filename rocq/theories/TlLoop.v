(** TLresolver: which sets of parameters can be solved, when it raises, and the consistency of
    the four line constants. *)
From mathcomp Require Import all_ssreflect all_algebra.
From mathcomp.algebra_tactics Require Import ring.
From Coq Require Import String Lia.
From Verif Require Import Base ConvModel ConvProofs TlModel TlThm TlPhys.
Set Implicit Arguments.
Unset Strict Implicit.
Unset Printing Implicit Defensive.
Import Order.TTheory GRing.Theory Num.Theory.
Local Open Scope string_scope.
Local Open Scope ring_scope.
Local Open Scope seq_scope.

(** * the names of the parameters that are given *)
Definition cond_loss : seq string :=
  [:: "Rs"; "RsI"; "RsO"; "rTL"; "rTLO"; "rTLI"; "rho"; "rhoI"; "rhoO"].
Definition any (G ps : seq string) : bool := has (mem G) ps.
Arguments any : simpl never.
Arguments avail : simpl never.
(** both conductors have the resistivity rho *)
Definition both_rho (G : seq string) : bool := ("rho" \in G) && ~~ any G [:: "rhoI"; "rhoO"].
(** the resistance of the inner / outer conductor is given or follows *)
Definition inner (G : seq string) : bool :=
  ("rTLI" \in G) ||
  ((any G [:: "RsI"; "rhoI"] || both_rho G) && any G [:: "qTLI"; "ID"; "OD"]).
Definition outer (G : seq string) : bool :=
  ("rTLO" \in G) ||
  ((any G [:: "RsO"; "rhoO"] || both_rho G) && any G [:: "qTLO"; "ID"; "OD"]).
(** the line can be solved *)
Definition solvable (G : seq string) : bool :=
  if any G [:: "A"; "AdB"] then
    any G [:: "gTL"; "sigma"; "tand"; "rTL"] || ~~ any G cond_loss || inner G && outer G
  else ("rTL" \in G) || ~~ any G cond_loss || inner G && outer G.

Section Tl.
Variable C : numClosedFieldType.
Variables log exp pow10 : C -> C.
Variables pi c0 mu0 e0 eta0coax : C.
Variable Zbase : C.
Variable forget : seq (seq string * string).
Variable fcheck : C.
Notation EQNS := (EQNS log exp pow10 pi c0 mu0 e0 eta0coax Zbase).
Notation value := (value log exp pow10 pi c0 mu0 e0 eta0coax Zbase).
Notation wf := (wf log exp pow10 pi c0 mu0 e0 eta0coax Zbase).
Notation inv := (inv log exp pow10 pi c0 mu0 e0 eta0coax Zbase).
Notation scan := (scan log exp pow10 pi c0 mu0 e0 eta0coax Zbase forget fcheck).
Notation loop := (loop log exp pow10 pi c0 mu0 e0 eta0coax Zbase forget fcheck).
Notation TLresolver := (TLresolver log exp pow10 pi c0 mu0 e0 eta0coax Zbase forget fcheck).
Notation eqn := (eqn C).
Notation eqn0 := (eqn0 C).
Notation table := (table C).
Notation sv := (sv C).
Notation kwargs := (seq (string * (C -> C -> res C))).

(** ** the assumptions made for missing information *)
Definition no_rTL (G : seq string) : bool := ~~ any G [:: "A"; "AdB"] && ~~ any G cond_loss.
Definition no_gTL (G : seq string) : bool :=
  if any G [:: "A"; "AdB"] then ~~ any G (cond_loss ++ [:: "sigma"; "tand"])
  else ~~ any G [:: "sigma"; "tand"].
Lemma dget_In (kws : kwargs) kw f : uniq (map fst kws) -> List.In (kw, f) kws -> dget kws kw = Some f.
Proof.
elim: kws => [|[k g] kws IH] //= /andP [N U] [[-> ->]|H]; first by rewrite eqxx.
case: eqP => [E|_]; last exact: IH.
subst k; case/negP: N; elim: kws H {IH U} => [|[k' g'] kws IH] //= [[-> _]|/IH H].
  by rewrite mem_head.
by rewrite inE H orbT.
Qed.
Lemma avail_any (kws : kwargs) tb ps : inputs [::] kws = Ok tb -> uniq (map fst kws) ->
  avail tb ps = any (map fst kws) ps.
Proof.
by move=> E U; have [_ _ _ H] := inputs_spec E U; apply: eq_has => p; rewrite H.
Qed.
Lemma missing_get (kws : kwargs) tb kw : inputs [::] kws = Ok tb -> uniq (map fst kws) ->
  let G := map fst kws in
  dget (missing tb) kw =
  if (kw == "rTL") && no_rTL G || (kw == "gTL") && no_gTL G then Some (zero_fun C)
  else if (kw \in [:: "rhoI"; "rhoO"]) && both_rho G then dget tb "rho"
  else dget tb kw.
Proof.
move=> E U G; have [H1 H2 H3 H4] := inputs_spec E U.
have AV ps : avail tb ps = any G ps by apply: avail_any.
have Am : ("Am" \in G) = false by apply/negP => /H1.
have AmdB : ("AmdB" \in G) = false by apply/negP => /H1.
have Ac : ("Ac" \in G) = false by apply/negP => /H1.
have AcdB : ("AcdB" \in G) = false by apply/negP => /H1.
rewrite /missing !AV.
set t1 := (if ~~ any G [:: "A"; "AdB"] then _ else _).
have T1 k : dget t1 k = if (k == "rTL") && no_rTL G || (k == "gTL") && no_gTL G
                        then Some (zero_fun C) else dget tb k.
  rewrite /t1 /no_rTL /no_gTL; case HA: (any G [:: "A"; "AdB"]); rewrite ?andbF ?orFb /=.
    have -> : any G [:: "Ac"; "AcdB"; "Rs"; "RsI"; "RsO"; "rTL"; "rTLO"; "rTLI"; "rho"; "rhoI"; "rhoO";
       "sigma"; "tand"; "Am"; "AmdB"] = any G (cond_loss ++ [:: "sigma"; "tand"]).
      by rewrite /any /= Am AmdB Ac AcdB.
    case: ifP => _; rewrite ?andbT ?andbF //.
    by rewrite dget_dset; case: eqP => // ->.
  rewrite -/cond_loss.
  set t2 := (if ~~ any G cond_loss then _ else _).
  have -> : avail t2 [:: "sigma"; "tand"; "Am"; "AmdB"] = any G [:: "sigma"; "tand"].
    have -> : any G [:: "sigma"; "tand"] = avail tb [:: "sigma"; "tand"; "Am"; "AmdB"].
      by rewrite AV /any /= Am AmdB.
    by rewrite /avail /= -!dhasE /dhas /t2; case: ifP => _ //; rewrite !dget_dset.
  have T2 k' : dget t2 k' = if (k' == "rTL") && ~~ any G cond_loss then Some (zero_fun C) else dget tb k'.
    rewrite /t2; case: ifP => _; rewrite ?andbF // andbT dget_dset //.
  case: (any G [:: "sigma"; "tand"]); rewrite /= ?andbF ?andbT ?orbF ?T2 //.
  by rewrite dget_dset T2; case: (k == "gTL"); rewrite ?orbT ?orbF.
have AV1 : avail t1 [:: "rhoI"; "rhoO"] = any G [:: "rhoI"; "rhoO"].
  rewrite -AV /avail /= -!dhasE /dhas !T1 //=.
rewrite T1 /= AV1 /both_rho.
have Erho : dget tb "rho" = None -> "rho" \in G = false.
  by move=> N; have := H4 "rho"; rewrite -dhasE /dhas N.
have Erho' s : dget tb "rho" = Some s -> "rho" \in G.
  by move=> S; have := H4 "rho"; rewrite -dhasE /dhas S.
case Er: (dget tb "rho") => [s|]; last first.
  by rewrite (Erho Er) /= andbF T1.
rewrite (Erho' _ Er) /=; case: ifP => _; last by rewrite andbF T1.
rewrite andbT !dget_dset T1 !inE.
by case: eqP => [->//|_]; case: eqP => [->//|_].
Qed.

(** ** the parameters that can be known *)
Section Closure.
Variable G : seq string.
Let s := solvable G.
Let hA := any G [:: "A"; "AdB"].
Let D := any G [:: "ID"; "OD"].
Let rI := inner G.
Let rO := outer G.
Let mI := ("rhoI" \in G) || both_rho G.
Let mO := ("rhoO" \in G) || both_rho G.
Let qI := ("qTLI" \in G) || D.
Let qO := ("qTLO" \in G) || D.
Let sg := any G [:: "sigma"; "tand"] || (~~ hA || s) && D.
Definition Ktab : seq (string * bool) := [::
  ("murI", true); ("murO", true); ("mur", true); ("epsr", true); ("Z0TL", true); ("vr", true);
  ("LTL", true); ("CTL", true); ("etar", true); ("beta", true); ("Rs", true); ("qTL", true);
  ("rho", true); ("ID", D); ("OD", D); ("qTLI", qI); ("qTLO", qO); ("rhoI", mI); ("rhoO", mO);
  ("RsI", ("RsI" \in G) || mI); ("RsO", ("RsO" \in G) || mO);
  ("rTLI", rI || s && rO); ("rTLO", rO || s && rI); ("rTL", s); ("gTL", ~~ hA || s);
  ("A", hA || s); ("AdB", hA); ("sigma", sg); ("tand", sg);
  ("rjwL", s); ("gjwC", ~~ hA || s); ("Zc", s); ("gamma", s)].
Definition Kin (kw : string) : bool := if dget Ktab kw is Some b then b else false.

Let s1 : rI && rO -> s.
Proof. by rewrite /s /solvable -/rI -/rO => ->; case: ifP; rewrite !orbT. Qed.
Let s2 : any G [:: "sigma"; "tand"] -> hA -> s.
Proof.
rewrite /s /solvable => H; rewrite -/hA => ->; move: H; rewrite /any /= orbF.
by case/orP => ->; rewrite ?orbT.
Qed.
Let rI1 : ("RsI" \in G) || mI -> qI -> rI.
Proof.
rewrite /rI /inner /qI /D /mI /any /= !orbF.
by case: ("rTLI" \in G); case: ("RsI" \in G); case: ("rhoI" \in G); case: both_rho;
   case: ("qTLI" \in G); case: ("ID" \in G); case: ("OD" \in G).
Qed.
Let rO1 : ("RsO" \in G) || mO -> qO -> rO.
Proof.
rewrite /rO /outer /qO /D /mO /any /= !orbF.
by case: ("rTLO" \in G); case: ("RsO" \in G); case: ("rhoO" \in G); case: both_rho;
   case: ("qTLO" \in G); case: ("ID" \in G); case: ("OD" \in G).
Qed.
Lemma Kin_closed k : (k < 49)%N -> all Kin (e_deps (nth eqn0 EQNS k)) ->
  Kin (e_kw (nth eqn0 EQNS k)).
Proof.
move: s1 s2 rI1 rO1; rewrite /Kin /Ktab /sg /qI /qO.
move: ("RsI" \in G) ("RsO" \in G) ("qTLI" \in G) ("qTLO" \in G) (mI) (mO)
  (any G [:: "sigma"; "tand"]) (D) (rO) (rI) (hA) (s).
clear=> a1 a2 a3 a4 a5 a6 a7 a8 a9 a10 a11 a12.
do 49!(case: k => [|k]; first by
  (rewrite /= ?andbT //=; case: a12; rewrite ?orbT ?andbT //=; case: a11 => //=; case: a10 => //=;
   case: a9 => //=; case: a8; rewrite ?orbT ?andbT //=; case: a7 => //=; case: a6 => //=; case: a5 => //=; case: a4 => //=;
   case: a3 => //=; case: a2 => //=; case: a1 => //=)).
by [].
Qed.
End Closure.
End Tl.

(** C42, C43: what is not so, and cases that meet the hypotheses of the theorems. *)
From mathcomp Require Import all_ssreflect all_algebra.
From mathcomp.algebra_tactics Require Import ring.
From Coq Require Import String.
From Verif Require Import Base ConvModel ConvProofs TlModel TlThm TlPhys TlLoop TlSolve TlLC PropsTl.
Set Implicit Arguments.
Unset Strict Implicit.
Unset Printing Implicit Defensive.
Import Order.TTheory GRing.Theory Num.Theory.
Local Open Scope string_scope.
Local Open Scope ring_scope.
Local Open Scope seq_scope.

Section Refuted.
Variable C : numClosedFieldType.
Variables log exp pow10 : C -> C.
Variables pi c0 mu0 e0 eta0coax : C.
Variable Zbase : C.
Notation EQNS := (EQNS log exp pow10 pi c0 mu0 e0 eta0coax Zbase).
Notation value := (value log exp pow10 pi c0 mu0 e0 eta0coax Zbase).
Notation TLresolver := (TLresolver log exp pow10 pi c0 mu0 e0 eta0coax Zbase).
Notation eqn0 := (eqn0 C).
Let cst (y : C) : C -> C -> res C := fun _ _ => Ok y.

(** the conductance the user gives is thrown away, 309-313 *)
Theorem C42_gTL_lost f0 (y w x : C) : exists tb,
  TLresolver [::] f0 49 [:: ("gTL", cst y)] = Some (Ok tb) /\ value tb w x "gTL" = Ok 0.
Proof.
have S1 : {subset map fst [:: ("gTL", cst y)] <= accepted} by move=> p; rewrite inE => /eqP ->.
have S2 p f : List.In (p, f) [:: ("gTL", cst y)] -> exists z, f f0 0 = Ok z.
  by move=> /= [[_ <-]|//]; exists y.
have [tb E] := @C42_returns _ log exp pow10 pi c0 mu0 e0 eta0coax Zbase f0 49 [:: ("gTL", cst y)]
  isT isT S1 S2 (fun H => H) (fun H => H).
exists tb; split; first exact: E.
have U : uniq (map fst [:: ("gTL", cst y)]) by [].
by have [_ H _] := C42_assumed w x U E; apply: H.
Qed.
(** the surface resistance of the outer conductor needs that of the inner one, 117-118: without
    it the check of what is given raises *)
Theorem C42_RsO_raises f0 (a b c : C) :
  TLresolver [::] f0 49 [:: ("rTLO", cst a); ("RsO", cst b); ("qTLO", cst c)]
  = Some (Raise AttributeError).
Proof. by []. Qed.
(** and with it, it is taken for it *)
Theorem C42_rTLO_wrong g w RsI RsO qTLO : g "RsI" = Ok RsI -> g "RsO" = Ok RsO -> g "qTLO" = Ok qTLO ->
  e_kw (nth eqn0 EQNS 21) = "rTLO" /\ e_deps (nth eqn0 EQNS 21) = [:: "RsO"; "qTLO"] /\
  e_fun (nth eqn0 EQNS 21) g w = Ok (qTLO * RsI).
Proof. by move=> E1 E2 E3; rewrite /= /f2 E1 E3. Qed.
(** Rs alone does not make a line *)
Theorem C42_Rs_unsolved f0 n (y : C) tb : TLresolver [::] f0 n [:: ("Rs", cst y)] = Some (Ok tb) ->
  ("Zc" \in dkeys tb) && ("gamma" \in dkeys tb) = false.
Proof. by move=> E; rewrite (C42_solved _ E). Qed.
(** the relative permeability from the velocity, 33: right only for epsr = 1 *)
Theorem C43_mur_wrong (g : string -> C) w : 0 < g "epsr" -> 0 < g "vr" -> 0 < g "mur" ->
  g "vr" ^+ 2 = 1 / (g "mur" * g "epsr") ->
  e_kw (nth eqn0 EQNS 30) = "mur" /\ e_deps (nth eqn0 EQNS 30) = [:: "vr"; "epsr"] /\
  (e_fun (nth eqn0 EQNS 30) (fun p => Ok (g p)) w = Ok (g "mur") <-> g "epsr" = 1).
Proof.
move=> He Hv Hm Ev; do 2!split=> //; rewrite /= /f2 /= Ev.
have en := lt0r_neq0 He; have mn := lt0r_neq0 Hm.
have -> : g "epsr" / (1 / (g "mur" * g "epsr")) = g "mur" * g "epsr" ^+ 2 by field; rewrite en mn.
split=> [[E]|->]; last by rewrite expr1n mulr1.
apply: (eq_sqr_ge0 (ltW He) ler01); rewrite expr1n.
by apply: (mulfI mn); rewrite mulr1.
Qed.
(** the relative permittivity from the velocity, 34: right only for mur = 1 *)
Theorem C43_epsr_wrong (g : string -> C) w : 0 < g "epsr" -> 0 < g "vr" -> 0 < g "mur" ->
  g "vr" ^+ 2 = 1 / (g "mur" * g "epsr") ->
  e_kw (nth eqn0 EQNS 31) = "epsr" /\ e_deps (nth eqn0 EQNS 31) = [:: "vr"; "mur"] /\
  (e_fun (nth eqn0 EQNS 31) (fun p => Ok (g p)) w = Ok (g "epsr") <-> g "mur" = 1).
Proof.
move=> He Hv Hm Ev; do 2!split=> //; rewrite /= /f2 /= Ev.
have en := lt0r_neq0 He; have mn := lt0r_neq0 Hm.
have -> : g "mur" / (1 / (g "mur" * g "epsr")) = g "epsr" * g "mur" ^+ 2 by field; rewrite en mn.
split=> [[E]|->]; last by rewrite expr1n mulr1.
apply: (eq_sqr_ge0 (ltW Hm) ler01); rewrite expr1n.
by apply: (mulfI en); rewrite mulr1.
Qed.
(** an attenuation in dB above 0 becomes a negative attenuation constant *)
Theorem C43_AdB_wrong (g : string -> C) w : 1 < pow10 (g "AdB" / 20%:R) ->
  e_kw (nth eqn0 EQNS 36) = "A" /\ e_deps (nth eqn0 EQNS 36) = [:: "AdB"] /\
  exists a, e_fun (nth eqn0 EQNS 36) (fun p => Ok (g p)) w = Ok a /\ a < 0.
Proof. by move=> H; do 2!split=> //; eexists; split; [reflexivity | rewrite subr_lt0]. Qed.
(** the attenuation of a line with rTL gTL > (w LTL)(w CTL) is the root of a negative number *)
Theorem C43_A_wrong (w L Cc gg rr : C) : 0 < w * L -> 0 < w * Cc -> 0 <= gg -> 0 <= rr ->
  w * L * (w * Cc) < rr * gg -> A_of w L Cc gg rr ^+ 2 < 0.
Proof.
move=> HX HB Hg Hr Hlt; rewrite /A_of np_sqrtK.
set X := w * L in HX Hlt *; set B := w * Cc in HB Hlt *; set a := rr / X; set b := gg / B.
have a0 : 0 <= a by rewrite divr_ge0 // ltW.
have b0 : 0 <= b by rewrite divr_ge0 // ltW.
have d0 : 1 - a * b < 0.
  by rewrite subr_lt0 /a /b mulf_div ltr_pdivl_mulr ?mul1r // mulr_gt0.
have ab : 0 < a + b.
  rewrite lt_def addr_ge0 // andbT; apply/eqP => E0.
  have Ea : a = 0 by apply/eqP; rewrite eq_le a0 andbT -E0 ler_addl.
  by move: d0; rewrite Ea mul0r subr0 ltr10.
set q := (a + b) / (1 - a * b).
have q2 : 0 < q ^+ 2.
  have qr : q \is Num.real by apply: rpred_div; [apply: gtr0_real | apply: ltr0_real].
  have qn : q != 0 by apply: mulf_neq0; rewrite ?invr_eq0 ?(lt0r_neq0 ab) ?(ltr0_neq0 d0).
  by rewrite real_exprn_even_gt0.
have s1 : 1 < np_sqrt (1 + q ^+ 2).
  have p0 : 0 < 1 + q ^+ 2 by rewrite addr_gt0 ?ltr01.
  have s0 := np_sqrt_gt0 p0.
  rewrite -(@ltr_pexpn2r _ 2) ?nnegrE ?ler01 ?(ltW s0) // expr1n np_sqrtK.
  by rewrite ltr_addl.
set s := np_sqrt _ in s1 *.
have -> : (1 - a * b) * (s - 1) / 2%:R * X * B = (1 - a * b) * ((s - 1) * (2%:R^-1 * (X * B))) by ring.
rewrite nmulr_rlt0 //; apply: mulr_gt0; first by rewrite subr_gt0.
by apply: mulr_gt0; [rewrite invr_gt0 ltr0n | apply: mulr_gt0].
Qed.
End Refuted.

(** * cases *)
Section Cases.
Variable C : numClosedFieldType.
Let q : C := 4%:R^-1.
Let h : C := 2%:R^-1.
(** all constants 1, log and exp the identity; a line of 1/2 Ohm and 1/2 S per metre *)
Definition line1 (p : string) : C :=
  if p \in [:: "RsI"; "RsO"; "rTLI"; "rTLO"; "sigma"; "tand"] then q
  else if p \in [:: "rhoI"; "rhoO"] then 8%:R^-1
  else if p \in [:: "rTL"; "gTL"; "A"] then h
  else if p \in [:: "rjwL"; "gjwC"; "gamma"] then h + 'i
  else 1.
Let h0 : (0 : C) <= h. Proof. by rewrite invr_ge0 ler0n. Qed.
Let q0 : (0 : C) <= q. Proof. by rewrite invr_ge0 ler0n. Qed.
Let hh : h ^+ 2 = q. Proof. by rewrite /h /q; field. Qed.
Let qq : q + q = h. Proof. by rewrite /h /q; field. Qed.
Let hi : h + 'i != 0.
Proof.
apply/eqP => E; have : 'Im (h + 'i * 1) = 0 by rewrite mulr1 E raddf0.
by rewrite Im_rect ?ger0_real ?ler01 // => /eqP; rewrite oner_eq0.
Qed.
Example line1_physical : physical (@id C) 1 1 1 1 1 1 line1.
Proof.
have Rh : h \is Num.real by rewrite ger0_real.
have RI : 'Re (h + 'i) = h /\ 'Im (h + 'i) = 1.
  have -> : h + 'i = h + 'i * 1 by rewrite mulr1.
  by rewrite Re_rect ?Im_rect ?ger0_real ?ler01.
split; rewrite /line1 /= ?expr1n ?divr1 ?mulr1 ?mul1r ?qq //.
- by move=> p; rewrite !inE; do 8?(case/orP => [/eqP -> /=|]); rewrite ?ltr01 //; move/eqP => -> /=; rewrite ltr01.
- by move=> p; rewrite !inE; do 4?(case/orP => [/eqP -> /=|]); rewrite ?h0 ?q0 ?ler01 //; move/eqP => -> /=; rewrite ler01.
- by rewrite expr1n invr1.
- by rewrite invr1.
- by rewrite /h /q; field.
- by rewrite invr1 mulr1.
- by rewrite invr1.
- by rewrite invr1.
- by rewrite /q; field.
- by rewrite /q; field.
- by case: RI => -> ->; rewrite h0 ler01.
- by rewrite divff.
- by case: RI => -> _.
Qed.
(** the hypotheses of C43_sound and C43_recover_coax: the resolver is given mur, epsr, Z0TL, rTL,
    sigma and OD *)
Let kws1 : seq (string * (C -> C -> res C)) :=
  [seq (p, fun _ _ => Ok (line1 p)) | p <- [:: "mur"; "epsr"; "Z0TL"; "rTL"; "sigma"; "OD"]].
Notation res1 := (TLresolver (@id C) id id 1 1 1 1 1 50%:R [::] 1 49 kws1).
Notation value1 := (value (@id C) id id 1 1 1 1 1 50%:R).
Example C43_case : exists tb, res1 = Some (Ok tb) /\
  value1 tb 1 0 "gamma" = Ok (h + 'i) /\ value1 tb 1 0 "Zc" = Ok 1.
Proof.
have S1 : {subset map fst kws1 <= accepted}.
  by move=> p; rewrite !inE; do 5?(case/orP => [/eqP -> //|]); move/eqP => ->.
have S2 p f : List.In (p, f) kws1 -> exists z, f 1 0 = Ok z.
  by move=> /=; do 6?(case=> [[_ <-]|]); rewrite //; by eexists.
have S3 p f : List.In (p, f) kws1 -> f 1 0 = Ok (line1 p).
  have G ps : List.In (p, f) [seq (p, fun _ _ => Ok (line1 p)) | p <- ps] -> f 1 0 = Ok (line1 p).
    by elim: ps => //= a ps IH [[<- <-]|/IH].
  exact: G.
have U : uniq (map fst kws1) by [].
have Hlt : line1 "rTL" * line1 "gTL" < 1 ^+ 2 * (line1 "LTL" * line1 "CTL").
  have -> : line1 "rTL" = h by [].
  have -> : line1 "gTL" = h by [].
  have -> : line1 "LTL" = 1 by [].
  have -> : line1 "CTL" = 1 by [].
  by rewrite expr1n !mulr1 -expr2 hh /q invf_lt1 ?ltr0n // ltr1n.
have c1 : [/\ (0 : C) < 1, (0 : C) < 1, (0 : C) < 1 & (0 : C) < 1] by rewrite !ltr01.
have sub : {subset [:: "mur"; "epsr"; "Z0TL"; "rTL"] <= map fst kws1}.
  by move=> p; rewrite !inE; do 3?(case/orP => [/eqP -> //|]); move/eqP => ->.
have [tb E] := @C42_returns C id id id 1 1 1 1 1 50%:R 1 49 kws1 isT isT S1 S2 (fun H => H) (fun H => H).
exists tb; split; first exact: E.
have [gam [Z [-> -> -> ->]]] := @C43_recover_coax C id id id 1 1 1 1 1 50%:R 1 49 kws1 tb 1 0 line1 U E
  ltr01 c1 (fun y _ => erefl) line1_physical Hlt S3 sub erefl (fun H => False_ind _ (notF H)) erefl erefl.
split; reflexivity.
Qed.
End Cases.

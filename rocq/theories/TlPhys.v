(** The physics of a transmission line, and the formulas of TLresolver against it. *)
From mathcomp Require Import all_ssreflect all_algebra.
From mathcomp.algebra_tactics Require Import ring.
From Coq Require Import String.
From Verif Require Import Base ConvModel ConvProofs TlModel.
Set Implicit Arguments.
Unset Strict Implicit.
Unset Printing Implicit Defensive.
Import Order.TTheory GRing.Theory Num.Theory.
Local Open Scope string_scope.
Local Open Scope ring_scope.
Local Open Scope seq_scope.

Section Roots.
Variable C : numClosedFieldType.
Implicit Types x y z : C.
Notation sqrt := (@np_sqrt C).

Lemma sqrt_uniq x z : 0 <= x -> x ^+ 2 = z -> sqrt z = x.
Proof.
move=> Hx E; have := np_sqrtK z; rewrite -E => /eqP; rewrite eqf_sqr => /orP [] /eqP // H.
have := np_sqrt_Re_ge0 (x ^+ 2); rewrite H raddfN /= oppr_ge0.
have -> : 'Re x = x by apply/Creal_ReP; rewrite ger0_real.
by move=> H0; have -> : x = 0; [apply/eqP; rewrite eq_le H0 Hx | rewrite oppr0].
Qed.
Lemma sqrt_sqr x : 0 <= x -> sqrt (x ^+ 2) = x.
Proof. by move=> H; apply: sqrt_uniq. Qed.
Lemma sqrt_ge0 x : 0 <= x -> 0 <= sqrt x.
Proof.
rewrite le_eqVlt => /orP [/eqP <-|/np_sqrt_gt0/ltW //].
by rewrite (@sqrt_uniq 0) // expr0n.
Qed.
Lemma eq_sqr_ge0 x y : 0 <= x -> 0 <= y -> x ^+ 2 = y ^+ 2 -> x = y.
Proof. by move=> Hx Hy E; rewrite -(sqrt_sqr Hx) E sqrt_sqr. Qed.

Lemma sqrt_Im_ge0 z : 0 <= 'Im z -> 0 <= 'Im (sqrt z).
Proof.
move=> Hz; have K := np_sqrtK z; have R := np_sqrt_Re_ge0 z.
move: K R; rewrite /np_sqrt; set s := sqrtC z; have I := @Im_rootC_ge0 C 2 z isT.
case: ifP => // Hs K R; rewrite -[sqrtC z]/s in I.
(* s has a negative real part: then its imaginary part is 0 *)
have Rn : 'Re s < 0 by rewrite real_ltNge ?real0 ?Creal_Re // Hs.
move: Hz; rewrite -K sqrrN [s]Crect sqrrD exprMn sqrCi mulN1r.
set a := 'Re s; set b := 'Im s.
have Ra : a \is Num.real by apply: Creal_Re.
have Rb : b \is Num.real by apply: Creal_Im.
have -> : a ^+ 2 + a * ('i * b) *+ 2 + - b ^+ 2 = (a ^+ 2 - b ^+ 2) + 'i * (2%:R * a * b) by ring.
rewrite Im_rect ?rpredB ?rpredN ?rpredX ?rpredM ?realn // => H.
have : b = 0.
  apply/eqP; rewrite eq_le -[b in 0 <= b]/('Im s) I andbT.
  have := H; rewrite -mulrA pmulr_rge0 ?ltr0n // nmulr_rge0 //.
move=> ->; rewrite raddfN /= mulr0 addr0.
have -> : 'Im a = 0 by apply/Creal_ImP.
by rewrite oppr0.
Qed.

(** ** the propagation constant and the characteristic impedance of r + jX, g + jB *)
Section Line.
Variables r g X B : C.
Hypothesis Hr : 0 <= r.
Hypothesis Hg : 0 <= g.
Hypothesis HX : 0 < X.
Hypothesis HB : 0 < B.
Let z := r + 'i * X.
Let y := g + 'i * B.
Let Rr : r \is Num.real := ger0_real Hr.
Let Rg : g \is Num.real := ger0_real Hg.
Let RX : X \is Num.real := gtr0_real HX.
Let RB : B \is Num.real := gtr0_real HB.

Lemma line_zn0 : z != 0.
Proof.
apply/eqP => E; have : 'Im z = 0 by rewrite E raddf0.
by rewrite /z Im_rect // => E'; move: HX; rewrite E' ltxx.
Qed.
Lemma line_yn0 : y != 0.
Proof.
apply/eqP => E; have : 'Im y = 0 by rewrite E raddf0.
by rewrite /y Im_rect // => E'; move: HB; rewrite E' ltxx.
Qed.
Lemma line_zy : z * y = (r * g - X * B) + 'i * (r * B + g * X).
Proof.
rewrite /z /y; have -> : (r + 'i * X) * (g + 'i * B) = r * g + 'i ^+ 2 * (X * B) + 'i * (r * B + g * X) by ring.
by rewrite sqrCi mulN1r.
Qed.
Lemma line_Im : 0 <= 'Im (sqrt (z * y)).
Proof.
apply: sqrt_Im_ge0; rewrite line_zy Im_rect ?rpredB ?rpredN ?rpredD ?rpredM //.
by rewrite addr_ge0 // mulr_ge0 // ltW.
Qed.
Lemma line_ReZ : 0 < 'Re (sqrt (z / y)).
Proof.
set Z := sqrt _; have R : 0 <= 'Re Z by apply: np_sqrt_Re_ge0.
rewrite lt_def R andbT; apply/eqP => E.
have : 0 < 'Re (Z ^+ 2).
  rewrite np_sqrtK; have -> : z / y = z * y^* / (y * y^*).
    by field; rewrite conjC_eq0 line_yn0.
  rewrite -normCK; have P : 0 < `|y| ^+ 2 by rewrite exprn_gt0 // normr_gt0 line_yn0.
  have RP : (`|y| ^+ 2)^-1 \is Num.real by rewrite rpredV gtr0_real.
  rewrite mulrC ReMl // pmulr_rgt0 ?invr_gt0 //.
  have -> : z * y^* = (r * g + X * B) + 'i * (g * X - r * B).
    have -> : y^* = g - 'i * B by rewrite /y conjC_rect.
    have -> : z * (g - 'i * B) = r * g - 'i ^+ 2 * (X * B) + 'i * (g * X - r * B) by rewrite /z; ring.
    by rewrite sqrCi mulN1r opprK.
  rewrite Re_rect ?rpredD ?rpredB ?rpredN ?rpredM //.
  by rewrite ltr_paddl ?mulr_ge0 // mulr_gt0.
rewrite [Z]Crect E add0r exprMn sqrCi mulN1r raddfN /=.
have -> : 'Re ('Im Z ^+ 2) = 'Im Z ^+ 2 by apply/Creal_ReP; rewrite rpredX // Creal_Im.
by rewrite oppr_gt0 => /(le_lt_trans (real_exprn_even_ge0 _ _)); rewrite Creal_Im ltxx => /(_ isT isT).
Qed.
Lemma line_prod : sqrt (z * y) * sqrt (z / y) = z.
Proof.
set G := sqrt (z * y); set Z := sqrt (z / y).
have : (G * Z) ^+ 2 = z ^+ 2.
  by rewrite exprMn !np_sqrtK; field; rewrite line_yn0.
move/eqP; rewrite eqf_sqr => /orP [] /eqP // E.
have Gn : G != 0 by rewrite np_sqrt_eq0 mulf_neq0 ?line_zn0 ?line_yn0.
have EZ : Z = - (z * G^*) / (`|G| ^+ 2).
  by apply: (mulfI Gn); rewrite E normCK; field; rewrite conjC_eq0 Gn.
have P : 0 < `|G| ^+ 2 by rewrite exprn_gt0 // normr_gt0.
have RP : (`|G| ^+ 2)^-1 \is Num.real by rewrite rpredV gtr0_real.
have := line_ReZ; rewrite -/Z EZ mulrC ReMl // pmulr_rgt0 ?invr_gt0 // raddfN /= oppr_gt0.
have Rc := Creal_Re G; have Rd := Creal_Im G.
have -> : z * G^* = (r * 'Re G + X * 'Im G) + 'i * (X * 'Re G - r * 'Im G).
  rewrite {1}[G]Crect conjC_rect //.
  have -> : z * ('Re G - 'i * 'Im G) = r * 'Re G - 'i ^+ 2 * (X * 'Im G) + 'i * (X * 'Re G - r * 'Im G).
    by rewrite /z; ring.
  by rewrite sqrCi mulN1r opprK.
rewrite Re_rect ?rpredD ?rpredB ?rpredN ?rpredM // => H.
have : 0 <= r * 'Re G + X * 'Im G.
  by rewrite addr_ge0 // mulr_ge0 ?np_sqrt_Re_ge0 ?line_Im // ltW.
by rewrite (lt_geF H).
Qed.
Lemma line_quot : sqrt (z * y) / sqrt (z / y) = y.
Proof.
have Zn : sqrt (z / y) != 0 by rewrite np_sqrt_eq0 mulf_neq0 ?line_zn0 ?invr_eq0 ?line_yn0.
apply: (mulIf Zn); rewrite mulfVK //; apply: (mulIf Zn); rewrite line_prod.
by rewrite -mulrA -expr2 np_sqrtK; field; rewrite line_yn0.
Qed.

(** *** the attenuation *)
Variable G : C.
Hypothesis GG : G ^+ 2 = z * y.
Hypothesis GR : 0 <= 'Re G.
Let A := 'Re G.
Let M := A ^+ 2 + 'Im G ^+ 2.
Let ll := X * B.
Let Hll : 0 < ll := mulr_gt0 HX HB.
Lemma att_M : [/\ 0 <= M, 2%:R * A ^+ 2 = M + (r * g - ll) &
                  M ^+ 2 = (r ^+ 2 + X ^+ 2) * (g ^+ 2 + B ^+ 2)].
Proof.
have Rc := Creal_Re G; have Rd := Creal_Im G.
have E1 : G ^+ 2 = (A ^+ 2 - 'Im G ^+ 2) + 'i * (2%:R * A * 'Im G).
  rewrite {1}[G]Crect -/A.
  have -> : (A + 'i * 'Im G) ^+ 2 = A ^+ 2 + 'i ^+ 2 * 'Im G ^+ 2 + 'i * (2%:R * A * 'Im G) by ring.
  by rewrite sqrCi mulN1r.
have ER : A ^+ 2 - 'Im G ^+ 2 = r * g - ll.
  have := congr1 (fun x => 'Re x) E1; rewrite GG line_zy !Re_rect ?rpredB ?rpredN ?rpredD ?rpredM ?rpredX ?realn // .
have EI : 2%:R * A * 'Im G = r * B + g * X.
  by have := congr1 (fun x => 'Im x) E1; rewrite GG line_zy !Im_rect ?rpredB ?rpredN ?rpredD ?rpredM ?rpredX ?realn.
split.
- by rewrite addr_ge0 // real_exprn_even_ge0.
- by rewrite -ER /M; ring.
- have -> : M ^+ 2 = (A ^+ 2 - 'Im G ^+ 2) ^+ 2 + (2%:R * A * 'Im G) ^+ 2 by rewrite /M; ring.
  by rewrite ER EI /ll; ring.
Qed.
Let Xn : X != 0 := lt0r_neq0 HX.
Let Bn : B != 0 := lt0r_neq0 HB.
Let u := A / sqrt ll.
Lemma att_u : [/\ 0 <= u, u ^+ 2 = A ^+ 2 / ll &
  ((2%:R * u ^+ 2 + 1 - r / X * (g / B)) ^+ 2 = ((r / X) ^+ 2 + 1) * ((g / B) ^+ 2 + 1))
  /\ 0 <= 2%:R * u ^+ 2 + 1 - r / X * (g / B)].
Proof.
have [M0 M1 M2] := att_M.
have ln : ll != 0 := lt0r_neq0 Hll.
have Eu : u ^+ 2 = A ^+ 2 / ll by rewrite /u exprMn exprVn np_sqrtK.
have EE : 2%:R * u ^+ 2 + 1 - r / X * (g / B) = M / ll.
  rewrite Eu mulrA M1 /ll; field; by rewrite Xn Bn.
split=> //; first by rewrite divr_ge0 // sqrt_ge0 // ltW.
rewrite EE; split; last by rewrite divr_ge0 // ltW.
by rewrite exprMn M2 /ll; field; rewrite Xn Bn.
Qed.
(** the formulas of the code *)
Lemma att_rTL w L Cc : w * L = X -> w * Cc = B -> rTL_of_A w L Cc g A = r.
Proof.
move=> E1 E2; rewrite /rTL_of_A E1 E2 -/ll -/u.
have [u0 _ [H H0]] := att_u.
suff -> : 2%:R * u * sqrt (((g / B) ^+ 2 + 1) * (u ^+ 2 + 1)) = r / X + (1 + 2%:R * u ^+ 2) * (g / B).
  by field; rewrite Xn Bn.
have Rq (x : C) : 0 <= x -> 0 <= x ^+ 2 + 1 by move=> ?; rewrite addr_ge0 ?ler01 // exprn_ge0.
have Hgb : 0 <= g / B by rewrite divr_ge0 // ltW.
have Hrx : 0 <= r / X by rewrite divr_ge0 // ltW.
apply: eq_sqr_ge0.
- have S0 : 0 <= sqrt (((g / B) ^+ 2 + 1) * (u ^+ 2 + 1)).
    by apply: sqrt_ge0; apply: mulr_ge0; apply: Rq.
  by apply: mulr_ge0 => //; apply: mulr_ge0 => //; rewrite ler0n.
- by rewrite addr_ge0 // mulr_ge0 // addr_ge0 ?ler01 // mulr_ge0 ?ler0n // exprn_ge0.
rewrite exprMn np_sqrtK.
move: H; set a := r / X; set b := g / B; move=> H.
have -> : (a + (1 + 2%:R * u ^+ 2) * b) ^+ 2 =
   (2%:R * u) ^+ 2 * ((b ^+ 2 + 1) * (u ^+ 2 + 1)) +
   ((a ^+ 2 + 1) * (b ^+ 2 + 1) - (2%:R * u ^+ 2 + 1 - a * b) ^+ 2) by ring.
by rewrite H subrr addr0.
Qed.
Lemma att_A w L Cc : w * L = X -> w * Cc = B -> r * g < ll -> A_of w L Cc g r = A.
Proof.
move=> E1 E2 Hlt; rewrite /A_of E1 E2.
have [u0 Eu [H H0]] := att_u.
have ln : ll != 0 := lt0r_neq0 Hll.
set a := r / X; set b := g / B; rewrite -/a -/b in H H0.
have d0 : 0 < 1 - a * b.
  by rewrite subr_gt0 /a /b mulf_div ltr_pdivr_mulr // mul1r.
have dn : 1 - a * b != 0 := lt0r_neq0 d0.
have -> : sqrt (1 + ((a + b) / (1 - a * b)) ^+ 2) = (2%:R * u ^+ 2 + 1 - a * b) / (1 - a * b).
  apply: sqrt_uniq; first by rewrite divr_ge0 // ltW.
  by rewrite exprMn H; field; rewrite dn.
have -> : (1 - a * b) * ((2%:R * u ^+ 2 + 1 - a * b) / (1 - a * b) - 1) / 2%:R * X * B = A ^+ 2.
  have -> : (1 - a * b) * ((2%:R * u ^+ 2 + 1 - a * b) / (1 - a * b) - 1) / 2%:R = u ^+ 2.
    by field; rewrite dn.
  by rewrite Eu -mulrA -/ll mulfVK.
exact: sqrt_sqr.
Qed.
End Line.
Lemma att_gTL (r g X B G : C) : 0 <= r -> 0 <= g -> 0 < X -> 0 < B ->
  G ^+ 2 = (r + 'i * X) * (g + 'i * B) -> 0 <= 'Re G ->
  forall w L Cc, w * L = X -> w * Cc = B -> gTL_of_A w L Cc r ('Re G) = g.
Proof.
move=> Hr Hg HX HB GG GR w L Cc EL EC.
have GG' : G ^+ 2 = (g + 'i * B) * (r + 'i * X) by rewrite GG mulrC.
have := att_rTL Hg Hr HB HX GG' GR EC EL.
by rewrite /rTL_of_A /gTL_of_A (mulrC (w * Cc) (w * L)).
Qed.
End Roots.

(** * a physical assignment of the parameters at one angular frequency *)
Section Phys.
Variable C : numClosedFieldType.
Variables log exp pow10 : C -> C.
Variables pi c0 mu0 e0 eta0coax : C.
Variable Zbase : C.
Notation EQNS := (EQNS log exp pow10 pi c0 mu0 e0 eta0coax Zbase).
Notation eqn0 := (eqn0 C).

(** [g p]: the value of the parameter p.  The distributed constants: r, l, g, c per metre;
    a medium with mur, epsr fills the line; in a coaxial line the fields are those of the
    diameters OD and ID; every conductor has its own surface resistance and the current density
    1/(pi d) on it. *)
Record physical (w : C) (g : string -> C) : Prop := Physical {
  ph_pos : {in [:: "LTL"; "CTL"; "Z0TL"; "vr"; "mur"; "epsr"; "etar"; "OD"; "ID"],
              forall p, 0 < g p};
  ph_nneg : {in [:: "rTL"; "gTL"; "RsI"; "RsO"; "beta"], forall p, 0 <= g p};
  ph_Z0 : g "Z0TL" ^+ 2 = g "LTL" / g "CTL";
  ph_vr : (g "vr" * c0) ^+ 2 = 1 / (g "LTL" * g "CTL");
  ph_eta : g "etar" ^+ 2 = g "mur" / g "epsr";
  ph_med : g "vr" ^+ 2 = 1 / (g "mur" * g "epsr");
  ph_coax : g "Z0TL" = g "etar" * eta0coax * log (g "OD" / g "ID");
  ph_leak : g "gTL" = 2%:R * pi * g "sigma" / log (g "OD" / g "ID");
  ph_tand : g "tand" = g "sigma" / (w * g "epsr" * e0);
  ph_rTL : g "rTL" = g "rTLI" + g "rTLO";
  ph_rI : g "rTLI" = g "qTLI" * g "RsI";
  ph_rO : g "rTLO" = g "qTLO" * g "RsO";
  ph_qI : g "qTLI" = 1 / (pi * g "ID");
  ph_qO : g "qTLO" = 1 / (pi * g "OD");
  ph_RsI : g "RsI" ^+ 2 = w * mu0 * g "murI" * g "rhoI" / 2%:R;
  ph_RsO : g "RsO" ^+ 2 = w * mu0 * g "murO" * g "rhoO" / 2%:R;
  ph_z : g "rjwL" = g "rTL" + 'i * w * g "LTL";
  ph_y : g "gjwC" = g "gTL" + 'i * w * g "CTL";
  ph_gamma : g "gamma" ^+ 2 = g "rjwL" * g "gjwC";
  ph_forward : 0 <= 'Re (g "gamma") /\ 0 <= 'Im (g "gamma");
  ph_Zc : g "Zc" = g "rjwL" / g "gamma";
  ph_A : g "A" = 'Re (g "gamma");
  ph_beta : g "beta" ^+ 2 = w ^+ 2 * (g "LTL" * g "CTL") }.

(** the equations that are not right *)
Definition wrong : seq (string * seq string) :=
  [:: ("rTLO", [:: "RsO"; "qTLO"]); ("mur", [:: "vr"; "epsr"]); ("epsr", [:: "vr"; "mur"]);
      ("A", [:: "AdB"])].

Variables (w : C) (g : string -> C).
Hypothesis Hw : 0 < w.
Hypothesis Hc : [/\ 0 < pi, 0 < c0, 0 < e0 & 0 < eta0coax].
Hypothesis expK : forall x, 0 < x -> exp (log x) = x.
Hypothesis P : physical w g.


Let L := g "LTL". Let Cc := g "CTL". Let Z := g "Z0TL". Let v := g "vr".
Let m := g "mur". Let e := g "epsr". Let n := g "etar". Let OD := g "OD". Let ID := g "ID".
Let lg := log (OD / ID).
Let HL : 0 < L := ph_pos P (x := "LTL") isT.
Let HC : 0 < Cc := ph_pos P (x := "CTL") isT.
Let HZ : 0 < Z := ph_pos P (x := "Z0TL") isT.
Let Hv : 0 < v := ph_pos P (x := "vr") isT.
Let Hm : 0 < m := ph_pos P (x := "mur") isT.
Let He : 0 < e := ph_pos P (x := "epsr") isT.
Let Hn : 0 < n := ph_pos P (x := "etar") isT.
Let HOD : 0 < OD := ph_pos P (x := "OD") isT.
Let HID : 0 < ID := ph_pos P (x := "ID") isT.
Let Hr : 0 <= g "rTL" := ph_nneg P (x := "rTL") isT.
Let Hg : 0 <= g "gTL" := ph_nneg P (x := "gTL") isT.
Let Ln := lt0r_neq0 HL. Let Cn := lt0r_neq0 HC. Let Zn := lt0r_neq0 HZ. Let vn := lt0r_neq0 Hv.
Let mn := lt0r_neq0 Hm. Let en := lt0r_neq0 He. Let nn := lt0r_neq0 Hn.
Let ODn := lt0r_neq0 HOD. Let IDn := lt0r_neq0 HID. Let wn := lt0r_neq0 Hw.
Let pin : pi != 0. Proof. by case: Hc => H _ _ _; rewrite lt0r_neq0. Qed.
Let c0n : c0 != 0. Proof. by case: Hc => _ H _ _; rewrite lt0r_neq0. Qed.
Let e0n : e0 != 0. Proof. by case: Hc => _ _ H _; rewrite lt0r_neq0. Qed.
Let hn : eta0coax != 0. Proof. by case: Hc => _ _ _ H; rewrite lt0r_neq0. Qed.
Let Hc0 : 0 < c0. Proof. by case: Hc. Qed.
Let EZ2 : Z ^+ 2 = L / Cc := ph_Z0 P.
Let Ev2 : (v * c0) ^+ 2 = 1 / (L * Cc) := ph_vr P.
Let En2 : n ^+ 2 = m / e := ph_eta P.
Let Em2 : v ^+ 2 = 1 / (m * e) := ph_med P.
Let EZ : Z = n * eta0coax * lg := ph_coax P.
Let lgn : lg != 0.
Proof. by apply/eqP => E; move: HZ; rewrite EZ E mulr0 ltxx. Qed.
Let Elog : Z / (eta0coax * n) = lg.
Proof. by rewrite EZ; field; rewrite hn nn. Qed.
Let Eexp : exp (Z / (eta0coax * n)) = OD / ID.
Proof. by rewrite Elog expK // divr_gt0. Qed.
Let GG : g "gamma" ^+ 2 = (g "rTL" + 'i * (w * L)) * (g "gTL" + 'i * (w * Cc)).
Proof. by rewrite (ph_gamma P) (ph_z P) (ph_y P) !mulrA. Qed.
Let HX : 0 < w * L := mulr_gt0 Hw HL.
Let HB : 0 < w * Cc := mulr_gt0 Hw HC.
Let Ez : g "rjwL" = g "rTL" + 'i * (w * L).
Proof. by rewrite (ph_z P) mulrA. Qed.
Let Ey : g "gjwC" = g "gTL" + 'i * (w * Cc).
Proof. by rewrite (ph_y P) mulrA. Qed.
Let Egam : g "gamma" = np_sqrt (g "rjwL" * g "gjwC").
Proof.
set s := np_sqrt _; have [G1 G2] := ph_forward P.
have : g "gamma" ^+ 2 = s ^+ 2 by rewrite np_sqrtK (ph_gamma P).
move/eqP; rewrite eqf_sqr => /orP [] /eqP // E.
have S1 : 0 <= 'Re s by apply: np_sqrt_Re_ge0.
have S2 : 0 <= 'Im s by rewrite /s Ez Ey; apply: line_Im.
move: G1 G2; rewrite E !raddfN /= !oppr_ge0 => G1 G2.
have E1 : 'Re s = 0 by apply/eqP; rewrite eq_le G1 S1.
have E2 : 'Im s = 0 by apply/eqP; rewrite eq_le G2 S2.
by rewrite [s]Crect E1 E2 mulr0 addr0 oppr0.
Qed.
Let gamn : g "gamma" != 0.
Proof.
by rewrite Egam np_sqrt_eq0 Ez Ey mulf_neq0 ?line_zn0 ?line_yn0.
Qed.

Lemma phys_sound k : (k < 49)%N -> e_deps (nth eqn0 EQNS k) != [::] ->
  (e_kw (nth eqn0 EQNS k), e_deps (nth eqn0 EQNS k)) \notin wrong ->
  (k = 39%N -> g "rTL" * g "gTL" < w ^+ 2 * (g "LTL" * g "CTL")) ->
  e_fun (nth eqn0 EQNS k) (fun p => Ok (g p)) w = Ok (g (e_kw (nth eqn0 EQNS k))).
Proof.
move=> Hk D W H39; suff : forall y, e_fun (nth eqn0 EQNS k) (fun p => Ok (g p)) w = Ok y ->
    y = g (e_kw (nth eqn0 EQNS k)).
  move=> H; case E: (e_fun _ _ _) (H) => [y|x]; first by move=> /(_ _ erefl) ->.
  by move: Hk E {D W H39 H}; do 49!(case: k => [|k] //).
move: Hk D W H39; case: k => [|k] //; case: k => [|k] //.
case: k => [|k]; first by move=> _ _ _ _ y [<-]; rewrite (ph_z P).
case: k => [|k]; first by move=> _ _ _ _ y [<-]; rewrite (ph_y P).
case: k => [|k].
  move=> _ _ _ _ y [<-]; rewrite [g (e_kw _)]/= -/L -/Z -/v.
  apply: eq_sqr_ge0; rewrite ?(ltW HL) //; first by rewrite ltW // divr_gt0 ?mulr_gt0.
  by rewrite exprMn exprVn mulrC [c0 * v]mulrC Ev2 EZ2; field; rewrite Ln Cn.
case: k => [|k].
  move=> _ _ _ _ y [<-]; rewrite [g (e_kw _)]/= -/Cc -/Z -/v.
  apply: eq_sqr_ge0; rewrite ?(ltW HC) //; first by rewrite ltW // divr_gt0 ?mulr_gt0 ?ltr01.
  have -> : Z * c0 * v = Z * (v * c0) by ring.
  by rewrite exprMn exprVn [(Z * _) ^+ 2]exprMn Ev2 EZ2; field; rewrite Ln Cn.
case: k => [|k].
  by move=> _ _ _ _ y [<-]; rewrite [g (e_kw _)]/= -/L -/Cc -/Z EZ2; field; rewrite Cn.
case: k => [|k].
  by move=> _ _ _ _ y [<-]; rewrite [g (e_kw _)]/= -/L -/Cc -/Z EZ2; field; rewrite Cn Ln.
case: k => [|k].
  by move=> _ _ _ _ y [<-]; rewrite [g (e_kw _)]/= -/L -/Cc -/Z -EZ2 sqrt_sqr // ltW.
case: k => [|k].
  move=> _ _ _ _ y [<-]; rewrite [g (e_kw _)]/= -/L -/Cc -/v.
  have -> : np_sqrt (L * Cc) = 1 / (v * c0).
    apply: sqrt_uniq; first by rewrite ltW // divr_gt0 ?mulr_gt0 ?ltr01.
    by rewrite exprMn exprVn Ev2; field; rewrite Cn Ln.
  by field; rewrite vn c0n.
case: k => [|k].
  by move=> _ _ _ _ y [<-]; rewrite [g (e_kw _)]/= -/L -/Cc -/v Ev2; field; rewrite Cn Ln.
case: k => [|k].
  by move=> _ _ _ _ y [<-]; rewrite [g (e_kw _)]/= -/L -/Cc -/v Ev2; field; rewrite Cn Ln.
case: k => [|k]; first by move=> _ _ _ _ y [<-]; rewrite (ph_coax P).
case: k => [|k].
  by move=> _ _ _ _ y [<-]; rewrite [g (e_kw _)]/= -/OD -/ID -/n -/Z Eexp; field; rewrite ODn IDn.
case: k => [|k].
  by move=> _ _ _ _ y [<-]; rewrite [g (e_kw _)]/= -/OD -/ID -/n -/Z Eexp; field; rewrite IDn.
case: k => [|k]; first by move=> _ _ _ _ y [<-]; rewrite (ph_leak P).
case: k => [|k].
  move=> _ _ _ _ y [<-]; rewrite [g (e_kw _)]/= (ph_leak P) -/OD -/ID -/n -/Z -/lg EZ.
  by field; rewrite lgn nn hn.
case: k => [|k]; first by move=> _ _ _ _ y [<-]; rewrite (ph_rTL P).
case: k => [|k]; first by move=> _ _ _ _ y [<-]; rewrite [g (e_kw _)]/= (ph_rTL P) addrK.
case: k => [|k]; first by move=> _ _ _ _ y [<-]; rewrite [g (e_kw _)]/= (ph_rTL P) addrC addKr.
case: k => [|k]; first by move=> _ _ _ _ y [<-]; rewrite (ph_rI P).
case: k => [|k] //.
case: k => [|k]; first by move=> _ _ _ _ y [<-]; rewrite (ph_qI P).
case: k => [|k]; first by move=> _ _ _ _ y [<-]; rewrite (ph_qO P).
case: k => [|k].
  by move=> _ _ _ _ y [<-]; rewrite [g (e_kw _)]/= -(ph_RsI P) sqrt_sqr // (ph_nneg P (x := "RsI")).
case: k => [|k].
  by move=> _ _ _ _ y [<-]; rewrite [g (e_kw _)]/= -(ph_RsO P) sqrt_sqr // (ph_nneg P (x := "RsO")).
case: k => [|k].
  by move=> _ _ _ _ y [<-]; rewrite [g (e_kw _)]/= -/m -/e -En2 sqrt_sqr // ltW.
case: k => [|k].
  by move=> _ _ _ _ y [<-]; rewrite [g (e_kw _)]/= -/n -/m -/e En2; field; rewrite en.
case: k => [|k].
  by move=> _ _ _ _ y [<-]; rewrite [g (e_kw _)]/= -/n -/m -/e En2; field; rewrite en mn.
case: k => [|k].
  move=> _ _ _ _ y [<-]; rewrite [g (e_kw _)]/= -/m -/e -/v.
  have -> : np_sqrt (m * e) = 1 / v.
    apply: sqrt_uniq; first by rewrite ltW // divr_gt0 ?ltr01.
    by rewrite exprMn exprVn Em2; field; rewrite mn en.
  by field; rewrite vn.
case: k => [|k] //; case: k => [|k] //.
case: k => [|k].
  move=> _ _ _ _ y [<-]; rewrite [g (e_kw _)]/= -/n -/m -/v.
  apply: eq_sqr_ge0; rewrite ?(ltW Hm) //; first by rewrite ltW // divr_gt0.
  by rewrite exprMn exprVn En2 Em2; field; rewrite mn en.
case: k => [|k].
  move=> _ _ _ _ y [<-]; rewrite [g (e_kw _)]/= -/n -/m -/v.
  apply: eq_sqr_ge0; rewrite ?(ltW Hv) //; first by rewrite ltW // divr_gt0.
  by rewrite exprMn exprVn En2 Em2; field; rewrite mn en.
case: k => [|k].
  move=> _ _ _ _ y [<-]; rewrite [g (e_kw _)]/= -/n -/m -/v.
  apply: eq_sqr_ge0; rewrite ?(ltW Hn) //; first by rewrite ltW // mulr_gt0.
  by rewrite exprMn En2 Em2; field; rewrite mn en.
case: k => [|k].
  move=> _ _ _ _ y [<-]; rewrite [g (e_kw _)]/= -/n -/Z -/OD -/ID -/lg EZ.
  by field; rewrite lgn hn.
case: k => [|k] //.
case: k => [|k].
  move=> _ _ _ _ y [<-]; rewrite [g (e_kw _)]/= (ph_A P).
  by have [G1 _] := ph_forward P; apply: (att_rTL Hr Hg HX HB GG G1).
case: k => [|k].
  move=> _ _ _ _ y [<-]; rewrite [g (e_kw _)]/= (ph_A P).
  by have [G1 _] := ph_forward P; apply: (att_gTL Hr Hg HX HB GG G1).
case: k => [|k].
  move=> _ _ _ H y [<-]; rewrite [g (e_kw _)]/= (ph_A P).
  have [G1 _] := ph_forward P; apply: (att_A Hr Hg HX HB GG G1) => //.
  by have -> : w * L * (w * Cc) = w ^+ 2 * (L * Cc); [ring | apply: H].
case: k => [|k].
  by move=> _ _ _ _ y [<-]; rewrite [g (e_kw _)]/= (ph_tand P) -/e; field; rewrite e0n en wn.
case: k => [|k] //; case: k => [|k] //; case: k => [|k] //.
case: k => [|k].
  move=> _ _ _ _ y [<-]; rewrite [g (e_kw _)]/= (ph_leak P) -/OD -/ID -/lg.
  by field; rewrite pin lgn.
case: k => [|k]; first by move=> _ _ _ _ y [<-]; rewrite (ph_tand P).
case: k => [|k].
  move=> _ _ _ _ y [<-]; rewrite [g (e_kw _)]/= (ph_Zc P).
  apply: (mulfI gamn); rewrite {1}Egam Ez Ey (line_prod Hr Hg HX HB).
  by field; rewrite gamn.
case: k => [|k].
  by move=> _ _ _ _ y [<-]; rewrite [g (e_kw _)]/= Egam mulrC.
case: k => [|k] //.
move=> _ _ _ _ y [<-]; rewrite [g (e_kw _)]/= -/L -/Cc.
apply: eq_sqr_ge0; first by rewrite mulr_ge0 ?sqrt_ge0 ?mulr_ge0 // ltW.
  exact: (ph_nneg P (x := "beta")).
by rewrite exprMn np_sqrtK (ph_beta P).
Qed.
End Phys.

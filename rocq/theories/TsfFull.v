(** WriteTSF and tsf2str: the whole texts, the option line, the conversion of the data. *)
From mathcomp Require Import all_ssreflect all_algebra.
From Coq Require Import String Ascii Decimal DecimalString.
From Verif Require Import Base ConvModel ConvSpec ConvProofs ConvArr ConvExamples UtilModel UtilThm TsfModel TsfText TsfThm TsfWrite TsfRound TsfMain.
Set Implicit Arguments.
Unset Strict Implicit.
Unset Printing Implicit Defensive.
Import Order.TTheory GRing.Theory Num.Theory.
Local Open Scope string_scope.
Local Open Scope ring_scope.
Local Open Scope seq_scope.

(** ** waves of type P and V on one impedance have the same scattering matrix *)
Section PV.
Variable C : numClosedFieldType.
Lemma relates_PV n (z : C) (Sm : 'M[C]_n) v i : z != 0 ->
  relates "P" (const_mx z) Sm v i <-> relates "V" (const_mx z) Sm v i.
Proof.
move=> Hz; rewrite /relates /wave_a /wave_b /=.
have Hs : np_sqrt z != 0 by rewrite np_sqrt_eq0.
have E k : \sum_j Sm k j * ((v j 0 + const_mx z 0 j * i j 0) / (2%:R * np_sqrt (const_mx (m:=1) (n:=n) z 0 j))) =
    (\sum_j Sm k j * ((v j 0 + const_mx (m:=1) (n:=n) z 0 j * i j 0) / 2%:R)) / np_sqrt z.
  rewrite mulr_suml; apply: eq_bigr => j _; rewrite !mxE invfM; by rewrite !mulrA.
split=> H k; have := H k; rewrite E !mxE invfM mulrA => E2.
  by apply: (mulIf (invr_neq0 Hs)).
by rewrite E2.
Qed.
Lemma convert1_PV n (z : C) (z2 : 'rV[C]_n) (Sm : 'M[C]_n) t2 : z != 0 -> typ_ok t2 -> adm t2 z2 ->
  convert1 z2 Sm (const_mx z) "P" t2 = convert1 z2 Sm (const_mx z) "V" t2.
Proof.
move=> Hz Ht2 Ha2.
have HaP : adm "P" (const_mx z : 'rV[C]_n) by move=> k; rewrite mxE.
have HaV : adm "V" (const_mx z : 'rV[C]_n) by move=> k; rewrite mxE.
have H S2 : convert1 z2 Sm (const_mx z) "P" t2 = Ok S2 <-> convert1 z2 Sm (const_mx z) "V" t2 = Ok S2.
  rewrite !convert1_iff //; split=> H v i; rewrite -H; first by rewrite relates_PV.
  by rewrite relates_PV.
case EP: (convert1 z2 Sm (const_mx z) "P" t2) => [S2|e]; first by rewrite ((H S2).1 EP).
case EV: (convert1 z2 Sm (const_mx z) "V" t2) => [S2|e']; first by rewrite ((H S2).2 EV) in EP.
by have [-> _] := (@convert1_raise _ _ "P" _ _ _ Sm e isT Ht2 HaP Ha2).1 EP; have [-> _] := (@convert1_raise _ _ "V" _ _ _ Sm e' isT Ht2 HaV Ha2).1 EV.
Qed.
Lemma ConvertGeneral_PV n (z z2 : C) (Ss : seq 'M[C]_n) : z != 0 -> z2 != 0 ->
  ConvertGeneral (Nd0 z2) (Nd3 Ss) (Nd0 z) "P" "V" = ConvertGeneral (Nd0 z2) (Nd3 Ss) (Nd0 z) "V" "V".
Proof.
move=> Hz Hz2; rewrite /ConvertGeneral /= sqs_id /=.
have -> : mapM (fun k => convert1 (const_mx z2) (nth 0 Ss k) (const_mx z) "P" "V") (iota 0 (size Ss)) =
          mapM (fun k => convert1 (const_mx z2) (nth 0 Ss k) (const_mx z) "V" "V") (iota 0 (size Ss)); last by [].
elim: (iota 0 (size Ss)) => //= k l ->; rewrite convert1_PV //.
by move=> j; rewrite mxE.
Qed.
Lemma ConvertGeneral_same n (z : C) (Ss : seq 'M[C]_n) : z != 0 -> Ss != [::] ->
  ConvertGeneral (Nd0 z) (Nd3 Ss) (Nd0 z) "P" "V" = Ok (Nd3 Ss).
Proof.
move=> Hz Hne; rewrite ConvertGeneral_PV // /ConvertGeneral /= sqs_id /=.
have -> : mapM (fun k => convert1 (const_mx z) (nth 0 Ss k) (const_mx z) "V" "V") (iota 0 (size Ss)) = Ok Ss.
  apply/mapM_Ok; rewrite size_iota; split=> // k x0 y0 Hk.
  rewrite nth_iota // add0n (set_nth_default y0 0) //; apply: convert1_id => // j.
  by rewrite mxE.
by rewrite /=; case: Ss Hne.
Qed.
End PV.

(** ** numerals *)
Definition isnum (s : string) := all isdig (chars s).
Lemma decimal_num n : isnum (decimal n) && (decimal n != "").
Proof.
have H : forall d, isnum (NilEmpty.string_of_uint d) by elim.
rewrite /decimal; case: (Nat.to_uint n) => //= d; by rewrite /isnum /= andbT; have := H d; rewrite /isnum => ->.
Qed.
Lemma digits_app d s : isnum d -> (if s is String a _ then ~~ isdig a else true) = true ->
  digits (d ++ s) = (d, s).
Proof.
elim: d => [|a d IH] /=; last by case/andP => -> Hd Hs; rewrite IH.
by case: s => //= a s _ /negbTE ->.
Qed.
(** the text of a non-negative decimal number: 50 or 50.0 *)
Definition numeral (s : string) : Prop :=
  exists a, s = decimal a \/ exists b, s = (decimal a ++ "." ++ decimal b)%string.
Definition numchar (a : ascii) := isdig a || Ascii.eqb a "."%char.
Lemma numeral_chars s : numeral s -> all numchar (chars s) && (s != "").
Proof.
have H d : isnum d -> all numchar (chars d).
  by move=> /allP Hd; apply/allP => x /Hd; rewrite /numchar => ->.
case=> a [->|[b ->]].
  by have /andP [Ha ->] := decimal_num a; rewrite H.
have /andP [Ha Na] := decimal_num a; have /andP [Hb Nb] := decimal_num b.
by rewrite lapp all_cat H //= H //; case: (decimal a) Na.
Qed.
Lemma number_numeral s : numeral s -> number s = Some s.
Proof.
have P d t : isnum d -> d != "" ->
  (if (d ++ t)%string is String b s'' then
     if (Ascii.eqb b "-"%char) || (Ascii.eqb b "+"%char) then (String b "", s'') else ("", (d ++ t)%string)
   else ("", (d ++ t)%string)) = ("", (d ++ t)%string).
  case: d => // b d /= /andP [Hb _] _.
  by case: (Ascii.eqb_spec b "-"%char) Hb => [->//|_]; case: (Ascii.eqb_spec b "+"%char) => [->|].
case=> a; have /andP [Ha Na] := decimal_num a; case=> [->|[b ->]].
  have -> : number (decimal a) = number (decimal a ++ "") by rewrite app0.
  by rewrite /number P // digits_app // (negbTE Na) /= app0.
have /andP [Hb Nb] := decimal_num b.
rewrite /number P // digits_app //=.
by rewrite -{1}(app0 (decimal b)) digits_app // (negbTE Nb) /= app0.
Qed.

(** ** the option line U S fm R zs *)
Definition tformat (U fm zs : string) : string := (U ++ " S " ++ fm ++ " R " ++ zs)%string.
Definition unit_names := [:: "HZ"; "KHZ"; "MHZ"; "GHZ"].
Definition fmt_names := [:: "RI"; "MA"; "DB"].

Lemma numchar_up a : numchar a -> upchar a = a.
Proof. by case: a => [] [] [] [] [] [] [] [] []. Qed.
Lemma upper_num s : all numchar (chars s) -> upper s = s.
Proof. by elim: s => //= a s IH /andP [/numchar_up -> /IH ->]. Qed.
Lemma words_num s : all numchar (chars s) -> s != "" -> words s = [:: s].
Proof.
have Hsp b : numchar b -> isspace b = false by case: b => [] [] [] [] [] [] [] [] [].
elim: s => // a s IH; cbn [list_ascii_of_string all] => /andP [Ha Hs] _.
case: s IH Hs => [|b s] IH Hs; first by rewrite /= Hsp.
have -> : words (String a (String b s)) = if isspace a then words (String b s) else
  if isspace b then String a "" :: words (String b s)
  else if words (String b s) is w :: ws then String a w :: ws else [:: String a ""] by [].
rewrite IH //; move: Hs => /= /andP [Hb _]; by rewrite !Hsp.
Qed.
Lemma fmts_num s : all numchar (chars s) -> find_fmts s = [::].
Proof.
elim: s => // a s IH /= /andP [Ha Hs]; case: s IH Hs => // b s IH Hs.
have -> : (String a (String b "") \in [:: "RI"; "MA"; "DB"]) = false; last exact: IH.
apply/negbTE; rewrite !inE !negb_or; apply/and3P; split; apply/eqP => -[E _]; by rewrite E in Ha.
Qed.
Lemma fmts_R s : all numchar (chars s) -> find_fmts (String "R" (String " " s)) = [::].
Proof.
by move=> H; have := fmts_num H; case: s H.
Qed.
Lemma LF_num s : all numchar (chars s) -> LF \notin chars s.
Proof. by move=> H; apply/negP => /(allP H). Qed.
Lemma bang_num s : all numchar (chars s) -> ~~ has_bang s.
Proof. by move=> H; apply/negP => /(allP H). Qed.
Lemma lstrip_num s : all numchar (chars s) -> lstrip s = s.
Proof.
case: s => // a s /= /andP [Ha _].
have Hsp b : numchar b -> isspace b = false by case: b => [] [] [] [] [] [] [] [] [].
by rewrite Hsp.
Qed.

Section Family.
Variable C : numClosedFieldType.
Variable float : string -> option C.
Variables (U fm zs : string) (z : C).
Hypothesis HU : U \in unit_names.
Hypothesis Hfm : fm \in fmt_names.
Hypothesis Hz : numeral zs.
Hypothesis Hf : float zs = Some z.
Let Hn : all numchar (chars zs). Proof. by have /andP [] := numeral_chars Hz. Qed.
Let He : zs != "". Proof. by have /andP [] := numeral_chars Hz. Qed.

Lemma tf_words : words (tformat U fm zs) = [:: U; "S"; fm; "R"; zs].
Proof.
have -> : words (tformat U fm zs) = words ((U ++ " S " ++ fm ++ " R") ++ String " " zs).
  by congr words; rewrite /tformat -!appA.
rewrite words_app // (words_num Hn He).
by move: HU Hfm; rewrite /unit_names /fmt_names !inE => /or4P [] /eqP -> /or3P [] /eqP ->.
Qed.
Lemma tf_upper : upper (tformat U fm zs) = tformat U fm zs.
Proof.
rewrite /tformat !upper_app (upper_num Hn).
by move: HU Hfm; rewrite /unit_names /fmt_names !inE => /or4P [] /eqP -> /or3P [] /eqP ->.
Qed.
Lemma tf_LF : LF \notin chars (tformat U fm zs).
Proof.
rewrite /tformat !LF_app !negb_or (LF_num Hn).
by move: HU Hfm; rewrite /unit_names /fmt_names !inE => /or4P [] /eqP -> /or3P [] /eqP ->.
Qed.
Lemma tf_bang : ~~ has_bang (tformat U fm zs).
Proof.
rewrite /tformat !has_bang_app !negb_or (bang_num Hn).
by move: HU Hfm; rewrite /unit_names /fmt_names !inE => /or4P [] /eqP -> /or3P [] /eqP ->.
Qed.
Lemma tf_options TZ : options float TZ (opts0 C) (map upper (words (tformat U fm zs))) =
  Ok (Opts "S" fm U (Some (ZNum z)) (Some [:: z])).
Proof.
rewrite tf_words /= (upper_num Hn).
by move: HU Hfm; rewrite /unit_names /fmt_names !inE => /or4P [] /eqP -> /or3P [] /eqP -> /=; rewrite Hf.
Qed.
Lemma tf_unit : find_unit (upper (tformat U fm zs)) = Ok U.
Proof.
rewrite tf_upper /tformat.
by move: HU Hfm; rewrite /unit_names /fmt_names !inE => /or4P [] /eqP -> /or3P [] /eqP ->.
Qed.
Lemma tf_fmt : wfmt (tformat U fm zs) = Ok fm.
Proof.
have E := fmts_R Hn.
rewrite /wfmt tf_upper /tformat.
by move: HU Hfm; rewrite /unit_names /fmt_names !inE => /or4P [] /eqP -> /or3P [] /eqP ->; rewrite /= in E *; rewrite E.
Qed.
Lemma tf_zref : wzref float (tformat U fm zs) = z.
Proof.
have E : find_R (String "R" (String " " zs)) = Some zs.
  by rewrite /= lstrip_num // number_numeral.
have -> : wzref float (tformat U fm zs) = if find_R (String "R" (String " " zs)) is Some n then odflt 50%:R (float n) else 50%:R.
  by rewrite /wzref /tformat; move: HU Hfm; rewrite /unit_names /fmt_names !inE => /or4P [] /eqP -> /or3P [] /eqP ->.
by rewrite E Hf.
Qed.
End Family.

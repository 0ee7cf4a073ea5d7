(** Instances of the theorems of PropsTsf.v: texts that meet their hypotheses. *)
From mathcomp Require Import all_ssreflect all_algebra.
From Coq Require Import String Ascii.
From Verif Require Import Base ConvModel ConvSpec ConvProofs ConvArr ConvExamples UtilModel UtilThm TsfModel TsfText TsfThm TsfWrite TsfRound TsfMain TsfFull TsfTrip TsfT2s TsfSpec TsfParse TsfApi PropsTsf.
Set Implicit Arguments.
Unset Strict Implicit.
Unset Printing Implicit Defensive.
Import Order.TTheory GRing.Theory Num.Theory.
Local Open Scope string_scope.
Local Open Scope ring_scope.
Local Open Scope seq_scope.

Section W.
Variable C : numClosedFieldType.
(** a float() that knows 0, 1, 2 and 50, and a formatting that rounds 1/2 to 0, others to 2 *)
Definition wfloat (s : string) : option C :=
  if s == "0" then Some 0 else if s == "1" then Some 1 else if s == "2" then Some 2%:R
  else if s == "50" then Some 50%:R else None.
Definition wval (spec : string) (x : C) : C := if x == 0 then 0 else if x == 1 then 1 else if x == 2%:R^-1 then 0 else 2%:R.
Definition wtxt (spec : string) (x : C) : string := if x == 0 then "0" else if x == 1 then "1" else if x == 2%:R^-1 then "0" else "2".
Definition wint (s : string) : option int := Some (8%:Z).
Definition wreG (s : string) : option string := if s == " Gamma ! 0 0" then Some " 0 0" else None.
Definition wreZ (s : string) : option string := if s == " Port Impedance 50 0" then Some " 50 0" else None.
Definition wport (s : string) (k : nat) : res string := Ok "port".
Definition idC (x : C) := x.
Definition wround (x : C) (m : nat) := x.
Definition wset (s : seq C) := s.
Definition wdate := "2024-12-20 14:21:10".
Notation ReadTSF := (ReadTSF wfloat wint wreG wreZ idC idC wport).
Notation WriteTSF := (WriteTSF wfloat wint wtxt idC idC wdate).
Notation tsf2str := (tsf2str wfloat wtxt idC idC wdate wround wset).

Lemma wpython : python_ok wfloat wdate wval.
Proof.
split=> //; first by move=> f y; rewrite /wval; case: (_ == _); [|case: (_ == _); [|case: (_ == _)]]; rewrite ?real0 ?real1 ?realn.
Qed.
Lemma wnum f x : numtext wfloat (wtxt f x) (wval f x).
Proof.
by rewrite /wtxt /wval; case: (x == 0); [|case: (x == 1); [|case: (x == _)]]; split=> //; eexists; split.
Qed.
Lemma wval0 f : wval f 0 = 0. Proof. by rewrite /wval eqxx. Qed.
Lemma wval1 f : wval f 1 = 1. Proof. by rewrite /wval eqxx oner_eq0. Qed.
Lemma wnumeral : numeral "50".
Proof. by exists 50%N; left. Qed.
(** a matrix that is not symmetric *)
Definition wS (f z : C) : res 'M[C]_2 := Ok (delta_mx 0 1).
Definition wps := [:: "in"; "out"].
Lemma wgood p : List.In p wps -> good_name p.
Proof. by case=> [<-|[<-|//]]. Qed.
Lemma wfifty : 50%:R != 0 :> C. Proof. by rewrite pnatr_eq0. Qed.
Lemma wmx f1 f2 (i j : 'I_2) : reread idC idC idC idC wval "RI" f1 f2 ((delta_mx 0 1 : 'M[C]_2) i j) = (delta_mx 0 1 : 'M[C]_2) i j.
Proof.
rewrite /reread /coef /wpair /= mxE; case: (_ && _) => /=.
  have -> : 'Re (1 : C) = 1 by apply/Creal_ReP; rewrite real1.
  have -> : 'Im (1 : C) = 0 by apply/Creal_ImP; rewrite real1.
  by rewrite wval0 wval1 mulr0 addr0.
have -> : 'Re (0 : C) = 0 by apply/Creal_ReP; rewrite real0.
have -> : 'Im (0 : C) = 0 by apply/Creal_ImP; rewrite real0.
by rewrite !wval0 mulr0 addr0.
Qed.

Theorem C33_write_read_witness : exists text t,
  [/\ WriteTSF wS (Some wps) [:: 1] "HZ S RI R 50" None "an example" = Ok text,
      ReadTSF (fun _ => None) text (Some (ZNum 50%:R)) (Some "Hz") None = Ok t,
      t_fs t = [:: 1], t_Ss t = Nd3 [:: delta_mx 0 1 : 'M[C]_2] & t_ports t = Some wps].
Proof.
case EW: (WriteTSF wS (Some wps) [:: 1] "HZ S RI R 50" None "an example") => [text|]; last by [].
exists text.
have Hin : {in [:: 1 : C], forall f, f / 1 = 1} by move=> f; rewrite inE => /eqP ->; rewrite divr1.
have [] := @C33_write_read_exact C wfloat wint wreG wreZ idC idC wport wtxt idC idC wdate wval 2 wS wps [:: 1] "HZ" "RI" "50" 50%:R 1
   None "an example" text (fun _ => None) "" text wpython isT erefl isT isT wnumeral erefl wfifty erefl isT wgood.
- by move=> f _; apply: wnum.
- by move=> f /Hin ->; rewrite wval1.
- by move=> f Sm _ _ i j; split; apply: wnum.
- by move=> f Sm i j _ E; rewrite -(Ok_inj E); apply: wmx.
- exact: EW.
- by left.
move=> t [Ss [E1 E2 E3 E4 E5]]; exists t; split=> //.
by move: E2; rewrite /= => E; rewrite E4 -(Ok_inj E).
Qed.

Theorem C33_tsf2str_two_ports_refuted : exists text t,
  [/\ tsf2str "rfObject" wps 50%:R "50" [:: 1] [:: delta_mx 0 1 : 'M[C]_2] (Some "# HZ S RI R 50") [:: "an example"] = Ok text,
      ReadTSF (fun _ => None) text (Some (ZNum 50%:R)) (Some "Hz") None = Ok t,
      t_fs t = [:: 1] & t_Ss t = Nd3 [:: delta_mx 1 0 : 'M[C]_2] /\ t_Ss t <> Nd3 [:: delta_mx 0 1 : 'M[C]_2]].
Proof.
case EW: (tsf2str "rfObject" wps 50%:R "50" [:: 1] [:: delta_mx 0 1 : 'M[C]_2] (Some "# HZ S RI R 50") [:: "an example"]) => [text|]; last first.
  exfalso; move: EW; rewrite /TsfModel.tsf2str [words _]/=; cbn [bind].
  have -> : (if "#" == "#" then [:: "HZ"; "S"; "RI"; "R"; "50"] else [:: "#"; "HZ"; "S"; "RI"; "R"; "50"]) = [:: "HZ"; "S"; "RI"; "R"; "50"] by [].
  rewrite (@tf_loop C wfloat "HZ" "RI" "50" 50%:R isT isT wnumeral erefl 1 erefl); cbn [bind q_type q_Zref q_elm q_scale].
  rewrite eqxx ConvertGeneral_VV ?wfifty //; cbn [bind].
  by rewrite sqs_id.
exists text.
have HF : [seq f / 1 | f <- [:: 1 : C]] = [:: 1] by rewrite /= divr1.
have [] := @C33_tsf2str_exact C wfloat wint wreG wreZ idC idC wport wtxt idC idC wdate wval wround wset 2 "rfObject" wps "50" [:: 1]
   [:: delta_mx 0 1] "HZ" "RI" "50" 50%:R 1 [:: "an example"] text (fun _ => None) wpython isT erefl isT isT wnumeral erefl wfifty erefl isT isT isT wgood erefl.
- by move=> f _; apply: wnum.
- by move=> f; rewrite HF inE => /eqP ->; rewrite wval1.
- by move=> Sm _ i j; split; apply: wnum.
- by move=> Sm; rewrite inE => /eqP -> i j; apply: wmx.
- exact: EW.
move=> t [E1 E2 E3 E4]; exists t.
have E5 : t_Ss t = Nd3 [:: delta_mx 1 0 : 'M[C]_2].
  by rewrite E4 /= trmx_delta.
split=> //; split=> //; rewrite E5 => E; have {E} E := Nd3_inj E.
have := congr1 (fun s => (head 0 s : 'M[C]_2) 0 1) E; rewrite /= !mxE /=.
by move/eqP; rewrite eq_sym oner_eq0.
Qed.

(** two frequencies, 0.5 and 1.5 Hz: they are written as 0 and 2 *)
Lemma half_not_int (k : int) : (2%:R^-1 : C) <> k%:~R.
Proof.
move=> E; have E2 : (k * 2)%:~R = 1%:~R :> C.
  by rewrite intrM -E mulVf // pnatr_eq0.
have /eqP := E2; rewrite eqr_int => /eqP E3.
have := congr1 absz E3; rewrite abszM /= => E4.
by have := congr1 odd E4; rewrite oddM andbF.
Qed.
Theorem C33_tsf2str_frequency_witness : exists text t,
  [/\ tsf2str "rfObject" [:: "in"] 50%:R "50" [:: 2%:R^-1; 1 + 2%:R^-1] [:: 1%:M : 'M[C]_1; 1%:M] (Some "# HZ S RI R 50") [:: "an example"] = Ok text,
      ReadTSF (fun _ => None) text (Some (ZNum 50%:R)) (Some "Hz") None = Ok t &
      t_fs t <> [:: 2%:R^-1; 1 + 2%:R^-1]].
Proof.
case EW: (tsf2str "rfObject" [:: "in"] 50%:R "50" [:: 2%:R^-1; 1 + 2%:R^-1] [:: 1%:M : 'M[C]_1; 1%:M] (Some "# HZ S RI R 50") [:: "an example"]) => [text|]; last first.
  exfalso; move: EW; rewrite /TsfModel.tsf2str [words _]/=; cbn [bind].
  have -> : (if "#" == "#" then [:: "HZ"; "S"; "RI"; "R"; "50"] else [:: "#"; "HZ"; "S"; "RI"; "R"; "50"]) = [:: "HZ"; "S"; "RI"; "R"; "50"] by [].
  rewrite (@tf_loop C wfloat "HZ" "RI" "50" 50%:R isT isT wnumeral erefl 1 erefl); cbn [bind q_type q_Zref q_elm q_scale].
  rewrite eqxx ConvertGeneral_VV ?wfifty //; cbn [bind].
  by rewrite sqs_id.
exists text.
have [] := @C33_tsf2str_frequency_refuted C wfloat wint wreG wreZ idC idC wport wtxt idC idC wdate wval wround wset 1 "rfObject" [:: "in"] 50%:R "50"
   [:: 2%:R^-1; 1 + 2%:R^-1] [:: 1%:M; 1%:M] "HZ" "RI" "50" 50%:R 1 [:: "an example"] text (fun _ => None) 2%:R^-1
   wpython isT erefl isT isT wnumeral erefl wfifty erefl isT isT isT _ erefl.
- by move=> p [<-|//].
- by move=> f _; apply: wnum.
- by move=> Ms _ Sm _ i j; split; apply: wnum.
- exact: EW.
- by [].
- move=> w x; rewrite /wval; case: (_ == _); [|case: (_ == _); [|case: (_ == _)]].
  + by exists 0%R. + by exists 1%R. + by exists 0%R. + by exists 2%R.
- by rewrite mem_head.
- by move=> k; rewrite divr1; apply: half_not_int.
by move=> t [E1 E2]; exists t.
Qed.

(** ** C34 *)
Lemma toS50 N (Ss : seq 'M[C]_N) fm : to_S None (Opts "S" fm "HZ" (Some (ZNum 50%:R)) (Some [:: 50%:R])) [::] Ss =
  ConvertGeneral (Nd0 50%:R) (Nd3 Ss) (Nd0 50%:R) "P" "V".
Proof. by []. Qed.
Definition ex_text : string := ("! a comment" ++ nl ++ "# hz S RI R 50 " ++ nl ++ nl ++ "1 0 1 1 1 ! first" ++ nl ++ " 2 1 0 0" ++ nl ++
  "2 0 0 1 0 0 1 1 1 " ++ nl ++ "! end")%string.
(** the values of its lines, its two records, and what ReadTSF gives *)
Definition ex_vals : seq (seq C) := [:: [:: 1; 0; 1; 1; 1]; [:: 2%:R; 1; 0; 0]; [:: 2%:R; 0; 0; 1; 0; 0; 1; 1; 1]].
Definition ex_recs : seq (C * seq C) := [:: (1, [:: 0; 1; 1; 1; 2%:R; 1; 0; 0]); (2%:R, [:: 0; 0; 1; 0; 0; 1; 1; 1])].
Lemma wnames : names_ok wfloat.
Proof. by move=> w; rewrite /is_name !inE => /orP[|/orP[|/orP[|/orP[|/orP[|/orP[|/or4P[]]]]]]] /eqP ->. Qed.

Theorem C34_records_witness : let ls := split_on LF ex_text in
  [/\ mapM (fun l => floats wfloat (words (before_bang l))) [seq l <- ls | is_data l] = Ok ex_vals,
      group ex_vals = ([::], ex_recs),
      [seq l <- ls | is_option l] = [:: "# hz S RI R 50 "] /\ words (upper (option_text "# hz S RI R 50 ")) = [:: "HZ"; "S"; "RI"; "R"; "50"],
      no_ports_data wreG wreZ ls & 
      exists t, [/\ ReadTSF (fun _ => None) ex_text None (Some "Hz") None = Ok t, t_fs t = [:: 1; 2%:R] &
        t_Ss t = Nd3 [seq record_mx idC idC "RI" 2 x.2 | x <- ex_recs]]].
Proof.
have A1 : mapM (fun l => floats wfloat (words (before_bang l))) [seq l <- split_on LF ex_text | is_data l] = Ok ex_vals by [].
have A2 : group ex_vals = ([::], ex_recs) by [].
have A3 : [seq l <- split_on LF ex_text | is_option l] = [:: "# hz S RI R 50 "] by [].
have A4 : words (upper (option_text "# hz S RI R 50 ")) = [:: "HZ"; "S"; "RI"; "R"; "50"] by [].
have A5 : no_ports_data wreG wreZ (split_on LF ex_text) by [].
have Hrf : realfloat wfloat.
  move=> s x; rewrite /wfloat; do 4! [case: (_ == _); first by case=> <-; rewrite ?real0 ?real1 ?realn]; by [].
split=> //.
have [t Et] : exists t, ReadTSF (fun _ => None) ex_text None (Some "Hz") None = Ok t.
  rewrite read_text_src // /read_tsf.
  have -> : read_lines wfloat (rd0 C) (split_on LF ex_text) =
    Ok (Rd [:: "! a comment"; MARKER; "! end"] [:: 1; 2%:R] (pairs [:: 0; 0; 1; 0; 0; 1; 1; 1])
           [:: pairs [:: 0; 1; 1; 1; 2%:R; 1; 0; 0]] 2 (Some "# hz S RI R 50")) by [].
  cbn [bind r_fs r_coefs r_Ss r_fmt].
  set R := reshape _ _; have -> : R = Ok (existT (fun N => seq 'M[C]_N) 2%N [seq \matrix_(i < 2, j < 2)
     (flatten (rcons [:: pairs [:: 0; 1; 1; 1; 2%:R; 1; 0; 0]] (pairs [:: 0; 0; 1; 0; 0; 1; 1; 1])))`_(k * (2 * 2) + (i * 2 + j)) | k <- iota 0 2]) by [].
  cbn [bind].
  have -> : options wfloat None (opts0 C) (words (upper " hz S RI R 50")) = Ok (Opts "S" "RI" "HZ" (Some (ZNum 50%:R)) (Some [:: 50%:R])) by [].
  cbn [bind r_comments r_marker].
  set K := comment_lines _ _ _ _; have -> : K = Ok (spec0 C) by []; cbn [bind].
  set G := gz_lines _ _ _ _ _; have -> : G = Ok (gz0 C) by []; cbn [bind].
  set Z := zc_rows _ _ _; have -> : Z = Ok ([::], [::]) by []; cbn [bind].
  set F := fscale _ _ _; have -> : F = Ok (1 / 1) by []; cbn [bind p_fmt p_unit].
  cbn [fst]; rewrite toS50.
  rewrite ConvertGeneral_same ?wfifty //.
  by eexists.
exists t; split=> //.
all: have [N [u [v [H1 [Hu Hv] H3 _ H4]]]] := @C34_records C wfloat wint wreG wreZ idC idC wport ex_text ex_vals ex_recs _ [:: "HZ"; "S"; "RI"] [:: "50"] [::] [:: 50%:R] None (Some "Hz") None
   (fun _ => None) t isT Hrf wnames A1 A2 isT isT A3 A4 isT isT erefl A5 erefl Et.
  have [Eu] : Some 1 = Some u by rewrite -Hu.
  have [Ev] : Some 1 = Some v by rewrite -Hv.
  by rewrite H3 -Eu -Ev divr1 /= !mulr1.
have HN : N = 2%N.
  move: H1 => /= /andP [H1 _]; apply/eqP; rewrite eq_sym -(@eqn_exp2r _ _ 2) // -!mulnn.
  by rewrite -(@eqn_pmul2l 2).
subst N; move: H4; rewrite /z_or ConvertGeneral_same ?wfifty // => E.
by rewrite (Ok_inj E).
Qed.

(** a one-port of 1 Ohm, in kHz, with port names *)
Definition ex_Z : string := ("!PORTS in" ++ nl ++ "# khz R 50 Z RI" ++ nl ++ "2 1 0" ++ nl)%string.
Example C34_impedance_witness : let ls := split_on LF ex_Z in
  [/\ mapM (fun l => floats wfloat (words (before_bang l))) [seq l <- ls | is_data l] = Ok [:: [:: 2%:R; 1; 0]],
      [seq l <- ls | is_option l] = [:: "# khz R 50 Z RI"] /\ words (upper (option_text "# khz R 50 Z RI")) = [:: "KHZ"] ++ "R" :: "50" :: [:: "Z"; "RI"],
      no_ports_data wreG wreZ ls /\ last_in type_names "S" ([:: "KHZ"] ++ [:: "Z"; "RI"]) = "Z",
      ports_of ls = Some [:: "in"] &
      exists t, [/\ ReadTSF (fun _ => None) ex_Z None (Some "Hz") None = Ok t, t_fs t = [:: 2%:R * 10%:R ^+ 3] & t_ports t = Some [:: "in"]]].
Proof.
split=> //.
eexists; rewrite read_text_src // /read_tsf.
have -> : read_lines wfloat (rd0 C) (split_on LF ex_Z) =
  Ok (Rd [:: "!PORTS in"; MARKER] [:: 2%:R] [:: 1 + 'i * 0] [::] 2 (Some "# khz R 50 Z RI")) by [].
cbn [bind r_fs r_coefs r_Ss r_fmt].
set R := reshape _ _; have -> : R = Ok (existT (fun N => seq 'M[C]_N) 1%N [seq \matrix_(i < 1, j < 1)
   (flatten [:: [:: 1 + 'i * 0]])`_(k * (1 * 1) + (i * 1 + j)) | k <- iota 0 1]) by [].
cbn [bind].
have -> : options wfloat None (opts0 C) (words (upper " khz R 50 Z RI")) = Ok (Opts "Z" "RI" "KHZ" (Some (ZNum 50%:R)) (Some [:: 50%:R])) by [].
cbn [bind r_comments r_marker].
set K := comment_lines _ _ _ _; have -> : K = Ok (Spec (Some [:: "in"]) None None) by []; cbn [bind].
set G := gz_lines _ _ _ _ _; have -> : G = Ok (gz0 C) by []; cbn [bind].
set Z := zc_rows _ _ _; have -> : Z = Ok ([::], [::]) by []; cbn [bind].
set F := fscale _ _ _; have -> : F = Ok (10%:R ^+ 3 / 1) by rewrite /F /fscale /funits -natrX; cbn [bind p_fmt p_unit].
cbn [fst bind p_fmt map iota].
set D := map_mx _ _; have -> : to_S None (Opts "Z" "RI" "KHZ" (Some (ZNum 50%:R)) (Some [:: 50%:R])) [::] [:: D] = S_from_Z (Nd3 [:: D]) 50%:R by [].
have HD : D + 50%:R%:M = 51%:R%:M.
  apply/matrixP => i j; rewrite !mxE !ord1 /from_fmt /= mulr0 addr0.
  by rewrite !mulr1n -(natrD _ 1 50).
rewrite /S_from_Z lift3_stack /= /s_from_z1 /np_inv HD unitmxE det_scalar1 unitfE pnatr_eq0 /=.
split; [reflexivity|by rewrite /= divr1|by []].
Qed.

(** comments that change the result: a port impedance makes the reading of a one-port with
    R raise *)
Theorem C34_comments_refuted : exists t,
  ReadTSF (fun _ => None) ("# HZ S RI R 50" ++ nl ++ "1 0 1" ++ nl)%string None (Some "Hz") None = Ok t /\
  ReadTSF (fun _ => None) ("# HZ S RI R 50" ++ nl ++ "1 0 1" ++ nl ++ "! Gamma ! 0 0" ++ nl ++ "! Port Impedance 50 0")%string None (Some "Hz") None = Raise TypeError.
Proof.
have [t Et] : exists t, ReadTSF (fun _ => None) ("# HZ S RI R 50" ++ nl ++ "1 0 1" ++ nl)%string None (Some "Hz") None = Ok t.
  rewrite read_text_src // /read_tsf.
  have -> : read_lines wfloat (rd0 C) (split_on LF ("# HZ S RI R 50" ++ nl ++ "1 0 1" ++ nl)%string) =
    Ok (Rd [:: MARKER] [:: 1] [:: 0 + 'i * 1] [::] 1 (Some "# HZ S RI R 50")) by [].
  cbn [bind r_fs r_coefs r_Ss r_fmt].
  set R := reshape _ _; have -> : R = Ok (existT (fun N => seq 'M[C]_N) 1%N [seq \matrix_(i < 1, j < 1)
     (flatten [:: [:: 0 + 'i * 1]])`_(k * (1 * 1) + (i * 1 + j)) | k <- iota 0 1]) by [].
  cbn [bind].
  have -> : options wfloat None (opts0 C) (words (upper " HZ S RI R 50")) = Ok (Opts "S" "RI" "HZ" (Some (ZNum 50%:R)) (Some [:: 50%:R])) by [].
  cbn [bind r_comments r_marker].
  set K := comment_lines _ _ _ _; have -> : K = Ok (spec0 C) by []; cbn [bind].
  set G := gz_lines _ _ _ _ _; have -> : G = Ok (gz0 C) by []; cbn [bind].
  set Z := zc_rows _ _ _; have -> : Z = Ok ([::], [::]) by []; cbn [bind].
  set F := fscale _ _ _; have -> : F = Ok (1 / 1) by []; cbn [bind p_fmt p_unit].
  cbn [fst]; rewrite toS50.
  rewrite ConvertGeneral_same ?wfifty //.
  by eexists.
exists t; split=> //.
Qed.
End W.

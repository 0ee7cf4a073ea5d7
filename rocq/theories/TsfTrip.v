(** The round trip through WriteTSF and through tsf2str. *)
From mathcomp Require Import all_ssreflect all_algebra.
From Coq Require Import String Ascii.
From Verif Require Import Base ConvModel ConvSpec ConvProofs ConvArr ConvExamples UtilModel UtilThm TsfModel TsfText TsfThm TsfWrite TsfRound TsfMain TsfFull.
Set Implicit Arguments.
Unset Strict Implicit.
Unset Printing Implicit Defensive.
Import Order.TTheory GRing.Theory Num.Theory.
Local Open Scope string_scope.
Local Open Scope ring_scope.
Local Open Scope seq_scope.

Lemma Ok_inj (A : Type) (x y : A) : Ok x = Ok y -> x = y. Proof. by case. Qed.
Lemma leadspaces_blanks pyint f0 lead : leadspaces pyint f0 = Ok lead -> exists w, lead = blanks w.
Proof.
rewrite /leadspaces; case: (pyint _) => //= w [<-].
by case: (1 + w) => n; [exists n|exists 0%N].
Qed.
Lemma split_bang c : ~~ has_bang c -> all (fun l => ~~ has_bang l) (split_on LF c).
Proof.
elim: c => [|a c IH] //; rewrite /has_bang /= in_cons negb_or => /andP [Ha Hc].
have [w [ws E]] := split_on_cons LF c; move: (IH Hc); rewrite E eqbE; case: (a == LF) => //.
by case/andP => Hl Hls; apply/andP; split=> //; rewrite /has_bang /= in_cons negb_or Ha.
Qed.
Lemma split_noLF c : all (fun l => LF \notin chars l) (split_on LF c).
Proof. by have [] := split_on_spec LF c. Qed.
Lemma all_In (A : Type) (P : pred A) s x : all P s -> List.In x s -> P x.
Proof. by elim: s => //= y s IH /andP [Hy Hs] [<-|/IH]; auto. Qed.
Lemma quiet_cmts ls : all (fun l => ~~ has_bang l) ls -> forall c, List.In c (map cmt ls) -> quiet c.
Proof.
elim: ls => // l ls IH /andP [Hl Hls] c [<-|/IH]; first exact: quiet_bang.
by apply.
Qed.

Section Trip.
Variable C : numClosedFieldType.
Variable float : string -> option C.
Variable pyint : string -> option int.
Variables reG reZ : string -> option string.
Variables expideg pow10_20 : C -> C.
Variable fmt_port : string -> nat -> res string.
Variable fmtf : string -> C -> string.
Variables (db : C -> C) (angdeg : C -> C) (date : string).
Variable rdv : string -> C -> C.
Notation can_write := (can_write float fmtf db angdeg rdv).
Notation pvals := (pvals db angdeg rdv).
Notation reread := (reread expideg pow10_20 db angdeg rdv).

Lemma read_portline st ports rest : (forall ps, ports = Some ps -> forall p, List.In p ps -> good_name p) ->
  read_lines float st (split_on LF
    ((if ports is Some ps then if ps is [::] then "" else "!PORTS " ++ String.concat ", " ps ++ nl ++ nl else "") ++ rest)) =
  read_lines float (addcs st (portline ports)) (split_on LF rest).
Proof.
case: ports => [[|p ps]|] Hp; rewrite /portline ?addcs0 //.
have [//|//|N R B L] := @concat_good (p :: ps).
  exact: Hp.
set s := String.concat _ _ in N R B L *.
have -> : (("!PORTS " ++ s ++ nl ++ nl) ++ rest)%string = (String bang ("PORTS " ++ s) ++ nl ++ (nl ++ rest))%string.
  by rewrite /= -!appA.
by rewrite read_cmt ?read_blank // LF_app negb_or L.
Qed.

Lemma write_state n (getS : C -> C -> res 'M[C]_n) ports fs U fm zs z u nf comments text :
  U \in unit_names -> fm \in fmt_names -> numeral zs -> float zs = Some z -> funits C U = Ok u ->
  float_hash float -> ~~ has_bang date -> LF \notin chars date -> ~~ has_bang comments ->
  (forall ps, ports = Some ps -> forall p, List.In p ps -> good_name p) ->
  let: (f0, f1, f2) := odflt (num_formats fm) nf in
  {in fs, forall f, numtext float (fmtf f0 (f / u)) (rdv f0 (f / u))} ->
  (forall f Sm, f \in fs -> getS f z = Ok Sm -> forall i j, can_write fm f1 f2 (Sm i j)) ->
  WriteTSF float pyint fmtf db angdeg date getS ports fs (tformat U fm zs) nf comments = Ok text ->
  exists Ss cmts, [/\ fs != [::], mapM (fun f => getS f z) fs = Ok Ss, forall c, List.In c cmts -> quiet c &
    read_lines float (rd0 C) (split_on LF text) =
    Ok (recs (Rd (cmts ++ portline ports) [::] [::] [::] 0 (Some (strip ("# " ++ tformat U fm zs ++ " "))))
         (zip [seq rdv f0 (f / u) | f <- fs] [seq pvals fm f1 f2 (mxflat Sm) | Sm <- Ss]))].
Proof.
move=> HU Hfm Hz Hf Hu Hh Hdb Hdl Hcb Hp.
case E: (odflt _ nf) => [[f0 f1] f2] Hfs HS.
rewrite /WriteTSF /wunit (tf_unit HU Hfm Hz); cbn [bind]; rewrite Hu; cbn [bind].
rewrite (tf_fmt HU Hfm Hz); cbn [bind]; rewrite (tf_zref HU Hfm Hz Hf).
case Efs: fs => [|g gs] //; rewrite -Efs E.
case El: (leadspaces _ _) => [lead|] //; cbn [bind].
have [w Ew] := leadspaces_blanks El.
case Eb: (wfreqs _ _ _ _ _ _ _ _ _ _ _) => [body|] //; cbn [bind] => Et; have {Et} <- := Ok_inj Et.
rewrite Ew in Eb.
pose c1 := rstrip (String bang (" TouchStone file (pyRFtk.WriteTSF version " ++ version ++ ")")).
pose c2 := rstrip (String bang (" Date : " ++ date ++ " ")).
pose cm := [:: c1; c2] ++ map cmt (split_on LF comments).
have [Ss [ESs ERd]] := read_wfreqs (Rd (cm ++ portline ports) [::] [::] [::] 0 (Some (strip ("# " ++ tformat U fm zs ++ " "))))
   Hh Hfs HS Eb.
exists Ss, cm; split=> //.
- by rewrite Efs.
- rewrite /cm => c /= [<-|[<-|]].
  + by apply: (@quiet_bang ("TouchStone file (pyRFtk.WriteTSF version " ++ version ++ ")")).
  + apply: (@quiet_bang ("Date : " ++ date ++ " ")).
    by rewrite !has_bang_app !negb_or Hdb.
  + by apply: quiet_cmts; exact: split_bang.
set pl := (if ports is Some ps then _ else _).
have -> : ("! TouchStone file (pyRFtk.WriteTSF version " ++ version ++ ")" ++ nl ++
      "! Date : " ++ date ++ " " ++ nl ++ nl ++
      wcomments (split_on LF comments) ++
      nl ++ "# " ++ tformat U fm zs ++ " " ++ nl ++ nl ++ pl ++ body)%string =
   (String bang (" TouchStone file (pyRFtk.WriteTSF version " ++ version ++ ")") ++ nl ++
    (String bang (" Date : " ++ date ++ " ") ++ nl ++ (nl ++ (wcomments (split_on LF comments) ++ (nl ++
     (("# " ++ tformat U fm zs ++ " ") ++ nl ++ (nl ++ (pl ++ body))))))))%string.
  by rewrite /= -!appA.
apply: etrans; first exact: read_cmt.
apply: etrans.
  apply: read_cmt; by rewrite !LF_app !negb_or Hdl.
rewrite read_blank; apply: etrans; first exact: (read_wcomments _ _ _ (split_noLF comments)).
rewrite read_blank; apply: etrans; first exact: (read_opt _ _ (tf_LF HU Hfm Hz)).
rewrite read_blank; apply: etrans; first exact: read_portline.
by rewrite /addcs /= -ERd.
Qed.
End Trip.

(** ** the value of ReadTSF on a written text *)
Section Trip2.
Variable C : numClosedFieldType.
Variable float : string -> option C.
Variable pyint : string -> option int.
Variables reG reZ : string -> option string.
Variables expideg pow10_20 : C -> C.
Variable fmt_port : string -> nat -> res string.
Variable fmtf : string -> C -> string.
Variables (db : C -> C) (angdeg : C -> C) (date : string).
Variable rdv : string -> C -> C.
Notation can_write := (can_write float fmtf db angdeg rdv).
Notation pvals := (pvals db angdeg rdv).
Notation reread := (reread expideg pow10_20 db angdeg rdv).
Notation read_tsf := (read_tsf float pyint reG reZ expideg pow10_20 fmt_port).
Notation ReadTSF := (ReadTSF float pyint reG reZ expideg pow10_20 fmt_port).
Notation WriteTSF := (WriteTSF float pyint fmtf db angdeg date).

Lemma read_tsf_lines TZ Tf Tp ls1 ls2 : read_lines float (rd0 C) ls1 = read_lines float (rd0 C) ls2 ->
  read_tsf TZ Tf Tp ls1 = read_tsf TZ Tf Tp ls2.
Proof. by move=> E; rewrite /TsfModel.read_tsf E. Qed.

Lemma write_read n (getS : C -> C -> res 'M[C]_n) ports fs U fm zs z u nf comments text TZ Tf Tp :
  (0 < n)%N -> (forall f y, rdv f y \is Num.real) ->
  U \in unit_names -> fm \in fmt_names -> numeral zs -> float zs = Some z -> funits C U = Ok u ->
  float_hash float -> ~~ has_bang date -> LF \notin chars date -> ~~ has_bang comments ->
  (forall ps, ports = Some ps -> forall p, List.In p ps -> good_name p) ->
  let: (f0, f1, f2) := odflt (num_formats fm) nf in
  {in fs, forall f, numtext float (fmtf f0 (f / u)) (rdv f0 (f / u))} ->
  (forall f Sm, f \in fs -> getS f z = Ok Sm -> forall i j, can_write fm f1 f2 (Sm i j)) ->
  WriteTSF getS ports fs (tformat U fm zs) nf comments = Ok text ->
  exists Ss, [/\ mapM (fun f => getS f z) fs = Ok Ss, Ss != [::] & read_tsf TZ Tf Tp (split_on LF text) =
    do s <- fscale C U (odflt "GHz" Tf);
    do S <- ConvertGeneral (nd_z (z_or TZ (ZNum 50%:R))) (Nd3 [seq map_mx (reread fm f1 f2) Sm | Sm <- Ss]) (Nd0 z) "P" "V";
    do ps <- choose_ports fmt_port Tp (found_ports ports) n;
    Ok (Tsf ps [seq f * s | f <- [seq rdv f0 (f / u) | f <- fs]] U S None None [::] [::] fm)].
Proof.
move=> Hn Hrd HU Hfm Hz Hf Hu Hh Hdb Hdl Hcb Hp.
have Hws := @write_state C float pyint fmtf db angdeg date rdv n getS ports fs U fm zs z u nf comments text
   HU Hfm Hz Hf Hu Hh Hdb Hdl Hcb Hp.
case E: (odflt _ nf) Hws => [[f0 f1] f2] Hws Hfs HS HW.
have [Ss [cm [Hne ESs Hq ERd]]] := Hws Hfs HS HW.
have Hsz : size Ss = size fs by have [-> _] := (mapM_Ok _ _ _).1 ESs.
have HneS : Ss != [::] by rewrite -size_eq0 Hsz size_eq0.
exists Ss; split=> //.
apply: (@read_tsf_state C float pyint reG reZ expideg pow10_20 fmt_port db angdeg rdv n fm U z f1 f2 _ _ Ss _ cm ports _ TZ Tf Tp _ Hn Hfm Hrd ERd HneS _ erefl) => //.
- by rewrite size_map Hsz.
- rewrite opt_words; exact: (tf_options HU Hfm Hz Hf).
Qed.
End Trip2.

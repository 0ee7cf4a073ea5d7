(** C33 (WriteTSF / tsf2str followed by ReadTSF) and C34 (parsing of touchstone texts).

    The functions of python that turn numbers into texts and back are parameters:
    [fmtf spec x] is ('%' + spec) % x and [float] is float(); [rdv spec x] is the number
    float() gives for ('%' + spec) % x, which the hypotheses [numtext] state.  A text is
    readable when it is one word without '!' and line feed. *)
From mathcomp Require Import all_ssreflect all_algebra.
From Coq Require Import String Ascii.
From Verif Require Import Base ConvModel ConvSpec ConvProofs ConvArr ConvExamples UtilModel UtilThm TsfModel TsfText TsfThm TsfWrite TsfRound TsfMain TsfFull TsfTrip TsfT2s TsfSpec TsfParse TsfApi.
Set Implicit Arguments.
Unset Strict Implicit.
Unset Printing Implicit Defensive.
Import Order.TTheory GRing.Theory Num.Theory.
Local Open Scope string_scope.
Local Open Scope ring_scope.
Local Open Scope seq_scope.

Section PropsTsf.
Variable C : numClosedFieldType.
Variable float : string -> option C.
Variable pyint : string -> option int.
Variables reG reZ : string -> option string.
Variables expideg pow10_20 : C -> C.
Variable fmt_port : string -> nat -> res string.
Variable fmtf : string -> C -> string.
Variables (db : C -> C) (angdeg : C -> C) (date : string).
Variable rdv : string -> C -> C.
Variable round : C -> nat -> C.
Variable setlist : seq C -> seq C.
Notation ReadTSF := (ReadTSF float pyint reG reZ expideg pow10_20 fmt_port).
Notation read_tsf := (read_tsf float pyint reG reZ expideg pow10_20 fmt_port).
Notation WriteTSF := (WriteTSF float pyint fmtf db angdeg date).
Notation tsf2str := (tsf2str float fmtf db angdeg date round setlist).
Notation freq_fmt := (freq_fmt fmtf round setlist).

(** float() of a text with '#' raises; the read numbers are real; the date is a plain text *)
Definition python_ok : Prop :=
  [/\ float_hash float, forall f y, rdv f y \is Num.real, ~~ has_bang date & LF \notin chars date].
(** the numbers of the frequency f and of the matrices are readable *)
Definition freq_ok (f0 : string) (x : C) : Prop := numtext float (fmtf f0 x) (rdv f0 x).
Definition mx_ok fm f1 f2 n (Sm : 'M[C]_n) : Prop := forall i j,
  numtext float (fmtf f1 (wpair db angdeg fm (Sm i j)).1) (rdv f1 (wpair db angdeg fm (Sm i j)).1) /\
  numtext float (fmtf f2 (wpair db angdeg fm (Sm i j)).2) (rdv f2 (wpair db angdeg fm (Sm i j)).2).
(** the coefficient that is read for a written coefficient x *)
Definition reread (fm f1 f2 : string) (x : C) : C :=
  coef expideg pow10_20 fm (rdv f1 (wpair db angdeg fm x).1) (rdv f2 (wpair db angdeg fm x).2).

Lemma rereadE fm f1 f2 x : fm \in fmt_names -> TsfMain.reread expideg pow10_20 db angdeg rdv fm f1 f2 x = reread fm f1 f2 x.
Proof.
by rewrite /fmt_names !inE => /or3P [] /eqP ->.
Qed.
Lemma map_rereadE n fm f1 f2 (Ss : seq 'M[C]_n) : fm \in fmt_names ->
  [seq map_mx (TsfMain.reread expideg pow10_20 db angdeg rdv fm f1 f2) Sm | Sm <- Ss] =
  [seq map_mx (reread fm f1 f2) Sm | Sm <- Ss].
Proof. by move=> H; apply: eq_map => Sm; apply/matrixP => i j; rewrite !mxE rereadE. Qed.
Lemma funits_neq0 U (u : C) : funits C U = Ok u -> u != 0.
Proof.
rewrite /funits; case: ifP => _; first by case=> <-; rewrite oner_eq0.
by do 3! [case: ifP => _; first by case=> <-; rewrite pnatr_eq0].
Qed.
Lemma hz_upper V (u : C) : hz C (upper V) = Some u <-> funits C V = Ok u.
Proof.
rewrite /hz /funits -!natrX; set W := upper V; do 4! [case: ifP => _; first by split=> [[->]|[->]]].
by [].
Qed.
Lemma hz_funits U (u : C) : U \in freq_units -> hz C U = Some u -> funits C U = Ok u.
Proof.
move=> HU H; apply/hz_upper; suff -> : upper U = U by [].
by move: HU; rewrite !inE => /or4P [] /eqP ->.
Qed.
Lemma funits_hz U (u : C) : U \in freq_units -> funits C U = Ok u -> hz C U = Some u.
Proof.
move=> HU /hz_upper; suff -> : upper U = U by [].
by move: HU; rewrite !inE => /or4P [] /eqP ->.
Qed.
Lemma last_in_mem l d ws : d \in l -> last_in l d ws \in l.
Proof.
move=> Hd; rewrite /last_in; have : all (mem l) [seq w <- ws | w \in l] by apply/allP => w; rewrite mem_filter => /andP[].
elim: [seq w <- ws | w \in l] d Hd => //= w s IH d _ /andP[Hw Hs]; exact: IH.
Qed.
Lemma funits_Hz : funits C "Hz" = Ok 1. Proof. by []. Qed.
Lemma fscale_Hz U (u : C) : funits C U = Ok u -> fscale C U "Hz" = Ok u.
Proof. by move=> H; rewrite /fscale H funits_Hz /= divr1. Qed.

Lemma has_lf_text a b : has_lf (a ++ nl ++ b)%string.
Proof. by rewrite /has_lf !lapp !has_cat /= orbT. Qed.
Lemma has_lf_app a b : has_lf (a ++ b)%string = has_lf a || has_lf b.
Proof. by rewrite /has_lf lapp has_cat. Qed.
Lemma write_lf n (getS : C -> C -> res 'M[C]_n) ports fs tf nf comments text :
  WriteTSF getS ports fs tf nf comments = Ok text -> has_lf text.
Proof.
rewrite /TsfModel.WriteTSF; case: (wunit _) => [u|] //; cbn [bind].
case: (wfmt tf) => [fm|] //; cbn [bind]; case: fs => // f fs.
case: (odflt _ _) => [[f0 f1] f2]; case: (leadspaces _ _) => [lead|] //; cbn [bind].
case: (wfreqs _ _ _ _ _ _ _ _ _ _ _) => [body|] //; cbn [bind] => E; have {E} <- := Ok_inj E.
by rewrite 2!has_lf_app has_lf_text !orbT.
Qed.
Lemma read_text_src files text TZ Tf Tp : has_lf text ->
  ReadTSF files text TZ Tf Tp = read_tsf TZ Tf Tp (split_on LF text).
Proof. by move=> H; rewrite /TsfModel.ReadTSF /getlines H. Qed.
Lemma read_file_src files name text TZ Tf Tp : ~~ has_lf name -> files name = Some text -> ~~ has_cr text ->
  ReadTSF files name TZ Tf Tp = read_tsf TZ Tf Tp (split_on LF text).
Proof.
move=> Hn Hf Hc; rewrite /TsfModel.ReadTSF /getlines (negbTE Hn) Hf /= (universal_id Hc).
apply: read_tsf_lines; rewrite readlines_split read_lines_cat.
by case: (read_lines _ _ _) => //= st; case: (ends_lf text).
Qed.

(** ** C33 *)
(** What ReadTSF gives for a text written by WriteTSF, for every number of ports, of
    frequencies, every matrix, each of RI/MA/DB and each unit: the frequencies and the
    matrices, entry by entry, up to the formatting of the numbers.  The text itself and a
    file with that text give the same. *)
Theorem C33_write_read n (getS : C -> C -> res 'M[C]_n) ps fs U fm zs z u nf comments text files name src :
  python_ok -> (0 < n)%N -> size ps = n ->
  U \in [:: "HZ"; "KHZ"; "MHZ"; "GHZ"] -> fm \in [:: "RI"; "MA"; "DB"] ->
  numeral zs -> float zs = Some z -> z != 0 -> hz C U = Some u ->
  ~~ has_bang comments -> (forall p, List.In p ps -> good_name p) ->
  let: (f0, f1, f2) := odflt (num_formats fm) nf in
  {in fs, forall f, freq_ok f0 (f / u)} ->
  (forall f Sm, f \in fs -> getS f z = Ok Sm -> mx_ok fm f1 f2 Sm) ->
  WriteTSF getS (Some ps) fs (U ++ " S " ++ fm ++ " R " ++ zs)%string nf comments = Ok text ->
  (src = text \/ [/\ src = name, ~~ has_lf name, files name = Some text & ~~ has_cr text]) ->
  exists t Ss, [/\ ReadTSF files src (Some (ZNum z)) (Some "Hz") None = Ok t,
    mapM (fun f => getS f z) fs = Ok Ss,
    t_fs t = [seq rdv f0 (f / u) * u | f <- fs],
    t_Ss t = Nd3 [seq map_mx (reread fm f1 f2) Sm | Sm <- Ss] & t_ports t = Some ps].
Proof.
case=> Hh Hrd Hdb Hdl Hn Hps HU Hfm Hzs Hz Hz0 Hu Hcb Hgn.
have Hp : forall q, Some ps = Some q -> forall p, List.In p q -> good_name p by move=> q [<-].
have HWR := @write_read C float pyint reG reZ expideg pow10_20 fmt_port fmtf db angdeg date rdv n getS (Some ps) fs U fm zs z u
   nf comments text (Some (ZNum z)) (Some "Hz") None Hn Hrd HU Hfm Hzs Hz (hz_funits HU Hu) Hh Hdb Hdl Hcb Hp.
case: (odflt _ nf) HWR => [[f0 f1] f2] HWR Hfs HS HW Hsrc.
have [Ss [ESs HneS ER]] := HWR Hfs HS HW.
have {}Hsrc : ReadTSF files src (Some (ZNum z)) (Some "Hz") None = read_tsf (Some (ZNum z)) (Some "Hz") None (split_on LF text).
  case: Hsrc => [->|[-> Hl Hf Hc]]; first by rewrite read_text_src //; apply: write_lf HW.
  exact: read_file_src.
have Hpne : ps != [::] by rewrite -size_eq0 Hps -lt0n.
have Efp : found_ports (Some ps) = Some ps by case: (ps) Hpne.
move: ER; rewrite Efp [odflt _ _]/= (fscale_Hz (hz_funits HU Hu)); cbn [bind].
rewrite /z_or /= Hz0 /= (ConvertGeneral_same Hz0); last by rewrite -size_eq0 size_map size_eq0.
rewrite /= Hpne Hps eqxx /= => ER.
eexists; exists Ss; split; [by rewrite Hsrc ER|by []| | |] => //=.
  by rewrite -map_comp.
by rewrite map_rereadE.
Qed.

(** When the written numbers are exact (and so are the conversions to and from MA and DB),
    the same frequencies and the same matrices come back. *)
Theorem C33_write_read_exact n (getS : C -> C -> res 'M[C]_n) ps fs U fm zs z u nf comments text files name src :
  python_ok -> (0 < n)%N -> size ps = n ->
  U \in [:: "HZ"; "KHZ"; "MHZ"; "GHZ"] -> fm \in [:: "RI"; "MA"; "DB"] ->
  numeral zs -> float zs = Some z -> z != 0 -> hz C U = Some u ->
  ~~ has_bang comments -> (forall p, List.In p ps -> good_name p) ->
  let: (f0, f1, f2) := odflt (num_formats fm) nf in
  {in fs, forall f, freq_ok f0 (f / u)} -> {in fs, forall f, rdv f0 (f / u) = f / u} ->
  (forall f Sm, f \in fs -> getS f z = Ok Sm -> mx_ok fm f1 f2 Sm) ->
  (forall f Sm i j, f \in fs -> getS f z = Ok Sm -> reread fm f1 f2 (Sm i j) = Sm i j) ->
  WriteTSF getS (Some ps) fs (U ++ " S " ++ fm ++ " R " ++ zs)%string nf comments = Ok text ->
  (src = text \/ [/\ src = name, ~~ has_lf name, files name = Some text & ~~ has_cr text]) ->
  exists t Ss, [/\ ReadTSF files src (Some (ZNum z)) (Some "Hz") None = Ok t,
    mapM (fun f => getS f z) fs = Ok Ss, t_fs t = fs, t_Ss t = Nd3 Ss & t_ports t = Some ps].
Proof.
move=> Hpy Hn Hps HU Hfm Hzs Hz Hz0 Hu Hcb Hgn.
have := @C33_write_read n getS ps fs U fm zs z u nf comments text files name src Hpy Hn Hps HU Hfm Hzs Hz Hz0 Hu Hcb Hgn.
case: (odflt _ nf) => [[f0 f1] f2] H Hfs Hfx HS HSx HW Hsrc.
have [t [Ss [E1 E2 E3 E4 E5]]] := H Hfs HS HW Hsrc.
exists t, Ss; split=> //.
  rewrite E3 -[in RHS](map_id fs); apply/eq_in_map => f Hf.
  by rewrite Hfx // divfK // (funits_neq0 (hz_funits HU Hu)).
rewrite E4; congr Nd3; apply: (@eq_from_nth _ 0); first by rewrite size_map.
move=> k; rewrite size_map => Hk; rewrite (nth_map 0) //.
have [Esz Enth] := (mapM_Ok _ _ _).1 E2.
have Hk' : (k < size fs)%N by rewrite Esz.
apply/matrixP => i j; rewrite mxE; apply: (HSx (nth 0 fs k)); first exact: mem_nth.
exact: Enth.
Qed.

(** With RI, the error of an entry is at most twice the error of a written number. *)
Theorem C33_write_read_error f1 f2 (x : C) (eps : C) :
  `|rdv f1 ('Re x) - 'Re x| <= eps -> `|rdv f2 ('Im x) - 'Im x| <= eps ->
  `|reread "RI" f1 f2 x - x| <= eps + eps.
Proof.
move=> H1 H2; rewrite /reread /coef /wpair /= [X in _ - X]Crect opprD addrACA -mulrBr.
by apply: le_trans (ler_norm_add _ _) _; rewrite normrM normCi mul1r ler_add.
Qed.

(** the same for tsf2str, where the matrices Ss on the impedance Zb are written on the
    impedance z; [in_file] transposes the matrices of two-ports. *)
Theorem C33_tsf2str_read n cls ps (Zb : C) ztext (fs : seq C) (Ss : seq 'M[C]_n) U fm zs z u comments text files :
  python_ok -> (0 < n)%N -> size ps = n ->
  U \in [:: "HZ"; "KHZ"; "MHZ"; "GHZ"] -> fm \in [:: "RI"; "MA"; "DB"] ->
  numeral zs -> float zs = Some z -> z != 0 -> hz C U = Some u ->
  ~~ has_bang cls -> LF \notin chars cls -> all (fun c => ~~ has_bang c && (LF \notin chars c)) comments ->
  (forall p, List.In p ps -> good_name p) -> size fs = size Ss ->
  let Fs := [seq f / u | f <- fs] in
  {in Fs, forall f, freq_ok (freq_fmt Fs) f} ->
  (forall Ms, ConvertGeneral (Nd0 z) (Nd3 Ss) (Nd0 Zb) "V" "V" = Ok (Nd3 Ms) ->
     forall Sm : 'M[C]_n, Sm \in Ms -> mx_ok fm (elfmts fm).1 (elfmts fm).2 Sm) ->
  tsf2str cls ps Zb ztext fs Ss (Some ("# " ++ U ++ " S " ++ fm ++ " R " ++ zs)%string) comments = Ok text ->
  exists t Ms, [/\ ReadTSF files text (Some (ZNum z)) (Some "Hz") None = Ok t,
    ConvertGeneral (Nd0 z) (Nd3 Ss) (Nd0 Zb) "V" "V" = Ok (Nd3 Ms),
    t_fs t = [seq rdv (freq_fmt Fs) f * u | f <- Fs],
    t_Ss t = Nd3 [seq map_mx (reread fm (elfmts fm).1 (elfmts fm).2) (if n == 2%N then Sm^T else Sm) | Sm <- Ms : seq 'M[C]_n] &
    t_ports t = Some ps].
Proof.
case=> Hh Hrd Hdb Hdl Hn Hps HU Hfm Hzs Hz Hz0 Hu Hclb Hcll Hcm Hgn Hsz Fs HFs HS HT.
have Hpne : ps != [::] by rewrite -size_eq0 Hps -lt0n.
have [Ms [EM HszM HneS ER]] := @t2s_read C float pyint reG reZ expideg pow10_20 fmt_port fmtf db angdeg date rdv round setlist
  n cls ps Zb ztext fs Ss U fm zs z u comments text (Some (ZNum z)) (Some "Hz") None Hn Hrd HU Hfm Hzs Hz (hz_funits HU Hu) Hh Hdb Hdl Hclb Hcll Hcm Hpne Hgn Hsz HFs HS HT.
have Hlf : has_lf text.
  move: HT; rewrite /TsfModel.tsf2str; case: (words _) => // w ws; cbn [bind].
  case: (tfmt_loop _ _ _ _) => [o|] //; cbn [bind].
  case: (if q_type o == "S" then _ else _) => [M|] //; cbn [bind].
  case: (fs) => // f fs'; cbn [bind].
  case: (match M with Nd0 _ => _ | _ => _ end) => [body|] //; cbn [bind] => E; have {E} <- := Ok_inj E.
  exact: has_lf_text.
move: ER; rewrite [odflt _ _]/= (fscale_Hz (hz_funits HU Hu)); cbn [bind].
rewrite /z_or /= Hz0 /= (ConvertGeneral_same Hz0); last by rewrite -size_eq0 size_map HszM size_eq0.
rewrite /= Hpne Hps eqxx /= => ER.
eexists; exists Ms; split; [by rewrite read_text_src // ER|by []| | |] => //=.
  by rewrite -map_comp.
congr Nd3; apply: eq_map => Sm; apply/matrixP => i j; rewrite !mxE rereadE //.
Qed.

Lemma ConvertGeneral_VV n (z : C) (Ss : seq 'M[C]_n) : z != 0 -> Ss != [::] ->
  ConvertGeneral (Nd0 z) (Nd3 Ss) (Nd0 z) "V" "V" = Ok (Nd3 Ss).
Proof. by move=> Hz Hne; rewrite -ConvertGeneral_PV // ConvertGeneral_same. Qed.
Lemma Nd3_inj n (a b : seq 'M[C]_n) : Nd3 a = Nd3 b -> a = b.
Proof.
move=> E; pose F (pq : nat * nat) := seq 'M[C]_(pq.1, pq.2).
have := congr1 (fun x => if x is @Nd3 _ p q s then existT F (p, q) s else existT F (0, 0)%N [::]) E.
by apply: (@Eqdep_dec.inj_pair2_eq_dec _ _ F (n, n)) => x y; decide equality; apply: PeanoNat.Nat.eq_dec.
Qed.

(** Written on the impedance of the object with exact numbers, the same matrices come back,
    unless there are two ports: these come back transposed. *)
Theorem C33_tsf2str_exact n cls ps ztext (fs : seq C) (Ss : seq 'M[C]_n) U fm zs z u comments text files :
  python_ok -> (0 < n)%N -> size ps = n ->
  U \in [:: "HZ"; "KHZ"; "MHZ"; "GHZ"] -> fm \in [:: "RI"; "MA"; "DB"] ->
  numeral zs -> float zs = Some z -> z != 0 -> hz C U = Some u ->
  ~~ has_bang cls -> LF \notin chars cls -> all (fun c => ~~ has_bang c && (LF \notin chars c)) comments ->
  (forall p, List.In p ps -> good_name p) -> size fs = size Ss ->
  let Fs := [seq f / u | f <- fs] in
  {in Fs, forall f, freq_ok (freq_fmt Fs) f} -> {in Fs, forall f, rdv (freq_fmt Fs) f = f} ->
  {in Ss, forall Sm, mx_ok fm (elfmts fm).1 (elfmts fm).2 Sm} ->
  {in Ss, forall (Sm : 'M[C]_n) i j, reread fm (elfmts fm).1 (elfmts fm).2 (Sm i j) = Sm i j} ->
  tsf2str cls ps z ztext fs Ss (Some ("# " ++ U ++ " S " ++ fm ++ " R " ++ zs)%string) comments = Ok text ->
  exists t, [/\ ReadTSF files text (Some (ZNum z)) (Some "Hz") None = Ok t, t_fs t = fs,
    t_ports t = Some ps & t_Ss t = Nd3 (if n == 2%N then [seq Sm^T | Sm <- Ss] else Ss)].
Proof.
move=> Hpy Hn Hps HU Hfm Hzs Hz Hz0 Hu Hclb Hcll Hcm Hgn Hsz Fs HFs HFx HS HSx HT.
have HneS : Ss != [::].
  apply/eqP => E; move: HT; rewrite E in Hsz.
  rewrite /TsfModel.tsf2str (size0nil Hsz); case: (words _) => // w ws; cbn [bind].
  case: (tfmt_loop _ _ _ _) => [o|] //; cbn [bind].
  by case: (if q_type o == "S" then _ else _).
have HS' : forall Ms, ConvertGeneral (Nd0 z) (Nd3 Ss) (Nd0 z) "V" "V" = Ok (Nd3 Ms) ->
     forall Sm : 'M[C]_n, Sm \in Ms -> mx_ok fm (elfmts fm).1 (elfmts fm).2 Sm.
  by move=> Ms; rewrite ConvertGeneral_VV // => E; rewrite -(Nd3_inj (Ok_inj E)).
have [t [Ms [E1 E2 E3 E4 E5]]] := @C33_tsf2str_read n cls ps z ztext fs Ss U fm zs z u comments text files
  Hpy Hn Hps HU Hfm Hzs Hz Hz0 Hu Hclb Hcll Hcm Hgn Hsz HFs HS' HT.
rewrite ConvertGeneral_VV // in E2; have {}E2 := Nd3_inj (Ok_inj E2); rewrite -{}E2 in E4.
exists t; split=> //.
  rewrite E3 -map_comp -[in RHS](map_id fs); apply/eq_in_map => f Hf /=.
  by rewrite HFx ?divfK ?(funits_neq0 (hz_funits HU Hu)) //; apply: map_f.
rewrite E4; case: eqP => En; last first.
  congr Nd3; rewrite -[in RHS](map_id Ss); apply/eq_in_map => Sm HSm.
  by apply/matrixP => i j; rewrite mxE HSx.
congr Nd3; apply/eq_in_map => Sm HSm.
by apply/matrixP => i j; rewrite !mxE HSx.
Qed.

(** tsf2str chooses the digits of the frequencies from one frequency step only: when that
    step is the same in every rounding (an integer), no decimals are written, and a
    frequency that is not a whole number of units does not come back. *)
Theorem C33_tsf2str_frequency_refuted n cls ps (Zb : C) ztext (fs : seq C) (Ss : seq 'M[C]_n) U fm zs z u comments text files f :
  python_ok -> (0 < n)%N -> size ps = n ->
  U \in [:: "HZ"; "KHZ"; "MHZ"; "GHZ"] -> fm \in [:: "RI"; "MA"; "DB"] ->
  numeral zs -> float zs = Some z -> z != 0 -> hz C U = Some u ->
  ~~ has_bang cls -> LF \notin chars cls -> all (fun c => ~~ has_bang c && (LF \notin chars c)) comments ->
  (forall p, List.In p ps -> good_name p) -> size fs = size Ss ->
  let Fs := [seq f / u | f <- fs] in
  {in Fs, forall f, freq_ok (freq_fmt Fs) f} ->
  (forall Ms, ConvertGeneral (Nd0 z) (Nd3 Ss) (Nd0 Zb) "V" "V" = Ok (Nd3 Ms) ->
     forall Sm : 'M[C]_n, Sm \in Ms -> mx_ok fm (elfmts fm).1 (elfmts fm).2 Sm) ->
  tsf2str cls ps Zb ztext fs Ss (Some ("# " ++ U ++ " S " ++ fm ++ " R " ++ zs)%string) comments = Ok text ->
  (forall m, round (pick_df setlist Fs) m = pick_df setlist Fs) ->
  (forall w x, exists k : int, rdv (decimal w ++ ".0f")%string x = k%:~R) ->
  f \in fs -> (forall k : int, f / u <> k%:~R) ->
  exists t, ReadTSF files text (Some (ZNum z)) (Some "Hz") None = Ok t /\ t_fs t <> fs.
Proof.
move=> Hpy Hn Hps HU Hfm Hzs Hz Hz0 Hu Hclb Hcll Hcm Hgn Hsz Fs HFs HS HT Hrnd Hint Hf Hk.
have [t [Ms [E1 E2 E3 E4 E5]]] := @C33_tsf2str_read n cls ps Zb ztext fs Ss U fm zs z u comments text files
  Hpy Hn Hps HU Hfm Hzs Hz Hz0 Hu Hclb Hcll Hcm Hgn Hsz HFs HS HT.
exists t; split=> // E; move: Hf; rewrite -E E3 => /mapP [x _ Ef].
have Hd : freq_digits round setlist Fs = 0%N.
  rewrite /freq_digits.
  have H k : freq_m round (pick_df setlist Fs) (pick_df setlist Fs) k = 0%N.
    by elim: k => [|k IH]; cbn [freq_m]; rewrite Hrnd eqxx.
  by rewrite Hrnd H.
have [k Ek] := Hint (freq_width fmtf round setlist Fs) x.
apply: (Hk k); rewrite Ef mulfK ?(funits_neq0 (hz_funits HU Hu)) // -Ek.
by rewrite /TsfModel.freq_fmt Hd.
Qed.

(** ** C34 *)
(** Data lines are grouped into records: a line with an odd number of values starts a new
    one, whose first value is the frequency; the next values are the coefficients, row by
    row.  The option line has names in any order (of each kind the last one counts; the
    defaults are S, MA and GHZ) and, somewhere, R and numbers.  For a text whose first data
    line starts a record and whose records have coefficients, and without comments about
    port impedances: when ReadTSF succeeds then every record has the 2 N^2 numbers of an
    N-port, the frequencies are those of the records, in the unit asked for (GHz when none
    is), there are 1 or N reference impedances, and the matrices are those of the records,
    moved from these impedances to Zbase (50 when not given). *)
Theorem C34_records text vs r l0 a zws b zl TZ Tf Tp files t :
  let ls := split_on LF text in
  has_lf text -> realfloat float -> names_ok float ->
  mapM (fun l => floats float (words (before_bang l))) [seq l <- ls | is_data l] = Ok vs ->
  group vs = ([::], r) -> r != [::] -> all (fun x : C * seq C => (1 < size x.2)%N) r ->
  [seq l <- ls | is_option l] = [:: l0] -> words (upper (option_text l0)) = a ++ "R" :: zws ++ b ->
  all is_name a -> all is_name b -> floats float zws = Ok zl ->
  no_ports_data reG reZ ls ->
  last_in type_names "S" (a ++ b) = "S" ->
  ReadTSF files text TZ Tf Tp = Ok t ->
  exists N u v, [/\ all (fun x : C * seq C => size x.2 == 2 * (N * N))%N r,
    hz C (last_in freq_units "GHZ" (a ++ b)) = Some u /\ hz C (upper (odflt "GHz" Tf)) = Some v,
    t_fs t = [seq x.1 * (u / v) | x <- r], size zl = 1%N \/ size zl = N &
    ConvertGeneral (nd_z (z_or TZ (ZNum 50%:R)))
      (Nd3 [seq record_mx expideg pow10_20 (last_in format_names "MA" (a ++ b)) N x.2 | x <- r])
      (if zl is [:: z] then Nd0 z else Nd1 zl) "P" "V" = Ok (t_Ss t)].
Proof.
move=> ls Hlf Hr Hn Hvs Hg Hne Hsz Hopt Hw Ha Hb Hz Hnp Hty; rewrite read_text_src // => Ht.
have Ho := options_line TZ Hn Ha Hb Hz; rewrite -Hw in Ho.
have [N [s [H1 H2 H3 H4 _]]] := read_any Hr Hvs Hg Hne Hsz Hopt Ho Hnp Ht.
move: H2; rewrite /fscale; case Eu: (funits _ _) => [u|] //=; case Ev: (funits _ _) => [v|] //= E.
rewrite -(Ok_inj E) in H3; exists N, u, v; split=> //.
- by split; [apply: funits_hz Eu; exact: last_in_mem|apply/hz_upper].
- move: H4; rewrite /to_S /close_R; cbn [p_type p_Z p_Zlist size omap obind oapp opt bind]; rewrite Hty.
  case: (zl) => [|z [|z' zl']] /=; [|by left|].
    have HN : (N == 0)%N = false.
      by apply/eqP => EN; move: H1 Hsz Hne; rewrite EN; case: (r) => //= x r' /andP[/eqP -> _].
    by rewrite eq_sym HN.
  by case: eqP => // E2 _; right.
move: H4; rewrite /to_S /close_R; cbn [p_type p_Z p_Zlist size omap obind oapp opt bind p_fmt p_unit]; rewrite Hty.
case: (zl) => [|z [|z' zl']] /=; [|by []|by case: ifP].
have HN : (N == 0)%N = false.
  by apply/eqP => EN; move: H1 Hsz Hne; rewrite EN; case: (r) => //= x r' /andP[/eqP -> _].
by rewrite eq_sym HN.
Qed.

(** Z data: the matrices of the records are impedances; S is on Zbase, else on the R of the file. *)
Theorem C34_impedance_data text vs r l0 a zs z b TZ Tf Tp files t :
  let ls := split_on LF text in
  has_lf text -> realfloat float -> names_ok float ->
  mapM (fun l => floats float (words (before_bang l))) [seq l <- ls | is_data l] = Ok vs ->
  group vs = ([::], r) -> r != [::] -> all (fun x : C * seq C => (1 < size x.2)%N) r ->
  [seq l <- ls | is_option l] = [:: l0] -> words (upper (option_text l0)) = a ++ "R" :: zs :: b ->
  all is_name a -> all is_name b -> float zs = Some z ->
  no_ports_data reG reZ ls ->
  last_in type_names "S" (a ++ b) = "Z" ->
  ReadTSF files text (omap (@ZNum C) TZ) Tf Tp = Ok t ->
  exists N u v, [/\ all (fun x : C * seq C => size x.2 == 2 * (N * N))%N r,
    hz C (last_in freq_units "GHZ" (a ++ b)) = Some u /\ hz C (upper (odflt "GHz" Tf)) = Some v,
    t_fs t = [seq x.1 * (u / v) | x <- r] &
    S_from_Z (Nd3 [seq record_mx expideg pow10_20 (last_in format_names "MA" (a ++ b)) N x.2 | x <- r])
      (if TZ is Some w then if w == 0 then z else w else z) = Ok (t_Ss t)].
Proof.
move=> ls Hlf Hr Hn Hvs Hg Hne Hsz Hopt Hw Ha Hb Hz Hnp Hty; rewrite read_text_src // => Ht.
have Hzl : floats float [:: zs] = Ok [:: z] by rewrite /floats /= Hz.
have Ho := options_line (omap (@ZNum C) TZ) Hn Ha Hb Hzl; rewrite -Hw in Ho.
have [N [s [H1 H2 H3 H4 _]]] := read_any Hr Hvs Hg Hne Hsz Hopt Ho Hnp Ht.
move: H2; rewrite /fscale; case Eu: (funits _ _) => [u|] //=; case Ev: (funits _ _) => [v|] //= E.
rewrite -(Ok_inj E) in H3; exists N, u, v; split=> //.
  by split; [apply: funits_hz Eu; exact: last_in_mem|apply/hz_upper].
move: H4; rewrite /to_S /close_R; cbn [p_type p_Z p_Zlist size omap obind oapp opt bind p_fmt p_unit]; rewrite Hty /=.
by case: (TZ) => [w|] //=; rewrite /z_or /=; case: eqP.
Qed.

(** Y data are never accepted. *)
Theorem C34_admittance_refuted text vs r l0 a zws b zl TZ Tf Tp files t :
  let ls := split_on LF text in
  has_lf text -> realfloat float -> names_ok float ->
  mapM (fun l => floats float (words (before_bang l))) [seq l <- ls | is_data l] = Ok vs ->
  group vs = ([::], r) -> r != [::] -> all (fun x : C * seq C => (1 < size x.2)%N) r ->
  [seq l <- ls | is_option l] = [:: l0] -> words (upper (option_text l0)) = a ++ "R" :: zws ++ b ->
  all is_name a -> all is_name b -> floats float zws = Ok zl ->
  no_ports_data reG reZ ls ->
  last_in type_names "S" (a ++ b) = "Y" ->
  ReadTSF files text TZ Tf Tp <> Ok t.
Proof.
move=> ls Hlf Hr Hn Hvs Hg Hne Hsz Hopt Hw Ha Hb Hz Hnp Hty; rewrite read_text_src // => Ht.
have Ho := options_line TZ Hn Ha Hb Hz; rewrite -Hw in Ho.
have [N [s [H1 _ _ H4 _]]] := read_any Hr Hvs Hg Hne Hsz Hopt Ho Hnp Ht.
by move: H4; rewrite /to_S /close_R; cbn [p_type p_Z p_Zlist size omap obind oapp opt bind]; rewrite Hty.
Qed.

(** Port names.  A list given with ports= is taken when it has as many names as there are
    ports; when it has not, what the file says is taken, without a check of its length (None
    when it says nothing).  A pattern gives a numbered name for each port.  Without ports= the
    names of the file are taken when there is one for each port, else port-001, port-002, ... *)
Theorem C34_port_names text vs r l0 o TZ Tf Tp files t :
  let ls := split_on LF text in
  has_lf text -> realfloat float ->
  mapM (fun l => floats float (words (before_bang l))) [seq l <- ls | is_data l] = Ok vs ->
  group vs = ([::], r) -> r != [::] -> all (fun x : C * seq C => (1 < size x.2)%N) r ->
  [seq l <- ls | is_option l] = [:: l0] -> options float TZ (opts0 C) (words (upper (option_text l0))) = Ok o ->
  no_ports_data reG reZ ls ->
  ReadTSF files text TZ Tf Tp = Ok t ->
  exists N, all (fun x : C * seq C => size x.2 == 2 * (N * N))%N r /\
    match Tp with
    | Some (PList l) => t_ports t = if size l == N then Some l else ports_of ls
    | Some (PText p) => exists2 l, t_ports t = Some l & mapM (fmt_port p) (iota 1 N) = Ok l
    | None =>
      if ports_of ls is Some l then
        if size l == N then t_ports t = Some l
        else exists2 l', t_ports t = Some l' & mapM (fmt_port "port-%03d") (iota 1 N) = Ok l'
      else exists2 l', t_ports t = Some l' & mapM (fmt_port "port-%03d") (iota 1 N) = Ok l'
    end.
Proof.
move=> ls Hlf Hr Hvs Hg Hne Hsz Hopt Ho Hnp; rewrite read_text_src // => Ht.
have [N [s [H1 _ _ _ H4]]] := read_any Hr Hvs Hg Hne Hsz Hopt Ho Hnp Ht.
have HN : N != 0%N.
  by apply/eqP => EN; move: H1 Hsz Hne; rewrite EN; case: (r) => //= x r' /andP[/eqP -> _].
exists N; split=> //; move: H4; rewrite /choose_ports.
case: Tp {Ht} => [[p|l]|].
- by case: (mapM _ _) => [l|] //= E; exists l; rewrite -?(Ok_inj E).
- by case: ifP => _ E; rewrite -(Ok_inj E).
case: (ports_of ls) => [l|]; last by case: (mapM _ _) => [l|] //= E; exists l; rewrite -?(Ok_inj E).
case: (size l =P N) => [El|_]; last first.
  by rewrite andbF; case: (mapM _ _) => [l'|] //= E; exists l'; rewrite -?(Ok_inj E).
have -> : l != [::] by rewrite -size_eq0 El.
by cbn [andb] => E; rewrite -(Ok_inj E).
Qed.

(** Blank lines and plain comments have no influence: two texts with data that have the
    same other lines give the same result. *)
Theorem C34_comments text1 text2 TZ Tf Tp files :
  has_lf text1 -> has_lf text2 ->
  no_ports_data reG reZ (split_on LF text1) -> no_ports_data reG reZ (split_on LF text2) ->
  has is_data (split_on LF text1) ->
  [seq l <- split_on LF text1 | ~~ (is_blank l || plain_comment l)] =
  [seq l <- split_on LF text2 | ~~ (is_blank l || plain_comment l)] ->
  ReadTSF files text1 TZ Tf Tp = ReadTSF files text2 TZ Tf Tp.
Proof.
move=> H1 H2 Hn1 Hn2 Hd E; rewrite !read_text_src //.
rewrite -(@read_negligible C float pyint reG reZ expideg pow10_20 fmt_port (split_on LF text1)) //.
rewrite -(@read_negligible C float pyint reG reZ expideg pow10_20 fmt_port (split_on LF text2)) //.
  by rewrite /negligible E.
by rewrite -has_negl /negligible -E has_negl.
Qed.

(** What follows a '!' in a line of data has no influence. *)
Theorem C34_trailing_comment a l c b TZ Tf Tp : is_data l -> ~~ has_bang l ->
  read_tsf TZ Tf Tp (a ++ (l ++ String bang c)%string :: b) = read_tsf TZ Tf Tp (a ++ l :: b).
Proof.
move=> Hl Hb; apply: read_tsf_lines; rewrite !read_lines_cat; case: (read_lines _ _ _) => //= st.
congr bind.
have H1 : first_char (l ++ String bang c) = first_char l.
  have H s t : first_char (s ++ t) = if first_char s is Some a then Some a else first_char t.
    rewrite /first_char /strip; elim: s => [|x s IH]; first by [].
    have -> : lstrip (String x s ++ t) = if isspace x then lstrip (s ++ t) else String x (s ++ t) by [].
    have -> : lstrip (String x s) = if isspace x then lstrip s else String x s by [].
    case E: (isspace x) => //.
    have [u ->] := @rstrip_cons x (s ++ t) (negbT E).
    by have [v ->] := @rstrip_cons x s (negbT E).
  rewrite H; move: Hl; rewrite /is_data /is_blank; case: (first_char l) => //.
  by rewrite eqxx !orbT.
have Hl' : is_data (l ++ String bang c) by move: Hl; rewrite /is_data /is_comment /is_option /is_blank H1.
by rewrite !line_data // /vals bb_app // /= app0 (bb_none Hb).
Qed.

(** A second option line is rejected. *)
Theorem C34_second_option_line text l1 l2 a b c TZ Tf Tp files :
  has_lf text -> split_on LF text = a ++ l1 :: b ++ l2 :: c -> is_option l1 -> is_option l2 ->
  ReadTSF files text TZ Tf Tp = Raise ValueError.
Proof. by move=> H E H1 H2; rewrite read_text_src //; apply: (@read_two_options C float pyint reG reZ expideg pow10_20 fmt_port _ l1 l2 a b c). Qed.

(** Without R in the option line (and without port impedances in comments) no text is
    accepted: there is no default reference impedance. *)
Theorem C34_default_impedance_refuted text l0 TZ Tf Tp files t :
  has_lf text -> has is_data (split_on LF text) ->
  [seq l <- split_on LF text | is_option l] = [:: l0] -> "R" \notin words (upper (option_text l0)) ->
  no_ports_data reG reZ (split_on LF text) ->
  ReadTSF files text TZ Tf Tp <> Ok t.
Proof. by move=> H Hd Ho Hw Hn; rewrite read_text_src //; apply: read_noR Hd Ho Hw Hn. Qed.
End PropsTsf.

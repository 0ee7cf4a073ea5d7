(** tsf2str followed by ReadTSF. *)
From mathcomp Require Import all_ssreflect all_algebra.
From Coq Require Import String Ascii.
From Verif Require Import Base ConvModel ConvSpec ConvProofs ConvArr ConvExamples UtilModel UtilThm TsfModel TsfText TsfThm TsfWrite TsfRound TsfMain TsfFull TsfTrip.
Set Implicit Arguments.
Unset Strict Implicit.
Unset Printing Implicit Defensive.
Import Order.TTheory GRing.Theory Num.Theory.
Local Open Scope string_scope.
Local Open Scope ring_scope.
Local Open Scope seq_scope.

Section T2s.
Variable C : numClosedFieldType.
Variable float : string -> option C.
Variable pyint : string -> option int.
Variables reG reZ : string -> option string.
Variables expideg pow10_20 : C -> C.
Variable fmt_port : string -> nat -> res string.
Variable fmtf : string -> C -> string.
Variables (db : C -> C) (angdeg : C -> C) (date : string).
Variable rdv : string -> C -> C.
Variable round : C -> nat -> C.
Variable setlist : seq C -> seq C.
Notation can_write := (can_write float fmtf db angdeg rdv).
Notation pvals := (pvals db angdeg rdv).
Notation reread := (reread expideg pow10_20 db angdeg rdv).
Notation read_tsf := (read_tsf float pyint reG reZ expideg pow10_20 fmt_port).
Notation tsf2str := (tsf2str float fmtf db angdeg date round setlist).
Notation tfreqs := (tfreqs fmtf db angdeg round setlist).
Notation freq_fmt := (freq_fmt fmtf round setlist).

Lemma read_hash st s rest : LF \notin chars s -> r_fmt st = None ->
  read_lines float st (split_on LF (String "#" s ++ nl ++ rest)) =
  read_lines float (Rd (r_comments st) (r_fs st) (r_coefs st) (r_Ss st) (r_marker st) (Some (rstrip (String "#" s))))
             (split_on LF rest).
Proof.
move=> H E; rewrite read_nl; last by rewrite in_cons negb_or H.
rewrite /read_line strip_nosp //.
by have [t ->] := @rstrip_cons "#"%char s isT; rewrite E.
Qed.
Lemma hash_words s : words (upper (if rstrip (String "#" s) is String _ f then f else "")) = map upper (words s).
Proof.
rewrite words_upper; congr (map upper _).
have -> : (if rstrip (String "#" s) is String _ f then f else "") = rstrip s.
  by cbn [rstrip]; case: (rstrip s).
exact: words_rstrip.
Qed.

(** the transposition of two-ports in the file *)
Definition in_file n (Sm : 'M[C]_n) : 'M[C]_n := if n == 2%N then Sm^T else Sm.

Lemma read_tfreqs n fm Fs fs (Ss : seq 'M[C]_n) st : float_hash float -> size fs = size Ss ->
  {in fs, forall f, numtext float (fmtf (freq_fmt Fs) f) (rdv (freq_fmt Fs) f)} ->
  (forall Sm, Sm \in Ss -> forall i j, can_write fm (elfmts fm).1 (elfmts fm).2 (Sm i j)) ->
  read_lines float st (split_on LF (tfreqs fm Fs fs Ss)) =
  Ok (recs st (zip [seq rdv (freq_fmt Fs) f | f <- fs]
                   [seq pvals fm (elfmts fm).1 (elfmts fm).2 (mxflat (in_file Sm)) | Sm <- Ss])).
Proof.
move=> Hh; elim: fs Ss st => [|f fs IH] [|Sm Ss] st //= [Hsz] Hf HS.
have Hin : f \in f :: fs by rewrite mem_head.
have Hrec : datatext float (trows fmtf db angdeg n fm (blanks (freq_len fmtf round setlist Fs)) 0 (mx_rows (in_file Sm)))
    (pvals fm (elfmts fm).1 (elfmts fm).2 (mxflat (in_file Sm))).
  apply: dt_trows => x /flattenP [r /mapP [i _ ->] /mapP [j _ ->]].
  rewrite /in_file; case: (n == 2%N); rewrite ?mxE; apply: HS; exact: mem_head.
rewrite (read_record _ _ Hh (Hf _ Hin) Hrec) IH //.
- by move=> x Hx; apply: Hf; rewrite inE Hx orbT.
- by move=> S' Hx; apply: HS; rewrite inE Hx orbT.
Qed.

Lemma tf_loop U fm zs z : U \in unit_names -> fm \in fmt_names -> numeral zs -> float zs = Some z ->
  forall u, funits C U = Ok u ->
  tfmt_loop float (Ofmt "S" None 50%:R 1) "" [:: U; "S"; fm; "R"; zs] = Ok (Ofmt "S" (Some fm) z u).
Proof.
move=> HU Hfm Hz Hf u Hu.
cbn [tfmt_loop].
have H1 : (U == "R") = false by move: HU; rewrite /unit_names !inE => /or4P [] /eqP ->.
have H2 : (fm == "R") = false by move: Hfm; rewrite /fmt_names !inE => /or3P [] /eqP ->.
have H3 : fm \in [:: "HZ"; "KHZ"; "MHZ"; "GHZ"] = false.
  by move: Hfm; rewrite /fmt_names !inE => /or3P [] /eqP ->.
have -> : ("" == "R") = false by [].
rewrite H1 H2 H3 (_ : U \in [:: "HZ"; "KHZ"; "MHZ"; "GHZ"]) // Hu /=.
by rewrite (_ : fm \in [:: "RI"; "MA"; "DB"]) //= Hf.
Qed.

Lemma LF_mid a b s : LF \notin chars a -> LF \notin chars b -> LF \notin chars s -> LF \notin chars (a ++ s ++ b).
Proof. by move=> Ha Hb Hs; rewrite !LF_app !negb_or Ha Hb Hs. Qed.
Lemma bang_mid a b s : ~~ has_bang a -> ~~ has_bang b -> ~~ has_bang s -> ~~ has_bang (a ++ s ++ b).
Proof. by move=> Ha Hb Hs; rewrite !has_bang_app !negb_or Ha Hb Hs. Qed.
Lemma LF_pre a s : LF \notin chars a -> LF \notin chars s -> LF \notin chars (a ++ s).
Proof. by move=> Ha Hs; rewrite LF_app negb_or Ha Hs. Qed.
Lemma bang_pre a s : ~~ has_bang a -> ~~ has_bang s -> ~~ has_bang (a ++ s).
Proof. by move=> Ha Hs; rewrite has_bang_app negb_or Ha Hs. Qed.

Lemma t2s_read n cls ports Zb ztext (fs : seq C) (Ss : seq 'M[C]_n) U fm zs z u comments text TZ Tf Tp :
  (0 < n)%N -> (forall f y, rdv f y \is Num.real) ->
  U \in unit_names -> fm \in fmt_names -> numeral zs -> float zs = Some z -> funits C U = Ok u ->
  float_hash float -> ~~ has_bang date -> LF \notin chars date -> ~~ has_bang cls -> LF \notin chars cls ->
  all (fun c => ~~ has_bang c && (LF \notin chars c)) comments ->
  ports != [::] -> (forall p, List.In p ports -> good_name p) -> size fs = size Ss ->
  let Fs := [seq f / u | f <- fs] in
  {in Fs, forall f, numtext float (fmtf (freq_fmt Fs) f) (rdv (freq_fmt Fs) f)} ->
  (forall Ms, ConvertGeneral (Nd0 z) (Nd3 Ss) (Nd0 Zb) "V" "V" = Ok (Nd3 Ms) ->
     forall Sm : 'M[C]_n, Sm \in Ms -> forall i j, can_write fm (elfmts fm).1 (elfmts fm).2 (Sm i j)) ->
  tsf2str cls ports Zb ztext fs Ss (Some ("# " ++ tformat U fm zs)%string) comments = Ok text ->
  exists Ms : seq 'M[C]_n, [/\ ConvertGeneral (Nd0 z) (Nd3 Ss) (Nd0 Zb) "V" "V" = Ok (Nd3 Ms), size Ms = size Ss, Ss != [::] &
   read_tsf TZ Tf Tp (split_on LF text) =
    do s <- fscale C U (odflt "GHz" Tf);
    do S <- ConvertGeneral (nd_z (z_or TZ (ZNum 50%:R)))
              (Nd3 [seq map_mx (reread fm (elfmts fm).1 (elfmts fm).2) (in_file Sm) | Sm <- Ms]) (Nd0 z) "P" "V";
    do ps <- choose_ports fmt_port Tp (Some ports) n;
    Ok (Tsf ps [seq f * s | f <- [seq rdv (freq_fmt Fs) f | f <- Fs]] U S None None [::] [::] fm)].
Proof.
move=> Hn Hrd HU Hfm Hz Hf Hu Hh Hdb Hdl Hcb Hcl Hcm Hpne Hp Hsz Fs HFs HS.
rewrite /TsfModel.tsf2str; cbn [odflt oapp].
have Hw : words (upper ("# " ++ tformat U fm zs)) = [:: "#"; U; "S"; fm; "R"; zs].
  have -> : upper ("# " ++ tformat U fm zs) = ("#" ++ String " " (tformat U fm zs))%string.
    by rewrite upper_app (tf_upper HU Hfm Hz).
  by rewrite words_app // (tf_words HU Hfm Hz).
rewrite Hw eqxx; cbn [bind]; rewrite (tf_loop HU Hfm Hz Hf Hu); cbn [bind q_type q_Zref q_scale q_elm].
rewrite eqxx -/Fs.
have HG : Ss != [::] -> forall M, ConvertGeneral (Nd0 z) (Nd3 Ss) (Nd0 Zb) "V" "V" = Ok M ->
   exists Ms : seq 'M[C]_n, M = Nd3 Ms /\ size Ms = size Ss.
  move=> Hne M; rewrite /ConvertGeneral /= sqs_id /=.
  case E: (mapM _ _) => [Ms|] //=.
  have Hms : size Ms = size Ss by have [E0 _] := (mapM_Ok _ _ _).1 E; move: E0; rewrite size_iota => ->.
  case: Ms E Hms => [|M1 Ms] E Hms; last by case=> <-; exists (M1 :: Ms).
  by move: Hne; rewrite -size_eq0 -Hms.
case EC: (ConvertGeneral _ _ _ _ _) => [M|] //; cbn [bind].
case Efs: fs => [|g gs] //; cbn [bind].
have HneS : Ss != [::] by rewrite -size_eq0 -Hsz Efs.
have [Ms [EM HMs]] := HG HneS _ EC; rewrite EM in EC *.
rewrite sqs_id; cbn [bind] => Et; have {Et} <- := Ok_inj Et.
exists Ms; split=> //.
pose c1 := rstrip (String bang (" TouchStone file (" ++ cls ++ " version 2023-11-07 16:56:18)")).
pose c2 := rstrip (String bang (" Date : " ++ date)).
pose cm := map cmt comments ++ [:: c1; c2].
have HszF : size Fs = size Ms by rewrite size_map Hsz HMs.
have ERd := @read_tfreqs n fm Fs Fs Ms (Rd (cm ++ portline (Some ports)) [::] [::] [::] 0 (Some (rstrip (String "#" (String " " (tformat U fm zs))))))
   Hh HszF HFs (HS Ms EC).
set T := (_ ++ _)%string.
have EL : read_lines float (rd0 C) (split_on LF T) =
  read_lines float (Rd (cm ++ portline (Some ports)) [::] [::] [::] 0 (Some (rstrip (String "#" (String " " (tformat U fm zs))))))
    (split_on LF (tfreqs fm Fs Fs Ms)).
  have -> : T = (wcomments comments ++ (nl ++ (String bang (" TouchStone file (" ++ cls ++ " version 2023-11-07 16:56:18)") ++ nl ++
     (String bang (" Date : " ++ date) ++ nl ++ (nl ++ (String "#" (String " " (tformat U fm zs)) ++ nl ++
      ((if Some ports is Some ps then if ps is [::] then "" else "!PORTS " ++ String.concat ", " ps ++ nl ++ nl else "") ++ tfreqs fm Fs Fs Ms)))))))%string.
    by rewrite /T; case: (ports) Hpne => // p ps _; rewrite /= -!appA.
  rewrite read_wcomments; last by apply/allP => c /(allP Hcm) /andP [].
  rewrite read_blank; apply: etrans; first by apply: read_cmt; apply: LF_mid Hcl; vm_compute.
  apply: etrans; first by apply: read_cmt; apply: LF_pre Hdl; vm_compute.
  rewrite read_blank; apply: etrans.
    apply: read_hash => //; by rewrite in_cons negb_or (tf_LF HU Hfm Hz).
  apply: etrans; first by apply: (@read_portline C float _ (Some ports)) => ps [<-].
  by rewrite /addcs /= /cm -!catA.
rewrite -EL in ERd.
rewrite (@read_tsf_state C float pyint reG reZ expideg pow10_20 fmt_port db angdeg rdv n fm U z (elfmts fm).1 (elfmts fm).2 _
   [seq rdv (freq_fmt Fs) f | f <- Fs] [seq in_file Sm | Sm <- Ms] (cm ++ portline (Some ports)) cm (Some ports)
   (rstrip (String "#" (String " " (tformat U fm zs)))) TZ Tf Tp _ Hn Hfm Hrd ERd).
- by rewrite -map_comp /found_ports; case: (ports) Hpne.
- by rewrite -size_eq0 size_map HMs size_eq0.
- by rewrite !size_map Hsz HMs.
- by rewrite -map_comp.
- rewrite hash_words; exact: (tf_options HU Hfm Hz Hf).
- by [].
- move=> c; rewrite /cm List.in_app_iff; case.
    apply: quiet_cmts; by apply/allP => l /(allP Hcm) /andP [].
  case=> [<-|[<-|//]].
  + apply: (@quiet_bang ("TouchStone file (" ++ cls ++ " version 2023-11-07 16:56:18)")).
    by apply: bang_mid Hcb; vm_compute.
  + apply: (@quiet_bang ("Date : " ++ date)).
    by apply: bang_pre Hdb; vm_compute.
- by move=> ps [<-].
Qed.
End T2s.

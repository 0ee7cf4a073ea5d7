(** WriteTSF / tsf2str followed by ReadTSF. *)
From mathcomp Require Import all_ssreflect all_algebra.
From Coq Require Import String Ascii.
From Verif Require Import Base ConvModel ConvSpec ConvProofs ConvArr ConvExamples UtilModel UtilThm TsfModel TsfText TsfThm TsfWrite TsfRound.
Set Implicit Arguments.
Unset Strict Implicit.
Unset Printing Implicit Defensive.
Import Order.TTheory GRing.Theory Num.Theory.
Local Open Scope string_scope.
Local Open Scope ring_scope.
Local Open Scope seq_scope.

Section Main.
Variable C : numClosedFieldType.
Variable float : string -> option C.
Variable pyint : string -> option int.
Variables reG reZ : string -> option string.
Variables expideg pow10_20 : C -> C.
Variable fmt_port : string -> nat -> res string.
Variable fmtf : string -> C -> string.
Variables (db : C -> C) (angdeg : C -> C) (date : string).
Variable rdv : string -> C -> C.
Notation read_line := (read_line float).
Notation read_lines := (read_lines float).
Notation can_write := (can_write float fmtf db angdeg rdv).
Notation pvals := (pvals db angdeg rdv).

Definition addcs (st : rd C) (cs : seq string) :=
  Rd (r_comments st ++ cs) (r_fs st) (r_coefs st) (r_Ss st) (r_marker st) (r_fmt st).
Lemma addcs0 st : addcs st [::] = st. Proof. by rewrite /addcs cats0; case: st. Qed.
Lemma addcs_cat st a b : addcs (addcs st a) b = addcs st (a ++ b).
Proof. by rewrite /addcs /= catA. Qed.
Lemma read_bang st s : read_line st (String bang s) = Ok (addcs st [:: rstrip (String bang s)]).
Proof.
rewrite /TsfModel.read_line strip_nosp // /addcs.
have [t ->] := @rstrip_cons bang s isT.
by rewrite eqbE eqxx cats1.
Qed.
Lemma read_nl st a rest : LF \notin chars a ->
  read_lines st (split_on LF (a ++ nl ++ rest)) = do st' <- read_line st a; read_lines st' (split_on LF rest).
Proof. by move=> H; rewrite /nl [(String _ "" ++ _)%string]/= split_nl split_none. Qed.
Lemma read_blank st rest : read_lines st (split_on LF (nl ++ rest)) = read_lines st (split_on LF rest).
Proof. by rewrite -[(nl ++ rest)%string]/(""%string ++ nl ++ rest)%string read_nl. Qed.
Lemma read_cmt st s rest : LF \notin chars s ->
  read_lines st (split_on LF (String bang s ++ nl ++ rest)) =
  read_lines (addcs st [:: rstrip (String bang s)]) (split_on LF rest).
Proof. by move=> H; rewrite read_nl ?read_bang // /= in_cons negb_or H. Qed.
Definition cmt (l : string) := rstrip ("! " ++ l).
Lemma read_wcomments st ls rest : all (fun l => LF \notin chars l) ls ->
  read_lines st (split_on LF (wcomments ls ++ rest)) = read_lines (addcs st (map cmt ls)) (split_on LF rest).
Proof.
elim: ls st => [|l ls IH] st; first by rewrite addcs0.
case/andP => Hl Hls.
have -> : (wcomments (l :: ls) ++ rest)%string =
   (String bang (" " ++ l) ++ nl ++ (wcomments ls ++ rest))%string.
  by cbn [wcomments]; rewrite /= -!appA.
apply: etrans; first exact: read_cmt.
by rewrite IH // addcs_cat.
Qed.

Lemma read_wfreqs n (getS : C -> res 'M[C]_n) fmt f0 f1 f2 w u fs st s : float_hash float ->
  {in fs, forall f, numtext float (fmtf f0 (f / u)) (rdv f0 (f / u))} ->
  (forall f Sm, f \in fs -> getS f = Ok Sm -> forall i j, can_write fmt f1 f2 (Sm i j)) ->
  wfreqs fmtf db angdeg getS fmt f0 f1 f2 (blanks w) u fs = Ok s ->
  exists Ss, mapM getS fs = Ok Ss /\
    read_lines st (split_on LF s) =
    Ok (recs st (zip [seq rdv f0 (f / u) | f <- fs] [seq pvals fmt f1 f2 (mxflat Sm) | Sm <- Ss])).
Proof.
move=> Hh; elim: fs st s => [|f fs IH] st s Hf HS /=.
  by case=> <-; exists [::].
case Eg: (getS f) => [Sm|] //=; case Ew: (wfreqs _ _ _ _ _ _ _ _ _ _ _) => [s'|] //= [<-].
have Hin : f \in f :: fs by rewrite mem_head.
have Hrec : datatext float (wrows fmtf db angdeg n fmt f1 f2 (blanks w) 0 (mx_rows Sm)) (pvals fmt f1 f2 (mxflat Sm)).
  apply: dt_wrows => x /flattenP [r /mapP [i _ ->] /mapP [j _ ->]].
  exact: (HS f).
have [||Ss [ESs ERd]] := IH (rec_state st (rdv f0 (f / u)) (pvals fmt f1 f2 (mxflat Sm))) s' _ _ Ew.
- by move=> x Hx; apply: Hf; rewrite inE Hx orbT.
- by move=> x S' Hx; apply: HS; rewrite inE Hx orbT.
exists (Sm :: Ss); split; first by rewrite ESs.
by rewrite (read_record _ _ Hh (Hf _ Hin) Hrec) ERd.
Qed.

Lemma read_opt st a rest : LF \notin chars a -> r_fmt st = None ->
  read_lines st (split_on LF (("# " ++ a ++ " ") ++ nl ++ rest)) =
  read_lines (Rd (r_comments st) (r_fs st) (r_coefs st) (r_Ss st) (r_marker st) (Some (strip ("# " ++ a ++ " "))))
             (split_on LF rest).
Proof.
move=> H E; rewrite read_nl; last by rewrite !LF_app !negb_or H.
rewrite /TsfModel.read_line.
have -> : ("# " ++ a ++ " ")%string = String "#" (" " ++ a ++ " ")%string by [].
rewrite strip_nosp //.
by have [t ->] := @rstrip_cons "#"%char (" " ++ a ++ " ") isT; rewrite E.
Qed.
Lemma opt_words a : words (upper (if strip ("# " ++ a ++ " ") is String _ f then f else "")) = map upper (words a).
Proof.
have -> : ("# " ++ a ++ " ")%string = String "#" (" " ++ a ++ " ")%string by [].
rewrite strip_nosp // words_upper; congr (map upper _).
have H : forall s, (if rstrip (String "#" s) is String _ f then f else "") = rstrip s.
  by move=> s /=; case: (rstrip s).
by rewrite H words_rstrip words_sp // words_rblank.
Qed.

(** the value read for a coefficient *)
Definition reread (fm f1 f2 : string) (x : C) : C :=
  if fm == "MA" then rdv f1 `|x| * expideg (rdv f2 (angdeg x))
  else if fm == "DB" then pow10_20 (rdv f1 (db `|x|)) * expideg (rdv f2 (angdeg x))
  else rdv f1 ('Re x) + 'i * rdv f2 ('Im x).
Lemma from_raw fm f1 f2 (x : C) : fm \in [:: "RI"; "MA"; "DB"] -> (forall f y, rdv f y \is Num.real) ->
  from_fmt expideg pow10_20 fm (raw db angdeg rdv fm f1 f2 x) = reread fm f1 f2 x.
Proof.
move=> Hfm Hr; rewrite /from_fmt /reread /raw /wpair.
rewrite Re_rect // Im_rect //.
by move: Hfm; rewrite !inE => /or3P [] /eqP ->.
Qed.

Definition portline (ports : option (seq string)) :=
  if ports is Some ps then if ps is [::] then [::] else [:: rstrip ("!PORTS " ++ String.concat ", " ps)] else [::].
Definition found_ports (ports : option (seq string)) := if ports is Some [::] then None else ports.

(** the whole of read_tsf on a text with a known header *)
Lemma read_tsf_state n fm U z f1 f2 st l (Ss : seq 'M[C]_n) cs (cmts : seq string) ports tfm TZ Tfunit Tports ls :
  (0 < n)%N -> fm \in [:: "RI"; "MA"; "DB"] -> (forall f y, rdv f y \is Num.real) ->
  read_lines (rd0 C) ls = Ok st -> Ss != [::] -> size l = size Ss ->
  st = recs (Rd cs [::] [::] [::] 0 (Some tfm)) (zip l [seq pvals fm f1 f2 (mxflat Sm) | Sm <- Ss]) ->
  options float TZ (opts0 C) (words (upper (if tfm is String _ f' then f' else ""))) =
    Ok (Opts "S" fm U (Some (ZNum z)) (Some [:: z])) ->
  cs = cmts ++ portline ports -> (forall c, List.In c cmts -> quiet c) ->
  (forall ps, ports = Some ps -> forall p, List.In p ps -> good_name p) ->
  read_tsf float pyint reG reZ expideg pow10_20 fmt_port TZ Tfunit Tports ls =
  do u <- fscale C U (odflt "GHz" Tfunit);
  do S <- ConvertGeneral (nd_z (z_or TZ (ZNum 50%:R))) (Nd3 [seq map_mx (reread fm f1 f2) Sm | Sm <- Ss]) (Nd0 z) "P" "V";
  do ps <- choose_ports fmt_port Tports (found_ports ports) n;
  Ok (Tsf ps [seq f * u | f <- l] U S None None [::] [::] fm).
Proof.
move=> Hn Hfm Hrd Hst HSs Hl Est Ho Ecs Hq Hp.
rewrite /read_tsf Hst; cbn [bind].
have Hz : zip l [seq pvals fm f1 f2 (mxflat Sm) | Sm <- Ss] != [::].
  by rewrite -size_eq0 size_zip size_map Hl minnn size_eq0.
have Hall : all (fun x : C * seq C => pairs x.2 != [::]) (zip l [seq pvals fm f1 f2 (mxflat Sm) | Sm <- Ss]).
  apply/allP => -[f v] /= /(map_f snd); rewrite -/unzip2 unzip2_zip ?size_map ?Hl //.
  case/mapP => Sm _ /= ->; rewrite pairs_pvals -size_eq0 size_map size_mxflat.
  by rewrite -lt0n muln_gt0 Hn.
have := @recs0 C cs (Some tfm) _ Hz Hall; cbn zeta; rewrite -Est => -[E1 E2 E3 E4 E5].
rewrite -/unzip1 unzip1_zip ?size_map ?Hl // in E1.
rewrite E1 E2 Hl.
have -> : [seq pairs x.2 | x <- zip l [seq pvals fm f1 f2 (mxflat Sm) | Sm <- Ss]] =
          [seq pairs (pvals fm f1 f2 (mxflat Sm)) | Sm <- Ss].
  rewrite (map_comp (@pairs C) snd) -/unzip2 unzip2_zip ?size_map ?Hl //.
  by rewrite -map_comp.
rewrite reshape_mx //; cbn [bind]; rewrite E5; cbn [bind]; rewrite Ho; cbn [bind].
rewrite E3 E4.
have -> : take (size cs).+1 (rcons cs MARKER) = rcons cs MARKER by rewrite take_oversize // size_rcons.
have -> : drop (size cs).+1 (rcons cs MARKER) = [::] by rewrite drop_oversize // size_rcons.
have Hc : comment_lines float pyint (spec0 C) (rcons cs MARKER) = Ok (Spec (found_ports ports) None None).
  rewrite -cats1 Ecs !comment_lines_cat quiet_lines //; cbn [bind].
  case: ports Hp {Ecs} => [[|p ps]|] Hp //.
  rewrite /portline; set r := rstrip _; cbn [comment_lines].
  by rewrite /r ports_line //; apply: Hp.
rewrite Hc; cbn [bind].
have -> : (if rcons cs MARKER is [::] then Raise IndexError else Ok tt) = Ok tt by case: (cs).
cbn [gz_lines bind]; rewrite /zc_rows /=.
case: (fscale _ _ _) => //= u.
have -> : [seq map_mx (from_fmt expideg pow10_20 fm) S | S <- [seq map_mx (raw db angdeg rdv fm f1 f2) Sm | Sm <- Ss]] =
          [seq map_mx (reread fm f1 f2) Sm | Sm <- Ss].
  rewrite -map_comp; apply: eq_map => Sm; apply/matrixP => i j; rewrite !mxE; exact: from_raw.
by rewrite /to_S /=.
Qed.
End Main.

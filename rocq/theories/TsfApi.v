(** ReadTSF as a whole: records, comments, option line. *)
From mathcomp Require Import all_ssreflect all_algebra.
From Coq Require Import String Ascii.
From Verif Require Import Base ConvModel ConvSpec ConvProofs ConvArr ConvExamples UtilModel UtilThm TsfModel TsfText TsfThm TsfWrite TsfRound TsfMain TsfFull TsfTrip TsfSpec TsfParse.
Set Implicit Arguments.
Unset Strict Implicit.
Unset Printing Implicit Defensive.
Import Order.TTheory GRing.Theory Num.Theory.
Local Open Scope string_scope.
Local Open Scope ring_scope.
Local Open Scope seq_scope.

Section Api.
Variable C : numClosedFieldType.
Variable float : string -> option C.
Variable pyint : string -> option int.
Variables reG reZ : string -> option string.
Variables expideg pow10_20 : C -> C.
Variable fmt_port : string -> nat -> res string.
Notation read_tsf := (read_tsf float pyint reG reZ expideg pow10_20 fmt_port).
Notation read_lines := (read_lines float).
Notation vals := (vals float).

(** no comment is about gammas or port impedances *)
Definition no_ports_data (ls : seq string) : bool :=
  all (fun l => is_comment l ==> ~~ isSome (reG (after_bang (strip l))) && ~~ isSome (reZ (after_bang (strip l)))) ls.
Lemma gz_none cs : all (fun c => ~~ isSome (reG (after_bang c)) && ~~ isSome (reZ (after_bang c))) cs ->
  gz_lines float reG reZ (gz0 C) cs = Ok (gz0 C).
Proof.
elim: cs => //= c cs IH /andP [/andP [HG HZ] Hcs]; rewrite /gz_line /=.
by case: (reG _) HG => // _; case: (reZ _) HZ => //= _; apply: IH.
Qed.
Lemma gz_post ls : no_ports_data ls -> gz_lines float reG reZ (gz0 C) (post_c ls) = Ok (gz0 C).
Proof.
move=> H; apply: gz_none; apply/allP => c /post_sub [l Hl [Hc ->]].
by have /implyP := allP H _ Hl; apply.
Qed.

Lemma nports_id L : L = (nports_of L * nports_of L)%N -> exists N, L = (N * N)%N /\ nports_of L = N.
Proof. by move=> E; exists (nports_of L). Qed.

Lemma reshape_ok nf D (N : nat) (Ss : seq 'M[C]_N) : nf = size D -> D != [::] ->
  reshape nf D = Ok (existT (fun N => seq 'M[C]_N) N Ss) ->
  [/\ all (fun d => size d == (N * N)%N) D, size Ss = nf &
   forall k, (k < nf)%N -> nth 0 Ss k = \matrix_(i, j) (nth [::] D k)`_(i * N + j)].
Proof.
move=> Enf Hne; rewrite /reshape; case: ifP => // /andP [Hall Hsz] [EN Hs].
move: Hsz; rewrite -Enf eqn_mul2l.
have -> : nf == 0%N = false by rewrite Enf size_eq0 (negbTE Hne).
move=> /= /eqP HL; subst N.
have {}Hs := Eqdep_dec.inj_pair2_eq_dec _ PeanoNat.Nat.eq_dec _ _ _ _ Hs.
move: Ss Hs HL; set N := nports_of _ => Ss Hs HL.
have Hall' : all (fun d => size d == (N * N)%N) D by rewrite -HL.
split=> //; first by rewrite -Hs size_map size_iota.
move=> k Hk; rewrite -Hs (nth_map 0%N) ?size_iota // nth_iota // add0n.
apply/matrixP => i j; rewrite !mxE nth_flatten_unif //.
apply: (@leq_trans (i * N + N)); first by rewrite ltn_add2l.
by rewrite -mulSnr leq_mul2r ltn_ord orbT.
Qed.

Lemma opts_line U fm zs z TZ : U \in unit_names -> fm \in fmt_names -> float zs = Some z ->
  options float TZ (opts0 C) [:: U; "S"; fm; "R"; zs] = Ok (Opts "S" fm U (Some (ZNum z)) (Some [:: z])).
Proof.
by rewrite /unit_names /fmt_names !inE => /or4P [] /eqP -> /or3P [] /eqP -> Hf /=; rewrite Hf.
Qed.

Lemma from_fmt_coef fm (x y : C) : x \is Num.real -> y \is Num.real ->
  from_fmt expideg pow10_20 fm (x + 'i * y) = coef expideg pow10_20 fm x y.
Proof. by move=> Hx Hy; rewrite /from_fmt /coef Re_rect // Im_rect. Qed.

Lemma group_even vs : ~~ odd (size (group vs).1) /\ all (fun x : C * seq C => ~~ odd (size x.2)) (group vs).2.
Proof.
elim: vs => //= v vs; case: (group vs) => [p r] /= [Hp Hr]; case: ifP => Hv /=; last first.
  by rewrite size_cat oddD Hv Hr.
split=> //; rewrite Hr andbT size_cat size_behead oddD (negbTE Hp).
by case: v Hv => //= a v; case: (odd (size v)).
Qed.
Definition realfloat := forall s x, float s = Some x -> x \is Num.real.
Lemma vals_real l v : realfloat -> vals l = Ok v -> all (mem Num.real) v.
Proof.
move=> Hr; rewrite /TsfParse.vals /floats; elim: (words _) v => [|w ws IH] v /=; first by case=> <-.
case E: (float w) => [x|] //=; case E2: (mapM _ ws) => [xs|] //= [<-] /=.
by rewrite (Hr _ _ E) (IH _ E2).
Qed.
Lemma mapM_real ls vs : realfloat -> mapM vals ls = Ok vs -> all (all (mem Num.real)) vs.
Proof.
move=> Hr; elim: ls vs => [|l ls IH] vs /=; first by case=> <-.
case E: (vals l) => [v|] //=; case E2: (mapM _ ls) => [vs'|] //= [<-] /=.
by rewrite (vals_real Hr E) (IH _ E2).
Qed.
Lemma group_real vs : all (all (mem Num.real)) vs -> 
  all (mem Num.real) (group vs).1 /\ all (fun x : C * seq C => all (mem Num.real) x.2) (group vs).2.
Proof.
elim: vs => //= v vs IH /andP [Hv /IH]; case: (group vs) => [p r] /= [Hp Hr].
case: ifP => _ /=; last by rewrite all_cat Hv Hp.
by rewrite all_cat Hp Hr; case: v Hv => //= a v /andP [_ ->].
Qed.
Lemma has_dataE (ls : seq string) : has is_data ls = ([seq l <- ls | is_data l] != [::]).
Proof. by rewrite has_filter. Qed.

(** ** the option line *)
Lemma options_step TZ o w ws : is_name w -> options float TZ o (w :: ws) =
  options float TZ (Opts (if w \in type_names then w else p_type o) (if w \in format_names then w else p_fmt o)
     (if w \in freq_units then w else p_unit o) (p_Z o) (p_Zlist o)) ws.
Proof.
rewrite /is_name !mem_cat; cbn [options]; case: o => ty f u Z Zl /=.
by rewrite !inE => /orP[/or3P[]|/orP[/or3P[]|/or4P[]]] /eqP ->.
Qed.
Lemma options_names TZ o a ws : all is_name a -> options float TZ o (a ++ ws) =
  options float TZ (Opts (last_in type_names (p_type o) a) (last_in format_names (p_fmt o) a)
     (last_in freq_units (p_unit o) a) (p_Z o) (p_Zlist o)) ws.
Proof.
elim: a o => [|w a IH] o; first by case: o.
case/andP=> Hw Ha; rewrite cat_cons options_step // IH //; congr options.
by rewrite /last_in /=; do !case: ifP.
Qed.
Definition rl TZ (o : opts C) := fix rloop (zs : seq C) (l : seq string) {struct l} : res (opts C) :=
  if l is x :: l' then
    if float x is Some z then rloop (rcons zs z) l' else options float TZ (close_R TZ o zs) l
  else Ok (close_R TZ o zs).
Lemma options_R TZ o rest : options float TZ o ("R" :: rest) = rl TZ o [::] rest.
Proof. by []. Qed.
(** names are not numbers *)
Definition names_ok : Prop := forall w, is_name w -> float w = None.
Lemma rl_numbers TZ o zs zws zl b : names_ok -> floats float zws = Ok zl -> all is_name b ->
  rl TZ o zs (zws ++ b) = options float TZ (close_R TZ o (zs ++ zl)) b.
Proof.
move=> Hn; elim: zws zs zl => [|x zws IH] zs zl.
  move=> E Hb; have <- := Ok_inj E; rewrite cats0; case: b Hb => //= w b /andP[/Hn Hw _].
  by rewrite Hw.
rewrite /floats /=; case Ex: (float x) => [z|] //=; case Em: (mapM _ _) => [zl'|] //= E Hb.
by have <- := Ok_inj E; rewrite (IH _ _ Em) // cat_rcons.
Qed.
Lemma options_line TZ a zws b zl : names_ok -> all is_name a -> all is_name b -> floats float zws = Ok zl ->
  options float TZ (opts0 C) (a ++ "R" :: zws ++ b) =
  Ok (close_R TZ (Opts (last_in type_names "S" (a ++ b)) (last_in format_names "MA" (a ++ b))
     (last_in freq_units "GHZ" (a ++ b)) None None) zl).
Proof.
move=> Hn Ha Hb Hz; rewrite options_names // options_R (rl_numbers _ _ _ Hn Hz) // cat0s.
rewrite -[b in LHS]cats0 options_names //.
have L l d : last_in l d (a ++ b) = last_in l (last_in l d a) b by rewrite /last_in filter_cat last_cat.
by rewrite !L.
Qed.

(** ** the port names of the comments *)
Lemma comment_ports st c st' : comment_line float pyint st c = Ok st' ->
  s_ports st' = if find_rest "!PORTS " c is Some r then Some (map strip (split_on ","%char r)) else s_ports st.
Proof.
rewrite /comment_line; set st1 := if find_rest "!PORTS " c is Some _ then _ else _.
have -> : (if find_rest "!PORTS " c is Some r then Some (map strip (split_on ","%char r)) else s_ports st) = s_ports st1.
  by rewrite /st1; case: (find_rest "!PORTS " c).
move: (find_rest "!MARKERS " c) (find_rest "!SHAPE " (upper c)) (find_rest "!NUMBERING " c) => om os on; move: st1 => st1 {c}.
set R2 := if om is Some _ then _ else _.
have H2 st2 : R2 = Ok st2 -> s_ports st2 = s_ports st1.
  by rewrite {}/R2; case: om => [r|]; [case: (floats _ _) => //= m|]; case=> <-.
case: R2 H2 => [st2|//] /(_ _ erefl) <-; cbn [bind].
set R3 := if os is Some _ then _ else _.
have H3 st3 : R3 = Ok st3 -> s_ports st3 = s_ports st2.
  rewrite {}/R3; case: os => [r|]; last by case=> <-.
  by case: (mapM _ _) => //= sh; case: ifP => // _ [<-].
case: R3 H3 => [st3|//] /(_ _ erefl) <-; cbn [bind].
by case: on => [q|]; [case: (s_shape st3) => // sh; case: ifP => // _|]; case=> <-.
Qed.
Lemma comments_ports cs st st' : comment_lines float pyint st cs = Ok st' ->
  s_ports st' = if ohead (seq.rev (pmap (fun c => omap (fun r => map strip (split_on ","%char r)) (find_rest "!PORTS " c)) cs))
                is Some l then Some l else s_ports st.
Proof.
elim: cs st => [|c cs IH] st; first by case=> <-.
cbn [comment_lines]; case Ec: (comment_line _ _ _ _) => [st1|] //; cbn [bind] => /IH ->.
rewrite (comment_ports Ec); cbn [pmap]; case: (find_rest "!PORTS " c) => [r|]; cbn [omap obind oapp]; last by [].
by rewrite rev_cons; case: (seq.rev _).
Qed.
Lemma pre_names ls : pmap (fun c => omap (fun r => map strip (split_on ","%char r)) (find_rest "!PORTS " c)) (pre_c ls) =
  pmap names_in (header ls).
Proof.
rewrite /header; elim: ls => //= l ls IH; case: (is_data l) => //=; rewrite /names_in.
by case: (is_comment l) => /=; rewrite IH.
Qed.

(** ** what an accepted text gives *)
Lemma read_any ls vs r l0 o TZ Tf Tp t : realfloat ->
  mapM vals [seq l <- ls | is_data l] = Ok vs -> group vs = ([::], r) -> r != [::] ->
  all (fun x : C * seq C => (1 < size x.2)%N) r ->
  [seq l <- ls | is_option l] = [:: l0] -> options float TZ (opts0 C) (words (upper (option_text l0))) = Ok o ->
  no_ports_data ls ->
  read_tsf TZ Tf Tp ls = Ok t ->
  exists N s, [/\ all (fun x : C * seq C => size x.2 == 2 * (N * N))%N r,
    fscale C (p_unit o) (odflt "GHz" Tf) = Ok s, t_fs t = [seq x.1 * s | x <- r],
    to_S TZ o [::] [seq record_mx expideg pow10_20 (p_fmt o) N x.2 | x <- r] = Ok (t_Ss t) &
    choose_ports fmt_port Tp (ports_of ls) N = Ok (t_ports t)].
Proof.
move=> Hr Hvs Hg Hne Hsz Hopt Hw Hnp.
have Hreal : all (fun x : C * seq C => all (mem Num.real) x.2) r.
  by have [_] := group_real (mapM_real Hr Hvs); rewrite Hg.
have Heven : all (fun x : C * seq C => ~~ odd (size x.2)) r by have [_] := group_even vs; rewrite Hg.
have Hd : has is_data ls.
  rewrite has_dataE; apply/eqP => E; rewrite E in Hvs; case: Hvs => Evs.
  by rewrite -Evs in Hg; case: Hg => Er; rewrite -Er in Hne.
rewrite /TsfModel.read_tsf; case Est: (read_lines _ _) => [st|] //; cbn [bind].
have [Ef _ Etk Edr Ecs] := read_fields Est Hd.
have [vs' [Evs' Ecore]] := read_core Est.
move: Evs'; rewrite Hvs => E2; have {}Evs' := Ok_inj E2; rewrite -Evs' in Ecore.
have := fold_records Hg Hne Hsz; rewrite /core /= in Ecore; rewrite -Ecore => -[Efs ED].
rewrite ED Efs size_map.
case Ers: (reshape _ _) => [[N Ss]|] //; cbn [bind].
have [||Hall HszS Hnth] := reshape_ok _ _ Ers; rewrite ?size_map // -?size_eq0 ?size_map ?size_eq0 //.
rewrite Ef Hopt; cbn [map ohead bind].
have -> : (if strip l0 is String _ f' then f' else "") = option_text l0 by [].
rewrite Hw; cbn [bind].
case Esc: (comment_lines _ _ _ _) => [sc|] //; cbn [bind].
have Eports : s_ports sc = ports_of ls.
  have := comments_ports Esc; rewrite Etk -cats1 pmap_cat pre_names.
  have -> : pmap (fun c => omap (fun r => map strip (split_on ","%char r)) (find_rest "!PORTS " c)) [:: MARKER] = [::] by [].
  by rewrite cats0 /ports_of => ->; case: (ohead _).
have -> : (if r_comments st is [::] then Raise IndexError else Ok tt) = Ok tt by case: (r_comments st) Ecs.
cbn [bind]; rewrite Edr (gz_post Hnp); cbn [bind]; rewrite /zc_rows; cbn [gz0 g_Gms g_Gmsk g_Zcs g_Zcsk push np_rows all bind orb fst].
have -> : ([::] != [::] :> seq (seq C)) || ([::] != [::] :> seq (seq C)) = false by [].
cbn [bind fst snd].
case Eu: (fscale _ _ _) => [u|] //; cbn [bind].
set D := map _ Ss.
case EC: (to_S _ _ _ _) => [Sm|] //; cbn [bind].
case Ep: (choose_ports _ _ _ _) => [ps|] //; cbn [bind] => Et; rewrite -(Ok_inj Et) /=.
exists N, u; split=> //; last by rewrite -Eports.
- apply/allP => x Hx; have : pairs x.2 \in [seq pairs y.2 | y <- r] by apply: map_f.
  move=> /(allP Hall); rewrite size_pairs => /eqP E3.
  by rewrite -E3 mul2n -{1}(odd_double_half (size x.2)) (negbTE (allP Heven _ Hx)).
- by rewrite -map_comp.
rewrite -EC; congr to_S; rewrite /D.
apply: (@eq_from_nth _ 0); first by rewrite !size_map HszS.
move=> k; rewrite size_map => Hk.
have x0 : C * seq C := (0, [::]).
rewrite (nth_map x0) // (nth_map 0) ?HszS // Hnth //.
apply/matrixP => i j; rewrite !mxE (nth_map x0) // nth_pairs; last by apply: (allP Heven); apply: mem_nth.
set x := nth x0 r k; have Hx : x \in r by apply: mem_nth.
have Hre m : x.2`_m \is Num.real.
  have [Hm|Hm] := ltnP m (size x.2); last by rewrite nth_default // real0.
  by have /allP := allP Hreal _ Hx; apply; apply: mem_nth.
by rewrite from_fmt_coef.
Qed.

(** ** a second option line *)
Lemma read_two_options ls l1 l2 a b c TZ Tf Tp : ls = a ++ l1 :: b ++ l2 :: c -> is_option l1 -> is_option l2 ->
  read_tsf TZ Tf Tp ls = Raise ValueError.
Proof.
move=> -> H1 H2; rewrite /TsfModel.read_tsf read_linesE /outcome.
case E: (mapM _ _) => [vs|e] /=; last by rewrite (mapM_vals_err E).
rewrite ifF //; apply/negbTE; rewrite -ltnNge size_map addn0.
rewrite filter_cat /= H1 filter_cat /= H2 size_cat /= size_cat /=.
by rewrite !addnS.
Qed.

(** ** an option line without R *)
Lemma options_noR TZ o ws o' : "R" \notin ws -> options float TZ o ws = Ok o' -> p_Z o' = p_Z o /\ p_Zlist o' = p_Zlist o.
Proof.
elim: ws o => [|w ws IH] o; first by move=> _ /= [<-].
rewrite in_cons negb_or eq_sym => /andP [Hw Hws]; cbn [options].
case: ifP => _; first by move/(IH _ Hws).
case: ifP => _; first by move/(IH _ Hws).
case: ifP => _; first by move/(IH _ Hws).
by rewrite (negbTE Hw).
Qed.
Lemma read_noR ls l0 TZ Tf Tp t : has is_data ls -> [seq l <- ls | is_option l] = [:: l0] ->
  "R" \notin words (upper (option_text l0)) -> no_ports_data ls ->
  read_tsf TZ Tf Tp ls <> Ok t.
Proof.
move=> Hd Hopt Hw Hnp; rewrite /TsfModel.read_tsf; case Est: (read_lines _ _) => [st|] //; cbn [bind].
have [Ef _ Etk Edr Ecs] := read_fields Est Hd.
case: (reshape _ _) => [[N Ss]|] //; cbn [bind].
rewrite Ef Hopt; cbn [map ohead bind].
have -> : (if strip l0 is String _ f' then f' else "") = option_text l0 by [].
case Eo: (options _ _ _ _) => [o|] //; cbn [bind].
have [EZ EZl] := options_noR Hw Eo.
case: (comment_lines _ _ _ _) => [sc|] //; cbn [bind].
have -> : (if r_comments st is [::] then Raise IndexError else Ok tt) = Ok tt by case: (r_comments st) Ecs.
cbn [bind]; rewrite Edr (gz_post Hnp); cbn [bind]; rewrite /zc_rows /=.
case: (fscale _ _ _) => [u|] //=.
by rewrite /to_S /= EZl.
Qed.

(** ** comments and blank lines *)
Definition negligible (l : string) : bool := is_blank l || plain_comment l.
Lemma plain_is l : plain_comment l -> is_comment l /\ quiet (strip l).
Proof.
rewrite /plain_comment /is_comment /first_char; case: (strip l) => // a t /and3P [/eqP -> Hb Ht]; split=> //.
exists t; split=> //; case: t Hb Ht => [|b t] Hb; first by left.
by move/eqP => ->; right; exists t.
Qed.
Lemma negl_not l : negligible l -> is_data l = false /\ is_option l = false.
Proof.
case/orP => H; first by have [] := blank_not H.
by have [H1 _] := plain_is H; have [] := comment_not H1.
Qed.
Lemma filter_negl (P : pred string) ls : (forall l, negligible l -> P l = false) ->
  [seq l <- [seq l <- ls | ~~ negligible l] | P l] = [seq l <- ls | P l].
Proof.
move=> H; rewrite -filter_predI; apply: eq_filter => l /=; case E: (negligible l) => /=; last by rewrite andbT.
by rewrite (H _ E).
Qed.
Lemma pre_negl ls st : 
  comment_lines float pyint st (pre_c [seq l <- ls | ~~ negligible l]) = comment_lines float pyint st (pre_c ls).
Proof.
elim: ls st => //= l ls IH st; case E: (negligible l) => /=; last first.
  case: (is_data l) => //; case: (is_comment l) => //=.
  by case: (comment_line _ _ _ _) => //= st'; rewrite IH.
have [-> _] := negl_not E; rewrite IH; case: ifP => // Hc.
case/orP: E => [/blank_not [_]|/plain_is [_ Hq]]; first by rewrite Hc.
by rewrite /= quiet_line.
Qed.
Lemma no_ports_filter P ls : no_ports_data ls -> no_ports_data [seq l <- ls | P l].
Proof. by move/allP => H; apply/allP => l; rewrite mem_filter => /andP [_ /H]. Qed.
Lemma has_negl ls : has is_data [seq l <- ls | ~~ negligible l] = has is_data ls.
Proof. by rewrite !has_filter filter_negl // => l /negl_not []. Qed.
Lemma read_negligible ls TZ Tf Tp : no_ports_data ls -> has is_data ls ->
  read_tsf TZ Tf Tp [seq l <- ls | ~~ negligible l] = read_tsf TZ Tf Tp ls.
Proof.
move=> Hnp Hd; have Hnp' := no_ports_filter (fun l => ~~ negligible l) Hnp.
have Hd' := Hd; rewrite -has_negl in Hd'.
set ls' := filter _ ls in Hnp' Hd' *.
have ED : [seq l <- ls' | is_data l] = [seq l <- ls | is_data l] by apply: filter_negl => l /negl_not [].
have EO : [seq l <- ls' | is_option l] = [seq l <- ls | is_option l] by apply: filter_negl => l /negl_not [].
rewrite /TsfModel.read_tsf.
case E: (read_lines (rd0 C) ls) => [st|e]; last first.
  have -> : read_lines (rd0 C) ls' = Raise e; last by [].
  move: E; rewrite !read_linesE /outcome ED EO.
  by case: (mapM _ _) => //= vs; case: ifP => // _; case: (foldl _ _ _) => [[? ?] ?].
have [st' Est'] : exists st', read_lines (rd0 C) ls' = Ok st'.
  move: E; rewrite !read_linesE /outcome ED EO.
  case: (mapM _ _) => //= vs; case: ifP => // _; case: (foldl _ _ _) => [[? ?] ?] _.
  by eexists.
rewrite Est'; cbn [bind].
have [Ef _ Etk Edr Ecs] := read_fields E Hd.
have [Ef' _ Etk' Edr' Ecs'] := read_fields Est' Hd'.
have [vs [Evs Ecore]] := read_core E.
have [vs' [Evs' Ecore']] := read_core Est'.
move: Evs'; rewrite ED Evs => E2; have {}Evs' := Ok_inj E2; rewrite -Evs' -Ecore in Ecore'.
case: Ecore' => -> -> ->.
rewrite Ef Ef' EO Etk Etk' Edr Edr' (gz_post Hnp) (gz_post Hnp') -!cats1 !comment_lines_cat pre_negl.
have H s : s != [::] -> (if s is [::] then Raise IndexError else Ok tt) = Ok tt :> res unit by case: s.
by rewrite !H.
Qed.
End Api.

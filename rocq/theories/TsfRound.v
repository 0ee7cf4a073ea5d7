(** Reading of a written touchstone text: header, records, result. *)
From mathcomp Require Import all_ssreflect all_algebra.
From Coq Require Import String Ascii.
From Verif Require Import Base ConvModel ConvSpec ConvProofs ConvArr ConvExamples UtilModel UtilThm TsfModel TsfText TsfThm TsfWrite.
Set Implicit Arguments.
Unset Strict Implicit.
Unset Printing Implicit Defensive.
Import Order.TTheory GRing.Theory Num.Theory.
Local Open Scope string_scope.
Local Open Scope ring_scope.
Local Open Scope seq_scope.

(** ** upper *)
Lemma upchar_bang a : (upchar a == bang) = (a == bang).
Proof. by case: a => [] [] [] [] [] [] [] [] []. Qed.
Lemma upchar_space a : isspace (upchar a) = isspace a.
Proof. by case: a => [] [] [] [] [] [] [] [] []. Qed.
Lemma upper_bang s : has_bang (upper s) = has_bang s.
Proof.
elim: s => [|a s IH] //=; move: IH; rewrite /has_bang /= !in_cons => ->.
by rewrite ![bang == _]eq_sym upchar_bang.
Qed.
Lemma words_upper s : words (upper s) = map upper (words s).
Proof.
elim: s => [|a s IH] //; cbn [upper words]; rewrite upchar_space IH.
case: (isspace a) => //; case: s IH => [|b s] IH //.
rewrite [upper (String b s)]/=; cbn iota; rewrite upchar_space; case: (isspace b) => //.
by case: (words (String b s)).
Qed.
Lemma upper_app a b : upper (a ++ b) = (upper a ++ upper b)%string.
Proof. by elim: a => //= x a ->. Qed.

(** ** strip *)
Lemma words_rstrip s : words (rstrip s) = words s.
Proof. by have [u [E Hu]] := rstrip_spec s; rewrite [in RHS]E words_rblank. Qed.
Lemma strip_fix p : strip p = p -> p != "" -> lstrip p = p /\ rstrip p = p.
Proof.
move=> E Hne; have El : lstrip p = p; last by rewrite /strip El in E.
case: p E Hne => // a t E _.
have Ha : ~~ isspace a.
  move: E; rewrite /strip; case L: (lstrip (String a t)) => [|b r] //.
  have Hb := lstrip_head L.
  by have [r' ->] := @rstrip_cons b r Hb; case=> <-.
by cbn [lstrip]; rewrite (negbTE Ha).
Qed.
Lemma rstrip_app a b : rstrip b = b -> b != "" -> rstrip (a ++ b) = (a ++ b)%string.
Proof.
move=> E Hb; elim: a => [|x a IH] //=; rewrite IH.
by case: a {IH} => [|y a] //=; case: b E Hb => //.
Qed.
Lemma strip_sp p : strip (" " ++ p) = strip p. Proof. by []. Qed.
Lemma strip_nosp a t : ~~ isspace a -> strip (String a t) = rstrip (String a t).
Proof. by move=> H; rewrite /strip; cbn [lstrip]; rewrite (negbTE H). Qed.

(** ** comments without effect *)
Definition quiet (c : string) : Prop :=
  exists t, [/\ c = String bang t, ~~ has_bang t & t = "" \/ exists t', t = String " " t'].
Lemma find_rest_nobang p s : ~~ has_bang s -> find_rest (String bang p) s = None.
Proof.
elim: s => [|a s IH] //; rewrite /has_bang; cbn [list_ascii_of_string].
rewrite in_cons negb_or => /andP [Ha Hs]; cbn [find_rest chop].
by rewrite eqbE (negbTE Ha) IH.
Qed.
Lemma find_rest_other c p t : ~~ has_bang t -> is_true (if t is String a _ then a != c else true) ->
  find_rest (String bang (String c p)) (String bang t) = None.
Proof.
move=> Hb Ht; cbn [find_rest chop]; rewrite eqbE eqxx.
have Hf := find_rest_nobang (String c p) Hb.
case: t Hb Ht Hf => [|a t] Hb Ht Hf //.
by cbn [chop]; rewrite eqbE eq_sym (negbTE Ht) Hf.
Qed.
Section Comments.
Variable C : numClosedFieldType.
Variable float : string -> option C.
Variable pyint : string -> option int.
Notation comment_line := (comment_line float pyint).
Notation comment_lines := (comment_lines float pyint).
Lemma quiet_line st c : quiet c -> comment_line st c = Ok st.
Proof.
case=> t [-> Hb Ht]; rewrite /TsfModel.comment_line.
have Ht' : is_true (if upper t is String a _ then a != "S"%char else true).
  by case: Ht => [->|[t' ->]].
have Hb' : ~~ has_bang (upper t) by rewrite upper_bang.
rewrite (@find_rest_other "P"%char) //; last by case: Ht => [->|[t' ->]].
rewrite (@find_rest_other "M"%char) //; last by case: Ht => [->|[t' ->]].
cbn [bind]; rewrite [upper (String _ _)]/= (@find_rest_other "S"%char) //.
by cbn [bind]; rewrite (@find_rest_other "N"%char) //; case: Ht => [->|[t' ->]].
Qed.
Lemma comment_lines_cat st a b : comment_lines st (a ++ b) = do st' <- comment_lines st a; comment_lines st' b.
Proof. by elim: a st => //= l a IH st; case: (comment_line st l) => //= st'; rewrite IH. Qed.
Lemma quiet_lines st cs : (forall c, List.In c cs -> quiet c) -> comment_lines st cs = Ok st.
Proof.
elim: cs => // c cs IH H; cbn [TsfModel.comment_lines].
rewrite quiet_line /=; last by apply: H; left.
by apply: IH => c' Hc; apply: H; right.
Qed.
Lemma marker_line st : comment_line st MARKER = Ok st. Proof. by []. Qed.
Lemma quiet_bang x : ~~ has_bang x -> quiet (rstrip ("! " ++ x)).
Proof.
move=> Hx.
have E : ("! " ++ x)%string = String bang (String " " x) by [].
rewrite E; exists (rstrip (String " " x)); split.
- have -> : rstrip (String bang (String " " x)) =
     (if rstrip (String " " x) is String b s'' then String bang (String b s'') else String bang "") by [].
  by case: (rstrip (String " " x)).
- have [u [Eu Hu]] := rstrip_spec (String " " x); apply/negP => Hb.
  have : has_bang (String " " x) by rewrite Eu has_bang_app Hb.
  by rewrite /has_bang /= in_cons; apply/negP.
- by cbn [rstrip]; case: (rstrip x) => [|b s]; [left|right; exists (String b s)].
Qed.

(** ** port names *)
Definition good_name (p : string) : Prop :=
  [/\ p <> "", strip p = p, ","%char \notin chars p, ~~ has_bang p & LF \notin chars p].
Lemma concat_cons sep p q l : String.concat sep [:: p, q & l] = (p ++ sep ++ String.concat sep (q :: l))%string.
Proof. by []. Qed.
Lemma split_names ps : ps != [::] -> (forall p, List.In p ps -> good_name p) ->
  split_on ","%char (String " " (String.concat ", " ps)) = map (String.append " ") ps.
Proof.
elim: ps => // p ps IH _ H; have [Hne Hs Hc Hb Hl] := H p (or_introl erefl).
case: ps IH H => [|q ps] IH H.
  by rewrite /= split_none.
rewrite concat_cons.
have -> : String " " (p ++ ", " ++ String.concat ", " (q :: ps)) =
  (String " " p ++ String ","%char (String " " (String.concat ", " (q :: ps))))%string by [].
rewrite split_nl IH //; last by move=> r Hr; apply: H; right.
by rewrite split_none.
Qed.
Lemma strip_sps ps : (forall p, List.In p ps -> good_name p) -> map strip (map (String.append " ") ps) = ps.
Proof.
elim: ps => // r l IH H; rewrite 2!map_cons IH; last by move=> r' Hr; apply: H; right.
by rewrite strip_sp; have [_ -> _ _ _] := H r (or_introl erefl).
Qed.
Lemma names_strip ps : ps != [::] -> (forall p, List.In p ps -> good_name p) ->
  map strip (split_on ","%char (String.concat ", " ps)) = ps.
Proof.
case: ps => // p ps _ H; have [Hne Hs Hc Hb Hl] := H p (or_introl erefl).
case: ps H => [|q ps] H; first by rewrite /= split_none //= Hs.
rewrite concat_cons.
have -> : (p ++ ", " ++ String.concat ", " (q :: ps))%string =
  (p ++ String ","%char (String " " (String.concat ", " (q :: ps))))%string by [].
rewrite split_nl split_none // split_names //; last by move=> r Hr; apply: H; right.
rewrite cat1s map_cons Hs strip_sps //; by move=> r Hr; apply: H; right.
Qed.
Lemma concat_good ps : ps != [::] -> (forall p, List.In p ps -> good_name p) ->
  let s := String.concat ", " ps in [/\ s != "", rstrip s = s, ~~ has_bang s & LF \notin chars s].
Proof.
elim: ps => // p ps IH _ H; have [/eqP Hne Hs Hc Hb Hl] := H p (or_introl erefl).
case: ps IH H => [|q ps] IH H; first by have [] := strip_fix Hs Hne.
have [//|r Hr|N R B L] := IH; first by apply: H; right.
rewrite concat_cons; cbn zeta; split.
- by case: p Hne {Hs Hc Hb Hl H}.
- by rewrite rstrip_app //; apply: rstrip_app.
- by rewrite !has_bang_app !negb_or Hb.
- by rewrite !LF_app !negb_or Hl.
Qed.
Lemma ports_line st ps : ps != [::] -> (forall p, List.In p ps -> good_name p) ->
  comment_line st (rstrip ("!PORTS " ++ String.concat ", " ps)) =
  Ok (Spec (Some ps) (s_markers st) (s_shape st)).
Proof.
move=> Hne H; have [N R B L] := concat_good Hne H.
rewrite rstrip_app //; have := names_strip Hne H.
move: (String.concat ", " ps) N R B => s N R B Es.
have E : find_rest "!PORTS " ("!PORTS " ++ s) = Some s by case: s N {R B Es}.
rewrite /TsfModel.comment_line E Es.
have -> : ("!PORTS " ++ s)%string = String bang ("PORTS " ++ s)%string by [].
have Hb : ~~ has_bang ("PORTS " ++ s) by rewrite has_bang_app negb_or B.
rewrite (@find_rest_other "M"%char) //; cbn [bind].
rewrite [upper (String _ _)]/= -/bang.
have -> : String "P" (String "O" (String "R" (String "T" (String "S" (String " " (upper s)))))) = upper ("PORTS " ++ s) by [].
rewrite (@find_rest_other "S"%char) // ?upper_bang //; cbn [bind].
by rewrite (@find_rest_other "N"%char).
Qed.
End Comments.

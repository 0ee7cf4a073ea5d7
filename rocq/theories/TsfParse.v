(** ReadTSF: lines, records, option line. *)
From mathcomp Require Import all_ssreflect all_algebra.
From Coq Require Import String Ascii.
From Verif Require Import Base ConvModel ConvSpec ConvProofs ConvArr ConvExamples UtilModel UtilThm TsfModel TsfText TsfThm TsfWrite TsfRound TsfMain TsfFull TsfTrip TsfSpec.
Set Implicit Arguments.
Unset Strict Implicit.
Unset Printing Implicit Defensive.
Import Order.TTheory GRing.Theory Num.Theory.
Local Open Scope string_scope.
Local Open Scope ring_scope.
Local Open Scope seq_scope.

Section Parse.
Variable C : numClosedFieldType.
Variable float : string -> option C.
Notation read_line := (read_line float).
Notation read_lines := (read_lines float).
Notation floats := (floats float).

Definition vals (l : string) : res (seq C) := floats (words (before_bang l)).

(** ** one line *)
Lemma line_comment st l : is_comment l -> read_line st l = Ok (addcs st [:: strip l]).
Proof.
rewrite /is_comment /first_char /TsfModel.read_line; case: (strip l) => // a s /eqP [->].
by rewrite /addcs cats1.
Qed.
Lemma line_blank st l : is_blank l -> read_line st l = Ok st.
Proof. by rewrite /is_blank /first_char /TsfModel.read_line; case: (strip l). Qed.
Lemma line_option st l : is_option l -> read_line st l =
  if r_fmt st is Some _ then Raise ValueError
  else Ok (Rd (r_comments st) (r_fs st) (r_coefs st) (r_Ss st) (r_marker st) (Some (strip l))).
Proof.
by rewrite /is_option /first_char /TsfModel.read_line; case: (strip l) => // a s /eqP [->].
Qed.
Lemma line_data st l : is_data l -> read_line st l = do v <- vals l; Ok (data_line st v).
Proof.
rewrite /is_data /is_option /is_comment /is_blank /first_char /TsfModel.read_line /vals.
rewrite -words_bb_strip; case: (strip l) => // a s.
rewrite !negb_or => /and3P [H1 H2 _]; rewrite !eqbE.
have -> : (a == bang) = false by apply/negbTE; apply: contra H1 => /eqP ->.
by have -> : (a == "#"%char) = false by apply/negbTE; apply: contra H2 => /eqP ->.
Qed.
Lemma kinds l : [|| is_comment l, is_option l, is_blank l | is_data l].
Proof. by rewrite /is_data; case: is_comment; case: is_option; case: is_blank. Qed.
Lemma data_not l : is_data l -> [/\ is_comment l = false, is_option l = false & is_blank l = false].
Proof. by rewrite /is_data; case: is_comment; case: is_option; case: is_blank. Qed.
Lemma comment_not l : is_comment l -> [/\ is_data l = false, is_option l = false & is_blank l = false].
Proof. by rewrite /is_data /is_comment /is_option /is_blank => /eqP ->. Qed.
Lemma option_not l : is_option l -> [/\ is_data l = false, is_comment l = false & is_blank l = false].
Proof. by rewrite /is_data /is_comment /is_option /is_blank => /eqP ->. Qed.
Lemma blank_not l : is_blank l -> [/\ is_data l = false, is_comment l = false & is_option l = false].
Proof. by rewrite /is_data /is_comment /is_option /is_blank => /eqP ->. Qed.

(** ** the numbers *)
Definition core (st : rd C) := (r_fs st, r_coefs st, r_Ss st).
Definition dstep (s : seq C * seq C * seq (seq C)) (v : seq C) :=
  let: (fs, coefs, Ss) := s in
  if odd (size v) then (rcons fs (head 0 v), pairs (behead v), push Ss coefs) else (fs, coefs ++ pairs v, Ss).
Lemma core_data st v : core (data_line st v) = dstep (core st) v.
Proof.
rewrite /core /data_line /dstep; case: (odd (size v)); case: (r_marker st == 0%N) => //=.
  by case: (r_coefs st).
by case: (r_coefs st).
Qed.

Lemma read_core st ls st' : read_lines st ls = Ok st' ->
  exists vs, mapM vals [seq l <- ls | is_data l] = Ok vs /\ core st' = foldl dstep (core st) vs.
Proof.
elim: ls st => [|l ls IH] st /=; first by case=> <-; exists [::].
case E: (read_line st l) => [st1|] //= /IH [vs [Evs Ec]].
case/or4P: (kinds l) => H.
- move: E Ec; rewrite line_comment // => -[<-] Ec; have [-> _ _] := comment_not H; by exists vs.
- move: E Ec; rewrite line_option //; case: (r_fmt st) => // -[<-] Ec; have [-> _ _] := option_not H; by exists vs.
- move: E Ec; rewrite line_blank // => -[<-] Ec; have [-> _ _] := blank_not H; by exists vs.
- move: E Ec; rewrite line_data //; case Ev: (vals l) => [v|] //= [<-] Ec.
  by exists (v :: vs); rewrite H /= Ev Evs Ec core_data.
Qed.

Definition closing (x : seq C) (s : seq (seq C)) : seq (seq C) :=
  rcons [seq y <- belast x s | y != [::]] (last x s).
Lemma fold_group vs fs coefs Ss : 
  let: (fs', coefs', Ss') := foldl dstep (fs, coefs, Ss) vs in
  fs' = fs ++ map fst (group vs).2 /\
  rcons Ss' coefs' = Ss ++ closing (coefs ++ pairs (group vs).1) [seq pairs x.2 | x <- (group vs).2] /\
  ~~ odd (size (group vs).1).
Proof.
elim: vs fs coefs Ss => [|v vs IH] fs coefs Ss /=; first by rewrite !cats0 cats1.
case: ifP => Hodd.
  have := IH (rcons fs (head 0 v)) (pairs (behead v)) (push Ss coefs).
  case: (foldl _ _ _) => [[fs' coefs'] Ss'] [-> [-> H3]].
  case E: (group vs) H3 => [p r] /= H3; rewrite cat_rcons cats0; split=> //; split=> //.
  rewrite /closing /= pairs_cat; last by case: v Hodd => //= a v /negbTE; rewrite negbK => ->.
  by rewrite /push; case: coefs => //= a s; rewrite cat_rcons.
have := IH fs (coefs ++ pairs v) Ss.
case: (foldl _ _ _) => [[fs' coefs'] Ss'] [-> [-> H3]].
case E: (group vs) H3 => [p r] /= H3; split=> //; split; last by rewrite size_cat oddD Hodd.
by rewrite pairs_cat ?Hodd // catA.
Qed.
Lemma filter_id (A : eqType) (P : pred A) s : all P s -> [seq x <- s | P x] = s.
Proof. by move/all_filterP. Qed.
(** the first data line is odd and every record has a coefficient *)
Lemma fold_records vs r : group vs = ([::], r) -> r != [::] -> all (fun x : C * seq C => (1 < size x.2)%N) r ->
  let: (fs', coefs', Ss') := foldl dstep ([::], [::], [::]) vs in
  fs' = map fst r /\ rcons Ss' coefs' = [seq pairs x.2 | x <- r].
Proof.
move=> E Hne Hr; have := fold_group vs [::] [::] [::].
case: (foldl _ _ _) => [[fs' coefs'] Ss'] [-> [-> _]]; rewrite E; split=> //.
case: r Hne Hr {E} => // x r _ Hr; rewrite /closing /=.
have Hp y : (1 < size y)%N -> pairs y != [::] :> seq C by case: y => [|? [|? ?]].
rewrite filter_id ?lastI //; apply/allP => y Hy.
have : y \in (map (fun x : C * seq C => pairs x.2) (x :: r)) by rewrite map_cons lastI mem_rcons inE Hy orbT.
by case/mapP => z Hz ->; apply: Hp; apply: (allP Hr).
Qed.
Lemma size_pairs (v : seq C) : size (pairs v) = (size v)./2.
Proof.
have [n Hn] := ubnP (size v); elim: n v Hn => // n IH [|a [|b v]] //= Hn.
by rewrite IH //; apply: ltnW.
Qed.
Lemma nth_pairs (v : seq C) k : ~~ odd (size v) -> (pairs v)`_k = v`_(2 * k) + 'i * v`_(2 * k).+1.
Proof.
have [n Hn] := ubnP (size v); elim: n v k Hn => // n IH [|a [|b v]] k //= Hn Ho.
  by rewrite !nth_nil mulr0 addr0.
case: k => [|k] //; rewrite mulnS; cbn [nth]; rewrite IH //; first by apply: ltnW.
by move: Ho; rewrite negbK.
Qed.

(** ** the whole reading of the lines *)
Fixpoint pre_c (ls : seq string) : seq string :=
  if ls is l :: ls' then
    if is_data l then [::] else if is_comment l then strip l :: pre_c ls' else pre_c ls'
  else [::].
Fixpoint post_c (ls : seq string) : seq string :=
  if ls is l :: ls' then if is_data l then [seq strip x | x <- ls' & is_comment x] else post_c ls'
  else [::].
Lemma vals_err l e : vals l = Raise e -> e = ValueError.
Proof.
rewrite /vals /TsfModel.floats; elim: (words _) => //= w ws IH.
by case: (float w) => //= [x|[<-]] //; case: (mapM _ ws) IH => //= e' IH [<-]; apply: IH.
Qed.
Lemma mapM_vals_err ls e : mapM vals ls = Raise e -> e = ValueError.
Proof.
elim: ls => //= l ls IH; case E: (vals l) => [v|e'] /=; last by case=> <-; apply: vals_err E.
by case: (mapM vals ls) IH => //= e' IH [<-]; apply: IH.
Qed.
Definition outcome (st : rd C) (ls : seq string) : res (rd C) :=
  do vs <- mapM vals [seq l <- ls | is_data l];
  let O := [seq strip l | l <- ls & is_option l] in
  if (size O + isSome (r_fmt st) <= 1)%N then
    let: (fs, coefs, Ss) := foldl dstep (core st) vs in
    let cs := r_comments st in
    Ok (Rd (if r_marker st == 0%N then
              if has is_data ls then cs ++ pre_c ls ++ MARKER :: post_c ls else cs ++ pre_c ls
            else cs ++ [seq strip l | l <- ls & is_comment l]) fs coefs Ss
           (if r_marker st == 0%N then if has is_data ls then (size cs + size (pre_c ls)).+1 else 0%N else r_marker st)
           (if r_fmt st is Some f then Some f else ohead O))
  else Raise ValueError.
Lemma read_linesE st ls : read_lines st ls = outcome st ls.
Proof.
elim: ls st => [|l ls IH] st.
  rewrite /outcome /= add0n.
  have -> : (isSome (r_fmt st) <= 1)%N by case: (r_fmt st).
  by case: st => cs fs co Ss [|m] [f|] /=; rewrite !cats0.
cbn [TsfModel.read_lines]; case/or4P: (kinds l) => H.
- have [H1 H2 H3] := comment_not H; rewrite line_comment //; cbn [bind]; rewrite IH /outcome /= H1 H H2 /=.
  case: (mapM _ _) => //= vs; case: ifP => // _; rewrite /core /=.
  case: (foldl _ _ _) => [[fs co] Ss]; congr Ok; congr Rd.
    by rewrite -!catA /=.
  by rewrite size_cat addn1 addSn addnS.
- have [H1 H2 H3] := option_not H; rewrite line_option // /outcome /= H1 H2 H /=.
  case Ef: (r_fmt st) => [f|] /=.
    case E: (mapM _ _) => [vs|e] /=; last by rewrite (mapM_vals_err E).
    by rewrite addn1.
  rewrite IH /outcome /=; case: (mapM _ _) => //= vs.
  by rewrite addn1 addn0; case: ifP => //; case: (foldl _ _ _) => [[fs co] Ss].
- have [H1 H2 H3] := blank_not H; rewrite line_blank //; cbn [bind].
  by rewrite IH /outcome /= H1 H2 H3.
- have [H1 H2 H3] := data_not H; rewrite line_data //.
  rewrite /outcome /= H H1 H2 /=; case Ev: (vals l) => [v|e] //=.
  rewrite IH /outcome; case: (mapM _ _) => //= vs.
  have -> : r_fmt (data_line st v) = r_fmt st by rewrite /data_line; case: (_ == 0%N).
  case: ifP => // _; rewrite core_data; case: (foldl _ _ _) => [[fs co] Ss].
  congr Ok; rewrite /data_line; case E: (r_marker st == 0%N) => /=.
    by rewrite size_rcons /= addn0 cat_rcons.
  by rewrite E.
Qed.

(** ** the values of the fields used by read_tsf *)
Lemma read_fields ls st : read_lines (rd0 C) ls = Ok st -> has is_data ls ->
  [/\ r_fmt st = ohead [seq strip l | l <- ls & is_option l],
      (size [seq l <- ls | is_option l] <= 1)%N,
      take (r_marker st) (r_comments st) = rcons (pre_c ls) MARKER,
      drop (r_marker st) (r_comments st) = post_c ls & r_comments st != [::]].
Proof.
rewrite read_linesE /outcome; case: (mapM _ _) => //= vs; case: ifP => //.
rewrite addn0 size_map => Ho; case: (foldl _ _ _) => [[fs co] Ss] [<-] Hd /=; rewrite Hd.
split=> //.
- by rewrite add0n -cat_rcons take_size_cat // size_rcons.
- by rewrite add0n -cat_rcons drop_size_cat // size_rcons.
- by case: (pre_c ls).
Qed.
Lemma post_sub ls c : c \in post_c ls -> exists2 l, l \in ls & is_comment l /\ c = strip l.
Proof.
elim: ls => //= l ls IH; case: ifP => _.
  by case/mapP => x; rewrite mem_filter => /andP [Hx Hin] ->; exists x; rewrite // inE Hin orbT.
by case/IH => x Hx E; exists x; rewrite // inE Hx orbT.
Qed.
End Parse.

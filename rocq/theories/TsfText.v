(** Lines and words of texts. *)
From mathcomp Require Import all_ssreflect all_algebra.
From Coq Require Import String Ascii.
From Verif Require Import Base ConvModel UtilModel UtilThm TsfModel.
Set Implicit Arguments.
Unset Strict Implicit.
Unset Printing Implicit Defensive.
Local Open Scope string_scope.
Local Open Scope seq_scope.

Notation chars := list_ascii_of_string.

(** joining the last of x with the first of y *)
Fixpoint glue (A : Type) (op : A -> A -> A) (x y : seq A) : seq A :=
  if x is a :: x' then
    if x' is [::] then (if y is b :: y' then op a b :: y' else [:: a]) else a :: glue op x' y
  else y.

Lemma split_app c a b : split_on c (a ++ b)%string = glue String.append (split_on c a) (split_on c b).
Proof.
elim: a => [|x a IH] /=.
  by case: (split_on c b) (split_on_cons c b) => [[w [ws]]|].
rewrite !eqbE; have [w [ws Ew]] := split_on_cons c a; have [v [vs Ev]] := split_on_cons c b.
by case: eqP => [_|_]; rewrite IH Ew Ev //=; case: ws {IH Ew} => //=.
Qed.

Lemma split_nl c a b : split_on c (a ++ String c b)%string = split_on c a ++ split_on c b.
Proof.
rewrite split_app /= eqbE eqxx.
elim: (split_on c a) (split_on_cons c a) => [[w [ws //]]|w ws IH _].
case: ws IH => [|w' ws] IH /=; first by rewrite app0.
by congr (_ :: _); apply: IH; exists w', ws.
Qed.

Lemma split_none c s : c \notin chars s -> split_on c s = [:: s].
Proof.
elim: s => [|a s IH] //=; rewrite in_cons negb_or eqbE eq_sym => /andP [/negbTE -> /IH ->] //.
Qed.

(** ** words *)
(** the first word gives the first character *)
Lemma words_first a t : ~~ isspace a -> exists w ws, words (String a t) = String a w :: ws.
Proof.
move=> H; cbn [words]; rewrite (negbTE H); case: t => [|b t]; first by exists "", [::].
case: (isspace b); first by exists "", (words (String b t)).
by case: (words _) => [|w ws]; [exists "", [::]|exists w, ws].
Qed.
Lemma words_sp c b : isspace c -> words (String c b) = words b. Proof. by move=> /= ->. Qed.
Lemma words_app a c b : isspace c -> words (a ++ String c b) = words a ++ words b.
Proof.
move=> Hc; elim: a => [|x a IH]; first by rewrite words_sp.
rewrite [(String x a ++ _)%string]/=; cbn [words]; rewrite IH; case: (isspace x) => //.
case: a IH => [|y a] IH; first by rewrite /= Hc.
have -> : (String y a ++ String c b)%string = String y (a ++ String c b) by [].
cbn beta iota; case Hy: (isspace y) => //.
by have [w [ws ->]] := @words_first y a (negbT Hy).
Qed.

Definition ends_sp (s : string) : bool := if chars s is a :: l then isspace (last a l) else true.
Lemma ends_spP s : ends_sp s -> s = "" \/ exists t c, s = (t ++ String c "")%string /\ isspace c.
Proof.
case: s => [|a s]; first by left.
rewrite /ends_sp /= => H; right; elim: s a H => [|b s IH] a /= H; first by exists "", a.
by have [t [c [-> Hc]]] := IH _ H; exists (String a t), c.
Qed.
Lemma words_app2 a b : ends_sp a -> words (a ++ b) = words a ++ words b.
Proof.
case/ends_spP => [->//|[t [c [-> Hc]]]].
by rewrite -appA /= words_app // words_app // cats0.
Qed.
Lemma ends_sp_app a b : ends_sp a -> ends_sp b -> ends_sp (a ++ b).
Proof.
move=> Ha; case/ends_spP => [->|[t [c [-> Hc]]]]; first by rewrite app0.
rewrite appA /ends_sp lapp; case: (chars (a ++ t)) => [|x l] //=.
by rewrite last_cat /=.
Qed.
Lemma ends_sp_r a b : ends_sp b -> b != "" -> ends_sp (a ++ b).
Proof.
case/ends_spP => [->//|[t [c [-> Hc]]]] _.
by rewrite appA /ends_sp lapp; case: (chars (a ++ t)) => [|x l] //=; rewrite last_cat.
Qed.

(** ** what precedes '!' *)
Definition has_bang (s : string) : bool := bang \in chars s.
Lemma bb_app a b : ~~ has_bang a -> before_bang (a ++ b) = (a ++ before_bang b)%string.
Proof.
elim: a => [|x a IH] //=; rewrite /has_bang /= in_cons negb_or eqbE eq_sym.
by case/andP => /negbTE -> /IH ->.
Qed.
Lemma bb_none a : ~~ has_bang a -> before_bang a = a.
Proof. by move=> H; rewrite -[in LHS](app0 a) bb_app // app0. Qed.

(** ** summary of lines: the words before '!', and whether there is a '!' *)
Definition summary (l : string) : seq string * bool := (words (before_bang l), has_bang l).
Definition sumop (x y : seq string * bool) := (x.1 ++ y.1, x.2 || y.2).
Lemma summary_app a b : ~~ has_bang a -> ends_sp a -> summary (a ++ b) = sumop (summary a) (summary b).
Proof.
move=> H1 H2; rewrite /summary /sumop bb_app // words_app2 // (bb_none H1).
by rewrite /has_bang lapp mem_cat.
Qed.
Definition sm (s : string) : seq (seq string * bool) := map summary (split_on LF s).
Definition okl (l : string) : bool := ~~ has_bang l && ends_sp l.
(** another text may be appended *)
Definition good (s : string) : bool := okl (last "" (split_on LF s)).

Lemma map_glue (A B : Type) (f : A -> B) op op' x y (a0 : A) :
  (forall b, f (op (last a0 x) b) = op' (f (last a0 x)) (f b)) ->
  map f (glue op x y) = glue op' (map f x) (map f y).
Proof.
elim: x a0 => [|a x IH] a0 H //=; case: x IH H => [|a' x] IH H /=.
  by case: y {IH} => //= b y; rewrite H.
by congr (_ :: _); rewrite (IH a).
Qed.
Lemma sm_app a b : good a -> sm (a ++ b) = glue sumop (sm a) (sm b).
Proof.
case/andP => H1 H2; rewrite /sm split_app (@map_glue _ _ _ _ sumop _ _ "") //.
by move=> w; rewrite summary_app.
Qed.
Lemma last_glue (A : Type) (op : A -> A -> A) x y a0 : x <> [::] -> y <> [::] ->
  last a0 (glue op x y) = if size y == 1 then op (last a0 x) (head a0 y) else last a0 y.
Proof.
elim: x a0 => [|a x IH] a0 //= _ Hy; case: x IH => [|a' x] IH /=.
  by case: y Hy {IH} => [|b [|c y]] //=.
rewrite (IH a) //; by case: y Hy {IH} => [|b [|c y]].
Qed.
Lemma good_app a b : good a -> good b -> good (a ++ b).
Proof.
rewrite /good split_app => Ha Hb.
have [v [vs Ev]] := split_on_cons LF b.
have [w [ws Ew]] := split_on_cons LF a.
rewrite last_glue ?Ew ?Ev //; rewrite Ew in Ha; rewrite Ev in Hb.
case: vs Hb {Ev} => [|v' vs] Hb //=.
case/andP: Ha => H1 H2; case/andP: Hb => H3 H4.
rewrite /okl ends_sp_app // andbT /has_bang lapp mem_cat negb_or.
by apply/andP; split.
Qed.
Lemma good_line l : LF \notin chars l -> okl l -> good l.
Proof. by move=> H1 H2; rewrite /good split_none. Qed.
Lemma sm_line l : LF \notin chars l -> ~~ has_bang l -> sm l = [:: (words l, false)].
Proof. by move=> H1 H2; rewrite /sm split_none //= /summary bb_none // (negbTE H2). Qed.
Lemma good_nl a b : good b -> good (a ++ nl ++ b).
Proof.
rewrite /good /nl [(String _ "" ++ b)%string]/= split_nl last_cat.
by have [v [vs ->]] := split_on_cons LF b.
Qed.
Lemma good0 : good "". Proof. by []. Qed.
Lemma sm_cons s : exists x xs, sm s = x :: xs.
Proof. by rewrite /sm; have [w [ws ->]] := split_on_cons LF s; exists (summary w), (map summary ws). Qed.

(** ** strip *)
Lemma lstripE s : (lstrip s == "") = (words s == [::]).
Proof.
elim: s => [|a s IH] //; cbn [lstrip]; case Ha: (isspace a).
  by rewrite IH words_sp.
by have [w [ws ->]] := @words_first a s (negbT Ha).
Qed.
Lemma lstrip_words s : words (lstrip s) = words s.
Proof. by elim: s => [|a s IH] //=; case Ha: (isspace a) => //=; rewrite Ha. Qed.
Lemma lstrip_bang s : has_bang (lstrip s) = has_bang s.
Proof.
elim: s => [|a s IH] //=; case Ha: (isspace a) => //; rewrite IH /has_bang /= in_cons.
by case: eqP => // E; rewrite -E in Ha.
Qed.
Lemma rstrip_cons a s : ~~ isspace a -> exists t, rstrip (String a s) = String a t.
Proof. by move=> H /=; case: (rstrip s) => [|b t]; [rewrite (negbTE H); exists ""|exists (String b t)]. Qed.
Lemma lstrip_head s a t : lstrip s = String a t -> ~~ isspace a.
Proof. by elim: s => [|b s IH] //=; case Hb: (isspace b) => // -[<-]; rewrite Hb. Qed.
Lemma rstrip_spec s : exists u, s = (rstrip s ++ u)%string /\ all isspace (chars u).
Proof.
elim: s => [|a s [u [E Hu]]]; first by exists "".
rewrite {1}E /=; case: (rstrip s) E => [|b t] E /=.
  by case Ha: (isspace a); [exists (String a u)|exists u]; rewrite //= Ha.
by exists u.
Qed.
Lemma words_blank u : all isspace (chars u) -> words u = [::].
Proof. by elim: u => [|a u IH] //= /andP [-> /IH]. Qed.
Lemma words_rblank s u : all isspace (chars u) -> words (s ++ u) = words s.
Proof.
case: u => [|c u]; first by rewrite app0.
by move=> /= /andP [Hc Hu]; rewrite words_app // (words_blank Hu) cats0.
Qed.
Lemma blank_bang u : all isspace (chars u) -> ~~ has_bang u.
Proof. by move=> H; apply/negP => Hb; have := allP H _ Hb. Qed.
Lemma bb_has a b : has_bang a -> before_bang (a ++ b) = before_bang a.
Proof.
elim: a => [|x a IH] //=; rewrite /has_bang /= in_cons eqbE eq_sym.
by case: eqP => //= _ /IH ->.
Qed.
Lemma words_bb_rstrip s : words (before_bang (rstrip s)) = words (before_bang s).
Proof.
have [u [E Hu]] := rstrip_spec s; rewrite [in RHS]E.
case Hb: (has_bang (rstrip s)); first by rewrite bb_has.
by rewrite bb_app ?Hb // (bb_none (blank_bang Hu)) words_rblank // bb_none ?Hb.
Qed.
Lemma words_bb_lstrip s : words (before_bang (lstrip s)) = words (before_bang s).
Proof.
elim: s => [|a s IH] //; cbn [lstrip]; case Ha: (isspace a) => //; rewrite IH.
cbn [before_bang]; rewrite eqbE; case: eqP => [E|_]; first by rewrite E in Ha.
by rewrite words_sp.
Qed.
Lemma words_bb_strip s : words (before_bang (strip s)) = words (before_bang s).
Proof. by rewrite /strip words_bb_rstrip words_bb_lstrip. Qed.
Lemma strip_bang s : has_bang (strip s) = has_bang s.
Proof.
rewrite /strip -(lstrip_bang s).
have [u [E Hu]] := rstrip_spec (lstrip s); rewrite [in RHS]E /has_bang lapp mem_cat.
by have := blank_bang Hu; rewrite /has_bang => /negbTE ->; rewrite orbF.
Qed.
Lemma strip_blank s : ~~ has_bang s -> words (before_bang s) = [::] -> strip s = "".
Proof.
move=> Hb; rewrite bb_none // => /eqP; rewrite -lstripE => /eqP E.
by rewrite /strip E.
Qed.
Lemma strip_first s w ws : words (before_bang s) = w :: ws ->
  exists a t u, [/\ strip s = String a t, w = String a u & a != bang].
Proof.
rewrite -words_bb_strip.
case E: (strip s) => [|a t] //.
have Ha : ~~ isspace a.
  move: E; rewrite /strip; case El: (lstrip s) => [|b r] //.
  have Hb := lstrip_head El.
  by have [r' ->] := @rstrip_cons b r Hb; case=> <-.
cbn [before_bang]; rewrite eqbE; case: eqP => [//|Hne] Ew.
have [v [vs Ev]] := @words_first a (before_bang t) Ha.
rewrite Ev in Ew; case: Ew => <- _.
by exists a, t, v; split=> //; apply/eqP.
Qed.

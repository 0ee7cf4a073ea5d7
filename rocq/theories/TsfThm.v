(** Proofs about TsfModel.v: reading of data texts. *)
From mathcomp Require Import all_ssreflect all_algebra.
From Coq Require Import String Ascii.
From Verif Require Import Base ConvModel UtilModel UtilThm TsfModel TsfText.
Set Implicit Arguments.
Unset Strict Implicit.
Unset Printing Implicit Defensive.
Import Order.TTheory GRing.Theory Num.Theory.
Local Open Scope string_scope.
Local Open Scope ring_scope.
Local Open Scope seq_scope.

Section Read.
Variable C : numClosedFieldType.
Variable float : string -> option C.
Notation read_line := (read_line float).
Notation read_lines := (read_lines float).
Notation floats := (floats float).
(** no number starts with '#' *)
Definition float_hash := forall s, float (String "#" s) = None.

Lemma read_lines_cat st a b : read_lines st (a ++ b) = do st' <- read_lines st a; read_lines st' b.
Proof. by elim: a st => //= l a IH st; case: (read_line st l) => //= st'; rewrite IH. Qed.

Lemma mapM_nil A B (f : A -> res B) : mapM f [::] = Ok [::]. Proof. by []. Qed.
Lemma mapM_cons A B (f : A -> res B) x xs ys : mapM f (x :: xs) = Ok ys <->
  exists y zs, [/\ f x = Ok y, mapM f xs = Ok zs & ys = y :: zs].
Proof.
rewrite /=; split.
  case: (f x) => //= y; case: (mapM f xs) => //= zs [<-]; by exists y, zs.
by case=> y [zs [-> -> ->]].
Qed.
Lemma mapM_cat A B (f : A -> res B) xs ys x y :
  mapM f xs = Ok x -> mapM f ys = Ok y -> mapM f (xs ++ ys) = Ok (x ++ y).
Proof.
elim: xs x => [|a xs IH] x /=; first by case=> <-.
by case: (f a) => //= b; case: (mapM f xs) IH => //= zs IH [<-] H; rewrite (IH zs).
Qed.
Lemma floats_cat a b x y : floats a = Ok x -> floats b = Ok y -> floats (a ++ b) = Ok (x ++ y).
Proof. exact: mapM_cat. Qed.

Lemma read_line_data st l items : float_hash -> words (before_bang l) != [::] ->
  floats (words (before_bang l)) = Ok items -> read_line st l = Ok (data_line st items).
Proof.
move=> Hh; case Ew: (words _) => [|w ws] // _ Hf.
have [a [t [u [Es Eu Ha]]]] := strip_first Ew.
rewrite /read_line -words_bb_strip Es in Ew *.
rewrite eqbE (negbTE Ha) eqbE; case: eqP => [E|_]; last by rewrite Ew Hf.
by move: Hf; rewrite Eu E; cbn [floats mapM]; rewrite /floats /= Hh.
Qed.
Lemma read_line_blank st l : strip l = "" -> read_line st l = Ok st.
Proof. by rewrite /TsfModel.read_line => ->. Qed.

Definition lines_ok (x : seq (seq string * bool)) := all (fun y => y.2 ==> (y.1 != [::])) x.
Definition items_of (x : seq (seq string * bool)) := mapM (fun y => floats y.1) x.

Lemma floats_nil l items : floats l = Ok items -> (items == [::]) = (l == [::]).
Proof. by case/mapM_Ok => Hs _; rewrite -!size_eq0 Hs. Qed.

Lemma read_text st s items : float_hash -> lines_ok (sm s) -> items_of (sm s) = Ok items ->
  read_lines st (split_on LF s) = Ok (foldl (@data_line C) st [seq i <- items | i != [::]]).
Proof.
move=> Hh; rewrite /sm; elim: (split_on LF s) st items => [|l ls IH] st items.
  by move=> _ [<-].
rewrite /lines_ok /items_of /= => /andP [Hb Hls].
case Hf: (floats _) => [i|] //=; case Hi: (mapM _ _) => [is_|] //= [<-] /=.
have {}IH := IH _ _ Hls Hi.
case Ei: (i == [::]) => /=.
  have Ew : words (before_bang l) = [::] by apply/eqP; rewrite -(floats_nil Hf).
  rewrite read_line_blank /= ?IH //; apply: strip_blank => //.
  by apply/negP => H; rewrite /= H Ew in Hb.
rewrite (read_line_data _ Hh _ Hf) /= ?IH //.
by rewrite -(floats_nil Hf) Ei.
Qed.

(** ** texts made of numbers, every line with an even number of them *)
Definition evens (x : seq (seq C)) := all (fun i => ~~ odd (size i)) x.
Definition datatext (s : string) (vals : seq C) : Prop :=
  [/\ good s, lines_ok (sm s) & exists items, [/\ items_of (sm s) = Ok items, flatten items = vals & evens items]].

Lemma glue_nil A (op : A -> A -> A) x : glue op x [::] = x.
Proof. by elim: x => //= a [|b x] // ->. Qed.
Lemma mapM_glue A B (f : A -> res B) op op' x y u v :
  (forall a b c d, f a = Ok c -> f b = Ok d -> f (op a b) = Ok (op' c d)) ->
  mapM f x = Ok u -> mapM f y = Ok v -> mapM f (glue op x y) = Ok (glue op' u v).
Proof.
move=> H; elim: x u => [|a x IH] u; first by case=> <-.
case/mapM_cons => c [z [Ha Hx ->]] Hy.
case: x IH Hx => [|a' x] IH Hx.
  case: Hx => <-; case: y Hy IH => [|b y] Hy IH /=; first by case: Hy => <- /=; rewrite Ha.
  case/mapM_cons: Hy => d [w [Hb Hw ->]]; by rewrite (H _ _ _ _ Ha Hb) Hw.
have E : glue op (a :: a' :: x) y = a :: glue op (a' :: x) y by [].
rewrite E; apply/mapM_cons; exists c, (glue op' z v); split=> //; first exact: IH.
by case/mapM_cons: Hx => c' [z' [_ _ ->]].
Qed.
Lemma flatten_glue (x y : seq (seq C)) : x != [::] -> flatten (glue cat x y) = flatten x ++ flatten y.
Proof.
elim: x => // a x IH _; case: x IH => [|b x] IH.
  by case: y {IH} => [|c y] /=; rewrite ?cats0 // catA.
have -> : glue cat (a :: b :: x) y = a :: glue cat (b :: x) y by [].
by cbn [flatten foldr]; rewrite -/(flatten _) IH // catA.
Qed.
Lemma evens_glue x y : evens x -> evens y -> evens (glue cat x y).
Proof.
elim: x => // a x IH /andP [Ha Hx] Hy; case: x IH Hx => [|b x] IH Hx.
  case: y Hy {IH} => [|c y] /=; first by rewrite Ha.
  by case/andP => Hc ->; rewrite size_cat oddD (negbTE Ha) (negbTE Hc).
have -> : glue cat (a :: b :: x) y = a :: glue cat (b :: x) y by [].
by rewrite /evens /= Ha; apply: IH.
Qed.
Lemma lines_ok_glue x y : (last ([::], false) x).2 = false ->
  lines_ok x -> lines_ok y -> lines_ok (glue sumop x y).
Proof.
elim: x => // a x IH Hl /andP [Ha Hx] Hy; case: x IH Hl Hx => [|b x] IH Hl Hx.
  case: y Hy {IH} => [|c y] /=; first by rewrite Ha.
  case/andP => Hc ->; rewrite andbT; move: Hl => /= ->; apply/implyP => /= H2.
  by move: Hc; rewrite H2 /= -!size_eq0 size_cat addn_eq0 negb_and => ->; rewrite orbT.
have -> : glue sumop (a :: b :: x) y = a :: glue sumop (b :: x) y by [].
by rewrite /lines_ok /= Ha; apply: IH.
Qed.
Lemma good_last s : good s -> (last ([::], false) (sm s)).2 = false.
Proof.
rewrite /good /sm; have [w [ws ->]] := split_on_cons LF s.
by rewrite /= last_map; case/andP => /negbTE.
Qed.
Lemma items_glue x y u v : items_of x = Ok u -> items_of y = Ok v -> items_of (glue sumop x y) = Ok (glue cat u v).
Proof. by apply: mapM_glue => a b c d; apply: floats_cat. Qed.
Lemma items_ne s u : items_of (sm s) = Ok u -> u != [::].
Proof. by have [x [xs ->]] := sm_cons s; case/mapM_cons => y [z [_ _ ->]]. Qed.

Lemma dt_app a b va vb : datatext a va -> datatext b vb -> datatext (a ++ b) (va ++ vb).
Proof.
case=> Ga La [ia [Ia Fa Ea]] [Gb Lb [ib [Ib Fb Eb]]]; split; first exact: good_app.
  by rewrite sm_app //; apply: lines_ok_glue => //; apply: good_last.
exists (glue cat ia ib); rewrite sm_app //; split; first exact: items_glue.
  by rewrite flatten_glue ?(items_ne Ia) // Fa Fb.
exact: evens_glue.
Qed.
Lemma dt_nil : datatext "" [::].
Proof. by split=> //; exists [:: [::]]. Qed.
Lemma dt_nl : datatext nl [::].
Proof. by split=> //; exists [:: [::]; [::]]. Qed.
Lemma blanks_sp n : all isspace (chars (blanks n)).
Proof. by elim: n => //= n ->. Qed.
Lemma blank_text u : LF \notin chars u -> all isspace (chars u) -> datatext u [::].
Proof.
move=> H1 H2; have Hb := blank_bang H2; split.
- apply: good_line => //; rewrite /okl Hb /ends_sp; case: (chars u) H2 => [|a l] // H.
  by apply: (allP H); rewrite mem_last.
- by rewrite sm_line // words_blank.
- by exists [:: [::]]; rewrite sm_line // words_blank.
Qed.
Lemma blanks_LF n : LF \notin chars (blanks n). Proof. by elim: n. Qed.
Lemma dt_blanks n : datatext (blanks n) [::].
Proof. by apply: blank_text; rewrite ?blanks_sp ?blanks_LF. Qed.

(** a text with one number in it *)
Definition numtext (t : string) (v : C) : Prop :=
  [/\ LF \notin chars t, ~~ has_bang t & exists w, words t = [:: w] /\ float w = Some v].
(** a text with two numbers, that ends with a blank *)
Definition pairtext (t : string) (v w : C) : Prop :=
  [/\ LF \notin chars t, ~~ has_bang t, ends_sp t & floats (words t) = Ok [:: v; w]].
Lemma has_bang_app a b : has_bang (a ++ b) = has_bang a || has_bang b.
Proof. by rewrite /has_bang lapp mem_cat. Qed.
Lemma LF_app a b : (LF \in chars (a ++ b)) = (LF \in chars a) || (LF \in chars b).
Proof. by rewrite lapp mem_cat. Qed.
Lemma pair_of b0 b1 a b v w : all isspace (chars b0) -> LF \notin chars b0 ->
  all isspace (chars b1) -> LF \notin chars b1 -> b1 != "" ->
  numtext a v -> numtext b w -> pairtext (b0 ++ a ++ " " ++ b ++ b1) v w.
Proof.
move=> S0 N0 S1 N1 Hb1 [Na Ba [wa [Wa Fa]]] [Nb Bb [wb [Wb Fb]]].
have E1 : ends_sp b1.
  by rewrite /ends_sp; case: (chars b1) S1 => [|x l] // H; apply: (allP H); rewrite mem_last.
have E0 : ends_sp b0.
  by rewrite /ends_sp; case: (chars b0) S0 => [|x l] // H; apply: (allP H); rewrite mem_last.
split.
- by rewrite !LF_app !negb_or N0 Na Nb N1.
- by rewrite !has_bang_app !negb_or Ba Bb !blank_bang.
- by rewrite !appA; apply: ends_sp_r.
- rewrite words_app2 // words_blank // cat0s /= words_app // Wa words_rblank // Wb.
  by rewrite /floats /= Fa Fb.
Qed.
Lemma dt_pair t v w : pairtext t v w -> datatext t [:: v; w].
Proof.
case=> N B E F; split.
- by apply: good_line => //; rewrite /okl B.
- by rewrite sm_line.
- by exists [:: [:: v; w]]; rewrite sm_line // /items_of /= F.
Qed.
(** a pair, a comment and a line break *)
Lemma dt_break t v w c n : pairtext t v w -> LF \notin chars c -> words (before_bang c) = [::] ->
  datatext (t ++ c ++ nl ++ blanks n) [:: v; w].
Proof.
case=> N B E F Hc Hc0.
have Hs : sm (t ++ c ++ nl ++ blanks n) = [:: sumop (summary t) (summary c); ([::], false)].
  rewrite appA /nl [(String _ "" ++ _)%string]/= /sm split_nl map_cat.
  rewrite split_none; last by rewrite LF_app negb_or N.
  rewrite (split_none (blanks_LF n)) /= summary_app //; congr [:: _; _].
  have Hb := blank_bang (blanks_sp n).
  by rewrite /summary (bb_none Hb) (words_blank (blanks_sp n)) (negbTE Hb).
have Ht : summary t = (words t, false) by rewrite /summary bb_none // (negbTE B).
have Hw : words t != [::] by apply/eqP => E0; rewrite E0 in F.
split.
- by rewrite appA; apply: good_nl; have [] := dt_blanks n.
- rewrite Hs Ht /lines_ok /= andbT; apply/implyP => _.
  by rewrite -size_eq0 size_cat addn_eq0 negb_and size_eq0 Hw.
- exists [:: [:: v; w]; [::]]; rewrite Hs Ht /items_of; split=> //=.
  by rewrite Hc0 cats0 F.
Qed.

(** ** records *)
(** the state after a frequency record *)
Definition rec_state (st : rd C) (f : C) (vals : seq C) : rd C :=
  let cs := if r_marker st == 0%N then rcons (r_comments st) MARKER else r_comments st in
  Rd cs (rcons (r_fs st) f) (pairs vals) (push (r_Ss st) (r_coefs st))
     (if r_marker st == 0%N then size cs else r_marker st) (r_fmt st).
Lemma pairs_cat (a b : seq C) : ~~ odd (size a) -> pairs (a ++ b) = pairs a ++ pairs b.
Proof.
have [n] := ubnP (size a); elim: n a => // n IH [|x [|y a]] //= Hs Ho.
rewrite negbK in Ho; rewrite IH //; by rewrite ltnS in Hs; apply: ltn_trans Hs.
Qed.
Lemma foldl_even st ys : r_marker st != 0%N -> evens ys ->
  foldl (@data_line C) st [seq i <- ys | i != [::]] =
  Rd (r_comments st) (r_fs st) (r_coefs st ++ pairs (flatten ys)) (r_Ss st) (r_marker st) (r_fmt st).
Proof.
elim: ys st => [|y ys IH] st Hm /=; first by rewrite cats0; case: st Hm.
case/andP => Hy Hys; case: eqP => [->|Hne] /=; first exact: IH.
rewrite IH //; last by rewrite /data_line (negbTE Hm) /=.
by rewrite /data_line (negbTE Hm) (negbTE Hy) /= pairs_cat // catA.
Qed.
Lemma read_record st ft f T vals rest : float_hash -> numtext ft f -> datatext T vals ->
  read_lines st (split_on LF (ft ++ " " ++ T ++ nl ++ rest)) = read_lines (rec_state st f vals) (split_on LF rest).
Proof.
move=> Hh [Nf Bf [wf [Wf Ff]]] [GT LT [iT [IT FT ET]]].
have -> : (ft ++ " " ++ T ++ nl ++ rest)%string = ((ft ++ " ") ++ T ++ String LF rest)%string.
  by rewrite !appA.
rewrite appA split_nl read_lines_cat.
have Nf' : LF \notin chars (ft ++ " ") by rewrite LF_app negb_or Nf.
have Bf' : ~~ has_bang (ft ++ " ") by rewrite has_bang_app negb_or Bf.
have Gf : good (ft ++ " ").
  by apply: good_line => //; rewrite /okl Bf'; apply: ends_sp_r.
have Sf : sm (ft ++ " ") = [:: ([:: wf], false)].
  by rewrite sm_line // words_rblank // Wf.
have Iff : items_of (sm (ft ++ " ")) = Ok [:: [:: f]] by rewrite Sf /items_of /= /floats /= Ff.
rewrite (@read_text _ _ (glue cat [:: [:: f]] iT)) //; last 2 first.
- by rewrite sm_app // Sf; apply: lines_ok_glue.
- by rewrite sm_app //; apply: items_glue.
have := items_ne IT; case: iT IT FT ET => // i iT IT FT ET _ /=.
congr (read_lines _ _); case/andP: ET => Ei ET.
rewrite foldl_even //.
  rewrite /rec_state /data_line /= Ei /= -FT /= pairs_cat //.
  case: (r_coefs st) => [|c cs] /=; by case: (r_marker st == 0%N); rewrite /= ?cats0.
by rewrite /data_line /= Ei /=; case: (r_marker st) => [|m] //=; rewrite size_rcons.
Qed.
End Read.

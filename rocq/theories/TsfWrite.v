(** Proofs about TsfModel.v: what the written texts give when they are read. *)
From mathcomp Require Import all_ssreflect all_algebra.
From Coq Require Import String Ascii Decimal DecimalString PeanoNat.
From Verif Require Import Base ConvModel ConvSpec ConvProofs ConvArr ConvExamples UtilModel UtilThm TsfModel TsfText TsfThm.
Set Implicit Arguments.
Unset Strict Implicit.
Unset Printing Implicit Defensive.
Import Order.TTheory GRing.Theory Num.Theory.
Local Open Scope string_scope.
Local Open Scope ring_scope.
Local Open Scope seq_scope.

Lemma decimal_LF n : LF \notin chars (decimal n).
Proof.
have H : forall d, LF \notin chars (NilEmpty.string_of_uint d) by elim.
rewrite /decimal; case: (Nat.to_uint n) => //= d; by rewrite in_cons negb_or H andbT.
Qed.

Section Write.
Variable C : numClosedFieldType.
Variable float : string -> option C.
Variable fmtf : string -> C -> string.
Variables (db : C -> C) (angdeg : C -> C).
(** the number read back from ('%' + spec) % x *)
Variable rdv : string -> C -> C.
Notation wpair := (wpair db angdeg).

(** the pair of numbers of a coefficient can be written and read with the formats f1 f2 *)
Definition can_write (fmt f1 f2 : string) (x : C) : Prop :=
  numtext float (fmtf f1 (wpair fmt x).1) (rdv f1 (wpair fmt x).1) /\
  numtext float (fmtf f2 (wpair fmt x).2) (rdv f2 (wpair fmt x).2).
Definition pvals (fmt f1 f2 : string) (xs : seq C) : seq C :=
  flatten [seq [:: rdv f1 (wpair fmt x).1; rdv f2 (wpair fmt x).2] | x <- xs].

Lemma pvals_cat fmt f1 f2 a b : pvals fmt f1 f2 (a ++ b) = pvals fmt f1 f2 a ++ pvals fmt f1 f2 b.
Proof. by rewrite /pvals map_cat flatten_cat. Qed.


Lemma rowcmt k : LF \notin chars (" !    row " ++ decimal k) /\ words (before_bang (" !    row " ++ decimal k)) = [::].
Proof. by split=> //; rewrite LF_app negb_or decimal_LF. Qed.

(** a pair, then possibly a line break, then the rest *)
Lemma dt_step t v w w0 (brk : bool) (c rest : string) vals :
  pairtext float t v w -> LF \notin chars c -> words (before_bang c) = [::] -> datatext float rest vals ->
  datatext float (t ++ (if brk then (c ++ nl ++ blanks w0)%string else "") ++ rest) [:: v, w & vals].
Proof.
move=> Ht H1 H2 Hr; have -> : [:: v, w & vals] = [:: v; w] ++ vals by [].
rewrite appA; apply: dt_app => //; case: brk; first exact: dt_break.
by rewrite app0; apply: dt_pair.
Qed.

Lemma dt_wrow n fmt f1 f2 w kr kc xs : {in xs, forall x, can_write fmt f1 f2 x} ->
  datatext float (wrow fmtf db angdeg n fmt f1 f2 (blanks w) kr kc xs) (pvals fmt f1 f2 xs).
Proof.
elim: xs kc => [|x xs IH] kc Hx; first exact: dt_nil.
have [Ha Hb] := Hx x (mem_head _ _).
have Hp := @pair_of C float "" " " _ _ _ _ isT isT isT isT isT Ha Hb.
cbn [wrow]; set brk := (_ && _).
set a := fmtf f1 _; set b := fmtf f2 _.
have E : (a ++ " " ++ b ++ " " ++
   (if brk then (if kc == 3%N then " !    row " ++ decimal kr.+1 else "") ++ nl ++ blanks w else "") ++
   wrow fmtf db angdeg n fmt f1 f2 (blanks w) kr kc.+1 xs)%string =
  (("" ++ a ++ " " ++ b ++ " ") ++
   (if brk then (if kc == 3%N then " !    row " ++ decimal kr.+1 else "") ++ nl ++ blanks w else "") ++
   wrow fmtf db angdeg n fmt f1 f2 (blanks w) kr kc.+1 xs)%string.
  by rewrite -!appA.
rewrite E; apply: dt_step => //.
- by case: (kc == 3%N) => //; have [] := rowcmt kr.+1.
- by case: (kc == 3%N) => //; have [] := rowcmt kr.+1.
- by apply: IH => y Hy; apply: Hx; rewrite inE Hy orbT.
Qed.

Lemma dt_wrows n fmt f1 f2 w kr rows : {in flatten rows, forall x, can_write fmt f1 f2 x} ->
  datatext float (wrows fmtf db angdeg n fmt f1 f2 (blanks w) kr rows) (pvals fmt f1 f2 (flatten rows)).
Proof.
elim: rows kr => [|r rows IH] kr H; first exact: dt_nil.
cbn [wrows flatten foldr]; rewrite -/(flatten rows) pvals_cat; apply: dt_app.
  by apply: dt_wrow => x Hx; apply: H; rewrite mem_cat Hx.
have -> : pvals fmt f1 f2 (flatten rows) = [::] ++ pvals fmt f1 f2 (flatten rows) by [].
apply: dt_app; last by apply: IH => x Hx; apply: H; rewrite mem_cat Hx orbT.
case: (2 < n)%N; last exact: dt_nil.
have -> : [::] = [::] ++ [::] :> seq C by [].
apply: dt_app; first exact: dt_nl.
by case: (kr != _)%N; [exact: dt_blanks|exact: dt_nil].
Qed.

(** tsf2str *)
Definition elfmts (fmt : string) : string * string :=
  if fmt == "RI" then ("11.8f", "11.8f") else if fmt == "MA" then ("15.12f", "9.4f") else ("15.10f", "9.4f").
Lemma dt_trow n fmt w kr kc xs : {in xs, forall x, can_write fmt (elfmts fmt).1 (elfmts fmt).2 x} ->
  datatext float (trow fmtf db angdeg n fmt (blanks w) kr kc xs) (pvals fmt (elfmts fmt).1 (elfmts fmt).2 xs).
Proof.
elim: xs kc => [|x xs IH] kc Hx; first exact: dt_nil.
have [Ha Hb] := Hx x (mem_head _ _).
have Hp := @pair_of C float "  " "  " _ _ _ _ isT isT isT isT isT Ha Hb.
cbn [trow]; set brk := (_ && _).
have -> : elstr fmtf db angdeg fmt x = ("  " ++ fmtf (elfmts fmt).1 (wpair fmt x).1 ++ " " ++ fmtf (elfmts fmt).2 (wpair fmt x).2)%string.
  by rewrite /elstr /elfmts; case: (fmt == "RI") => //; case: (fmt == "MA").
set a := fmtf _ _; set b := fmtf _ _.
have E : (("  " ++ a ++ " " ++ b) ++ "  " ++
   (if brk then (if kc == 3%N then " !    row " ++ decimal kr.+1 else "") ++ nl ++ blanks w else "") ++
   trow fmtf db angdeg n fmt (blanks w) kr kc.+1 xs)%string =
  (("  " ++ a ++ " " ++ b ++ "  ") ++
   (if brk then (if kc == 3%N then " !    row " ++ decimal kr.+1 else "") ++ nl ++ blanks w else "") ++
   trow fmtf db angdeg n fmt (blanks w) kr kc.+1 xs)%string.
  by rewrite -!appA.
rewrite E; apply: dt_step => //.
- by case: (kc == 3%N) => //; have [] := rowcmt kr.+1.
- by case: (kc == 3%N) => //; have [] := rowcmt kr.+1.
- by apply: IH => y Hy; apply: Hx; rewrite inE Hy orbT.
Qed.
Lemma dt_trows n fmt w kr rows : {in flatten rows, forall x, can_write fmt (elfmts fmt).1 (elfmts fmt).2 x} ->
  datatext float (trows fmtf db angdeg n fmt (blanks w) kr rows) (pvals fmt (elfmts fmt).1 (elfmts fmt).2 (flatten rows)).
Proof.
elim: rows kr => [|r rows IH] kr H; first exact: dt_nil.
cbn [trows flatten foldr]; rewrite -/(flatten rows) pvals_cat; apply: dt_app.
  by apply: dt_trow => x Hx; apply: H; rewrite mem_cat Hx.
set v := pvals _ _ _ _; have -> : v = [::] ++ ([::] ++ v) by [].
apply: dt_app; first exact: dt_nl.
apply: dt_app; last by apply: IH => x Hx; apply: H; rewrite mem_cat Hx orbT.
by case: (kr != _)%N; [exact: dt_blanks|exact: dt_nil].
Qed.

(** ** sequences of records *)
Definition recs (st : rd C) (l : seq (C * seq C)) := foldl (fun st x => rec_state st x.1 x.2) st l.
Lemma recsE st l : (r_marker st != 0%N) -> all (fun x : C * seq C => pairs x.2 != [::]) l -> r_coefs st != [::] ->
  let st' := recs st l in
  [/\ r_fs st' = r_fs st ++ map fst l,
      rcons (r_Ss st') (r_coefs st') = rcons (r_Ss st) (r_coefs st) ++ [seq pairs x.2 | x <- l],
      r_comments st' = r_comments st, r_marker st' = r_marker st & r_fmt st' = r_fmt st].
Proof.
elim: l st => [|[f v] l IH] st Hm; first by rewrite /= !cats0.
case/andP => Hv Hl Hc; cbn zeta.
have [||E1 E2 E3 E4 E5] := IH (rec_state st f v) _ Hl.
- by rewrite /= (negbTE Hm).
- exact: Hv.
rewrite /recs [foldl _ _ _]/= -/(recs _ _); split; rewrite ?E1 ?E2 ?E3 ?E4 ?E5 /= ?(negbTE Hm) //.
  by rewrite cat_rcons.
by case: (r_coefs st) Hc => // c cs _; rewrite /= cat_rcons.
Qed.
Lemma recs0 cs f l : l != [::] -> all (fun x : C * seq C => pairs x.2 != [::]) l ->
  let st' := recs (Rd cs [::] [::] [::] 0 f) l in
  [/\ r_fs st' = map fst l, rcons (r_Ss st') (r_coefs st') = [seq pairs x.2 | x <- l],
      r_comments st' = rcons cs MARKER, r_marker st' = (size cs).+1 & r_fmt st' = f].
Proof.
case: l => // -[f0 v] l _ /andP [Hv Hl]; cbn zeta.
have [||E1 E2 E3 E4 E5] := @recsE (rec_state (Rd cs [::] [::] [::] 0 f) f0 v) l _ Hl.
- by rewrite /= size_rcons.
- exact: Hv.
rewrite /recs [foldl _ _ _]/= -/(recs _ _); split; rewrite ?E1 ?E2 ?E3 ?E4 ?E5 //=.
by rewrite size_rcons.
Qed.

(** ** reshape *)
Lemma nth_flatten_unif (D : seq (seq C)) L k r : all (fun x => size x == L) D -> (r < L)%N ->
  (flatten D)`_(k * L + r) = (nth [::] D k)`_r.
Proof.
elim: D k => [|d D IH] k /=; first by rewrite !nth_nil.
case/andP => /eqP Hd HD Hr; rewrite nth_cat Hd; case: k => [|k].
  by rewrite mul0n add0n Hr.
by rewrite mulSn -addnA ltnNge leq_addr /= addnC addnK IH.
Qed.
Lemma nports_sq n : nports_of (n * n) = n.
Proof.
rewrite /nports_of; have -> : Nat.sqrt (n * n) = n by exact: PeanoNat.Nat.sqrt_square.
by rewrite ltnNge leq_addr.
Qed.
Definition mxflat n (S : 'M[C]_n) := flatten (mx_rows S).
Lemma size_mxflat n (S : 'M[C]_n) : size (mxflat S) = (n * n)%N.
Proof.
rewrite /mxflat size_flatten /shape /mx_rows -map_comp.
have -> : [seq (size \o (fun i => [seq S i j | j <- enum 'I_n])) i | i <- enum 'I_n] = nseq n n.
  have H s : [seq (size \o (fun i => [seq S i j | j <- enum 'I_n])) i | i <- s] = nseq (size s) n.
    by elim: s => //= i s ->; rewrite size_map size_enum_ord.
  by rewrite H size_enum_ord.
by rewrite sumn_nseq.
Qed.
Lemma nth_mxflat n (S : 'M[C]_n) (i j : 'I_n) : (mxflat S)`_(i * n + j) = S i j.
Proof.
rewrite /mxflat nth_flatten_unif ?ltn_ord //; last first.
  by apply/allP => r /mapP [k _ ->]; rewrite size_map size_enum_ord.
rewrite /mx_rows (nth_map i) ?size_enum_ord ?ltn_ord //.
by rewrite (nth_map j) ?size_enum_ord ?ltn_ord // !nth_ord_enum.
Qed.
(** the number read for a coefficient, before the conversion from the format *)
Definition raw fmt f1 f2 (x : C) : C := rdv f1 (wpair fmt x).1 + 'i * rdv f2 (wpair fmt x).2.
Lemma pairs_pvals fmt f1 f2 xs : pairs (pvals fmt f1 f2 xs) = map (raw fmt f1 f2) xs.
Proof. by elim: xs => //= x xs <-. Qed.
Lemma reshape_mx n fmt f1 f2 (Ss : seq 'M[C]_n) : Ss != [::] ->
  reshape (size Ss) [seq pairs (pvals fmt f1 f2 (mxflat Sm)) | Sm <- Ss] =
  Ok (existT (fun N => seq 'M[C]_N) n [seq map_mx (raw fmt f1 f2) Sm | Sm <- Ss]).
Proof.
move=> Hne; set D := map _ Ss.
have HD : all (fun r => size r == (n * n)%N) D.
  by apply/allP => r /mapP [Sm _ ->]; rewrite pairs_pvals size_map size_mxflat.
have HL : size (head [::] D) = (n * n)%N.
  by rewrite /D; case: Ss Hne {D HD} => //= Sm Ss _; rewrite pairs_pvals size_map size_mxflat.
rewrite /reshape HL nports_sq HD size_map eqxx /=; congr (Ok (existT _ _ _)).
apply: (@eq_from_nth _ 0); first by rewrite !size_map size_iota.
move=> k; rewrite size_map size_iota => Hk.
rewrite (nth_map 0%N) ?size_iota // nth_iota // add0n (nth_map 0) //.
apply/matrixP => i j; rewrite !mxE nth_flatten_unif //; last first.
  apply: (@leq_trans (i * n + n)); first by rewrite ltn_add2l.
  by rewrite -mulSnr leq_mul2r ltn_ord orbT.
rewrite /D (nth_map 0) // pairs_pvals (nth_map 0) ?size_mxflat; last first.
  apply: (@leq_trans (i * n + n)); first by rewrite ltn_add2l.
  by rewrite -mulSnr leq_mul2r ltn_ord orbT.
by rewrite nth_mxflat.
Qed.
End Write.

(** Library lemmas for the circuit proofs: wave names, association lists, the
    loop combinator, sums over the list of waves. *)
From mathcomp Require Import all_ssreflect all_algebra.
From Coq Require Import String Ascii.
From Coq Require List.
From Verif Require Import Base MxLib ConvModel CircModel.
Set Implicit Arguments.
Unset Strict Implicit.
Unset Printing Implicit Defensive.
Import GRing.Theory Num.Theory.
Local Open Scope ring_scope.
Local Open Scope seq_scope.

(** ** names *)
Lemma fwd_inj : injective fwd. Proof. exact: append_inj_l. Qed.
Lemma bwd_inj : injective bwd. Proof. exact: append_inj_l. Qed.
Lemma fwd_bwd p q : (fwd p == bwd q) = false. Proof. by []. Qed.
Lemma bwd_fwd p q : (bwd p == fwd q) = false. Proof. by []. Qed.
Lemma fwd_eq p q : (fwd p == fwd q) = (p == q). Proof. exact: (inj_eq fwd_inj). Qed.
Lemma bwd_eq p q : (bwd p == bwd q) = (p == q). Proof. exact: (inj_eq bwd_inj). Qed.
Lemma fwd_mem p s : (fwd p \in map fwd s) = (p \in s). Proof. exact: (mem_map fwd_inj). Qed.
Lemma bwd_mem p s : (bwd p \in map bwd s) = (p \in s). Proof. exact: (mem_map bwd_inj). Qed.
Lemma fwd_notin_bwd p s : (fwd p \in map bwd s) = false.
Proof. by apply/mapP => -[q _ /eqP]. Qed.
Lemma bwd_notin_fwd p s : (bwd p \in map fwd s) = false.
Proof. by apply/mapP => -[q _ /eqP]. Qed.

Lemma dot_inj b : injective (dot b).
Proof. by move=> p q /append_inj_l /append_inj_l. Qed.

Lemma has_char_append c a b : has_char c (a +s+ b) = has_char c a || has_char c b.
Proof. by elim: a => //= d a ->; rewrite orbA. Qed.

Lemma dot_has b p : has_char "."%char (dot b p).
Proof. by rewrite /dot has_char_append /= orbT. Qed.

Lemma dot_name b p b' p' : ~~ has_char "."%char b -> ~~ has_char "."%char b' ->
  dot b p = dot b' p' -> b = b'.
Proof.
elim: b b' => [|c b IH] [|c' b'] //=.
- by rewrite negb_or => _ /andP[H _] [E _]; rewrite -E in H.
- by rewrite negb_or => /andP[H _] _ [E _]; rewrite E in H.
by rewrite !negb_or => /andP[_ H] /andP[_ H'] [-> E]; rewrite (IH b').
Qed.

(** ** association lists *)
Section D.
Variables (T : eqType) (V : Type).
Implicit Types d : seq (T * V).

Lemma dget_None d k : dget d k = None <-> k \notin dkeys d.
Proof. by rewrite -dhasE /dhas; case: (dget d k). Qed.

Lemma dget_keys d k v : dget d k = Some v -> k \in dkeys d.
Proof. by rewrite -dhasE /dhas => ->. Qed.

Lemma dget_mem d k : k \in dkeys d -> exists v, dget d k = Some v.
Proof. by rewrite -dhasE /dhas; case: (dget d k) => // v _; exists v. Qed.

Lemma dset_new d k v : k \notin dkeys d -> dset d k v = d ++ [:: (k, v)].
Proof.
elim: d => [|[k' v'] d IH] //=; rewrite in_cons negb_or => /andP[/negbTE -> H].
by rewrite IH.
Qed.

Lemma dkeys_cat d d' : dkeys (d ++ d') = dkeys d ++ dkeys d'.
Proof. by rewrite /dkeys map_cat. Qed.

Lemma dget_cat d d' k : dget (d ++ d') k = if dget d k is Some v then Some v else dget d' k.
Proof. by elim: d => [|[k' v'] d IH] //=; case: eqP. Qed.

Lemma size_dset d k v : size (dset d k v) = ((k \notin dkeys d) + size d)%N.
Proof.
elim: d => [|[k' v'] d IH] //=; rewrite in_cons.
by case: (k =P k') => //= _; rewrite IH addnS.
Qed.

Lemma dget_ddel d k k' : uniq (dkeys d) -> dget (ddel d k) k' = if k' == k then None else dget d k'.
Proof.
elim: d => [|[k1 v1] d IH] /=; first by rewrite if_same.
case/andP=> Hn Hu; case: (k =P k1) => [->|Hne] /=.
  by case: (k' =P k1) => [->|//]; apply/dget_None.
rewrite IH //; case: (k' =P k1) => [->|//].
by case: eqP => // E; case: Hne.
Qed.

Lemma dkeys_ddel d k : dkeys (ddel d k) = rem k (dkeys d).
Proof.
elim: d => [|[k1 v1] d IH] //=; rewrite eq_sym; case: eqP => //= _.
by rewrite -IH.
Qed.

Lemma size_ddel d k : k \in dkeys d -> size (ddel d k) = (size d).-1.
Proof.
by move=> H; have := congr1 size (dkeys_ddel d k); rewrite size_rem // /dkeys !size_map.
Qed.

Lemma dget_In d k v : dget d k = Some v -> List.In (k, v) d.
Proof.
elim: d => [|[k1 v1] d IH] //=; case: eqP => [-> [->]|_ /IH]; by [left|right].
Qed.

Lemma In_dget d k v : uniq (dkeys d) -> List.In (k, v) d -> dget d k = Some v.
Proof.
elim: d => [|[k1 v1] d IH] //= /andP[Hn Hu] [[-> ->]|H]; first by rewrite eqxx.
case: eqP => [E|_]; last exact: IH.
by move: Hn; rewrite -E -[_ \in _]dhasE /dhas (IH Hu H).
Qed.
End D.

(** ** the loop combinator *)
Lemma loop_cons S A (step : S -> A -> S * res unit) s x xs :
  loop step s (x :: xs) = let r := step s x in if r.2 is Ok _ then loop step r.1 xs else r.
Proof. by []. Qed.

(** ** sums over waves *)
Section Sums.
Variable R : fieldType.

Definition rsum (ws : seq string) (g w : string -> R) : R := \sum_(s <- ws) g s * w s.

Lemma rsum_sub ws L (g w : string -> R) : uniq ws -> uniq L -> {subset L <= ws} ->
  (forall s, s \notin L -> g s = 0) -> rsum ws g w = rsum L g w.
Proof.
move=> Hw HL Hs H0; rewrite /rsum (bigID (mem L)) /= addrC big1 ?add0r; last first.
  by move=> s /H0 ->; rewrite mul0r.
rewrite -big_filter; apply: perm_big; apply: uniq_perm => //; first exact: filter_uniq.
move=> s; rewrite mem_filter; apply/andb_idr; exact: Hs.
Qed.

Lemma rsum_pad ws ws' (g w : string -> R) : (forall s, s \in ws' -> g s = 0) ->
  rsum (ws ++ ws') g w = rsum ws g w.
Proof.
move=> H; rewrite /rsum big_cat /=.
have -> : \sum_(s <- ws') g s * w s = 0; last by rewrite addr0.
by rewrite big_seq big1 // => s /H ->; rewrite mul0r.
Qed.

Lemma rsum_ext ws (g g' w : string -> R) : {in ws, g =1 g'} -> rsum ws g w = rsum ws g' w.
Proof. by move=> H; rewrite /rsum; apply: eq_big_seq => s /H ->. Qed.

Lemma rsum0 ws w : rsum ws (fun=> 0) w = 0.
Proof. by rewrite /rsum big1 // => s _; rewrite mul0r. Qed.
End Sums.

(** ** rows as images of the list of waves *)
Section Rows.
Variable T : eqType.
Variable R : Type.
Implicit Types (ws : seq T) (g : T -> R).

Definition fupd g t x : T -> R := fun s => if s == t then x else g s.

Lemma set_nth_map (x0 : R) ws g t x : uniq ws -> t \in ws ->
  set_nth x0 (map g ws) (seq.index t ws) x = map (fupd g t x) ws.
Proof.
elim: ws => [|s ws IH] //= /andP[Hn Hu]; rewrite in_cons /fupd eq_sym.
case: (s =P t) => [Est|Hne] /= Ht.
  congr cons; apply/eq_in_map => u Hu'.
  by case: eqP => // E; move: Hn; rewrite Est -E Hu'.
by congr cons; apply: IH.
Qed.
End Rows.

(** ** list pops *)
Lemma lpop_index (T : eqType) (s : seq T) x : x \in s -> lpop s (seq.index x s) = Ok (rem x s).
Proof. by move=> H; rewrite /lpop index_mem H remE.
Qed.

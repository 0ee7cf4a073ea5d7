(** C26: set changes exactly the attribute it names. *)
From mathcomp Require Import all_ssreflect.
From Coq Require Import String Ascii.
From Verif Require Import Base CircLib CircMaxV SetModel.
Set Implicit Arguments.
Unset Strict Implicit.
Unset Printing Implicit Defensive.
Local Open Scope seq_scope.

Lemma split_dot_dot b r : ~~ has_char "."%char b -> split_dot (b +s+ ("." +s+ r)) = Some (b, r).
Proof.
elim: b => //= a b IH; rewrite negb_or eq_sym => /andP[/negbTE -> /IH ->] //.
Qed.

Lemma rsplit_none s : ~~ has_char "."%char s -> rsplit_dot s = None.
Proof.
elim: s => //= a s IH; rewrite negb_or eq_sym => /andP[H /IH ->]; by rewrite (negbTE H).
Qed.

Lemma rsplit_dot_dot b r : ~~ has_char "."%char r -> rsplit_dot (b +s+ ("." +s+ r)) = Some (b, r).
Proof.
move=> Hr; elim: b => /= [|a b ->] //; by rewrite rsplit_none.
Qed.

Section SetThm.
Variable V : eqType.
Variable ofstr : string -> V.
Notation sval := (sval V).
Notation obj := (obj V).
Notation set_call := (set_call ofstr).
Notation set := (@SetModel.set V).
Implicit Types (o : obj) (v w u : sval) (bs : seq (string * obj)).

Fixpoint sval_eqbP (a : sval) : forall b, reflect (a = b) (sval_eqb a b).
Proof.
case: a => [x|d] [y|e]; try by constructor.
  by apply: (iffP eqP) => [->|[->]].
rewrite /=; apply: (iffP idP); last first.
  case=> <- {e}; elim: d => //= -[k x] d IH /=; rewrite eqxx IH andbT.
  exact: (introT (sval_eqbP x x)).
move=> H; congr SDict; elim: d e H => [|[k x] d IH] [|[l y] e] //= /and3P[/eqP -> Hxy /IH ->].
by rewrite (elimT (sval_eqbP x y) Hxy).
Qed.

(** names that can be part of a dotted path *)
Definition name_ok (b : string) := (b != "") && ~~ has_char "."%char b.

(** the call that reaches the device at the end of a path *)
Definition form (path : seq string) (d : seq (string * sval)) : call V :=
  if path is [::] then CKw d else CPos (dotted path) (SDict d).

Fixpoint put (o : obj) (path : seq string) (attr : string) (v : sval) (md : bool) : obj :=
  match path, o with
  | [::], Dev at' ca => Dev (dset at' attr v) (ca && ~~ md)
  | b :: p, Circ bs ca =>
    if dget bs b is Some o1 then Circ (dset bs b (put o1 p attr v md)) (ca && ~~ md) else o
  | _, _ => o
  end.

Lemma dotted_cons b p : p != [::] -> dotted (b :: p) = b +s+ ("." +s+ dotted p).
Proof. by case: p. Qed.

Lemma dotted_ne b p : name_ok b -> dotted (b :: p) <> "".
Proof. by case/andP; case: b => // a b _ _; case: p. Qed.

Lemma locate_dict b p (d : seq (string * sval)) : all name_ok (b :: p) -> locate (dotted (b :: p)) (SDict d) =
  Ok (b, dotted p, d).
Proof.
move=> /= /andP[/andP[_ Hb] Hp]; rewrite /locate /=; case: p Hp => [|b' p] Hp.
  by rewrite split_dot_none.
by rewrite split_dot_dot.
Qed.

Lemma child_form b p (d : seq (string * sval)) : all name_ok (b :: p) ->
  (if dotted p is EmptyString then CKw d else CPos (dotted p) (SDict d)) = form p d.
Proof.
move=> /= /andP[_]; case: p => [|b' p] // /andP[H _]; have := @dotted_ne b' p H.
by rewrite /form; case: (dotted (b' :: p)).
Qed.

Lemma at_path_cons o b p : at_path o (b :: p) =
  if o is Circ bs _ then if dget bs b is Some o1 then at_path o1 p else None else None.
Proof. by case: o => //= bs _; case: (dget bs b). Qed.

Lemma setn_path n o path attr v at' ca w : (size path <= n)%N -> all name_ok path ->
  at_path o path = Some (Dev at' ca) -> dget at' attr = Some w ->
  setn n o (form path [:: (attr, v)]) = (put o path attr v (~~ sval_eqb w v), Ok (~~ sval_eqb w v)).
Proof.
elim: path n o => [|b p IH] n o Hs Hn.
  by case=> -> Ha; case: n Hs => [|n] _; rewrite /= Ha.
rewrite at_path_cons; case: o => // bs ca'; case Eb: (dget bs b) => [o1|//] Hp Ha.
case: n Hs => // n Hs; rewrite [setn _ _ _]/= /circ_set /form /circ_loop /step_set locate_dict // Eb.
rewrite (child_form _ Hn).
have Ho1 : o1 <> Arr V by move=> E; rewrite E in Hp; case: (p) Hp.
have := IH n o1 Hs _ Hp Ha; case/andP: Hn => _ Hn /(_ Hn) E.
by case: o1 Eb Hp E Ho1 => [at1 ca1|//|bs1 ca1] Eb Hp E _; rewrite E /= Eb.
Qed.

Lemma depth_le bs b (o : obj) ca : dget bs b = Some o -> (depth o < depth (Circ bs ca))%N.
Proof.
rewrite /= ltnS; elim: bs => //= -[n1 o1] bs IH /=; case: eqP => [_ [->]|_ /IH H].
  exact: leq_maxl.
by apply: leq_trans H _; exact: leq_maxr.
Qed.

Lemma depth_path o path o1 : at_path o path = Some o1 -> (size path + depth o1 <= depth o)%N.
Proof.
elim: path o => [|b p IH] o; first by case=> ->.
rewrite at_path_cons; case: o => // bs ca; case Eb: (dget bs b) => [o2|//] /IH H.
by apply: leq_ltn_trans H (depth_le _ Eb).
Qed.

(** ** what put does *)
Lemma put_attr o path attr v md at' ca : at_path o path = Some (Dev at' ca) ->
  attr_at (put o path attr v md) path attr = Some v.
Proof.
rewrite /attr_at; elim: path o => [|b p IH] o; first by case=> -> /=; rewrite dget_dset eqxx.
rewrite at_path_cons; case: o => // bs ca'; case Eb: (dget bs b) => [o1|//] /IH H.
by rewrite /= Eb /= dget_dset eqxx.
Qed.

Lemma put_other o path attr v md path2 attr2 : (path2, attr2) != (path, attr) ->
  attr_at (put o path attr v md) path2 attr2 = attr_at o path2 attr2.
Proof.
rewrite /attr_at; elim: path o path2 => [|b p IH] o [|b2 p2] Hne.
- case: o => //= at' ca; rewrite dget_dset; case: eqP => // E.
  by rewrite E eqxx in Hne.
- by case: o.
- by case: o => //= bs ca; case: (dget bs b).
- case: o => //= bs ca; case Eb: (dget bs b) => [o1|//] /=; rewrite dget_dset.
  case: (b2 =P b) => [E|//]; rewrite E Eb /=; apply: IH.
  by move: Hne; rewrite E !xpair_eqE eqseq_cons eqxx.
Qed.

Lemma put_cache o path attr v md path2 at' ca : at_path o path = Some (Dev at' ca) ->
  cached_at (put o path attr v md) path2 =
  if md && seq.prefix path2 path then Some false else cached_at o path2.
Proof.
rewrite /cached_at; elim: path o path2 => [|b p IH] o [|b2 p2].
- by case=> -> /=; case: md; rewrite ?andbT ?andbF.
- by case=> -> /=; rewrite andbF.
- rewrite at_path_cons; case: o => // bs ca'; case Eb: (dget bs b) => [o1|//] _ /=.
  by rewrite Eb /=; case: (md); rewrite ?andbT ?andbF.
rewrite at_path_cons; case: o => // bs ca'; case Eb: (dget bs b) => [o1|//] H.
rewrite /= Eb /= dget_dset; case: (b2 =P b) => [->|//]; first by rewrite Eb /= IH.
by rewrite andbF.
Qed.

Lemma dset_same (d : seq (string * sval)) k v : dget d k = Some v -> dset d k v = d.
Proof. by elim: d => //= -[k1 v1] d IH; case: eqP => [_ [->]|_ /IH ->]. Qed.
Lemma dset_same_o (d : seq (string * obj)) k (v : obj) : dget d k = Some v -> dset d k v = d.
Proof. by elim: d => //= -[k1 v1] d IH; case: eqP => [_ [->]|_ /IH ->]. Qed.

Lemma put_id o path attr v at' ca : at_path o path = Some (Dev at' ca) -> dget at' attr = Some v ->
  put o path attr v false = o.
Proof.
move=> H Ha; elim: path o H => [|b p IH] o; first by case=> -> /=; rewrite dset_same // andbT.
rewrite at_path_cons; case: o => // bs ca'; case Eb: (dget bs b) => [o1|//] /IH H.
by rewrite /= Eb H dset_same_o // andbT.
Qed.

(** ** the forms of a call *)
Lemma set_value_dict o bs ca path attr x : o = Circ bs ca -> path <> [::] -> ~~ has_char "."%char attr ->
  set_call o [:: AStr V (dotted path +s+ ("." +s+ attr)); AVal (SNum x)] [::] =
  set_call o [:: AStr V (dotted path); AVal (SDict [:: (attr, SNum x)])] [::].
Proof.
move=> -> Hp Ha; rewrite /set_call /= /set; case Ed: (depth _) => [|n] //.
have E : rsplit_dot (dotted path +s+ String "."%char attr) = Some _ := rsplit_dot_dot (dotted path) Ha.
by rewrite /dict1 /= /circ_set /= /step_set /locate E.
Qed.

Lemma set_tuple o k v kw : set_call o [:: ATup k v] kw = set_call o [:: AStr V k; AVal v] kw.
Proof. by []. Qed.

Lemma set_path o path attr v at' ca w : path <> [::] -> all name_ok path ->
  at_path o path = Some (Dev at' ca) -> dget at' attr = Some w ->
  set_call o [:: AStr V (dotted path); AVal (SDict [:: (attr, v)])] [::] =
  (put o path attr v (~~ sval_eqb w v), Ok (~~ sval_eqb w v)).
Proof.
move=> Hp Hn Ho Ha; rewrite /set_call /= /set.
have Hd := depth_path Ho; rewrite /= addn0 in Hd.
have := setn_path v Hd Hn Ho Ha; case: path Hp Hn Ho Hd => // b p _ Hn Ho Hd <-.
case: o Ho Hd => //= bs ca' Ho Hd; by [].
Qed.

(** set(a = {'b': {'attr': v}}) *)
Fixpoint nested (path : seq string) (attr : string) (v : sval) : seq (string * sval) :=
  if path is b :: p then [:: (b, SDict (nested p attr v))] else [:: (attr, v)].

Lemma nested_ne path attr v : nested path attr v <> [::].
Proof. by case: path. Qed.

Lemma set_nested n o path attr v at' ca w : (size path <= n)%N -> all name_ok path ->
  at_path o path = Some (Dev at' ca) -> dget at' attr = Some w ->
  setn n o (CKw (nested path attr v)) =
  (put o path attr v (~~ sval_eqb w v), Ok (~~ sval_eqb w v)).
Proof.
elim: path n o => [|b p IH] n o Hs Hn.
  by case=> -> Ha; case: n Hs => [|n] _; rewrite /= Ha.
rewrite at_path_cons; case: o => // bs ca'; case Eb: (dget bs b) => [o1|//] Hp Ha.
case: n Hs => // n Hs; case/andP: (Hn) => /andP[_ Hb] Hn'.
rewrite [setn _ _ _]/= /circ_set /= /step_set /locate /= split_dot_none //= Eb.
have Ho1 : o1 <> Arr V by move=> E; rewrite E in Hp; case: (p) Hp.
have E := IH n o1 Hs Hn' Hp Ha.
case: o1 Eb Hp E Ho1 => [at1 ca1|//|bs1 ca1] Eb Hp E _; by rewrite E /=; case En: (nested p attr v) (@nested_ne p attr v) => [|? ?].
Qed.

Lemma set_nested_call o path attr v at' ca w : path <> [::] -> all name_ok path ->
  at_path o path = Some (Dev at' ca) -> dget at' attr = Some w ->
  set_call o [::] (nested path attr v) = (put o path attr v (~~ sval_eqb w v), Ok (~~ sval_eqb w v)).
Proof.
move=> Hp Hn Ho Ha; rewrite /set_call /= /set.
by have Hd := depth_path Ho; rewrite /= addn0 in Hd; exact: set_nested Hd Hn Ho Ha.
Qed.

(** ** refused calls *)
Lemma setn_fail n o pre o1 post attr v e : (size pre + depth o1 <= n)%N ->
  all name_ok (pre ++ post) -> at_path o pre = Some o1 -> o1 <> Arr V ->
  e <> AttributeError ->
  (forall m, (depth o1 <= m)%N -> setn m o1 (form post [:: (attr, v)]) = (o1, Raise e)) ->
  setn n o (form (pre ++ post) [:: (attr, v)]) = (o, Raise e).
Proof.
move=> Hs Hn Ho Hna He H; elim: pre n o Hs Hn Ho => [|b p IH] n o Hs Hn.
  by case=> ->; exact: H.
rewrite at_path_cons; case: o => // bs ca'; case Eb: (dget bs b) => [o2|//] Hp.
case: n Hs => // n Hs; rewrite [_ ++ post]/= in Hn *.
rewrite [setn _ _ _]/= /circ_set /form /circ_loop /step_set locate_dict // Eb.
rewrite (child_form _ Hn).
have Ho2 : o2 <> Arr V by move=> E; rewrite E in Hp; case: (p) Hp => // -[E1]; case: Hna.
have := IH n o2 Hs _ Hp; case/andP: Hn => _ Hn /(_ Hn) E.
by case: o2 Eb Hp E Ho2 => [at1 ca1|//|bs1 ca1] Eb Hp E _; rewrite E /= (dset_same_o Eb); case: (e) He.
Qed.

Lemma set_fail o pre o1 post attr v e : pre ++ post <> [::] ->
  all name_ok (pre ++ post) -> at_path o pre = Some o1 -> o1 <> Arr V -> e <> AttributeError ->
  (exists bs ca, o = Circ bs ca) ->
  (forall m, (depth o1 <= m)%N -> setn m o1 (form post [:: (attr, v)]) = (o1, Raise e)) ->
  set_call o [:: AStr V (dotted (pre ++ post)); AVal (SDict [:: (attr, v)])] [::] = (o, Raise e).
Proof.
move=> Hne Hn Ho Hna He [bs [ca Eo]] H; rewrite /set_call /= /set.
have Hd := depth_path Ho.
have := setn_fail Hd Hn Ho Hna He H; case: (pre ++ post) Hne => // b p _.
by rewrite Eo.
Qed.

(** an unknown block, at any depth *)
Lemma set_unknown_block bs0 ca0 pre bs ca b post attr v : all name_ok (pre ++ b :: post) ->
  at_path (Circ bs0 ca0) pre = Some (Circ bs ca) -> b \notin dkeys bs ->
  set_call (Circ bs0 ca0) [:: AStr V (dotted (pre ++ b :: post)); AVal (SDict [:: (attr, v)])] [::] =
  (Circ bs0 ca0, Raise KeyError).
Proof.
move=> Hn Ho Hb; apply: (set_fail _ Hn Ho) => //; [by case: (pre)|by exists bs0, ca0|].
move=> [|m] //= _; rewrite /circ_set /circ_loop /step_set locate_dict; last first.
  by move: Hn; rewrite all_cat => /andP[].
by move/dget_None: Hb => ->.
Qed.

(** an unknown attribute *)
Lemma set_unknown_attr bs0 ca0 path at' ca attr v : path <> [::] -> all name_ok path ->
  at_path (Circ bs0 ca0) path = Some (Dev at' ca) -> attr \notin dkeys at' ->
  set_call (Circ bs0 ca0) [:: AStr V (dotted path); AVal (SDict [:: (attr, v)])] [::] =
  (Circ bs0 ca0, Raise ValueError).
Proof.
move=> Hp Hn Ho Ha; rewrite -(cats0 path) in Hp Hn *; apply: (set_fail Hp Hn Ho) => //.
  by exists bs0, ca0.
by move=> m _; case: m => [|m] /=; move/dget_None: Ha => ->.
Qed.

(** a path that goes on below a device *)
Lemma set_below_device bs0 ca0 path at' ca b post attr v : all name_ok (path ++ b :: post) ->
  at_path (Circ bs0 ca0) path = Some (Dev at' ca) ->
  set_call (Circ bs0 ca0) [:: AStr V (dotted (path ++ b :: post)); AVal (SDict [:: (attr, v)])] [::] =
  (Circ bs0 ca0, Raise TypeError).
Proof.
move=> Hn Ho; apply: (set_fail _ Hn Ho) => //; [by case: (path)|by exists bs0, ca0|].
by case.
Qed.

(** a plain value without attribute path *)
Lemma set_no_attr bs ca k x : ~~ has_char "."%char k ->
  set_call (Circ bs ca) [:: AStr V k; AVal (SNum x)] [::] = (Circ bs ca, Raise ValueError).
Proof.
by move=> Hk; rewrite /set_call /set /= /circ_set /= /step_set /locate rsplit_none.
Qed.

(** the documented form set({...}) *)
Lemma set_dict_arg o d r kw : set_call o (AVal d :: r) kw = (o, Raise ValueError).
Proof. by []. Qed.

(** a raising call can leave a modified device below a circuit that keeps its result *)
Lemma set_stale bs ca b at' ca1 x v w bad u : name_ok b -> dget bs b = Some (Dev at' ca1) ->
  dget at' x = Some w -> x != bad -> bad \notin dkeys at' ->
  set_call (Circ bs ca) [:: AStr V b; AVal (SDict [:: (x, v); (bad, u)])] [::] =
  (Circ (dset bs b (Dev (dset at' x v) ca1)) ca, Raise ValueError).
Proof.
move=> /andP[Hne Hb] Hd Hx Hxb Hbad.
rewrite /set_call /set; case Ed: (depth _) => [|n] //=.
rewrite /circ_set /circ_loop /step_set /locate /= split_dot_none // Hd.
have -> : setn n (Dev at' ca1) (CKw [:: (x, v); (bad, u)]) = (Dev (dset at' x v) ca1, Raise ValueError).
  case: n {Ed} => [|n] /=; rewrite Hx dget_dset eq_sym (negbTE Hxb); by move/dget_None: Hbad => ->.
by [].
Qed.
End SetThm.

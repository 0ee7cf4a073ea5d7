(** Property C26: set.  Model: SetModel.v.  [attr_at o path a] is the attribute a of
    the device that the block names [path] lead to from the circuit o; [cached_at o
    path] tells whether the object there has a cached result. *)
From mathcomp Require Import all_ssreflect.
From Coq Require Import String Ascii.
From Verif Require Import Base CircLib CircMaxV SetModel SetThm.
Set Implicit Arguments.
Unset Strict Implicit.
Unset Printing Implicit Defensive.
Local Open Scope string_scope.
Local Open Scope seq_scope.

Section Props.
Variable V : eqType.
Variable ofstr : string -> V.
Notation sval := (sval V).
Notation obj := (obj V).
Notation set_call := (set_call ofstr).

(** what one accepted set of one attribute does: the attribute has the value, all
    others are as before, the returned flag tells whether something changed, and
    the cached results of the device and of all circuits above it are dropped if so *)
Definition one_attr_set (o : obj) (path : seq string) (attr : string) (w v : sval)
    (r : obj * res bool) : Prop :=
  exists md, [/\ r.2 = Ok md, (md <-> w <> v), attr_at r.1 path attr = Some v,
    (forall path2 attr2, (path2, attr2) != (path, attr) ->
       attr_at r.1 path2 attr2 = attr_at o path2 attr2) &
    (forall path2, cached_at r.1 path2 =
       if md && seq.prefix path2 path then Some false else cached_at o path2)].

Lemma one_attr o path attr v at' ca w : at_path o path = Some (Dev at' ca) ->
  one_attr_set o path attr w v (put o path attr v (~~ sval_eqb w v), Ok (~~ sval_eqb w v)).
Proof.
move=> Ho; exists (~~ sval_eqb w v); split=> //=.
- by split=> [/negP H E|H]; [apply: H; apply/sval_eqbP|apply/negP=> /sval_eqbP].
- exact: put_attr Ho.
- by move=> *; exact: put_other.
- by move=> path2; exact: put_cache Ho.
Qed.

(** the four ways to say it: 'path', {attr: v}; ('path', {attr: v}); the nested
    keyword form; and 'path.attr', v *)
Theorem C26_set_path o path attr v at' ca w : path <> [::] -> all name_ok path ->
  at_path o path = Some (Dev at' ca) -> dget at' attr = Some w ->
  one_attr_set o path attr w v
    (set_call o [:: AStr V (dotted path); AVal (SDict [:: (attr, v)])] [::]).
Proof. by move=> Hp Hn Ho Ha; rewrite (set_path _ _ Hp Hn Ho Ha); exact: one_attr Ho. Qed.

Theorem C26_set_tuple o path attr v at' ca w : path <> [::] -> all name_ok path ->
  at_path o path = Some (Dev at' ca) -> dget at' attr = Some w ->
  one_attr_set o path attr w v (set_call o [:: ATup (dotted path) (SDict [:: (attr, v)])] [::]).
Proof. by move=> Hp Hn Ho Ha; rewrite set_tuple (set_path _ _ Hp Hn Ho Ha); exact: one_attr Ho. Qed.

Theorem C26_set_keywords o path attr v at' ca w : path <> [::] -> all name_ok path ->
  at_path o path = Some (Dev at' ca) -> dget at' attr = Some w ->
  one_attr_set o path attr w v (set_call o [::] (nested path attr v)).
Proof. by move=> Hp Hn Ho Ha; rewrite (set_nested_call _ _ Hp Hn Ho Ha); exact: one_attr Ho. Qed.

Theorem C26_set_dotted bs0 ca0 path attr x at' ca w : path <> [::] -> all name_ok path ->
  ~~ has_char "."%char attr ->
  at_path (Circ bs0 ca0) path = Some (Dev at' ca) -> dget at' attr = Some w ->
  one_attr_set (Circ bs0 ca0) path attr w (SNum x)
    (set_call (Circ bs0 ca0) [:: AStr V (dotted path +s+ ("." +s+ attr)); AVal (SNum x)] [::]).
Proof.
move=> Hp Hn Hd Ho Ha; rewrite (@set_value_dict _ _ _ bs0 ca0) // (set_path _ _ Hp Hn Ho Ha); exact: one_attr Ho.
Qed.

(** rejected: nothing changes *)
Theorem C26_unknown_block bs0 ca0 pre bs ca b post attr v : all name_ok (pre ++ b :: post) ->
  at_path (Circ bs0 ca0) pre = Some (Circ bs ca) -> b \notin dkeys bs ->
  set_call (Circ bs0 ca0) [:: AStr V (dotted (pre ++ b :: post)); AVal (SDict [:: (attr, v)])] [::] =
  (Circ bs0 ca0, Raise KeyError).
Proof. exact: set_unknown_block. Qed.

Theorem C26_unknown_attr bs0 ca0 path at' ca attr v : path <> [::] -> all name_ok path ->
  at_path (Circ bs0 ca0) path = Some (Dev at' ca) -> attr \notin dkeys at' ->
  set_call (Circ bs0 ca0) [:: AStr V (dotted path); AVal (SDict [:: (attr, v)])] [::] =
  (Circ bs0 ca0, Raise ValueError).
Proof. exact: set_unknown_attr. Qed.

Theorem C26_no_attr bs ca k x : ~~ has_char "."%char k ->
  set_call (Circ bs ca) [:: AStr V k; AVal (SNum x)] [::] = (Circ bs ca, Raise ValueError).
Proof. exact: set_no_attr. Qed.

(** the documented form set({...}) is rejected *)
Theorem C26_dict_argument_refuted (o : obj) d r kw : set_call o (AVal d :: r) kw = (o, Raise ValueError).
Proof. exact: set_dict_arg. Qed.

(** a raising call can change the device and leave the cached result of the circuit *)
Theorem C26_stale_after_raise_refuted bs ca b at' ca1 x v w bad u : name_ok b -> dget bs b = Some (Dev at' ca1) ->
  dget at' x = Some w -> x != bad -> bad \notin dkeys at' ->
  set_call (Circ bs ca) [:: AStr V b; AVal (SDict [:: (x, v); (bad, u)])] [::] =
  (Circ (dset bs b (Dev (dset at' x v) ca1)) ca, Raise ValueError).
Proof. exact: set_stale. Qed.

(** ** several attributes and several keywords in one call *)
(** one call after the other, one attribute each; the flag tells whether any changed *)
Fixpoint set_each (o : obj) (path : seq string) (d : seq (string * sval)) : obj * res bool :=
  if d is (a, v) :: d' then
    let r := set_call o [:: AStr V (dotted path); AVal (SDict [:: (a, v)])] [::] in
    if r.2 is Ok m then let r' := set_each r.1 path d' in (r'.1, rmap (orb m) r'.2) else r
  else (o, Ok false).

Lemma put_at (o : obj) path attr v md (at' : seq (string * sval)) ca : at_path o path = Some (Dev at' ca) ->
  at_path (put o path attr v md) path = Some (Dev (dset at' attr v) (ca && ~~ md)).
Proof.
elim: path o => [|b p IH] o; first by case=> ->.
rewrite !at_path_cons; case: o => // bs ca'; case Eb: (dget bs b) => [o1|//] /IH H.
by rewrite /= Eb /= dget_dset eqxx.
Qed.

(** put several *)
Fixpoint puts (o : obj) path (d at' : seq (string * sval)) {struct d} : obj * bool :=
  if d is (a, v) :: d' then
    let md := if dget at' a is Some w then ~~ sval_eqb w v else false in
    let r := puts (put o path a v md) path d' (dset at' a v) in (r.1, md || r.2)
  else (o, false).

Lemma each_puts o path d at' ca : path <> [::] -> all name_ok path ->
  at_path o path = Some (Dev at' ca) -> all (fun a => a \in dkeys at') (dkeys d) ->
  set_each o path d = ((puts o path d at').1, Ok (puts o path d at').2).
Proof.
move=> Hp Hn; elim: d o at' ca => [|[a v] d IH] o at' ca Ho //= /andP[Ha Hd].
move: (Ha); rewrite -dhasE /dhas; case Ew: (dget at' a) => [w|//] _.
rewrite (set_path _ _ Hp Hn Ho Ew) /=.
rewrite (IH _ _ _ (put_at a v _ Ho)) //=.
by apply: sub_all Hd => x; rewrite dkeys_dset Ha.
Qed.

Lemma dev_loop_puts at' ca d md : all (fun a => a \in dkeys at') (dkeys d) ->
  let r := puts (Dev at' ca) [::] d at' in
  exists at2, dev_loop at' md d = (at2, Ok (md || r.2)) /\ r.1 = Dev at2 (ca && ~~ r.2).
Proof.
elim: d at' ca md => [|[a v] d IH] at' ca md /=; first by exists at'; rewrite orbF andbT.
case/andP=> Ha Hd; move: (Ha); rewrite -dhasE /dhas; case Ew: (dget at' a) => [w|//] _.
have [|at2 [E1 E2]] := IH (dset at' a v) (ca && ~~ ~~ sval_eqb w v) (md || ~~ sval_eqb w v).
  by apply: sub_all Hd => x; rewrite dkeys_dset Ha.
by exists at2; rewrite E1 E2 orbA negb_or andbA.
Qed.

Lemma dset2 (W : Type) (m : seq (string * W)) k v w : dset (dset m k v) k w = dset m k w.
Proof.
elim: m => [|[k1 v1] m IH] /=; first by rewrite eqxx.
by case: (k =P k1) => [->|H] /=; rewrite ?eqxx //; case: (k =P k1) => // _; rewrite IH.
Qed.

Lemma puts_circ bs ca b p o1 d at' : dget bs b = Some o1 -> (exists at1 ca1, at_path o1 p = Some (Dev at1 ca1)) ->
  let r := puts o1 p d at' in
  puts (Circ bs ca) (b :: p) d at' = (Circ (dset bs b r.1) (ca && ~~ r.2), r.2).
Proof.
elim: d bs ca o1 at' => [|[a v] d IH] bs ca o1 at' Eb Hd /=; first by rewrite andbT dset_same_o.
rewrite Eb.
case: Hd => at1 [ca1 H1].
rewrite (IH _ _ (put o1 p a v (if dget at' a is Some w then ~~ sval_eqb w v else false))) /=.
- by rewrite dset2 negb_or andbA.
- by rewrite dget_dset eqxx.
- by do 2!eexists; exact: put_at H1.
Qed.

Lemma setn_many n o path d at' ca : (size path <= n)%N -> all name_ok path -> d <> [::] ->
  at_path o path = Some (Dev at' ca) -> all (fun a => a \in dkeys at') (dkeys d) ->
  setn n o (form path d) = ((puts o path d at').1, Ok (puts o path d at').2).
Proof.
move=> Hs Hn Hne Ho Hd; elim: path n o Hs Hn Ho => [|b p IH] n o Hs Hn.
  case=> ->; case: n Hs => [|n] _; rewrite /= /dev_set;
  have [at2 [-> ->]] := dev_loop_puts ca false Hd; by rewrite /= ?andbT.
rewrite at_path_cons; case: o => // bs ca'; case Eb: (dget bs b) => [o1|//] Hp.
case: n Hs => // n Hs; rewrite [setn _ _ _]/= /circ_set /form /circ_loop /step_set locate_dict // Eb.
rewrite (child_form _ Hn).
have Ho1 : o1 <> Arr V by move=> E; rewrite E in Hp; case: (p) Hp.
have := IH n o1 Hs _ Hp; case/andP: Hn => _ Hn /(_ Hn) E.
rewrite (@puts_circ bs ca' b p o1) //; last by do 2!eexists; exact: Hp.
by case: o1 Eb Hp E Ho1 => [at1 ca1|//|bs1 ca1] Eb Hp E _; rewrite E /=; case: (d) Hne.
Qed.

(** set('path', {a1: v1, a2: v2, ...}) is the same as the calls set('path', {a1: v1}),
    set('path', {a2: v2}), ... in this order; it reports a change if one of them does *)
Theorem C26_many_attributes o path d at' ca : path <> [::] -> all name_ok path -> d <> [::] ->
  at_path o path = Some (Dev at' ca) -> all (fun a => a \in dkeys at') (dkeys d) ->
  set_call o [:: AStr V (dotted path); AVal (SDict d)] [::] = set_each o path d.
Proof.
move=> Hp Hn Hne Ho Hd; rewrite (each_puts Hp Hn Ho Hd) /set_call /= /set.
have Hs := depth_path Ho; rewrite /= addn0 in Hs.
have := setn_many Hs Hn Hne Ho Hd; case: path Hp Hn Ho Hs => // b p _ Hn Ho Hs <-.
by case: o Ho Hs.
Qed.

(** ** the depth of the nesting *)
Lemma depth_dset (bs : seq (string * obj)) b (o o1 : obj) ca ca2 : dget bs b = Some o -> depth o1 = depth o ->
  depth (Circ (dset bs b o1) ca) = depth (Circ bs ca2).
Proof.
move=> Eb E; rewrite /=; congr _.+1; elim: bs Eb => //= -[n1 o2] bs IH /=.
by case: eqP => [_ [->] /=|_ /IH H /=]; rewrite ?E ?H.
Qed.

Lemma step_depth n (bs : seq (string * obj)) kw val ca ca2 (IH : forall (o : obj) cl, depth (setn n o cl).1 = depth o) :
  depth (Circ (step_set (setn n) bs kw val).1 ca) = depth (Circ bs ca2).
Proof.
rewrite /step_set; case: (locate kw val) => [[[blk rest] d]|e] //.
case Eb: (dget bs blk) => [o|//]; case: o Eb => [at1 ca1|//|bs1 ca1] Eb;
 set r := setn _ _ _; have Er : depth r.1 = depth _ := IH _ _;
 case: r.2 => [m|e]; try (case: d @r Er => [|? ?] r Er); try (case: e); exact: depth_dset Eb Er.
Qed.

Lemma loop_depth n (IH : forall (o : obj) cl, depth (setn n o cl).1 = depth o) (bs : seq (string * obj)) md kws ca ca2 :
  depth (Circ (circ_loop (setn n) bs md kws).1 ca) = depth (Circ bs ca2).
Proof.
elim: kws bs md => [|[k v] kws IHk] bs md //=.
have := step_depth bs k v false ca2 IH.
case: (step_set (setn n) bs k v) => bs1 [m|e] H; last by rewrite -[RHS]H.
by rewrite -[RHS]H; apply: (IHk bs1).
Qed.

Lemma setn_depth n (o : obj) cl : depth (setn n o cl).1 = depth o.
Proof.
elim: n o cl => [|n IH] [at' ca||bs ca] cl //=; try by case: cl.
exact: (loop_depth IH).
Qed.

(** several keywords: one after the other, as long as they are accepted *)
Theorem C26_many_keywords bs ca kws1 kws2 o1 m1 o2 m2 :
  set_call (Circ bs ca) [::] kws1 = (o1, Ok m1) -> set_call o1 [::] kws2 = (o2, Ok m2) ->
  set_call (Circ bs ca) [::] (kws1 ++ kws2) = (o2, Ok (m1 || m2)).
Proof.
rewrite /set_call /= /set => E1 E2.
have Ed : depth o1 = depth (Circ bs ca) by have := setn_depth (depth (Circ bs ca)) (Circ bs ca) (CKw kws1); rewrite E1.
rewrite Ed in E2; move: E1 E2; case: (depth _) => // n /=; rewrite /circ_set.
have Hcat bs0 md : circ_loop (setn n) bs0 md (kws1 ++ kws2) =
    let r := circ_loop (setn n) bs0 md kws1 in
    if r.2 is Ok m then circ_loop (setn n) r.1 m kws2 else r.
  elim: kws1 bs0 md => [|[k v] l IH] bs0 md //=.
  by case: (step_set _ _ _ _) => bs2 [m|e] //=.
have Hmd bs0 md : circ_loop (setn n) bs0 md kws2 =
    let r := circ_loop (setn n) bs0 false kws2 in (r.1, rmap (orb md) r.2).
  elim: kws2 bs0 md {Hcat} => [|[k v] l IH] bs0 md /=; first by rewrite orbF.
  case: (step_set _ _ _ _) => bs2 [m|e] //=; rewrite IH [in RHS]IH /=.
  by case: (circ_loop _ _ _ _) => bs3 [m3|e] //=; rewrite orbA.
rewrite Hcat; case: (circ_loop (setn n) bs false kws1) => bs1 [m|e] //= [<- <-] /=.
rewrite (Hmd bs1 m); case: (circ_loop (setn n) bs1 false kws2) => bs3 [m3|e] //= [<- <-].
by rewrite negb_or andbA.
Qed.

(** the first of two positional values for a path counts, and a keyword before both *)
Theorem C26_first_positional (o : obj) k v v' kw :
  set_call o [:: AStr V k; AVal v; AStr V k; AVal v'] kw = set_call o [:: AStr V k; AVal v] kw.
Proof.
rewrite /set_call /=; congr (SetModel.set _ (CKw _)); rewrite /dict1 /= eqxx; congr (_ :: _).
Qed.

Theorem C26_keyword_first (o : obj) k v w kw : uniq (dkeys kw) -> dget kw k = Some w ->
  set_call o [:: AStr V k; AVal v] kw = set_call o [:: AStr V k; AVal w] (ddel kw k).
Proof.
move=> Hu Hk; rewrite /set_call /=; congr (SetModel.set _ (CKw _)); rewrite /dict1 Hk.
have Hn : forall (m : seq (string * sval)), uniq (dkeys m) -> k \notin dkeys (ddel m k).
  elim=> //= -[k1 v1] m IH /= /andP[H1 H2].
  by case: eqP => [->|/eqP H] //=; rewrite inE negb_or H IH.
have H0 (m : seq (string * sval)) : k \notin dkeys m -> ddel m k = m /\ dget m k = None.
  elim: m => //= -[k1 v1] m IH /=; rewrite inE negb_or => /andP[/negPf H /IH[-> ->]].
  by rewrite H.
by have [-> ->] := H0 _ (Hn _ Hu).
Qed.
End Props.

(** a circuit with a circuit "in" that holds a line "TL" with L = 1: cached results *)
Definition tree : obj nat_eqType :=
  Circ [:: ("in", Circ [:: ("TL", Dev [:: ("L", SNum 1); ("Z0", SNum 50)] true)] true)] true.

Example C26_witness : [/\ at_path tree [:: "in"; "TL"] = Some (Dev [:: ("L", SNum 1); ("Z0", SNum 50)] true),
  dget [:: ("L", SNum 1); ("Z0", SNum 50)] "L" = Some (SNum (V:=nat_eqType) 1),
  all name_ok [:: "in"; "TL"] /\ dotted [:: "in"; "TL"] = "in.TL" &
  set_call (fun _ => 0) tree [:: AStr nat_eqType "in.TL.L"; AVal (SNum (V:=nat_eqType) 2)] [::] =
  (Circ [:: ("in", Circ [:: ("TL", Dev [:: ("L", SNum 2); ("Z0", SNum 50)] false)] false)] false, Ok true)].
Proof. by []. Qed.

Example C26_stale_witness :
  set_call (fun _ => 0) tree [:: AStr nat_eqType "in.TL"; AVal (SDict [:: ("L", SNum (V:=nat_eqType) 2); ("x", SNum (V:=nat_eqType) 0)])] [::] =
  (Circ [:: ("in", Circ [:: ("TL", Dev [:: ("L", SNum 2); ("Z0", SNum 50)] true)] true)] true, Raise ValueError).
Proof. by []. Qed.

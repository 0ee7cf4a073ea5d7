(** Lemmas about the resolution of rfGTL variables. *)
From mathcomp Require Import all_ssreflect.
From Coq Require Import String.
From Verif Require Import Base GtlModel.
Set Implicit Arguments.
Unset Strict Implicit.
Unset Printing Implicit Defensive.
Local Open Scope string_scope.
Local Open Scope seq_scope.

Section Gtl.
Variable num : Type.
Variable binop : op -> num -> num -> res num.
Variable neg : num -> num.
Variable as_count : num -> option nat.
Variable parse : string -> option (expr num).
Variable fn : string -> option (num -> res num).
Notation vars := (vars num).
Notation expr := (expr num).
Notation ev := (ev binop neg as_count fn).
Notation try_eval := (try_eval binop neg as_count parse fn).
Notation pass := (pass binop neg as_count parse fn).
Notation resolve := (resolve binop neg as_count parse fn).
Implicit Types (vs : vars) (e : expr) (x y t : string) (v : num).

(** the number an expression stands for: names replaced by what they are defined to be *)
Inductive denotes vs : expr -> num -> Prop :=
  | DNum a : denotes vs (ENum a) a
  | DVarN x a : dget vs x = Some (VNum a) -> denotes vs (EVar num x) a
  | DVarT x t e a : dget vs x = Some (VStr num t) -> parse t = Some e -> denotes vs e a -> denotes vs (EVar num x) a
  | DNeg e a : denotes vs e a -> denotes vs (ENeg e) (neg a)
  | DBin o e1 e2 a b c : denotes vs e1 a -> denotes vs e2 b -> binop o a b = Ok c -> denotes vs (EBin o e1 e2) c
  | DCall f g e a c : fn f = Some g -> denotes vs e a -> g a = Ok c -> denotes vs (ECall f e) c.
(** the names in an expression *)
Fixpoint names e : seq string :=
  match e with
  | ENum _ => [::]
  | EVar x => [:: x]
  | ENeg a => names a
  | EBin _ a b => names a ++ names b
  | ECall _ a => names a
  end.
Definition is_text vs x : bool := if dget vs x is Some (VStr _) then true else false.
Definition text_var vs e : bool := if e is EVar x then is_text vs x else false.
(** no sum of two variables that are texts, no product with one *)
Fixpoint plain vs e : bool :=
  match e with
  | ENum _ | EVar _ => true
  | ENeg a => plain vs a
  | EBin o a b => [&& plain vs a, plain vs b &
      match o with Add => ~~ (text_var vs a && text_var vs b) | Mul => ~~ text_var vs a && ~~ text_var vs b | _ => true end]
  | ECall _ a => plain vs a
  end.

Lemma vbin_num o a b : vbin binop as_count o (VNum a) (VNum b) = rmap (@VNum num) (binop o a b).
Proof. by case: o. Qed.
Lemma denotes_inv vs e a : denotes vs e a ->
  match e with
  | ENum b => a = b
  | EVar x => match dget vs x with
      | Some (VNum b) => a = b
      | Some (VStr t) => exists2 e, parse t = Some e & denotes vs e a
      | None => False end
  | ENeg e => exists2 b, a = neg b & denotes vs e b
  | EBin o e1 e2 => exists b c : num, [/\ denotes vs e1 b, denotes vs e2 c & binop o b c = Ok a]
  | ECall f e => exists g (b : num), [/\ fn f = Some g, denotes vs e b & g b = Ok a]
  end.
Proof.
case=> {e a} [a|x a ->|x t e a -> Hp H|e a H|o e1 e2 a b c H1 H2 Hc|f g e a c Hf H Hc] //.
- by exists e.
- by exists a.
- by exists a, b.
- by exists g, a.
Qed.
Lemma denotes_det vs e a b : denotes vs e a -> denotes vs e b -> a = b.
Proof.
move=> H; elim: H b => {e a} [a|x a Hx|x t e a Hx Hp _ IH|e a _ IH|o e1 e2 a b c _ IH1 _ IH2 Hc|f g e a c Hf _ IH Hc] b' /denotes_inv.
- by [].
- by rewrite Hx.
- by rewrite Hx => -[e']; rewrite Hp => -[<-] /IH.
- by case=> b -> /IH ->.
- by case=> x [y [/IH1 <- /IH2 <-]]; rewrite Hc => -[].
- by case=> g' [b [E /IH <-]]; move: E; rewrite Hf => -[<-]; rewrite Hc => -[].
Qed.

(** ** one pass *)
Lemma pass_dget vs l found x : uniq (dkeys l) -> pass vs l = Ok found ->
  match dget l x with
  | Some (VStr t) => try_eval vs t = Ok (dget found x)
  | _ => dget found x = None
  end.
Proof.
elim: l found => [|[k [a|t]] l IH] found /=; first by move=> _ [<-].
  case/andP=> Hk Hu E; have := IH _ Hu E; case: (x =P k) => [->|] //.
  have : k \notin dkeys l by []. rewrite -dhasE /dhas; by case: (dget l k).
case/andP=> Hk Hu; case E1: (try_eval vs t) => [r|] //=; case E2: (pass vs l) => [f|] //= [<-].
have := IH _ Hu E2; case: (x =P k) => [->|Hx].
  have : k \notin dkeys l by []. rewrite -dhasE /dhas; case: (dget l k) => // _ H.
  by rewrite E1; case: r {E1} => [v|] /=; rewrite ?eqxx ?H.
by case: r {E1} => [v|] //=; case: eqP.
Qed.
Lemma dget_update vs found x : dget (update vs found) x =
  if dget vs x is Some v then Some (odflt v (dget found x)) else None.
Proof. by elim: vs => [|[k v] vs IH] //=; case: eqP => [->|]. Qed.
Lemma dkeys_update vs found : dkeys (update vs found) = dkeys vs.
Proof. by rewrite /dkeys -map_comp. Qed.
Lemma pass_sub vs l found x : pass vs l = Ok found -> dhas found x -> dhas l x.
Proof.
elim: l found => [|[k [a|t]] l IH] found /=; first by move=> [<-].
  by move=> E H; have := IH _ E H; rewrite /dhas /=; case: eqP.
case: (try_eval vs t) => [r|] //=; case E2: (pass vs l) => [f|] //= [<-].
have := IH _ E2; rewrite /dhas /=; case: r => [v|] /=; case: eqP => //; by [].
Qed.

(** ** the invariant *)
Variable vs0 : vars.
Hypothesis Huniq : uniq (dkeys vs0).
Variable rank : string -> nat.
Hypothesis Hrank : forall x t e y, dget vs0 x = Some (VStr num t) -> parse t = Some e -> y \in names e ->
  is_text vs0 y -> rank y < rank x.
Hypothesis Hplain : forall x t e, dget vs0 x = Some (VStr num t) -> parse t = Some e -> plain vs0 e.

Definition inv vs : Prop := dkeys vs = dkeys vs0 /\ forall x,
  match dget vs0 x, dget vs x with
  | None, None => True
  | Some (VNum a), Some (VNum b) => a = b
  | Some (VStr _), Some (VNum a) => denotes vs0 (EVar num x) a
  | Some (VStr _), Some (VStr t) =>
      exists y, [/\ dget vs0 y = Some (VStr num t), rank y <= rank x &
                    forall a, denotes vs0 (EVar num x) a <-> denotes vs0 (EVar num y) a]
  | _, _ => False
  end.
Lemma inv0 : inv vs0.
Proof.
split=> // x; case E: (dget vs0 x) => [[a|t]|] //; exists x; split=> //.
Qed.
(** evaluation in the middle of the resolution *)
Lemma ev_inv vs e w : inv vs -> plain vs0 e -> ev vs e = Ok w ->
  match w with
  | VNum a => denotes vs0 e a
  | VStr t => exists x, e = EVar num x /\ dget vs x = Some (VStr num t)
  end.
Proof.
case=> _ Hi; elim: e w => [a|x|e IH|o e1 IH1 e2 IH2|f e IH] w /=.
- by move=> _ [<-]; constructor.
- move=> _; have := Hi x; case E: (dget vs x) => [v|] // H [<-]; case: v E H => [a|t] E H; last by exists x.
  by case E0: (dget vs0 x) H => [[b|t]|] // H; rewrite -H; apply: DVarN.
- move=> Hp; case E: (ev vs e) => [[a|t]|] //= [<-]; constructor; exact: (IH (VNum a)).
- case/and3P=> H1 H2 Hop; case E1: (ev vs e1) => [w1|] //=; case E2: (ev vs e2) => [w2|] //=.
  have := IH1 _ H1 E1; have := IH2 _ H2 E2.
  have Ht e x t : e = EVar num x -> dget vs x = Some (VStr num t) -> text_var vs0 e.
    by move=> -> Hx /=; have := Hi x; rewrite Hx /is_text; case: (dget vs0 x) => [[]|].
  case: w1 E1 => [a|s1] E1; case: w2 E2 => [b|s2] E2 D2 D1.
  + rewrite vbin_num; case Eb: (binop o a b) => [c|] //= [<-]; exact: DBin D1 D2 Eb.
  + by case: D2 => x [Ex Hx]; have G := Ht _ _ _ Ex Hx; case: o Hop => //=; rewrite G andbF.
  + by case: D1 => x [Ex Hx]; have G := Ht _ _ _ Ex Hx; case: o Hop => //=; rewrite G.
  + case: D1 => x [Ex Hx]; case: D2 => x' [Ex' Hx'].
    by have G := Ht _ _ _ Ex Hx; have G' := Ht _ _ _ Ex' Hx'; case: o Hop => //=; rewrite G ?G'.
- move=> Hp; case Ef: (fn f) => [g|] //; case E: (ev vs e) => [[a|t]|] //=; case Eg: (g a) => [c|] //= [<-].
  exact: DCall Ef (IH _ Hp E) Eg.
Qed.
(** when all its names are numbers an expression that stands for a number is evaluated *)
Lemma ev_total vs e a : inv vs -> denotes vs0 e a -> (forall x, x \in names e -> exists b, dget vs x = Some (VNum b)) ->
  ev vs e = Ok (VNum a).
Proof.
move=> Hinv H; case: (Hinv) => _ Hi; elim: H => {e a} [a|x a Hx|x t e a Hx Hp Hd _|e a _ IH|o e1 e2 a b c _ IH1 _ IH2 Hc|f g e a c Hf _ IH Hc] Hn //=.
- have [b Hb] := Hn x (mem_head _ _); have := Hi x; by rewrite Hb Hx => ->.
- have [b Hb] := Hn x (mem_head _ _); have := Hi x; rewrite Hb Hx => D.
  by rewrite (denotes_det D (DVarT Hx Hp Hd)).
- by rewrite IH.
- have H1 x : x \in names e1 -> exists b0, dget vs x = Some (VNum b0) by move=> Hx; apply: Hn; rewrite /= mem_cat Hx.
  have H2 x : x \in names e2 -> exists b0, dget vs x = Some (VNum b0) by move=> Hx; apply: Hn; rewrite /= mem_cat Hx orbT.
  by rewrite (IH1 H1) (IH2 H2) /= vbin_num Hc.
- by rewrite Hf IH //= Hc.
Qed.
(** ** termination *)
Definition holders t : seq string := [seq xv.1 | xv <- vs0 & if xv.2 is VStr t' then t' == t else false].
Definition bound : nat := (\sum_(xv <- vs0) rank xv.1).+1.
Definition rk t : nat := foldr minn bound [seq rank x | x <- holders t].
Lemma dget_mem vs x (w : value num) : uniq (dkeys vs) -> (dget vs x = Some w) <-> List.In (x, w) vs.
Proof.
elim: vs => [|[k u] vs IH] //= /andP [Hk Hu]; rewrite -(IH Hu); case: (x =P k) => [->|Hx]; split.
- by case=> ->; left.
- by case=> [[->] //|E]; move: Hk; rewrite -dhasE /dhas E.
- by right.
- by case=> // -[E]; case: Hx.
Qed.
Lemma mem_In (T : eqType) (A : Type) (l : seq (T * A)) (P : A -> bool) (z : T) :
  z \in [seq xv.1 | xv <- l & P xv.2] <-> exists2 w, List.In (z, w) l & P w.
Proof.
elim: l => [|[k u] l IH] //=; first by split=> // -[].
case: ifP => Hp; last first.
  rewrite IH; split=> -[w H1 H2]; exists w => //; first by right.
  by case: H1 => [[_ E]|] //; rewrite -E Hp in H2.
rewrite in_cons; split.
  case/orP => [/eqP ->|/IH [w H1 H2]]; first by exists u => //; left.
  by exists w => //; right.
case=> w [[-> _]|H1] H2; first by rewrite eqxx.
by apply/orP; right; apply/IH; exists w.
Qed.
Lemma holdersP t x : reflect (dget vs0 x = Some (VStr num t)) (x \in holders t).
Proof.
apply: (iffP idP) => [/(mem_In vs0 (fun w => if w is VStr t' then t' == t else false)) [[a|t'] H1 //= /eqP E]|E].
  by apply/dget_mem => //; rewrite -E.
apply/(mem_In vs0 (fun w => if w is VStr t' then t' == t else false)); exists (VStr num t) => //=; exact/dget_mem.
Qed.
Lemma rank_bound x : x \in dkeys vs0 -> rank x < bound.
Proof.
rewrite /bound ltnS; elim: vs0 => [|[k u] l IH] //=; rewrite in_cons big_cons /= => /orP [/eqP ->|/IH H].
  exact: leq_addr.
by apply: leq_trans H (leq_addl _ _).
Qed.
Lemma rk_le t x : dget vs0 x = Some (VStr num t) -> rk t <= rank x.
Proof.
move/holdersP; rewrite /rk; elim: (holders t) => [|y l IH] //=.
by rewrite in_cons => /orP [/eqP ->|/IH H]; rewrite geq_min ?leqnn // H orbT.
Qed.
Lemma rk_ge t m : m <= bound -> (forall x, dget vs0 x = Some (VStr num t) -> m <= rank x) -> m <= rk t.
Proof.
move=> Hm H; have {}H x : x \in holders t -> m <= rank x by move/holdersP; exact: H.
rewrite /rk; elim: (holders t) H => [|y l IH] H //=.
rewrite leq_min H ?mem_head //=; apply: IH => z Hz; apply: H; by rewrite in_cons Hz orbT.
Qed.
Definition weight (vs : vars) x : nat := if dget vs x is Some (VStr t) then (rk t).+1 else 0.
Definition mass vs : nat := \sum_(x <- dkeys vs0) weight vs x.

Lemma try_evalP vs t w : try_eval vs t = Ok (Some w) -> exists2 e, parse t = Some e & ev vs e = Ok w.
Proof.
rewrite /GtlModel.try_eval; case: (parse t) => [e|] //.
by case E: (ev vs e) => [u|[]] //= [<-]; exists e.
Qed.
(** the pass keeps the invariant and the texts get lighter *)
Lemma pass_inv vs found : inv vs -> pass vs vs = Ok found ->
  inv (update vs found) /\ forall x, weight (update vs found) x + dhas found x <= weight vs x.
Proof.
move=> Hinv E; case: (Hinv) => Hk Hi.
have Hx x : (match dget vs0 x, dget (update vs found) x with
  | None, None => True
  | Some (VNum a), Some (VNum b) => a = b
  | Some (VStr _), Some (VNum a) => denotes vs0 (EVar num x) a
  | Some (VStr _), Some (VStr t) =>
      exists y, [/\ dget vs0 y = Some (VStr num t), rank y <= rank x &
                    forall a, denotes vs0 (EVar num x) a <-> denotes vs0 (EVar num y) a]
  | _, _ => False
  end) /\ weight (update vs found) x + dhas found x <= weight vs x.
  have Hd := @pass_dget vs vs found x; rewrite Hk in Hd; have {Hd} := Hd Huniq E.
  have := Hi x; rewrite /weight dget_update /dhas.
  case Ev: (dget vs x) => [[a|t]|] H Hf; rewrite ?Hf //=; try by split.
  case E0: (dget vs0 x) H => [[a|t0]|] // [y [Hy1 Hy2 Hy3]].
  case Ef: (dget found x) Hf => [w|] Ht /=; last by rewrite addn0; split=> //; exists y.
  have [e Hp He] := try_evalP Ht.
  have := ev_inv Hinv (Hplain Hy1 Hp) He; case: w {Ef} He Ht => [a|t'] He Ht D.
    by split; [apply/Hy3; apply: DVarT Hy1 Hp D|].
  case: D => z [Ee Hz]; have := Hi z; rewrite Hz.
  case Ez0: (dget vs0 z) => [[b|tz]|] // [y' [G1 G2 G3]].
  have Htz : is_text vs0 z by rewrite /is_text Ez0.
  have Hzn : z \in names e by rewrite Ee mem_head.
  split.
    exists y'; split=> //; first by apply: leq_trans G2 _; apply: leq_trans Hy2; apply: ltnW; exact: Hrank Hy1 Hp Hzn Htz.
    move=> a; rewrite Hy3 -G3; split=> [/denotes_inv|H]; last by apply: DVarT Hy1 Hp _; rewrite Ee.
    by rewrite Hy1 => -[e']; rewrite Hp => -[<-]; rewrite Ee.
  rewrite addn1 ltnS; apply: rk_ge.
    apply: (leq_ltn_trans (rk_le G1)); apply: (leq_ltn_trans G2); apply: rank_bound.
    by rewrite -dhasE /dhas Ez0.
  move=> x' Hx'; apply: leq_ltn_trans (Hrank Hx' Hp Hzn Htz); apply: leq_trans G2; exact: rk_le.
split; last by move=> x; case: (Hx x).
by split; [rewrite dkeys_update|move=> x; case: (Hx x)].
Qed.
Lemma mass_lt vs found : inv vs -> pass vs vs = Ok found -> found <> [::] -> mass (update vs found) < mass vs.
Proof.
move=> Hinv E; have [_ Hw] := pass_inv Hinv E; case: found E Hw => [|[k w] f] // E Hw _.
have Hk : k \in dkeys vs0.
  case: Hinv => <- _; rewrite -dhasE; apply: (pass_sub E); by rewrite /dhas /= eqxx.
rewrite /mass (big_rem k) //= (big_rem k Hk) /= -addSn leq_add //.
  have := Hw k; by rewrite /dhas /= eqxx addn1.
apply: leq_sum => x _; apply: leq_trans (Hw x); exact: leq_addr.
Qed.
Lemma resolve_total n vs : inv vs -> mass vs < n -> exists r, resolve n vs = Some r /\
  (forall vs', r = Ok vs' -> inv vs' /\ pass vs' vs' = Ok [::]).
Proof.
elim: n vs => [|n IH] vs Hinv Hm //=; case E: (pass vs vs) => [[|f fs]|x].
- by exists (Ok vs); split=> // vs' [<-].
- apply: IH; first by case: (pass_inv Hinv E).
  by apply: leq_trans (mass_lt Hinv E _) _.
- by exists (Raise x); split.
Qed.
Lemma denotes_names vs e a x : denotes vs e a -> x \in names e -> exists b, denotes vs (EVar num x) b.
Proof.
elim=> {e a} [a|y a Hy|y t e a Hy Hp H _|e a _ IH|o e1 e2 a b c _ IH1 _ IH2 Hc|f g e a c Hf _ IH Hc] //=.
- by rewrite inE => /eqP ->; exists a; apply: DVarN.
- by rewrite inE => /eqP ->; exists a; apply: DVarT Hy Hp H.
- by rewrite mem_cat => /orP [/IH1|/IH2].
Qed.
Lemma resolved vs x a : inv vs -> pass vs vs = Ok [::] -> denotes vs0 (EVar num x) a -> dget vs x = Some (VNum a).
Proof.
move=> Hinv E; case: (Hinv) => Hk Hi.
elim: {x}(rank x).+1 {-2}x (ltnSn (rank x)) a => [|n IH] x // Hr a D.
have := Hi x; have := denotes_inv D; case E0: (dget vs0 x) => [[b|t0]|] //.
  by move=> ->; case: (dget vs x) => [[c|]|] // ->.
move=> _; case Ex: (dget vs x) => [[c|t]|] //; first by move=> D'; rewrite (denotes_det D D').
case=> y [H1 H2 H3]; have := denotes_inv (iffLR (H3 a) D); rewrite H1 => -[e Hp De].
suff : try_eval vs t = Ok (Some (VNum a)).
  have := @pass_dget vs vs [::] x; rewrite Hk Ex => /(_ Huniq E) ->; by [].
rewrite /GtlModel.try_eval Hp (ev_total Hinv De) // => z Hz.
have [b Db] := denotes_names De Hz.
case Ez: (is_text vs0 z).
  exists b; apply: IH Db; apply: leq_trans (Hrank H1 Hp Hz Ez) _; exact: leq_trans H2 _.
have := Hi z; move: Ez; rewrite /is_text; have := denotes_inv Db.
case: (dget vs0 z) => [[c|]|] // _ _; case: (dget vs z) => [[c'|]|] // <-; by exists c.
Qed.
End Gtl.

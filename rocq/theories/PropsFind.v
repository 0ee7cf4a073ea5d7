(** Property C58: finding blocks by path: rfCircuit.findObj (rfCircuit.py 272-295), object
    (301-319), listBlocks (248-258), on the trees of SetModel.v. *)
From mathcomp Require Import all_ssreflect.
From Coq Require Import String Ascii.
From Verif Require Import Base CircLib CircMaxV SetModel SetThm CircAddPT PropsSet.
Set Implicit Arguments.
Unset Strict Implicit.
Unset Printing Implicit Defensive.
Local Open Scope string_scope.
Local Open Scope seq_scope.

(** path.split('.') *)
Fixpoint split_all (s : string) : seq string :=
  match s with
  | EmptyString => [:: EmptyString]
  | String a s' => if a == "."%char then EmptyString :: split_all s'
                   else if split_all s' is w :: ws then String a w :: ws else [:: String a EmptyString]
  end.

Section Find.
Variable V : eqType.
Notation obj := (obj V).

(** obj.blocks[b]['object']: only a circuit has blocks *)
Definition child (o : obj) (b : string) : res obj :=
  if o is Circ bs _ then (if dget bs b is Some x then Ok x else Raise KeyError) else Raise AttributeError.

(** object(path), 315-319 *)
Definition object_ (o : obj) (path : string) : res obj := foldM child o (split_all path).

(** findObj(location), 277-295: [n] bounds the passes of the while loop, one per name *)
Fixpoint find_loop (n : nat) (o : obj) (loc : string) : res obj :=
  if loc is EmptyString then Ok o else
  if n is n'.+1 then
    let br := if split_dot loc is Some br then br else (loc, EmptyString) in
    do x <- child o br.1; find_loop n' x br.2
  else Raise RecursionError.
(** a KeyError is turned into None, 283 *)
Definition key_none (r : res obj) : res (option obj) :=
  match r with Ok x => Ok (Some x) | Raise KeyError => Ok None | Raise e => Raise e end.
Definition findObj (o : obj) (loc : string) : res (option obj) := key_none (find_loop (String.length loc) o loc).

(** listBlocks(), 248-258: the AttributeError of a block that has no listBlocks is ignored *)
Fixpoint listBlocks (o : obj) : seq string :=
  if o is Circ bs _ then
    flatten [seq no.1 :: [seq no.1 +s+ ("." +s+ s) | s <- listBlocks no.2] | no <- bs] else [::].

(** ** specification: a circuit as addblock makes them; every circuit in it has different
    block names, which are not empty and contain no '.' *)
Definition well_named (o : obj) : Prop := forall path bs ca, at_path o path = Some (Circ bs ca) ->
  uniq (dkeys bs) && all name_ok (dkeys bs).
(** the text ends with a '.' *)
Fixpoint ends_dot (s : string) : bool :=
  if s is String a s' then (if s' is EmptyString then a == "."%char else ends_dot s') else false.

(** ** proofs *)
Lemma split_allE s : split_all s = if split_dot s is Some (b, r) then b :: split_all r else [:: s].
Proof.
elim: s => [|a s IH] //=; case: (a == "."%char) => //; rewrite IH.
by case: (split_dot s) => [[b r]|].
Qed.
Lemma split_dotE s b r : split_dot s = Some (b, r) -> s = b +s+ ("." +s+ r).
Proof.
elim: s b => [|a s IH] b //=; case: (a =P "."%char) => [-> [<- <-]|_] //.
by case E: (split_dot s) => [[x y]|] // [<- Ey]; rewrite Ey in E; rewrite {1}(IH _ E).
Qed.
Lemma ends_dot_app b r : ends_dot (b +s+ ("." +s+ r)) = if r is EmptyString then true else ends_dot r.
Proof.
elim: b => [|a b IH]; first by case: r.
by rewrite -IH; case: b {IH}.
Qed.
Lemma len_app b r : String.length (b +s+ ("." +s+ r)) = (String.length b + (String.length r).+1)%N.
Proof. by elim: b => //= a b ->. Qed.
Lemma find_fold n : forall o s, (String.length s <= n)%N -> s <> "" -> ~~ ends_dot s -> find_loop n o s = foldM child o (split_all s).
Proof.
elim: n => [|n IH] o s; first by case: s.
move=> Hl Hs He; rewrite split_allE [find_loop _ _ _]/=; case: s Hl Hs He => [//|a s].
set t := String a s => Hl _ He; case E: (split_dot t) => [[b r]|] /=; case: (child o _) => //= x; last by case: (n).
move: He Hl; rewrite (split_dotE E) ends_dot_app len_app => He Hl.
case: r E He Hl => // c r E He Hl; apply: IH => //.
by rewrite -ltnS; apply: leq_trans Hl; rewrite addnS ltnS leq_addl.
Qed.
Lemma at_fold path x : forall o, foldM child o path = Ok x <-> at_path o path = Some x.
Proof.
elim: path => [|b p IH] o /=; first by split=> -[->].
by case: o => //= bs ca; case: (dget bs b) => //= y; exact: IH.
Qed.
Lemma split_dotted path : path <> [::] -> all (fun b => ~~ has_char "."%char b) path -> split_all (dotted path) = path.
Proof.
elim: path => [//|b p IH] _ /= /andP [Hb Hp]; case: p IH Hp => [|c p] IH Hp.
  by rewrite split_allE split_dot_none.
by rewrite split_allE split_dot_dot // IH.
Qed.
Lemma dotted_split s : dotted (split_all s) = s.
Proof.
have [n Hn] := ubnP (String.length s); elim: n s Hn => [//|n IH] s Hn.
rewrite split_allE; case E: (split_dot s) => [[b r]|] //.
rewrite dotted_cons; last by rewrite split_allE; case: (split_dot r) => [[]|].
rewrite (IH r) ?(split_dotE E) //.
by move: Hn; rewrite (split_dotE E) len_app addnS ltnS => H; apply: leq_trans H; rewrite ltnS leq_addl.
Qed.
Lemma split_nodot s : all (fun b => ~~ has_char "."%char b) (split_all s).
Proof.
have [n Hn] := ubnP (String.length s); elim: n s Hn => [//|n IH] s Hn.
rewrite split_allE; case E: (split_dot s) => [[b r]|] /=; last by rewrite (split_dot_N E).
rewrite (split_dot_left E) /=; apply: IH.
by move: Hn; rewrite (split_dotE E) len_app addnS ltnS => H; apply: leq_trans H; rewrite ltnS leq_addl.
Qed.
Lemma split_ne s : split_all s <> [::].
Proof. by rewrite split_allE; case: (split_dot s) => [[]|]. Qed.
Lemma dotted_ends path : all name_ok path -> path <> [::] -> dotted path <> "" /\ ~~ ends_dot (dotted path).
Proof.
move=> H Hn; split; first by case: path H Hn => // b p /= /andP [H _] _; exact: dotted_ne.
elim: path H Hn => [//|b p IH] /= /andP [Hb Hp] _; case: p IH Hp => [|c p] IH Hp.
  case/andP: Hb => [_ Hb]; move: Hb; elim: b => [//|a b IHb] /=; rewrite negb_or eq_sym => /andP [Ha Hb].
  by case: b IHb Hb => [|a' b] // IHb Hb; apply: IHb.
have := IH Hp; have := @dotted_ne c p; rewrite ends_dot_app.
by case/andP: Hp => Hc _ /(_ Hc); case: (dotted (c :: p)) => // x y _; apply.
Qed.

Lemma mem_flat (bs : seq (string * obj)) (f : string * obj -> seq string) s :
  s \in flatten (map f bs) <-> exists no, List.In no bs /\ s \in f no.
Proof.
elim: bs => [|no bs IH] /=; first by split=> // -[? []].
rewrite mem_cat; split.
  by case/orP => [H|/IH [no' [H1 H2]]]; [exists no|exists no']; split=> //; [left|right].
by case=> no' [[<-|H1] H2]; apply/orP; [left|right; apply/IH; exists no'].
Qed.
Lemma split_dot_end s : split_dot (s +s+ ".") = if split_dot s is Some (b, r) then Some (b, r +s+ ".") else Some (s, "").
Proof. by elim: s => [|a s IH] //=; case: (a == "."%char) => //; rewrite IH; case: (split_dot s) => [[b r]|]. Qed.
Lemma find_end n : forall o s, (String.length s < n)%N -> s <> "" -> ~~ ends_dot s -> find_loop n o (s +s+ ".") = foldM child o (split_all s).
Proof.
elim: n => [//|n IH] o s Hl Hs He; rewrite split_allE [find_loop _ _ _]/= split_dot_end.
have -> : forall A (x y : A), (if s +s+ "." is EmptyString then x else y) = y by case: (s).
case E: (split_dot s) => [[b r]|] /=; case: (child o _) => //= x; last by case: (n).
move: He Hl; rewrite (split_dotE E) ends_dot_app len_app => He Hl.
case: r E He Hl => // c r E He Hl; apply: IH => //.
by rewrite -ltnS; apply: leq_trans Hl; rewrite addnS ltnS ltnS leq_addl.
Qed.
Lemma split_end s : split_all (s +s+ ".") = rcons (split_all s) "".
Proof.
have [n Hn] := ubnP (String.length s); elim: n s Hn => [//|n IH] s Hn.
rewrite split_allE split_dot_end [split_all s]split_allE; case E: (split_dot s) => [[b r]|] //=.
rewrite IH //; by move: Hn; rewrite (split_dotE E) len_app addnS ltnS => H; apply: leq_trans H; rewrite ltnS leq_addl.
Qed.
Lemma foldM_rcons (A B : Type) (f : A -> B -> res A) a l x : foldM f a (rcons l x) = (do y <- foldM f a l; f y x).
Proof. by elim: l a => [|y l IH] a /=; [case: (f a x)|case: (f a y)]. Qed.
Lemma pre_inj b s t : b +s+ ("." +s+ s) = b +s+ ("." +s+ t) -> s = t.
Proof. by elim: b => [[]|a b IH [/IH]]. Qed.
Lemma not_dot_pre b s : ~~ has_char "."%char b -> b <> b +s+ ("." +s+ s).
Proof. by elim: b => //= a b IH; rewrite negb_or => /andP [_ H] [/IH]; apply. Qed.

(** *** C58 *)
(** object and findObj of the path of a block return the object of that block *)
Theorem C58_found o path x : path <> [::] -> all name_ok path -> at_path o path = Some x ->
  object_ o (dotted path) = Ok x /\ findObj o (dotted path) = Ok (Some x).
Proof.
move=> Hn Hp Hx; have Hd : all (fun b => ~~ has_char "."%char b) path.
  by apply: sub_all Hp => b /andP [].
have E : object_ o (dotted path) = Ok x by rewrite /object_ split_dotted //; apply/at_fold.
split=> //; have [H1 H2] := dotted_ends Hp Hn.
by rewrite /findObj find_fold // -/(object_ o (dotted path)) E.
Qed.

(** the two agree on every text that is not empty and does not end with a '.': where object
    raises KeyError findObj returns None, and through something that is no circuit both
    raise AttributeError *)
Theorem C58_agree o s : s <> "" -> ~~ ends_dot s -> findObj o s = key_none (object_ o s).
Proof. by move=> H1 H2; rewrite /findObj find_fold. Qed.

(** otherwise they do not: findObj takes the empty text for the circuit itself and ignores one
    '.' at the end *)
Theorem C58_dots bs ca s : let o := Circ bs ca in well_named o -> s <> "" -> ~~ ends_dot s ->
  [/\ findObj o "" = Ok (Some o), object_ o "" = Raise KeyError, findObj o (s +s+ ".") = findObj o s &
      forall x, object_ o (s +s+ ".") <> Ok x].
Proof.
move=> o Hw Hs He; have Hno bs' ca' path : at_path o path = Some (Circ bs' ca') -> dget bs' "" = None.
  by move=> /Hw /andP [_ /allP Ha]; apply/dget_None/negP => /Ha.
split=> //.
- by rewrite /object_ /= (Hno bs ca [::]).
- rewrite /findObj find_end ?find_fold //; by elim: (s) => //= a t ->.
move=> x; rewrite /object_ split_end foldM_rcons; case E: (foldM _ _ _) => [y|//] /=.
move/at_fold: E; case: y => // bs' ca' /Hno; by rewrite /child => ->.
Qed.

(** object returns for the paths of blocks only *)
Theorem C58_only o s x : object_ o s = Ok x ->
  exists path, [/\ path <> [::], s = dotted path & at_path o path = Some x].
Proof. by move=> /at_fold H; exists (split_all s); rewrite dotted_split; split=> //; exact: split_ne. Qed.

(** a name that the circuit there has not: KeyError and None; a further name after something
    that is no circuit: AttributeError *)
Theorem C58_unknown o pre b post x : all name_ok (pre ++ b :: post) -> at_path o pre = Some x ->
  match x with
  | Circ bs _ => b \notin dkeys bs -> object_ o (dotted (pre ++ b :: post)) = Raise KeyError /\ findObj o (dotted (pre ++ b :: post)) = Ok None
  | _ => object_ o (dotted (pre ++ b :: post)) = Raise AttributeError /\ findObj o (dotted (pre ++ b :: post)) = Raise AttributeError
  end.
Proof.
move=> Hn Hx; set path := (pre ++ b :: post) in Hn *.
have Hne : path <> [::] by rewrite /path; case: (pre).
have Hd : all (fun b => ~~ has_char "."%char b) path by apply: sub_all Hn => b' /andP [].
have [H1 H2] := dotted_ends Hn Hne; rewrite C58_agree // /object_ split_dotted //.
have -> : foldM child o path = foldM child x (b :: post).
  rewrite /path; elim: (pre) o Hx => [|c p IH] o /=; first by case=> ->.
  by case: o => //= bs ca; case: (dget bs c) => //= y; exact: IH.
by case: x {Hx} => //= bs ca /dget_None ->.
Qed.

(** listBlocks lists the paths of all blocks, at any depth, and nothing else; each once *)
Theorem C58_listed o s : well_named o ->
  (s \in listBlocks o <-> exists path x, [/\ path <> [::], s = dotted path & at_path o path = Some x]).
Proof.
have [n Hn] := ubnP (depth o); elim: n o s Hn => [//|n IH] [at' ca||bs ca] s Hn Hw.
- by split=> // -[[|b p] [x [] //]].
- by split=> // -[[|b p] [x [] //]].
have /andP [Hu Ha] := Hw [::] bs ca erefl.
have Hsub b x : dget bs b = Some x -> (depth x < n)%N /\ well_named x.
  move=> Hb; split; first by rewrite -ltnS; apply: leq_trans Hn; rewrite ltnS; exact: depth_le Hb.
  by move=> path bs' ca' Hp; apply: (Hw (b :: path) bs' ca'); rewrite at_path_cons Hb.
split.
  case/mem_flat => -[b x] /= [Hb]; have Hd : dget bs b = Some x by apply: In_dget.
  rewrite in_cons => /orP [/eqP ->|/mapP [t Ht ->]].
    by exists [:: b], x; rewrite /= Hd.
  have [H1 H2] := Hsub _ _ Hd; move/(IH _ _ H1 H2): Ht => [path [y [G1 G2 G3]]].
  exists (b :: path), y; rewrite at_path_cons Hd dotted_cons ?G2 //; exact/eqP.
move=> [[|b path] [y [// _ -> ]]]; rewrite at_path_cons; case Hd: (dget bs b) => [x|//] Hp.
apply/mem_flat; exists (b, x); split; first exact: dget_In.
rewrite [fst _]/= [snd _]/=.
case: path Hp => [|c path] Hp; first by rewrite mem_head.
rewrite dotted_cons // in_cons; apply/orP; right; apply/mapP; exists (dotted (c :: path)) => //.
by have [H1 H2] := Hsub _ _ Hd; apply/(IH _ _ H1 H2); exists (c :: path), y.
Qed.

Theorem C58_once o : well_named o -> uniq (listBlocks o).
Proof.
have [n Hn] := ubnP (depth o); elim: n o Hn => [//|n IH] [at' ca||bs ca] Hn Hw //.
have /andP [Hu Ha] := Hw [::] bs ca erefl.
have Hsub b x : dget bs b = Some x -> uniq (listBlocks x).
  move=> Hb; apply: IH; first by rewrite -ltnS; apply: leq_trans Hn; rewrite ltnS; exact: depth_le Hb.
  by move=> path bs' ca' Hp; apply: (Hw (b :: path) bs' ca'); rewrite at_path_cons Hb.
have {Hsub}Hsub b x : List.In (b, x) bs -> uniq (listBlocks x) by move=> /(In_dget Hu) /Hsub.
rewrite /=; elim: bs Hu Ha Hsub {Hn Hw} => [//|[b x] bs IHb] /= /andP [Hb Hu] /andP [Hnb Ha] Hsub.
have Hdot c t : name_ok c -> has_char "."%char (c +s+ ("." +s+ t)) by rewrite has_char_append /= orbT.
have [_ Hd] := andP Hnb.
rewrite cat_uniq map_inj_in_uniq; last by move=> s t _ _; exact: pre_inj.
rewrite (Hsub b x) ?IHb ?andbT //=; last first.
- by left.
- by move=> c y H; apply: (Hsub c); right.
have Hfst t : t \in flatten [seq no.1 :: [seq no.1 +s+ ("." +s+ s) | s <- listBlocks no.2] | no <- bs] ->
  exists c, [/\ c \in dkeys bs, name_ok c & t = c \/ exists s, t = c +s+ ("." +s+ s)].
  case/mem_flat => -[c y] /= [Hc]; have Hk : c \in dkeys bs.
    by elim: (bs) Hc => //= -[c' y'] bs' IHc [[-> _]|/IHc H]; rewrite in_cons ?eqxx // H orbT.
  rewrite in_cons => /orP [/eqP ->|/mapP [s _ ->]]; exists c; split=> //; try exact: (allP Ha).
  - by left.
  - by right; exists s.
have Hne c : c \in dkeys bs -> c <> b by move=> Hc E; rewrite -E Hc in Hb.
rewrite mem_cat negb_or -andbA; apply/and3P; split.
- by apply/mapP => -[s _ E]; move: Hd; rewrite E Hdot.
- apply/negP => /Hfst [c [Hc Hnc [E|[s E]]]]; first by case: (Hne c Hc).
  by move: Hd; rewrite E Hdot.
- apply/hasPn => t /Hfst [c [Hc Hnc Ht]]; apply/negP => /mapP [s _ E].
  have [_ Hdc] := andP Hnc; case: Ht => [Ec|[s' Ec]]; first by move: Hdc; rewrite -Ec E Hdot.
  have := split_dot_dot s' Hdc; rewrite -Ec E split_dot_dot // => -[Eb _]; by case: (Hne c Hc).
Qed.

(** and object returns exactly for these *)
Theorem C58_listed_object o s : well_named o -> (s \in listBlocks o <-> exists x, object_ o s = Ok x).
Proof.
move=> Hw; rewrite C58_listed //; split.
  move=> [path [x [H1 -> H2]]]; exists x; apply: (C58_found H1 _ H2).1.
  elim: path o Hw H2 {H1} => [//|b p IH] o Hw; rewrite at_path_cons /=; case: o Hw => // bs ca Hw.
  case Hd: (dget bs b) => [y|//] Hp; have /andP [_ /allP Ha] := Hw [::] bs ca erefl.
  rewrite (IH y) ?andbT //; first by apply: Ha; exact: dget_keys Hd.
  by move=> path bs' ca' Hp'; apply: (Hw (b :: path) bs' ca'); rewrite at_path_cons Hd.
by move=> [x /C58_only [path H]]; exists path, x.
Qed.

(** set('path', {attr: v}) changes the object that object('path') and findObj('path') return *)
Theorem C58_set ofstr o path attr v at' ca w : path <> [::] -> all name_ok path ->
  object_ o (dotted path) = Ok (Dev at' ca) -> dget at' attr = Some w ->
  let r := set_call ofstr o [:: AStr V (dotted path); AVal (SDict [:: (attr, v)])] [::] in
  exists at2 ca2, [/\ object_ r.1 (dotted path) = Ok (Dev at2 ca2), findObj r.1 (dotted path) = Ok (Some (Dev at2 ca2)),
    dget at2 attr = Some v & forall a, a != attr -> dget at2 a = dget at' a].
Proof.
move=> Hn Hp Ho Ha r; have Hd : all (fun b => ~~ has_char "."%char b) path by apply: sub_all Hp => b' /andP [].
have Hx : at_path o path = Some (Dev at' ca) by apply/at_fold; move: Ho; rewrite /object_ split_dotted.
have [md [_ _ H1 H2 _]] := C26_set_path ofstr v Hn Hp Hx Ha; rewrite -/r in H1 H2.
move: (H1); rewrite /attr_at; case E: (at_path r.1 path) => [[at2 ca2||]|] // H3.
have [G1 G2] := C58_found Hn Hp E; exists at2, ca2; split=> // a Hna.
have := H2 path a; rewrite /attr_at E Hx => -> //.
by apply/eqP => -[Ea]; rewrite Ea eqxx in Hna.
Qed.
End Find.

(** the circuit "in" with a line "TL" *)
Example C58_witness : let t : obj nat_eqType := tree in
  [/\ well_named t, listBlocks t = [:: "in"; "in.TL"],
      object_ t "in.TL" = Ok (Dev [:: ("L", SNum 1); ("Z0", SNum 50)] true),
      findObj t "in.x" = Ok None & object_ t "in.x" = Raise KeyError].
Proof.
split=> //; case=> [|b [|c [|d p]]] bs ca /=.
- by case=> <- _.
- by case: (b == "in") => //= -[<- _].
- by case: (b == "in") => //=; case: (c == "TL").
- by case: (b == "in") => //=; case: (c == "TL").
Qed.

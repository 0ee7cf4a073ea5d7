(** Solution with sub-circuits: what is returned is the solution of all networks (C50). *)
From mathcomp Require Import all_ssreflect all_algebra.
From mathcomp Require Import zify algebra_tactics.ring.
From Coq Require Import String Ascii.
From Coq Require List.
From Verif Require Import Base MxLib ConvModel ConvSpec ConvProofs ConvArr CircModel CircSpec CircLib CircInv CircTerm CircApp CircConn CircAdd CircDe CircFill CircSolve CircExt CircHist CircGet CircMain CircOrd CircThm CircThm2 CircThm3 CircThm4 CircMaxV CircNest CircFlat SetThm CircSub.
Set Implicit Arguments.
Unset Strict Implicit.
Unset Printing Implicit Defensive.
Import Order.TTheory GRing.Theory Num.Theory.
Local Open Scope string_scope.
Local Open Scope ring_scope.
Local Open Scope seq_scope.

Section One.
Variable C : numClosedFieldType.
Variables F Fl : eqType.
Variable K : vcls C F Fl.
Variable nan : C.
Variable getpos : circ K -> string -> res C.
Notation reach := (reach nan getpos).

(** the waves (on the impedance of a getS that returned) at the free ports fix the values at all nodes *)
Lemma uniq_zz z ns h c f zz fl c' S (v1 i1 v2 i2 : asg C) : reach z ns h c -> may_ask h f fl -> zz != 0 ->
  get1S f zz [::] fl c = (c', Ok S) ->
  sat z (net_hist h) f fl v1 i1 -> sat z (net_hist h) f fl v2 i2 ->
  (forall p, free (net_hist h) p -> v1 p + zz * i1 p = v2 p + zz * i2 p) ->
  forall p, p \in nodes (net_hist h) -> v1 p = v2 p /\ i1 p = i2 p.
Proof.
move=> Hr Hm Hzz G S1 S2 Ha; have HC := reach_CI Hr.
have [D _ _ _] := get1S_CI HC Hm G; have HI' := ci_inv D.
have [HS [_ Hsol]] := thm_C12 Hr Hm G; rewrite /zreq (negbTE Hzz) in HS; have [_ HSr] := HS.
have H2 : 2%:R != 0 :> C by rewrite pnatr_eq0.
have Hb (v i : asg C) : sat z (net_hist h) f fl v i -> forall k, (k < size (ports c'))%N ->
    v (nth "" (ports c') k) - zz * i (nth "" (ports c') k) =
    \sum_(j < size (ports c')) nth 0 (nth [::] S k) j * (v (nth "" (ports c') j) + zz * i (nth "" (ports c') j)).
  move=> Hs k Hk; have := iffRL (HSr (fun j => v (nth "" (ports c') j)) (fun j => i (nth "" (ports c') j))).
  move=> /(_ (ex_intro _ v (ex_intro _ i (conj Hs (fun _ _ => conj erefl erefl))))) /(_ k Hk) /=.
  move=> E; have {E} := congr1 (fun x => x * 2%:R) E; rewrite mulfVK // => ->.
  rewrite mulr_suml; apply: eq_bigr => j _; by rewrite -mulrA mulfVK.
have Hport q : free (net_hist h) q -> v1 q = v2 q /\ i1 q = i2 q.
  move=> Hq; have Hp : q \in ports c' by rewrite (v_fp HI').
  have Hk : (seq.index q (ports c') < size (ports c'))%N by rewrite index_mem.
  have Ea := Ha q Hq.
  have Eb : v1 q - zz * i1 q = v2 q - zz * i2 q.
    have := Hb _ _ S1 _ Hk; have := Hb _ _ S2 _ Hk; rewrite nth_index // => -> ->.
    apply: eq_bigr => j _; rewrite Ha //; rewrite -(v_fp HI'); exact: mem_nth.
  have Ev : v1 q = v2 q.
    apply: (mulIf H2); have E x y : x * 2%:R = (x + y) + (x - y) :> C by ring.
    by rewrite (E (v1 q) (zz * i1 q)) (E (v2 q) (zz * i2 q)) Ea Eb.
  split=> //; apply: (mulfI Hzz); apply: (addrI (v1 q)); by rewrite Ea Ev.
have [_ Hu] := Hsol (fun p => (v1 p + z * i1 p) / 2%:R).
apply: Hu => // q /Hport [-> ->] //.
Qed.

Definition tup (zz : C) (v i : asg C) (p : string) : C * C * C * C :=
  (v p, i p, (v p + zz * i p) / 2%:R, (v p - zz * i p) / 2%:R).

(** the level of the circuit itself *)
Lemma one_ok z ns h c f E z' fl c1 t (v i : asg C) : reach z ns h c -> may_ask h f fl -> order_known ns h ->
  let zz := if z' == 0 then z else z' in
  sat z (net_hist h) f fl v i ->
  (forall p, free (net_hist h) p -> dget E p = Some ((v p + zz * i p) / 2%:R)) ->
  Solution1 f E z' fl c = (c1, Ok t) ->
  [/\ Inv c1 (net_hist h), forall p x, dget t p = Some x -> x = tup zz v i p, uniq (dkeys t) & dkeys t =i nodes (net_hist h)].
Proof.
move=> Hr Hm Ho zz Hs HE H; have HC := reach_CI Hr; have HI := ci_inv HC; have Ez := ci_z HC.
have Hz : z != 0 by case: Hr.
have Hzz : zz != 0 by rewrite /zz; case: ifP => // /negbT.
have H2 : 2%:R != 0 :> C by rewrite pnatr_eq0.
have HE' : {subset ports c <= dkeys E} by move=> p; rewrite (v_fp HI) -dhasE /dhas => /HE ->.
case G: (get1S f zz [::] fl c) => [c2 [S|e]]; last first.
  move: H; rewrite /Solution1 /sol_vec Ez -/zz.
  by case: (mapM _ _) => // Ea; rewrite G.
have [D _ _ _] := get1S_CI HC Hm G.
have [t0 [v0 [i0 [H0 Hs0 [HE0 _] [Hk0 Hu0] Ht0]]]] := thm_C22 Hr Hm Ho HE' G.
move: H; rewrite H0 => -[<- <-]; split=> //; first exact: (ci_inv D).
move=> p x Hx; have -> := Ht0 _ _ (dget_In Hx).
have Hp : p \in nodes (net_hist h) by rewrite -Hk0; exact: dget_keys Hx.
have [|-> ->] // := uniq_zz Hr Hm Hzz G Hs0 Hs _ Hp.
move=> q Hq; have := HE0 q Hq; rewrite HE // => -[E0].
by apply: (mulIf (x := 2%:R^-1)); [rewrite invr_neq0|symmetry].
Qed.
(** the circuit's own level returned: its getS did, and the excitation names all ports *)
Lemma sol1_inv z ns h c f E z' fl c1 t : reach z ns h c -> may_ask h f fl ->
  let zz := if z' == 0 then z else z' in
  Solution1 f E z' fl c = (c1, Ok t) ->
  {subset ports c <= dkeys E} /\ exists S, get1S f zz [::] fl c = (c1, Ok S).
Proof.
move=> Hr Hm zz E1; have Ez := ci_z (reach_CI Hr).
have HE : {subset ports c <= dkeys E}.
  move: E1; rewrite /Solution1 /sol_vec; case Em: (mapM _ _) => [Ea|] // _ q Hq.
  move: Hq Ea Em; elim: (ports c) => //= x xs IHx; rewrite in_cons => /orP[/eqP <-|Hq] Ea.
    by rewrite /dget_exn -dhasE /dhas; case: (dget E q).
  by case: (dget_exn E x) => //= y; case Em: (mapM _ _) => [ys|] //= _; exact: IHx Em.
split=> //; case G: (get1S f zz [::] fl c) => [c2 [S|e]]; last first.
  by move: E1; rewrite /Solution1 /sol_vec Ez -/zz; case: (mapM _ _) => // Ea; rewrite G.
by have [t0 [v [i [E0 _ _ _ _]]]] := thm_C22_gen Hr Hm HE G; move: E0; rewrite E1 => -[-> _]; exists S.
Qed.
End One.

(** ** lists *)
Lemma F2_l A B (R : A -> B -> Prop) s t a : List.Forall2 R s t -> List.In a s -> exists2 b, List.In b t & R a b.
Proof.
elim=> //= x y s' t' Hxy _ IH [<-|/IH [b Hb Hr]]; first by exists y; [left|].
by exists b; [right|].
Qed.
Lemma F2_r A B (R : A -> B -> Prop) s t b : List.Forall2 R s t -> List.In b t -> exists2 a, List.In a s & R a b.
Proof.
elim=> //= x y s' t' Hxy _ IH [<-|/IH [a Ha Hr]]; first by exists x; [left|].
by exists a; [right|].
Qed.
Lemma mapM_dget A (g : string -> res A) ps d :
  mapM (fun p => rmap (fun x => (p, x)) (g p)) ps = Ok d -> forall p, p \in ps -> exists2 x, g p = Ok x & dget d p = Some x.
Proof.
elim: ps d => //= q ps IH d; case Eq: (g q) => [y|] //=; case Em: (mapM _ ps) => [ds|] //= [<-] p.
rewrite in_cons; case: (p =P q) => [->|Hpq] /=; first by move=> _; exists y; rewrite ?eqxx.
by case/(IH _ Em) => x Ex Hd; exists x => //; case: eqP.
Qed.
Lemma choice_list A B (P : A -> B -> Prop) (b0 : B) (key : A -> string) s :
  uniq (map key s) -> (forall a, List.In a s -> exists b, P a b) ->
  exists W : string -> B, forall a, List.In a s -> P a (W (key a)).
Proof.
elim: s => [|a s IH] //=; first by exists (fun _ => b0).
case/andP=> Hk Hu H; have [b Hb] := H a (or_introl erefl).
have [W HW] := IH Hu (fun x Hx => H x (or_intror Hx)).
exists (fun k => if k == key a then b else W k) => x [<-|Hx]; first by rewrite eqxx.
case: eqP => [E|_]; last exact: HW.
by case/negP: Hk; rewrite -E; apply/memP; exists x.
Qed.

Section Many.
Variable C : numClosedFieldType.
Variables F Fl : eqType.
Variable K : vcls C F Fl.
Variable nan : C.
Variable getpos : forall K' : vcls C F Fl, circ K' -> string -> res C.
Notation deep := (deep K nan getpos).
Notation nest n := (nest_cls nan (@getpos (deep n))).
Notation reach := (reach nan (@getpos _)).

(** getS calls keep a sub-circuit's network *)
Lemma after_inr n (o : nest n) (x : deep n.+1) : after_getS (inr o : deep n.+1) x ->
  exists2 o' : nest n, x = inr o' & after_getS o o'.
Proof.
elim=> [|x' f z fl Hz _ [o' -> Ha]]; first by exists o => //; constructor.
by exists (ogetS f z fl o').1 => //; apply: after_one.
Qed.
Lemma after_nest n (o : nest n) (x : deep n.+1) : oinv o -> after_getS (inr o : deep n.+1) x ->
  exists o' : nest n, [/\ x = inr o', oinv o', n_z o' = n_z o, net_hist (n_h o') = net_hist (n_h o) & ports (n_c o') = ports (n_c o)].
Proof.
move=> Ho; elim=> [|x' f z fl Hz _ [o' [-> Hi Ez Eh Ep]]]; first by exists o.
exists (n_getS f z fl o').1; have [H1 _ [H2] _ _] := nest_law f fl Hi Hz.
by split=> //=; rewrite ?net_rcons //= -?Ep.
Qed.

Lemma deep_ext n z (N : net (deep n)) f fl (v i v' i' : asg C) : (forall p, v p = v' p) -> (forall p, i p = i' p) ->
  deep_sat z N f fl v i -> deep_sat z N f fl v' i'.
Proof.
have Hs m w (M : net (deep m)) (u j u' j' : asg C) : (forall p, u p = u' p) -> (forall p, j p = j' p) ->
    sat w M f fl u j -> sat w M f fl u' j'.
  move=> Eu Ej [H1 H2 H3 H4 H5]; split.
  - by move: H1; apply: List.Forall_impl => b; apply: oden_ext => k _; rewrite Eu Ej.
  - move: H2; apply: List.Forall_impl => -[ps nw] [G1 G2]; split; first by move=> p q Hp Hq; rewrite -!Eu; exact: G1.
    have Es : \sum_(p <- ps) j' p = \sum_(p <- ps) j p by apply: eq_bigr => p _; rewrite Ej.
    case: nw {G1} G2 => [nw|] /=; last by rewrite Es.
    by case=> G2 G3; split; [move=> p Hp; rewrite -!Eu; exact: G2|rewrite Es -Ej].
  - by move: H3; apply: List.Forall_impl => t; rewrite Eu Ej.
  - by move: H4; apply: List.Forall_impl => t; rewrite /di_law !Eu !Ej.
  - by move: H5; apply: List.Forall_impl => t; rewrite /de_law !Eu !Ej.
elim: n z N v i v' i' => [|n IH] z N v i v' i' Ev Ei /=; first exact: (@Hs 0%N).
case=> H1 H2; split; first exact: (@Hs n.+1 _ _ _ _ _ _ Ev Ei H1).
move: H2; apply: List.Forall_impl => -[b [ps [o|o]]] //=; apply: IH => q; [exact: Ev|exact: Ei].
Qed.

(** a solution of the outer network extends to the nodes of all sub-circuits *)
Lemma deepen n z ns h (c : circ (deep n)) f fl (v i : asg C) : reach z ns h c -> own_names (net_hist h) ->
  sat z (net_hist h) f fl v i ->
  exists v' i' : asg C, deep_sat z (net_hist h) f fl v' i' /\
    forall p, p \in nodes (net_hist h) -> v' p = v p /\ i' p = i p.
Proof.
elim: n z ns h c v i => [|n IH] z ns h c v i Hr Hown Hs; first by exists v, i.
have HC := reach_CI Hr; have HI := ci_inv HC.
set N := net_hist h in Hs Hown HC HI *.
have Hoi := reach_oinv Hr; rewrite -/N in Hoi.
have Hkey : uniq (map (fun b => b.1) (nblk N)) by exact: (v_ub HI).
pose P (b : string * (seq string * deep n.+1)) (w : asg C * asg C) : Prop :=
  if b.2.2 is inr o then deep_sat (n_z o) (net_hist (n_h (o : nest n))) f fl w.1 w.2 /\
    (forall q, q \in ports (n_c o) -> w.1 q = v (dot b.1 q) /\ w.2 q = i (dot b.1 q))
  else True.
have [|W HW] := @choice_list _ _ P (v, i) _ _ Hkey.
  move=> [nm [ps [o|o]]] Hb; first by exists (v, i).
  have /= [Hri Hko Hti] := iffLR (List.Forall_forall _ _) Hoi _ Hb.
  have /= [Eps Ho] := iffLR (List.Forall_forall _ _) Hown _ Hb.
  have [Hbl _ _ _ _] := Hs; have /= [v1 [i1 [Hs1 E1]]] := iffLR (List.Forall_forall _ _) Hbl _ Hb.
  have [v2 [i2 [D2 E2]]] := IH _ _ _ _ _ _ Hri Ho Hs1.
  exists (v2, i2); split=> //= q Hq.
  have HIi := ci_inv (reach_CI Hri).
  have [-> ->] := E2 q (port_node HIi Hq).
  have := E1 (seq.index q (ports (n_c o))); rewrite index_mem Eps nth_index // => /(_ Hq); by [].
pose pick (g : asg C) (w : asg C * asg C -> asg C) (p : string) : C :=
  if split_dot p is Some (b, q) then
    if dget (nblk N) b is Some (_, inr _) then w (W b) q else g p
  else g p.
have Hdot g w nm ps o q : List.In (nm, (ps, inr o : deep n.+1)) (nblk N) -> pick g w (dot nm q) = w (W nm) q.
  move=> Hb; rewrite /pick /dot split_dot_dot; last by apply: (v_nb HI); apply/memP; exists (nm, (ps, inr o)).
  by rewrite (In_dget (v_ub HI) Hb).
exists (pick v fst), (pick i snd).
have Hn p : p \in nodes N -> pick v fst p = v p /\ pick i snd p = i p.
  move=> Hp; case Hc: (has_char "."%char p); last by rewrite /pick split_dot_none ?Hc.
  have [nm [q [Hnm Ep]]] := v_dot HI Hp Hc.
  have Hnd := v_nb HI Hnm; rewrite /pick Ep /dot split_dot_dot //.
  case Ed: (dget (nblk N) nm) => [[ps [o|o]]|] //; have Hin := dget_In Ed.
  have /= [Eps Ho] := iffLR (List.Forall_forall _ _) Hown _ Hin.
  have /= [_ HWq] := HW _ Hin; apply: HWq; rewrite -Eps; apply: (blk_node_mem HI (reach_nodot Hr) Ed).
  by rewrite -Ep.
split=> //; split; first by apply: sat_ext Hs; [exact: reach_wf Hr|move=> p /Hn [-> ->]].
apply/List.Forall_forall => -[nm [ps [o|o]]] //= Hb.
have /= [HW1 _] := HW _ Hb; apply: deep_ext HW1 => q; by rewrite (Hdot _ _ _ _ _ _ Hb).
Qed.

(** joining the sub-circuit's nodes *)
Lemma add_sub_get nm (t ts : sols C) p x : dget (add_sub nm t ts) p = Some x ->
  dget t p = Some x \/ exists2 q, p = dot nm q & List.In (q, x) ts.
Proof.
rewrite /add_sub; elim: ts t => [|[q y] ts IH] t /=; first by left.
case/IH => [|[q' Ep Hq']]; last by right; exists q' => //; right.
by rewrite dget_dset; case: eqP => [-> [<-]|_]; [right; exists q; [|left]|left].
Qed.
Lemma add_sub_keys nm (t ts : sols C) p :
  (p \in dkeys (add_sub nm t ts)) = (p \in dkeys t) || (p \in [seq dot nm q | q <- dkeys ts]).
Proof.
rewrite /add_sub; elim: ts t => [|[q y] ts IH] t /=; first by rewrite orbF.
rewrite IH in_cons orbA; congr (_ || _).
by rewrite dkeys_dset; case: ifP => [Hq|_]; rewrite ?mem_rcons ?in_cons 1?orbC //; case: eqP => // ->; rewrite Hq.
Qed.

Definition half n (N : net (deep n)) zz (V I : asg C) (t : sols C) : Prop :=
  [/\ forall p x, dget t p = Some x -> x = tup zz V I p, uniq (dkeys t),
      {subset nodes N <= dkeys t} & {subset dkeys t <= deep_nodes N}].
Definition right n (N : net (deep n)) zz (nds : option (seq string)) (V I : asg C) (t : sols C) : Prop :=
  half N zz V I t /\
  forall p, p \in deep_nodes N -> (if nds is Some l then p \in l else true) -> p \in dkeys t.

Lemma add_sub_uniq nm (t ts : sols C) : uniq (dkeys t) -> uniq (dkeys (add_sub nm t ts)).
Proof.
rewrite /add_sub; elim: ts t => [|[q y] ts IH] t //= Hu; apply: IH.
by rewrite dkeys_dset; case: ifP => // Hq; rewrite rcons_uniq Hq.
Qed.

Definition IHn n : Prop := forall z ns h (c : circ (deep n)) f E z' fl nds c' t (V I : asg C),
  reach z ns h c -> may_ask h f fl -> order_known ns h -> own_names (net_hist h) ->
  let zz := if z' == 0 then z else z' in
  deep_sat z (net_hist h) f fl V I ->
  (forall p, free (net_hist h) p -> dget E p = Some ((V p + zz * I p) / 2%:R)) ->
  Solution f E z' nds fl c = (c', Ok t) -> right (net_hist h) zz nds V I t.

Lemma loop_right n (N : net (deep n.+1)) z f fl zz left (V I : asg C) bs st st' : IHn n -> zz != 0 -> uniq (dkeys (nblk N)) ->
  (forall nm, nm \in dkeys (nblk N) -> ~~ has_char "."%char nm) ->
  List.Forall (fun b => oinv b.2.2) (nblk N) -> own_names N ->
  deep_sat z N f fl V I ->
  (forall nb, List.In nb bs -> exists2 b, List.In b (nblk N) & blk_ok nb b) ->
  half N zz V I st.2 ->
  loop (@sub_step C F Fl K (deep n) nan (@getpos (deep n)) (@Solution C F Fl K nan getpos n) f zz left fl) st bs = (st', Ok tt) ->
  [/\ half N zz V I st'.2, {subset dkeys st.2 <= dkeys st'.2} &
   forall nm ps (o : nest n) nb, List.In nb bs -> List.In (nm, (ps, inr o)) (nblk N) -> blk_ok nb (nm, (ps, inr o : deep n.+1)) ->
     forall q, q \in deep_nodes (net_hist (n_h o)) -> (if left is Some l then dot nm q \in l else true) ->
     dot nm q \in dkeys st'.2].
Proof.
move=> IH Hzz Hub Hnd Hoi Hown [HS HD]; elim: bs st => [|nb bs IHb] st Hbs Hh.
  by case=> <-; split=> // nm ps o nb [].
rewrite loop_cons; case E1: (sub_step _ _ _ _ _ _) => [st1 [[]|e]] //= Hl.
suff [Hh1 Hs1 Hq1] : [/\ half N zz V I st1.2, {subset dkeys st.2 <= dkeys st1.2} &
   forall nm ps (o : nest n), List.In (nm, (ps, inr o)) (nblk N) -> blk_ok nb (nm, (ps, inr o : deep n.+1)) ->
     forall q, q \in deep_nodes (net_hist (n_h o)) -> (if left is Some l then dot nm q \in l else true) ->
     dot nm q \in dkeys st1.2].
  have [Hh2 Hs2 Hq2] := IHb st1 (fun b Hb => Hbs b (or_intror Hb)) Hh1 Hl.
  split=> //; first by move=> p /Hs1 /Hs2.
  move=> nm ps o nb' [<- Hb Hk q Hq Hw|Hin]; last exact: Hq2 Hin.
  by apply: Hs2; exact: Hq1 Hb Hk _ Hq Hw.
have [[nm0 [ps0 o0]] Hin0 [/= Enm Eps Hoi0 [Haft _] _]] := Hbs nb (or_introl erefl).
have Hoo := iffLR (List.Forall_forall _ _) Hoi _ Hin0.
have Hnd0 : ~~ has_char "."%char nm0 by apply: Hnd; apply/memP; exists (nm0, (ps0, o0)).
move: E1; rewrite /sub_step.
case Eo: (bobj nb.2) => [o1|o1].
  case=> <-; split=> //; move=> nm ps o Hb [_ _ _ [Ha _] _]; exfalso.
  have /= Hob := iffLR (List.Forall_forall _ _) Hoi _ Hb.
  by have [o' [E _ _ _ _]] := after_nest Hob Ha; rewrite Eo in E.
case: o0 Haft Hoo Hin0 => [o0|o0] Haft Hoo Hin0.
  exfalso; move: Haft; rewrite Eo => Ha.
  have : forall x, after_getS (inl o0 : deep n.+1) x -> if x is inl _ then True else False.
    by move=> x; elim=> // -[x0|x0] f1 z1 fl1 Hz1 _.
  by move/(_ _ Ha).
have [o' [E Hi' Ez' Eh' Ep']] := after_nest Hoo Haft; rewrite Eo in E; case: E => E; rewrite E in Eo *.
have /= [Eps0 Hown0] := iffLR (List.Forall_forall _ _) Hown _ Hin0.
have /= HD0 := iffLR (List.Forall_forall _ _) HD _ Hin0.
have [Hr' Hk' Ht'] := Hi'.
case: eqP => [Esl [<-]|Hsl].
  split=> // nm ps o Hb [/= Enm' _ _ _ _] q Hq Hw; exfalso.
  have Ed : nm = nm0 by rewrite -Enm' -Enm.
  case: left {IHb Hl} Esl Hw => [l|] //= [Esl] Hw.
  have : tl_dot (dot nm q) \in [seq tl_dot n0 | n0 <- l & hd_dot n0 == nb.1].
    apply: map_f; rewrite mem_filter Hw andbT /hd_dot Ed /dot split_dot_dot // Enm //.
  by rewrite Esl.
case Em: (mapM _ _) => [Ek|] //.
case Er: (Solution _ _ _ _ _ _) => [c2 [ts|e]] //= [<-] /=.
have Hex p : free (net_hist (n_h o')) p -> dget Ek p = Some ((V (dot nm0 p) + zz * I (dot nm0 p)) / 2%:R).
  rewrite -(v_fp (ci_inv (reach_CI Hr'))) => Hp.
  have [x Hx ->] : exists2 x, rmap (fun x : C * C * C * C => x.1.2) (dget_exn st.2 (dot nb.1 p)) = Ok x & dget Ek p = Some x.
    apply: (@mapM_dget _ (fun p => rmap (fun x : C * C * C * C => x.1.2) (dget_exn st.2 (dot nb.1 p))) _ _ _ p Hp).
    rewrite -Em; elim: (ports _) => //= q qs ->; by case: (dget_exn _ _).
  move: Hx; rewrite /dget_exn Enm; case Ed: (dget _ _) => [y|] //= [<-].
  by have [Hv _ _ _] := Hh; rewrite (Hv _ _ Ed).
have [||||[Hv Hu Hs Hk] Hw] := IH _ _ _ _ _ _ _ _ _ _ _ (fun q => V (dot nm0 q)) (fun q => I (dot nm0 q)) Hr' _ Hk' _ _ _ Er.
- by rewrite /may_ask Ht'.
- by rewrite Eh'.
- by rewrite Ez' Eh'.
- by rewrite (negbTE Hzz).
rewrite (negbTE Hzz) in Hv; have [Gv Gu Gs Gk] := Hh; rewrite Enm; split.
- split.
  + move=> p x /add_sub_get [/Gv //|[q -> Hq]].
    by rewrite (Hv _ _ (In_dget Hu Hq)).
  + exact: add_sub_uniq.
  + by move=> p /Gs Hp; rewrite add_sub_keys Hp.
  + move=> p; rewrite add_sub_keys => /orP[/Gk //|/mapP [q /Hk Hq ->]].
    rewrite /= mem_cat; apply/orP; right; apply/mem_fl; exists (nm0, (ps0, inr o0)) => //=.
    by apply: map_f; rewrite -Eh'.
- by move=> p Hp; rewrite add_sub_keys Hp.
move=> nm ps o Hb [/= Enm' _ _ _ _] q Hq Hl'.
have Ed : nm = nm0 by rewrite -Enm' -Enm.
have Eo' : o = o0 by have := In_dget Hub Hb; rewrite Ed (In_dget Hub Hin0) => -[_ ->].
rewrite add_sub_keys; apply/orP; right; rewrite Ed; apply: map_f; apply: Hw; first by rewrite Eh' -Eo'.
case: left {Hl IHb Hsl Er} Hl' => [l|] //= Hl'; rewrite Enm.
have {1}-> : q = tl_dot (dot nm q) by rewrite /tl_dot Ed /dot split_dot_dot.
apply: map_f; by rewrite mem_filter Hl' andbT /hd_dot Ed /dot split_dot_dot.
Qed.

Lemma SolutionS n : @Solution C F Fl K nan getpos n.+1 =
  @Solution_lv C F Fl K (deep n) nan (@getpos (deep n)) (@Solution C F Fl K nan getpos n).
Proof. by []. Qed.

Lemma sub_main n : IHn n.
Proof.
elim: n => [|n IH] z ns h c f E z' fl nds c' t V I Hr Hm Ho Hown zz Hs HE.
  rewrite /Solution => H; have [_ Hv Hu Hk] := one_ok Hr Hm Ho Hs HE H.
  by split; [split=> // p; rewrite Hk|move=> p; rewrite Hk].
have Hz : z != 0 by case: Hr.
have Hzz : zz != 0 by rewrite /zz; case: ifP => // /negbT.
have HC := reach_CI Hr; have Ez := ci_z HC; have HI := ci_inv HC.
rewrite SolutionS /Solution_lv.
case E1: (Solution1 f E z' fl c) => [c1 [t1|e]] //=.
have [HI1 Hv Hu Hk] := one_ok Hr Hm Ho Hs.1 HE E1.
have Hh : half (net_hist h) zz V I t1.
  split=> // p; rewrite Hk //= => Hp; by rewrite mem_cat Hp.
case: eqP => [El [_ <-]|Hl].
  split=> // p _; case: nds El => [l|] //= [El] Hp; rewrite -[_ \in _]negbK; apply/negP => Hn.
  have : p \in [seq n0 <- l | n0 \notin dkeys t1] by rewrite mem_filter Hn.
  by rewrite El.
rewrite Ez -/zz; case Eq: (loop _ _ _) => [[bs t2] [[]|e]] //= [_ <-].
have [|Hh2 Hs2 Hq] := @loop_right n (net_hist h) z f fl zz _ V I _ (blocks c1, t1) _ IH Hzz (v_ub HI) (v_nb HI) (reach_oinv Hr) Hown Hs _ Hh Eq.
  by move=> nb Hb; exact: F2_l (v_blk HI1) Hb.
split=> // p; rewrite /= mem_cat => /orP[Hp _|].
  by apply: Hs2 => /=; rewrite Hk.
case/mem_fl => -[nm [ps [o|o]]] Hb //= /mapP [q Hq' ->] Hn.
have [nb Hnb Hbk] := F2_r (v_blk HI1) Hb.
have [Ht|Ht] := boolP (dot nm q \in dkeys t1); first exact: Hs2.
apply: (Hq nm ps o nb Hnb Hb Hbk q Hq').
by case: nds {Hl Eq Hq} Hn => [l|] //= Hn; rewrite mem_filter Ht.
Qed.

(** ** when it returns *)
Definition IHr n : Prop := forall z ns h (c : circ (deep n)) f E z' fl nds,
  reach z ns h c -> may_ask h f fl -> own_names (net_hist h) ->
  let zz := if z' == 0 then z else z' in
  {subset ports c <= dkeys E} -> (exists c1 S, get1S f zz [::] fl c = (c1, Ok S)) ->
  subs_return zz (net_hist h) f fl ->
  exists c' t, Solution f E z' nds fl c = (c', Ok t).

Lemma loop_returns n (N : net (deep n.+1)) f fl zz left bs st : IHr n -> zz != 0 ->
  List.Forall (fun b => oinv b.2.2) (nblk N) -> own_names N -> subs_return zz N f fl ->
  (forall nb, List.In nb bs -> exists2 b, List.In b (nblk N) & blk_ok nb b) ->
  {subset nodes N <= dkeys st.2} ->
  exists st', loop (@sub_step C F Fl K (deep n) nan (@getpos (deep n)) (@Solution C F Fl K nan getpos n) f zz left fl) st bs = (st', Ok tt).
Proof.
move=> IH Hzz Hoi Hown HR; elim: bs st => [|nb bs IHb] st Hbs Hk; first by exists st.
rewrite loop_cons.
suff [st1 [E1 Hk1]] : exists st1, sub_step (@Solution C F Fl K nan getpos n) f zz left fl st nb = (st1, Ok tt) /\ {subset nodes N <= dkeys st1.2}.
  by rewrite E1 /=; apply: IHb => // b Hb; apply: Hbs; right.
have [[nm0 [ps0 o0]] Hin0 [/= Enm Eps Hoi0 [Haft _] _]] := Hbs nb (or_introl erefl).
have Hoo := iffLR (List.Forall_forall _ _) Hoi _ Hin0.
rewrite /sub_step; case Eo: (bobj nb.2) => [o1|o1]; first by exists st.
case: o0 Haft Hoo Hin0 => [o0|o0] Haft Hoo Hin0.
  exfalso; move: Haft; rewrite Eo => Ha.
  have : forall x, after_getS (inl o0 : deep n.+1) x -> if x is inl _ then True else False.
    by move=> x; elim=> // -[x0|x0] f1 z1 fl1 Hz1 _.
  by move/(_ _ Ha).
have [o2 Eo2 Ha2] := after_inr Haft; rewrite Eo in Eo2; case: Eo2 => Eo2; rewrite -Eo2 in Ha2.
have [o' [E Hi' Ez' Eh' Ep']] := after_nest Hoo Haft; rewrite Eo in E; case: E => E; rewrite E in Eo Ha2 *.
have /= [Eps0 Hown0] := iffLR (List.Forall_forall _ _) Hown _ Hin0.
have /= [HR1 HR0] := iffLR (List.Forall_forall _ _) HR _ Hin0.
have [Hr' Hk' Ht'] := Hi'.
case: eqP => [_|_]; first by exists st.
have [Ek EE HEk] : exists2 Ek, mapM (fun p => rmap (fun x : C * C * C * C => (p, x.1.2)) (dget_exn st.2 (dot nb.1 p))) (ports (n_c o')) = Ok Ek
   & dkeys Ek = ports (n_c o').
  have : forall p, p \in ports (n_c o') -> dot nb.1 p \in dkeys st.2.
    move=> p Hp; apply: Hk; rewrite mem_cat; apply/orP; left; apply/mem_fl; exists (nm0, (ps0, inr o0)) => //=.
    by rewrite Enm; apply: map_f; rewrite Eps0 -Ep'.
  elim: (ports (n_c o')) => [|p ps IHp] Hp /=; first by exists [::].
  have := Hp p (mem_head _ _); rewrite /dget_exn -dhasE /dhas; case: (dget _ _) => // x _ /=.
  by have [q Hq|Ek -> HEk] := IHp; [apply: Hp; rewrite in_cons Hq orbT|exists ((p, x.1.2) :: Ek) => //=; rewrite HEk].
rewrite EE.
have [|||||c2 [ts E2]] := IH _ _ _ _ f Ek zz fl
   (omap (fun l => [seq tl_dot n0 | n0 <- l & hd_dot n0 == nb.1]) left) Hr'.
- by rewrite /may_ask Ht'.
- by rewrite Eh'.
- by rewrite HEk.
- rewrite (negbTE Hzz); have [S] := HR1 _ Ha2; rewrite /= /n_getS /=.
  by case G: (get1S _ _ _ _ _) => [c1 r] /= Er; exists c1, S; rewrite Er.
- by rewrite (negbTE Hzz) Eh'.
rewrite E2 /=; eexists; split; first by []. 
by move=> p /Hk Hp /=; rewrite add_sub_keys Hp.
Qed.

Lemma sub_returns n : IHr n.
Proof.
elim: n => [|n IH] z ns h c f E z' fl nds Hr Hm Hown zz HE [c1 [S G]] HR.
  by have [t [v [i [E1 _ _ _ _]]]] := thm_C22_gen Hr Hm HE G; exists c1, t.
have Hz : z != 0 by case: Hr.
have Hzz : zz != 0 by rewrite /zz; case: ifP => // /negbT.
have HC := reach_CI Hr; have Ez := ci_z HC; have HI := ci_inv HC.
have [D _ _ _] := get1S_CI HC Hm G; have HI1 := ci_inv D.
have [t1 [v [i [E1 _ _ [Hk _] _]]]] := thm_C22_gen Hr Hm HE G.
rewrite SolutionS /Solution_lv E1 /=; case: eqP => [_|_]; first by exists c1, t1.
rewrite Ez -/zz; have [| |st' ->] := @loop_returns n (net_hist h) f fl zz
   (omap (fun l => [seq n0 <- l | n0 \notin dkeys t1]) nds) (blocks c1) (blocks c1, t1) IH Hzz (reach_oinv Hr) Hown HR.
- by move=> nb Hb; exact: F2_l (v_blk HI1) Hb.
- by move=> p Hp /=; rewrite Hk.
by eexists; eexists.
Qed.

(** a sub-circuit under other port names *)
Lemma loop_renamed n (N : net (deep n.+1)) f fl zz nm ps (o : nest n) p bs st st' :
  uniq (dkeys (nblk N)) -> (forall nm, nm \in dkeys (nblk N) -> ~~ has_char "."%char nm) ->
  List.Forall (fun b => oinv b.2.2) (nblk N) ->
  List.In (nm, (ps, inr o)) (nblk N) -> p \in ports (n_c o) -> dot nm p \notin dkeys st.2 ->
  (forall nb, List.In nb bs -> exists2 b, List.In b (nblk N) & blk_ok nb b) -> uniq (dkeys bs) -> nm \in dkeys bs ->
  loop (@sub_step C F Fl K (deep n) nan (@getpos (deep n)) (@Solution C F Fl K nan getpos n) f zz None fl) st bs <> (st', Ok tt).
Proof.
move=> Hub Hnd Hoi Hin Hp; elim: bs st => [|nb bs IHb] st Hst Hbs //; rewrite loop_cons /= => /andP[Hn Hu].
have [[nm0 [ps0 o0]] Hin0 [/= Enm Eps Hoi0 [Haft _] _]] := Hbs nb (or_introl erefl).
have Hnm : ~~ has_char "."%char nm by apply: Hnd; apply/memP; exists (nm, (ps, inr o)).
have Hnm0 : ~~ has_char "."%char nm0 by apply: Hnd; apply/memP; exists (nm0, (ps0, o0)).
rewrite in_cons; case: eqP => [Eq _|Hne /= Hmem]; last first.
  case E1: (sub_step _ _ _ _ _ _) => [st1 [[]|e]] //=; apply: IHb => //; last by move=> b Hb; apply: Hbs; right.
  move: E1; rewrite /sub_step /=; case: (bobj nb.2) => [o1|o1]; first by case=> <-.
  case: (mapM _ _) => [Ek|] //=; case: (Solution _ _ _ _ _ _) => [c2 [ts|]] //= [<-] /=.
  rewrite add_sub_keys negb_or Hst /=; apply/mapP => -[q _ Eq].
  by case: Hne; rewrite Enm; exact: (dot_name Hnm Hnm0 (etrans Eq (congr1 (fun x => dot x q) Enm))).
have Hoo := iffLR (List.Forall_forall _ _) Hoi _ Hin.
have Eb : (ps0, o0) = (ps, inr o).
  have := In_dget Hub Hin0; by rewrite -Enm -Eq (In_dget Hub Hin) => -[<- <-].
case: Eb Haft => _ -> Haft; have [o' [E _ _ _ Ep']] := after_nest Hoo Haft.
suff [st2 [e ->]] : exists st2 e, sub_step (@Solution C F Fl K nan getpos n) f zz None fl st nb = (st2, Raise e) by [].
rewrite /sub_step E /=.
suff [e ->] : exists e, mapM (fun p => rmap (fun x : C * C * C * C => (p, x.1.2)) (dget_exn st.2 (dot nb.1 p))) (ports (n_c o')) = Raise e.
  by eexists; eexists.
rewrite -Ep' in Hp; elim: (ports (n_c o')) Hp => //= q qs IHq; rewrite in_cons; case: eqP => [<- _|_ /= /IHq [e ->]].
  move: Hst; rewrite -dhasE /dhas /dget_exn Eq; case: (dget _ _) => // _; by eexists.
by case: (rmap _ _) => [x|e']; eexists.
Qed.

Lemma sub_renamed n z ns h (c : circ (deep n.+1)) f E z' fl c' t nm ps (o : nest n) p : reach z ns h c -> may_ask h f fl ->
  List.In (nm, (ps, inr o)) (nblk (net_hist h)) -> p \in ports (n_c o) -> p \notin ps ->
  Solution f E z' None fl c <> (c', Ok t).
Proof.
move=> Hr Hm Hin Hp Hps; have HC := reach_CI Hr; have Ez := ci_z HC; have HI := ci_inv HC.
rewrite SolutionS /Solution_lv; case E1: (Solution1 f E z' fl c) => [c1 [t1|e]] //=.
case Eq: (loop _ _ _) => [[bs t2] [[]|e]] //= _; move: Eq; rewrite Ez; set zz := if z' == 0 then z else z' => Eq.
have [HE [S G]] := sol1_inv Hr Hm E1; rewrite -/zz in G.
have [D _ _ _] := get1S_CI HC Hm G; have HI1 := ci_inv D.
have [t0 [v [i [E0 _ _ [Hk _] _]]]] := thm_C22_gen Hr Hm HE G.
move: E0; rewrite E1 => -[Et]; rewrite -{}Et in Hk; move: Eq.
apply: (@loop_renamed n (net_hist h) f fl zz nm ps o p (blocks c1) (blocks c1, t1) _ (v_ub HI) (v_nb HI) (reach_oinv Hr) Hin Hp).
- rewrite Hk; apply/negP => Hd; move/negP: Hps; apply.
  exact: (blk_node_mem HI (reach_nodot Hr) (In_dget (v_ub HI) Hin) Hd).
- by move=> nb Hb; exact: F2_l (v_blk HI1) Hb.
- by rewrite (blk_keys HI1) (v_ub HI).
- by rewrite (blk_keys HI1); apply/memP; exists (nm, (ps, inr o)).
Qed.
End Many.

(** C61, C62 (continued): circuits of dissipative elements do not oscillate. *)
From mathcomp Require Import all_ssreflect all_algebra.
From Coq Require Import String Ascii.
From Coq Require List.
From Verif Require Import Base MxLib ConvModel ConvSpec CircModel CircSpec CircLib CircInv CircTerm CircApp CircConn CircAdd CircDe CircFill CircSolve CircExt CircHist CircGet CircMain CircOrd CircThm CircThm2 CircThm3 CircThm4 CircNest CircFlat CircDev CircThm6 CircPow CircPowT.
Set Implicit Arguments.
Unset Strict Implicit.
Unset Printing Implicit Defensive.
Import Order.TTheory GRing.Theory Num.Theory.
Local Open Scope string_scope.
Local Open Scope ring_scope.
Local Open Scope seq_scope.

Section Diss.
Variable C : numClosedFieldType.
Variables F Fl : eqType.
Variable K : vcls C F Fl.
Notation net := (net K).

(** ** specification *)
(** no current flows without power being lost, and then no voltage drops: e.g. a series
    resistor *)
Definition dissipative_obj (f : F) (fl : Fl) (o : K) : Prop :=
  passive_obj f fl o /\
  forall v i : vi C, oden o f fl v i -> power_in (osize o) v i = 0 ->
    forall k l, (k < osize o)%N -> (l < osize o)%N -> i k = 0 /\ v k = v l.
(** nor is there any voltage: e.g. a shunt resistor, a lossy line *)
Definition absorbing_obj (f : F) (fl : Fl) (o : K) : Prop :=
  forall v i : vi C, oden o f fl v i -> power_in (osize o) v i = 0 ->
    forall k, (k < osize o)%N -> v k = 0.

(** a load through which no current flows has no voltage *)
Definition grounding_load (l : load C) : bool :=
  match l with LZ _ => true | LY Y => Y != 0 | LRC R => R != 1 end.

(** nodes that are connected, through joints and blocks, to a free port, an absorbing block
    or a load (a node that is not can be at any voltage) *)
Inductive grounded (N : net) (f : F) (fl : Fl) : string -> Prop :=
  | g_free p : free N p -> grounded N f fl p
  | g_block nm ps o q : List.In (nm, (ps, o)) (nblk N) -> absorbing_obj f fl o -> q \in ps ->
      grounded N f fl (dot nm q)
  | g_load p l : List.In (p, l) (nterm N) -> grounding_load l -> grounded N f fl p
  | g_across nm ps o q q' : List.In (nm, (ps, o)) (nblk N) -> q \in ps -> q' \in ps ->
      grounded N f fl (dot nm q) -> grounded N f fl (dot nm q')
  | g_join old new p p' : List.In (old, new) (njoin N) ->
      p \in old ++ (if new is Some n then [:: n] else [::]) ->
      p' \in old ++ (if new is Some n then [:: n] else [::]) ->
      grounded N f fl p -> grounded N f fl p'.

(** ** proofs *)
(** a property of the ports of the blocks that passes from joined ports to the new port
    is one of all nodes *)
Definition nodes_ind_prop (N : net) : Prop := ndi N = [::] /\ forall P : string -> Prop,
  (forall nb, List.In nb (nblk N) -> forall p, p \in blk_nodes nb -> P p) ->
  (forall j, List.In j (njoin N) -> (forall p, p \in j.1 -> P p) -> forall n, j.2 = Some n -> P n) ->
  forall p, p \in nodes N -> P p.

Lemma In_dset (V : Type) (m : seq (string * V)) k v x : List.In x m -> x.1 <> k -> List.In x (dset m k v).
Proof.
elim: m => //= -[k1 v1] m IH [<- /= H|H Hk]; case: eqP => //= E; try by left.
- by case: H.
- by right.
by right; exact: IH.
Qed.

Lemma flat_In (A : Type) (B : eqType) (g : A -> seq B) (s : seq A) (p : B) :
  p \in flatten (map g s) -> exists2 x, List.In x s & p \in g x.
Proof.
elim: s => //= x s IH; rewrite mem_cat => /orP [H|/IH [y Hy H]]; first by exists x => //; left.
by exists y => //; right.
Qed.

Lemma In_flat (A : Type) (B : eqType) (g : A -> seq B) (s : seq A) x (p : B) :
  List.In x s -> p \in g x -> p \in flatten (map g s).
Proof.
elim: s => //= y s IH [->|H] Hp; rewrite mem_cat ?Hp //.
by rewrite IH // orbT.
Qed.

Lemma nodes_ind_step N o : no_deembed [:: (o, true) : event K] -> nodes_ind_prop N -> nodes_ind_prop (net_step N o).
Proof.
case: o => [nm ob pa x|ps|p kw|ints exts|f z' fl] //= _ [Hi H].
- case Ed: (dget (nblk N) nm) => [[ps o]|].
    split=> //= P H1 H2 p.
    rewrite /nodes /= (nodes_dset _ Ed) => Hp; apply: (H P) => // nb Hnb q Hq.
    have : q \in flatten (map (@blk_nodes _ _ _ K) (dset (nblk N) nm (ps, ob))).
      by rewrite (nodes_dset _ Ed); exact: In_flat Hnb Hq.
    by case/flat_In => nb' Hnb' Hq'; exact: H1 Hnb' _ Hq'.
  case: (resolve_ports _ _ _) => [ps|e] //; split=> //= P H1 H2 p.
  rewrite /nodes /= map_cat flatten_cat !mem_cat -!orbA => /or3P [Hp|Hp|Hp].
  + apply: (H P) => [nb Hnb|//|]; first by apply: H1; apply: List.in_or_app; left.
    by rewrite /nodes mem_cat Hp.
  + by apply: (H1 (nm, (ps, ob))) => //; apply: List.in_or_app; right; left.
  apply: (H P) => [nb Hnb|//|]; first by apply: H1; apply: List.in_or_app; left.
  by move: Hp; rewrite /nodes !mem_cat /= => ->; rewrite orbT.
- split=> //= P H1 H2 p.
  have HP q : q \in nodes N -> P q.
    by apply: H => // j Hj; apply: H2; apply: List.in_or_app; left.
  rewrite /nodes /= /news pmap_cat !mem_cat -!orbA => /or4P [Hp|Hp|Hp|Hp].
  + by apply: HP; rewrite /nodes mem_cat Hp.
  + by apply: HP; rewrite /nodes !mem_cat Hp orbT.
  + move: Hp; case En: [seq q <- ps | q \notin nodes N] => [|n ns] //=; rewrite inE => /eqP ->.
    apply: (H2 ([seq q <- ps | q \in nodes N], Some n)) => //=.
      by apply: List.in_or_app; right; left; rewrite En.
    by move=> q; rewrite mem_filter => /andP [Hq _]; exact: HP.
  by apply: HP; rewrite /nodes !mem_cat Hp !orbT.
Qed.

Lemma nodes_ind h : no_deembed h -> nodes_ind_prop (net_hist h).
Proof.
elim/last_ind: h => [_|h [o ok] IH]; first by split.
rewrite /no_deembed all_rcons => /andP [Ho Hd].
rewrite /net_hist map_rcons /net_of foldl_rcons; apply: nodes_ind_step; last exact: IH.
by rewrite /no_deembed /=; case: (o) Ho.
Qed.

Lemma psum0 (T : Type) (s : seq T) (g : T -> C) : List.Forall (fun x => 0 <= g x) s ->
  \sum_(x <- s) g x = 0 -> List.Forall (fun x => g x = 0) s.
Proof.
elim: s => [|x s IH] // H; have Hx := List.Forall_inv H; have Hs := List.Forall_inv_tail H.
rewrite big_cons => /eqP; rewrite paddr_eq0 //; last exact: sum_pos.
by case/andP => /eqP E1 /eqP E2; constructor; [|exact: IH].
Qed.

Lemma port_law z (v i : C) : 0 < z -> v + z * i = 0 -> 'Re (v * i^*) = - (z * `|i| ^+ 2).
Proof.
move=> Hz /eqP; rewrite addr_eq0 => /eqP ->.
by rewrite mulNr raddfN /= -mulrA -normCK ReMr ?rpredX ?normr_real // (Creal_ReP _ _) // gtr0_real.
Qed.

Variable nan : C.
Variable getpos : circ K -> string -> res C.

Theorem dissipative_not_resonant z ns h c f fl : reach nan getpos z ns h c -> 0 < z -> no_deembed h ->
  all_blocks (dissipative_obj f fl) (net_hist h) -> all_loads (@passive_load C) (net_hist h) ->
  (forall p, p \in nodes (net_hist h) -> grounded (net_hist h) f fl p) ->
  ~ resonant z (net_hist h) f fl.
Proof.
move=> Hr Hz Hd Hb Hl Hg [v [i [Hs Hf [p0 Hp0 Hne]]]].
have HI := ci_inv (reach_CI Hr); have [_ Hsz] := reach_wf Hr.
have Hz0 : z != 0 by rewrite gt_eqF.
have HP := sat_power Hr Hd Hs.
have Hfree p : p \in ports c -> v p + z * i p = 0 by rewrite (v_fp HI); exact: Hf.
have [S1 S2 S3 _ _] := Hs.
have PB : List.Forall (fun nb : string * (seq string * K) =>
    0 <= power_in (osize nb.2.2) (fun k => v (dot nb.1 (nth "" nb.2.1 k))) (fun k => i (dot nb.1 (nth "" nb.2.1 k))))
    (nblk (net_hist h)).
  by apply: (F2 _ S1 Hb) => nb H1 [H2 _]; exact: H2 H1.
have PL : 0 <= - \sum_(t <- nterm (net_hist h)) 'Re (v t.1 * (i t.1)^*).
  rewrite -sumrN; apply: sum_pos; apply: (F2 _ S3 Hl) => t H1 H2.
  by rewrite oppr_ge0; exact: load_power Hz H2 H1.
have PF : \sum_(p <- ports c) 'Re (v p * (i p)^*) <= 0.
  rewrite -oppr_ge0 -sumrN big_seq_cond; apply: sumr_ge0 => p; rewrite andbT => Hp.
  by rewrite (port_law Hz (Hfree _ Hp)) opprK; apply: mulr_ge0; [exact: ltW|exact: exprn_ge0].
have PBs := sum_pos PB.
have E0 : \sum_(p <- ports c) 'Re (v p * (i p)^*) = 0.
  by apply/eqP; rewrite eq_le PF HP addr_ge0.
have EB := psum0 PB ltac:(by apply/eqP; move/eqP: HP; rewrite E0 eq_sym paddr_eq0 // => /andP []).
have Hblk : List.Forall (fun nb : string * (seq string * K) => forall q q', q \in nb.2.1 -> q' \in nb.2.1 ->
    [/\ i (dot nb.1 q) = 0, v (dot nb.1 q) = v (dot nb.1 q') & absorbing_obj f fl nb.2.2 -> v (dot nb.1 q) = 0])
    (nblk (net_hist h)).
  apply/List.Forall_forall => nb Hin q q' Hq Hq'.
  have H1 := iffLR (List.Forall_forall _ _) S1 _ Hin; have [_ H2] := iffLR (List.Forall_forall _ _) Hb _ Hin.
  have H3 := iffLR (List.Forall_forall _ _) EB _ Hin; have H4 := iffLR (List.Forall_forall _ _) Hsz _ Hin.
  have Kq : (seq.index q nb.2.1 < osize nb.2.2)%N by rewrite H4 index_mem.
  have Kq' : (seq.index q' nb.2.1 < osize nb.2.2)%N by rewrite H4 index_mem.
  have [] := H2 _ _ H1 H3 _ _ Kq Kq'; rewrite !nth_index // => -> ->; split=> //.
  by move=> Ha; have := Ha _ _ H1 H3 _ Kq'; rewrite nth_index.
have I0 p : p \in nodes (net_hist h) -> i p = 0.
  have [_ H] := nodes_ind Hd; apply: (H (fun p => i p = 0)) => [nb Hin q|j Hj Hz1 n En].
    case/mapP => q1 Hq1 ->; have H9 := iffLR (List.Forall_forall _ _) Hblk _ Hin.
    by have [] := H9 q1 q1 Hq1 Hq1.
  have := iffLR (List.Forall_forall _ _) S2 _ Hj; rewrite /join_law En => -[_ [_ <-]].
  by rewrite big_seq_cond big1 // => q; rewrite andbT => /Hz1.
have V0 p : grounded (net_hist h) f fl p -> v p = 0.
  elim=> {p} [p Hp|nm ps o q Hin Ha Hq|p l Hin Hgl|nm ps o q q' Hin Hq Hq' _ IH|old new p p' Hin Hp Hp' _ IH].
  - by have := Hf _ Hp; rewrite I0 ?mulr0 ?addr0 //; case/andP: Hp.
  - have H := iffLR (List.Forall_forall _ _) Hblk _ Hin.
    by have [_ _] := H q q Hq Hq; apply.
  - have Hpn : p \in nodes (net_hist h).
      apply: (v_us HI); rewrite /used mem_cat; apply/orP; right; rewrite mem_cat; apply/orP; left.
      exact: (In_keys Hin).
    have := iffLR (List.Forall_forall _ _) S3 _ Hin; rewrite /= (I0 _ Hpn).
    case: (l) Hgl => [Z|Y|R] /= Hgl; rewrite ?mulr0 ?oppr0 ?subr0 ?addr0 //.
    + by move/eqP; rewrite eq_sym oppr_eq0 mulf_eq0 (negbTE Hgl) => /eqP.
    move/eqP; rewrite -subr_eq0 -[X in X - _]mul1r -mulrBl mulf_eq0 subr_eq0 eq_sym (negbTE Hgl).
    by move/eqP.
  - have H := iffLR (List.Forall_forall _ _) Hblk _ Hin.
    by have [_ <- _] := H q q' Hq Hq'.
  have := iffLR (List.Forall_forall _ _) S2 _ Hin; rewrite /join_law /=.
  case: new Hp Hp' {Hin} => [n|]; rewrite ?cats0 => Hp Hp' [Ho]; last by move=> _; rewrite -(Ho p p') .
  case=> Hn _; have E q : q \in old ++ [:: n] -> v q = v n.
    by rewrite mem_cat inE => /orP [/Hn|/eqP ->].
  by rewrite (E _ Hp') -(E _ Hp).
by move: Hne; rewrite (V0 _ (Hg _ Hp0)) (I0 _ Hp0) eqxx.
Qed.
End Diss.

(** The flat network of a circuit whose blocks are circuits (C24): the union of the
    equations of the outer and of the inner circuits. *)
From mathcomp Require Import all_ssreflect all_algebra.
From mathcomp Require Import zify algebra_tactics.ring.
From Coq Require Import String Ascii.
From Coq Require List.
From Verif Require Import Base MxLib ConvModel ConvSpec ConvProofs ConvArr CircModel CircSpec CircLib CircInv CircTerm CircApp CircConn CircAdd CircDe CircFill CircSolve CircExt CircHist CircGet CircMain CircOrd CircThm CircThm2 CircThm3 CircThm4 CircNest.
Set Implicit Arguments.
Unset Strict Implicit.
Unset Printing Implicit Defensive.
Import Order.TTheory GRing.Theory Num.Theory.
Local Open Scope ring_scope.
Local Open Scope seq_scope.

Section Ext.
Variable C : numClosedFieldType.
Variables F Fl : eqType.
Variable K : vcls C F Fl.
Variable nan : C.
Variable getpos : circ K -> string -> res C.

Lemma FC A (P : A -> Prop) a s : List.Forall P (a :: s) -> P a /\ List.Forall P s.
Proof. by move=> H; inversion H. Qed.

(** the names in the laws of a network are its nodes; block objects have as many
    ports as names *)
Definition net_wf (N : net K) : Prop :=
  {subset used N <= nodes N} /\
  List.Forall (fun b => osize b.2.2 = size b.2.1) (nblk N).

Lemma Forall_dset (A : Type) (P : string * A -> Prop) (d : seq (string * A)) k x :
  List.Forall P d -> P (k, x) -> List.Forall P (dset d k x).
Proof.
move=> H Hx; elim: H => /= [|[k' x'] s H1 H2 IH]; first by repeat constructor.
case: eqP => [<-|_]; constructor=> //.
Qed.

Lemma step_oinv N g e : ev_ok N g e -> List.Forall (fun b => oinv b.2.2) (nblk N) ->
  List.Forall (fun b => oinv b.2.2) (nblk (net_step N e.1 : net K)).
Proof.
case: e => -[nm o pa x|ps|p kw|ints exts|f z fl] ok //= [_ Ho _] H.
case: (dget _ _) => [[ps ?]|]; first by apply: Forall_dset.
case: (resolve_ports _ _ _) => //= ps.
by apply: (iffRL (List.Forall_app _ _ _)); split=> //; repeat constructor.
Qed.

Lemma hist_oinv N g h : hist_ok_from N g h -> List.Forall (fun b => oinv b.2.2) (nblk N) ->
  List.Forall (fun b => oinv b.2.2) (nblk (foldl (@net_step C F Fl K) N (map fst h))).
Proof.
elim: h N g => [|e h IH] N g //= [He Hh] H.
exact: (IH _ _ Hh (step_oinv He H)).
Qed.

Lemma reach_oinv z ns h c : reach nan getpos z ns h c ->
  List.Forall (fun b => oinv b.2.2) (nblk (net_hist h)).
Proof. by case=> _ Hh _; apply: (hist_oinv Hh); constructor. Qed.

Lemma after_size (o o' : K) : oinv o -> after_getS o o' -> oinv o' /\ osize o' = osize o.
Proof.
move=> Ho; elim=> // o1 f z fl Hz _ [H1 H2].
by have [H3 H4 _ _ _] := oget_law f fl H1 Hz; rewrite H4 H2.
Qed.

Lemma reach_wf z ns h c : reach nan getpos z ns h c -> net_wf (net_hist h).
Proof.
move=> Hr; have HC := reach_CI Hr; have HI := ci_inv HC.
split; first exact: (v_us HI).
have Hb := v_blk HI; have := reach_oinv Hr.
elim: Hb => //= b nb bs nbs [_ _ _ [H1 _] [H2 _]] _ IH H; have [Ho H'] := FC H.
constructor; last exact: IH.
by rewrite -H2; have [_ ->] := after_size Ho H1.
Qed.

(** only the values at the nodes matter *)
Lemma sat_ext z (N : net K) f fl (v i v' i' : asg C) : net_wf N ->
  (forall p, p \in nodes N -> v p = v' p /\ i p = i' p) -> sat z N f fl v i -> sat z N f fl v' i'.
Proof.
case=> Hu Hs H [H1 H2 H3 H4 H5].
have Hin A (P Q : A -> Prop) (s : seq A) : List.Forall P s ->
    (forall a, List.In a s -> P a -> Q a) -> List.Forall Q s.
  move=> /List.Forall_forall G1 G2; apply/List.Forall_forall => a Ha; exact: G2 (G1 _ Ha).
have mem_fl A (g : A -> seq string) s a p : List.In a s -> p \in g a -> p \in flatten (map g s).
  elim: s => //= b s IH [->|Ha] Hp; rewrite mem_cat; first by rewrite Hp.
  by rewrite IH ?orbT.
have mem_mp A (g : A -> string) s a : List.In a s -> g a \in map g s.
  by elim: s => //= b s IH [->|Ha]; rewrite in_cons ?eqxx // IH ?orbT.
have un p : p \in used N -> v p = v' p /\ i p = i' p by move=> /Hu; exact: H.
have uj j p : List.In j (njoin N) -> p \in j.1 -> v p = v' p /\ i p = i' p.
  by move=> Hj Hp; apply: un; rewrite mem_cat (mem_fl _ _ _ _ _ Hj Hp).
have un1 p : p \in map fst (nterm N) ++ map fst (ndi N) ++ map fst (nde N) ++ map snd (nde N) ->
    v p = v' p /\ i p = i' p by move=> Hp; apply: un; rewrite mem_cat Hp orbT.
split.
- apply: (Hin _ _ _ _ H1) => b Hb; rewrite /block_law.
  move: (iffLR (List.Forall_forall _ _) Hs b Hb) => Eb.
  apply: oden_ext => k; rewrite Eb => Hk; apply: H.
  rewrite mem_cat (mem_fl _ _ _ _ _ Hb) //; apply/mapP; by exists (nth "" b.2.1 k); rewrite ?mem_nth.
- apply: (Hin _ _ _ _ H2) => -[ps n] Hj [G1 G2] /=; split.
    move=> p q Hp Hq; have [<- _] := uj _ _ Hj Hp; have [<- _] := uj _ _ Hj Hq; exact: G1.
  have Es : \sum_(p <- ps) i' p = \sum_(p <- ps) i p.
    by apply: eq_big_seq => p Hp; have [_ ->] := uj _ _ Hj Hp.
  case: n Hj G1 G2 => [n|] Hj G1; last by rewrite /= Es.
  case=> G2 G3; have [En Ei] : v n = v' n /\ i n = i' n.
    apply: H; rewrite mem_cat [X in _ || X]mem_cat.
    have -> : n \in news (njoin N); last by rewrite orbT.
    elim: (njoin N) Hj => //= j s IH [->|/IH Hj] /=; first by rewrite /news /= in_cons eqxx.
    by rewrite /news /=; case: (j.2) => [m|] /=; rewrite ?in_cons Hj ?orbT.
  split; last by rewrite Es -Ei.
  move=> p Hp; rewrite -En; have [<- _] := uj _ _ Hj Hp; exact: G2.
- apply: (Hin _ _ _ _ H3) => t Ht.
  have [<- <-] // : v t.1 = v' t.1 /\ i t.1 = i' t.1.
  by apply: un1; rewrite mem_cat (mem_mp _ (fun t => t.1) _ _ Ht).
- apply: (Hin _ _ _ _ H4) => t Ht; rewrite /di_law.
  have [<- <-] : v t.1 = v' t.1 /\ i t.1 = i' t.1.
    by apply: un1; rewrite !mem_cat (mem_mp _ (fun t => t.1) _ _ Ht) orbT.
  have [<- <-] // : v t.2 = v' t.2 /\ i t.2 = i' t.2.
    by apply: H; rewrite !mem_cat (mem_mp _ (fun t => t.2) _ _ Ht) !orbT.
- apply: (Hin _ _ _ _ H5) => t Ht; rewrite /de_law.
  have [<- <-] : v t.1 = v' t.1 /\ i t.1 = i' t.1.
    by apply: un1; rewrite !mem_cat (mem_mp _ (fun t => t.1) _ _ Ht) !orbT.
  have [<- <-] // : v t.2 = v' t.2 /\ i t.2 = i' t.2.
    by apply: un1; rewrite !mem_cat (mem_mp _ (fun t => t.2) _ _ Ht) !orbT.
Qed.

(** loads that are not given as reflection coefficients *)
Definition no_rc (N : net K) : Prop :=
  List.Forall (fun t => if t.2 is LRC _ then False else True) (nterm N).

Lemma sat_z z z' (N : net K) f fl (v i : asg C) : z = z' \/ no_rc N -> sat z N f fl v i -> sat z' N f fl v i.
Proof.
case=> [<-//|Hn] [H1 H2 H3 H4 H5]; split=> //.
rewrite /no_rc in Hn; elim: H3 Hn => //= -[p l] s Hl _ IH /(fun H => FC H) [Hl' Hn]; constructor; last exact: IH.
by case: l Hl Hl'.
Qed.
End Ext.

Section Flat.
Variable C : numClosedFieldType.
Variables F Fl : eqType.
Variables K K' : vcls C F Fl.        (* devices; blocks of the inner circuits *)
Variable emb : K -> K'.              (* a device as a block of the flat network *)
Hypothesis emb_den : forall o f fl v i, oden (emb o) f fl v i <-> oden o f fl v i.
Hypothesis emb_size : forall o, osize (emb o) = osize o.
Variable nan : C.
Variable getpos' : circ K' -> string -> res C.
Notation S := (sum_cls K (nest_cls nan getpos')).
Variable tag : string -> string.     (* how the inner nodes of a block are named *)

Definition inner (o : nest_cls nan getpos') : net K' := net_hist (n_h o).
Definition tg (b p : string) : string := tag b +s+ p.

Definition flat_blk (b : string * (seq string * S)) : seq (string * (seq string * K')) :=
  match b.2.2 with
  | inl d => [:: (b.1, (b.2.1, emb d))]
  | inr o => [seq (tg b.1 x.1, x.2) | x <- nblk (inner o)]
  end.
(** the inner joins, and the inner port P joined to the outer port name *)
Definition flat_join (b : string * (seq string * S)) : seq (seq string * option string) :=
  match b.2.2 with
  | inl _ => [::]
  | inr o => [seq (map (tg b.1) j.1, omap (tg b.1) j.2) | j <- njoin (inner o)] ++
             [seq ([:: tg b.1 pq.1], Some (dot b.1 pq.2)) | pq <- zip (ports (n_c o)) b.2.1]
  end.
Definition flat_term (b : string * (seq string * S)) : seq (string * load C) :=
  if b.2.2 is inr o then [seq (tg b.1 t.1, t.2) | t <- nterm (inner o)] else [::].
Definition flat_di (b : string * (seq string * S)) : seq (string * string) :=
  if b.2.2 is inr o then [seq (tg b.1 t.1, tg b.1 t.2) | t <- ndi (inner o)] else [::].
Definition flat_de (b : string * (seq string * S)) : seq (string * string) :=
  if b.2.2 is inr o then [seq (tg b.1 t.1, tg b.1 t.2) | t <- nde (inner o)] else [::].

(** the union of the outer equations and of all inner ones *)
Definition flat (N : net S) : net K' := Net
  (flatten (map flat_blk (nblk N)))
  (njoin N ++ flatten (map flat_join (nblk N)))
  (nterm N ++ flatten (map flat_term (nblk N)))
  (ndi N ++ flatten (map flat_di (nblk N)))
  (nde N ++ flatten (map flat_de (nblk N))).

(** the names given to the inner nodes *)
Definition inner_names (N : net S) : seq string :=
  flatten [seq (if b.2.2 is inr o then map (tg b.1) (nodes (inner o)) else [::]) | b <- nblk N].

(** inner loads given as reflection coefficients refer to the same impedance *)
Definition same_ref (z : C) (N : net S) : Prop :=
  List.Forall (fun b => if b.2.2 is inr o then n_z o = z \/ no_rc (inner o) else True) (nblk N).

Lemma Forall_map' A B (P : B -> Prop) (g : A -> B) s : List.Forall P (map g s) <-> List.Forall (fun x => P (g x)) s.
Proof. exact: List.Forall_map. Qed.
Lemma Forall_flatten A B (P : B -> Prop) (g : A -> seq B) s :
  List.Forall P (flatten (map g s)) <-> List.Forall (fun x => List.Forall P (g x)) s.
Proof.
elim: s => [|x s IH] /=; first by split.
split=> [/(iffLR (List.Forall_app _ _ _)) [H1 H2]|H].
  by constructor=> //; apply/IH.
by inversion H; subst; apply/List.Forall_app; split=> //; apply/IH.
Qed.

Lemma dot_tg b x p : dot (tg b x) p = tg b (dot x p).
Proof. by rewrite /tg /dot append_assoc. Qed.

Lemma tg_inj b : injective (tg b).
Proof. exact: append_inj_l. Qed.

(** the laws of a renamed network *)
Lemma sat_tg z b (N : net K') f fl (v i : asg C) :
  sat z N f fl (fun p => v (tg b p)) (fun p => i (tg b p)) <->
  [/\ List.Forall (block_law f fl v i) [seq (tg b x.1, x.2) | x <- nblk N],
      List.Forall (join_law v i) [seq (map (tg b) j.1, omap (tg b) j.2) | j <- njoin N],
      List.Forall (fun t => load_law z t.2 (v t.1) (i t.1)) [seq (tg b t.1, t.2) | t <- nterm N],
      List.Forall (di_law v i) [seq (tg b t.1, tg b t.2) | t <- ndi N] &
      List.Forall (de_law v i) [seq (tg b t.1, tg b t.2) | t <- nde N]].
Proof.
have Hj (j : seq string * option string) :
    join_law (fun p => v (tg b p)) (fun p => i (tg b p)) j <->
    join_law v i (map (tg b) j.1, omap (tg b) j.2).
  case: j => ps n; rewrite /join_law /=.
  have H1 (P : string -> string -> Prop) : {in ps & ps, forall p q, P (tg b p) (tg b q)} <->
      {in map (tg b) ps & map (tg b) ps, forall p q, P p q}.
    split=> [H _ _ /mapP[p Hp ->] /mapP[q Hq ->]|H p q Hp Hq]; first exact: H.
    by apply: H; apply: map_f.
  have H2 (P : string -> Prop) : {in ps, forall p, P (tg b p)} <-> {in map (tg b) ps, forall p, P p}.
    split=> [H _ /mapP[p Hp ->]|H p Hp]; first exact: H.
    by apply: H; apply: map_f.
  case: n => [n|] /=; rewrite big_map (H1 (fun p q => v p = v q)) //.
  by rewrite (H2 (fun p => v p = v (tg b n))).
have Hb x : block_law f fl (fun p => v (tg b p)) (fun p => i (tg b p)) x <->
    block_law f fl v i (tg b x.1, x.2).
  rewrite /block_law /=; split; apply: oden_ext => k _; by rewrite dot_tg.
split=> -[H1 H2 H3 H4 H5]; split.
- by apply/Forall_map'; apply: Forall_imp H1 => x /Hb.
- by apply/Forall_map'; apply: Forall_imp H2 => x /Hj.
- by apply/Forall_map'.
- by apply/Forall_map'.
- by apply/Forall_map'.
- by move/Forall_map': H1; apply: Forall_imp => x /Hb.
- by move/Forall_map': H2; apply: Forall_imp => x /Hj.
- by move/Forall_map': H3.
- by move/Forall_map': H4.
- by move/Forall_map': H5.
Qed.

(** the laws of the flat network that come from one block of the outer circuit *)
Definition blk_laws z f fl (v i : asg C) b : Prop :=
  [/\ List.Forall (block_law f fl v i) (flat_blk b), List.Forall (join_law v i) (flat_join b),
      List.Forall (fun t => load_law z t.2 (v t.1) (i t.1)) (flat_term b),
      List.Forall (di_law v i) (flat_di b) & List.Forall (de_law v i) (flat_de b)].

Lemma flat_split z N f fl v i : sat z (flat N) f fl v i <->
  List.Forall (blk_laws z f fl v i) (nblk N) /\
  [/\ List.Forall (join_law v i) (njoin N),
      List.Forall (fun t => load_law z t.2 (v t.1) (i t.1)) (nterm N),
      List.Forall (di_law v i) (ndi N) & List.Forall (de_law v i) (nde N)].
Proof.
have HF (P Q R T U : string * (seq string * S) -> Prop) s :
    List.Forall (fun b => [/\ P b, Q b, R b, T b & U b]) s <->
    [/\ List.Forall P s, List.Forall Q s, List.Forall R s, List.Forall T s & List.Forall U s].
  elim: s => [|b s IH]; first by split=> // _; split; constructor.
  split=> [/(fun H => FC H) [[? ? ? ? ?] /IH [? ? ? ? ?]]|]; first by split; constructor.
  by case=> /(fun H => FC H) [? ?] /(fun H => FC H) [? ?] /(fun H => FC H) [? ?] /(fun H => FC H) [? ?] /(fun H => FC H) [? ?]; constructor=> //; apply/IH; split.
rewrite HF; split.
  case=> /Forall_flatten H1 /(iffLR (List.Forall_app _ _ _)) [H2 /Forall_flatten H2']
   /(iffLR (List.Forall_app _ _ _)) [H3 /Forall_flatten H3']
   /(iffLR (List.Forall_app _ _ _)) [H4 /Forall_flatten H4']
   /(iffLR (List.Forall_app _ _ _)) [H5 /Forall_flatten H5'].
  by split; split.
case=> -[H1 H2' H3' H4' H5'] [H2 H3 H4 H5]; split.
- exact/Forall_flatten.
- by apply/List.Forall_app; split=> //; apply/Forall_flatten.
- by apply/List.Forall_app; split=> //; apply/Forall_flatten.
- by apply/List.Forall_app; split=> //; apply/Forall_flatten.
- by apply/List.Forall_app; split=> //; apply/Forall_flatten.
Qed.

(** the identification of inner ports with outer names *)
Lemma port_joins b (P ps : seq string) (v i : asg C) : size P = size ps ->
  List.Forall (join_law v i) [seq ([:: tg b pq.1], Some (dot b pq.2)) | pq <- zip P ps] <->
  forall j, (j < size P)%N -> v (tg b (nth "" P j)) = v (dot b (nth "" ps j)) /\
                              i (tg b (nth "" P j)) = i (dot b (nth "" ps j)).
Proof.
elim: P ps => [|p P IH] [|q ps] //= [Es].
have Hj : join_law v i ([:: tg b p], Some (dot b q)) <->
    v (tg b p) = v (dot b q) /\ i (tg b p) = i (dot b q).
  rewrite /join_law /= big_seq1; split.
    by case=> _ [/(_ (tg b p)) ->] //; rewrite inE.
  case=> E1 E2; split; first by move=> x y; rewrite !inE => /eqP -> /eqP ->.
  by split=> // x; rewrite !inE => /eqP ->.
split=> [/(fun H => FC H) [H0 H]|H].
  case=> [|j] /= Hlt; first exact/Hj.
  by apply: (iffLR (IH ps Es)).
constructor; first by apply/Hj; exact: (H 0%N).
by apply/(IH ps Es) => j Hlt; exact: (H j.+1).
Qed.

(** a solution of the flat network is one of the nested circuit *)
Lemma flat_nested z N f fl v i : net_wf N -> same_ref z N ->
  sat z (flat N) f fl v i -> sat z N f fl v i.
Proof.
case=> _ Hwf Hsr /flat_split [Hb [H2 H3 H4 H5]]; split=> //.
rewrite /same_ref in Hsr; elim: Hb Hwf Hsr => //= b bs Hb _ IH /(fun H => FC H) [H1 Hwf] /(fun H => FC H) [H8 Hsr].
constructor; last exact: IH.
case: b Hb H1 H8 => nm [ps [d|o]]; rewrite /blk_laws /flat_blk /flat_join /flat_term /flat_di /flat_de /=.
  by case=> /(fun H => FC H) [Hb _] _ _ _ _ _ _; apply/emb_den.
case=> G1 /(iffLR (List.Forall_app _ _ _)) [G2 G2'] G3 G4 G5 Es Hz.
rewrite /block_law /=; exists (fun p => v (tg nm p)), (fun p => i (tg nm p)); split.
  have Hz' : z = n_z o \/ no_rc (inner o) by case: Hz => [->|]; [left|right].
  by apply: (sat_z Hz'); apply/sat_tg.
exact: (iffLR (port_joins _ _ _ Es) G2').
Qed.

Lemma dget_map (q : string) nm (ns : seq string) (v : string -> C * C) d : q \in ns ->
  dget ([seq (tg nm x, v x) | x <- ns] ++ d) (tg nm q) = Some (v q).
Proof.
elim: ns => //= x ns IH; rewrite in_cons (inj_eq (@tg_inj nm)); case: eqP => [<-|_] //=; exact: IH.
Qed.

Lemma dget_skip (p : string) nm (ns : seq string) (v : string -> C * C) d : p \notin map (tg nm) ns ->
  dget ([seq (tg nm x, v x) | x <- ns] ++ d) p = dget d p.
Proof.
by elim: ns => //= x ns IH; rewrite in_cons negb_or => /andP[/negbTE -> /IH].
Qed.

(** the other way: inner solutions, given per block, are put together *)
Lemma nested_flat z N f fl v i : net_wf N -> same_ref z N ->
  List.Forall (fun b => if b.2.2 is inr o then n_inv nan getpos' o else True) (nblk N) ->
  uniq (nodes N ++ inner_names N) -> sat z N f fl v i ->
  exists v' i' : asg C, (forall p, p \in nodes N -> v' p = v p /\ i' p = i p) /\
    sat z (flat N) f fl v' i'.
Proof.
move=> Hwf Hsr Hin Hu Hs; rewrite /same_ref in Hsr.
pose val d p := if dget d p is Some x then x else (v p, i p) : C * C.
have Hun : uniq (inner_names N) by move: Hu; rewrite cat_uniq => /and3P[].
have Hdis p : p \in nodes N -> p \notin inner_names N.
  move=> Hp; apply/negP => Hp'; move: Hu; rewrite cat_uniq => /and3P[_ /hasPn /(_ p Hp') /negP].
  by [].
have Hkey d p : dkeys d =i inner_names N -> p \in nodes N -> val d p = (v p, i p).
  move=> Hd /Hdis; rewrite -Hd /val => Hn.
  by case E: (dget d p) => [x|] //; move: (dget_keys E); rewrite (negbTE Hn).
suff [d [Hd Hall]] : exists d : seq (string * (C * C)), dkeys d = inner_names N /\
    List.Forall (fun b : string * (seq string * S) => if b.2.2 is inr o then
       sat z (inner o) f fl (fun q => (val d (tg b.1 q)).1) (fun q => (val d (tg b.1 q)).2) /\
       forall j, (j < size (ports (n_c o)))%N ->
         (val d (tg b.1 (nth "" (ports (n_c o)) j))) =
         (v (dot b.1 (nth "" b.2.1 j)), i (dot b.1 (nth "" b.2.1 j)))
      else block_law f fl v i b) (nblk N).
  exists (fun p => (val d p).1), (fun p => (val d p).2).
  have Hd' : dkeys d =i inner_names N by rewrite Hd.
  split; first by move=> p /(Hkey _ _ Hd') ->.
  have Hs' : sat z N f fl (fun p => (val d p).1) (fun p => (val d p).2).
    by apply: sat_ext Hs => // p /(Hkey _ _ Hd') ->.
  apply/flat_split; split; last by case: Hs'.
  have Hn : forall b, List.In b (nblk N) -> forall p, p \in b.2.1 -> dot b.1 p \in nodes N.
    move=> b Hb p Hp; rewrite mem_cat; apply/orP; left.
    elim: (nblk N) Hb => //= b' s IH [->|/IH Hb]; rewrite mem_cat ?Hb ?orbT //.
    by rewrite /blk_nodes map_f.
  case: Hs' => Hb' _ _ _ _; case: Hwf => _ Hsz.
  elim: (nblk N) Hall Hb' Hsr Hn Hsz => // b bs IH /(fun H => FC H) [H1 Hall] /(fun H => FC H) [H5 Hb'] /(fun H => FC H) [H9 Hsr] Hn /(fun H => FC H) [H13 Hsz].
  constructor; last by apply: IH => // b' Hb''; apply: Hn; right.
  have Hnb := Hn b (or_introl erefl).
  clear Hn; case: b H1 H5 H9 H13 Hnb => nm [ps [o|o]] /= H1 H5 H9 H13 Hnb.
    by split; rewrite /flat_blk /=; constructor=> //; apply/emb_den.
  rewrite /blk_laws /flat_blk /flat_join /flat_term /flat_di /flat_de /=.
  case: H1 => G0 Hj.
  have [G1 G2 G3 G4 G5] := iffLR (sat_tg z nm (inner o) f fl (fun p => (val d p).1) (fun p => (val d p).2)) G0.
  split=> //.
  apply/List.Forall_app; split=> //; apply/port_joins => // j Hlt.
  by rewrite Hj // (Hkey _ _ Hd') // Hnb // mem_nth // -H13.
case: Hs => Hb _ _ _ _.
rewrite /inner_names in Hun *.
elim: (nblk N) Hb Hsr Hin Hun => [|b bs IH]; first by exists [::].
move=> /(fun H => FC H) [H1 H2] /(fun H => FC H) [H5 H6] /(fun H => FC H) [H9 H10].
rewrite /= cat_uniq => /and3P[Hu1 Hu2 /(IH H2 H6 H10) [d [Hd Hall]]].
case: b H1 H5 H9 Hu1 Hu2 => nm [ps [o|o]] /= H1 H5 H9 Hu1 Hu2.
  by exists d; split=> //; constructor.
case: H1 => w [wi [Hw Hj]].
exists ([seq (tg nm q, (w q, wi q)) | q <- nodes (inner o)] ++ d); split.
  by rewrite /dkeys map_cat -map_comp; congr (_ ++ _).
have [Hr _ _] := H9; have Hwfi := reach_wf Hr; have HIi := ci_inv (reach_CI Hr).
constructor=> /=.
  split.
    have Hz' : n_z o = z \/ no_rc (inner o) by [].
    apply: (sat_z Hz'); apply: sat_ext Hw => // q Hq.
    by rewrite /val (dget_map _ (fun q => (w q, wi q))).
  move=> j Hlt; have [<- <-] := Hj j Hlt.
  rewrite /val (dget_map _ (fun q => (w q, wi q))) //.
  exact: (port_node HIi (mem_nth _ Hlt)).
have Hsk : {subset flatten [seq (if b.2.2 is inr o0 then map (tg b.1) (nodes (inner o0)) else [::])
      | b <- bs] <= [predC map (tg nm) (nodes (inner o))]}.
  by move=> p Hp; move/hasPn: Hu2 => /(_ p Hp).
have Hini : List.Forall (fun b => if b.2.2 is inr o then n_inv nan getpos' o else True) bs := H10.
elim: bs Hall Hsk Hini {IH Hu2 H2 H6 Hd H10} => // b bs IH /(fun H => FC H) [H1 Hall] Hsk /(fun H => FC H) [H6' Hini].
constructor; last first.
  by apply: IH => // p Hp; apply: Hsk; rewrite /= mem_cat Hp orbT.
case: b H1 Hsk H6' {Hall Hini IH} => nm' [ps' [o'|o']] //= [G1 G2] Hsk Hni.
have Hv q : q \in nodes (inner o') ->
    val ([seq (tg nm x, (w x, wi x)) | x <- nodes (inner o)] ++ d) (tg nm' q) = val d (tg nm' q).
  move=> Hq; rewrite /val (dget_skip (fun x => (w x, wi x))) //; apply: Hsk.
  by rewrite mem_cat map_f.
have [Hr' _ _] := Hni; split.
  by apply: sat_ext G1; [exact: reach_wf Hr'|move=> q Hq; rewrite Hv].
move=> j Hlt; rewrite Hv; first exact: G2.
exact: (port_node (ci_inv (reach_CI Hr')) (mem_nth _ Hlt)).
Qed.

(** ** the flat network is well formed again *)
Hypothesis emb_inv : forall o, oinv o -> oinv (emb o).

Definition blks_inv (M : vcls C F Fl) (N : net M) : Prop := List.Forall (fun b => oinv b.2.2) (nblk N).

Lemma mem_fl A (g : A -> seq string) s p : p \in flatten (map g s) <-> exists2 a, List.In a s & p \in g a.
Proof.
elim: s => [|a s IH] /=; first by split=> // -[].
rewrite mem_cat; split=> [/orP[H|/IH [b Hb Hp]]|[b [<-|Hb] Hp]].
- by exists a => //; left.
- by exists b => //; right.
- by rewrite Hp.
- by apply/orP; right; apply/IH; exists b.
Qed.

Lemma In_flatten A B (g : A -> seq B) s x : List.In x (flatten (map g s)) <-> exists2 a, List.In a s & List.In x (g a).
Proof.
elim: s => [|a s IH] /=; first by split=> // -[].
split=> [/(@List.in_app_or B) [H|/IH [b Hb Hp]]|[b [<-|Hb] Hp]].
- by exists a => //; left.
- by exists b => //; right.
- by apply: (@List.in_or_app B); left.
- by apply: (@List.in_or_app B); right; apply/IH; exists b.
Qed.

Lemma memP A (g : A -> string) s p : p \in map g s <-> exists2 a, List.In a s & p = g a.
Proof.
elim: s => [|a s IH] /=; first by split=> // -[].
rewrite in_cons; split=> [/orP[/eqP E|/IH [b Hb E]]|[b [<-|Hb] E]].
- by exists a => //; left.
- by exists b => //; right.
- by rewrite E eqxx.
- by apply/orP; right; apply/IH; exists b.
Qed.

Lemma newsP (j : seq (seq string * option string)) n : n \in news j <-> exists2 x, List.In x j & x.2 = Some n.
Proof.
rewrite /news; elim: j => [|[ps m] j IH] /=; first by split=> // -[].
case: m => [m|] /=; rewrite ?in_cons.
  split=> [/orP[/eqP ->|/IH [x Hx Ex]]|[x [<-|Hx] Ex]].
  - by exists (ps, Some m) => //; left.
  - by exists x => //; right.
  - by case: Ex => ->; rewrite eqxx.
  - by apply/orP; right; apply/IH; exists x.
split=> [/IH [x Hx Ex]|[x [<-|Hx] Ex]] //; first by exists x => //; right.
by apply/IH; exists x.
Qed.

Lemma In_map A B (g : A -> B) s x : List.In x s -> List.In (g x) (map g s).
Proof. exact: List.in_map. Qed.

(** nodes of the flat network: those of the outer circuit and the inner ones *)
Lemma flat_nodes_inner (N : net S) nm ps (o : nest_cls nan getpos') q : List.In (nm, (ps, inr o)) (nblk N) -> q \in nodes (inner o) ->
  tg nm q \in nodes (flat N).
Proof.
move=> Hb; rewrite /nodes !mem_cat => /or3P[/mem_fl [x Hx /mapP[p Hp ->]]|/newsP [j Hj Ej]|/memP [d Hd ->]].
- apply/or3P; constructor 1; apply/mem_fl; exists (tg nm x.1, x.2).
    by apply/In_flatten; exists (nm, (ps, inr o)) => //; exact: In_map Hx.
  by rewrite -dot_tg; apply: map_f.
- apply/or3P; constructor 2; apply/newsP; exists (map (tg nm) j.1, omap (tg nm) j.2); last by rewrite /= Ej.
  apply: List.in_or_app; right; apply/In_flatten; exists (nm, (ps, inr o)) => //.
  by apply: List.in_or_app; left; exact: In_map Hj.
- apply/or3P; constructor 3; apply/memP; exists (tg nm d.1, tg nm d.2) => //.
  by apply: List.in_or_app; right; apply/In_flatten; exists (nm, (ps, inr o)) => //; exact: In_map Hd.
Qed.

Lemma zip_nth (s t : seq string) q : size s = size t -> q \in t -> exists2 p, p \in s & List.In (p, q) (zip s t).
Proof.
elim: t s => [|y t IH] [|x s] //= [E]; rewrite in_cons => /orP[/eqP ->|/(IH _ E) [p Hp Hz]].
  by exists x; rewrite ?in_cons ?eqxx //; left.
by exists p; rewrite ?in_cons ?Hp ?orbT //; right.
Qed.

Lemma flat_nodes_outer (N : net S) p : net_wf N -> p \in nodes N -> p \in nodes (flat N).
Proof.
case=> _ Hs; rewrite /nodes !mem_cat => /or3P[/mem_fl [[nm [ps [d|o]]] Hx Hp]|/newsP [j Hj Ej]|/memP [d Hd ->]].
- apply/or3P; constructor 1; apply/mem_fl; exists (nm, (ps, emb d)) => //.
  by apply/In_flatten; exists (nm, (ps, inl d)) => //; left.
- case/mapP: Hp => q Hq ->; apply/or3P; constructor 2; apply/newsP.
  have Es : size (ports (n_c o)) = size ps := iffLR (List.Forall_forall _ _) Hs _ Hx.
  have [p' Hp' Hz] := zip_nth Es Hq.
  exists ([:: tg nm p'], Some (dot nm q)) => //.
  apply: List.in_or_app; right; apply/In_flatten; exists (nm, (ps, inr o)) => //.
  apply: List.in_or_app; right; exact: (In_map (fun pq => ([:: tg nm pq.1], Some (dot nm pq.2))) Hz).
- apply/or3P; constructor 2; apply/newsP; exists j => //.
  by apply: List.in_or_app; left.
- apply/or3P; constructor 3; apply/memP; exists d => //.
  by apply: List.in_or_app; left.
Qed.

Lemma usedP (M : vcls C F Fl) (N : net M) p : p \in used N <->
  (exists2 j, List.In j (njoin N) & p \in j.1) \/ (exists2 t, List.In t (nterm N) & p = t.1) \/
  (exists2 d, List.In d (ndi N) & p = d.1) \/ (exists2 d, List.In d (nde N) & p = d.1 \/ p = d.2).
Proof.
rewrite /used !mem_cat; split.
  move=> /or4P[/mem_fl H|/memP H|/memP H|/orP[/memP [d Hd E]|/memP [d Hd E]]].
  - by left.
  - by right; left.
  - by do 2 right; left.
  - by do 3 right; exists d => //; left.
  - by do 3 right; exists d => //; right.
case=> [H|[H|[H|[d Hd [E|E]]]]]; apply/or4P.
- by constructor 1; apply/mem_fl.
- by constructor 2; apply/memP.
- by constructor 3; apply/memP.
- by constructor 4; apply/orP; left; apply/memP; exists d.
- by constructor 4; apply/orP; right; apply/memP; exists d.
Qed.

Lemma zip_In_l (s t : seq string) p q : List.In (p, q) (zip s t) -> p \in s.
Proof.
elim: s t => [|x s IH] [|y t] //= [[<- _]|/IH H]; rewrite in_cons ?eqxx // H orbT //.
Qed.

Lemma flat_wf (N : net S) : net_wf N -> blks_inv N -> net_wf (flat N) /\ blks_inv (flat N).
Proof.
move=> Hwf Hin; have [Hu Hs] := Hwf.
have Hno nm ps (o : nest_cls nan getpos') : List.In (nm, (ps, inr o)) (nblk N) -> n_inv nan getpos' o.
  by move=> H; exact: (iffLR (List.Forall_forall _ _) Hin _ H).
have Hus nm ps (o : nest_cls nan getpos') q : List.In (nm, (ps, inr o)) (nblk N) -> q \in used (inner o) -> tg nm q \in nodes (flat N).
  move=> H Hq; apply: (flat_nodes_inner H); have [Hr _ _] := Hno _ _ _ H.
  by have [H1 _] := reach_wf Hr; exact: H1.
have Hou p : p \in used N -> p \in nodes (flat N) by move=> /Hu; exact: flat_nodes_outer.
split; last first.
  apply/Forall_flatten; elim: Hin => //= -[nm [ps [d|o]]] bs Hb _ IH; constructor=> //.
    by repeat constructor; exact: emb_inv.
  case: Hb => Hr _ _; have := reach_oinv Hr => H1; rewrite /flat_blk /=.
  by apply/Forall_map'.
split.
  move=> p /usedP [|[|[|]]].
  - case=> j /(fun H => List.in_app_or _ _ _ H) [Hj Hp|/In_flatten [[nm [ps [d|o]]] Hb //]].
      by apply: Hou; apply/usedP; left; exists j.
    case/(fun H => List.in_app_or _ _ _ H) => /(fun H => iffLR (List.in_map_iff _ _ _) H) [x [<- Hx]] /=.
      move=> /mapP[q Hq ->]; apply: (Hus _ _ _ _ Hb); apply/usedP; left; by exists x.
    rewrite inE => /eqP ->; apply: (flat_nodes_inner Hb).
    have [Hr _ _] := Hno _ _ _ Hb; apply: (port_node (ci_inv (reach_CI Hr))).
    by case: x Hx => x y /zip_In_l.
  - case=> j /(fun H => List.in_app_or _ _ _ H) [Hj ->|/In_flatten [[nm [ps [d|o]]] Hb //]].
      by apply: Hou; apply/usedP; right; left; exists j.
    move=> /(fun H => iffLR (List.in_map_iff _ _ _) H) [x [<- Hx]] /= ->.
    by apply: (Hus _ _ _ _ Hb); apply/usedP; right; left; exists x.
  - case=> j /(fun H => List.in_app_or _ _ _ H) [Hj ->|/In_flatten [[nm [ps [d|o]]] Hb //]].
      by apply: Hou; apply/usedP; do 2 right; left; exists j.
    move=> /(fun H => iffLR (List.in_map_iff _ _ _) H) [x [<- Hx]] /= ->.
    by apply: (Hus _ _ _ _ Hb); apply/usedP; do 2 right; left; exists x.
  - case=> j /(fun H => List.in_app_or _ _ _ H) [Hj Hp|/In_flatten [[nm [ps [d|o]]] Hb //]].
      by apply: Hou; apply/usedP; do 3 right; exists j.
    move=> /(fun H => iffLR (List.in_map_iff _ _ _) H) [x [<- Hx]] /= [] ->;
      apply: (Hus _ _ _ _ Hb); apply/usedP; do 3 right; exists x => //; by [left|right].
apply/Forall_flatten; apply/List.Forall_forall => -[nm [ps [d|o]]] Hb; rewrite /flat_blk /=.
  by repeat constructor; rewrite /= emb_size; exact: (iffLR (List.Forall_forall _ _) Hs _ Hb).
have [Hr _ _] := Hno _ _ _ Hb; have [_ H1] := reach_wf Hr.
by apply/Forall_map'.
Qed.

(** all solutions, seen at the nodes of the outer circuit, are the same *)
Lemma flat_same z N f fl : net_wf N -> blks_inv N -> same_ref z N -> uniq (nodes N ++ inner_names N) ->
  forall v i : asg C, (exists v' i' : asg C, (forall p, p \in nodes N -> v' p = v p /\ i' p = i p) /\
    sat z (flat N) f fl v' i') <-> sat z N f fl v i.
Proof.
move=> Hwf Hin Hsr Hu v i; split=> [[v' [i' [Ha H]]]|].
  by apply: (sat_ext Hwf Ha); exact: flat_nested.
apply: nested_flat => //; apply: Forall_imp Hin => -[nm [ps [d|o]]] //.
Qed.
End Flat.

(** ** nesting at any depth *)
Section Full.
Variable C : numClosedFieldType.
Variables F Fl : eqType.
Variable K : vcls C F Fl.
Variable nan : C.
Variable getpos : forall K' : vcls C F Fl, circ K' -> string -> res C.
Variable tag : nat -> string -> string.
Notation deep := (deep K nan getpos).

(** a device as a block of a circuit of circuits *)
Definition embn (n : nat) : K -> deep n :=
  match n with 0 => id | n'.+1 => fun o => inl o end.

Lemma embn_den n o f fl v i : oden (embn n o) f fl v i <-> oden o f fl v i.
Proof. by case: n. Qed.
Lemma embn_size n o : osize (embn n o) = osize o. Proof. by case: n. Qed.
Lemma embn_inv n o : oinv o -> oinv (embn n o). Proof. by case: n. Qed.

(** one level of circuits replaced by their equations *)
Definition flat1 (n : nat) (N : net (deep n.+1)) : net (deep n) :=
  @flat C F Fl K (deep n) (embn n) nan (@getpos (deep n)) (tag n) N.

(** all levels replaced: a network of devices only *)
Fixpoint full (n : nat) : net (deep n) -> net K :=
  match n with 0 => id | n'.+1 => fun N => full (flat1 N) end.

(** the names of inner nodes do not clash, inner reflection coefficients refer to
    the impedance of the outer circuit *)
Fixpoint full_ok (z : C) (n : nat) : net (deep n) -> Prop :=
  match n with
  | 0 => fun _ => True
  | n'.+1 => fun N => [/\ uniq (nodes N ++ @inner_names C F Fl K (deep n') nan (@getpos (deep n')) (tag n') N),
       @same_ref C F Fl K (deep n') nan (@getpos (deep n')) z N & full_ok z (flat1 N)]
  end.

Lemma full_same z n (N : net (deep n)) f fl : net_wf N -> blks_inv N -> full_ok z N ->
  forall v i : asg C, (exists v' i' : asg C, (forall p, p \in nodes N -> v' p = v p /\ i' p = i p) /\
    sat z (full N) f fl v' i') <-> sat z N f fl v i.
Proof.
elim: n N => [|n IH] N Hwf Hin Hok v i.
  split=> [[v' [i' [Ha H]]]|H]; first exact: (sat_ext Hwf Ha).
  by exists v, i.
case: Hok => Hu Hsr Hok.
have [Hwf' Hin'] := flat_wf (embn_size n) (tag n) (@embn_inv n) Hwf Hin.
have H1 := flat_same (embn_den n) f fl Hwf Hin Hsr Hu.
split=> [[v' [i' [Ha H]]]|/H1 [v' [i' [Ha H]]]].
  apply/H1; exists v', i'; split=> //.
  by apply/(IH _ Hwf' Hin' Hok); exists v', i'.
have [v2 [i2 [Ha2 H2]]] := iffRL (IH _ Hwf' Hin' Hok v' i') H.
exists v2, i2; split=> // p Hp.
have [<- <-] := Ha p Hp; apply: Ha2; exact: flat_nodes_outer.
Qed.

Lemma thm_C24 z ns n h (c : circ (deep n)) f z' fl c' Sm :
  reach nan (@getpos (deep n)) z ns h c -> may_ask h f fl -> full_ok z (net_hist h) ->
  get1S f z' [::] fl c = (c', Ok Sm) ->
  net_S z (zreq z' z) (full (net_hist h)) f fl (ports c') Sm.
Proof.
move=> Hr Hm Hok G; have [[Hsh HS] _] := thm_C12 Hr Hm G; split=> // v i; rewrite HS.
have Hwf := reach_wf Hr; have Hin := reach_oinv Hr.
have HC := reach_CI Hr; have [D _ _ _] := get1S_CI HC Hm G; have HI := ci_inv D.
have H1 := full_same f fl Hwf Hin Hok.
have Hp j : (j < size (ports c'))%N -> nth "" (ports c') j \in nodes (net_hist h).
  by move=> Hlt; exact: (port_node HI (mem_nth _ Hlt)).
split=> -[v' [i' [H2 H3]]].
  have [v2 [i2 [H4 H5]]] := iffRL (H1 v' i') H2; exists v2, i2; split=> // j Hlt.
  have [-> ->] := H4 _ (Hp _ Hlt); exact: H3.
exists v', i'; split=> //; apply/H1; exists v', i'; split=> //.
Qed.
End Full.

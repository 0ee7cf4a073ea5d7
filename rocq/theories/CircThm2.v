(** getS of reachable circuits: C12, C13, C14, C16, C18. *)
From mathcomp Require Import all_ssreflect all_algebra.
From mathcomp Require Import zify.
From mathcomp.algebra_tactics Require Import ring.
From Coq Require Import String Ascii Permutation.
From Coq Require List.
From Verif Require Import Base MxLib ConvModel ConvSpec ConvProofs ConvArr CircModel CircSpec CircLib CircInv CircTerm CircApp CircConn CircAdd CircDe CircFill CircSolve CircExt CircHist CircGet CircMain CircOrd CircThm.
Set Implicit Arguments.
Unset Strict Implicit.
Unset Printing Implicit Defensive.
Import GRing.Theory Num.Theory.
Local Open Scope ring_scope.
Local Open Scope seq_scope.

(** ** S is determined by the multiport *)
Section Uniq.
Variable C : numClosedFieldType.

Lemma rel_S_waves (z : C) n S (a b : nat -> C) : z != 0 ->
  rel_S z n S (fun k => a k + b k) (fun k => (a k - b k) / z) <->
  forall k, (k < n)%N -> b k = \sum_(j < n) nth 0 (nth [::] S k) j * a j.
Proof.
move=> Hz; have H2 : 2%:R != 0 :> C by rewrite pnatr_eq0.
have Ea x y : (x + y + z * ((x - y) / z)) / 2%:R = x.
  by field; rewrite ?Hz ?H2.
have Eb x y : (x + y - z * ((x - y) / z)) / 2%:R = y.
  by field; rewrite ?Hz ?H2.
split=> H k Hk; have := H k Hk; rewrite ?Eb => ->;
  by apply: eq_bigr => j _; rewrite Ea.
Qed.

Lemma shape_ext n (S S' : rows C) : shape_ok n S -> shape_ok n S' ->
  (forall k j, (k < n)%N -> (j < n)%N -> nth 0 (nth [::] S k) j = nth 0 (nth [::] S' k) j) -> S = S'.
Proof.
case/andP=> /eqP H1 /allP H2 /andP[/eqP H3 /allP H4] H.
apply: (@eq_from_nth _ [::]); first by rewrite H1 H3.
move=> k; rewrite H1 => Hk.
have /eqP E1 : size (nth [::] S k) == n by apply: H2; rewrite mem_nth // H1.
have /eqP E2 : size (nth [::] S' k) == n by apply: H4; rewrite mem_nth // H3.
apply: (@eq_from_nth _ 0); first by rewrite E1 E2.
by move=> j; rewrite E1 => Hj; exact: H.
Qed.

Lemma rel_S_inj (z : C) n S S' : z != 0 -> shape_ok n S -> shape_ok n S' ->
  (forall v i, rel_S z n S v i <-> rel_S z n S' v i) -> S = S'.
Proof.
move=> Hz H1 H2 H; apply: (shape_ext H1 H2) => k j Hk Hj.
pose a (m : nat) : C := (m == j)%:R.
have Hcol (T : rows C) m : \sum_(l < n) nth 0 (nth [::] T m) l * a l = nth 0 (nth [::] T m) j.
  rewrite (bigD1 (Ordinal Hj)) //= /a eqxx mulr1 big1 ?addr0 // => l.
  by rewrite -val_eqE /= => /negbTE ->; rewrite mulr0.
pose b m := nth 0 (nth [::] S m) j.
have Hs : rel_S z n S (fun m => a m + b m) (fun m => (a m - b m) / z).
  by apply/rel_S_waves => // m _; rewrite Hcol.
have /(rel_S_waves _ _ _ _ Hz) Hs' := iffLR (H _ _) Hs.
by have := Hs' k Hk; rewrite Hcol.
Qed.
End Uniq.

Section Thm2.
Variable C : numClosedFieldType.
Variables F Fl : eqType.
Variable K : vcls C F Fl.
Variable nan : C.
Variable getpos : circ K -> string -> res C.
Notation circ := (circ K).
Notation net := (net K).
Notation op := (op K).
Notation reach := (reach nan getpos).
Implicit Types (c : circ) (N : net) (h : seq (event K)).

Lemma net_S_unique zc z N f fl ps S S' : z != 0 ->
  @net_S C F Fl K zc z N f fl ps S -> net_S zc z N f fl ps S' -> S = S'.
Proof.
move=> Hz [H1 H2] [H3 H4]; apply: (rel_S_inj Hz H1 H3) => v i.
by rewrite H2 H4.
Qed.

(** two networks with the same solutions *)
Definition same_sat z N N' f fl := forall v i : asg C, sat z N f fl v i <-> sat z N' f fl v i.

Lemma net_S_same zc z N N' f fl ps S : same_sat zc N N' f fl ->
  net_S zc z N f fl ps S -> net_S zc z N' f fl ps S.
Proof.
move=> Hs [H1 H2]; split=> // v i; rewrite H2; split=> -[v' [i' [H3 H4]]];
  by exists v', i'; split=> //; apply/Hs.
Qed.

Definition entry (ps : seq string) (S : rows C) (p q : string) : C :=
  nth 0 (nth [::] S (seq.index p ps)) (seq.index q ps).

Lemma net_S_entry zc z N N' f fl ps ps' S S' : z != 0 -> same_sat zc N N' f fl ->
  uniq ps -> uniq ps' -> ps' =i ps ->
  net_S zc z N f fl ps S -> net_S zc z N' f fl ps' S' ->
  forall p q, p \in ps -> q \in ps -> entry ps' S' p q = entry ps S p q.
Proof.
move=> Hz Hs Hu Hu' Hm H1 H2 p q Hp Hq.
have [S2 [H3 H4]] := net_S_perm Hu Hu' Hm H1.
have -> : S' = S2 by apply: (net_S_unique Hz H2); apply: net_S_same H3.
exact: H4.
Qed.

(** getS may be asked for (f, fl): no load was changed in place since the circuit
    last was asked for them *)
Definition may_ask h f fl : bool :=
  ~~ (reterm (past_of h) && ((f, fl) \in asked (past_of h))).

(** reasons for getS to raise *)
Definition causes z z' (ns : seq string) N (ps : seq string) f fl (e : exn) : Prop :=
  [\/ blk_raises N z f fl e,
      [/\ e = ValueError, ns <> [::] & ~~ perm_eq ns ps],
      forall p, ~~ free N p |
      e = LinAlgError /\ (ill_posed z N f fl \/
        (z' != 0 /\ forall ps, uniq ps -> ps =i free N -> ~ exists S', @net_S C F Fl K z z' N f fl ps S'))].

Lemma pn_perm ns c N g L z : CI z c N g -> OI ns c N g L -> ~~ pn_ok c ->
  ns <> [::] /\ ~~ perm_eq ns (ports c).
Proof.
move=> HC HO; rewrite /pn_ok; case: (oi_pn HO) => [->|[-> //]].
case: (ns) => // n l H; split=> //; apply: contra H => H.
rewrite (perm_size H) eqxx /=; apply/allP => p; by rewrite (perm_mem H).
Qed.

Lemma thm_C12 z ns h c f z' fl c' r : reach z ns h c -> may_ask h f fl ->
  get1S f z' [::] fl c = (c', r) ->
  match r with
  | Ok Sm => net_S z (zreq z' z) (net_hist h) f fl (ports c') Sm /\ well_posed z (net_hist h) f fl
  | Raise e => causes z z' ns (net_hist h) (ports c) f fl e
  end.
Proof.
move=> Hr Hm E; have HC := reach_CI Hr; have HO := reach_OI Hr; have HI := ci_inv HC.
have [_ _ _] := get1S_CI HC Hm E; case: r E => [S|e] E; first by case.
case=> [H|[-> H]|H|[-> [H|[H1 H2]]]].
- by constructor 1.
- by have [H1 H2] := pn_perm HC HO H; constructor 2.
- by constructor 3 => p; rewrite -(v_fp HI) H.
- by constructor 4; split=> //; left.
- constructor 4; split=> //; right; split=> // ps Hu Hps; apply: H2 => // p.
  by rewrite Hps; symmetry; exact: (v_fp HI).
Qed.

(** ports after a successful getS *)
Lemma thm_C14 z ns h c f z' fl c' S : reach z ns h c -> may_ask h f fl ->
  get1S f z' [::] fl c = (c', Ok S) ->
  ports c' = [seq p <- (if ns is [::] then made h else ns) | free (net_hist h) p].
Proof.
move=> Hr Hm E; have HC := reach_CI Hr; have HO := reach_OI Hr.
have Hev : ev_ok (net_hist h) (past_of h) (@OGetS C F Fl K f z' fl, true) by [].
have [_ _ _ [_ _ _ [_ Hpn] _]] := get1S_CI HC Hm E.
have Hex : exec nan getpos c (@OGetS C F Fl K f z' fl) = (c', true) by rewrite /= E.
have HC' := step_CI HC Hev Hex; have HO' := step_OI HC Hev Hex HO.
by have := OI_ports HC' HO'; rewrite Hpn cats0.
Qed.

Lemma thm_C14_reject z ns h c f z' fl c' r : reach z ns h c -> tried (past_of h) = false ->
  get1S f z' [::] fl c = (c', r) -> ns <> [::] -> ~~ perm_eq ns (ports c) ->
  (exists p, free (net_hist h) p) ->
  exists e, [/\ r = Raise e, ports c' = ports c & e = ValueError \/ blk_raises (net_hist h) z f fl e].
Proof.
move=> Hr Ht E Hns Hp [q Hq]; have HC := reach_CI Hr; have HO := reach_OI Hr; have HI := ci_inv HC.
have Hm : may_ask h f fl.
  rewrite /may_ask; suff -> : reterm (past_of h) = false by [].
  have : forall (h0 : seq (event K)) N (g : past F Fl), reterm g = false -> asked g = [::] ->
     tried (past_from N g h0) = false -> reterm (past_from N g h0) = false.
    elim=> [|[o ok] h0 IH] N g H1 H2 //= H3.
    have Hgt : forall (h1 : seq (event K)) N1 (g1 : past F Fl), tried g1 -> tried (past_from N1 g1 h1).
      elim=> [|[o1 ok1] h1 IH1] N1 g1 //= H; apply: IH1; case: o1 => //= *; by case: ok1.
    case: o H3 => [nm ob pa x|ps|p kw|ints exts|f0 z0 fl0] H3; try exact: IH H3.
    - by apply: IH H3; rewrite //= H2 andbF.
    - by move: H3; rewrite Hgt //=; case: ok.
  by move/(_ h (net0 K) (past0 F Fl)); apply.
have [_ _ Hor H] := get1S_CI HC Hm E.
have Epn := oi_t HO Ht; have [Hb HcS] := ci_b HC Ht.
have Hsz : (size (mM c) == nc c) = false.
  apply/eqP => Hsq; have := v_cnt HI; rewrite Hb Hsq /= addn0 => H1.
  have : size (ports c) = 0%N by lia.
  move/size0nil => E0; move: Hq; rewrite -(v_fp HI) E0 //.
have Hnok : ~~ pn_ok c.
  rewrite /pn_ok Epn; case: (ns) Hp Hns => // n l Hp _; apply: contra Hp => /andP[H1 H2].
  have [Hu Hm'] := @close_ports C F Fl K c _ (n :: l) HI H1 H2.
  by apply: uniq_perm => //; exact: (v_up HI).
have Hpc e c1 c2 : loop (fill1 f fl [::]) c (blocks c) = (c1, Ok tt) -> close c1 = (c2, e) -> e = Raise ValueError /\ ports c2 = ports c.
  move=> El; have [HI1 [F1 F2 F3 F4 F5]] := fill_any HI El.
  rewrite /close; have -> : (size (mM c1) == nc c1) = false.
    have := v_cnt HI; have := v_cnt HI1; rewrite F1 F3 (v_nc HI1) F4 -(v_nc HI) => <- /eqP.
    by rewrite eqn_add2r => /eqP <-.
  move: Hnok; rewrite /pn_ok F2 Epn; case: (ns) Hns => // n l _.
  rewrite negb_and F3 => /orP[H1|H1]; first by rewrite H1 => -[<- <-].
  by case: ifP => _; [|rewrite H1]; case=> <- <-.
have Hneed : (Some f != cf c) || ~~ isSome (cS c) || (Some fl != cfl c) by rewrite HcS orbT.
move: E; rewrite /get1S Hneed /solve_now.
case El: (loop _ c (blocks c)) => [c1 [[]|e]] /=.
  case Ec: (close c1) => [c2 r2]; have [Er2 Ep2] := Hpc _ _ _ El Ec; rewrite Er2 in Ec.
  by rewrite /extS Ec /= => -[<- <-]; exists ValueError; split=> //; left.
case=> <- <-; exists e; split=> //; last by right; rewrite -(ci_z HC); exact: fill_raise El.
by have [_ [_ _ ->]] := fill_any HI El.
Qed.

(** ** the same calls, getS left out *)
Definition build_only h : seq op := [seq e.1 | e <- h & if e.1 is OGetS _ _ _ then false else true].

Lemma net_build h : net_hist h = net_of (build_only h).
Proof.
rewrite /net_hist /net_of; move: (net0 K) => N; elim: h N => [|[o ok] h IH] N //=.
by rewrite IH; case: o.
Qed.

Fixpoint made_ops N (os : seq op) : seq string :=
  if os is o :: os' then makes N o ++ made_ops (net_step N o) os' else [::].

Lemma made_build h : made h = made_ops (net0 K) (build_only h).
Proof.
rewrite /made; move: (net0 K) => N; elim: h N => [|[o ok] h IH] N //=.
by rewrite IH; case: o.
Qed.

Lemma thm_C18 z ns h1 h2 c1 c2 f z' fl c1' c2' S1 S2 :
  reach z ns h1 c1 -> reach z ns h2 c2 -> build_only h1 = build_only h2 ->
  may_ask h1 f fl -> may_ask h2 f fl ->
  get1S f z' [::] fl c1 = (c1', Ok S1) -> get1S f z' [::] fl c2 = (c2', Ok S2) ->
  S1 = S2 /\ ports c1' = ports c2'.
Proof.
move=> H1 H2 Eb M1 M2 G1 G2.
have En : net_hist h1 = net_hist h2 by rewrite !net_build Eb.
have Ep : ports c1' = ports c2'.
  by rewrite (thm_C14 H1 M1 G1) (thm_C14 H2 M2 G2) !made_build En Eb.
split=> //; have [S1' _] := thm_C12 H1 M1 G1; have [S2' _] := thm_C12 H2 M2 G2.
have [Hz _ _] := H1; rewrite -Ep -En in S2'.
apply: (net_S_unique _ S1' S2'); by rewrite /zreq; case: ifP => // /negbT.
Qed.

(** ** C13 *)
Lemma thm_C13 z ns1 ns2 h1 h2 c1 c2 f z' fl c1' c2' S1 S2 :
  reach z ns1 h1 c1 -> reach z ns2 h2 c2 ->
  same_sat z (net_hist h1) (net_hist h2) f fl -> free (net_hist h1) =1 free (net_hist h2) ->
  may_ask h1 f fl -> may_ask h2 f fl ->
  get1S f z' [::] fl c1 = (c1', Ok S1) -> get1S f z' [::] fl c2 = (c2', Ok S2) ->
  ports c1' =i ports c2' /\
  forall p q, p \in ports c1' -> q \in ports c1' -> entry (ports c1') S1 p q = entry (ports c2') S2 p q.
Proof.
move=> H1 H2 Hs Hf M1 M2 G1 G2.
have [Hz _ _] := H1; have Hz' : zreq z' z != 0 by rewrite /zreq; case: ifP => // /negbT.
have [S1' _] := thm_C12 H1 M1 G1; have [S2' _] := thm_C12 H2 M2 G2.
have HC1 := reach_CI H1; have HC2 := reach_CI H2.
have [D1 P1 _ _] := get1S_CI HC1 M1 G1; have [D2 P2 _ _] := get1S_CI HC2 M2 G2.
have U1 := v_up (ci_inv D1); have U2 := v_up (ci_inv D2).
have Hm : ports c2' =i ports c1'.
  by move=> p; rewrite P1 P2 (v_fp (ci_inv HC1)) (v_fp (ci_inv HC2)) Hf.
split=> [p|p q Hp Hq]; first by rewrite Hm.
by rewrite -(net_S_entry Hz' Hs U1 U2 Hm S1' S2').
Qed.

(** networks with the same parts in another order *)
Definition net_perm N N' :=
  [/\ Permutation (nblk N) (nblk N'), Permutation (njoin N) (njoin N'),
      Permutation (nterm N) (nterm N'), Permutation (ndi N) (ndi N') & Permutation (nde N) (nde N')].

Lemma Forall_perm A (P : A -> Prop) s s' : Permutation s s' -> List.Forall P s <-> List.Forall P s'.
Proof.
by move=> H; split; apply: Permutation_Forall => //; exact: Permutation_sym.
Qed.

Lemma net_perm_sat z N N' f fl : net_perm N N' -> same_sat z N N' f fl.
Proof.
case=> H1 H2 H3 H4 H5 v i; split=> -[G1 G2 G3 G4 G5]; split.
- exact: (iffLR (Forall_perm _ H1)).
- exact: (iffLR (Forall_perm _ H2)).
- exact: (iffLR (Forall_perm _ H3)).
- exact: (iffLR (Forall_perm _ H4)).
- exact: (iffLR (Forall_perm _ H5)).
- exact: (iffRL (Forall_perm _ H1)).
- exact: (iffRL (Forall_perm _ H2)).
- exact: (iffRL (Forall_perm _ H3)).
- exact: (iffRL (Forall_perm _ H4)).
- exact: (iffRL (Forall_perm _ H5)).
Qed.

Lemma perm_mem_map A (T : eqType) (g : A -> T) s s' : Permutation s s' -> map g s =i map g s'.
Proof.
move=> H x; have Hin (t : seq A) : x \in map g t <-> exists2 y, List.In y t & x = g y.
  elim: t => [|y t IH] /=; first by split=> // -[].
  rewrite in_cons; split.
    by case/orP=> [/eqP ->|/IH [u Hu ->]]; [exists y; auto|exists u; auto].
  case=> u [<-|Hu] E; first by rewrite E eqxx.
  by apply/orP; right; apply/IH; exists u.
apply/idP/idP => /Hin [y Hy E]; apply/Hin; exists y => //.
  exact: (Permutation_in y H).
exact: (Permutation_in y (Permutation_sym H)).
Qed.

Lemma flatten_mem_map A (T : eqType) (g : A -> seq T) s s' : Permutation s s' ->
  flatten (map g s) =i flatten (map g s').
Proof.
move=> H x; apply/flattenP/flattenP => -[l Hl Hx]; exists l => //.
  by rewrite -(perm_mem_map g H).
by rewrite (perm_mem_map g H).
Qed.

Lemma perm_mem_pmap A (T : eqType) (g : A -> option T) s s' : Permutation s s' -> pmap g s =i pmap g s'.
Proof.
move=> H x; have E (t : seq A) : (x \in pmap g t) = (Some x \in map g t).
  elim: t => //= y t IH; rewrite in_cons -IH; case: (g y) => [u|] //=.
by rewrite !E (perm_mem_map g H).
Qed.

Lemma net_perm_nodes N N' : net_perm N N' -> nodes N =i nodes N'.
Proof.
case=> H1 H2 H3 H4 H5 p; rewrite /nodes !mem_cat (flatten_mem_map _ H1).
by rewrite (perm_mem_pmap _ H2) (perm_mem_map _ H4).
Qed.

Lemma net_perm_free N N' : net_perm N N' -> free N =1 free N'.
Proof.
move=> H p; rewrite /free (net_perm_nodes H); case: H => H1 H2 H3 H4 H5.
rewrite /used !mem_cat (flatten_mem_map _ H2) (perm_mem_map _ H3) (perm_mem_map _ H4).
by rewrite (perm_mem_map fst H5) (perm_mem_map snd H5).
Qed.

(** swapping independent calls *)
Definition mentions (o : op) : seq string :=
  match o with
  | OAdd nm ob pa _ =>
    if resolve_ports (osize ob) (oports ob) pa is Ok ps then [seq dot nm p | p <- ps] else [::]
  | OConnect ps => ps
  | OTerm p _ => [:: p]
  | ODeembed ints exts => map fst ints ++ map snd ints ++ map fst exts ++ map snd exts
  | OGetS _ _ _ => [::]
  end.

Definition disjoint_from (s t : seq string) := all (fun p => p \notin t) s.

Definition other_key (o1 o2 : op) : bool :=
  match o1, o2 with
  | OAdd n1 _ _ _, OAdd n2 _ _ _ => n1 != n2
  | OTerm p1 _, OTerm p2 _ => p1 != p2
  | _, _ => true
  end.

(** neither call mentions a port the other one creates, and they do not set the
    same block or the same load *)
Definition independent N (o1 o2 : op) : bool :=
  [&& disjoint_from (makes N o1) (mentions o2), disjoint_from (makes N o2) (mentions o1) &
      other_key o1 o2].

Lemma dset_comm (T : eqType) (V : Type) (d : seq (T * V)) k v k' v' : k != k' ->
  Permutation (dset (dset d k v) k' v') (dset (dset d k' v') k v).
Proof.
move=> Hk; have Hk' : (k' == k) = false by rewrite eq_sym; exact: negbTE.
elim: d => [|[k1 v1] d IH] /=; first by rewrite Hk' (negbTE Hk); exact: perm_swap.
case: (k =P k1) => [E|E] /=.
  by rewrite -E Hk' /= eqxx; apply: Permutation_refl.
case: (k' =P k1) => [E'|E'] /=.
  by case: (k =P k1) => // _; apply: Permutation_refl.
by case: (k =P k1) => // _; apply: perm_skip.
Qed.

Lemma net_perm_refl N : net_perm N N.
Proof. by split; exact: Permutation_refl. Qed.

Lemma net_perm_trans N1 N2 N3 : net_perm N1 N2 -> net_perm N2 N3 -> net_perm N1 N3.
Proof.
by case=> a1 a2 a3 a4 a5 [b1 b2 b3 b4 b5]; split; eapply Permutation_trans; eassumption.
Qed.

(** what a call does to the blocks / the joins *)
Lemma nodes_before N o p : p \notin makes N o -> (p \in nodes (net_step N o)) = (p \in nodes N).
Proof.
case: o => [nm ob pa x|ps|q kw|ints exts|f z' fl] //=.
- case Ed: (dget (nblk N) nm) => [[ps o]|].
    by rewrite (dget_keys Ed) /nodes /= (nodes_dset _ Ed).
  move/dget_None: (Ed) => /negbTE ->; case: (resolve_ports _ _ _) => // ps Hp.
  by rewrite /nodes /= map_cat flatten_cat /= cats0 !mem_cat (negbTE Hp) orbF.
- rewrite /nodes /news /= !mem_cat pmap_cat mem_cat /= => Hp.
  have -> : (p \in oapp (cons^~ [::]) [::] (if [seq p0 <- ps | p0 \notin nodes N] is q :: _ then Some q else None)) = false.
    move: Hp; case: [seq _ <- ps | _] => //= q l; rewrite !inE negb_or => /andP[/negbTE ->] //.
  by rewrite orbF.
- by move=> Hp; rewrite /nodes /= map_cat !mem_cat (negbTE Hp) orbF.
Qed.

Lemma blk_after N o nm : (if o is OAdd n _ _ _ then n != nm else true) ->
  dget (nblk (net_step N o)) nm = dget (nblk N) nm.
Proof.
case: o => [n ob pa x|ps|q kw|ints exts|f z' fl] //= Hn.
case Ed: (dget (nblk N) n) => [[ps o]|] /=; first by rewrite dget_dset eq_sym (negbTE Hn).
case: (resolve_ports _ _ _) => //= ps; rewrite dget_cat /= eq_sym (negbTE Hn).
by case: (dget _ _).
Qed.

Definition add_blk (N : net) (o : op) : option (string * (seq string * K)) :=
  if o is OAdd nm ob pa _ then
    if dget (nblk N) nm is Some (ps, _) then Some (nm, (ps, ob))
    else if resolve_ports (osize ob) (oports ob) pa is Ok ps then Some (nm, (ps, ob)) else None
  else None.

Lemma nblk_step N o : nblk (net_step N o) =
  if add_blk N o is Some (nm, b) then dset (nblk N) nm b else nblk N.
Proof.
case: o => [n ob pa x|ps|q kw|ints exts|f z' fl] //=.
case Ed: (dget (nblk N) n) => [[ps o]|] //=; case: (resolve_ports _ _ _) => //= ps.
by rewrite dset_new //; apply/dget_None.
Qed.

Definition add_join (N : net) (o : op) : seq (seq string * option string) :=
  if o is OConnect ps then
    [:: ([seq p <- ps | p \in nodes N], if [seq p <- ps | p \notin nodes N] is p :: _ then Some p else None)]
  else [::].

Lemma njoin_step N o : njoin (net_step N o) = njoin N ++ add_join N o.
Proof.
case: o => [n ob pa x|ps|q kw|ints exts|f z' fl] //=; rewrite ?cats0 //.
by case: (dget _ _) => [[]|] //; case: (resolve_ports _ _ _).
Qed.

Lemma nterm_step N o : nterm (net_step N o) =
  if o is OTerm p kw then dset (nterm N) p (load_of kw) else nterm N.
Proof.
case: o => [n ob pa x|ps|q kw|ints exts|f z' fl] //=.
by case: (dget _ _) => [[]|] //; case: (resolve_ports _ _ _).
Qed.

Lemma nd_step N o : ndi (net_step N o) = ndi N ++ (if o is ODeembed ints _ then ints else [::]) /\
  nde (net_step N o) = nde N ++ (if o is ODeembed _ exts then exts else [::]).
Proof.
case: o => [n ob pa x|ps|q kw|ints exts|f z' fl] //=; rewrite ?cats0 //.
by case: (dget _ _) => [[]|] //; case: (resolve_ports _ _ _).
Qed.

Lemma disjP s t : disjoint_from s t -> forall p, p \in t -> p \notin s.
Proof. by move/allP => H p Hp; apply/negP => /H; rewrite Hp. Qed.

Lemma swap_perm N o1 o2 : independent N o1 o2 ->
  net_perm (net_step (net_step N o1) o2) (net_step (net_step N o2) o1).
Proof.
case/and3P=> D1 D2 Hx.
have Hb o o' : other_key o o' ->
  add_blk (net_step N o) o' = add_blk N o'.
  by case: o' => // nm ob pa x Hn; rewrite /add_blk blk_after.
have Hj o o' : disjoint_from (makes N o) (mentions o') -> add_join (net_step N o) o' = add_join N o'.
  case: o' => // ps /disjP H; rewrite /add_join; congr [:: (_, _)].
    by apply: eq_in_filter => p /H /nodes_before ->.
  have -> // : [seq p <- ps | p \notin nodes (net_step N o)] = [seq p <- ps | p \notin nodes N].
  by apply: eq_in_filter => p /H /nodes_before ->.
have Hx' : other_key o2 o1.
  by case: o1 o2 Hx {D1 D2} => [? ? ? ?|?|? ?|? ?|? ? ?] [? ? ? ?|?|? ?|? ?|? ? ?] //=; rewrite eq_sym.
have swap A (s t u : seq A) : Permutation ((s ++ t) ++ u) ((s ++ u) ++ t).
  rewrite -!catA; apply: Permutation_app_head; exact: Permutation_app_comm.
split.
- rewrite !nblk_step (Hb _ _ Hx) (Hb _ _ Hx').
  case E1: (add_blk N o1) => [[n1 b1]|]; case E2: (add_blk N o2) => [[n2 b2]|]; try exact: Permutation_refl.
  apply: dset_comm; move: E1 E2 Hx; case: (o1) => // a1 ? ? ? E1; case: (o2) => // a2 ? ? ? E2 Hn.
  move: E1 E2; rewrite /add_blk.
  have Hf : forall (nm : string) ob pa n (b : seq string * K),
     (if dget (nblk N) nm is Some (ps, _) then Some (nm, (ps, ob))
      else if resolve_ports (osize ob) (oports ob) pa is Ok ps then Some (nm, (ps, ob)) else None) = Some (n, b) -> n = nm.
    by move=> nm ob pa n b; case: (dget _ _) => [[ps ?]|]; [case|case: (resolve_ports _ _ _) => // ps; case].
  by move=> /Hf -> /Hf ->.
- by rewrite !njoin_step (Hj _ _ D1) (Hj _ _ D2); exact: swap.
- rewrite !nterm_step; case: o1 o2 Hx {D1 D2 Hx'} => [? ? ? ?|?|p kw|? ?|? ? ?] [? ? ? ?|?|p' kw'|? ?|? ? ?];
    try (by move=> _; exact: Permutation_refl).
  exact: dset_comm.
- have [-> _] := nd_step (net_step N o1) o2; have [-> _] := nd_step N o1.
  have [-> _] := nd_step (net_step N o2) o1; have [-> _] := nd_step N o2.
  exact: swap.
- have [_ ->] := nd_step (net_step N o1) o2; have [_ ->] := nd_step N o1.
  have [_ ->] := nd_step (net_step N o2) o1; have [_ ->] := nd_step N o2.
  exact: swap.
Qed.

(** later calls keep equivalent networks equivalent *)
Lemma keys_perm (T : eqType) (V : Type) (d d' : seq (T * V)) : Permutation d d' ->
  perm_eq (dkeys d) (dkeys d').
Proof.
elim=> {d d'} // [x d d' _ IH|x y d|d1 d2 d3 _ IH1 _ IH2] /=.
- by rewrite perm_cons.
- by apply/permP => P /=; lia.
- exact: (seq.perm_trans IH1 IH2).
Qed.

Lemma dget_perm (T : eqType) (V : Type) (d d' : seq (T * V)) k : Permutation d d' -> uniq (dkeys d) ->
  dget d k = dget d' k.
Proof.
elim=> {d d'} // [[k1 v1] d d' H IH|[k1 v1] [k2 v2] d|d1 d2 d3 H1 IH1 H2 IH2] /=.
- by case/andP=> _ /IH ->.
- rewrite inE negb_or => /and3P[/andP[/eqP Hn _] _ _].
  by case: eqP => // ->; case: eqP => // E; case: Hn.
- by move=> Hu; rewrite IH1 // IH2 // -(perm_uniq (keys_perm H1)).
Qed.

Lemma dset_perm (T : eqType) (V : Type) (d d' : seq (T * V)) k v : Permutation d d' -> uniq (dkeys d) ->
  Permutation (dset d k v) (dset d' k v).
Proof.
elim=> {d d'} // [[k1 v1] d d' H IH|[k1 v1] [k2 v2] d|d1 d2 d3 H1 IH1 H2 IH2] /=.
- by case/andP=> _ Hu; case: eqP => _; [exact: perm_skip|apply: perm_skip; exact: IH].
- rewrite inE negb_or => /and3P[/andP[/eqP Hn _] _ _].
  case: (k =P k1) => [E1|E1]; case: (k =P k2) => [E2|E2]; try exact: perm_swap.
  by case: Hn; rewrite -E1 -E2.
- move=> Hu; apply: Permutation_trans (IH1 Hu) (IH2 _).
  by rewrite -(perm_uniq (keys_perm H1)).
Qed.

Definition net_keys N := uniq (dkeys (nblk N)) /\ uniq (dkeys (nterm N)).

Lemma dset_uniq (T : eqType) (V : Type) (d : seq (T * V)) k v : uniq (dkeys d) -> uniq (dkeys (dset d k v)).
Proof.
move=> Hu; have [Hk|Hk] : k \in dkeys d \/ (k \in dkeys d) = false by case: (_ \in _); auto.
  suff -> : dkeys (dset d k v) = dkeys d by [].
  elim: d Hk {Hu} => //= -[k1 v1] d IH; rewrite in_cons.
  by case: (k =P k1) => [->|_] //= /IH ->.
rewrite dset_new ?Hk // /dkeys map_cat cats1 rcons_uniq Hu andbT; by rewrite -[_ \in _]/(k \in dkeys d) Hk.
Qed.

Lemma net_keys_step N o : net_keys N -> net_keys (net_step N o).
Proof.
case=> H1 H2; split.
  by rewrite nblk_step; case: (add_blk N o) => [[nm b]|] //; exact: dset_uniq.
by rewrite nterm_step; case: o => // p kw; exact: dset_uniq.
Qed.

Lemma step_perm N N' o : net_keys N -> net_perm N N' -> net_perm (net_step N o) (net_step N' o).
Proof.
case=> U1 U2 HP; have Hn := net_perm_nodes HP; case: HP => H1 H2 H3 H4 H5.
have Eb : add_blk N o = add_blk N' o.
  by case: o => // nm ob pa x; rewrite /add_blk (dget_perm nm H1 U1).
have Ej : add_join N o = add_join N' o.
  case: o {Eb} => // ps; rewrite /add_join.
  have -> : [seq p <- ps | p \in nodes N] = [seq p <- ps | p \in nodes N'] by apply: eq_filter.
  by have -> : [seq p <- ps | p \notin nodes N] = [seq p <- ps | p \notin nodes N'] by apply: eq_filter => p /=; rewrite Hn.
split.
- rewrite !nblk_step -Eb; case: (add_blk N o) => [[nm b]|] //; exact: dset_perm.
- by rewrite !njoin_step Ej; exact: Permutation_app_tail.
- by rewrite !nterm_step; case: o {Eb Ej} => // p kw; exact: dset_perm.
- have [-> _] := nd_step N o; have [-> _] := nd_step N' o; exact: Permutation_app_tail.
- have [_ ->] := nd_step N o; have [_ ->] := nd_step N' o; exact: Permutation_app_tail.
Qed.

Lemma steps_keys N os : net_keys N -> net_keys (foldl (@net_step C F Fl K) N os).
Proof. by elim: os N => //= o os IH N H; apply: IH; exact: net_keys_step. Qed.

Lemma steps_perm N N' os : net_keys N -> net_perm N N' ->
  net_perm (foldl (@net_step C F Fl K) N os) (foldl (@net_step C F Fl K) N' os).
Proof.
by elim: os N N' => //= o os IH N N' H1 H2; apply: IH; [exact: net_keys_step|exact: step_perm].
Qed.

(** two orders of the calls: one is obtained from the other by swapping
    neighbouring independent calls *)
Inductive reordered : seq op -> seq op -> Prop :=
  | reord_refl s : reordered s s
  | reord_swap s o1 o2 t u : independent (net_of s) o1 o2 ->
      reordered (s ++ o2 :: o1 :: t) u -> reordered (s ++ o1 :: o2 :: t) u.

Lemma reordered_perm s t : reordered s t -> net_perm (net_of s) (net_of t).
Proof.
elim=> {s t} [s|s o1 o2 t u Hi _ IH]; first exact: net_perm_refl.
apply: net_perm_trans IH; rewrite /net_of !foldl_cat.
apply: (@steps_perm (net_step (net_step (net_of s) o1) o2) (net_step (net_step (net_of s) o2) o1) t); last exact: swap_perm.
by do 2!apply: net_keys_step; apply: (@steps_keys (net0 K)).
Qed.

Lemma thm_C13_order z ns1 ns2 h1 h2 c1 c2 f z' fl c1' c2' S1 S2 :
  reach z ns1 h1 c1 -> reach z ns2 h2 c2 -> reordered (build_only h1) (build_only h2) ->
  may_ask h1 f fl -> may_ask h2 f fl ->
  get1S f z' [::] fl c1 = (c1', Ok S1) -> get1S f z' [::] fl c2 = (c2', Ok S2) ->
  ports c1' =i ports c2' /\
  forall p q, p \in ports c1' -> q \in ports c1' -> entry (ports c1') S1 p q = entry (ports c2') S2 p q.
Proof.
move=> H1 H2 /reordered_perm; rewrite -!net_build => HP M1 M2 G1 G2.
by apply: (thm_C13 H1 H2 _ _ M1 M2 G1 G2); [exact: net_perm_sat|exact: net_perm_free].
Qed.
End Thm2.

(** rfCircuit.set and getS(params=...) on a circuit: both amount to replacing block
    objects by the objects their set method makes of them. *)
From mathcomp Require Import all_ssreflect all_algebra.
From Coq Require Import String Ascii.
From Coq Require List.
From Verif Require Import Base MxLib ConvModel ConvSpec CircModel CircSpec CircLib CircInv CircTerm CircApp CircConn CircAdd CircDe CircFill CircSolve CircExt CircHist CircGet CircMain CircOrd CircThm CircThm2 CircThm3.
Set Implicit Arguments.
Unset Strict Implicit.
Unset Printing Implicit Defensive.
Import Order.TTheory GRing.Theory Num.Theory.
Local Open Scope string_scope.
Local Open Scope ring_scope.
Local Open Scope seq_scope.

Section SetP.
Variable C : numClosedFieldType.
Variables F Fl : eqType.
Variable K : vcls C F Fl.
Variable nan : C.
Variable getpos : circ K -> string -> res C.
Notation circ := (circ K).
Notation net := (net K).
Notation op := (op K).
Notation reach := (reach nan getpos).
Notation exec := (exec nan getpos).
Notation run := (run nan getpos).
Implicit Types (c : circ) (N : net) (h : seq (event K)).

(** ** model *)
(** circuit.set(nm, p) for a block of the circuit itself, rfCircuit.py 1181-1242 for one
    keyword: obj.set( **val) (1214); when it reports a modification ([md]) the results are
    forgotten (1229-1232: invM, f and S become None).  A set method that raises
    AttributeError is reported as ValueError (1216-1219). *)
Definition set_blk (md : bool) c (nm : string) (p : oprm K) : circ * res unit :=
  if dget (blocks c) nm is Some b then
    let r := oset p (bobj b) in
    let c1 := with_blocks c (dset (blocks c) nm (Block (bports b) (bloc b) r.1 (bxpos b))) in
    match r.2 with
    | Ok _ => (if md then with_cache c1 None None None (cfl c1) else c1, Ok tt)
    | Raise AttributeError => (c1, Raise ValueError)
    | Raise e => (c1, Raise e)
    end
  else (c, Raise KeyError).

(** several calls, one after the other *)
Definition set_all c (l : seq (string * oprm K)) : circ * res unit :=
  loop (fun c np => set_blk true c np.1 np.2) c l.

(** ** specification *)
(** the same as calls of addblock with the modified objects *)
Fixpoint set_events c (l : seq (string * oprm K)) : seq (event K) :=
  if l is (nm, p) :: l' then
    if dget (blocks c) nm is Some b then
      (OAdd nm (oset p (bobj b)).1 PNone 0, true) :: set_events (set_blk true c nm p).1 l'
    else [::]
  else [::].

(** the calls of set that params= of getS stands for, in the order of the blocks *)
Definition param_sets c (prms : seq (string * oprm K)) : seq (string * oprm K) :=
  pmap (fun nm => omap (pair nm) (dget prms nm)) (dkeys (blocks c)).

(** set keeps a block's object a valid object with the same number of ports *)
Definition set_keeps := forall p (o : K), oinv o -> (oset p o).2 = Ok tt ->
  oinv (oset p o).1 /\ osize (oset p o).1 = osize o.

(** ** caches do not matter *)
Definition same_but_cache c c0 := exists a b d e, c = with_cache c0 a b d e.

Lemma fill1_wc f fl prms c nb a b d e :
  fill1 f fl prms (with_cache c a b d e) nb =
  let r := fill1 f fl prms c nb in (with_cache r.1 a b d e, r.2).
Proof.
case: nb => nm bl; rewrite /fill1.
set rs := (if dget _ _ is Some _ then _ else _).
case: rs.2 => [u|x]; last case: x; rewrite //=;
 by case: (ogetS f (zb c) fl rs.1).2 => [Sm|x] //; case: ifP.
Qed.

Lemma loop_wc f fl prms c bs a b d e :
  loop (fill1 f fl prms) (with_cache c a b d e) bs =
  let r := loop (fill1 f fl prms) c bs in (with_cache r.1 a b d e, r.2).
Proof.
elim: bs c => //= nb bs IH c; rewrite fill1_wc /=.
by case: (fill1 f fl prms c nb) => c1 [u|x] //=; rewrite IH.
Qed.

Lemma addE_wc c ps a b d e :
  loop (@add_E C F Fl K) (with_cache c a b d e) ps =
  let r := loop (@add_E C F Fl K) c ps in (with_cache r.1 a b d e, r.2).
Proof.
elim: ps c => //= p ps IH c.
have -> : add_E (with_cache c a b d e) p = let r := add_E c p in (with_cache r.1 a b d e, r.2).
  by rewrite /add_E /=; case: (lindex _ _).
by case: (add_E c p) => c1 [u|x] //=; rewrite IH.
Qed.

Lemma close_wc c a b d e : exists b', let r := close c in
  close (with_cache c a b d e) = (with_cache r.1 a b' d e, r.2).
Proof.
rewrite /close /=; case: ifP => _; first by exists b.
exists None.
have E x (c1 : circ) ps : let r := loop (@add_E C F Fl K) (with_cache c1 (invM c) None (cf c) (cfl c)) ps in
   loop (@add_E C F Fl K) (with_cache c1 a None d e) ps = (with_cache r.1 a None d e, r.2) /\ x = x :> nat.
  by rewrite !addE_wc.
case: (pn c) => [ns|] /=; last by have [-> _] := E 0%N c (ports c).
case: ns => [|n ns]; first by have [-> _] := E 0%N (with_pn c PAlias) (ports c).
case: ifP => // _; case: ifP => // _.
by have [-> _] := E 0%N (with_pn (with_ports c (n :: ns) (xpos c)) PAlias) (n :: ns).
Qed.

Lemma extS_wc c c1 Sm a b d e : extS c = (c1, Ok Sm) ->
  exists b' d' e', extS (with_cache c a b d e) = (with_cache c1 (invM c1) b' d' e', Ok Sm).
Proof.
have [b' /= E] := close_wc c a b d e.
rewrite /extS E /=; case: (close c) => c2 [u|x] //=.
case: (mapM _ _) => [iEs|x] //; case: (mapM _ _) => [iAs|x] //; case: (mapM _ _) => [iBs|x] //.
case: (inv_rows _ _) => [iM|x] //=.
have -> : portnames (with_cache c2 a b' d e) = portnames c2 by [].
case: ifP => // _; case: (np_inv _) => [iQ|x] //= [<- <-].
by do 3!eexists.
Qed.

Lemma solve_wc f fl prms c c1 Sm a b d e : solve_now f fl prms c = (c1, Ok Sm) ->
  solve_now f fl prms (with_cache c a b d e) = (c1, Ok Sm).
Proof.
rewrite /solve_now loop_wc /=.
case: (loop _ _ _) => c2 [u|x] //=.
case E: (extS c2) => [c3 [S3|x]] //= [<- <-].
by have [b' [d' [e' ->]]] := extS_wc a b d e E.
Qed.

(** a circuit without stored matrix computes, whatever else is cached *)
Lemma get_wc f z' fl prms c c1 Sm a d e : cS c = None ->
  get1S f z' prms fl (with_cache c a None d e) = (c1, Ok Sm) <->
  get1S f z' prms fl c = (c1, Ok Sm).
Proof.
move=> Hc.
have main : forall c0 a0 d0 e0, cS c0 = None -> get1S f z' prms fl c0 = (c1, Ok Sm) ->
   get1S f z' prms fl (with_cache c0 a0 None d0 e0) = (c1, Ok Sm).
  move=> c0 a0 d0 e0 H0; rewrite /get1S H0 /= !orbT /=.
  case E: (solve_now f fl prms c0) => [c2 [S2|x]] //=.
  by rewrite (solve_wc _ _ _ _ E).
split=> H; last exact: main.
have -> : c = with_cache (with_cache c a None d e) (invM c) None (cf c) (cfl c).
  by move: Hc; case: (c) => * /=; rewrite /with_cache /=; congr Circ.
exact: main.
Qed.

(** ** set *)
Lemma dset_dset (V : Type) (m : seq (string * V)) k v w : dset (dset m k v) k w = dset m k w.
Proof.
elim: m => [|[k1 v1] m IH] /=; first by rewrite eqxx.
by case: (k =P k1) => [->|H] /=; rewrite ?eqxx //; case: (k =P k1) => // _; rewrite IH.
Qed.

Hypothesis keeps : set_keeps.

Lemma set_blk_sim z ns h c0 c nm p c2 : reach z ns h c0 -> same_but_cache c c0 ->
  set_blk true c nm p = (c2, Ok tt) ->
  exists b c3, [/\ dget (blocks c) nm = Some b, same_but_cache c2 c3, cS c2 = None /\ cS c3 = None &
    reach z ns (rcons h (OAdd nm (oset p (bobj b)).1 PNone 0, true)) c3].
Proof.
move=> Hr [a [b0 [d [e Ec]]]]; rewrite /set_blk.
have HI := ci_inv (reach_CI Hr).
have Eb : blocks c = blocks c0 by rewrite Ec.
rewrite Eb; case Hb: (dget (blocks c0) nm) => [b|] //.
case Es: (oset p (bobj b)) => [o r] /=; case: r Es => [u|x] Es; last by case: x Es.
case=> <-; exists b.
exists (uncache (with_blocks c0 (dset (blocks c0) nm (Block (bports b) (bloc b) o (bxpos b))))).
split=> //; first by exists None, None, None, e; rewrite Ec.
have [ps [o0 [Hnb [_ /= Eps Hoi Heq [Hsz Hup]] _]]] := Forall2_dget (v_blk HI) Hb.
have Ho : oinv o /\ osize o = osize (bobj b).
  by have := @keeps p _ Hoi; rewrite Es; case: u {Es} => H; apply: H.
have Hk : nm \in dkeys (nblk (net_hist h)) by apply: dget_keys Hnb.
rewrite Es /=; apply: reach_snoc Hr _ _; first by split=> //; [case: Ho|left].
rewrite /CircHist.exec /addblock /= (negbTE (v_nb HI Hk)) Hb.
by case: Ho => _ ->; rewrite eqxx.
Qed.

Lemma set_all_sim z ns h c0 c l c2 : reach z ns h c0 -> same_but_cache c c0 ->
  (l = [::] -> c = c0) ->
  set_all c l = (c2, Ok tt) ->
  exists c3, [/\ same_but_cache c2 c3, (l = [::] -> c2 = c3),
    (l <> [::] -> cS c2 = None /\ cS c3 = None) & reach z ns (h ++ set_events c l) c3].
Proof.
elim: l h c0 c => [|[nm p] l IH] h c0 c Hr Hs Hl.
  by rewrite /set_all /= => -[<-]; exists c0; rewrite cats0; split=> //; rewrite Hl.
rewrite /set_all loop_cons /=.
case E: (set_blk true c nm p) => [c1 [[]|x]] //= El.
have [b [c3 [Hb Hs1 [HS1 HS3] Hr3]]] := set_blk_sim Hr Hs E.
rewrite Hb /= -cat_rcons.
clear Hl; case: l IH El => [|np l] IH El.
  move: El => /= [<-]; exists c3; rewrite cats0; split=> //.
by have [c4 [H1 H2 H3 H4]] := IH _ _ _ Hr3 Hs1 (fun e => match e with end) El; exists c4; split=> // _; apply: H3.
Qed.

(** ** params *)
Local Arguments fill1 : simpl never.
Lemma alist_ext (V : Type) (m1 m2 : seq (string * V)) : uniq (dkeys m1) -> dkeys m1 = dkeys m2 ->
  (forall k, dget m1 k = dget m2 k) -> m1 = m2.
Proof.
elim: m1 m2 => [|[k v] m1 IH] [|[k2 v2] m2] //= /andP[Hn Hu] [Ek Em] H.
subst k2; have := H k; rewrite eqxx => -[<-]; congr (_ :: _).
apply: IH => // q; have := H q; case: (q =P k) => // -> _.
have N (m : seq (string * V)) : k \notin dkeys m -> dget m k = None.
  by rewrite -dhasE /dhas; case: dget.
by rewrite !N // -Em.
Qed.

Definition sb (prms : seq (string * oprm K)) (nb : string * block K) : string * block K :=
  if dget prms nb.1 is Some p then
    (nb.1, Block (bports nb.2) (bloc nb.2) (oset p (bobj nb.2)).1 (bxpos nb.2)) else nb.

Lemma fill1_prm f fl prms c nb :
  (forall p, dget prms nb.1 = Some p -> (oset p (bobj nb.2)).2 = Ok tt) ->
  fill1 f fl prms c nb = fill1 f fl [::] c (sb prms nb).
Proof.
case: nb => nm b; rewrite /fill1 /sb /=; case: (dget prms nm) => [p|] // H.
by rewrite (H _ (erefl _)).
Qed.

Lemma loop_prm f fl prms c bs :
  (forall nb p, List.In nb bs -> dget prms nb.1 = Some p -> (oset p (bobj nb.2)).2 = Ok tt) ->
  loop (fill1 f fl prms) c bs = loop (fill1 f fl [::]) c (map (sb prms) bs).
Proof.
elim: bs c => //= nb bs IH c H.
rewrite fill1_prm; last by move=> p; apply: H; left.
by case: (fill1 _ _ _ _ _) => c1 [u|x] //=; apply: IH => nb' p Hi; apply: H; right.
Qed.

Lemma fill1_wb f fl c nb B : let r := fill1 f fl [::] c nb in r.2 = Ok tt ->
  exists v, [/\ blocks r.1 = dset (blocks c) nb.1 v &
  fill1 f fl [::] (with_blocks c B) nb = (with_blocks r.1 (dset B nb.1 v), Ok tt)].
Proof.
case: nb => nm b; rewrite /fill1 /=.
case: (ogetS f (zb c) fl (bobj b)) => o [Sm|e] //=; case: ifP => // _ /= _.
by eexists; split.
Qed.

Lemma loop_wb f fl c bs B c1 : uniq (dkeys (blocks c)) -> dkeys B = dkeys (blocks c) ->
  {subset dkeys bs <= dkeys (blocks c)} ->
  (forall k, k \notin dkeys bs -> dget B k = dget (blocks c) k) ->
  loop (fill1 f fl [::]) c bs = (c1, Ok tt) ->
  loop (fill1 f fl [::]) (with_blocks c B) bs = (c1, Ok tt).
Proof.
elim: bs c B => [|[nm b] bs IH] c B Hu HB Hs Hg.
  move=> /= [<-]; congr pair.
  have -> : B = blocks c by apply: alist_ext => [||k]; rewrite ?HB //; apply: Hg.
  by case: (c).
rewrite !loop_cons; case E: (fill1 f fl [::] c (nm, b)) => [c2 [[]|x]] //= El.
have [v [Ev Ef]] := fill1_wb B (congr1 snd E).
rewrite Ef /= E /=; rewrite E /= in Ev.
have Hnm : nm \in dkeys (blocks c) by apply: Hs; rewrite /= mem_head.
have Ek : dkeys (blocks c2) = dkeys (blocks c) by rewrite Ev dkeys_dset Hnm.
apply: IH El.
- by rewrite Ek.
- by rewrite dkeys_dset HB Hnm Ek.
- by move=> k Hk; rewrite Ek; apply: Hs; rewrite /= in_cons Hk orbT.
- move=> k Hk; rewrite Ev !dget_dset; case: eqP => // Hne; apply: Hg.
  by rewrite /= in_cons negb_or Hk andbT; apply/eqP.
Qed.

Lemma dset_mid (V : Type) (pre bs : seq (string * V)) k v w : k \notin dkeys pre ->
  dset (pre ++ (k, v) :: bs) k w = pre ++ (k, w) :: bs.
Proof.
elim: pre => [|[k1 v1] pre IH] /=; first by rewrite eqxx.
by rewrite in_cons negb_or => /andP[/negbTE -> /IH ->].
Qed.
Lemma dget_mid (V : Type) (pre bs : seq (string * V)) k v : k \notin dkeys pre ->
  dget (pre ++ (k, v) :: bs) k = Some v.
Proof.
elim: pre => [|[k1 v1] pre IH] /=; first by rewrite eqxx.
by rewrite in_cons negb_or => /andP[/negbTE -> /IH ->].
Qed.

Lemma set_all_blocks prms pre bs c : blocks c = pre ++ bs -> uniq (dkeys (blocks c)) ->
  (forall nb p, List.In nb bs -> dget prms nb.1 = Some p -> (oset p (bobj nb.2)).2 = Ok tt) ->
  let l := pmap (fun nm => omap (pair nm) (dget prms nm)) (dkeys bs) in
  exists a b d e, set_all c l = (with_cache (with_blocks c (pre ++ map (sb prms) bs)) a b d e, Ok tt) /\
    (l <> [::] -> b = None).
Proof.
elim: bs pre c => [|[nm b] bs IH] pre c Eb Hu H /=.
  exists (invM c), (cS c), (cf c), (cfl c); split=> //; rewrite -Eb; congr pair.
  by case: (c).
have Hn : nm \notin dkeys pre.
  by move: Hu; rewrite Eb /dkeys map_cat cat_uniq /= negb_or => /and3P[_ /andP[]].
have H' nb p : List.In nb bs -> dget prms nb.1 = Some p -> (oset p (bobj nb.2)).2 = Ok tt.
  by move=> Hi; apply: H; right.
have -> : sb prms (nm, b) = if dget prms nm is Some p then
    (nm, Block (bports b) (bloc b) (oset p (bobj b)).1 (bxpos b)) else (nm, b) by [].
case Ep: (dget prms nm) => [p|] /=; last first.
  have [|a [b0 [d [e [-> Hx]]]]] := IH (rcons pre (nm, b)) c _ Hu H'; first by rewrite cat_rcons.
  by exists a, b0, d, e; rewrite cat_rcons.
have Eo := H (nm, b) p (or_introl (erefl _)) Ep; rewrite /= in Eo.
rewrite /set_all loop_cons /= /set_blk Eb dget_mid // Eo /= dset_mid //.
set c1 := with_cache _ _ _ _ _.
have Eb1 : blocks c1 = rcons pre (nm, Block (bports b) (bloc b) (oset p (bobj b)).1 (bxpos b)) ++ bs.
  by rewrite cat_rcons.
have Hu1 : uniq (dkeys (blocks c1)).
  by move: Hu; rewrite Eb1 Eb cat_rcons /dkeys !map_cat.
have [a [b0 [d [e [Es Hx]]]]] := IH _ c1 Eb1 Hu1 H'.
rewrite /set_all in Es; rewrite Es cat_rcons; exists a, b0, d, e; split=> // _.
case El: (pmap _ _) Hx Es => [|x l] Hx Es; last exact: Hx.
by have /= <- := congr1 (fun r => cS r.1) Es.
Qed.

Lemma set_events_cat c l1 l2 c1 : set_all c l1 = (c1, Ok tt) ->
  set_events c (l1 ++ l2) = set_events c l1 ++ set_events c1 l2.
Proof.
elim: l1 c => [|[nm p] l1 IH] c; first by rewrite /set_all /= => -[->].
rewrite /set_all loop_cons /=; case E: (set_blk true c nm p) => [c2 [[]|x]] //= H.
have Hd : dget (blocks c) nm <> None by move=> Hd; move: E; rewrite /set_blk Hd.
case Eb: (dget (blocks c) nm) Hd => [b|] // _.
by rewrite (IH c2 H).
Qed.

(** the frequency and the flags are not those of the stored result *)
Definition recomputes c f fl := (Some f != cf c) || ~~ isSome (cS c) || (Some fl != cfl c).

(** getS with params at a frequency that is not the stored one: as after the sets *)
Lemma get_params z ns h c prms f z' fl c' Sm : reach z ns h c -> recomputes c f fl ->
  (forall nm b p, dget (blocks c) nm = Some b -> dget prms nm = Some p -> (oset p (bobj b)).2 = Ok tt) ->
  get1S f z' prms fl c = (c', Ok Sm) ->
  exists c3, [/\ reach z ns (h ++ set_events c (param_sets c prms)) c3,
    get1S f z' [::] fl c3 = (c', Ok Sm) & recomputes c3 f fl].
Proof.
move=> Hr Hre Hs; have HI := ci_inv (reach_CI Hr).
have Hu : uniq (dkeys (blocks c)) by rewrite (blk_keys HI) (v_ub HI).
have Hs' nb p : List.In nb (blocks c) -> dget prms nb.1 = Some p -> (oset p (bobj nb.2)).2 = Ok tt.
  by case: nb => nm b Hi; apply: Hs; apply: In_dget.
have [a [b [d [e [/= Es Hb]]]]] := @set_all_blocks prms [::] (blocks c) c (erefl _) Hu Hs'.
rewrite -/(param_sets c prms) in Es Hb.
rewrite /get1S -/(recomputes c f fl) Hre /=.
case Esv: (solve_now f fl prms c) => [c1 [S1|x]] //= H.
have Esv' : solve_now f fl [::] (with_blocks c (map (sb prms) (blocks c))) = (c1, Ok S1).
  move: Esv; rewrite /solve_now (loop_prm _ _ _ Hs') /=.
  case El: (loop _ _ _) => [c2 [[]|x]] //=.
  rewrite (@loop_wb f fl c (map (sb prms) (blocks c)) _ c2 Hu _ _ _ El) //=.
  + by rewrite /dkeys -map_comp; apply: eq_map => -[k v] /=; rewrite /sb /=; case: dget.
  + move=> k; rewrite /dkeys -map_comp.
    by rewrite (@eq_map _ _ _ fst) // => -[k' v] /=; rewrite /sb /=; case: dget.
  + move=> k; rewrite {1}/dkeys -map_comp (@eq_map _ _ _ fst); last first.
      by case=> k' v /=; rewrite /sb /=; case: dget.
    move=> Hk.
    have N (V : Type) (m : seq (string * V)) : k \notin dkeys m -> dget m k = None.
      by rewrite -dhasE /dhas; case: dget.
    rewrite !N // /dkeys -map_comp (@eq_map _ _ _ fst) //.
    by case=> k' v /=; rewrite /sb /=; case: dget.
have Hsc : same_but_cache c c.
  by exists (invM c), (cS c), (cf c), (cfl c); case: (c).
have [c3 [[a3 [b3 [d3 [e3 E3]]]] H0 H1 Hr3]] := set_all_sim Hr Hsc (fun _ => erefl c) Es.
have Hre3 : recomputes c3 f fl.
  case El: (param_sets c prms) Es H0 H1 => [|x l] Es H0 H1.
    by move: Es => [] /= Ec2; rewrite -(H0 (erefl _)) -Ec2.
  by rewrite /recomputes; have [_ ->] := H1 ltac:(by []); rewrite /= orbT.
have Esv3 : solve_now f fl [::] c3 = (c1, Ok S1).
  have -> : c3 = with_cache (with_cache (with_blocks c (map (sb prms) (blocks c))) a b d e)
                   (invM c3) (cS c3) (cf c3) (cfl c3).
    by rewrite E3; case: (c3).
  by do 2!apply: solve_wc.
by exists c3; split=> //; rewrite -/(recomputes c3 f fl) Hre3 /= Esv3.
Qed.

End SetP.

(** rfCircuit.maxV and rfCircuit.getpos (model), and what maxV reports (C28). *)
From mathcomp Require Import all_ssreflect all_algebra.
From mathcomp Require Import zify algebra_tactics.ring.
From Coq Require Import String Ascii.
From Coq Require List.
From Verif Require Import Base MxLib ConvModel ConvSpec ConvProofs ConvArr CircModel CircSpec CircLib CircInv CircTerm CircApp CircConn CircAdd CircDe CircFill CircSolve CircExt CircHist CircGet CircMain CircOrd CircThm CircThm2 CircThm3 CircThm4.
Set Implicit Arguments.
Unset Strict Implicit.
Unset Printing Implicit Defensive.
Import Order.TTheory GRing.Theory Num.Theory.
Local Open Scope ring_scope.
Local Open Scope seq_scope.

(** node.split('.', 1): None when there is no '.' *)
Fixpoint split_dot (s : string) : option (string * string) :=
  match s with
  | EmptyString => None
  | String a s' => if a == "."%char then Some (EmptyString, s')
                   else if split_dot s' is Some (x, y) then Some (String a x, y) else None
  end.

Fixpoint foldM (A B : Type) (f : A -> B -> res A) (a : A) (s : seq B) : res A :=
  if s is x :: s' then do a' <- f a x; foldM f a' s' else Ok a.

Section MaxModel.
Variable C : numClosedFieldType.
Variables F Fl : eqType.
Variable K : ocls C F Fl.
Notation circ := (circ K).

(** rfCircuit.getpos, 738-763, for blocks that are not circuits themselves: first
    level of the node name; names that do not start with a block name are looked
    up again without their first part (755-757: fuel = length of the name).
    Positions that are not numbers are not modelled. *)
Fixpoint getpos_fuel (n : nat) (c : circ) (node : string) : res C :=
  match split_dot node with
  | None => do k <- lindex (ports c) node;                                    (* 759-761 *)
            if (k < size (xpos c))%N then Ok (nth 0 (xpos c) k) else Raise IndexError
  | Some (blk, rest) =>
    if dget (blocks c) blk is Some b then
      do k <- (match lindex (bports b) rest with
               | Ok k => Ok k
               | Raise _ => if oports (bobj b) is Some ps then lindex ps rest
                            else Raise AttributeError end);
      if oxpos (bobj b) is Some xs then
        if (k < size xs)%N then Ok (bxpos b + nth 0 xs k) else Raise IndexError
      else Raise AttributeError
    else if n is n'.+1 then getpos_fuel n' c rest else Raise RecursionError
  end.
Definition getpos_flat (c : circ) (node : string) : res C :=
  getpos_fuel (String.length node) c node.

(** ** maxV, 1651-1828.  [omax o] is the bound method o.maxV(f, E, Zbase, Id,
    flags=...) if o has one; it returns the new state of o and (Vmax, where).  The
    third result (the VSW profiles) and the positions in it are not modelled; that
    computing them can raise is modelled for getpos only. *)
Variable getpos : circ -> string -> res C.
Variable omax : K -> option (F -> seq (string * C) -> C -> Fl -> string -> K * res (C * string)).

(** tmax, nmax with tmax = -inf at the start *)
Definition better (best : option (C * string)) (t : C) (n : string) :=
  if best is Some (t0, _) then if t0 < t then Some (t, n) else best else Some (t, n).

(** 1735-1744 *)
Definition max_node (c : circ) (sol : seq C) (Id : string) (best : option (C * string))
    (kw : nat * string) : res (option (C * string)) :=
  do k1 <- lindex (waves c) (bwd kw.2);
  do x <- getpos c kw.2;
  Ok (better best `|nth 0 sol kw.1 + nth 0 sol k1| (dot Id kw.2)).

(** 1775-1781; self.sol has one entry per wave *)
Definition blk_waves (c : circ) (sol : seq C) (nm : string) : seq C :=
  [seq nth 0 sol kw.1 | kw <- zip (iota 0 (size (waves c))) (waves c)
                      & String.prefix ("->" +s+ (nm +s+ ".")) kw.2].

(** one block, 1758-1823 *)
Definition max_block (f : F) (fl : Fl) (sol : seq C) (s : circ * option (C * string))
    (nb : string * block K) : (circ * option (C * string)) * res unit :=
  let: (c, best) := s in
  let: (nm, b) := nb in
  match oports (bobj b), omax (bobj b) with
  | Some ps, Some m =>
    let r := m f (zip ps (blk_waves c sol nm)) (zb c) fl nm in
    let c := with_blocks c (dset (blocks c) nm (Block (bports b) (bloc b) r.1 (bxpos b))) in
    match r.2 with
    | Raise e => ((c, best), Raise e)
    | Ok tn => ((c, better best tn.1 (dot nm tn.2)), Ok tt)
    end
  | _, _ => (s, Ok tt)
  end.

Definition maxV (f : F) (E : seq (string * C)) (z' : C) (fl : Fl) (Id : string) (c : circ)
  : circ * res (option (C * string)) :=
  if mapM (dget_exn E) (ports c) is Raise _ then (c, Raise ValueError) else   (* 1698-1704 *)
  let r := sol_vec true f E z' fl c in
  match r.2 with
  | Raise e => (r.1, Raise e)
  | Ok zsol =>
    let c := r.1 in
    match foldM (max_node c zsol.2 Id) None
            (pmap (fun kw => omap (pair kw.1) (fwd_node kw.2))
                  (zip (iota 0 (size (waves c))) (waves c))) with
    | Raise e => (c, Raise e)
    | Ok best =>
      let r := loop (max_block f fl zsol.2) (c, best) (blocks c) in
      (r.1.1, if r.2 is Raise e then Raise e else Ok r.1.2)
    end
  end.
End MaxModel.

Lemma prefixP a s : reflect (exists q, s = a +s+ q) (String.prefix a s).
Proof.
apply: (iffP idP); elim: a s => [|x a IH] s.
- by move=> _; exists s.
- case: s => //= y s; case: ascii_dec => // -> /IH [q ->]; by exists q.
- by case: s.
case: s => [[q]|y s [q /= [-> E]]] //=.
by case: ascii_dec => // _; apply: IH; exists q.
Qed.

Lemma filter_iota_index (T : eqType) (U : Type) (P : pred T) (g : nat -> U) (ws : seq T) : uniq ws ->
  [seq g kw.1 | kw <- zip (iota 0 (size ws)) ws & P kw.2] = [seq g (seq.index w ws) | w <- ws & P w].
Proof.
move=> Hu.
suff H : forall k vs, drop k ws = vs -> [seq g kw.1 | kw <- zip (iota k (size vs)) vs & P kw.2] =
   [seq g (seq.index w ws) | w <- vs & P w] by apply: H; rewrite drop0.
move=> k vs; elim: vs k => //= v vs IH k Ek.
have Hk : (k < size ws)%N by rewrite ltnNge; apply/negP => Hk; rewrite drop_oversize in Ek.
have [Es Ews] : nth v ws k = v /\ drop k.+1 ws = vs by move: Ek; rewrite (drop_nth v) // => -[].
have Eix : seq.index v ws = k by rewrite -[X in seq.index X]Es index_uniq.
by case: ifP => _ /=; rewrite IH ?Eix.
Qed.

Section MaxThm.
Variable C : numClosedFieldType.
Variables F Fl : eqType.
Variable K : vcls C F Fl.
Variable nan : C.
Variable getpos : circ K -> string -> res C.
Notation circ := (circ K).
Notation net := (net K).
Notation op := (op K).
Notation reach := (reach nan getpos).
Implicit Types (c : circ) (N : net) (h : seq (event K)).

(** ports made by connect and deembed have no '.' in their names *)
Definition nodot N := all (fun p => ~~ has_char "."%char p) (news (njoin N) ++ map snd (ndi N)).

Lemma connect_nodot c ps c' : connect getpos c ps = (c', Ok tt) ->
  all (fun p => ~~ has_char "."%char p) (newports c ps).
Proof.
rewrite /connect; case: ifP => // H1; case: ifP => // H2 _.
by move: H1 H2; case: (newports c ps) => [|p [|q s]] //= _ ->.
Qed.

Lemma step_nodot z c N g o ok c' : CI z c N g -> ev_ok N g (o, ok) ->
  exec nan getpos c o = (c', ok) -> nodot N -> nodot (net_step N o).
Proof.
move=> HC He Hx Hn; case: o He Hx => [nm ob pa x|ps|p kw|ints exts|f z' fl]; rewrite /exec /ev_ok.
- move=> _ _; rewrite /nodot njoin_step (nd_step _ _).1 /= !cats0; exact: Hn.
- case=> -> _; case E: (connect _ _ _) => [c1 [[]|e]] //= _.
  have := connect_nodot E; rewrite /newports.
  have -> : [seq p <- ps | fwd p \notin waves c] = [seq p <- ps | p \notin nodes N].
    by apply: eq_filter => p; rewrite (fwd_wave _ (ci_inv HC)).
  move: Hn; rewrite /nodot /= /news pmap_cat !all_cat => /andP[-> ->] /=.
  by case: [seq p <- ps | p \notin nodes N] => [|q s] //= /andP[->].
- by [].
- case=> _ _ _ Hi _; move: Hn; rewrite /nodot /= map_cat !all_cat => /andP[-> ->] /=.
  by apply/allP => p /Hi [].
- by [].
Qed.

Lemma run_nodot z c N g h c' : CI z c N g -> hist_ok_from N g h -> run nan getpos c h = Some c' ->
  nodot N -> nodot (foldl (@net_step C F Fl K) N (map fst h)).
Proof.
elim: h c N g => [|[o ok] h IH] c N g HC //=.
case=> H1 H2; case E: (exec _ _ _ _) => [c1 ok1] /=; case: eqP => // Eok Hr Hp.
rewrite Eok in E; exact: IH (step_CI HC H1 E) H2 Hr (step_nodot HC H1 E Hp).
Qed.

Lemma reach_nodot z ns h c : reach z ns h c -> nodot (net_hist h).
Proof. case=> Hz Hh Hr; exact: run_nodot (init_CI _ _ Hz) Hh Hr _. Qed.

Lemma blk_nodesP (nb : seq (string * (seq string * K))) p :
  p \in flatten (map (@blk_nodes C F Fl K) nb) ->
  exists nm ps o q, [/\ List.In (nm, (ps, o)) nb, q \in ps & p = dot nm q].
Proof.
elim: nb => //= -[nm [ps o]] nb IH; rewrite mem_cat => /orP[/mapP [q Hq ->]|/IH].
  by exists nm, ps, o, q; split=> //; left.
by case=> nm' [ps' [o' [q [H1 H2 H3]]]]; exists nm', ps', o', q; split=> //; right.
Qed.

Lemma blk_node_mem c N nm ps o q : Inv c N -> nodot N -> dget (nblk N) nm = Some (ps, o) ->
  dot nm q \in nodes N -> q \in ps.
Proof.
move=> HI Hn Hd; rewrite /nodes mem_cat => /orP[/blk_nodesP [nm' [ps' [o' [p [Hin Hp E]]]]]|H]; last first.
  by have := allP Hn _ H; rewrite dot_has.
have Hk : nm \in dkeys (nblk N) := dget_keys Hd.
have Hd' := In_dget (v_ub HI) Hin.
have Enm := dot_name (v_nb HI Hk) (v_nb HI (dget_keys Hd')) E.
by move: Hd' E; rewrite -Enm Hd => -[E1 _] /dot_inj ->; rewrite E1.
Qed.

Lemma blk_wavesE c N nm b sol : Inv c N -> nodot N -> dget (blocks c) nm = Some b ->
  blk_waves c sol nm = [seq nth 0 sol (seq.index (fwd (dot nm q)) (waves c)) | q <- bports b].
Proof.
move=> HI Hn Hb; have Huw := v_uw HI; have [G HG] := v_G HI.
have [ps [o0 [Hnb [_ /= Eps _ _ _] _]]] := Forall2_dget (v_blk HI) Hb.
have [Htk _ _] := g_blk HG Hb; rewrite /= Eps in Htk.
rewrite /blk_waves (filter_iota_index (fun w => String.prefix ("->" +s+ (nm +s+ ".")) w) (nth 0 sol) Huw).
suff -> : [seq w <- waves c | String.prefix ("->" +s+ (nm +s+ ".")) w] = fwds nm ps.
  by rewrite Eps /fwds -map_comp.
have Hpf w : String.prefix ("->" +s+ (nm +s+ ".")) w -> exists q, w = fwd (dot nm q).
  by move/prefixP => [q ->]; exists q; rewrite /fwd /dot !append_assoc.
have Hmem w : w \in waves c -> String.prefix ("->" +s+ (nm +s+ ".")) w -> w \in fwds nm ps.
  move=> Hw /Hpf [q Eq]; move: Hw; rewrite Eq (fwd_wave _ HI) => /(blk_node_mem HI Hn Hnb) Hq.
  by apply/mapP; exists q.
have Hall w : w \in fwds nm ps -> String.prefix ("->" +s+ (nm +s+ ".")) w.
  by move=> /mapP [q _ ->]; apply/prefixP; exists q; rewrite /fwd /dot !append_assoc.
set l := (bloc b).2 in Htk; set n := (2 * size ps)%N in Htk.
pose A := take l (waves c); pose B := drop n (drop l (waves c)).
have Ews : waves c = A ++ (fwds nm ps ++ bwds nm ps) ++ B by rewrite -Htk /A /B !cat_take_drop.
move: Hmem Huw; rewrite Ews => Hmem.
move=> Hu; rewrite !filter_cat.
have HA : [seq w <- A | String.prefix ("->" +s+ (nm +s+ ".")) w] = [::].
  apply/eqP; rewrite -(negbK (_ == _)) -has_filter; apply/hasPn => w Hw; apply/negP => Hp.
  have Hf : w \in fwds nm ps by apply: Hmem => //; rewrite !mem_cat Hw.
  move: Hu; rewrite cat_uniq => /and3P[_ /hasPn /(_ w) H _].
  by have := H; rewrite !mem_cat Hf /= Hw => /(_ isT).
have HB : [seq w <- B | String.prefix ("->" +s+ (nm +s+ ".")) w] = [::].
  apply/eqP; rewrite -(negbK (_ == _)) -has_filter; apply/hasPn => w Hw; apply/negP => Hp.
  have Hf : w \in fwds nm ps by apply: Hmem => //; rewrite !mem_cat Hw !orbT.
  move: Hu; rewrite !cat_uniq => /and3P[_ _ /and3P[_ /hasPn /(_ w Hw)]].
  by rewrite -[mem _ w]/(w \in _) mem_cat Hf.
rewrite HA HB cats0 /=.
rewrite (_ : [seq w <- fwds nm ps | _] = fwds nm ps); last by apply/all_filterP/allP.
rewrite (_ : [seq w <- bwds nm ps | _] = [::]) ?cats0 //.
apply/eqP; rewrite -(negbK (_ == _)) -has_filter; apply/hasPn => w /mapP [q _ ->].
by apply/negP => /Hpf [q' /eqP].
Qed.

(** ** the largest of a list of offers *)
Definition offer_all (best : option (C * string)) (os : seq (C * string)) :=
  foldl (fun b o => better b o.1 o.2) best os.

Lemma offer_max os (best : option (C * string)) :
  all (fun o => o.1 \is Num.real) os -> (if best is Some (t0, _) then t0 \is Num.real else true) ->
  let b := offer_all best os in
  [/\ (forall o, o \in os -> exists t n, b = Some (t, n) /\ o.1 <= t),
      (forall t0 n0, best = Some (t0, n0) -> exists t n, b = Some (t, n) /\ t0 <= t) &
      (forall t n, b = Some (t, n) -> best = Some (t, n) \/ (t, n) \in os)].
Proof.
elim: os best => [|[t1 n1] os IH] best /=.
  move=> _ _; split=> // [t0 n0 ->|t n ->]; [by exists t0, n0|by left].
move=> /andP[Hr1 Hr] Hb.
have Hb' : is_true (if better best t1 n1 is Some (t0, _) then t0 \is Num.real else true).
  by rewrite /better; case: best Hb => [[t0 n0]|] //=; case: ifP.
have [H1 H2 H3] := IH _ Hr Hb'.
have Hge : exists t0 n0, better best t1 n1 = Some (t0, n0) /\ t1 <= t0.
  rewrite /better; case: best Hb {H1 H2 H3 Hb'} => [[t0 n0]|] /= Hb; last by exists t1, n1.
  case: ifP => Hlt; first by exists t1, n1.
  by exists t0, n0; split=> //; rewrite real_leNgt // Hlt.
have [t0 [n0 [E0 Hle0]]] := Hge; have [t [n [E Hle]]] := H2 _ _ E0.
split.
- move=> o; rewrite in_cons => /orP[/eqP ->|/H1 //].
  by exists t, n; split=> //; apply: le_trans Hle0 Hle.
- move=> t2 n2 E2; exists t, n; split=> //; apply: le_trans Hle.
  move: E0; rewrite E2 /better; case: ifP => [Hlt|_] [<- _] //; exact: ltW.
move=> t2 n2 /H3 [|Hin]; last by right; rewrite in_cons Hin orbT.
rewrite /better; case: (best) => [[t3 n3]|]; last by case=> -> ->; right; rewrite mem_head.
by case: ifP => _ [-> ->]; [right; rewrite mem_head|left].
Qed.

Variable omax : K -> option (F -> seq (string * C) -> C -> Fl -> string -> K * res (C * string)).

Lemma nodes_offers c sol Id best s b :
  foldM (max_node getpos c sol Id) best s = Ok b ->
  (forall kw, kw \in s -> bwd kw.2 \in waves c) ->
  b = offer_all best [seq (`|nth 0 sol kw.1 + nth 0 sol (seq.index (bwd kw.2) (waves c))|, dot Id kw.2) | kw <- s].
Proof.
elim: s best => [|kw s IH] best /=; first by case=> <-.
rewrite {1}/max_node => H Hw; move: H; rewrite /lindex Hw ?mem_head //=.
case: (getpos _ _) => //= _ /IH -> //.
by move=> kw' Hkw; apply: Hw; rewrite in_cons Hkw orbT.
Qed.

Lemma blocks_offers f fl sol c best bs c1 b :
  loop (max_block omax f fl sol) (c, best) bs = ((c1, b), Ok tt) ->
  exists os, [/\ b = offer_all best os,
    (forall o, o \in os -> exists nm bl ps m o' n1, [/\ List.In (nm, bl) bs, oports (bobj bl) = Some ps,
       omax (bobj bl) = Some m, m f (zip ps (blk_waves c sol nm)) (zb c) fl nm = (o', Ok (o.1, n1)) &
       o.2 = dot nm n1]) &
    (forall nm bl ps m, List.In (nm, bl) bs -> oports (bobj bl) = Some ps -> omax (bobj bl) = Some m ->
       exists o' t1 n1, m f (zip ps (blk_waves c sol nm)) (zb c) fl nm = (o', Ok (t1, n1)) /\
         (t1, dot nm n1) \in os)].
Proof.
elim: bs c best => [|[nm bl] bs IH] c best.
  by rewrite /loop => -[_ <-]; exists [::]; split.
rewrite loop_cons; case Eb: (max_block _ _ _ _ _ _) => [[c2 b2] [[]|e]] //= Hl.
have [os [H1 H2 H3]] := IH _ _ Hl.
move: Eb; rewrite /max_block.
case Ep: (oports (bobj bl)) => [ps|]; last first.
  case=> Ec Eb; rewrite -Ec -Eb in H1 H2 H3; exists os; split=> //.
    move=> o /H2 [nm' [bl' [ps' [m' [o' [n1 [A1 A2 A3 A4 A5]]]]]]].
    by exists nm', bl', ps', m', o', n1; split=> //; right.
  by move=> nm' bl' ps' m' [[<- <-]|Hin]; [rewrite Ep|exact: H3].
case Em: (omax (bobj bl)) => [m|]; last first.
  case=> Ec Eb; rewrite -Ec -Eb in H1 H2 H3; exists os; split=> //.
    move=> o /H2 [nm' [bl' [ps' [m' [o' [n1 [A1 A2 A3 A4 A5]]]]]]].
    by exists nm', bl', ps', m', o', n1; split=> //; right.
  by move=> nm' bl' ps' m' [[<- <-]|Hin]; [rewrite Em|exact: H3].
case Er: (m _ _ _ _ _) => [o1 [[t1 n1]|e]] //= [Ec Eb].
rewrite -Ec in H2 H3; rewrite -Eb in H1.
exists ((t1, dot nm n1) :: os); split=> //.
- move=> o; rewrite in_cons => /orP[/eqP ->|/H2].
    by exists nm, bl, ps, m, o1, n1; split=> //; left.
  case=> nm' [bl' [ps' [m' [o' [n' [A1 A2 A3 A4 A5]]]]]].
  by exists nm', bl', ps', m', o', n'; split=> //; right.
move=> nm' bl' ps' m' [[<- <-]|Hin] Hp Hm.
  move: Hp Hm; rewrite Ep Em => -[<-] [<-]; exists o1, t1, n1; rewrite mem_head; split=> //.
have [o' [t' [n' [A1 A2]]]] := H3 _ _ _ _ Hin Hp Hm.
by exists o', t', n'; split=> //; rewrite in_cons A2 orbT.
Qed.

(** the answer (t, n) of the maxV method of block nm, called in the state the
    object has then, for the waves that enter the block in the solution v, i *)
Definition blk_max z N f fl (v i : asg C) (nm : string) (t : C) (n : string) : Prop :=
  exists ps o0 o qs m o', [/\ List.In (nm, (ps, o0)) (nblk N), after_getS o0 o,
    oports o = Some qs, omax o = Some m &
    m f (zip qs [seq (v (dot nm q) + z * i (dot nm q)) / 2%:R | q <- ps]) z fl nm = (o', Ok (t, n))].

Lemma thm_C28 z ns h c f E z' fl Id c' S c'' best : reach z ns h c -> may_ask h f fl ->
  order_known ns h ->
  let zz := if z' == 0 then z else z' in
  {subset ports c <= dkeys E} ->
  get1S f zz [::] fl c = (c', Ok S) ->
  (forall o m f E z fl nm o' t n, omax o = Some m -> m f E z fl nm = (o', Ok (t, n)) -> t \is Num.real) ->
  maxV getpos omax f E z' fl Id c = (c'', Ok best) ->
  let N := net_hist h in
  exists (v i : asg C) t n, [/\ best = Some (t, n), sat z N f fl v i,
    (forall p, free N p -> dget E p = Some ((v p + zz * i p) / 2%:R)),
    (forall p, p \in nodes N -> `|v p| <= t) /\
    (forall nm ps o0, List.In (nm, (ps, o0)) (nblk N) ->
       exists2 o, after_getS o0 o & (oports o <> None -> omax o <> None ->
          exists t1 n1, blk_max z N f fl v i nm t1 n1 /\ t1 <= t)) &
    (exists2 p, p \in nodes N & t = `|v p| /\ n = dot Id p) \/
    (exists nm n1, blk_max z N f fl v i nm t n1 /\ n = dot nm n1)].
Proof.
move=> Hr Hm Ho zz HE G Hreal HM N; have HC := reach_CI Hr; have HI := ci_inv HC.
have [Hz _ _] := Hr.
have [D _ _ [_ _ Hne [Eo _] _]] := get1S_CI HC Hm G; have HI' := ci_inv D; have Ez' := ci_z D.
have Ep : ports c' = ports c by rewrite Eo (settled_order (reach_settled Hr Ho)).
have [sol [v [i [H1 H2 H3 H4]]]] := sol_vec_ok true HC Hm HE G.
rewrite Ep in H3.
have Hexc p : free N p -> dget E p = Some ((v p + zz * i p) / 2%:R).
  rewrite -(v_fp HI) => Hpp.
  have Hj : (seq.index p (ports c) < size (ports c))%N by rewrite index_mem.
  have [A _] := H3 _ Hj; move: A; rewrite /= nth_index // => ->.
  by have : p \in dkeys E by [exact: HE]; rewrite -dhasE /dhas; case: (dget _ _).
move: HM; rewrite /maxV H1 [(_, _).2]/= [(_, _).1]/=.
case: (mapM (dget_exn E) (ports c)) => // _.
set s := pmap _ _; case Ef: (foldM _ _ _) => [b0|//].
case El: (loop _ _ _) => [[c1 b1] [[]|e]] //= [_ Eb]; rewrite {b1}Eb in El.
have Hs kw : kw \in s -> [/\ kw.2 \in nodes N & kw.1 = seq.index (fwd kw.2) (waves c')].
  rewrite /s mem_pmap => /mapP [[k w] Hkw]; case Ew: (fwd_node w) => [p|//] /= [->] /=.
  have Hw : w \in waves c'.
    by have : (k, w).2 \in unzip2 (zip (iota 0 (size (waves c'))) (waves c')) by [exact: map_f];
       rewrite unzip2_zip // size_iota.
  rewrite -(fwd_wave _ HI') -(fwd_nodeP Ew); split=> //.
  have /(nthP (0%N, "")) [j Hj] := Hkw; rewrite size_zip size_iota minnn in Hj.
  rewrite nth_zip ?size_iota // nth_iota // add0n => -[<- <-].
  by rewrite index_uniq // (v_uw HI').
have Hs' p : p \in nodes N -> (seq.index (fwd p) (waves c'), p) \in s.
  rewrite -(fwd_wave _ HI') => Hp; rewrite /s mem_pmap; apply/mapP.
  exists (seq.index (fwd p) (waves c'), fwd p); last by [].
  have Hj : (seq.index (fwd p) (waves c') < size (waves c'))%N by rewrite index_mem.
  apply/(nthP (0%N, "")); exists (seq.index (fwd p) (waves c')); first by rewrite size_zip size_iota minnn.
  by rewrite nth_zip ?size_iota // nth_iota // add0n nth_index.
have E0 := nodes_offers Ef (fun kw Hkw => eq_trans (bwd_wave _ HI') (let: conj A _ := Hs kw Hkw in A)).
set os0 := [seq _ | kw <- s] in E0.
have Hos0 o : o \in os0 -> exists2 p, p \in nodes N & o = (`|v p|, dot Id p).
  move=> /mapP [[k p] Hkw ->] /=; have /= [Hp ->] := Hs _ Hkw.
  by exists p => //; have [-> _] := H4 p Hp.
have Hos0' p : p \in nodes N -> (`|v p|, dot Id p) \in os0.
  move=> Hp; apply/mapP; exists (seq.index (fwd p) (waves c'), p); first exact: Hs'.
  by have [<- _] := H4 p Hp.
have [os [E1 Q1 Q2]] := blocks_offers El.
have Eb : best = offer_all None (os0 ++ os) by rewrite E1 E0 /offer_all foldl_cat.
have Hall : all (fun o : C * string => o.1 \is Num.real) (os0 ++ os).
  rewrite all_cat; apply/andP; split; apply/allP => o.
    by move/Hos0 => [p _ ->] /=; exact: normr_real.
  by move/Q1 => [nm [bl [ps [m [o' [n1 [_ _ Hm1 Hm2 _]]]]]]]; exact: Hreal Hm1 Hm2.
have [M1 _ M3] := @offer_max (os0 ++ os) None Hall isT; rewrite -Eb in M1 M3.
have [p0 Hp0] : exists p, p \in nodes N.
  have Hp0 : nth "" (ports c') 0 \in ports c' by apply: mem_nth; case: (ports c') Hne.
  by exists (nth "" (ports c') 0); apply: (port_node HI').
have Hin0 : (`|v p0|, dot Id p0) \in os0 ++ os by rewrite mem_cat Hos0'.
have [t [n [Ebest _]]] := M1 _ Hin0.
have Hle o : o \in os0 ++ os -> o.1 <= t by move/M1 => [t' [n' []]]; rewrite Ebest => -[<- _].
have Hbw nm bl : List.In (nm, bl) (blocks c') ->
  exists ps o0, [/\ List.In (nm, (ps, o0)) (nblk N), after_getS o0 (bobj bl) &
    blk_waves c' sol nm = [seq (v (dot nm q) + z * i (dot nm q)) / 2%:R | q <- ps]].
  move=> Hin; have Hub : uniq (dkeys (blocks c')) by rewrite (blk_keys HI'); exact: (v_ub HI').
  have Hd := In_dget Hub Hin.
  have [ps [o0 [Hnb [_ /= Eps _ Heq [_ Hup]] Hin']]] := Forall2_dget (v_blk HI') Hd.
  exists ps, o0; split=> //; first exact: Heq.1.
  rewrite (blk_wavesE sol HI' (reach_nodot Hr) Hd) Eps; apply/eq_in_map => q Hq.
  have Hqn : dot nm q \in nodes N.
    rewrite /nodes mem_cat; apply/orP; left.
    elim: (nblk N) Hin' => //= nb nbs IH [->|/IH H]; rewrite mem_cat ?H ?orbT //.
    by rewrite /blk_nodes /= map_f.
  have [<- <-] := H4 _ Hqn.
  have H20 : 2%:R != 0 :> C by rewrite pnatr_eq0.
  by field; rewrite ?Hz ?H20.
exists v, i, t, n; split=> //.
  split; first by move=> p /Hos0' Hp; have := Hle (`|v p|, dot Id p); rewrite mem_cat Hp; exact.
  move=> nm ps o0 Hin.
  have Hdn := In_dget (v_ub HI') Hin.
  have [bl Hbl [_ _ _ Heq _]] := Forall2_dget' (v_blk HI') Hdn.
  exists (bobj bl); first exact: Heq.1.
  have Hinb := dget_In Hbl.
  case Eqs: (oports (bobj bl)) => [qs|//] _; case Em: (omax (bobj bl)) => [m|//] _.
  have [o' [t1 [n1 [Hm1 Hin1]]]] := Q2 _ _ _ _ Hinb Eqs Em.
  exists t1, n1; split; last by have := Hle (t1, dot nm n1); rewrite mem_cat Hin1 orbT; exact.
  have [ps' [o0' [A1 A2 A3]]] := Hbw _ _ Hinb.
  exists ps', o0', (bobj bl), qs, m, o'; split=> //.
  by rewrite -A3 -Ez'.
have [//|] := M3 _ _ Ebest; rewrite mem_cat => /orP[/Hos0 [p Hp [-> ->]]|/Q1]; first by left; exists p.
case=> nm [bl [qs [m [o' [n1 [A1 A2 A3 A4 A5]]]]]]; right; exists nm, n1; split=> //.
have [ps' [o0' [B1 B2 B3]]] := Hbw _ _ A1.
exists ps', o0', (bobj bl), qs, m, o'; split=> //.
by rewrite -B3 -Ez'.
Qed.

(** maxV returns when every position is known and the blocks' maxV methods return *)
Lemma maxV_ok z ns h c f E z' fl Id c' S : reach z ns h c -> may_ask h f fl ->
  {subset ports c <= dkeys E} ->
  get1S f (if z' == 0 then z else z') [::] fl c = (c', Ok S) ->
  (forall p, p \in nodes (net_hist h) -> exists x, getpos c' p = Ok x) ->
  (forall o m f E z fl nm, omax o = Some m -> exists o' tn, m f E z fl nm = (o', Ok tn)) ->
  exists c'' best, maxV getpos omax f E z' fl Id c = (c'', Ok best).
Proof.
move=> Hr Hm HE G Hg Hmx; have HC := reach_CI Hr; have HI := ci_inv HC.
have [D _ _ _] := get1S_CI HC Hm G; have HI' := ci_inv D.
have [sol [v [i [H1 H2 H3 H4]]]] := sol_vec_ok true HC Hm HE G.
have HEa : exists Ea, mapM (dget_exn E) (ports c) = Ok Ea.
  elim: (ports c) HE => [|p ps IH] HE /=; first by exists [::].
  have : p \in dkeys E by apply: HE; rewrite mem_head.
  rewrite {1}/dget_exn -dhasE /dhas; case: (dget E p) => [x|//] _ /=.
  have [|Ea ->] := IH; first by move=> q Hq; apply: HE; rewrite in_cons Hq orbT.
  by exists (x :: Ea).
have [Ea Ea1] := HEa; rewrite /maxV H1 Ea1 [(_, _).2]/= [(_, _).1]/=.
set s := pmap _ _.
have Hs kw : kw \in s -> kw.2 \in nodes (net_hist h).
  rewrite /s mem_pmap => /mapP [[k w] Hkw]; case Ew: (fwd_node w) => [p|//] /= [->] /=.
  rewrite -(fwd_wave _ HI') -(fwd_nodeP Ew).
  have : (k, w).2 \in unzip2 (zip (iota 0 (size (waves c'))) (waves c')) by exact: map_f.
  by rewrite unzip2_zip // size_iota.
have Hf best : exists b, foldM (max_node getpos c' sol Id) best s = Ok b.
  elim: s best Hs => [|kw s IH] best Hs; first by exists best.
  have Hp := Hs kw (mem_head _ _); have [x Ex] := Hg _ Hp.
  rewrite /= {1}/max_node /lindex (bwd_wave _ HI') Hp /= Ex /=.
  by apply: IH => kw' Hkw; apply: Hs; rewrite in_cons Hkw orbT.
have [b ->] := Hf None.
have Hl c0 best bs : exists s1, loop (max_block omax f fl sol) (c0, best) bs = (s1, Ok tt).
  elim: bs c0 best => [|[nm bl] bs IH] c0 best; first by exists (c0, best).
  rewrite loop_cons {1}/max_block /=.
  case: (oports _) => [qs|]; last exact: IH.
  case Em: (omax _) => [m|]; last exact: IH.
  have [o' [tn ->]] := Hmx _ _ f (zip qs (blk_waves c0 sol nm)) (zb c0) fl nm Em.
  exact: IH.
have [[c1 b1] ->] := Hl c' b (blocks c').
by exists c1, b1.
Qed.

(** an undeclared port is refused *)
Lemma maxV_missing f E z' fl Id c p : p \in ports c -> p \notin dkeys E ->
  maxV getpos omax f E z' fl Id c = (c, Raise ValueError).
Proof.
move=> Hp HE; rewrite /maxV; suff [e ->] : exists e, mapM (dget_exn E) (ports c) = Raise e by [].
elim: (ports c) Hp => //= q ps IH; rewrite in_cons => /orP[/eqP <-|/IH [e ->]].
  by rewrite /dget_exn; have /dget_None -> := HE; exists KeyError.
by case: (dget_exn _ _) => [x|e'] /=; eexists.
Qed.
End MaxThm.

Lemma split_dot_none s : ~~ has_char "."%char s -> split_dot s = None.
Proof.
elim: s => //= a s IH; rewrite negb_or eq_sym => /andP[/negbTE -> /IH ->] //.
Qed.

(** C28 fails for a circuit with a named internal node: a port made by connect and
    then connected, terminated or deembedded has no position, and maxV raises *)
Section Lost.
Variable C : numClosedFieldType.
Variables F Fl : eqType.
Variable K : vcls C F Fl.
Variable nan : C.
Variable omax : K -> option (F -> seq (string * C) -> C -> Fl -> string -> K * res (C * string)).

Lemma maxV_lost z ns h (c : circ K) f E z' fl Id p : reach nan (@getpos_flat C F Fl K) z ns h c ->
  may_ask h f fl ->
  p \in nodes (net_hist h) -> ~~ has_char "."%char p -> free (net_hist h) p = false ->
  exists e, (maxV (@getpos_flat C F Fl K) omax f E z' fl Id c).2 = Raise e.
Proof.
move=> Hr Hm Hp Hdot Hfr; have HC := reach_CI Hr; have Ez := ci_z HC.
rewrite /maxV; case EE: (mapM (dget_exn E) (ports c)) => [Ea|e]; last by exists ValueError.
have HE : {subset ports c <= dkeys E}.
  move=> q Hq; rewrite -dhasE /dhas; case Eq: (dget E q) => //.
  suff [e1 H] : exists e, mapM (dget_exn E) (ports c) = Raise e by rewrite H in EE.
  elim: (ports c) Hq => //= q' ps IH; rewrite in_cons => /orP[/eqP <-|/IH [e ->]].
    by rewrite {1}/dget_exn Eq; exists KeyError.
  by case: (dget_exn _ _) => [x|e'] /=; eexists.
case G: (get1S f (if z' == 0 then z else z') [::] fl c) => [c' [S|e]]; last first.
  by rewrite /sol_vec Ez EE G /=; exists e.
have [D _ _ _] := get1S_CI HC Hm G; have HI' := ci_inv D.
have [sol [v [i [H1 H2 H3 H4]]]] := sol_vec_ok true HC Hm HE G.
rewrite H1 [(_, _).2]/= [(_, _).1]/=; set s := pmap _ _.
have Hin : (seq.index (fwd p) (waves c'), p) \in s.
  move: Hp; rewrite -(fwd_wave _ HI') => Hp; rewrite /s mem_pmap; apply/mapP.
  exists (seq.index (fwd p) (waves c'), fwd p); last by [].
  have Hj : (seq.index (fwd p) (waves c') < size (waves c'))%N by rewrite index_mem.
  apply/(nthP (0%N, "")); exists (seq.index (fwd p) (waves c')); first by rewrite size_zip size_iota minnn.
  by rewrite nth_zip ?size_iota // nth_iota // add0n nth_index.
have Hg : getpos_flat c' p = Raise ValueError.
  rewrite /getpos_flat; case: (String.length p) => [|n] /=; rewrite split_dot_none //= /lindex (v_fp HI') Hfr //.
suff [e ->] : exists e, foldM (max_node (@getpos_flat C F Fl K) c' sol Id) None s = Raise e by exists e.
elim: s (None) Hin => //= kw s IH best; rewrite in_cons => /orP[/eqP <-|Hin].
  by rewrite /max_node /=; case: (lindex _ _) => [k1|e] /=; rewrite ?Hg; eexists.
case: (max_node _ _ _ _ _ _) => [b|e] /=; last by exists e.
exact: IH.
Qed.
End Lost.

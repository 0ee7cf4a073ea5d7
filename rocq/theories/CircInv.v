(** The representation invariant tying a circuit state to the network described by
    its history (proof device; not part of any statement of a property). *)
From mathcomp Require Import all_ssreflect all_algebra.
From Coq Require Import String Ascii.
From Coq Require List.
From Verif Require Import Base MxLib ConvModel ConvSpec CircModel CircSpec CircLib.
Set Implicit Arguments.
Unset Strict Implicit.
Unset Printing Implicit Defensive.
Import GRing.Theory Num.Theory.
Local Open Scope ring_scope.
Local Open Scope seq_scope.

Section Inv.
Variable C : numClosedFieldType.
Variables F Fl : eqType.
Variable K : vcls C F Fl.
Variable nan : C.
Variable getpos : circ K -> string -> res C.
Notation circ := (circ K).
Notation net := (net K).
Implicit Types (c : circ) (N : net) (w : string -> C).

(** voltages and currents of a wave assignment *)
Definition Vw w (p : string) : C := w (fwd p) + w (bwd p).
Definition Iw (z : C) w (p : string) : C := (w (fwd p) - w (bwd p)) / z.

(** meaning of the equation rows *)
Inductive gr :=
  | GS of string & seq string & nat & seq C
  | GT of string & C
  | GE of string
  | GK of (string -> C).

Definition fwds (nm : string) (ps : seq string) := [seq fwd (dot nm p) | p <- ps].
Definition bwds (nm : string) (ps : seq string) := [seq bwd (dot nm p) | p <- ps].

Definition coef (g : gr) (s : string) : C :=
  match g with
  | GS nm ps k x =>
    if s \in fwds nm ps then nth 0 x (seq.index s (fwds nm ps))
    else if s == bwd (dot nm (nth "" ps k)) then -1 else 0
  | GT p rho => if s == bwd p then rho else if s == fwd p then -1 else 0
  | GE p => if s == fwd p then 1 else 0
  | GK g => g s
  end.

Definition render (ws : seq string) (g : gr) : seq C := map (coef g) ws.

Definition klaw (z : C) N w : Prop :=
  [/\ List.Forall (join_law (Vw w) (Iw z w)) (njoin N),
      List.Forall (di_law (Vw w) (Iw z w)) (ndi N) &
      List.Forall (de_law (Vw w) (Iw z w)) (nde N)].

Definition load_rho (z : C) (l : load C) (rho : C) : Prop :=
  forall a b, load_law z l (a + b) ((a - b) / z) <-> a = rho * b.

Definition g0 : gr := GE "".

Record Ginv c N (G : seq gr) : Prop := {
  g_M : mM c = map (render (waves c)) G;
  g_supp : forall g, List.In g G -> forall s, s \notin waves c -> coef g s = 0;
  g_blk : forall nm b, dget (blocks c) nm = Some b ->
    let ps := bports b in let n := size ps in
    [/\ take (2 * n) (drop (bloc b).2 (waves c)) = fwds nm ps ++ bwds nm ps,
        ((bloc b).1 + n <= size G)%N &
        forall k, (k < n)%N -> exists2 x, size x = n &
          nth g0 G ((bloc b).1 + k) = GS nm ps k x];
  g_blk' : forall e nm ps k x, (e < size G)%N -> nth g0 G e = GS nm ps k x ->
    exists b, [/\ dget (blocks c) nm = Some b, bports b = ps, e = ((bloc b).1 + k)%N &
                  (k < size ps)%N];
  g_T : forall p iA iB e, dget (dT c) p = Some (iA, iB, e) ->
    [/\ fwd p \in waves c, bwd p \in waves c, iA = seq.index (fwd p) (waves c),
        iB = seq.index (bwd p) (waves c) & (e < size G)%N] /\
    exists rho ld, [/\ nth g0 G e = GT p rho, dget (nterm N) p = Some ld &
                       load_rho (zb c) ld rho];
  g_T' : forall e p rho, (e < size G)%N -> nth g0 G e = GT p rho ->
    exists iA iB, dget (dT c) p = Some (iA, iB, e);
  g_E : forall p e, dget (dE c) p = Some e -> (e < size G)%N /\ nth g0 G e = GE p;
  g_E' : forall e p, (e < size G)%N -> nth g0 G e = GE p -> dget (dE c) p = Some e;
  g_K : forall w, (forall g, List.In (GK g) G -> rsum (waves c) g w = 0) <-> klaw (zb c) N w }.

Definition oeq (o o' : K) := after_getS o' o /\ forall f fl v i, oden o f fl v i <-> oden o' f fl v i.

Definition blk_ok (b : string * block K) (nb : string * (seq string * K)) : Prop :=
  [/\ b.1 = nb.1, bports b.2 = nb.2.1, oinv (bobj b.2), oeq (bobj b.2) nb.2.2 &
      osize (bobj b.2) = size nb.2.1 /\ uniq nb.2.1].

Record Inv c N : Prop := {
  v_zb : zb c != 0;
  v_uw : uniq (waves c);
  v_mem : waves c =i map fwd (nodes N) ++ map bwd (nodes N);
  v_un : uniq (nodes N);
  v_dot : forall p, p \in nodes N -> has_char "."%char p ->
            exists nm q, nm \in dkeys (nblk N) /\ p = dot nm q;
  v_nc : nc c = size (waves c);
  v_blk : List.Forall2 blk_ok (blocks c) (nblk N);
  v_ub : uniq (dkeys (nblk N));
  v_nb : forall nm, nm \in dkeys (nblk N) -> ~~ has_char "."%char nm;
  v_up : uniq (ports c);
  v_fp : forall p, (p \in ports c) = free N p;
  v_xp : (size (ports c) <= size (xpos c))%N;
  v_uE : uniq (dkeys (dE c));
  v_E : dE c = [::] \/ (pn c = PAlias /\ dkeys (dE c) =i ports c);
  v_us : {subset used N <= nodes N};
  v_uT : uniq (dkeys (nterm N));
  v_T : dkeys (dT c) =i dkeys (nterm N);
  v_cnt : (size (mM c) + size (ports c) = nc c + size (dE c))%N;
  v_G : exists G, Ginv c N G }.

(** ** consequences *)
Lemma fwd_wave c N p : Inv c N -> (fwd p \in waves c) = (p \in nodes N).
Proof. by move=> H; rewrite (v_mem H) mem_cat fwd_mem fwd_notin_bwd orbF. Qed.

Lemma bwd_wave c N p : Inv c N -> (bwd p \in waves c) = (p \in nodes N).
Proof. by move=> H; rewrite (v_mem H) mem_cat bwd_mem bwd_notin_fwd. Qed.

Lemma port_node c N p : Inv c N -> p \in ports c -> p \in nodes N.
Proof. by move=> H; rewrite (v_fp H) => /andP[]. Qed.

Lemma blk_keys c N : Inv c N -> dkeys (blocks c) = dkeys (nblk N).
Proof.
move=> H; elim: (v_blk H) => //= b nb bs nbs [E _ _ _ _] _ IH.
by rewrite E IH.
Qed.

Lemma Forall2_dget bs nbs nm b : List.Forall2 blk_ok bs nbs -> dget bs nm = Some b ->
  exists ps o, [/\ dget nbs nm = Some (ps, o), blk_ok (nm, b) (nm, (ps, o)) &
                   List.In (nm, (ps, o)) nbs].
Proof.
elim=> //= -[n1 b1] [n2 [ps o]] bs' nbs' Hb _ IH /=.
have /= En := (let: And5 E _ _ _ _ := Hb in E).
case: eqP => [E [<-]|Hne /IH [ps' [o' [H1 H2 H3]]]].
  by exists ps, o; move: Hb; rewrite /= -En -E eqxx => Hb; split=> //; left; rewrite ?E.
by exists ps', o'; rewrite -En; case: eqP => // _; split=> //; right.
Qed.

Lemma Forall2_dget' bs nbs nm ps o : List.Forall2 blk_ok bs nbs -> dget nbs nm = Some (ps, o) ->
  exists2 b, dget bs nm = Some b & blk_ok (nm, b) (nm, (ps, o)).
Proof.
elim=> //= -[n1 b1] [n2 [ps1 o1]] bs' nbs' Hb _ IH /=.
have /= En := (let: And5 E _ _ _ _ := Hb in E).
case: eqP => [E [<- <-]|Hne /IH [b H1 H2]].
  by exists b1; move: Hb; rewrite /= En E ?eqxx.
by exists b => //; rewrite En; case: eqP.
Qed.

(** ** rows *)
Lemma render_pad ws ws' g : (forall s, s \notin ws -> coef g s = 0) ->
  (forall s, s \in ws' -> s \notin ws) ->
  render (ws ++ ws') g = render ws g ++ zrow C (size ws').
Proof.
move=> H0 Hd; rewrite /render map_cat; congr cat.
by elim: ws' Hd => //= s ws' IH Hd; rewrite H0 ?IH ?Hd ?mem_head // => u Hu;
  apply: Hd; rewrite in_cons Hu orbT.
Qed.

Lemma hpad_render ws ws' (G : seq gr) :
  (forall g, List.In g G -> forall s, s \notin ws -> coef g s = 0) ->
  (forall s, s \in ws' -> s \notin ws) ->
  hpad (size ws') (map (render ws) G) = map (render (ws ++ ws')) G.
Proof.
move=> H0 Hd; elim: G H0 => //= g G IH H0.
rewrite render_pad // ?IH //; first by move=> g' Hg'; apply: H0; right.
by apply: H0; left.
Qed.

Lemma render_sum ws g w : \sum_(s <- ws) coef g s * w s = rsum ws (coef g) w.
Proof. by []. Qed.

Lemma map_set_nth T U (h : T -> U) (x0 : T) (y0 : U) s e y : (e < size s)%N ->
  map h (set_nth x0 s e y) = set_nth y0 (map h s) e (h y).
Proof. by elim: s e => [|a s IH] [|e] //= He; rewrite IH. Qed.

Lemma render_upd ws g g' t x : uniq ws -> t \in ws ->
  {in ws, coef g' =1 fupd (coef g) t x} ->
  upd (render ws g) (seq.index t ws) x = render ws g'.
Proof.
move=> Hu Ht H; rewrite /upd /render set_nth_map //.
by apply/eq_in_map => s /H.
Qed.

Lemma zrow_render ws : zrow C (size ws) = render ws (GK (fun=> 0)).
Proof. by rewrite /zrow /render; elim: ws => //= s ws ->. Qed.

Lemma In_nth (G : seq gr) g : List.In g G <-> exists2 e, (e < size G)%N & nth g0 G e = g.
Proof.
elim: G => [|h G IH] /=; first by split=> // -[].
split=> [[->|/IH [e He E]]|[[|e] He /= E]]; [by exists 0%N|by exists e.+1|by left|right].
by apply/IH; exists e.
Qed.

(** value of the rows *)
Lemma rsum_GT ws p rho w : uniq ws -> fwd p \in ws -> bwd p \in ws ->
  rsum ws (coef (GT p rho)) w = rho * w (bwd p) - w (fwd p).
Proof.
move=> Hu Hf Hb; rewrite (@rsum_sub _ ws [:: fwd p; bwd p]) //.
- rewrite /rsum !big_cons big_nil addr0 {1 2}/coef !eqxx fwd_bwd.
  by rewrite mulN1r addrC.
- by move=> s; rewrite !inE => /orP[] /eqP ->.
by move=> s; rewrite !inE negb_or /= => /andP[/negbTE -> /negbTE ->].
Qed.

Lemma rsum_GE ws p w : uniq ws -> fwd p \in ws ->
  rsum ws (coef (GE p)) w = w (fwd p).
Proof.
move=> Hu Hf; rewrite (@rsum_sub _ ws [:: fwd p]) //.
- by rewrite /rsum big_cons big_nil /= eqxx addr0 mul1r.
- by move=> s; rewrite inE => /eqP ->.
by move=> s; rewrite inE /= => /negbTE ->.
Qed.

Lemma uniq_fwds nm ps : uniq ps -> uniq (fwds nm ps).
Proof. by move=> H; rewrite map_inj_uniq // => a b /fwd_inj /dot_inj. Qed.

Lemma uniq_bwds nm ps : uniq ps -> uniq (bwds nm ps).
Proof. by move=> H; rewrite map_inj_uniq // => a b /bwd_inj /dot_inj. Qed.

Lemma bwd_in_fwds p nm ps : (bwd p \in fwds nm ps) = false.
Proof. by apply/mapP => -[q _ /eqP]. Qed.
Lemma fwd_in_bwds p nm ps : (fwd p \in bwds nm ps) = false.
Proof. by apply/mapP => -[q _ /eqP]. Qed.

Lemma rsum_GS ws nm ps k x w : uniq ws -> uniq ps -> {subset fwds nm ps <= ws} ->
  bwd (dot nm (nth "" ps k)) \in ws ->
  rsum ws (coef (GS nm ps k x)) w =
  \sum_(j < size ps) nth 0 x j * w (fwd (dot nm (nth "" ps j))) - w (bwd (dot nm (nth "" ps k))).
Proof.
move=> Hu Hp Hf Hb; rewrite (@rsum_sub _ ws (fwds nm ps ++ [:: bwd (dot nm (nth "" ps k))])) //.
- rewrite /rsum big_cat /= big_cons big_nil addr0 bwd_in_fwds eqxx mulN1r; congr (_ - _).
  rewrite (big_nth "") size_map big_mkord; apply: eq_bigr => j _.
  rewrite mem_nth ?size_map // index_uniq ?size_map ?uniq_fwds //.
  by rewrite (nth_map "").
- by rewrite cat_uniq uniq_fwds //= orbF bwd_in_fwds.
- by move=> s; rewrite mem_cat inE => /orP[/Hf|/eqP ->].
by move=> s; rewrite mem_cat inE negb_or /= => /andP[/negbTE -> /negbTE ->].
Qed.

End Inv.
Arguments GE {C} _.

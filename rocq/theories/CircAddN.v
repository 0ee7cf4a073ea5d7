(** addblock of a dotted name that does not exist yet (C55): proofs *)
From mathcomp Require Import all_ssreflect all_algebra.
From mathcomp Require Import zify.
From Coq Require Import String Ascii.
From Coq Require List.
From Verif Require Import Base MxLib ConvModel ConvSpec ConvProofs ConvArr CircModel CircSpec CircLib CircInv CircTerm CircApp CircConn CircAdd CircDe CircFill CircSolve CircExt CircHist CircGet CircMain CircOrd CircThm CircThm2 CircThm3 CircThm4 CircThm5 CircMaxV CircNest CircFlat CircDev CircThm6 CircSub CircSubT CircCopy CircCopyT CircAddP CircAddPT.
Set Implicit Arguments.
Unset Strict Implicit.
Unset Printing Implicit Defensive.
Import Order.TTheory GRing.Theory Num.Theory.
Local Open Scope string_scope.
Local Open Scope ring_scope.
Local Open Scope seq_scope.

Section J.
Variable C : numClosedFieldType.
Variables F Fl : eqType.
Variable K : ocls C F Fl.
Notation circ := (circ K).

Definition loc_ok (m : nat) (nb : string * block K) : Prop := ((bloc nb.2).1 + size (bports nb.2) <= m)%N.
(** no matrix of N rows can come out of c *)
Definition J (N : nat) (c : circ) : Prop :=
  [/\ zb c != 0, List.Forall (loc_ok (size (mM c))) (blocks c), size (ports c) <> N,
      size (mM c) = nc c -> size (portnames c) <> N & forall S, cS c = Some S -> exists2 k, k <> N & shape_ok k S].

Lemma loc_dset m bs nm b : List.Forall (loc_ok m) bs -> loc_ok m (nm, b) -> List.Forall (loc_ok m) (dset bs nm b).
Proof.
move=> H Hb; elim: H => [|[n y] l Hy Hl IH] /=; first by constructor.
by case: ifP => _; constructor.
Qed.
Lemma put_size (m : rows C) loc N S : (loc.1 + N <= size m)%N -> size S = N -> size (put_block m loc N S) = size m.
Proof.
move=> Hl HS; rewrite /put_block !size_cat size_map size_zip size_drop !size_take size_drop HS.
by case: ifP; case: ifP; rewrite /minn; case: ifP; lia.
Qed.

Lemma fill1_J N f fl c nm b : J N c -> loc_ok (size (mM c)) (nm, b) ->
  let r := fill1 f fl [::] c (nm, b) in J N r.1 /\ size (mM r.1) = size (mM c).
Proof.
case=> Hz HL Hp Hn HS Hb; rewrite /fill1; cbn [dget fst snd bind].
set o' := ogetS f (zb c) fl (bobj b).
have HL' : List.Forall (loc_ok (size (mM c))) (dset (blocks c) nm (Block (bports b) (bloc b) o'.1 (bxpos b))) by apply: loc_dset.
case: (o'.2) => [Sm|e] /=; last by split.
case E: (shape_ok _ _) => /=; last by split.
have Es : size (put_block (mM c) (bloc b) (size (bports b)) Sm) = size (mM c).
  by apply: put_size Hb _; case/andP: E => /eqP.
by split; rewrite ?Es //; split=> //=; rewrite Es.
Qed.
Lemma fill_J N f fl bs : forall c, J N c -> List.Forall (loc_ok (size (mM c))) bs ->
  let r := loop (fill1 f fl [::]) c bs in J N r.1.
Proof.
elim: bs => [|[nm b] bs IH] c HJ HL //; rewrite loop_cons; inversion_clear HL.
have [H1 H2] := fill1_J f fl HJ H.
case: (fill1 _ _ _ _ _) H1 H2 => c1 [u|e] /= H1 H2 //.
by apply: IH => //; rewrite H2.
Qed.

Notation addE := (@add_E C F Fl K).
Lemma adds ps : forall c, let c' := (loop addE c ps).1 in
  [/\ zb c' = zb c, blocks c' = blocks c, ports c' = ports c, pn c' = pn c & cS c' = cS c /\ (size (mM c) <= size (mM c'))%N].
Proof.
elim: ps => [|q ps IH] c //; rewrite loop_cons /add_E; case: (lindex _ _) => [i|e] /=; last first.
  by split=> //; split=> //; rewrite size_cat leq_addr.
set c1 := with_dicts _ _ _ _; have [/= -> -> -> -> [-> H]] := IH c1; split=> //; split=> //.
by apply: leq_trans H; rewrite /= size_cat leq_addr.
Qed.
Lemma loc_le m m' (bs : seq (string * block K)) : (m <= m')%N -> List.Forall (loc_ok m) bs -> List.Forall (loc_ok m') bs.
Proof. by move=> Hm; apply: List.Forall_impl => nb H; apply: leq_trans Hm. Qed.

Lemma close_J N c : J N c -> J N (close c).1 /\ ((close c).2 = Ok tt -> size (portnames (close c).1) <> N).
Proof.
move=> HJ; have [Hz HL Hp Hn HS] := HJ; rewrite /close; case: eqP => [/Hn H|_]; first by split.
set c0 := with_cache c (invM c) None (cf c) (cfl c).
have Hgo c1 : zb c1 = zb c -> blocks c1 = blocks c -> mM c1 = mM c -> size (ports c1) = size (ports c) -> pn c1 = PAlias -> cS c1 = None ->
  J N (loop addE c1 (ports c1)).1 /\ ((loop addE c1 (ports c1)).2 = Ok tt -> size (portnames (loop addE c1 (ports c1)).1) <> N).
  move=> E1 E2 E3 E4 E5 E6; have [A1 A2 A3 A4 [A5 A6]] := adds (ports c1) c1.
  have Hpp : size (portnames (loop addE c1 (ports c1)).1) <> N by rewrite /portnames A4 E5 A3 E4.
  split=> //; split=> //; rewrite ?A1 ?E1 ?A2 ?E2 ?A3 ?E4 //; last by rewrite A5 E6.
  by apply: loc_le HL; rewrite -E3.
have HJ0 : J N c0 by split.
case E: (pn c0) => [[|n l]|]; first exact: Hgo.
  case: ifP => [_|/negbFE/eqP Es]; first by split.
  case: ifP => _; first by split.
  exact: Hgo.
exact: Hgo.
Qed.

Lemma extS_J N c : J N c -> J N (extS c).1 /\ forall S, (extS c).2 = Ok S -> exists2 k, k <> N & shape_ok k S.
Proof.
move=> /close_J; rewrite /extS; case: (close c) => c1 [u|e] /= [HJ Hpo]; last by split.
have {}Hpo := Hpo (f_equal _ (match u with tt => erefl end)).
have [Hz HL Hp Hn HS] := HJ.
case: (mapM _ _) => [iE|e] /=; last by split.
case: (mapM _ _) => [iA|e] /=; last by split.
case: (mapM _ _) => [iB|e] /=; last by split.
case: (inv_rows _ _) => [iM|e] /=; last by split.
case: ifP => _ /=; first by split.
case: (np_inv _) => [iQ|e] /=; last by split.
set S := rows_of _.
have HSh : shape_ok (size (portnames c1)) S.
  rewrite /shape_ok /rows_of size_map size_enum_ord eqxx /=; apply/allP => r /mapP[i _ ->].
  by rewrite size_map size_enum_ord.
split; last by move=> S' [<-]; exists (size (portnames c1)).
by split=> // S' [<-]; exists (size (portnames c1)).
Qed.

Lemma get_J N f z fl c : J N c -> J N (get1S f z [::] fl c).1 /\ forall S, (get1S f z [::] fl c).2 = Ok S -> exists2 k, k <> N & shape_ok k S.
Proof.
move=> HJ; have [Hz HL Hp Hn HS] := HJ.
have Hsol : J N (solve_now f fl [::] c).1 /\ forall S, (solve_now f fl [::] c).2 = Ok S -> exists2 k, k <> N & shape_ok k S.
  rewrite /solve_now; have := fill_J f fl HJ HL; case: (loop _ _ _) => c1 [u|e] /= H1; last by split.
  have := extS_J H1; case: (extS c1) => c2 [S|e] /= [[G1 G2 G3 G4 G5] G6]; last by split.
  by split=> //; split=> // S' [<-]; exact: G6.
rewrite /get1S; case: ifP => _.
  case: (solve_now f fl [::] c) Hsol => c1 [S|e] /= [[G1 G2 G3 G4 G5] G6]; last by split.
  split=> // S' Hb; have [k Hk Hs] := G6 _ erefl; exists k => //; exact: (rebase_ok G1 Hs Hb).1.
case Ec: (cS c) => [S|] /=; last by split.
split=> // S' Hb; have [k Hk Hs] := HS _ Ec; exists k => //; exact: (rebase_ok Hz Hs Hb).1.
Qed.
End J.

Section Bk.
Variable C : numClosedFieldType.
Variables F Fl : eqType.
Variable K : vcls C F Fl.
Variable nan : C.
Variable getpos : forall K' : vcls C F Fl, circ K' -> string -> res C.
Notation deep := (deep K nan getpos).
Notation nest n := (nest_cls nan (@getpos (deep n))).
Notation reach := (reach nan (@getpos _)).
Notation simn := (@simn C F Fl K nan getpos _).
Variable n : nat.

Definition broken (nm : string) (bs : seq (string * block (deep n.+1))) : Prop :=
  exists b k, [/\ dget bs nm = Some b, bobj b = inr k & J (size (bports b)) (n_c k)].
Definition Bk (nm : string) (d : circ (deep n.+1)) : Prop := [/\ broken nm (blocks d), cS d = None & uniq (dkeys (blocks d))].

Lemma fill1_Bk nm f fl (d : circ (deep n.+1)) nm' b' : Bk nm d -> dget (blocks d) nm' = Some b' ->
  let r := fill1 f fl [::] d (nm', b') in [/\ Bk nm r.1, nm' = nm -> is_ok r.2 = false &
    forall q, q != nm' -> dget (blocks r.1) q = dget (blocks d) q].
Proof.
case=> -[b [k [Eb Ek HJ]]] HS Hu Eb'.
have Hk : nm' \in dkeys (blocks d) by apply: dget_keys Eb'.
have Hu' q b2 : uniq (dkeys (dset (blocks d) q b2)) by exact: uniq_dset.
rewrite /fill1; cbn [dget fst snd].
case: (nm =P nm') Eb' => [<- | /eqP Hne] Eb'.
  have Ebb : b' = b by move: Eb'; rewrite Eb => -[].
  rewrite Ebb Ek; set g := ogetS f (zb d) fl (inr k : deep n.+1).
  have Eg : g = (let r := n_getS f (zb d) fl k in (inr r.1, r.2)) by [].
  have [J1 J2] := get_J f (zb d) fl HJ.
  have HB : broken nm (dset (blocks d) nm (Block (bports b) (bloc b) g.1 (bxpos b))).
    by do 2 eexists; split; [rewrite dget_dset eqxx; reflexivity|rewrite Eg; reflexivity|exact: J1].
  have Hq : forall b2 q, q != nm -> dget (dset (blocks d) nm b2) q = dget (blocks d) q.
    by move=> b2 q /negbTE Hq; rewrite dget_dset Hq.
  case Eg2: (g.2) => [Sm|e] /=; last first.
    split=> //; last exact: Hq.
    split=> //=.
  have [k' Hk' Hsh] := J2 Sm Eg2.
  case: ifP => [/andP[/eqP E1 _]|_] /=; last by split=> //; [split=> //=|exact: Hq].
  by case/andP: Hsh => /eqP E2 _; case: Hk'; rewrite -E2 E1.
have Hb o : broken nm (dset (blocks d) nm' (Block (bports b') (bloc b') o (bxpos b'))).
  by exists b, k; split=> //; rewrite dget_dset (negbTE Hne).
have Hq : forall b2 q, q != nm' -> dget (dset (blocks d) nm' b2) q = dget (blocks d) q.
  by move=> b2 q /negbTE Hq; rewrite dget_dset Hq.
have Hn : nm' = nm -> False by move=> E; rewrite E eqxx in Hne.
case: (ogetS f (zb d) fl (bobj b')).2 => [Sm|e] /=; last by split=> //; [split=> //=; exact: Hb|exact: Hq].
by case: ifP => _ /=; split=> //; try (by split=> //=; exact: Hb); exact: Hq.
Qed.

Lemma fill_Bk nm f fl bs : forall d : circ (deep n.+1), Bk nm d -> uniq (dkeys bs) -> nm \in dkeys bs ->
  (forall q b, List.In (q, b) bs -> dget (blocks d) q = Some b) ->
  let r := loop (fill1 f fl [::]) d bs in Bk nm r.1 /\ is_ok r.2 = false.
Proof.
elim: bs => [//|[q b] bs IH] d HB; rewrite -[dkeys _]/(q :: dkeys bs) cons_uniq => /andP[Hq Hu] Hin Hbs.
rewrite loop_cons; have [H1 H2 H3] := fill1_Bk f fl HB (Hbs q b (or_introl erefl)).
case: (fill1 _ _ _ _ _) H1 H2 H3 => d1 [u|e]; cbn [fst snd] => H1 H2 H3; last by split.
apply: IH => //.
  by move: Hin; rewrite inE; case: eqP => [E|//]; move: (H2 (esym E)).
move=> q' b' Hi; rewrite H3; first by apply: Hbs; right.
apply/eqP => E; move: Hq; rewrite -E; case/negP; exact: (dget_keys (In_dget Hu Hi)).
Qed.

Lemma get_Bk nm f z fl d : Bk nm d -> Bk nm (get1S f z [::] fl d).1 /\ is_ok (get1S f z [::] fl d).2 = false.
Proof.
move=> HB; have [[b [k [Eb Ek HJ]]] HS Hu] := HB.
rewrite /get1S HS orbT /solve_now.
have [||] := @fill_Bk nm f fl (blocks d) d HB Hu.
- exact: (dget_keys Eb).
- by move=> q b' Hi; exact: In_dget.
by case: (loop _ _ _) => d1 [u|e].
Qed.
Lemma ask_Bk nm q d : Bk nm d -> Bk nm (ask q d).1 /\ is_ok (ask q d).2 = false.
Proof.
move=> H; case: q => [f z fl|f E z fl] /=.
  by have := get_Bk f z fl H; case: (get1S f z [::] fl d) => d1 [Sm|e] [].
rewrite /Solution1 /sol_vec; case: (mapM _ _) => [Ea|e] //=.
set zz := if z == 0 then _ else _; have := get_Bk f zz fl H.
by case: (get1S f zz [::] fl d) => d1 [Sm|e] [].
Qed.
Lemma asks_Bk nm qs : forall d, Bk nm d -> ~~ has (fun r => is_ok r) (asks qs d).2.
Proof. by elim: qs => [//|q qs IH] d H /=; have [H1 ->] := ask_Bk q H; exact: IH. Qed.

Lemma new_J m z ns h (c d d' : circ (deep m)) sub (o : deep m) pa x : reach z ns h c -> csim simn c d ->
  ~~ has_char "."%char sub -> sub \notin dkeys (nblk (net_hist h)) -> (0 < osize o)%N ->
  addblock nan d sub o pa x = (d', Ok tt) -> J (size (ports c)) d'.
Proof.
move=> Hr [bs [p [-> Hp Hb]]] Hd Hs Ho; have HI := ci_inv (reach_CI Hr).
have Ec : dget (blocks c) sub = None by apply/dget_None; rewrite (blk_keys HI).
have Ed : dget bs sub = None.
  elim: Hb Ec => [//|[q y] [q' y'] l l' [/= -> _ _ _ _] _ IH] /=.
  by case: eqP.
have HL : List.Forall (loc_ok (size (mM c))) bs.
  have [G HG] := v_G HI; have HL0 : List.Forall (loc_ok (size (mM c))) (blocks c).
    apply/List.Forall_forall => -[q b] Hi.
    have Hu : uniq (dkeys (blocks c)) by rewrite (blk_keys HI) (v_ub HI).
    have [_ H _] := g_blk HG (In_dget Hu Hi).
    by rewrite /loc_ok (g_M HG) size_map.
  elim: Hb HL0 => [//|[q y] [q' y'] l l' [/= _ H1 H2 _ _] _ IH] H; inversion_clear H.
  by constructor; [rewrite /loc_ok /= H1 H2|exact: IH].
have Hcnt : (size (dE c) <= size (ports c))%N.
  case: (v_E HI) => [->//|[_ HE]]; rewrite -(size_map fst); apply: uniq_leq_size; first exact: (v_uE HI).
  by move=> q; rewrite -[_ \in map _ _]/(q \in dkeys (dE c)) HE.
rewrite /addblock (negbTE Hd); have -> : blocks (uncache (upd_bp c bs p)) = bs by [].
rewrite Ed /addblock_new; case Er: (resolve_ports _ _ _) => [ops|e] // [<-].
have Eops : size ops = osize o by exact: resolve_size Er.
set m' := hpad _ _ ++ _.
have Em : size m' = (size (mM c) + osize o)%N by rewrite /m' size_cat /hpad !size_map size_iota.
split=> /=; rewrite ?Em.
- exact: (v_zb HI).
- apply: loc_dset; last by rewrite /loc_ok /= Eops.
  by apply: loc_le HL; rewrite leq_addr.
- by rewrite size_cat size_map Eops => E; move: Ho; lia.
- by have := v_cnt HI; lia.
- by [].
Qed.

Variable ob : anyobj K nan getpos.
Lemma addpath_nodot m (c : circ (deep m)) path pa x : split_dot path = None ->
  addpath ob pa x c path = addblock nan c path (ob m) pa x.
Proof. by case: m c => [|m] c /= ->. Qed.
Lemma new_Bk z ns h (c d : circ (deep n.+1)) path nm sub ps k pa x : reach z ns h c ->
  split_dot path = Some (nm, sub) -> split_dot sub = None ->
  dget (nblk (net_hist h)) nm = Some (ps, inr k) -> sub \notin dkeys (nblk (net_hist (n_h k))) ->
  (0 < osize (ob n))%N -> addpath ob pa x c path = (d, Ok tt) -> Bk nm d.
Proof.
move=> Hr Ep Es En Hsub Ho.
have HI := ci_inv (reach_CI Hr); have Hin := dget_In En.
have [bc Ec [_ Hbp Hoi [Haf _] [Hsz _]]] := Forall2_dget' (v_blk HI) En.
have Hok : oinv (k : nest n).
  by have := proj1 (List.Forall_forall _ _) (reach_oinv Hr) _ Hin.
have [kc [Ekc Hkc Ez Eh Epo]] := after_nest Hok Haf; cbn [fst snd] in Ekc, Hbp, Hsz.
rewrite /= Ep /addblock_sub; have -> : blocks (uncache c) = blocks c by []; rewrite Ec Ekc.
set r := addpath _ _ _ _ _; case Er: r => [d2 [u|e]] // [<-].
have [Hrk Hkn Hrt] := Hkc.
have Hs2 : csim simn (n_c kc) (copy_circ (@dupn C F Fl K nan getpos n) (n_c kc)).
  by apply: copy_sim; exact: simn_dup.
have Er' : addblock nan (copy_circ (@dupn C F Fl K nan getpos n) (n_c kc)) sub (ob n) pa x = (d2, Ok tt).
  by rewrite -addpath_nodot // -[LHS]/r Er; case: (u).
have HJ : J (size (ports (n_c kc))) d2.
  by apply: new_J Hrk Hs2 (split_dot_N Es) _ Ho Er'; rewrite Eh.
split=> /=.
- do 2 eexists; split; [rewrite dget_dset eqxx; reflexivity|reflexivity|rewrite /=].
  by move: Hsz; rewrite Ekc Hbp => <-.
- by [].
- by apply: uniq_dset; rewrite (blk_keys HI) (v_ub HI).
Qed.
Lemma new_ok z ns h (c : circ (deep n.+1)) path nm sub ps k pa x ops : reach z ns h c ->
  split_dot path = Some (nm, sub) -> split_dot sub = None ->
  dget (nblk (net_hist h)) nm = Some (ps, inr k) -> sub \notin dkeys (nblk (net_hist (n_h k))) ->
  resolve_ports (osize (ob n)) (oports (ob n)) pa = Ok ops -> exists d, addpath ob pa x c path = (d, Ok tt).
Proof.
move=> Hr Ep Es En Hsub Ho.
have HI := ci_inv (reach_CI Hr); have Hin := dget_In En.
have [bc Ec [_ Hbp Hoi [Haf _] [Hsz _]]] := Forall2_dget' (v_blk HI) En.
have Hok : oinv (k : nest n).
  by have := proj1 (List.Forall_forall _ _) (reach_oinv Hr) _ Hin.
have [kc [Ekc Hkc Ez Eh Epo]] := after_nest Hok Haf; cbn [fst snd] in Ekc, Hbp, Hsz.
rewrite /= Ep /addblock_sub; have -> : blocks (uncache c) = blocks c by []; rewrite Ec Ekc.
have [Hrk Hkn Hrt] := Hkc; have HIk := ci_inv (reach_CI Hrk).
rewrite addpath_nodot // /addblock (negbTE (split_dot_N Es)).
set cc := copy_circ _ _; have Ed : dget (blocks (uncache cc)) sub = None.
  apply/dget_None; rewrite -[blocks _]/(map (copy_blk (@dupn C F Fl K nan getpos n)) (blocks (n_c kc))).
  rewrite /dkeys -map_comp; have -> : map (fst \o copy_blk (@dupn C F Fl K nan getpos n)) (blocks (n_c kc)) = dkeys (blocks (n_c kc)) by apply: eq_map.
  by rewrite (blk_keys HIk) Eh.
by rewrite Ed /addblock_new Ho; eexists.
Qed.
End Bk.

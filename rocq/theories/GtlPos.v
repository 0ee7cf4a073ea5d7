(** rfGTL: the positions of the blocks. *)
From mathcomp Require Import all_ssreflect all_algebra.
From mathcomp Require Import zify.
From Coq Require Import String Ascii.
From Coq Require List.
From Verif Require Import Base ConvModel ConvSpec CircModel CircSpec CircLib CircHist CircMaxV GtlNet.
Set Implicit Arguments.
Unset Strict Implicit.
Unset Printing Implicit Defensive.
Import GRing.Theory Num.Theory.
Local Open Scope string_scope.
Local Open Scope ring_scope.
Local Open Scope seq_scope.

Section Pos.
Variable C : numClosedFieldType.
Variables F Fl : eqType.
Variable K : vcls C F Fl.
Notation blks := (seq (string * block K)).
Implicit Types (bs : blks) (pos : posns C).

(** port p of the block: name and distance from the block's position *)
Definition offs (b : block K) : seq (string * C) := zip (bports b) (odflt [::] (oxpos (bobj b))).
Definition has_xpos bs := forall nm b, List.In (nm, b) bs -> exists xs, oxpos (bobj b) = Some xs.

Definition boffs bs : ofsets C := [seq (nb.1, offs nb.2) | nb <- bs].
Lemma boffsP nm b bs : List.In (nm, b) bs -> List.In (nm, offs b) (boffs bs).
Proof. by move=> H; apply: (List.in_map (fun nb => (nb.1, offs nb.2)) _ _ H). Qed.
Lemma boffs_in nm l bs : List.In (nm, l) (boffs bs) -> exists2 b, List.In (nm, b) bs & l = offs b.
Proof. by elim: bs => //= -[k b] bs IH [[<- <-]|/IH [b' H ->]]; [exists b; [left|]|exists b'; [right|]]. Qed.

(** ** one block *)
Lemma spreadE p x0 (l : seq (string * C)) pos q :
  dget (spread p x0 l pos) q =
  if dget pos q is Some x then Some x else
  if (q != p) && ~~ in_special q then omap (fun d => x0 + d) (dget l q) else None.
Proof.
rewrite /spread; elim: l pos => [|[r d] l IH] pos /=; first by case: (dget pos q) => //; case: ifP.
rewrite IH; case E: ((r != p) && ~~ in_special r && ~~ dhas pos r); last first.
  case Eq: (dget pos q) => [x|] //; case Hq: ((q != p) && ~~ in_special q) => //.
  case: eqP => // Eqr; move: E; rewrite -Eqr Hq /= dhasE.
  by rewrite (_ : q \notin dkeys pos) //; apply/dget_None.
rewrite dget_dset; case: eqP => [->|] //.
case/andP: E => E; rewrite E dhasE => /dget_None -> //=.
Qed.

Lemma place_blockE b pos xs : oxpos (bobj b) = Some xs ->
  (exists p d, [/\ List.In (p, d) (offs b), dhas pos p &
     place_block b pos = Ok (Some (odflt 0 (dget pos p) - d, spread p (odflt 0 (dget pos p) - d) (offs b) pos))]) \/
  ((forall p, p \in map fst (offs b) -> ~~ dhas pos p) /\ place_block b pos = Ok None).
Proof.
rewrite /place_block /offs => -> /=; move: (zip _ _) => px.
have H : forall l, (forall y, List.In y l -> List.In y px) ->
  (exists p d, [/\ List.In (p, d) px, dhas pos p & [seq y <- l | dhas pos y.1] = (p, d) :: behead [seq y <- l | dhas pos y.1]]) \/
  ((forall p, p \in map fst l -> ~~ dhas pos p) /\ [seq y <- l | dhas pos y.1] = [::]).
  elim=> [|[p d] l IH] Hl /=; first by right.
  case Hp: (dhas pos p); first by left; exists p, d; split=> //; apply: Hl; left.
  have [|H|[H1 H2]] := IH; [by move=> y Hy; apply: Hl; right|by left|].
  by right; split=> // q; rewrite in_cons => /orP[/eqP ->|/H1 //]; rewrite Hp.
have [//|[p [d [H1 H2 ->]]]|[H1 ->]] := H px; last by right.
by left; exists p, d.
Qed.

(** ** invariant *)
Record PI bs pos0 (st : posns C * posns C) : Prop := {
  p_loc : forall p, p \in dkeys st.2 -> plocated (boffs bs) (dkeys pos0) p;
  p_ini : forall p x, dget pos0 p = Some x -> dget st.2 p = Some x;
  p_set : forall nm b, List.In (nm, b) bs -> nm \in dkeys st.1 ->
            [/\ located (boffs bs) (dkeys pos0) (offs b) & forall q, q \in map fst (offs b) -> ~~ in_special q -> q \in dkeys st.2];
  p_sub : {subset dkeys st.1 <= dkeys bs};
  p_uni : uniq (dkeys st.1);
  p_lay : all (predC in_special) (dkeys pos0) ->
    all (predC in_special) (dkeys st.2) /\
    forall X P, layout (boffs bs) pos0 X P ->
      (forall p x, dget st.2 p = Some x -> P p = x) /\ (forall nm x, dget st.1 nm = Some x -> X nm = x) }.

Lemma inkeys (A : Type) (d : seq (string * A)) p : (p \in dkeys d) = isSome (dget d p).
Proof. by case E: (dget d p) => [x|] /=; [exact: dget_keys E|apply/negbTE/dget_None]. Qed.

Lemma In_keys (A : Type) (d : seq (string * A)) k x : List.In (k, x) d -> k \in dkeys d.
Proof. by elim: d => //= -[k' x'] d IH [[-> _]|/IH]; rewrite in_cons ?eqxx // => ->; rewrite orbT. Qed.

Lemma PI0 bs pos0 : uniq (dkeys pos0) -> PI bs pos0 ([::], pos0).
Proof.
move=> Hu; split=> //=; first by move=> p; exact: pl_given.
by move=> Ha; split=> // X P [_ HP]; split=> // p x E; exact: (HP _ _ (dget_In E)).
Qed.

Lemma PI_step bs pos0 set pos nm b p d : uniq (dkeys bs) -> PI bs pos0 (set, pos) -> List.In (nm, b) bs -> nm \notin dkeys set ->
  List.In (p, d) (offs b) -> dhas pos p ->
  PI bs pos0 (dset set nm (odflt 0 (dget pos p) - d), spread p (odflt 0 (dget pos p) - d) (offs b) pos).
Proof.
move=> Hub [H1 H2 H3 H4 H5 H6] Hi Hns Hpd; rewrite dhasE inkeys => Hp.
case Ep: (dget pos p) Hp => [x|] //= _; set x0 := x - d; set pos' := spread _ _ _ _.
have Hpk : p \in dkeys pos by rewrite inkeys Ep.
have Hpo : p \in map fst (offs b) by exact: In_keys Hpd.
have Hmono q y : dget pos q = Some y -> dget pos' q = Some y by move=> E; rewrite spreadE E.
have Hall q : q \in map fst (offs b) -> ~~ in_special q -> q \in dkeys pos'.
  move=> Hq Hs; rewrite inkeys spreadE; case Eq: (dget pos q) => [y|] //.
  have Hqp : q != p by apply/eqP => E; rewrite E Ep in Eq.
  by rewrite Hqp Hs /=; have := Hq; rewrite -[map fst _]/(dkeys (offs b)) inkeys; case: (dget _ q).
have Hnew q y : dget pos' q = Some y -> dget pos q = Some y \/ [/\ q \in map fst (offs b), ~~ in_special q & exists2 e, List.In (q, e) (offs b) & y = x0 + e].
  rewrite spreadE; case: (dget pos q) => [y'|]; first by left.
  case: ifP => // /andP[_ Hs]; case Ee: (dget (offs b) q) => [e|] //= [<-]; right; split=> //.
    exact: (dget_keys Ee).
  by exists e => //; exact: dget_In.
have Hlb : located (boffs bs) (dkeys pos0) (offs b) by exists p => //; exact: H1.
split=> /=.
- move=> q; rewrite inkeys; case Eq: (dget pos' q) => [y|] // _.
  case: (Hnew _ _ Eq) => [E|[Hq Hs _]]; first by apply: H1; rewrite inkeys E.
  by apply: (pl_block (boffsP Hi) Hpo) => //; exact: H1.
- by move=> q y /H2 /Hmono.
- move=> nm' b' Hi'; rewrite dkeys_dset (negbTE Hns) mem_rcons in_cons => /orP[/eqP E|/(H3 _ _ Hi') [L1 L2]].
    have -> : b' = b by have := In_dget Hub Hi'; rewrite E (In_dget Hub Hi) => -[].
    by [].
  split=> // q Hq Hs; have := L2 q Hq Hs; rewrite /= !inkeys; case E: (dget pos q) => [y|] // _.
  by rewrite (Hmono _ _ E).
- move=> k; rewrite dkeys_dset (negbTE Hns) mem_rcons in_cons => /orP[/eqP ->|/H4 //]; exact: In_keys Hi.
- by rewrite dkeys_dset (negbTE Hns) rcons_uniq Hns.
move=> Ha; have [A1 A2] := H6 Ha; rewrite /= in A1 A2; split.
  apply/allP => q; rewrite inkeys; case Eq: (dget pos' q) => [y|] // _.
  case: (Hnew _ _ Eq) => [E|[_ Hs _]] //=; by move/allP: A1 => /(_ q); apply; rewrite inkeys E.
move=> X P HL; have [B1 B2] := A2 _ _ HL; case: (HL) => L1 _.
have Hps : ~~ in_special p by move/allP: A1 => /(_ p Hpk).
have EX : X nm = x0 by rewrite /x0 -(B1 _ _ Ep) (L1 _ _ _ _ (boffsP Hi) Hpd Hps) addrK.
split=> [q y /Hnew [/B1 //|[_ Hs [e He ->]]]|k y]; first by rewrite (L1 _ _ _ _ (boffsP Hi) He Hs) EX.
by rewrite dget_dset; case: eqP => [-> [<-]|_ /B2].
Qed.

Lemma pass_ok bs pos0 : uniq (dkeys bs) -> has_xpos bs -> forall bs' st, (forall y, List.In y bs' -> List.In y bs) -> PI bs pos0 st ->
  exists st' fd, [/\ place_pass bs' st = Ok (st', fd), PI bs pos0 st' &
    if fd then (size st.1 < size st'.1)%N : Prop
    else st' = st /\ forall nm b, List.In (nm, b) bs' -> nm \in dkeys st.1 \/ (forall p, p \in map fst (offs b) -> p \notin dkeys st.2)].
Proof.
move=> Hu Hx; elim=> [|[nm b] bs' IH] [set pos] Hs HP /=; first by exists (set, pos), false.
have Hs' : forall y, List.In y bs' -> List.In y bs by move=> y Hy; apply: Hs; right.
have Hi : List.In (nm, b) bs by apply: Hs; left.
rewrite dhasE; case Hn: (nm \in dkeys set).
  have [st' [fd [-> P' H]]] := IH _ Hs' HP; exists st', fd; split=> //; case: (fd) H => // -[H1 H2]; split=> //.
  by move=> k b' [[<- _]|/H2 //]; left.
have [xs Ex] := Hx _ _ Hi.
have [[p [d [Hpd Hp ->]]]|[H1 ->]] := place_blockE pos Ex => /=; last first.
  have [st' [fd [-> P' H]]] := IH _ Hs' HP; exists st', fd; split=> //; case: (fd) H => // -[H2 H3]; split=> //.
  by move=> k b' [[_ <-]|/H3 //]; right=> p /H1; rewrite dhasE.
have HP1 := PI_step Hu HP Hi (negbT Hn) Hpd Hp.
have [st' [fd [-> P' H]]] := IH _ Hs' HP1; exists st', true; split=> //=.
have E : size (dset set nm (odflt 0 (dget pos p) - d)) = (size set).+1.
  by have := congr1 size (dkeys_dset set nm (odflt 0 (dget pos p) - d)); rewrite Hn size_rcons !size_map.
by case: (fd) H => /= [|[-> _]]; rewrite E // => /ltnW.
Qed.

(** the loop ends *)
Lemma loop_ok bs pos0 : uniq (dkeys bs) -> has_xpos bs -> forall fuel st, PI bs pos0 st -> (size bs - size st.1 < fuel)%N ->
  exists st', [/\ place_loop fuel bs st = Some (Ok st'), PI bs pos0 st' &
    forall nm b, List.In (nm, b) bs -> nm \in dkeys st'.1 \/ (forall p, p \in map fst (offs b) -> p \notin dkeys st'.2)].
Proof.
move=> Hu Hx; elim=> [|n IH] st HP Hf //.
cbn [place_loop]; have [st' [fd [-> P' H]]] := pass_ok Hu Hx (fun y H => H) HP.
case: fd H => [H|[E H]]; last by exists st'; split=> //; rewrite E.
apply: IH => //; have : (size st'.1 <= size bs)%N.
  have := uniq_leq_size (p_uni P') (p_sub P'); by rewrite !size_map.
by move: Hf H; lia.
Qed.

Lemma place_all bs pos0 : uniq (dkeys bs) -> has_xpos bs -> uniq (dkeys pos0) ->
  exists st', [/\ place_loop (size bs).+1 bs ([::], pos0) = Some (Ok st'),
    PI bs pos0 st' & forall nm b, List.In (nm, b) bs -> (nm \in dkeys st'.1 <-> located (boffs bs) (dkeys pos0) (offs b))].
Proof.
move=> Hu Hx Hp; have [|st' [E P' H]] := loop_ok Hu Hx (PI0 bs Hp) (fuel := (size bs).+1); first by rewrite /= subn0.
exists st'; split=> // nm b Hi; split=> [/(p_set P' Hi) [] //|[p Hpo Hl]].
have Hall : forall q, plocated (boffs bs) (dkeys pos0) q -> q \in dkeys st'.2.
  move=> q; elim=> [r|nm' l' r s /boffs_in [b' Hi' ->] Hr _ IHr Hs Hn].
    by rewrite !inkeys; case Er: (dget pos0 r) => [x|] // _; rewrite (p_ini P' Er).
  case: (H _ _ Hi') => [/(p_set P' Hi') [_]|/(_ _ Hr)]; first exact.
  by rewrite IHr.
by case: (H _ _ Hi) => // /(_ _ Hpo); rewrite Hall.
Qed.
End Pos.

(** terminate preserves the representation invariant. *)
From mathcomp Require Import all_ssreflect all_algebra.
From mathcomp Require Import zify.
From mathcomp.algebra_tactics Require Import ring.
From Coq Require Import String Ascii.
From Coq Require List.
From Verif Require Import Base MxLib ConvModel ConvSpec CircModel CircSpec CircLib CircInv.
Set Implicit Arguments.
Unset Strict Implicit.
Unset Printing Implicit Defensive.
Import GRing.Theory Num.Theory.
Local Open Scope ring_scope.
Local Open Scope seq_scope.

Section Term.
Variable C : numClosedFieldType.
Variables F Fl : eqType.
Variable K : vcls C F Fl.
Notation circ := (circ K).
Notation net := (net K).
Implicit Types (c : circ) (N : net) (w : string -> C).

Lemma init_inv z ns : z != 0 -> Inv (new_circ K z ns) (net0 K).
Proof.
move=> Hz; split=> //=.
- by left.
- exists [::]; split=> //= w; split=> // _; split; by constructor.
Qed.

(** *** loads *)
Lemma load_rhoP (z : C) kw rho : z != 0 -> rho_of z kw = Ok rho -> load_rho z (load_of kw) rho.
Proof.
move=> Hz; rewrite /rho_of /load_of; case: ifP => // _.
case EZ: (dget kw "Z") => [Z|].
  case: eqP => // /eqP HZ /=; case: (ddel kw "Z") => //= -[<-] a b /=.
  have E : (a + b + Z * ((a - b) / z)) * z = (Z + z) * a - (Z - z) * b by field.
  split=> H.
    have : (Z + z) * a - (Z - z) * b = 0 by rewrite -E H addNr mul0r.
    move/eqP; rewrite subr_eq0 => /eqP H1.
    by apply: (mulfI HZ); rewrite H1; field.
  apply/eqP; rewrite -addr_eq0; apply/eqP; apply: (mulIf Hz); rewrite E H; field; exact: HZ.
case EY: (dget kw "Y") => [Y|].
  case: eqP => // /eqP HY /=; case: (ddel kw "Y") => //= -[<-] a b /=.
  have E : ((a - b) / z + Y * (a + b)) * z = (1 + Y * z) * a - (1 - Y * z) * b by field.
  split=> H.
    have : (1 + Y * z) * a - (1 - Y * z) * b = 0 by rewrite -E H addNr mul0r.
    move/eqP; rewrite subr_eq0 => /eqP H1.
    by apply: (mulfI HY); rewrite H1; field.
  apply/eqP; rewrite -addr_eq0; apply/eqP; apply: (mulIf Hz); rewrite E H; field; exact: HY.
have Hab (a b : C) : (a + b + z * ((a - b) / z) = 2%:R * a) /\ (a + b - z * ((a - b) / z) = 2%:R * b).
  by split; field.
have Haux (R : C) : load_rho z (LRC R) R.
  move=> a b /=; have [-> ->] := Hab a b; rewrite mulrCA; split=> [|-> //].
  by apply: mulfI; rewrite pnatr_eq0.
case ER: (dget kw "RC") => [R|] /=.
  by case: (ddel kw "RC") => //= -[<-]; exact: Haux.
by case: kw EZ EY ER => //= _ _ _ [<-]; exact: Haux.
Qed.

(** *** consuming a port *)
Lemma consume_ok c p : p \in ports c -> (size (ports c) <= size (xpos c))%N ->
  exists2 xs, consume c p = (with_ports c (rem p (ports c)) xs, Ok tt) &
              (size (rem p (ports c)) <= size xs)%N.
Proof.
move=> Hp Hs; rewrite /consume /lindex Hp lpop_index //.
have Hi : (seq.index p (ports c) < size (xpos c))%N by rewrite (leq_trans _ Hs) // index_mem.
rewrite /lpop Hi; eexists; first by [].
rewrite size_rem // size_cat size_take size_drop Hi.
by move: Hs Hi; move: (size _) (size _) (seq.index _ _) => a b i; lia.
Qed.

Lemma consume_ko c p : p \notin ports c -> consume c p = (c, Raise ValueError).
Proof. by move=> /negbTE Hp; rewrite /consume /lindex Hp. Qed.

Lemma free_term N p l q :
  free (Net (nblk N) (njoin N) (dset (nterm N) p l) (ndi N) (nde N)) q = free N q && (q != p).
Proof.
rewrite /free /nodes /used /= !mem_cat.
have -> : (q \in [seq i.1 | i <- dset (nterm N) p l]) = (q \in dkeys (nterm N)) || (q == p).
  rewrite -/(dkeys _) dkeys_dset; case: ifP => H; last by rewrite mem_rcons inE orbC.
  by case: eqP => [->|]; rewrite ?orbF ?H.
by rewrite -/(dkeys _) !negb_or; case: (q == p); rewrite ?andbT ?andbF ?orbF //=.
Qed.

Lemma nodes_term N p l :
  nodes (Net (nblk N) (njoin N) (dset (nterm N) p l) (ndi N) (nde N)) = nodes N.
Proof. by []. Qed.

Lemma nth_set (G : seq (gr C)) e g k : (e < size G)%N ->
  nth (g0 C) (set_nth (g0 C) G e g) k = if k == e then g else nth (g0 C) G k.
Proof. by move=> He; rewrite nth_set_nth. Qed.

Lemma size_set (G : seq (gr C)) e g : (e < size G)%N -> size (set_nth (g0 C) G e g) = size G.
Proof. by move=> He; rewrite size_set_nth; apply/maxn_idPr. Qed.

Lemma coef_GT_upd p (rho rho' : C) : coef (GT p rho') =1 fupd (coef (GT p rho)) (bwd p) rho'.
Proof. by move=> s; rewrite /fupd /=; case: eqP. Qed.

(** replacing a row that is not a K row keeps the constraints *)
Lemma K_set (G : seq (gr C)) e g : (e < size G)%N ->
  (forall h, nth (g0 C) G e <> GK h) -> (forall h, g <> GK h) ->
  (forall h, List.In (GK h) (set_nth (g0 C) G e g) <-> List.In (GK h) G).
Proof.
move=> He H1 H2 h; rewrite !In_nth size_set //; split=> -[k Hk]; rewrite ?nth_set //.
  by case: eqP => [_ /H2|_ E] //; exists k.
by move=> E; exists k => //; rewrite nth_set //; case: eqP => // Ek; case: (H1 h); rewrite -Ek.
Qed.

Lemma upd2E (m : rows C) e j x : upd2 m e j x = set_nth [::] m e (upd (nth [::] m e) j x).
Proof. by []. Qed.

(** the row of a T or E equation is rewritten *)
Lemma set_row c N (G : seq (gr C)) p (kw : seq (string * C)) (rho : C) iA iB e c' : Inv c N -> Ginv c N G ->
  fwd p \in waves c -> bwd p \in waves c -> iA = seq.index (fwd p) (waves c) ->
  iB = seq.index (bwd p) (waves c) -> (e < size G)%N ->
  (exists r, nth (g0 C) G e = GT p r) \/ nth (g0 C) G e = GE p ->
  load_rho (zb c) (load_of kw) rho ->
  zb c' = zb c -> waves c' = waves c -> blocks c' = blocks c ->
  mM c' = map (render (waves c)) (set_nth (g0 C) G e (GT p rho)) ->
  dT c' = dset (dT c) p (iA, iB, e) ->
  (forall q, dget (dE c') q = if q == p then None else dget (dE c) q) ->
  Ginv c' (net_step N (@OTerm C F Fl K p kw)) (set_nth (g0 C) G e (GT p rho)).
Proof.
move=> HI HG Hf Hb EA EB He Hg Hl Ez Ew Ebl EM ET EE.
have Hnk h : nth (g0 C) G e <> GK h by case: Hg => [[r ->]|->].
have Hns nm ps k x : nth (g0 C) G e <> GS nm ps k x by case: Hg => [[r ->]|->].
split.
- by rewrite EM Ew.
- move=> g /In_nth [k]; rewrite size_set // nth_set // => Hk; rewrite Ew.
  case: eqP => [_ <- s Hs|_ E]; last by apply: (g_supp HG); apply/In_nth; exists k.
  rewrite /=; case: eqP => [E|_]; first by rewrite E Hb in Hs.
  by case: eqP => // E; rewrite E Hf in Hs.
- move=> nm b; rewrite Ebl Ew size_set // => Eb; have [H1 H2 H3] := g_blk HG Eb.
  split=> // k /H3 [x Hx E]; exists x => //; rewrite nth_set //.
  by case: eqP => // Ek; case: (Hns nm (bports b) k x); rewrite -Ek.
- move=> k nm ps j x; rewrite size_set // nth_set // Ebl => Hk.
  by case: eqP => // _; apply: (g_blk' HG).
- move=> q jA jB k; rewrite ET dget_dset Ew size_set //=.
  case: (q =P p) => [->|Hne]; last first.
    move=> Eq; have [H1 [r [ld [H2 H3 H4]]]] := g_T HG Eq; split=> //.
    exists r, ld; rewrite nth_set // dget_dset Ez; case: (q =P p) => // _; split=> //.
    case: (k =P e) => // Ek; exfalso; move: H2; rewrite Ek; case: Hg => [[r0 ->]|-> //] [E _].
    by rewrite E in Hne.
  case=> <- <- <-; split=> //; exists rho, (load_of kw).
  by rewrite nth_set // eqxx dget_dset eqxx Ez.
- move=> k q r; rewrite size_set // nth_set // ET dget_dset => Hk.
  case: (k =P e) => [-> [<- _]|Hne E]; first by rewrite eqxx; exists iA, iB.
  have [jA [jB Eq]] := g_T' HG Hk E; case: (q =P p) => [Eqp|_]; last by exists jA, jB.
  case: Hg => [[r0 E0]|E0].
    have [kA [kB]] := g_T' HG He E0; rewrite -Eqp Eq => -[_ _ E1]; by case: Hne.
  exfalso; have HpE : dget (dE c) p = Some e := g_E' HG He E0.
  have HpT : p \in dkeys (dT c) by apply: (dget_keys (v := (jA, jB, k))); rewrite -Eqp.
  have : p \in ports c.
    case: (v_E HI) => [E2|[_ <-]]; first by rewrite E2 in HpE.
    exact: (dget_keys HpE).
  rewrite (v_fp HI) /free /used !mem_cat => /andP[_].
  by rewrite -/(dkeys (nterm N)) -(v_T HI) HpT !orbT.
- move=> q k; rewrite EE size_set //; case: (q =P p) => // Hne Eq.
  have [H1 H2] := g_E HG Eq; split=> //; rewrite nth_set //; case: (k =P e) => // Ek.
  exfalso; move: H2; rewrite Ek; case: Hg => [[r0 ->]|->] // [E]; by rewrite E in Hne.
- move=> k q; rewrite size_set // nth_set // EE => Hk; case: (k =P e) => // Hne E.
  have Eq := g_E' HG Hk E; case: (q =P p) => // Eqp; exfalso.
  case: Hg => [[r0 E0]|E0]; last first.
    by have := g_E' HG He E0; rewrite -Eqp Eq => -[E1]; case: Hne.
  have [jA [jB ETp]] := g_T' HG He E0.
  have HpT := dget_keys ETp.
  have : p \in ports c.
    case: (v_E HI) => [E2|[_ <-]]; first by rewrite E2 in Eq.
    by rewrite -Eqp; exact: (dget_keys Eq).
  rewrite (v_fp HI) /free /used !mem_cat => /andP[_].
  by rewrite -/(dkeys (nterm N)) -(v_T HI) HpT !orbT.
- move=> w; rewrite Ez Ew; split=> [H|H h].
    by apply/(g_K HG) => h Hh; apply: H; apply/K_set.
  by move/K_set => Hh; apply: (iffRL (g_K HG w) H); apply: Hh.
Qed.

Lemma dset_id (T : eqType) (V : Type) (d : seq (T * V)) k v : dget d k = Some v -> dset d k v = d.
Proof. by elim: d => //= -[k' v'] d IH /=; case: eqP => [_ [->]|_ /IH ->]. Qed.

Lemma upd2_row ws (G : seq (gr C)) e t x g : uniq ws -> t \in ws -> (e < size G)%N ->
  {in ws, coef g =1 fupd (coef (nth (g0 C) G e)) t x} ->
  upd2 (map (render ws) G) e (seq.index t ws) x = map (render ws) (set_nth (g0 C) G e g).
Proof.
move=> Hu Ht He H; rewrite /upd2 (map_set_nth _ _ [::]) // (nth_map (g0 C)) //.
by rewrite (render_upd Hu Ht H).
Qed.

Lemma T_not_port c N p : Inv c N -> p \in dkeys (dT c) -> p \notin ports c.
Proof.
move=> HI Hp; rewrite (v_fp HI) /free /used !mem_cat -/(dkeys (nterm N)) -(v_T HI) Hp.
by rewrite !orbT andbF.
Qed.

Lemma E_port c N p e : Inv c N -> dget (dE c) p = Some e -> p \in ports c.
Proof.
move=> HI Hp; case: (v_E HI) => [E|[_ <-]]; first by rewrite E in Hp.
exact: (dget_keys Hp).
Qed.

Lemma rem_mem_uniq (T : eqType) (s : seq T) x y : uniq s -> (y \in rem x s) = (y != x) && (y \in s).
Proof. by move=> H; rewrite mem_rem_uniq. Qed.

Lemma T_mem (d : seq (string * (nat * nat * nat))) (d' : seq (string * load C)) p x l :
  dkeys d =i dkeys d' -> dkeys (dset d p x) =i dkeys (dset d' p l).
Proof.
move=> H q; rewrite !dkeys_dset -(H p); case: ifP => _; first exact: H.
by rewrite !mem_rcons !inE H.
Qed.

Lemma uniq_dset (T : eqType) (V : Type) (d : seq (T * V)) k v :
  uniq (dkeys d) -> uniq (dkeys (dset d k v)).
Proof. by move=> H; rewrite dkeys_dset; case: ifP => Hk //; rewrite rcons_uniq Hk. Qed.

Lemma used_term N p l q :
  (q \in used (Net (nblk N) (njoin N) (dset (nterm N) p l) (ndi N) (nde N)))
  = (q \in used N) || (q == p).
Proof.
rewrite /used /= !mem_cat.
have -> : (q \in [seq i.1 | i <- dset (nterm N) p l]) = (q \in dkeys (nterm N)) || (q == p).
  rewrite -/(dkeys _) dkeys_dset; case: ifP => H; last by rewrite mem_rcons inE orbC.
  by case: eqP => [->|]; rewrite ?orbF ?H.
by rewrite -/(dkeys _); case: (q == p); rewrite ?orbT ?orbF.
Qed.

Lemma term_us c N p l : Inv c N -> p \in nodes N ->
  {subset used (Net (nblk N) (njoin N) (dset (nterm N) p l) (ndi N) (nde N)) <=
   nodes (Net (nblk N) (njoin N) (dset (nterm N) p l) (ndi N) (nde N))}.
Proof. by move=> HI Hp q; rewrite used_term => /orP[/(v_us HI)|/eqP ->]. Qed.

(** adding an equation row *)
Lemma nth_rcons_gr (G : seq (gr C)) g k : (k < size (rcons G g))%N ->
  nth (g0 C) (rcons G g) k = if k == size G then g else nth (g0 C) G k.
Proof.
rewrite size_rcons ltnS nth_rcons => Hk; case: ltnP => [Hk'|Hk'].
  by case: eqP => // E; rewrite E ltnn in Hk'.
by case: eqP => // E; exfalso; apply: E; apply/eqP; rewrite eqn_leq Hk Hk'.
Qed.

Lemma add_T_row c N (G : seq (gr C)) p (kw : seq (string * C)) (rho : C) c' : Inv c N -> Ginv c N G ->
  p \in ports c -> dE c = [::] ->
  load_rho (zb c) (load_of kw) rho ->
  zb c' = zb c -> waves c' = waves c -> blocks c' = blocks c ->
  mM c' = map (render (waves c)) (rcons G (GT p rho)) ->
  dT c' = dset (dT c) p (seq.index (fwd p) (waves c), seq.index (bwd p) (waves c), size G) ->
  dE c' = dE c ->
  Ginv c' (net_step N (@OTerm C F Fl K p kw)) (rcons G (GT p rho)).
Proof.
move=> HI HG Hp HE Hl Ez Ew Ebl EM ET EE.
have Hf : fwd p \in waves c by rewrite (fwd_wave _ HI) (port_node HI).
have Hb : bwd p \in waves c by rewrite (bwd_wave _ HI) (port_node HI).
have HpT : p \notin dkeys (dT c).
  by apply/negP => /(T_not_port HI); rewrite Hp.
have Hlt k : (k < size G)%N -> (k < size (rcons G (GT p rho)))%N /\ (k == size G) = false.
  by move=> H; rewrite size_rcons ltnS ltnW // ltn_eqF.
have Hin h : List.In h (rcons G (GT p rho)) <-> List.In h G \/ h = GT p rho.
  rewrite -cats1 List.in_app_iff /=; split=> -[]; auto; by case; auto.
have Hne k : (k < size (rcons G (GT p rho)))%N -> k <> size G -> (k < size G)%N.
  by rewrite size_rcons ltnS leq_eqVlt => /orP[/eqP|].
split.
- by rewrite EM Ew.
- move=> g /Hin [Hg|->] s; rewrite Ew; first exact: (g_supp HG).
  move=> Hs /=; case: eqP => [E|_]; first by rewrite E Hb in Hs.
  by case: eqP => // E; rewrite E Hf in Hs.
- move=> nm b; rewrite Ebl Ew => Eb; have [H1 H2 H3] := g_blk HG Eb.
  split=> //; first by rewrite size_rcons leqW.
  move=> k Hk; have [x Hx E] := H3 k Hk; exists x => //.
  have Hk' : ((bloc b).1 + k < size G)%N by apply: leq_trans H2; rewrite ltn_add2l.
  by have [Ha Hb'] := Hlt _ Hk'; rewrite nth_rcons_gr // Hb'.
- move=> k nm ps j x Hk; rewrite nth_rcons_gr // Ebl.
  by case: eqP => // Hk'; apply: (g_blk' HG); apply: Hne.
- move=> q jA jB k; rewrite ET dget_dset Ew /=.
  case: (q =P p) => [->|Hqp]; last first.
    move=> Eq; have [[H0 H1 HA HB He] [r [ld [H2 H3 H4]]]] := g_T HG Eq.
    have [Hk1 Hk2] := Hlt _ He.
    by split=> //; exists r, ld; rewrite nth_rcons_gr // Hk2 dget_dset Ez; case: (q =P p).
  case=> <- <- <-; rewrite size_rcons; split=> //; exists rho, (load_of kw).
  by rewrite nth_rcons_gr ?size_rcons // eqxx dget_dset eqxx Ez.
- move=> k q r Hk; rewrite nth_rcons_gr // ET dget_dset.
  case: (k =P size G) => [-> [<- _]|Hk' E]; first by rewrite eqxx; eexists; eexists.
  have [jA [jB Eq]] := g_T' HG (Hne _ Hk Hk') E; case: (q =P p) => [Eqp|_]; last by exists jA, jB.
  by move: HpT; rewrite -Eqp (dget_keys Eq).
- by move=> q k; rewrite EE HE.
- move=> k q Hk; rewrite nth_rcons_gr //; case: eqP => // Hk' E.
  by rewrite EE; apply: (g_E' HG) => //; apply: Hne.
- move=> w; rewrite Ez Ew; split=> [H|H h].
    by apply/(g_K HG) => h Hh; apply: H; apply/Hin; left.
  by move/Hin => [Hh|//]; apply: (iffRL (g_K HG w) H).
Qed.

Theorem terminate_inv c N p kw c' : Inv c N -> terminate c p kw = (c', Ok tt) ->
  Inv c' (net_step N (@OTerm C F Fl K p kw)).
Proof.
move=> HI; rewrite /terminate; case Er: (rho_of (zb c) kw) => [rho|//].
have Hl := load_rhoP (v_zb HI) Er.
have [G HG] := v_G HI.
have HM := g_M HG.
case ET: (dget (dT c) p) => [[[iA iB] e]|].
  (* the load is changed *)
  have HpT := dget_keys ET; have Hnp := T_not_port HI HpT.
  have [[Hf Hb EA EB He] [r [ld [Hg _ _]]]] := g_T HG ET.
  have HEp : dget (dE c) p = None.
    by case EE: (dget (dE c) p) => [k|//]; rewrite (E_port HI EE) in Hnp.
  case=> <-.
  set c1 := with_cache _ _ _ _ _.
  have Hrow : mM c1 = map (render (waves c)) (set_nth (g0 C) G e (GT p rho)).
    rewrite /= HM EB; apply: upd2_row => //; first exact: (v_uw HI).
    by move=> s _; rewrite Hg; exact: coef_GT_upd.
  have HG' : Ginv c1 (net_step N (@OTerm C F Fl K p kw)) (set_nth (g0 C) G e (GT p rho)).
    apply: (@set_row c N G p kw rho iA iB e c1) => //.
    - by left; exists r.
    - by rewrite /= dset_id.
    - by move=> q /=; case: eqP => [->|].
  split=> //; try by case: HI.
  - by move=> q /=; rewrite free_term -(v_fp HI); case: eqP => [->|]; rewrite ?andbT // (negbTE Hnp).
  - by apply: (@term_us c N p _ HI); rewrite -(fwd_wave _ HI).
  - by apply: uniq_dset; exact: (v_uT HI).
  - rewrite -[dT c1](dset_id ET); exact: T_mem (v_T HI).
  - by rewrite Hrow size_map size_set //; have := v_cnt HI; rewrite HM size_map.
  - by exists (set_nth (g0 C) G e (GT p rho)).
case EE: (dget (dE c) p) => [e|].
  (* an excitation equation becomes a load equation *)
  have Hp := E_port HI EE.
  have Hf : fwd p \in waves c by rewrite (fwd_wave _ HI) (port_node HI).
  have Hb : bwd p \in waves c by rewrite (bwd_wave _ HI) (port_node HI).
  have [He Hg] := g_E HG EE.
  rewrite /lindex Hf Hb; set c1 := with_dicts _ _ _ _.
  have Hx : (size (ports c1) <= size (xpos c1))%N by exact: (v_xp HI).
  have [xs -> Hxs] := consume_ok (c := c1) Hp Hx.
  case=> <-; set c2 := uncache _.
  have HpT : p \notin dkeys (dT c) by apply/dget_None.
  have Hrow : mM c2 = map (render (waves c)) (set_nth (g0 C) G e (GT p rho)).
    rewrite /= HM (@upd2_row _ G e (fwd p) (-1) (GK (fupd (coef (GE p)) (fwd p) (-1)))) //;
      [|exact: (v_uw HI)|by move=> s _; rewrite Hg].
    rewrite (@upd2_row _ _ e (bwd p) rho (GT p rho)) ?size_set //; last 2 first.
    + exact: (v_uw HI).
    + by move=> s _; rewrite nth_set // eqxx /fupd /=; case: eqP => // _; case: eqP.
    congr map; apply: (@eq_from_nth _ (g0 C)); rewrite ?size_set // => k _.
    by rewrite !nth_set ?size_set //; case: eqP.
  have HG' : Ginv c2 (net_step N (@OTerm C F Fl K p kw)) (set_nth (g0 C) G e (GT p rho)).
    apply: (@set_row c N G p kw rho (seq.index (fwd p) (waves c)) (seq.index (bwd p) (waves c)) e c2) => //.
    - by right.
    - by move=> q /=; rewrite dget_ddel //; exact: (v_uE HI).
  split=> //; try by case: HI.
  - by rewrite /= rem_uniq ?(v_up HI).
  - move=> q; rewrite free_term -(v_fp HI) /= rem_mem_uniq 1?andbC //; exact: (v_up HI).
  - by rewrite /= dkeys_ddel rem_uniq // (v_uE HI).
  - right; case: (v_E HI) => [E0|[H1 H2]]; first by rewrite E0 in EE.
    split=> // q; rewrite /= dkeys_ddel !rem_mem_uniq ?(v_uE HI) ?(v_up HI) //.
    by rewrite H2.
  - by apply: (@term_us c N p _ HI); rewrite -(fwd_wave _ HI).
  - by apply: uniq_dset; exact: (v_uT HI).
  - exact: T_mem (v_T HI).
  - rewrite /= !size_set_nth.
    have He' : (e < size (mM c))%N by rewrite HM size_map.
    rewrite !(maxn_idPr _) // ?size_set_nth ?(maxn_idPr _) //.
    have := v_cnt HI; have Hpp : (0 < size (ports c))%N by case: (ports c) Hp.
    have Hdd := dget_keys EE.
    have : (0 < size (dE c))%N by case: (dE c) Hdd.
    rewrite size_rem // size_ddel //.
    by move: (size _) (size _) (size _) (nc c) Hpp; lia.
  - by exists (set_nth (g0 C) G e (GT p rho)).
(* a new load *)
case Hp: (p \in ports c); last by rewrite consume_ko // Hp.
have [xs -> Hxs] := consume_ok Hp (v_xp HI).
have HE : dE c = [::].
  case: (v_E HI) => // -[_ H]; move: Hp; rewrite -H => /dget_mem [e]; by rewrite EE.
have Hf : fwd p \in waves c by rewrite (fwd_wave _ HI) (port_node HI).
have Hb : bwd p \in waves c by rewrite (bwd_wave _ HI) (port_node HI).
rewrite /= /lindex Hf Hb; case=> <-; set c2 := uncache _.
have Hs : size (mM c) = size G by rewrite HM size_map.
have Hrow : mM c2 = map (render (waves c)) (rcons G (GT p rho)).
  rewrite /= HM (v_nc HI) zrow_render.
  have -> : map (render (waves c)) G ++ [:: render (waves c) (GK (fun=> 0))]
          = map (render (waves c)) (rcons G (GK (fun=> 0))) by rewrite map_rcons cats1.
  rewrite size_map.
  have Hlt (g : gr C) : (size G < size (rcons G g))%N by rewrite size_rcons.
  rewrite (@upd2_row _ _ (size G) (fwd p) (-1) (GK (fupd (fun=> 0) (fwd p) (-1)))) //;
      [|exact: (v_uw HI)|by move=> s _; rewrite nth_rcons ltnn eqxx].
  have Eset (g h : gr C) : set_nth (g0 C) (rcons G g) (size G) h = rcons G h.
    apply: (@eq_from_nth _ (g0 C)); first by rewrite size_set // !size_rcons.
    move=> k _; rewrite nth_set // !nth_rcons; case: (ltnP k (size G)) => H.
      by rewrite ltn_eqF.
    by case: eqP.
  rewrite Eset (@upd2_row _ _ (size G) (bwd p) rho (GT p rho)) ?Eset //; first exact: (v_uw HI).
  by move=> s _; rewrite nth_rcons ltnn eqxx /fupd /=; case: eqP => // _; case: eqP.
have HG' : Ginv c2 (net_step N (@OTerm C F Fl K p kw)) (rcons G (GT p rho)).
  by apply: (@add_T_row c) => //=; rewrite Hs.
split=> //; try by case: HI.
- by rewrite /= rem_uniq ?(v_up HI).
- move=> q; rewrite free_term -(v_fp HI) /= rem_mem_uniq 1?andbC //; exact: (v_up HI).
- by left.
- by apply: (@term_us c N p _ HI); rewrite -(fwd_wave _ HI).
- by apply: uniq_dset; exact: (v_uT HI).
- exact: T_mem (v_T HI).
- rewrite -/c2 Hrow size_map size_rcons /= size_rem // HE /=.
  have := v_cnt HI; rewrite HE Hs /=.
  have Hpp : (0 < size (ports c))%N by case: (ports c) Hp.
  by move: (size _) (size _) (nc c) Hpp; lia.
- by exists (rcons G (GT p rho)).
Qed.

End Term.

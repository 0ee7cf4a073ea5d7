(** C12 (returns iff), C15, C16, C17, C19, C20, C21. *)
From mathcomp Require Import all_ssreflect all_algebra.
From mathcomp Require Import zify.
From mathcomp.algebra_tactics Require Import ring.
From Coq Require Import String Ascii Permutation.
From Coq Require List.
From Verif Require Import Base MxLib ConvModel ConvSpec ConvProofs ConvArr CircModel CircSpec CircLib CircInv CircTerm CircApp CircConn CircAdd CircDe CircFill CircSolve CircExt CircHist CircGet CircMain CircOrd CircThm CircThm2.
Set Implicit Arguments.
Unset Strict Implicit.
Unset Printing Implicit Defensive.
Import GRing.Theory Num.Theory.
Local Open Scope ring_scope.
Local Open Scope seq_scope.

Section Thm3.
Variable C : numClosedFieldType.
Variables F Fl : eqType.
Variable K : vcls C F Fl.
Variable nan : C.
Variable getpos : circ K -> string -> res C.
Notation circ := (circ K).
Notation net := (net K).
Notation op := (op K).
Notation reach := (reach nan getpos).
Notation exec := (exec nan getpos).
Notation run := (run nan getpos).
Implicit Types (c : circ) (N : net) (h : seq (event K)).

(** ** extending a history *)
Lemma past_cat N g h h' : past_from N g (h ++ h') =
  past_from (foldl (@net_step C F Fl K) N (map fst h)) (past_from N g h) h'.
Proof. by elim: h N g => //= e h IH N g; rewrite IH. Qed.

Lemma hist_ok_cat N g h h' : hist_ok_from N g (h ++ h') <->
  hist_ok_from N g h /\
  hist_ok_from (foldl (@net_step C F Fl K) N (map fst h)) (past_from N g h) h'.
Proof.
elim: h N g => [|e h IH] N g /=; first by split=> [|[]].
by rewrite IH; split=> [[H [H1 H2]]|[[H H1] H2]].
Qed.

Lemma run_cat c h h' : run c (h ++ h') = if run c h is Some c1 then run c1 h' else None.
Proof. by elim: h c => //= -[o ok] h IH c; case: ifP. Qed.

Lemma reach_snoc z ns h c o ok c' : reach z ns h c -> ev_ok (net_hist h) (past_of h) (o, ok) ->
  exec c o = (c', ok) -> reach z ns (rcons h (o, ok)) c'.
Proof.
case=> Hz Hh Hr He Hx; split=> //; rewrite -cats1.
  by apply/hist_ok_cat; split=> //; split.
by rewrite run_cat Hr /CircHist.run Hx /= eqxx.
Qed.

Lemma net_rcons h o ok : net_hist (rcons h (o, ok)) = net_step (net_hist h) o :> net.
Proof. by rewrite /net_hist /net_of map_rcons -cats1 foldl_cat. Qed.

Lemma past_rcons h e : past_of (rcons h e) = past_step (net_hist h) (past_of h) e :> past F Fl.
Proof. by rewrite /past_of -cats1 past_cat. Qed.

(** ** C12: when it returns *)
Lemma posed_excl z N f fl : well_posed z N f fl -> ill_posed z N f fl -> False.
Proof. by case=> H _ [/H]. Qed.

Lemma thm_C12_iff z ns h c f z' fl : reach z ns h c -> may_ask h f fl ->
  (forall e, ~ blk_raises (net_hist h) z f fl e) ->
  (ns = [::] \/ perm_eq ns (ports c)) -> (exists p, free (net_hist h) p) ->
  let r := (get1S f z' [::] fl c).2 in
  ((exists S, r = Ok S) <->
     well_posed z (net_hist h) f fl /\ (z' = 0 \/ exists S', net_S z z' (net_hist h) f fl (ports c) S')) /\
  ((forall S, r <> Ok S) <-> r = Raise LinAlgError).
Proof.
move=> Hr Hm Hb Hns [p Hp] r.
have HC := reach_CI Hr; have HI := ci_inv HC.
case E: (get1S f z' [::] fl c) => [c' r'].
have Er : r = r' by rewrite /r E.
have [Hz _ _] := Hr.
have := thm_C12 Hr Hm E; rewrite Er; case: r' {Er r} E => [S|e] E.
  case=> H1 H2; split; last by split=> // H; case: (H S).
  split=> [_|_]; last by exists S.
  split=> //; case: (z' =P 0) => [->|/eqP Hz']; [by left|right].
  have [D P _ _] := get1S_CI HC Hm E.
  have [|S' [HS' _]] := net_S_perm (v_up (ci_inv D)) (v_up HI) _ H1; first by move=> q; rewrite P.
  by exists S'; move: HS'; rewrite /zreq (negbTE Hz').
case=> [/Hb //|[_ H1 H2]|H|[-> H]].
- by case: Hns => [/H1 //|]; rewrite (negbTE H2).
- by have := H p; rewrite Hp.
split; last by split.
split=> [[S //]|[Hw Hs]]; exfalso; case: H => [/(posed_excl Hw) //|[Hz' Hn]].
case: Hs => [E0|Hs]; first by rewrite E0 eqxx in Hz'.
apply: (Hn _ (v_up HI)) Hs => q; exact: (v_fp HI).
Qed.

(** ** C15 *)
Lemma term_same c p kw kw' : rho_of (zb c) kw = rho_of (zb c) kw' ->
  terminate c p kw = terminate c p kw'.
Proof. by rewrite /terminate => ->. Qed.

Lemma thm_C15_ZRC c p Z : Z + zb c != 0 ->
  terminate c p [:: ("Z", Z)] = terminate c p [:: ("RC", (Z - zb c) / (Z + zb c))].
Proof. by move=> H; apply: term_same; rewrite /rho_of /= (negbTE H). Qed.

Lemma thm_C15_ZY c p Z : Z != 0 ->
  terminate c p [:: ("Z", Z)] = terminate c p [:: ("Y", Z^-1)].
Proof.
move=> HZ; apply: term_same; rewrite /rho_of /=.
have E : 1 + Z^-1 * zb c = (Z + zb c) / Z by field.
case: (Z + zb c =P 0) => [E0|/eqP H0]; first by rewrite E E0 mul0r eqxx.
have H1 : 1 + Z^-1 * zb c != 0 by rewrite E mulf_neq0 ?invr_eq0.
rewrite (negbTE H1) /=; congr Ok; by field; rewrite HZ H0.
Qed.

Lemma thm_C15_none c p : terminate c p [::] = terminate c p [:: ("RC", 0)].
Proof. exact: term_same. Qed.

Lemma thm_C15_reject c p kw :
  (1 < size kw)%N \/ (exists k v, kw = [:: (k, v)] /\ k \notin [:: "Z"; "Y"; "RC"]) ->
  terminate c p kw = (c, Raise ValueError).
Proof.
rewrite /terminate /rho_of => -[-> //|[k [v [->]]]].
rewrite !inE !negb_or => /and3P[/negbTE H1 /negbTE H2 /negbTE H3] /=.
by rewrite ![_ == k]eq_sym H1 H2 H3.
Qed.

(** every load of the network is an equation of the circuit *)
Lemma load_row z ns h c p ld : reach z ns h c -> dget (nterm (net_hist h)) p = Some ld ->
  exists2 r, List.In r (mM c) &
    forall w, row_holds (waves c) r w <-> load_law z ld (V_of w p) (I_of z w p).
Proof.
move=> Hr Hp; have HC := reach_CI Hr; have HI := ci_inv HC; have [G HG] := v_G HI.
have : p \in dkeys (dT c) by rewrite (v_T HI) (dget_keys Hp).
rewrite -dhasE /dhas; case Ed: (dget (dT c) p) => [[[iA iB] e]|//] _.
have [[Hf Hb _ _ He] [rho [ld' [Hn Hd Hl]]]] := g_T HG Ed.
have El : ld' = ld by move: Hd; rewrite Hp => -[].
rewrite El (ci_z HC) in Hl.
exists (render (waves c) (GT p rho)).
  rewrite (g_M HG); apply: List.in_map; apply/In_nth; exists e => //.
move=> w.
have -> : row_holds (waves c) (render (waves c) (GT p rho)) w <->
          rsum (waves c) (coef (GT p rho)) w = 0 by exact: (row_holds_render _ (coef (GT p rho))).
rewrite (rsum_GT _ _ (v_uw HI) Hf Hb) /V_of /I_of.
rewrite Hl; split=> [/eqP|->]; last by rewrite subrr.
by rewrite subr_eq0 => /eqP.
Qed.

Lemma term_ok z ns h c p kw rho : reach z ns h c -> free (net_hist h) p ->
  rho_of z kw = Ok rho -> exists c', terminate c p kw = (c', Ok tt).
Proof.
move=> Hr Hp Hrho; have HC := reach_CI Hr; have HI := ci_inv HC.
have Hpp : p \in ports c by rewrite (v_fp HI).
have Hn : p \in nodes (net_hist h) by case/andP: Hp.
rewrite /terminate (ci_z HC) Hrho.
have Hnd : dget (dT c) p = None.
  by apply/dget_None; apply: contraL Hpp => /(T_not_port HI).
rewrite Hnd.
case EE: (dget (dE c) p) => [e|].
  rewrite /lindex (fwd_wave _ HI) (bwd_wave _ HI) Hn.
  set c1 := with_dicts _ _ _ _.
  have [|xs -> _] := @consume_ok _ _ _ _ c1 p Hpp; first exact: (v_xp HI).
  by eexists.
have [|xs -> _] := @consume_ok _ _ _ _ c p Hpp; first exact: (v_xp HI).
by rewrite /= /lindex (fwd_wave _ HI) (bwd_wave _ HI) Hn; eexists.
Qed.

(** terminating a loaded port again *)
Lemma reterm_ok z ns h c p kw rho : reach z ns h c -> p \in dkeys (nterm (net_hist h)) ->
  rho_of z kw = Ok rho -> exists c', terminate c p kw = (c', Ok tt).
Proof.
move=> Hr Hp Hrho; have HC := reach_CI Hr; have HI := ci_inv HC.
rewrite /terminate (ci_z HC) Hrho.
move: Hp; rewrite -(v_T HI) -dhasE /dhas; case: (dget _ _) => [[[iA iB] e]|//] _.
by eexists.
Qed.

(** a port that is neither free nor loaded cannot be terminated *)
Lemma term_other z ns h c p kw : reach z ns h c -> free (net_hist h) p = false ->
  p \notin dkeys (nterm (net_hist h)) -> exists e, terminate c p kw = (c, Raise e).
Proof.
move=> Hr Hp Hnt; have HC := reach_CI Hr; have HI := ci_inv HC.
have Hpp : p \notin ports c by rewrite (v_fp HI) Hp.
rewrite /terminate; case: (rho_of _ _) => [rho|e]; last by exists e.
move: Hnt; rewrite -(v_T HI) => /dget_None ->.
case EE: (dget (dE c) p) => [e|].
  by have := E_port HI EE; rewrite (negbTE Hpp).
by rewrite consume_ko //; exists ValueError.
Qed.

Lemma thm_C15_law z ns h c p kw c' : reach z ns h c -> terminate c p kw = (c', Ok tt) ->
  (exists2 r, List.In r (mM c') &
    forall w, row_holds (waves c') r w <-> load_law z (load_of kw) (V_of w p) (I_of z w p)) /\
  (forall q, (q \in ports c') = (q \in ports c) && (q != p)).
Proof.
move=> Hr Ht.
have Hr' : reach z ns (rcons h (OTerm K p kw, true)) c'.
  by apply: (reach_snoc Hr) => //=; rewrite Ht.
split.
  by apply: (load_row Hr'); rewrite net_rcons /= dget_dset eqxx.
move=> q; rewrite (v_fp (ci_inv (reach_CI Hr'))) (v_fp (ci_inv (reach_CI Hr))) net_rcons.
exact: free_term.
Qed.

(** ** C16 *)
Definition only_getS h := all (fun e : event K => if e.1 is OGetS _ _ _ then true else false) h.

Lemma build_cat h h' : build_only (h ++ h') = build_only h ++ build_only h' :> seq op.
Proof. by rewrite /build_only filter_cat map_cat. Qed.

Lemma build_getS h : only_getS h -> build_only h = [::] :> seq op.
Proof. by elim: h => //= -[[nm ob pa x|ps|p kw|ints exts|f z' fl] ok] h IH //= /IH; rewrite /build_only /= => ->. Qed.

Lemma thm_C16 z ns a gets b p kw c1 c2 f z' fl c1' c2' S1 S2 :
  only_getS gets -> free (net_hist a) p ->
  reach z ns (a ++ gets ++ (OTerm K p kw, true) :: b) c1 ->
  reach z ns (a ++ (OTerm K p kw, true) :: b) c2 ->
  may_ask (a ++ gets ++ (OTerm K p kw, true) :: b) f fl ->
  may_ask (a ++ (OTerm K p kw, true) :: b) f fl ->
  get1S f z' [::] fl c1 = (c1', Ok S1) -> get1S f z' [::] fl c2 = (c2', Ok S2) ->
  S1 = S2 /\ ports c1' = ports c2'.
Proof.
move=> Hg _ H1 H2 M1 M2 G1 G2; apply: (thm_C18 H1 H2 _ M1 M2 G1 G2).
by rewrite !build_cat (build_getS Hg).
Qed.

(** ** C17: a changed load and the cache *)
Lemma get_cached f z' fl c c' S : get1S f z' [::] fl c = (c', Ok S) ->
  exists S0, [/\ cS c' = Some S0, cf c' = Some f, cfl c' = Some fl & rebase z' (zb c') S0 = Ok S].
Proof.
rewrite /get1S; case: ifP => [_|].
  rewrite /solve_now; case: (loop _ _ _) => c1 [[]|e] //=.
  case: (extS c1) => c2 [S2|e] //=; case=> <- H; by exists S2.
move/negbT; rewrite !negb_or !negbK => /andP[/andP[/eqP E1 Hs] /eqP E2].
by case ES: (cS c) Hs => [S0|//] _ /= [Ec H]; exists S0; rewrite -Ec ES -E1 -E2.
Qed.

Lemma thm_C17_stale f z' fl c c1 S p kw c2 z2 : p \in dkeys (dT c1) ->
  get1S f z' [::] fl c = (c1, Ok S) -> terminate c1 p kw = (c2, Ok tt) ->
  get1S f z' [::] fl c2 = (c2, Ok S) /\
  forall S2, get1S f z2 [::] fl c1 = (c1, Ok S2) -> get1S f z2 [::] fl c2 = (c2, Ok S2).
Proof.
move=> Hp /get_cached [S0 [E1 E2 E3 E4]] Ht.
have [Ez] := term_frame Ht; rewrite Hp => -[[T1 T2 T3 T4 T5] _].
have H z3 d : cS d = Some S0 -> cf d = Some f -> cfl d = Some fl -> zb d = zb c1 ->
    get1S f z3 [::] fl d = (d, rebase z3 (zb c1) S0).
  by move=> D1 D2 D3 D4; rewrite /get1S D1 D2 D3 !eqxx /= D4.
split; first by rewrite H ?T1 ?T2 ?T3 // E4.
by move=> S2; rewrite H // H ?T1 ?T2 ?T3 // => -[<-].
Qed.

(** ** C19 *)
Lemma dset_dset (T : eqType) (V : Type) (d : seq (T * V)) k v v' : dset (dset d k v) k v' = dset d k v'.
Proof.
elim: d => [|[k1 v1] d IH] /=; first by rewrite eqxx.
by case E: (k == k1) => /=; rewrite E // IH.
Qed.

Lemma dset_swap (T : eqType) (V : Type) (d : seq (T * V)) k v k' v' : k != k' -> k \in dkeys d ->
  dset (dset d k v) k' v' = dset (dset d k' v') k v.
Proof.
move=> Hk; have Hk' : (k' == k) = false by rewrite eq_sym; exact: negbTE.
elim: d => [|[k1 v1] d IH] //=; rewrite in_cons => Hin.
case: (k =P k1) Hin => [E|E] /= Hin.
  by rewrite -E Hk' /= eqxx.
case: (k' =P k1) => [E'|E'] /=; first by case: (k =P k1).
by case: (k =P k1) => // _; rewrite IH.
Qed.

Definition obj_of N nm (o : K) : net :=
  if dget (nblk N) nm is Some (ps, _) then
    Net (dset (nblk N) nm (ps, o)) (njoin N) (nterm N) (ndi N) (nde N) else N.

Lemma obj_nodes N nm o : nodes (obj_of N nm o) = nodes N.
Proof.
rewrite /obj_of; case Ed: (dget (nblk N) nm) => [[ps o0]|] //.
by rewrite /nodes /= (nodes_dset _ Ed).
Qed.

Definition touches (nm : string) (o : op) := if o is OAdd n _ _ _ then n == nm else false.

Lemma obj_step N nm o q : ~~ touches nm q ->
  net_step (obj_of N nm o) q = obj_of (net_step N q) nm o /\
  makes (obj_of N nm o) q = makes N q.
Proof.
move=> Hq; have Hnod := obj_nodes N nm o.
case: q Hq => [n ob pa x|ps|p kw|ints exts|f z' fl] Hq /=.
- have Hn : n != nm by [].
  rewrite /obj_of; case Ed: (dget (nblk N) nm) => [[ps o0]|] //=; last first.
    split=> //; case En: (dget (nblk N) n) => [[ps' o']|] /=.
      by rewrite dget_dset eq_sym (negbTE Hn) Ed.
    case: (resolve_ports _ _ _) => [ps'|e] /=; last by rewrite Ed.
    by rewrite dget_cat Ed /= eq_sym (negbTE Hn).
  have Hk : nm \in dkeys (nblk N) by exact: dget_keys Ed.
  rewrite dget_dset (negbTE Hn); split; last first.
    by rewrite dkeys_dset Hk.
  case En: (dget (nblk N) n) => [[ps' o']|] /=.
    by rewrite dget_dset eq_sym (negbTE Hn) Ed /= dset_swap // eq_sym.
  case: (resolve_ports _ _ _) => [ps'|e] /=; last by rewrite Ed.
  rewrite dget_cat Ed; congr Net.
  elim: (nblk N) Hk => //= -[n1 v1] d IH; rewrite in_cons.
  by case: (nm =P n1) => //= _ /IH ->.
- have E1 : [seq p <- ps | p \in nodes (obj_of N nm o)] = [seq p <- ps | p \in nodes N] by rewrite Hnod.
  have E2 : [seq p <- ps | p \notin nodes (obj_of N nm o)] = [seq p <- ps | p \notin nodes N] by rewrite Hnod.
  rewrite E1 E2; split=> //; rewrite /obj_of.
  by case: (dget _ _) => [[ps' o']|].
- by rewrite /obj_of /=; case: (dget _ _) => [[ps' o']|].
- by rewrite /obj_of /=; case: (dget _ _) => [[ps' o']|].
- by [].
Qed.

Lemma obj_steps N nm o os : all (fun q => ~~ touches nm q) os ->
  foldl (@net_step C F Fl K) (obj_of N nm o) os = obj_of (foldl (@net_step C F Fl K) N os) nm o /\
  made_ops (obj_of N nm o) os = made_ops N os.
Proof.
elim: os N => //= q os IH N /andP[Hq Hos].
have [-> ->] := obj_step N o Hq; have [-> ->] := IH (net_step N q) Hos; by [].
Qed.

Lemma obj_new N nm o1 o2 pa1 pa2 x1 x2 ps : nm \notin dkeys (nblk N) ->
  resolve_ports (osize o1) (oports o1) pa1 = Ok ps -> resolve_ports (osize o2) (oports o2) pa2 = Ok ps ->
  net_step N (@OAdd C F Fl K nm o2 pa2 x2) = obj_of (net_step N (@OAdd C F Fl K nm o1 pa1 x1)) nm o2 /\
  makes N (@OAdd C F Fl K nm o2 pa2 x2) = makes N (@OAdd C F Fl K nm o1 pa1 x1).
Proof.
move=> Hn H1 H2; split; last by rewrite /makes H1 H2.
move/dget_None: (Hn) => Ed; rewrite /= Ed H1 H2 /obj_of /= dget_cat Ed /= eqxx; congr Net.
elim: (nblk N) Hn {Ed} => [|[n1 v1] d IH] /=; first by rewrite eqxx.
by rewrite in_cons negb_or => /andP[/negbTE ->] /IH ->.
Qed.

Lemma made_cat N a b : made_ops N (a ++ b) = made_ops N a ++ made_ops (foldl (@net_step C F Fl K) N a) b.
Proof. by elim: a N => //= o a IH N; rewrite IH catA. Qed.

Lemma steps_cons N o os : foldl (@net_step C F Fl K) N (o :: os) = foldl (@net_step C F Fl K) (net_step N o) os.
Proof. by []. Qed.
Lemma made_cons N o os : made_ops N (o :: os) = makes N o ++ made_ops (net_step N o) os.
Proof. by []. Qed.
Lemma made_nil N : made_ops N [::] = [::].
Proof. by []. Qed.

Lemma thm_C19 z ns h1 h2 a b nm o1 o2 pa1 pa2 pa3 x1 x2 x3 ps c1 c2 f z' fl c1' c2' S1 S2 :
  nm \notin dkeys (nblk (net_of a)) -> all (fun q => ~~ touches nm q) b ->
  resolve_ports (osize o1) (oports o1) pa1 = Ok ps -> resolve_ports (osize o2) (oports o2) pa2 = Ok ps ->
  build_only h1 = a ++ OAdd nm o1 pa1 x1 :: b ++ [:: OAdd nm o2 pa3 x3] ->
  build_only h2 = a ++ OAdd nm o2 pa2 x2 :: b ->
  reach z ns h1 c1 -> reach z ns h2 c2 -> may_ask h1 f fl -> may_ask h2 f fl ->
  get1S f z' [::] fl c1 = (c1', Ok S1) -> get1S f z' [::] fl c2 = (c2', Ok S2) ->
  S1 = S2 /\ ports c1' = ports c2'.
Proof.
move=> Hn Hb R1 R2 B1 B2 H1 H2 M1 M2 G1 G2.
have [En Em] := obj_new x1 x2 Hn R1 R2.
set N1 := net_step (net_of a) (OAdd nm o1 pa1 x1) in En.
have [E1 E2] := obj_steps N1 o2 Hb.
have Hin : exists ps' o', dget (nblk (foldl (@net_step C F Fl K) N1 b)) nm = Some (ps', o').
  have : exists ps' o', dget (nblk N1) nm = Some (ps', o').
    move/dget_None: (Hn) => Ed; exists ps, o1.
    by rewrite /N1 /= Ed R1 /= dget_cat Ed /= eqxx.
  elim: b Hb (N1) {B1 B2 E1 E2} => //= q b IH /andP[Hq Hb] N2 HN; apply: IH => //.
  rewrite blk_after //; by case: (q) Hq.
have Enet : net_hist h1 = net_hist h2.
  rewrite !net_build B1 B2 /net_of !foldl_cat -/(net_of a) !steps_cons En E1 foldl_cat -/N1.
  set M := foldl _ N1 b in Hin *; have [ps' [o' Ed]] := Hin.
  by rewrite /= /obj_of Ed.
have Emade : made h1 = made h2.
  rewrite !made_build B1 B2 !made_cat !made_cons -/(net_of a) made_cat Em En E2 -/N1 made_cons made_nil.
  set M := foldl _ N1 b in Hin *; have [ps' [o' Ed]] := Hin.
  have -> : makes M (OAdd nm o2 pa3 x3) = [::] by rewrite /makes (dget_keys Ed).
  by rewrite !cats0.
have Ep : ports c1' = ports c2' by rewrite (thm_C14 H1 M1 G1) (thm_C14 H2 M2 G2) Emade Enet.
split=> //; have [S1' _] := thm_C12 H1 M1 G1; have [S2' _] := thm_C12 H2 M2 G2.
have [Hz _ _] := H1; rewrite -Ep -Enet in S2'.
apply: (net_S_unique _ S1' S2'); by rewrite /zreq; case: ifP => // /negbT.
Qed.

Lemma thm_C19_reject z ns h c nm ps o0 o pa x : reach z ns h c ->
  dget (nblk (net_hist h)) nm = Some (ps, o0) -> osize o != size ps ->
  addblock nan c nm o pa x = (uncache c, Raise (if "object" \in dkeys (nblk (net_hist h)) then ValueError else KeyError)).
Proof.
move=> Hr Hd Hs; have HI := ci_inv (reach_CI Hr).
have [b Hb [_ _ _ _ [Hsz _]]] := Forall2_dget' (v_blk HI) Hd.
rewrite /addblock (negbTE (v_nb HI (dget_keys Hd))) /= Hb Hsz Hs.
by rewrite dhasE (blk_keys HI).
Qed.

(** ** C20 *)
Lemma thm_C20_term z ns h c p kw c' e : reach z ns h c ->
  terminate c p kw = (c', Raise e) -> c' = c.
Proof.
move=> Hr Ht; have [Hz _ _] := Hr.
case Erho: (rho_of z kw) => [rho|e'].
  case Ef: (free (net_hist h) p).
    by have [c2 E] := term_ok Hr Ef Erho; rewrite E in Ht.
  have [Hl|Hl] : p \in dkeys (nterm (net_hist h)) \/ (p \in dkeys (nterm (net_hist h))) = false by case: (_ \in _); auto.
    by have [c2 E] := reterm_ok Hr Hl Erho; rewrite E in Ht.
  by have [|e2 E] := @term_other z ns h c p kw Hr Ef; [rewrite Hl|rewrite E in Ht; case: Ht].
by move: Ht; rewrite /terminate (ci_z (reach_CI Hr)) Erho => -[].
Qed.

Lemma thm_C20_add c nm o pa x c' e : addblock nan c nm o pa x = (c', Raise e) -> c' = uncache c.
Proof.
rewrite /addblock; case: ifP => [_ [] //|_]; case: (dget _ _) => [b|].
  by case: ifP => // _ [].
by rewrite /addblock_new; case: (resolve_ports _ _ _) => // e' [].
Qed.

Lemma inv_uncache c N : Inv c N -> Inv (uncache c) N.
Proof.
move=> HI; have [G HG] := v_G HI; split; try by case: HI.
by exists G; apply: (ginv_same HG).
Qed.

(** forgetting the cached result does not change what the circuit is *)
Lemma thm_C20_uncache z ns h c f z' fl c1 c2 S1 S2 : reach z ns h c -> may_ask h f fl ->
  get1S f z' [::] fl c = (c1, Ok S1) -> get1S f z' [::] fl (uncache c) = (c2, Ok S2) ->
  S1 = S2 /\ ports c1 = ports c2.
Proof.
move=> Hr Hm G1 G2; have HC := reach_CI Hr; have [Hz _ _] := Hr.
have HC' : CI z (uncache c) (net_hist h) (past_of h).
  case: HC => HI Ez Hb _; split=> //; first exact: inv_uncache.
  by move=> Ht; case: (Hb Ht).
have [_ _ _ [S1' _ _ [P1 _] _]] := get1S_CI HC Hm G1.
have [_ _ _ [S2' _ _ [P2 _] _]] := get1S_CI HC' Hm G2.
have Ep : ports c1 = ports c2 by rewrite P1 P2.
split=> //; rewrite -Ep in S2'; apply: (net_S_unique _ S1' S2').
by rewrite /zreq; case: ifP => // /negbT.
Qed.

Lemma thm_C20_conn_early c ps : (1 < size (newports c ps))%N \/
  (exists p, newports c ps = [:: p] /\ has_char "."%char p) ->
  connect getpos c ps = (c, Raise ValueError).
Proof. by rewrite /connect => -[-> //|[p [-> ->]]]. Qed.

(** connecting a free port with a port that is in use loses the free port *)
Lemma thm_C20_conn_refuted z ns h c p q : reach z ns h c -> free (net_hist h) p ->
  q \in nodes (net_hist h) -> free (net_hist h) q = false ->
  exists c', [/\ connect getpos c [:: p; q] = (c', Raise ValueError), p \in ports c &
                 ports c' = rem p (ports c)].
Proof.
move=> Hr Hp Hq Hnq; have HI := ci_inv (reach_CI Hr).
have Hpp : p \in ports c by rewrite (v_fp HI).
have Hqp : q \notin ports c by rewrite (v_fp HI) Hnq.
have Hpn : p \in nodes (net_hist h) by case/andP: Hp.
have En : newports c [:: p; q] = [::] by rewrite /newports /= !(fwd_wave _ HI) Hpn Hq.
rewrite /connect En /= /lindex !(fwd_wave _ HI) !(bwd_wave _ HI) Hpn Hq /=.
have [xs -> _] := consume_ok Hpp (v_xp HI).
rewrite /= consume_ko /=; last by rewrite /=; apply: contra Hqp; exact: mem_rem.
by eexists.
Qed.

Lemma thm_C20_deembed_refuted c dp ip : ip \notin ports c -> dp \notin ports c -> dp != ip ->
  exists c', deembed c [:: (dp, ip)] [::] = (c', Raise ValueError) /\ ports c' = rcons (ports c) ip.
Proof.
move=> Hi Hd Hne; rewrite /deembed /= (negbTE Hi) /= mem_cat inE (negbTE Hd) (negbTE Hne) /=.
by eexists; split=> //=; rewrite cats1.
Qed.

(** ** C21 *)
Lemma loop_addE_size c ps c' : loop (@add_E C F Fl K) c ps = (c', Ok tt) ->
  (size (mM c') = size (mM c) + size ps)%N /\ nc c' = nc c.
Proof.
elim: ps c => [|p ps IH] c /=; first by case=> <-; rewrite addn0.
case Ea: (add_E c p) => [c1 [[]|e]] //= /IH [-> ->]; move: Ea.
rewrite /add_E; case: (lindex (waves c) (fwd p)) => // i [<-] /=.
by rewrite size_cat /= addn1 addSnnS.
Qed.

Lemma not_square f z' fl c : cS c = None -> pn c = PAlias -> size (mM c) <> nc c ->
  (size (mM c) + size (ports c) <> nc c)%N ->
  (forall c1 r, loop (fill1 f fl [::]) c (blocks c) = (c1, r) ->
     [/\ size (mM c1) = size (mM c), nc c1 = nc c, ports c1 = ports c & pn c1 = pn c]) ->
  exists e, (get1S f z' [::] fl c).2 = Raise e.
Proof.
move=> HcS Hpn H1 H2 Hfill; rewrite /get1S HcS orbT /solve_now.
case El: (loop _ c (blocks c)) => [c1 [[]|e]]; last by exists e.
have [F1 F2 F3 F4] := Hfill _ _ El; rewrite /= /extS.
case Ec: (close c1) => [c2 r2].
move: (Ec); rewrite /close F1 F2 F4 Hpn; case: eqP => // _; rewrite /=.
case: r2 Ec => [[]|e] Ec; last by exists e.
move/loop_addE_size; rewrite /= F1 F2 F3 => -[E1 E2].
case: (mapM _ _) => [iE|e]; last by exists e.
case: (mapM _ _) => [iA|e]; last by exists e.
case: (mapM _ _) => [iB|e]; last by exists e.
rewrite /inv_rows E1 E2; case: eqP => //; by exists LinAlgError.
Qed.

Lemma put_block_size (m : rows C) loc n (S : rows C) : (loc.1 + n <= size m)%N -> size S = n ->
  size (put_block m loc n S) = size m.
Proof.
move=> H E; rewrite /put_block !size_cat size_map size_zip !size_takel ?size_drop ?E; try lia.
Qed.

Lemma fill_size f fl c bs c' r :
  (forall nb, List.In nb bs -> ((bloc nb.2).1 + size (bports nb.2) <= size (mM c))%N) ->
  loop (fill1 f fl [::]) c bs = (c', r) ->
  [/\ size (mM c') = size (mM c), nc c' = nc c, ports c' = ports c, pn c' = pn c & dE c' = dE c].
Proof.
elim: bs c => [|[nm b] bs IH] c Hb /=; first by case=> <-.
have Hb0 := Hb (nm, b) (or_introl erefl); rewrite /= in Hb0.
case: (ogetS f (zb c) fl (bobj b)).2 => [Sm|e] /=; last by case=> <-.
case: ifP => [/andP[/eqP Hs _]|_] /=; last by case=> <-.
move/IH => [|-> -> -> -> ->] /=.
  by move=> nb Hn; rewrite put_block_size //; apply: Hb; right.
by rewrite put_block_size.
Qed.

Lemma In_keys (T : eqType) (V : Type) (d : seq (T * V)) k v : List.In (k, v) d -> k \in dkeys d.
Proof.
elim: d => //= -[k1 v1] d IH [[-> _]|/IH H]; first by rewrite mem_head.
by rewrite in_cons; apply/orP; right.
Qed.

Lemma blk_fit c N nb : Inv c N -> List.In nb (blocks c) ->
  ((bloc nb.2).1 + size (bports nb.2) <= size (mM c))%N.
Proof.
case: nb => nm b HI Hin; have [G HG] := v_G HI.
have Hg : dget (blocks c) nm = Some b by apply: In_dget => //; rewrite (blk_keys HI) (v_ub HI).
by have [_ H _] := g_blk HG Hg; rewrite (g_M HG) size_map.
Qed.

Lemma In_dset (T : eqType) (V : Type) (d : seq (T * V)) k v x : List.In x (dset d k v) ->
  List.In x d \/ x = (k, v).
Proof.
elim: d => [|[k1 v1] d IH] /=; first by case=> // <-; right.
case: eqP => [->|_] /=; first by case=> [<-|H]; [right|left; right].
by case=> [<-|/IH [H|H]]; [left; left|left; right|right].
Qed.

(** the circuit after a getS that returned *)
Lemma after_get z ns h c f z' fl c1 S1 : reach z ns h c -> may_ask h f fl ->
  get1S f z' [::] fl c = (c1, Ok S1) ->
  [/\ CI z c1 (net_hist h) (past_step (net_hist h) (past_of h) (@OGetS C F Fl K f z' fl, true)),
      closed c1 & ports c1 <> [::]].
Proof.
move=> Hr Hm G; have [D _ _ [_ _ Hne _ [S0 [iM [E1 _ _ _ _]]]]] := get1S_CI (reach_CI Hr) Hm G.
by have [Hc _ _] := ci_S D E1; split.
Qed.

Lemma thm_C21_add z ns h c f z' fl c1 S1 nm o pa x c2 f2 z2 fl2 : reach z ns h c -> may_ask h f fl ->
  get1S f z' [::] fl c = (c1, Ok S1) -> nm \notin dkeys (nblk (net_hist h)) -> (0 < osize o)%N ->
  addblock nan c1 nm o pa x = (c2, Ok tt) ->
  exists e, (get1S f2 z2 [::] fl2 c2).2 = Raise e.
Proof.
move=> Hr Hm G Hn Ho; have [D [Hpn Hk Hsq] Hne] := after_get Hr Hm G; have HI := ci_inv D.
rewrite /addblock; case: ifP => // _.
move: (Hn); rewrite -(blk_keys HI) => /dget_None Ed; rewrite [blocks (uncache c1)]/= Ed.
rewrite /addblock_new; case Er: (resolve_ports _ _ _) => [ops|//] [Ec2].
have Esz := resolve_size Er.
set m2 := (X in with_M _ _ X _) in Ec2; set es2 := (X in with_M _ _ _ X) in Ec2.
set w2 := (X in with_waves _ X) in Ec2; set x2 := (X in with_ports _ _ X) in Ec2.
have Em : size m2 = (size (mM c1) + osize o)%N by rewrite /m2 size_cat /= !size_map size_iota.
have Hp0 : (0 < size (ports c1))%N by case: (ports c1) Hne.
apply: not_square; try by rewrite -Ec2.
- by rewrite -Ec2 /= Em Hsq; lia.
- rewrite -Ec2 /= Em Hsq size_cat size_map Esz; lia.
- move=> c3 r El.
  suff [] : [/\ size (mM c3) = size (mM c2), nc c3 = nc c2, ports c3 = ports c2, pn c3 = pn c2 & dE c3 = dE c2] by [].
  apply: (@fill_size f2 fl2 c2 (blocks c2) c3 r _ El).
  rewrite -Ec2 /= Em => nb Hnb; case: (In_dset Hnb) => [Hin|E]; last by rewrite E /= Esz.
  by apply: leq_trans (blk_fit HI Hin) _; exact: leq_addr.
Qed.

Lemma rem_keep (T : eqType) (s : seq T) p q : q \in s -> q != p -> q \in rem p s.
Proof.
elim: s => //= x s IH; rewrite in_cons => /orP[/eqP ->|H] Hn.
  by rewrite (negbTE Hn) mem_head.
by case: ifP => _ //; rewrite in_cons IH ?orbT.
Qed.

Lemma consume_loop c ps c' : loop (@consume C F Fl K) c ps = (c', Ok tt) ->
  [/\ (size (ports c) = size (ports c') + size ps)%N, mM c' = mM c, nc c' = nc c,
      blocks c' = blocks c & pn c' = pn c] /\ waves c' = waves c /\ dE c' = dE c /\
  (forall p, p \in ports c -> p \notin ps -> p \in ports c').
Proof.
elim: ps c => [|p ps IH] c /=; first by case=> <-; rewrite addn0.
case E: (consume c p) => [c1 [[]|e]] //= /IH [[H1 H2 H3 H4 H5] [H6 [H7 H8]]].
move: E; rewrite /consume /lindex; case: ifP => // Hp.
rewrite lpop_index //; case: (lpop (xpos c) _) => // xs [Ec].
rewrite H2 H3 H4 H5 H6 H7 -Ec /=; split=> //.
  split=> //; have := H1; rewrite -Ec /= size_rem // => H.
  have : (0 < size (ports c))%N by case: (ports c) Hp.
  by move: H; move: (size (ports c)) (size (ports c')) (size ps) => i j k; lia.
split=> //; split=> // q Hq; rewrite in_cons negb_or => /andP[Hqp Hqs]; apply: H8 => //.
by rewrite -Ec /= -[_ \in _]/(q \in rem p (ports c)); apply: rem_keep.
Qed.

Lemma connect_sizes c ps c' : connect getpos c ps = (c', Ok tt) ->
  let news := newports c ps in let k := size [seq p <- ps | p \notin news] in
  [/\ (size (mM c') = size (mM c) + size ps)%N, (nc c' = nc c + 2 * size news)%N,
      (size (ports c') + k = size (ports c) + size news)%N,
      (size ps = size news + k)%N & [/\ blocks c' = blocks c, pn c' = pn c, dE c' = dE c, cS c' = None &
      (forall p, p \in news -> p \in ports c') /\ (size news <= 1)%N]].
Proof.
move=> H news k; move: H; rewrite /connect -/news; case: ifP => // Hn1; case: ifP => // _.
set olds := oldports c ps.
have Hl : forall (nw : seq string) d d', loop (fun c p => connect_new getpos c olds p) d nw = (d', Ok tt) ->
   [/\ mM d' = mM d, nc d' = nc d, blocks d' = blocks d, pn d' = pn d & dE d' = dE d] /\ ports d' = ports d ++ nw.
  elim=> [|p nw IH] d d' /=; first by case=> <-; rewrite cats0.
  case E: (connect_new getpos d olds p) => [d1 [[]|e]] //= /IH [[-> -> -> -> ->] ->].
  move: E; rewrite /connect_new; case: (olds) => // q l; case: (getpos _ _) => // x [<-] /=.
  by rewrite -catA.
case El: (loop _ c news) => [c1 [[]|e]] //=; have [[E1 E2 E3 E4 E5] E6] := Hl _ _ _ El.
case Ea: (mapM _ ps) => [iAs|] //; case Eb: (mapM _ ps) => [iBs|] //.
case Ek: (loop _ c1 _) => [c2 [[]|e]] //= [<-].
have [[K1 K2 K3 K4 K5] [K6 [K7 K8]]] := consume_loop Ek.
have Esz : size iAs = size ps by have [] := iffLR (mapM_Ok _ _ _) Ea.
have Ens : size ps = (size news + k)%N.
  rewrite /k !size_filter -(count_predC (fun p => p \in news)) /=; congr addn.
  rewrite /news /newports; apply: eq_in_count => p Hp.
  by rewrite mem_filter Hp andbT.
rewrite /= K2 K3 E1 E2 size_cat !size_map size_zip size_iota Esz minnn.
rewrite K4 K5 K7 E3 E4 E5; split=> //.
  by move: K1; rewrite E6 size_cat -/k => <-.
split=> //; split; last by rewrite leqNgt Hn1.
move=> p Hp; apply: K8; first by rewrite E6 mem_cat Hp orbT.
by rewrite mem_filter Hp.
Qed.

Lemma thm_C21_conn z ns h c f z' fl c1 S1 ps c2 f2 z2 fl2 : reach z ns h c -> may_ask h f fl ->
  get1S f z' [::] fl c = (c1, Ok S1) -> ps <> [::] ->
  connect getpos c1 ps = (c2, Ok tt) -> exists e, (get1S f2 z2 [::] fl2 c2).2 = Raise e.
Proof.
move=> Hr Hm G Hps Hc; have [D [Hpn Hk Hsq] Hne] := after_get Hr Hm G; have HI := ci_inv D.
have [E1 E2 E3 E4 [E5 E6 E7 E8 [E9 E10]]] := connect_sizes Hc.
set nw := newports c1 ps in E1 E2 E3 E4 E9 E10; set k := size _ in E3 E4.
have Hp0 : (0 < size (ports c1))%N by case: (ports c1) Hne.
have Hs0 : (0 < size ps)%N by case: (ps) Hps.
have Hfit : forall nb, List.In nb (blocks c2) -> ((bloc nb.2).1 + size (bports nb.2) <= size (mM c2))%N.
  by rewrite E5 E1 => nb Hnb; apply: leq_trans (blk_fit HI Hnb) _; exact: leq_addr.
case: (size (mM c2) =P nc c2) => [Esq|Hnsq]; last first.
  apply: not_square; rewrite ?E6 ?E8 //.
  - by rewrite E1 E2 Hsq; move: E3 E4 Hp0 Hs0; clear; move: (size _) (size _) (size _) (size _) (nc _) => *; lia.
  - move=> c3 r El; have [] := fill_size Hfit El; by rewrite E6.
have [p Hp] : exists p, p \in nw.
  move: Esq E4 Hs0; rewrite E1 E2 Hsq; case: (nw) => [|p l]; last by exists p; rewrite mem_head.
  by rewrite /= muln0 addn0 => H _ H'; exfalso; lia.
rewrite /get1S E8 orbT /solve_now.
case El: (loop _ c2 (blocks c2)) => [c3 [[]|e]]; last by exists e.
have [F1 F2 F3 F4 F5] := fill_size Hfit El.
rewrite /= /extS /close F1 F2 Esq eqxx /=.
have -> : mapM (dget_exn (dE c3)) (portnames c3) = Raise KeyError; last by exists KeyError.
have Hpp : p \in portnames c3 by rewrite /portnames F4 E6 Hpn F3; exact: E9.
have Hpd : dget (dE c3) p = None.
  rewrite F5 E7; apply/dget_None; rewrite Hk; apply/negP => /(port_node HI).
  by rewrite -(fwd_wave _ HI); move: Hp; rewrite mem_filter => /andP[/negbTE ->].
elim: (portnames c3) Hpp => //= q qs IH; rewrite in_cons => Hq.
case Eq: (dget_exn (dE c3) q) => [e|e] /=.
  case/orP: Hq => [/eqP E|/IH -> //]; by move: Eq; rewrite -E /dget_exn Hpd.
by move: Eq; rewrite /dget_exn; case: (dget _ _) => // -[<-].
Qed.
End Thm3.

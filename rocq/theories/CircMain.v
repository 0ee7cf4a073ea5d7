(** Every history of calls: what the circuit knows is the network it describes. *)
From mathcomp Require Import all_ssreflect all_algebra.
From mathcomp Require Import zify.
From Coq Require Import String Ascii.
From Coq Require List.
From Verif Require Import Base MxLib ConvModel ConvSpec ConvProofs ConvArr CircModel CircSpec CircLib CircInv CircTerm CircApp CircConn CircAdd CircDe CircFill CircSolve CircExt CircHist CircGet.
Set Implicit Arguments.
Unset Strict Implicit.
Unset Printing Implicit Defensive.
Import GRing.Theory Num.Theory.
Local Open Scope ring_scope.
Local Open Scope seq_scope.

Section Main.
Variable C : numClosedFieldType.
Variables F Fl : eqType.
Variable K : vcls C F Fl.
Variable nan : C.
Variable getpos : circ K -> string -> res C.
Notation circ := (circ K).
Notation net := (net K).
Notation op := (op K).
Implicit Types (c : circ) (N : net).

Record CI (z : C) c N (g : past F Fl) : Prop := {
  ci_inv : Inv c N;
  ci_z : zb c = z;
  ci_b : tried g = false -> building c /\ cS c = None;
  ci_S : forall Sm, cS c = Some Sm -> [/\ closed c, ports c <> [::] &
     exists f fl, [/\ cf c = Some f, cfl c = Some fl, (f, fl) \in asked g &
       (reterm g = false -> [/\ net_S z z N f fl (ports c) Sm, well_posed z N f fl &
          exists2 iM, invM c = Some iM & sol_ok c N f fl iM])]] }.

Lemma sol_ok_frame c c' N f fl iM : frame c c' -> size (mM c') = size (mM c) ->
  sol_ok c N f fl iM -> sol_ok c' N f fl iM.
Proof.
case=> E1 E2 E3 E4 E5 Es H Ei; rewrite E3 => /H [Es' [w [H1 H2 H3 H4]]].
exists Es', w; rewrite E4 E5; split=> //.
by move: H1; rewrite /exc_vec E1 E3 Es.
Qed.

Lemma closed_size c N c' : Inv c N -> Inv c' N -> frame c c' -> closed c -> closed c' ->
  size (mM c') = size (mM c).
Proof.
move=> HI HI' [_ _ _ E _] [_ _ H1] [_ _ H2].
by rewrite H1 H2 (v_nc HI) (v_nc HI') E.
Qed.

(** a raising fill: some block's getS raised *)
Definition blk_raises N (z : C) (f : F) (fl : Fl) (e : exn) : Prop :=
  exists nm ps (o o' : K), [/\ List.In (nm, (ps, o)) (nblk N), after_getS o o', oinv o' &
    (ogetS f z fl o').2 = Raise e].

Lemma fill1_raise f fl c N nm b c' e : Inv c N -> dget (blocks c) nm = Some b ->
  fill1 f fl [::] c (nm, b) = (c', Raise e) -> blk_raises N (zb c) f fl e.
Proof.
move=> HI Hb; rewrite /fill1 /=.
have [ps [o0 [Hnb [_ /= Eps Hoi Heq [Hsz Hup]] _]]] := Forall2_dget (v_blk HI) Hb.
have [Hi' Hsz' Hop' Hden' Hgood] := oget_law f fl Hoi (v_zb HI).
case E: (ogetS f (zb c) fl (bobj b)).2 => [Sm|e'].
  by have [Hs _] := Hgood _ E; rewrite Eps -Hsz Hs.
case=> _ <-; exists nm, ps, o0, (bobj b); split=> //; [exact: dget_In|exact: Heq.1].
Qed.

Lemma fill_raise_loop f fl c N bs c' e : Inv c N -> uniq (dkeys bs) ->
  (forall nm b, List.In (nm, b) bs -> dget (blocks c) nm = Some b) ->
  loop (fill1 f fl [::]) c bs = (c', Raise e) -> blk_raises N (zb c) f fl e.
Proof.
elim: bs c => [|[nm b] bs IH] c HI Hu Hbs; rewrite ?loop_cons //.
have Hb : dget (blocks c) nm = Some b by apply: Hbs; left.
case E1: (fill1 _ _ _ _ _) => [c1 r1] /=.
have [HI1 Hf1 Hbl1] := fill1_any HI Hb E1.
case: r1 E1 => [u|e1] E1 /=; last first.
  by case=> _ <-; exact: fill1_raise HI Hb E1.
move: Hu => /= /andP[Hn Hu] El.
have [_ _ _ _ <-] := Hf1; apply: IH El => // nm' b' Hin.
rewrite Hbl1; first by apply: Hbs; right.
apply/eqP => E; move: Hn; rewrite -E -[_ \in _]/(nm' \in dkeys bs).
by rewrite (dget_keys (In_dget Hu Hin)).
Qed.

Lemma fill_raise f fl c N c' e : Inv c N ->
  loop (fill1 f fl [::]) c (blocks c) = (c', Raise e) -> blk_raises N (zb c) f fl e.
Proof.
move=> HI; apply: fill_raise_loop => //; first by rewrite (blk_keys HI) (v_ub HI).
by move=> nm b; apply: In_dget; rewrite (blk_keys HI) (v_ub HI).
Qed.

(** cache and impedance after the building calls *)
Lemma addblock_frame c nm o pa x c' : addblock nan c nm o pa x = (c', Ok tt) ->
  cS c' = None /\ zb c' = zb c.
Proof.
rewrite /addblock; case: ifP => // _; case: (dget _ _) => [b|].
  by case: ifP => // _ [<-].
by rewrite /addblock_new; case: (resolve_ports _ _ _) => // ps [<-].
Qed.

Lemma consume_frame c p : let r := consume c p in
  caches r.1 = caches c /\ zb r.1 = zb c /\ dE r.1 = dE c.
Proof.
rewrite /consume; case: (lindex _ _) => //= k; case: (lpop _ _) => //= ps.
by case: (lpop _ _).
Qed.

Lemma loop_frame (A : Type) (step : circ -> A -> circ * res unit) c xs :
  (forall c x, caches (step c x).1 = caches c /\ zb (step c x).1 = zb c) ->
  caches (loop step c xs).1 = caches c /\ zb (loop step c xs).1 = zb c.
Proof.
move=> H; elim: xs c => //= x xs IH c; have := H c x.
case: (step c x) => c1 [u|e] //= [H1 H2]; by rewrite -H1 -H2.
Qed.

Lemma connect_frame c ps c' : connect getpos c ps = (c', Ok tt) ->
  cS c' = None /\ zb c' = zb c.
Proof.
rewrite /connect; case: ifP => // _; case: ifP => // _.
set olds := oldports c ps; set nw := newports c ps.
have [_ H2] : caches (loop (fun c p => connect_new getpos c olds p) c nw).1 = caches c /\
     zb (loop (fun c p => connect_new getpos c olds p) c nw).1 = zb c.
  apply: loop_frame => d p; rewrite /connect_new; case: olds => // o l.
  by case: (getpos _ _).
case: (loop _ c nw) H2 => c1 [u|e] //= H2.
case: (mapM _ ps) => // iAs; case: (mapM _ ps) => // iBs.
set xs := [seq p <- ps | p \notin nw].
have [_ H3] : caches (loop (@consume C F Fl K) c1 xs).1 = caches c1 /\
    zb (loop (@consume C F Fl K) c1 xs).1 = zb c1.
  by apply: loop_frame => d p; have [-> [-> _]] := consume_frame d p.
by case: (loop _ c1 xs) H3 => c2 [u'|e] //= H3 [<-] /=; rewrite H3.
Qed.

Lemma term_frame c p kw c' : terminate c p kw = (c', Ok tt) -> zb c' = zb c /\
  if p \in dkeys (dT c) then
    [/\ cS c' = cS c, cf c' = cf c, cfl c' = cfl c, ports c' = ports c & pn c' = pn c] /\ dE c' = dE c
  else cS c' = None /\ (dE c = [::] -> dE c' = [::]).
Proof.
rewrite /terminate -dhasE /dhas; case: (rho_of _ _) => // rho.
case: (dget (dT c) p) => [[[iA iB] e]|]; first by case=> <-.
case: (dget (dE c) p) => [e|].
  case: (lindex _ _) => // iA; case: (lindex _ _) => // iB.
  set c1 := with_dicts _ _ _ _; have [_ [Hz He]] := consume_frame c1 p.
  case: (consume c1 p) Hz He => c2 [u|e'] //= E He [<-]; split=> //; split=> //= E0.
  by rewrite He E0.
have [_ [Hz He]] := consume_frame c p.
case: (consume c p) Hz He => c2 [u|e] //= E He.
case: (lindex _ _) => // iA; case: (lindex _ _) => // iB [<-].
by split=> //; split=> //= E0; rewrite He.
Qed.

Lemma deembed_frame c ints exts c' : deembed c ints exts = (c', Ok tt) ->
  cS c' = None /\ zb c' = zb c.
Proof.
rewrite /deembed; set c1 := with_M _ _ _ _.
have Hdp d q : caches (drop_port d q : circ * res unit).1 = caches d /\ zb (drop_port d q).1 = zb d.
  by rewrite /drop_port; case: (lindex _ _) => //= k; case: (lpop _ _).
have [H1 H2] : caches (loop (@deembed_int C F Fl K) c1 ints).1 = caches c1 /\
     zb (loop (@deembed_int C F Fl K) c1 ints).1 = zb c1.
  apply: loop_frame => d0 [dp ip]; rewrite /deembed_int.
  case: ifP => // _; case: ifP => // _; case: (lindex _ _) => // iA; case: (lindex _ _) => // iB.
  by set d := with_M _ _ _ _; have := Hdp d dp.
case: (loop _ c1 ints) H1 H2 => c2 [u|e] //= H1 H2 H.
have [H3 H4] : caches (loop (@deembed_ext C F Fl K) c2 exts).1 = caches c2 /\
     zb (loop (@deembed_ext C F Fl K) c2 exts).1 = zb c2.
  apply: loop_frame => d0 [dp ep]; rewrite /deembed_ext.
  case: ifP => // _; case: ifP => // _.
  case: (lindex _ _) => // iA; case: (lindex _ _) => // iB; case: (lindex _ _) => // iA'; case: (lindex _ _) => // iB'.
  set d := with_M _ _ _ _; have [D1 D2] := Hdp d dp.
  case: (drop_port d dp) D1 D2 => d1 [u1|e] /= D1 D2; last by rewrite D1 D2.
  by have [-> ->] := Hdp d1 ep.
rewrite H /= in H3 H4; rewrite H4 H2; split=> //.
by move: H3; rewrite H1 /caches => -[_ ->].
Qed.


Lemma rebase_S z z' N f fl ps Sm S' : z != 0 -> net_S z z N f fl ps Sm ->
  rebase z' z Sm = Ok S' -> net_S z (zreq z' z) N f fl ps S'.
Proof.
move=> Hz [Hsh HS] /(rebase_ok Hz Hsh) [Hsh' H]; split=> // v i.
by rewrite H HS.
Qed.

Lemma rebase_raise z z' N f fl ps Sm e : z != 0 -> net_S z z N f fl ps Sm ->
  rebase z' z Sm = Raise e -> [/\ z' != 0, e = LinAlgError & ~ exists S', net_S z z' N f fl ps S'].
Proof.
move=> Hz [Hsh HS]; rewrite /rebase; case: (z' =P 0) => //= Hz'.
case: eqP => // _; move/andP: (Hsh) => [/eqP Esz _]; rewrite Esz.
rewrite ConvertGeneral_matrix //.
case E: (convert1 _ _ _ _ _) => [S2|e'] //= [<-].
have HaZ : adm "V" (const_mx z : 'rV[C]_(size ps)) by exact: admV.
have HaZ' : adm "V" (const_mx z' : 'rV[C]_(size ps)) by apply: admV; exact/eqP.
have [-> Hn] := iffLR (@convert1_raise _ _ "V" "V" _ _ _ _ isT isT HaZ HaZ') E.
split=> //.
move=> [S' [Hsh' HS']]; apply: Hn; exists (mx_of (size ps) (size ps) S') => v i.
pose ext (u : 'cV[C]_(size ps)) (j : nat) : C := if insub j is Some j' then u j' 0 else 0.
have Ec (u : 'cV[C]_(size ps)) : \col_k ext u (val k) = u.
  by apply/matrixP => a b; rewrite mxE /ext valK (ord1 b).
have := HS (ext v) (ext i); rewrite -HS' !rel_S_mx !Ec; exact.
Qed.

(** why getS raises *)
Definition get_fails z z' c N f fl (e : exn) : Prop :=
  [\/ blk_raises N z f fl e, e = ValueError /\ ~~ pn_ok c, ports c = [::] |
   e = LinAlgError /\ (ill_posed z N f fl \/
     (z' != 0 /\ forall ps, ps =i ports c -> uniq ps -> ~ exists S', net_S z z' N f fl ps S'))].

(** the order of the ports of the network does not matter for its existence *)
Lemma net_S_perm z z' N f fl (ps ps' : seq string) S : uniq ps -> uniq ps' -> ps' =i ps ->
  net_S z z' N f fl ps S -> exists S', net_S z z' N f fl ps' S' /\
    forall p q, p \in ps -> q \in ps ->
      nth 0 (nth [::] S' (seq.index p ps')) (seq.index q ps') =
      nth 0 (nth [::] S (seq.index p ps)) (seq.index q ps).
Proof.
move=> Hu Hu' Hm [Hsh HS].
have Esz : size ps' = size ps by apply: perm_size; apply: uniq_perm.
pose ix k := seq.index (nth "" ps' k) ps.
have Hix k : (k < size ps)%N -> (ix k < size ps)%N.
  by move=> Hk; rewrite index_mem -Hm mem_nth // Esz.
have Hnx k : (k < size ps)%N -> nth "" ps (ix k) = nth "" ps' k.
  by move=> Hk; rewrite nth_index // -Hm mem_nth // Esz.
pose A : 'M[C]_(size ps') := \matrix_(a, b) nth 0 (nth [::] S (ix a)) (ix b).
have [RA HshA HA] : exists2 RA, shape_ok (size ps') RA & forall k j : nat,
    (k < size ps)%N -> (j < size ps)%N -> nth 0 (nth [::] RA k) j = nth 0 (nth [::] S (ix k)) (ix j).
  exists (rows_of A); first exact: rows_shape.
  move=> k j Hk Hj; rewrite -Esz in Hk Hj.
  by rewrite (nth_rows_of A (Ordinal Hk) (Ordinal Hj)) mxE.
exists RA; split; last first.
  move=> p q Hp Hq; rewrite HA -?Esz ?index_mem ?Hm // /ix.
  by rewrite !nth_index ?Hm.
split=> //; move=> v i; rewrite Esz.
pose jx k := seq.index (nth "" ps k) ps'.
have Hjx k : (k < size ps)%N -> (jx k < size ps)%N.
  by move=> Hk; rewrite -Esz index_mem Hm mem_nth.
have Hnj k : (k < size ps)%N -> nth "" ps' (jx k) = nth "" ps k.
  by move=> Hk; rewrite nth_index // Hm mem_nth.
have Hij k : (k < size ps)%N -> ix (jx k) = k.
  by move=> Hk; rewrite /ix Hnj // index_uniq.
have Hji k : (k < size ps)%N -> jx (ix k) = k.
  by move=> Hk; rewrite /jx Hnx // index_uniq // Esz.
have HR : rel_S z' (size ps) RA v i <->
          rel_S z' (size ps) S (v \o jx) (i \o jx).
  have Hsum k : (k < size ps)%N ->
    \sum_(j < size ps) nth 0 (nth [::] RA k) j * ((v j + z' * i j) / 2%:R) =
    \sum_(j < size ps) nth 0 (nth [::] S (ix k)) j * (((v \o jx) j + z' * (i \o jx) j) / 2%:R).
    move=> Hk; pose h (j : 'I_(size ps)) := Ordinal (Hix j (ltn_ord j)).
    have Hh : bijective h.
      pose h' (j : 'I_(size ps)) := Ordinal (Hjx j (ltn_ord j)).
      by exists h' => j; apply: val_inj; rewrite /= ?Hji ?Hij.
    rewrite [RHS](reindex h) /=; last exact: onW_bij.
    by apply: eq_bigr => j _; rewrite HA // Hji.
  split=> H k Hk.
    by have := H _ (Hjx k Hk); rewrite Hsum ?Hjx // Hij.
  by have := H _ (Hix k Hk); rewrite Hsum //= Hji.
rewrite HR HS; split=> -[v' [i' [H1 H2]]]; exists v', i'; split=> // j Hj.
  by have := H2 _ (Hix j Hj); rewrite Hnx //= Hji.
by have := H2 _ (Hjx j Hj); rewrite Hnj.
Qed.

(** one getS *)
Lemma get1S_CI z c N g f z' fl c' r : CI z c N g ->
  ~~ (reterm g && ((f, fl) \in asked g)) ->
  get1S f z' [::] fl c = (c', r) ->
  [/\ CI z c' N (past_step N g (@OGetS C F Fl K f z' fl, is_ok r)),
      ports c' =i ports c, ordered c c' &
      match r with
      | Ok Sm => [/\ net_S z (zreq z' z) N f fl (ports c') Sm, well_posed z N f fl, ports c' <> [::],
         ports c' = order c /\ pn c' = PAlias &
         exists S0 iM, [/\ cS c' = Some S0, cf c' = Some f, invM c' = Some iM,
             sol_ok c' N f fl iM & rebase z' z S0 = Ok Sm]]
      | Raise e => get_fails z z' c N f fl e
      end].
Proof.
move=> HC Hok; have HI := ci_inv HC; have Ez := ci_z HC; have Hz := v_zb HI.
have Hz1 : z != 0 by rewrite -Ez.
have Hreb c1 S0 : Inv c1 N -> ports c1 =i ports c -> net_S z z N f fl (ports c1) S0 ->
  forall e, rebase z' z S0 = Raise e -> get_fails z z' c N f fl e.
  move=> HI1 Hp1 HS e /(rebase_raise Hz1 HS) [Hz' -> Hn]; constructor 4; split=> //.
  right; split=> // ps Hps Hu [S' HS']; apply: Hn.
  have [|S2 []] := net_S_perm Hu (v_up HI1) _ HS'; last by exists S2.
  by move=> p; rewrite Hp1 Hps.
rewrite /get1S; case: ifP => [Hneed|Hhit].
  case Es: (solve_now _ _ _ _) => [c1 r1] /=.
  have [HI1 Ez1 Hp1 [Hor1 Hcl1] Hr1] := solve_ok HI Es.
  case: r1 Es Hr1 => [S1|e] Es Hr1.
    have [Hcl HS [E1 E2 E3] Hres Hord [iM EiM HiM] Hne] := Hr1; rewrite Ez in HS Hres.
    have Hb1 : forall g', tried g' -> (f, fl) \in asked g' -> CI z c1 N g'.
      move=> g' Ht Ha; split=> //; rewrite ?Ez1 //; first by rewrite Ht.
      move=> Sm'; rewrite E1 => -[<-]; split=> //; exists f, fl; split=> // _.
      by split=> //; exists iM.
    case=> <- Er; split=> //.
      by case: (r) => [S2|e] /=; apply: Hb1; rewrite //= ?mem_head.
    rewrite -Er Ez1 Ez; case Erb: (rebase _ _ _) => [Sm|e].
      split=> //; first exact: rebase_S HS Erb.
        by split=> //; case: Hcl.
      by exists S1, iM.
    exact: Hreb HS e Erb.
  case=> <- <-; have [E1 E2 H3 H4 H5] := Hr1; split=> //; first rewrite /=.
    split=> //=; first by rewrite Ez1.
    move=> Sm Hs.
    have EcS : cS c = Some Sm by case: H3; rewrite Hs // => ->.
    have [Hc Hne [f0 [fl0 [F1 F2 F3 F4]]]] := ci_S HC EcS.
    have [Hc1 Hfr] := Hcl1 Hc; have [_ _ Hp _ _] := Hfr.
    split; rewrite ?Hp //; exists f0, fl0; rewrite E1 E2; split=> //.
      by rewrite in_cons F3 orbT.
    move/F4 => [F5 F6 [iM F7 F8]]; split; rewrite ?Hp //; exists iM; first by rewrite H4.
    by apply: sol_ok_frame F8 => //; exact: (closed_size HI HI1).
  case: H5 => [[c2 /(fill_raise HI)]|[[-> Hpn]|Hpe|[-> Hr]]]; rewrite ?Ez => *.
  - by constructor 1.
  - by constructor 2.
  - by constructor 3.
  - by constructor 4; split=> //; left; rewrite -Ez.
move/negbT: Hhit; rewrite !negb_or !negbK => /andP[/andP[/eqP Ef Hs] /eqP Efl].
case EcS: (cS c) Hs => [Sm|//] _ /=.
have [Hc Hne [f0 [fl0 [F1 F2 F3 F4]]]] := ci_S HC EcS.
have [E1 E2] : f0 = f /\ fl0 = fl by move: Ef Efl; rewrite F1 F2 => -[->] [->].
rewrite E1 E2 in F1 F2 F3 F4.
have Hrt : reterm g = false by move: Hok; rewrite F3 andbT => /negbTE.
have [HS Hres [iM EiM HiM]] := F4 Hrt.
case=> <- Er; split=> //; last first.
- rewrite -Er Ez; case Erb: (rebase _ _ _) => [S2|e].
    split=> //; first exact: rebase_S HS Erb.
      by have [Hpn _ _] := Hc; split=> //; rewrite /order Hpn.
    by exists Sm, iM.
  exact: Hreb HS e Erb.
- by left.
have Ht : tried g.
  by case Et: (tried g) => //; have [_] := ci_b HC Et; rewrite EcS.
split=> //; first by case: (is_ok _).
move=> Sm'; rewrite EcS => -[<-]; split=> //; exists f, fl; split=> //.
  by case: (is_ok _); rewrite /= mem_head.
by move=> _; exact: F4.
Qed.

(** one call *)
Lemma step_CI z c N g o ok c' : CI z c N g -> ev_ok N g (o, ok) ->
  exec nan getpos c o = (c', ok) -> CI z c' (net_step N o) (past_step N g (o, ok)).
Proof.
move=> HC Hok; have HI := ci_inv HC; have Ez := ci_z HC; have Hz := v_zb HI.
case: o Hok => [nm ob pa x|ps|p kw|ints exts|f z' fl] /=.
- case=> -> Ho Hnew; case E: (addblock _ _ _ _ _ _) => [c1 [[]|//]] /= [<-].
  have [E1 E2] := addblock_frame E.
  have Hn : dget (nblk N) nm = None -> nm \notin dkeys (nblk N) by move/dget_None.
  have [HI1 HE1] : Inv c1 (net_step N (OAdd nm ob pa x)) /\ dE c1 = dE c.
    apply: (addblock_inv HI Ho _ _ E) => /Hn H; case: Hnew; rewrite ?(negbTE H) // => -[Ht Hu] //.
    by case: (ci_b HC Ht).
  split=> //; [by rewrite E2| |by rewrite E1].
  by move=> /= /(ci_b HC) [H _]; split=> //; rewrite /building HE1.
- case=> -> Ht; case E: (connect _ _ _) => [c1 [[]|//]] /= [<-].
  have [Hb _] := ci_b HC Ht.
  have [HI1 Hb1] := connect_inv HI Hb E; have [E1 E2] := connect_frame E.
  by split=> //; rewrite ?E2 // E1.
- move=> ->; case E: (terminate _ _ _) => [c1 [[]|//]] /= [<-].
  have HI1 := terminate_inv HI E; have [E1] := term_frame E.
  rewrite (v_T HI) => E2; split=> //; first by rewrite E1.
    move=> /= /(ci_b HC) [Hb Hs]; move: E2; case: ifP => _; last first.
      by case=> E2 E3; split=> //; exact: E3.
    by case=> -[E2 _ _ _ _] E3; rewrite /building E2 E3.
  move=> Sm; case: ifP E2 => Hin; last by case=> ->.
  case=> -[E2 E3 E4 E5 E6] E7; rewrite E2 => HS.
  have [[Hc1 Hc2 Hc3] Hne [f0 [fl0 [F1 F2 F3 F4]]]] := ci_S HC HS.
  split; rewrite ?E5 //; last first.
    exists f0, fl0; rewrite E3 E4; split=> //=.
    by case: (asked g) F3.
  split; rewrite ?E6 ?E7 ?E5 //.
  have := v_cnt HI1; have := v_cnt HI; rewrite E5 E7 Hc3 => /addnI ->.
  exact: addIn.
- case=> -> Ht Hu Hf; case E: (deembed _ _ _) => [c1 [[]|//]] /= [<-].
  have [Hb _] := ci_b HC Ht.
  have [HI1 Hb1] := deembed_inv HI Hb (conj Hu Hf) E; have [E1 E2] := deembed_frame E.
  by split=> //; rewrite ?E2 // E1.
- move=> Hok; case E: (get1S _ _ _ _ _) => [c1 r] /= [<- <-].
  by have [] := get1S_CI HC Hok E.
Qed.

Lemma run_CI z c N g h c' : CI z c N g -> hist_ok_from N g h -> run nan getpos c h = Some c' ->
  CI z c' (foldl (@net_step C F Fl K) N (map fst h)) (past_from N g h).
Proof.
elim: h c N g => [|[o ok] h IH] c N g HC /=; first by move=> _ [<-].
case=> H1 H2; case E: (exec _ _ _ _) => [c1 ok1] /=; case: eqP => // Eok Hr.
rewrite Eok in E; exact: IH (step_CI HC H1 E) H2 Hr.
Qed.

Lemma init_CI z ns : z != 0 -> CI z (new_circ K z ns) (net0 K) (past0 F Fl).
Proof. by move=> Hz; split=> //; exact: init_inv. Qed.


End Main.

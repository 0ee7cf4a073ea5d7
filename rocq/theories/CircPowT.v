(** C61: Tellegen's theorem for the networks of circuits. *)
From mathcomp Require Import all_ssreflect all_algebra.
From mathcomp Require Import zify.
From mathcomp.algebra_tactics Require Import ring.
From Coq Require Import String Ascii.
From Coq Require List.
From Verif Require Import Base MxLib ConvModel ConvSpec ConvProofs ConvArr CircModel CircSpec CircLib CircInv CircTerm CircApp CircConn CircAdd CircDe CircFill CircSolve CircExt CircHist CircGet CircMain CircOrd CircThm CircThm2 CircThm3 CircThm4 CircNest CircFlat CircPow.
Set Implicit Arguments.
Unset Strict Implicit.
Unset Printing Implicit Defensive.
Import Order.TTheory GRing.Theory Num.Theory.
Local Open Scope string_scope.
Local Open Scope ring_scope.
Local Open Scope seq_scope.

Section Tel.
Variable C : numClosedFieldType.
Variables F Fl : eqType.
Variable K : vcls C F Fl.
Variable nan : C.
Variable getpos : circ K -> string -> res C.
Notation circ := (circ K).
Notation net := (net K).
Notation reach := (reach nan getpos).
Implicit Types (c : circ) (N : net) (h : seq (event K)).

(** ** every node is used at most once *)
Lemma connect_olds c N ps c' : Inv c N -> connect getpos c ps = (c', Ok tt) ->
  let olds := [seq p <- ps | p \in nodes N] in uniq olds /\ {subset olds <= ports c}.
Proof.
move=> HI; rewrite /connect; set nw := newports c ps; set olds := oldports c ps.
case: ifP => // /negbT; rewrite -leqNgt => Hn1; case: ifP => // Hdot.
have Enw : nw = [seq p <- ps | p \notin nodes N].
  by apply: eq_filter => p; rewrite (fwd_wave _ HI).
have Eol : olds = [seq p <- ps | p \in nodes N].
  by apply: eq_filter => p; rewrite (fwd_wave _ HI).
case El: (loop _ c nw) => [c1 [[]|e]] //=.
have [W' [xs1 Ec1 Hx1]] : exists W', exists2 xs, c1 = with_ports (with_waves c (waves c ++ W')) (ports c ++ nw) xs &
    (size (ports c ++ nw) <= size xs)%N.
  exists (flatten [seq [:: fwd p; bwd p] | p <- nw]); clearbody olds; clear -Hn1 El HI.
  have Hx := v_xp HI.
  case: nw Hn1 El => [|p [|//]] _ /=.
    by case=> <-; exists (xpos c); rewrite ?cats0 //; case: (c).
  case E: (connect_new _ _ _ _) => [c2 [[]|]] //= -[<-].
  have [x ->] := connect_new_ok E; exists (xpos c ++ [:: x]) => //.
  by rewrite !size_cat /= leq_add2r.
case EA: (mapM _ ps) => [iAs|//]; case EB: (mapM _ ps) => [iBs|//].
have Eo : [seq p <- ps | p \notin nw] = olds.
  rewrite Eol Enw; apply: eq_in_filter => p Hp; by rewrite mem_filter Hp andbT negbK.
rewrite Eo; case Ec: (loop _ c1 olds) => [c2 [[]|e]] //= _.
have Hnwn p : p \in nw -> p \notin nodes N by rewrite Enw mem_filter => /andP[].
have Hunw : uniq nw by case: (nw) Hn1 => [|p [|]].
have Hup1 : uniq (ports c1).
  rewrite Ec1 /= cat_uniq (v_up HI) Hunw andbT /=; apply/hasPn => p /Hnwn.
  by apply: contra => /(port_node HI).
have Hxp1 : (size (ports c1) <= size (xpos c1))%N by rewrite Ec1.
have [Huo Hso _] := CircApp.consume_loop Hup1 Hxp1 Ec.
rewrite -Eol; split=> // p Hp; have := Hso _ Hp; rewrite Ec1 /= mem_cat => /orP[//|/Hnwn].
by move: Hp; rewrite Eol mem_filter => /andP[->].
Qed.

Lemma term_port c N p kw c' : Inv c N -> terminate c p kw = (c', Ok tt) ->
  (p \in dkeys (nterm N)) || (p \in ports c).
Proof.
move=> HI; rewrite /terminate; case: (rho_of _ _) => [rho|//].
case ET: (dget (dT c) p) => [[[iA iB] e]|]; first by rewrite -(v_T HI) (dget_keys ET).
case EE: (dget (dE c) p) => [e|]; first by rewrite (E_port HI EE) orbT.
by case Hp: (p \in ports c); rewrite ?orbT // consume_ko ?Hp.
Qed.

Definition clean N : bool := [&& uniq (used N), ndi N == [::] & nde N == [::]].

Lemma clean_step z c N g o ok c' : CI z c N g -> ev_ok N g (o, ok) ->
  exec nan getpos c o = (c', ok) -> no_deembed [:: (o, ok)] -> clean N -> clean (net_step N o).
Proof.
move=> HC Hok; have HI := ci_inv HC.
case: o Hok => [nm ob pa x|ps|p kw|ints exts|f z' fl] //=.
- by move=> _ _ _; case: (dget _ _) => [[? ?]|] //; case: (resolve_ports _ _ _).
- case=> -> _; case E: (connect _ _ _) => [c1 [[]|//]] /= _ _.
  have [Hu Hs] := connect_olds HI E.
  case/and3P => H1 /eqP H2 /eqP H3; rewrite /clean /= H2 H3 !andbT.
  move: H1; rewrite /used /= H2 H3 /= !cats0 map_cat flatten_cat /= cats0.
  set a := flatten _; set t := map _ _; set b := filter _ _ => H1.
  have HI' := v_us HI.
  have Hd p : p \in b -> p \notin a ++ t.
    move=> /Hs; rewrite (v_fp HI) /free => /andP[_]; apply: contra.
    by rewrite /used H2 H3 /= !cats0.
  rewrite -?catA uniq_catCA cat_uniq Hu H1 andbT /=.
  by apply/hasPn => p Hp; apply/negP => /Hd; rewrite Hp.
- move=> ->; case E: (terminate _ _ _) => [c1 [[]|//]] /= _ _.
  case/and3P => H1 /eqP H2 /eqP H3; rewrite /clean /= H2 H3 !andbT.
  move: H1; rewrite /used /= H2 H3 /= !cats0 -/(dkeys (nterm N)) -/(dkeys (dset (nterm N) p (load_of kw))) dkeys_dset.
  case: ifP => // Hp; rewrite -cats1 catA cats1 rcons_uniq => ->; rewrite andbT.
  have := term_port HI E; rewrite Hp (v_fp HI) /free => /andP[_].
  by rewrite /used H2 H3 /= !cats0.
Qed.

Lemma clean_run z c N g h c' : CI z c N g -> hist_ok_from N g h -> run nan getpos c h = Some c' ->
  no_deembed h -> clean N -> clean (foldl (@net_step C F Fl K) N (map fst h)).
Proof.
elim: h c N g => [|[o ok] h IH] c N g HC //=.
case=> H1 H2; case E: (exec _ _ _ _) => [c1 ok1] /=; case: eqP => // Eok Hr /andP[Hd Hds] Hc.
rewrite Eok in E; apply: (IH _ _ _ (step_CI HC H1 E) H2 Hr Hds).
by apply: (clean_step HC H1 E) => //=; rewrite Hd.
Qed.

Lemma reach_clean z ns h c : reach z ns h c -> no_deembed h -> clean (net_hist h).
Proof. by case=> Hz Hh Hr Hd; exact: (clean_run (init_CI _ ns Hz) Hh Hr Hd). Qed.

(** ** the sum of a quantity over the ports *)
Definition seq_of (x : option string) : seq string := if x is Some p then [:: p] else [::].

Lemma tellegen N (b : string -> C) ps : uniq (nodes N) -> {subset used N <= nodes N} -> clean N ->
  List.Forall (fun j : seq string * option string => \sum_(p <- j.1) b p = \sum_(p <- seq_of j.2) b p) (njoin N) ->
  uniq ps -> (forall p, (p \in ps) = free N p) ->
  \sum_(p <- ps) b p
  = \sum_(nb <- nblk N) \sum_(p <- blk_nodes nb) b p - \sum_(t <- nterm N) b t.1.
Proof.
move=> Hun Hsub /and3P [Huu /eqP Hdi /eqP Hde] Hj Hu Hf.
have Hp : perm_eq (nodes N) (ps ++ used N).
  apply: uniq_perm => //.
    rewrite cat_uniq Hu Huu andbT /=; apply/hasPn => p Hp; apply/negP => Hq.
    by have : p \in ps := Hq; rewrite Hf /free Hp andbF.
  move=> p; rewrite mem_cat Hf /free; case Hp: (p \in used N); last by rewrite andbT orbF.
  by rewrite orbT (Hsub _ Hp).
have : \sum_(p <- nodes N) b p = \sum_(p <- ps) b p + \sum_(p <- used N) b p.
  by rewrite (perm_big _ Hp) big_cat.
rewrite /nodes /used Hdi Hde /= !cats0 !big_cat /= big_map => E.
have Ej : \sum_(p <- flatten (map fst (njoin N))) b p = \sum_(p <- news (njoin N)) b p.
  rewrite /news; elim: (njoin N) Hj => [|j js IH] /= Hj; first by rewrite !big_nil.
  have H1 := List.Forall_inv Hj; have H2 := List.Forall_inv_tail Hj.
  rewrite big_cat /= IH // H1; case: (j.2) => [p|] /=; first by rewrite big_cons big_nil addr0 big_cons.
  by rewrite big_nil add0r.
have Eb : \sum_(p <- flatten (map (@blk_nodes C F Fl K) (nblk N))) b p
          = \sum_(nb <- nblk N) \sum_(p <- blk_nodes nb) b p.
  by rewrite big_flatten big_map.
rewrite -Eb; move: E; rewrite Ej.
move: (\sum_(p <- flatten _) _) (\sum_(p <- news _) _) (\sum_(p <- ps) _) (\sum_(t <- nterm N) _) => x y u t E.
by apply: (addIr (y + t)); rewrite -E; ring.
Qed.

Lemma sum_blk (nb : string * (seq string * K)) (b : string -> C) :
  \sum_(p <- blk_nodes nb) b p = \sum_(k < size nb.2.1) b (dot nb.1 (nth "" nb.2.1 k)).
Proof. by rewrite /blk_nodes big_map (big_nth "") big_mkord. Qed.

Lemma sum_zero (T : Type) (s : seq T) (g : T -> C) :
  List.Forall (fun x => g x = 0) s -> \sum_(x <- s) g x = 0.
Proof. by elim=> [|x s' Hx _ IH]; rewrite ?big_nil // big_cons Hx IH addr0. Qed.

Lemma sum_pos (T : Type) (s : seq T) (g : T -> C) :
  List.Forall (fun x => 0 <= g x) s -> 0 <= \sum_(x <- s) g x.
Proof. by elim=> [|x s' Hx _ IH]; rewrite ?big_nil // big_cons addr_ge0. Qed.

(** a joint is balanced *)
Lemma join_bilin (v i v' i' : asg C) j : join_law v i j -> join_law v' i' j ->
  \sum_(p <- j.1) (v p * i' p - v' p * i p) = \sum_(p <- seq_of j.2) (v p * i' p - v' p * i p).
Proof.
case: j => ps [n|] /= [Hv Hi] [Hv' Hi'].
  case: Hi => Hi1 Hi2; case: Hi' => Hi1' Hi2'.
  rewrite big_cons big_nil addr0 -Hi2 -Hi2' !mulr_sumr -sumrB.
  by rewrite !big_seq; apply: eq_bigr => p Hp; rewrite Hi1 // Hi1'.
rewrite big_nil; case: ps Hv Hi Hv' Hi' => [|q ps] Hv Hi Hv' Hi'; first by rewrite big_nil.
transitivity (\sum_(p <- q :: ps) (v q * i' p - v' q * i p)).
  rewrite !big_seq; apply: eq_bigr => p Hp.
  by rewrite (Hv p q) ?mem_head // (Hv' p q) ?mem_head.
by rewrite sumrB -!mulr_sumr Hi Hi' !mulr0 subr0.
Qed.

Lemma join_power (v i : asg C) j : join_law v i j ->
  \sum_(p <- j.1) 'Re (v p * (i p)^*) = \sum_(p <- seq_of j.2) 'Re (v p * (i p)^*).
Proof.
case: j => ps [n|] /= [Hv Hi].
  case: Hi => Hi1 Hi2.
  rewrite big_cons big_nil addr0 -Hi2 -raddf_sum rmorph_sum mulr_sumr; congr ('Re _).
  by rewrite !big_seq; apply: eq_bigr => p Hp; rewrite Hi1.
rewrite big_nil; case: ps Hv Hi => [|q ps] Hv Hi; first by rewrite big_nil.
transitivity ('Re (\sum_(p <- q :: ps) (v q * (i p)^*))).
  by rewrite raddf_sum !big_seq; apply: eq_bigr => p Hp; rewrite (Hv p q) ?mem_head.
by rewrite -mulr_sumr -rmorph_sum Hi rmorph0 mulr0 raddf0.
Qed.

Lemma load_bilin z l v i v' i' : z != 0 -> load_law z l v i -> load_law z l v' i' ->
  v * i' - v' * i = 0 :> C.
Proof.
move=> Hz; case: l => [Z|Y|R] /=.
- by move=> -> ->; ring.
- by move=> -> ->; ring.
move=> H H'.
have E : (v + z * i) * (v' - z * i') = (v' + z * i') * (v - z * i) by rewrite H H'; ring.
have : (2%:R * z) * (v * i' - v' * i) = 0.
  by transitivity ((v' + z * i') * (v - z * i) - (v + z * i) * (v' - z * i')); [ring|rewrite E subrr].
by move/eqP; rewrite mulf_eq0 mulf_eq0 pnatr_eq0 (negbTE Hz) /= => /eqP.
Qed.
End Tel.

(** ** scattering matrices *)
Section Mx.
Variable C : numClosedFieldType.

Definition ext n (x : 'cV[C]_n) : vi C := fun k => oapp (fun j => x j 0) 0 (insub k).
Definition col n (v : vi C) : 'cV[C]_n := \col_k v (val k).

Lemma ext_ord n (x : 'cV[C]_n) (k : 'I_n) : ext x k = x k 0.
Proof. by rewrite /ext valK. Qed.

Lemma col_ext n (x : 'cV[C]_n) : col n (ext x) = x.
Proof. by apply/matrixP => i j; rewrite mxE ext_ord ord1. Qed.

Lemma rel_ext z n S v i : rel_S z n S (ext v) (ext i) <-> relates "V" (const_mx z) (mx_of n n S) v i.
Proof. by rewrite rel_S_mx -/(col n (ext v)) -/(col n (ext i)) !col_ext. Qed.

Lemma rel_all z n S (P : 'cV[C]_n -> 'cV[C]_n -> Prop) :
  (forall v i, relates "V" (const_mx z) (mx_of n n S) v i -> P v i) <->
  (forall v i, rel_S z n S v i -> P (col n v) (col n i)).
Proof.
split=> H v i; first by rewrite rel_S_mx; exact: H.
by move=> /rel_ext /H; rewrite !col_ext.
Qed.

Lemma recip_rows z n (S : rows C) : z != 0 -> symmetric (mx_of n n S) <->
  (forall v i v' i', rel_S z n S v i -> rel_S z n S v' i' ->
     \sum_(k < n) v k * i' k = \sum_(k < n) v' k * i k).
Proof.
move=> Hz; have Hr : recip_ok "V" (const_mx z : 'rV[C]_n).
  split; first by move=> k; rewrite /admissible /= mxE.
  by right; exists z => k; rewrite mxE.
rewrite (sym_iff_recip (mx_of n n S) (t := "V") _ Hr) //.
split=> H v i v' i'.
  rewrite !rel_S_mx => H1 H2; have := H _ _ _ _ H1 H2; rewrite /dotp => E.
  transitivity (\sum_k (col n v) k 0 * (col n i') k 0).
    by apply: eq_bigr => k _; rewrite !mxE.
  by rewrite -E; apply: eq_bigr => k _; rewrite !mxE mulrC.
rewrite -!rel_ext => H1 H2; have := H _ _ _ _ H1 H2 => E.
transitivity (\sum_(k < n) ext v' k * ext i k).
  by apply: eq_bigr => k _; rewrite !ext_ord mulrC.
by rewrite -E; apply: eq_bigr => k _; rewrite !ext_ord.
Qed.

Lemma power_col n (v i : vi C) : power (col n v) (col n i) = power_in n v i.
Proof. by apply: eq_bigr => k _; rewrite !mxE. Qed.

Lemma z_power_ok z n : 0 < z -> power_ok "V" (const_mx z : 'rV[C]_n).
Proof. by move=> Hz; constructor 3; split=> //; exists z; split=> // k; rewrite mxE. Qed.

Lemma passive_rows z n (S : rows C) : 0 < z -> passive (mx_of n n S) <->
  (forall v i, rel_S z n S v i -> 0 <= power_in n v i).
Proof.
move=> Hz; rewrite (passive_iff _ (z_power_ok n Hz)) (rel_all z S (fun v i => 0 <= power v i)).
by split=> H v i /H; rewrite power_col.
Qed.

Lemma hdotD n (x y u : 'cV[C]_n) : hdot (x + y) u = hdot x u + hdot y u.
Proof. by rewrite -big_split; apply: eq_bigr => k _; rewrite !mxE mulrDl. Qed.
Lemma hdotDr n (x y u : 'cV[C]_n) : hdot u (x + y) = hdot u x + hdot u y.
Proof. by rewrite -big_split; apply: eq_bigr => k _; rewrite !mxE rmorphD mulrDr. Qed.
Lemma hdotZ n a (x u : 'cV[C]_n) : hdot (a *: x) u = a * hdot x u.
Proof. by rewrite mulr_sumr; apply: eq_bigr => k _; rewrite !mxE mulrA. Qed.
Lemma hdotZr n a (x u : 'cV[C]_n) : hdot u (a *: x) = a^* * hdot u x.
Proof. by rewrite mulr_sumr; apply: eq_bigr => k _; rewrite !mxE rmorphM mulrCA. Qed.

Lemma lin_aux (s x1 x2 x3 x4 y a t : C) :
  s * ((x1 + y * x2) / t) + a * (s * ((x3 + y * x4) / t)) = s * ((x1 + a * x3 + y * (x2 + a * x4)) / t).
Proof. ring. Qed.

Lemma relates_lin z n (S : 'M[C]_n) a (v i v' i' : 'cV[C]_n) :
  relates "V" (const_mx z) S v i -> relates "V" (const_mx z) S v' i' ->
  relates "V" (const_mx z) S (v + a *: v') (i + a *: i').
Proof.
move=> H H' k; have {H}H := H k; have {H'}H' := H' k.
move: H H'; rewrite /wave_a /wave_b /= !mxE => H H'.
have -> : (v k 0 + a * v' k 0 - z * (i k 0 + a * i' k 0)) / 2%:R
          = (v k 0 - z * i k 0) / 2%:R + a * ((v' k 0 - z * i' k 0) / 2%:R) by ring.
rewrite H H' mulr_sumr -big_split; apply: eq_bigr => j _ /=.
rewrite [(v + _) j 0]mxE [(i + _) j 0]mxE [(a *: v') j 0]mxE [(a *: i') j 0]mxE.
exact: lin_aux.
Qed.

Lemma unitary_rows z n (S : rows C) : 0 < z -> unitary (mx_of n n S) <->
  (forall v i, rel_S z n S v i -> power_in n v i = 0).
Proof.
move=> Hz; rewrite (unitary_iff_lossless _ (z_power_ok n Hz)).
have -> : (forall v i, rel_S z n S v i -> power_in n v i = 0) <->
          (forall v i, relates "V" (const_mx z) (mx_of n n S) v i -> power v i = 0).
  by rewrite (rel_all z S (fun v i => power v i = 0)); split=> H v i /H; rewrite power_col.
have two : (2%:R : C) != 0 by rewrite pnatr_eq0.
split=> [H v i Hr|H v i v' i' Hr Hr'].
  have := H _ _ _ _ Hr Hr; rewrite hdot_power => /eqP; rewrite mulf_eq0 (negbTE two) /=.
  by move/eqP.
have Q a : a^* * (hdot v i' + hdot i v') + a * (hdot v' i + hdot i' v) = 0.
  have := hdot_power (v + a *: v') (i + a *: i'); rewrite (H _ _ (relates_lin a Hr Hr')) mulr0.
  have E0 : hdot v i + hdot i v = 0 by rewrite hdot_power (H _ _ Hr) mulr0.
  have E1 : hdot v' i' + hdot i' v' = 0 by rewrite hdot_power (H _ _ Hr') mulr0.
  rewrite !(hdotD, hdotDr, hdotZ, hdotZr) => E.
  transitivity ((hdot v i + hdot i v) + a * a^* * (hdot v' i' + hdot i' v') +
    (a^* * (hdot v i' + hdot i v') + a * (hdot v' i + hdot i' v))).
    by rewrite E0 E1; ring.
  by rewrite -[RHS]E; ring.
have Q1 := Q 1; have Qi := Q 'i; move: Q1 Qi; rewrite rmorph1 !mul1r conjCi.
move: (hdot v i' + _) (hdot v' i + _) => x y Q1 Qi.
have : 'i * (y - x) = 0 by rewrite -Qi; ring.
move/eqP; rewrite mulf_eq0 (negbTE (neq0Ci C)) /= subr_eq0 => /eqP E.
by move: Q1; rewrite E -mulr2n -mulr_natl => /eqP; rewrite mulf_eq0 (negbTE two) => /eqP.
Qed.
End Mx.

(** ** networks of circuits *)
Section Net.
Variable C : numClosedFieldType.
Variables F Fl : eqType.
Variable K : vcls C F Fl.
Variable nan : C.
Variable getpos : circ K -> string -> res C.
Notation circ := (circ K).
Notation net := (net K).
Notation reach := (reach nan getpos).
Implicit Types (c : circ) (N : net) (h : seq (event K)).

Lemma F2 A (P Q R : A -> Prop) s : (forall x, P x -> Q x -> R x) ->
  List.Forall P s -> List.Forall Q s -> List.Forall R s.
Proof.
move=> H H1 H2; apply/List.Forall_forall => x Hx.
by apply: H; [exact: (iffLR (List.Forall_forall _ _) H1)|exact: (iffLR (List.Forall_forall _ _) H2)].
Qed.

Lemma sat_recip z ns h c f fl v i v' i' : reach z ns h c -> no_deembed h ->
  all_blocks (recip_obj f fl) (net_hist h) ->
  sat z (net_hist h) f fl v i -> sat z (net_hist h) f fl v' i' ->
  \sum_(p <- ports c) v p * i' p = \sum_(p <- ports c) v' p * i p.
Proof.
move=> Hr Hd Hb [S1 S2 S3 _ _] [T1 T2 T3 _ _].
have HC := reach_CI Hr; have HI := ci_inv HC; have [Hz _ _] := Hr.
have [_ Hsz] := reach_wf Hr.
have := @tellegen _ _ _ _ (net_hist h) (fun p => v p * i' p - v' p * i p) (ports c) (v_un HI) (v_us HI)
  (reach_clean Hr Hd) _ (v_up HI) (v_fp HI).
have HJ : List.Forall (fun j => \sum_(p <- j.1) (v p * i' p - v' p * i p) =
  \sum_(p <- seq_of j.2) (v p * i' p - v' p * i p)) (njoin (net_hist h)).
  by apply: (F2 _ S2 T2) => j; exact: join_bilin.
move=> /(_ HJ); rewrite sumrB [X in _ = X - _]sum_zero; last first.
  apply: (F2 _ (F2 _ S1 T1) (F2 _ Hb Hsz)); [|by move=> ? H1 H2; exact: (conj H1 H2)|by move=> ? H1 H2; exact: (conj H1 H2)].
  move=> nb [H1 H2] [H3 H4]; rewrite sum_blk -H4 sumrB.
  by apply/eqP; rewrite subr_eq0; apply/eqP; exact: H3 H1 H2.
rewrite [X in _ = _ - X]sum_zero ?subr0; last by apply: (F2 _ S3 T3) => t; exact: load_bilin.
by move/eqP; rewrite subr_eq0 => /eqP.
Qed.

Lemma pw_aux1 (v i w j z : C) :
  (v - z * i) * (w - z * j) - (v + z * i) * (w + z * j) = - (2%:R * z * (v * j + w * i)).
Proof. ring. Qed.
Lemma pw_aux2 (v i w j z : C) :
  (v + z * i) * (w + z * j) - (v - z * i) * (w - z * j) = 2%:R * z * (v * j + w * i).
Proof. ring. Qed.

(** power taken by a load *)
Lemma load_power z l (v i : C) : 0 < z -> passive_load l -> load_law z l v i -> 'Re (v * i^*) <= 0.
Proof.
move=> Hz; case: l => [Z|Y|R] /= Hl.
- move=> ->; rewrite mulNr raddfN /= oppr_le0 -mulrA -normCK.
  by rewrite ReMr ?rpredX ?normr_real // mulr_ge0 // exprn_ge0.
- move=> ->; rewrite rmorphN rmorphM mulrN raddfN /= oppr_le0.
  rewrite mulrCA -normCK ReMr ?rpredX ?normr_real // Re_conj mulr_ge0 //.
  by rewrite exprn_ge0.
move=> E; have : `|v + z * i| ^+ 2 <= `|v - z * i| ^+ 2.
  by rewrite E normrM exprMn ler_pimull ?exprn_ge0 ?exprn_ile1.
have Hc : z^* = z by apply/CrealP; exact: gtr0_real.
rewrite !normCK rmorphD rmorphB /= rmorphM Hc.
rewrite -subr_ge0.
have -> : (v - z * i) * (v^* - z * i^*) - (v + z * i) * (v^* + z * i^*)
          = - (2%:R * z * (v * i^* + (v * i^*)^*)).
  by rewrite rmorphM conjCK; exact: pw_aux1.
have two : (2%:R : C) != 0 by rewrite pnatr_eq0.
have -> : v * i^* + (v * i^*)^* = 2%:R * 'Re (v * i^*) by rewrite ReE mulrCA mulfV // mulr1.
by rewrite oppr_ge0 !pmulr_rle0 ?mulr_gt0 ?ltr0n.
Qed.

Lemma load_lossless z l (v i : C) : 0 < z -> lossless_load l -> load_law z l v i -> 'Re (v * i^*) = 0.
Proof.
move=> Hz; case: l => [Z|Y|R] /= Hl.
- by move=> ->; rewrite mulNr raddfN /= -mulrA -normCK ReMr ?rpredX ?normr_real // Hl mul0r oppr0.
- move=> ->; rewrite rmorphN rmorphM mulrN raddfN /=.
  by rewrite mulrCA -normCK ReMr ?rpredX ?normr_real // Re_conj Hl mul0r oppr0.
move=> E; have : `|v + z * i| ^+ 2 = `|v - z * i| ^+ 2.
  by rewrite E normrM Hl mul1r.
have Hc : z^* = z by apply/CrealP; exact: gtr0_real.
rewrite !normCK rmorphD rmorphB /= rmorphM Hc => /eqP.
rewrite -subr_eq0.
have -> : (v + z * i) * (v^* + z * i^*) - (v - z * i) * (v^* - z * i^*)
          = 2%:R * z * (v * i^* + (v * i^*)^*).
  by rewrite rmorphM conjCK; exact: pw_aux2.
have two : (2%:R : C) != 0 by rewrite pnatr_eq0.
have -> : v * i^* + (v * i^*)^* = 2%:R * 'Re (v * i^*) by rewrite ReE mulrCA mulfV // mulr1.
by rewrite !mulf_eq0 (negbTE two) gt_eqF //= => /eqP.
Qed.

Lemma sat_power z ns h c f fl v i : reach z ns h c -> no_deembed h ->
  sat z (net_hist h) f fl v i ->
  \sum_(p <- ports c) 'Re (v p * (i p)^*)
  = \sum_(nb <- nblk (net_hist h)) power_in (osize nb.2.2) (fun k => v (dot nb.1 (nth "" nb.2.1 k)))
        (fun k => i (dot nb.1 (nth "" nb.2.1 k)))
    - \sum_(t <- nterm (net_hist h)) 'Re (v t.1 * (i t.1)^*).
Proof.
move=> Hr Hd [S1 S2 S3 _ _].
have HC := reach_CI Hr; have HI := ci_inv HC.
have [_ Hsz] := reach_wf Hr.
rewrite (@tellegen _ _ _ _ (net_hist h) (fun p => 'Re (v p * (i p)^*)) (ports c) (v_un HI) (v_us HI)
  (reach_clean Hr Hd) _ (v_up HI) (v_fp HI)); last first.
  by elim: S2 => // j s Hj _ IH; constructor=> //; exact: join_power.
congr (_ - _); elim: Hsz => [|nb s Hn _ IH]; first by rewrite !big_nil.
by rewrite !big_cons IH sum_blk Hn.
Qed.

Lemma sat_passive z ns h c f fl v i : 0 < z -> reach z ns h c -> no_deembed h ->
  all_blocks (passive_obj f fl) (net_hist h) -> all_loads (@passive_load C) (net_hist h) ->
  sat z (net_hist h) f fl v i -> 0 <= \sum_(p <- ports c) 'Re (v p * (i p)^*).
Proof.
move=> Hz Hr Hd Hb Hl Hs; rewrite (sat_power Hr Hd Hs); case: Hs => S1 _ S3 _ _.
rewrite addr_ge0 //; first by apply: sum_pos; apply: (F2 _ S1 Hb) => nb H1 H2; exact: H2 H1.
rewrite -sumrN; apply: sum_pos; apply: (F2 _ S3 Hl) => t H1 H2.
by rewrite oppr_ge0; exact: load_power Hz H2 H1.
Qed.

Lemma sat_lossless z ns h c f fl v i : 0 < z -> reach z ns h c -> no_deembed h ->
  all_blocks (lossless_obj f fl) (net_hist h) -> all_loads (@lossless_load C) (net_hist h) ->
  sat z (net_hist h) f fl v i -> \sum_(p <- ports c) 'Re (v p * (i p)^*) = 0.
Proof.
move=> Hz Hr Hd Hb Hl Hs; rewrite (sat_power Hr Hd Hs); case: Hs => S1 _ S3 _ _.
rewrite !sum_zero ?subr0 //; last by apply: (F2 _ S1 Hb) => nb H1 H2; exact: H2 H1.
by apply: (F2 _ S3 Hl) => t H1 H2; exact: load_lossless Hz H2 H1.
Qed.

Lemma sum_ports (ps : seq string) (b : string -> C) :
  \sum_(p <- ps) b p = \sum_(k < size ps) b (nth "" ps k).
Proof. by rewrite (big_nth "") big_mkord. Qed.

Lemma net_recip_gen z ns h c f fl : reach z ns h c -> no_deembed h ->
  all_blocks (recip_obj f fl) (net_hist h) -> forall ps v i v' i' w j w' j', ports c = ps ->
  sat z (net_hist h) f fl v i -> sat z (net_hist h) f fl v' i' ->
  (forall k, (k < size ps)%N -> v (nth "" ps k) = w k /\ i (nth "" ps k) = j k) ->
  (forall k, (k < size ps)%N -> v' (nth "" ps k) = w' k /\ i' (nth "" ps k) = j' k) ->
  \sum_(k < size ps) w k * j' k = \sum_(k < size ps) w' k * j k.
Proof.
move=> Hr Hd Hb ps v i v' i' w j w' j' Ep Hs Hs' E E'.
have := sat_recip Hr Hd Hb Hs Hs'; rewrite Ep !sum_ports => H.
transitivity (\sum_(k < size ps) v (nth "" ps k) * i' (nth "" ps k)).
  by apply: eq_bigr => k _; have [-> _] := E k (ltn_ord k); have [_ ->] := E' k (ltn_ord k).
rewrite H; apply: eq_bigr => k _.
by have [_ ->] := E k (ltn_ord k); have [-> _] := E' k (ltn_ord k).
Qed.

Lemma power_ports ps (v i : asg C) (w j : vi C) :
  (forall k, (k < size ps)%N -> v (nth "" ps k) = w k /\ i (nth "" ps k) = j k) ->
  power_in (size ps) w j = \sum_(p <- ps) 'Re (v p * (i p)^*).
Proof.
by move=> E; rewrite sum_ports; apply: eq_bigr => k _; have [-> ->] := E k (ltn_ord k).
Qed.
End Net.

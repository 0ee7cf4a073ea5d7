(** Properties C10-C25, C27, C28: circuits.  Model: CircModel.v, CircMaxV.v,
    CircNest.v; specification: CircSpec.v (networks and their solutions), CircHist.v
    (histories of calls).  In all theorems
    - C is a numClosedFieldType (exact complex numbers), F the frequencies, Fl the
      flags dictionaries, K the class of block objects (their getS returns the
      scattering matrix of a fixed meaning or raises), nan the placeholder that
      addblock writes, getpos an arbitrary position function;
    - [reach z ns h c]: the circuit c is what rfCircuit(Zbase=z, Portnames=ns) is
      after the calls h, of which only getS may have raised;
    - [net_hist h]: the network these calls describe;
    - [get1S f z' [::] fl c]: getS(f, Zbase=z', flags=fl) (0 for None). *)
From mathcomp Require Import all_ssreflect all_algebra.
From Coq Require Import String Ascii.
From Coq Require List.
From Verif Require Import Base MxLib ConvModel ConvSpec ConvProofs ConvArr CircModel CircSpec CircLib CircInv CircTerm CircApp CircConn CircAdd CircDe CircFill CircSolve CircExt CircHist CircGet CircMain CircOrd CircThm CircThm2 CircThm3 CircThm4 CircThm5 CircMaxV CircNest CircFlat CircDev CircThm6 CircEx.
Set Implicit Arguments.
Unset Strict Implicit.
Unset Printing Implicit Defensive.
Import Order.TTheory GRing.Theory Num.Theory.
Local Open Scope string_scope.
Local Open Scope ring_scope.
Local Open Scope seq_scope.

Section Props.
Variable C : numClosedFieldType.
Variables F Fl : eqType.
Variable K : vcls C F Fl.
Variable nan : C.
Variable getpos : circ K -> string -> res C.
Notation circ := (circ K).
Notation net := (net K).
Notation op := (op K).
Notation reach := (reach nan getpos).
Implicit Types (c : circ) (N : net) (h : seq (event K)).

(** ** C10 *)
Theorem C10_bookkeeping z ns h c : reach z ns h c ->
  [/\ all (fun r => size r == size (waves c)) (mM c), size (eqns c) = size (mM c),
      uniq (waves c),
      (forall p, p \in ports c -> (fwd p \in waves c) && (bwd p \in waves c)) /\
      (forall p, (p \in ports c) = free (net_hist h) p) &
      tried (past_of h) = false -> size (waves c) = (size (mM c) + size (ports c))%N].
Proof. exact: thm_C10. Qed.

(** ** C11 *)
Theorem C11_connect_kirchhoff z ns h c ps c' : reach z ns h c -> tried (past_of h) = false ->
  connect getpos c ps = (c', Ok tt) ->
  let olds := [seq p <- ps | p \in nodes (net_hist h)] in
  let news := [seq p <- ps | p \notin nodes (net_hist h)] in
  exists k rows, [/\ (size news <= 1)%N,
    mM c' = [seq r ++ nseq k 0 | r <- mM c] ++ rows, size rows = size ps &
    forall w, (forall r, List.In r rows -> row_holds (waves c') r w) <->
      join_law (V_of w) (I_of z w) (olds, if news is p :: _ then Some p else None)].
Proof. exact: thm_C11. Qed.

(** ** C12 *)
Theorem C12_getS_network z ns h c f z' fl c' r : reach z ns h c -> may_ask h f fl ->
  get1S f z' [::] fl c = (c', r) ->
  match r with
  | Ok Sm => net_S z (zreq z' z) (net_hist h) f fl (ports c') Sm /\ well_posed z (net_hist h) f fl
  | Raise e => causes z z' ns (net_hist h) (ports c) f fl e
  end.
Proof. exact: thm_C12. Qed.

Theorem C12_returns_iff z ns h c f z' fl : reach z ns h c -> may_ask h f fl ->
  (forall e, ~ blk_raises (net_hist h) z f fl e) ->
  (ns = [::] \/ perm_eq ns (ports c)) -> (exists p, free (net_hist h) p) ->
  let r := (get1S f z' [::] fl c).2 in
  ((exists S, r = Ok S) <->
     well_posed z (net_hist h) f fl /\ (z' = 0 \/ exists S', net_S z z' (net_hist h) f fl (ports c) S')) /\
  ((forall S, r <> Ok S) <-> r = Raise LinAlgError).
Proof. exact: thm_C12_iff. Qed.

Theorem C12_matrix_unique zc z N f fl ps S S' : z != 0 ->
  @net_S C F Fl K zc z N f fl ps S -> net_S zc z N f fl ps S' -> S = S'.
Proof. exact: net_S_unique. Qed.

(** ** C13 *)
Theorem C13_same_network z ns1 ns2 h1 h2 c1 c2 f z' fl c1' c2' S1 S2 :
  reach z ns1 h1 c1 -> reach z ns2 h2 c2 ->
  same_sat z (net_hist h1) (net_hist h2) f fl -> free (net_hist h1) =1 free (net_hist h2) ->
  may_ask h1 f fl -> may_ask h2 f fl ->
  get1S f z' [::] fl c1 = (c1', Ok S1) -> get1S f z' [::] fl c2 = (c2', Ok S2) ->
  ports c1' =i ports c2' /\
  forall p q, p \in ports c1' -> q \in ports c1' -> entry (ports c1') S1 p q = entry (ports c2') S2 p q.
Proof. exact: thm_C13. Qed.

Theorem C13_independent_calls_commute z ns1 ns2 h1 h2 c1 c2 f z' fl c1' c2' S1 S2 :
  reach z ns1 h1 c1 -> reach z ns2 h2 c2 -> reordered (build_only h1) (build_only h2) ->
  may_ask h1 f fl -> may_ask h2 f fl ->
  get1S f z' [::] fl c1 = (c1', Ok S1) -> get1S f z' [::] fl c2 = (c2', Ok S2) ->
  ports c1' =i ports c2' /\
  forall p q, p \in ports c1' -> q \in ports c1' -> entry (ports c1') S1 p q = entry (ports c2') S2 p q.
Proof. exact: thm_C13_order. Qed.

(** and one of them returns if the other does *)
Theorem C13_same_outcome z ns1 ns2 h1 h2 c1 c2 f z' fl :
  reach z ns1 h1 c1 -> reach z ns2 h2 c2 ->
  same_sat z (net_hist h1) (net_hist h2) f fl -> free (net_hist h1) =1 free (net_hist h2) ->
  nodes (net_hist h1) =i nodes (net_hist h2) ->
  may_ask h1 f fl -> may_ask h2 f fl ->
  (forall e, ~ blk_raises (net_hist h1) z f fl e) -> (forall e, ~ blk_raises (net_hist h2) z f fl e) ->
  (ns1 = [::] \/ perm_eq ns1 (ports c1)) -> (ns2 = [::] \/ perm_eq ns2 (ports c2)) ->
  (exists S1, (get1S f z' [::] fl c1).2 = Ok S1) -> exists S2, (get1S f z' [::] fl c2).2 = Ok S2.
Proof. exact: thm_returns. Qed.

(** ** C14 *)
Theorem C14_portnames_order z ns h c f z' fl c' S : reach z ns h c -> may_ask h f fl ->
  get1S f z' [::] fl c = (c', Ok S) ->
  ports c' = [seq p <- (if ns is [::] then made h else ns) | free (net_hist h) p].
Proof. exact: thm_C14. Qed.

Theorem C14_bad_portnames z ns h c f z' fl c' r : reach z ns h c -> tried (past_of h) = false ->
  get1S f z' [::] fl c = (c', r) -> ns <> [::] -> ~~ perm_eq ns (ports c) ->
  (exists p, free (net_hist h) p) ->
  exists e, [/\ r = Raise e, ports c' = ports c & e = ValueError \/ blk_raises (net_hist h) z f fl e].
Proof. exact: thm_C14_reject. Qed.

(** ** C15 *)
Theorem C15_Z_as_RC c p Z : Z + zb c != 0 ->
  terminate c p [:: ("Z", Z)] = terminate c p [:: ("RC", (Z - zb c) / (Z + zb c))].
Proof. exact: thm_C15_ZRC. Qed.

Theorem C15_Z_as_Y c p Z : Z != 0 ->
  terminate c p [:: ("Z", Z)] = terminate c p [:: ("Y", Z^-1)].
Proof. exact: thm_C15_ZY. Qed.

Theorem C15_default_matched c p : terminate c p [::] = terminate c p [:: ("RC", 0)].
Proof. exact: thm_C15_none. Qed.

Theorem C15_rejected c p kw :
  (1 < size kw)%N \/ (exists k v, kw = [:: (k, v)] /\ k \notin [:: "Z"; "Y"; "RC"]) ->
  terminate c p kw = (c, Raise ValueError).
Proof. exact: thm_C15_reject. Qed.

Theorem C15_load_law z ns h c p kw c' : reach z ns h c -> terminate c p kw = (c', Ok tt) ->
  (exists2 r, List.In r (mM c') &
    forall w, row_holds (waves c') r w <-> load_law z (load_of kw) (V_of w p) (I_of z w p)) /\
  (forall q, (q \in ports c') = (q \in ports c) && (q != p)).
Proof. exact: thm_C15_law. Qed.

Theorem C15_accepted z ns h c p kw rho : reach z ns h c -> free (net_hist h) p ->
  rho_of z kw = Ok rho -> exists c', terminate c p kw = (c', Ok tt).
Proof. exact: term_ok. Qed.

(** ** C16 *)
Theorem C16_terminate_after_getS z ns a gets b p kw c1 c2 f z' fl c1' c2' S1 S2 :
  only_getS gets -> free (net_hist a) p ->
  reach z ns (a ++ gets ++ (OTerm K p kw, true) :: b) c1 ->
  reach z ns (a ++ (OTerm K p kw, true) :: b) c2 ->
  may_ask (a ++ gets ++ (OTerm K p kw, true) :: b) f fl ->
  may_ask (a ++ (OTerm K p kw, true) :: b) f fl ->
  get1S f z' [::] fl c1 = (c1', Ok S1) -> get1S f z' [::] fl c2 = (c2', Ok S2) ->
  S1 = S2 /\ ports c1' = ports c2'.
Proof. exact: thm_C16. Qed.

(** ** C17: false for the frequency and flags asked for last (C17_refuted below) *)
Theorem C17_stale f z' fl c c1 S p kw c2 z2 : p \in dkeys (dT c1) ->
  get1S f z' [::] fl c = (c1, Ok S) -> terminate c1 p kw = (c2, Ok tt) ->
  get1S f z' [::] fl c2 = (c2, Ok S) /\
  forall S2, get1S f z2 [::] fl c1 = (c1, Ok S2) -> get1S f z2 [::] fl c2 = (c2, Ok S2).
Proof. exact: thm_C17_stale. Qed.

(** true for the others: [may_ask] holds then *)
Theorem C17_other_frequency z ns h c p kw f z' fl c' S :
  reach z ns (rcons h (OTerm K p kw, true)) c -> (f, fl) \notin asked (past_of h) ->
  get1S f z' [::] fl c = (c', Ok S) ->
  net_S z (zreq z' z) (net_step (net_hist h) (OTerm K p kw)) f fl (ports c') S.
Proof.
move=> Hr Hn G.
have Hm : may_ask (rcons h (OTerm K p kw, true)) f fl.
  by rewrite /may_ask past_rcons /= (negbTE Hn) andbF.
by have [H _] := thm_C12 Hr Hm G; rewrite net_rcons in H.
Qed.

(** ** C18 *)
Theorem C18_history_free z ns h1 h2 c1 c2 f z' fl c1' c2' S1 S2 :
  reach z ns h1 c1 -> reach z ns h2 c2 -> build_only h1 = build_only h2 ->
  may_ask h1 f fl -> may_ask h2 f fl ->
  get1S f z' [::] fl c1 = (c1', Ok S1) -> get1S f z' [::] fl c2 = (c2', Ok S2) ->
  S1 = S2 /\ ports c1' = ports c2'.
Proof. exact: thm_C18. Qed.

Theorem C18_same_outcome z ns h1 h2 c1 c2 f z' fl :
  reach z ns h1 c1 -> reach z ns h2 c2 -> build_only h1 = build_only h2 ->
  may_ask h1 f fl -> may_ask h2 f fl ->
  (forall e, ~ blk_raises (net_hist h1) z f fl e) -> (ns = [::] \/ perm_eq ns (ports c1)) ->
  (exists S1, (get1S f z' [::] fl c1).2 = Ok S1) -> exists S2, (get1S f z' [::] fl c2).2 = Ok S2.
Proof.
move=> H1 H2 Eb M1 M2 B1 P1.
have En : net_hist h1 = net_hist h2 by rewrite !net_build Eb.
have Hp : perm_eq (ports c1) (ports c2).
  apply: uniq_perm; [exact: (v_up (ci_inv (reach_CI H1)))|exact: (v_up (ci_inv (reach_CI H2)))|].
  by move=> p; rewrite (v_fp (ci_inv (reach_CI H1))) (v_fp (ci_inv (reach_CI H2))) En.
apply: (thm_returns H1 H2) => //; rewrite -?En //.
by case: P1 => [->|P1]; [left|right; exact: seq.perm_trans P1 Hp].
Qed.

(** ** C19 *)
Theorem C19_replace_block z ns h1 h2 a b nm o1 o2 pa1 pa2 pa3 x1 x2 x3 ps c1 c2 f z' fl c1' c2' S1 S2 :
  nm \notin dkeys (nblk (net_of a)) -> all (fun q => ~~ touches nm q) b ->
  resolve_ports (osize o1) (oports o1) pa1 = Ok ps -> resolve_ports (osize o2) (oports o2) pa2 = Ok ps ->
  build_only h1 = a ++ OAdd nm o1 pa1 x1 :: b ++ [:: OAdd nm o2 pa3 x3] ->
  build_only h2 = a ++ OAdd nm o2 pa2 x2 :: b ->
  reach z ns h1 c1 -> reach z ns h2 c2 -> may_ask h1 f fl -> may_ask h2 f fl ->
  get1S f z' [::] fl c1 = (c1', Ok S1) -> get1S f z' [::] fl c2 = (c2', Ok S2) ->
  S1 = S2 /\ ports c1' = ports c2'.
Proof. exact: thm_C19. Qed.

(** a wrong number of ports: refused, but with KeyError (the ValueError's message
    looks up a block called "object"), and the cached result is forgotten *)
Theorem C19_wrong_size z ns h c nm ps o0 o pa x : reach z ns h c ->
  dget (nblk (net_hist h)) nm = Some (ps, o0) -> osize o != size ps ->
  addblock nan c nm o pa x = (uncache c, Raise (if "object" \in dkeys (nblk (net_hist h)) then ValueError else KeyError)).
Proof. exact: thm_C19_reject. Qed.

(** ** C20 *)
Theorem C20_terminate z ns h c p kw c' e : reach z ns h c ->
  terminate c p kw = (c', Raise e) -> c' = c.
Proof. exact: thm_C20_term. Qed.

Theorem C20_addblock c nm o pa x c' e : addblock nan c nm o pa x = (c', Raise e) -> c' = uncache c.
Proof. exact: thm_C20_add. Qed.

Theorem C20_forgetting z ns h c f z' fl c1 c2 S1 S2 : reach z ns h c -> may_ask h f fl ->
  get1S f z' [::] fl c = (c1, Ok S1) -> get1S f z' [::] fl (uncache c) = (c2, Ok S2) ->
  S1 = S2 /\ ports c1 = ports c2.
Proof. exact: thm_C20_uncache. Qed.

Theorem C20_connect_names c ps : (1 < size (newports c ps))%N \/
  (exists p, newports c ps = [:: p] /\ has_char "."%char p) ->
  connect getpos c ps = (c, Raise ValueError).
Proof. exact: thm_C20_conn_early. Qed.

(** connecting a free port with a used one raises, and the free port is lost *)
Theorem C20_connect_refuted z ns h c p q : reach z ns h c -> free (net_hist h) p ->
  q \in nodes (net_hist h) -> free (net_hist h) q = false ->
  exists c', [/\ connect getpos c [:: p; q] = (c', Raise ValueError), p \in ports c &
                 ports c' = rem p (ports c)].
Proof. exact: thm_C20_conn_refuted. Qed.

(** deembedding an unknown port raises, and the new port stays *)
Theorem C20_deembed_refuted c dp ip : ip \notin ports c -> dp \notin ports c -> dp != ip ->
  exists c', deembed c [:: (dp, ip)] [::] = (c', Raise ValueError) /\ ports c' = rcons (ports c) ip.
Proof. exact: thm_C20_deembed_refuted. Qed.

(** ** C21: refuted, getS raises for ever after *)
Theorem C21_addblock_after_getS_refuted z ns h c f z' fl c1 S1 nm o pa x c2 f2 z2 fl2 : reach z ns h c -> may_ask h f fl ->
  get1S f z' [::] fl c = (c1, Ok S1) -> nm \notin dkeys (nblk (net_hist h)) -> (0 < osize o)%N ->
  addblock nan c1 nm o pa x = (c2, Ok tt) ->
  exists e, (get1S f2 z2 [::] fl2 c2).2 = Raise e.
Proof. exact: thm_C21_add. Qed.

Theorem C21_connect_after_getS_refuted z ns h c f z' fl c1 S1 ps c2 f2 z2 fl2 : reach z ns h c -> may_ask h f fl ->
  get1S f z' [::] fl c = (c1, Ok S1) -> ps <> [::] ->
  connect getpos c1 ps = (c2, Ok tt) -> exists e, (get1S f2 z2 [::] fl2 c2).2 = Raise e.
Proof. exact: thm_C21_conn. Qed.

(** ** C22 (one level: the nodes of the circuit itself) *)
Theorem C22_solution z ns h c f E z' fl c' S : reach z ns h c -> may_ask h f fl ->
  order_known ns h ->
  let zz := if z' == 0 then z else z' in
  {subset ports c <= dkeys E} ->
  get1S f zz [::] fl c = (c', Ok S) ->
  exists res (v i : asg C), [/\ Solution1 f E z' fl c = (c', Ok res),
    sat z (net_hist h) f fl v i,
    (forall p, free (net_hist h) p -> dget E p = Some ((v p + zz * i p) / 2%:R)) /\
    (forall p, free (net_hist h) p -> (v p - zz * i p) / 2%:R =
       \sum_(q <- ports c') entry (ports c') S p q * ((v q + zz * i q) / 2%:R)),
    dkeys res =i nodes (net_hist h) /\ uniq (dkeys res) &
    forall p x, List.In (p, x) res ->
      x = (v p, i p, (v p + zz * i p) / 2%:R, (v p - zz * i p) / 2%:R)].
Proof. exact: thm_C22. Qed.

(** ** C23: true once the order of the ports is settled *)
Theorem C23_repeatable z ns h c f E z' fl c' r : reach z ns h c -> may_ask h f fl ->
  order_known ns h ->
  let zz := if z' == 0 then z else z' in
  {subset ports c <= dkeys E} ->
  Solution1 f E z' fl c = (c', Ok r) -> Solution1 f E z' fl c' = (c', Ok r).
Proof. exact: thm_C23. Qed.

(** ** C25 *)
Theorem C25_deembed_undoes_embedding z ns h c f z' fl c' S nE nD oE oD paE paD xE xD (psE : seq string) q d1 d2 p
    (O : (nat -> C) -> (nat -> C) -> Prop) (D : C -> C -> C -> C -> Prop) :
  build_only h = [:: OAdd nE oE paE xE; OAdd nD oD paD xD;
                     ODeembed K [:: (dot nD d1, p)] [:: (dot nE q, dot nD d2)]] ->
  resolve_ports (osize oE) (oports oE) paE = Ok psE ->
  resolve_ports (osize oD) (oports oD) paD = Ok [:: d1; d2] ->
  q \in psE -> nE != nD ->
  let k := seq.index q psE in
  (forall v i v' i', (forall j, (j < size psE)%N -> v j = v' j /\ i j = i' j) -> O v i -> O v' i') ->
  (forall v i, oden oD f fl v i <-> D (v 0%N) (i 0%N) (v 1%N) (i 1%N)) ->
  (forall v i, oden oE f fl v i <-> embedded O D k v i) ->
  (forall x1 y1 x1' y1' x2 y2, D x1 y1 x2 y2 -> D x1' y1' x2 y2 -> x1 = x1' /\ y1 = y1') ->
  (forall x1 y1, exists x2 y2, D x1 y1 x2 y2) ->
  reach z ns h c -> may_ask h f fl -> get1S f z' [::] fl c = (c', Ok S) ->
  let port j := if j == k then p else dot nE (nth "" psE j) in
  ports c' =i [seq port j | j <- iota 0 (size psE)] /\
  forall v i : asg C,
    rel_S (zreq z' z) (size (ports c')) S (fun j => v (nth "" (ports c') j)) (fun j => i (nth "" (ports c') j)) <->
    O (fun j => v (port j)) (fun j => i (port j)).
Proof. exact: thm_C25. Qed.

(** ** C27 *)
Theorem C27_port_names c nm o pa x c' : addblock nan c nm o pa x = (c', Ok tt) ->
  nm \notin dkeys (blocks c) ->
  exists ops, [/\ resolve_ports (osize o) (oports o) pa = Ok ops, size ops = osize o,
    ports c' = ports c ++ [seq nm +s+ ("." +s+ p) | p <- ops] &
    waves c' = waves c ++ [seq "->" +s+ (nm +s+ ("." +s+ p)) | p <- ops] ++ [seq "<-" +s+ (nm +s+ ("." +s+ p)) | p <- ops]].
Proof. exact: thm_C27_names. Qed.

(** ** C28 *)
Variable omax : K -> option (F -> seq (string * C) -> C -> Fl -> string -> K * res (C * string)).

Theorem C28_maxV z ns h c f E z' fl Id c' S c'' best : reach z ns h c -> may_ask h f fl ->
  order_known ns h ->
  let zz := if z' == 0 then z else z' in
  {subset ports c <= dkeys E} ->
  get1S f zz [::] fl c = (c', Ok S) ->
  (forall o m f E z fl nm o' t n, omax o = Some m -> m f E z fl nm = (o', Ok (t, n)) -> t \is Num.real) ->
  maxV getpos omax f E z' fl Id c = (c'', Ok best) ->
  let N := net_hist h in
  exists (v i : asg C) t n, [/\ best = Some (t, n), sat z N f fl v i,
    (forall p, free N p -> dget E p = Some ((v p + zz * i p) / 2%:R)),
    (forall p, p \in nodes N -> `|v p| <= t) /\
    (forall nm ps o0, List.In (nm, (ps, o0)) (nblk N) ->
       exists2 o, after_getS o0 o & (oports o <> None -> omax o <> None ->
          exists t1 n1, blk_max omax z N f fl v i nm t1 n1 /\ t1 <= t)) &
    (exists2 p, p \in nodes N & t = `|v p| /\ n = dot Id p) \/
    (exists nm n1, blk_max omax z N f fl v i nm t n1 /\ n = dot nm n1)].
Proof. exact: thm_C28. Qed.

Theorem C28_maxV_returns z ns h c f E z' fl Id c' S : reach z ns h c -> may_ask h f fl ->
  {subset ports c <= dkeys E} ->
  get1S f (if z' == 0 then z else z') [::] fl c = (c', Ok S) ->
  (forall p, p \in nodes (net_hist h) -> exists x, getpos c' p = Ok x) ->
  (forall o m f E z fl nm, omax o = Some m -> exists o' tn, m f E z fl nm = (o', Ok tn)) ->
  exists c'' best, maxV getpos omax f E z' fl Id c = (c'', Ok best).
Proof. exact: maxV_ok. Qed.

Theorem C28_missing_excitation f E z' fl Id c p : p \in ports c -> p \notin dkeys E ->
  maxV getpos omax f E z' fl Id c = (c, Raise ValueError).
Proof. exact: maxV_missing. Qed.
End Props.

(** a named port that was used up later makes maxV raise (its position is lost) *)
Theorem C28_used_port_refuted (C : numClosedFieldType) (F Fl : eqType) (K : vcls C F Fl) (nan : C)
    (omax : K -> option (F -> seq (string * C) -> C -> Fl -> string -> K * res (C * string)))
    z ns h (c : circ K) f E z' fl Id p : reach nan (@getpos_flat C F Fl K) z ns h c ->
  may_ask h f fl ->
  p \in nodes (net_hist h) -> ~~ has_char "."%char p -> free (net_hist h) p = false ->
  exists e, (maxV (@getpos_flat C F Fl K) omax f E z' fl Id c).2 = Raise e.
Proof. exact: maxV_lost. Qed.

(** *** naming: what the ports argument of addblock means *)
Theorem C27_default_names ps : ps <> [::] -> resolve_ports (size ps) (Some ps) PNone = Ok ps.
Proof. exact: resolve_default. Qed.
Theorem C27_renamed ps d : ps <> [::] -> uniq ps -> uniq (dkeys d) -> {subset dkeys d <= ps} ->
  resolve_ports (size ps) (Some ps) (PDict d) =
  Ok [seq if dget d p is Some q then q else p | p <- ps].
Proof. exact: resolve_dict. Qed.
Theorem C27_unknown_port_rejected ps n d k : uniq ps -> uniq (dkeys d) -> k \in dkeys d -> k \notin ps ->
  resolve_ports n (Some ps) (PDict d) = Raise ValueError.
Proof. exact: resolve_dict_bad. Qed.
Theorem C27_list n ops l : resolve_ports n ops (PList l) = if size l == n then Ok l else Raise ValueError.
Proof. exact: resolve_list. Qed.
Theorem C27_numbers n : resolve_ports n None PNone = Ok [seq dec k | k <- iota 1 n] /\
  uniq [seq dec k | k <- iota 1 n].
Proof. by split; [exact: resolve_numbers|exact: numbers_uniq]. Qed.
(** the caller's mapping is emptied *)
Theorem C27_mapping_kept_refuted ps n d ops : resolve_ports n (Some ps) (PDict d) = Ok ops ->
  portarg_after (Some ps) (PDict d) = PDict [::].
Proof. exact: dict_emptied. Qed.

(** ** C24: devices and circuits nested to any depth n *)
Theorem C24_flattened (C : numClosedFieldType) (F Fl : eqType) (K : vcls C F Fl) (nan : C)
    (getpos : forall K' : vcls C F Fl, circ K' -> string -> res C) (tag : nat -> string -> string)
    z ns n h (c : circ (deep K nan getpos n)) f z' fl c' Sm :
  reach nan (@getpos (deep K nan getpos n)) z ns h c -> may_ask h f fl ->
  full_ok tag z (net_hist h) ->
  get1S f z' [::] fl c = (c', Ok Sm) ->
  net_S z (zreq z' z) (full tag (net_hist h)) f fl (ports c') Sm.
Proof. exact: thm_C24. Qed.

(** the solutions of the flat network, seen from the outer circuit's nodes *)
Theorem C24_same_solutions (C : numClosedFieldType) (F Fl : eqType) (K : vcls C F Fl) (nan : C)
    (getpos : forall K' : vcls C F Fl, circ K' -> string -> res C) (tag : nat -> string -> string)
    z n (N : net (deep K nan getpos n)) f fl : net_wf N -> blks_inv N -> full_ok tag z N ->
  forall v i : asg C, (exists v' i' : asg C, (forall p, p \in nodes N -> v' p = v p /\ i' p = i p) /\
    sat z (full tag N) f fl v' i') <-> sat z N f fl v i.
Proof. exact: full_same. Qed.

(** a circuit is a block object that keeps its meaning (so it can be a block) *)
Theorem C24_circuit_as_block (C : numClosedFieldType) (F Fl : eqType) (K : vcls C F Fl) (nan : C)
    (getpos : circ K -> string -> res C) (o : ncirc K) f z fl : n_inv nan getpos o -> z != 0 ->
  let r := n_getS f z fl o in
  [/\ n_inv nan getpos r.1, size (ports (n_c r.1)) = size (ports (n_c o)), ports (n_c r.1) = ports (n_c o),
      (forall f' fl' v i, n_den r.1 f' fl' v i <-> n_den o f' fl' v i) &
      (forall S, r.2 = Ok S -> shape_ok (size (ports (n_c o))) S /\
         forall v i, n_den o f fl v i <-> rel_S z (size (ports (n_c o))) S v i)].
Proof.
move=> Hn Hz; have [H1 H2 H3 H4 H5] := @nest_law C F Fl K nan getpos o f z fl Hn Hz.
by case: H3 => H3; split.
Qed.

(** Witnesses for PropsCirc.v (concrete cases that meet the hypotheses) and the
    refutations of the claims that do not hold of the code. *)
From mathcomp Require Import all_ssreflect all_algebra.
From mathcomp Require Import algebra_tactics.ring.
From Coq Require Import String Ascii.
From Coq Require List.
From Verif Require Import Base MxLib ConvModel ConvSpec ConvProofs ConvArr CircModel CircSpec CircLib CircInv CircTerm CircApp CircConn CircAdd CircDe CircFill CircSolve CircExt CircHist CircGet CircMain CircOrd CircThm CircThm2 CircThm3 CircThm4 CircThm5 CircMaxV CircNest CircFlat CircDev CircThm6 CircEx PropsCirc.
Set Implicit Arguments.
Unset Strict Implicit.
Unset Printing Implicit Defensive.
Import Order.TTheory GRing.Theory Num.Theory.
Local Open Scope string_scope.
Local Open Scope ring_scope.
Local Open Scope seq_scope.

(** * Concrete circuits: the hypotheses above are met, and the refutations.  The
    blocks are tables (CircDev.v, CircEx.v): [thru] is a through ([[0,1],[1,0]]),
    [half] a one-port with reflection 1/2; Zbase = 50; hA = addblock a (thru),
    terminate a.2 with RC 1/2; hB = addblock a. *)
Section Wit.
Variable C : numClosedFieldType.
Notation z50 := (z50 C).
Notation KT := (KT C).
Notation event := (CircHist.event KT).
Notation gp := (@gp C).
Notation reach := (CircHist.reach 0 gp).
Notation thru := (thru C).
Notation half := (half C).
Notation wall := (wall C).
Notation hA := (hA C).
Notation hB := (hB C).
Notation hC := (hC C).
Notation hC' := (hC' C).
Notation hD := (hD C).
Notation hG := (hG C).
Notation hI := (hI C).
Notation hM := (hM C).
Notation GetS := (GetS C).
Notation EF := (EF C).
Notation gpn := (@gpn C).

Example C10_witness : exists c, reach z50 [::] hA c /\ tried (past_of hA) = false.
Proof. by have [c H] := exA C; exists c. Qed.

Definition hAB : seq event := [:: Add "a" thru; Add "b" thru].
Example C11_witness : exists c c', [/\ reach z50 [::] hAB c, tried (past_of hAB) = false &
  connect gp c [:: "a.2"; "b.1"] = (c', Ok tt)].
Proof.
have [c [Hz Ho]] := exC C; rewrite /CircEx.hC.
have Hk : hist_ok hAB by move: Ho => /= [H1 [H2 _]]; split.
have -> : [:: Add "a" thru; Add "b" thru; Conn C [:: "a.2"; "b.1"]] = hAB ++ [:: Conn C [:: "a.2"; "b.1"]] by [].
rewrite run_cat; case E: (run _ _ _ _) => [c0|//] /=.
case E2: (connect _ _ _) => [c1 [[]|e]] //= _; exists c0, c1; split=> //; exact: And3.
Qed.

Example C12_witness : exists c c' S, [/\ reach z50 [::] hA c, may_ask hA 7%N tt,
  get1S 7%N 0 [::] tt c = (c', Ok S), (forall e, ~ blk_raises (net_hist hA) z50 7%N tt e) &
  exists p, free (net_hist hA) p].
Proof.
have [c Hr] := exA C; have [c' [S E]] := getA 7%N Hr; exists c, c', S; split=> //.
  exact: noraiseA.
by exists "a.1".
Qed.

Lemma resC0 (v i : asg C) : v "a.1" = v "a.2" /\ i "a.1" = - i "a.2" ->
    v "b.1" = v "b.2" /\ i "b.1" = - i "b.2" ->
    v "a.1" + z50 * i "a.1" = 0 -> v "b.2" + z50 * i "b.2" = 0 ->
    join_law v i ([:: "a.2"; "b.1"], None) ->
    forall p, p \in [:: "a.1"; "a.2"; "b.1"; "b.2"] -> (v p != 0) || (i p != 0) -> False.
Proof.
case=> A1 A2 [B1 B2] F1 F2 [J1 J2].
have J3 : v "a.2" = v "b.1" by apply: J1.
have J4 : i "a.2" + i "b.1" = 0 by rewrite -[RHS]J2 big_cons big_seq1.
have E5 : v "b.2" - z50 * i "b.2" = 0.
  rewrite -[RHS]F1 A1 J3 B1 A2.
  have -> : i "b.2" = i "a.2" by rewrite -[i "b.2"]opprK -B2; apply/eqP; rewrite eq_sym -addr_eq0 J4.
  by rewrite mulrN.
have [V2 I2] := zero_vi F2 E5.
have V1 : v "b.1" = 0 by rewrite B1.
have I1 : i "b.1" = 0 by rewrite B2 I2 oppr0.
have I0 : i "a.2" = 0 by move: J4; rewrite I1 addr0.
by move=> p; rewrite !inE => /or4P[] /eqP ->; rewrite ?A1 ?A2 ?J3 ?V1 ?I1 ?I0 ?V2 ?I2 ?oppr0 eqxx.
Qed.

Lemma resC f fl : ~ resonant z50 (net_hist hC) f fl /\ ~ resonant z50 (net_hist hC') f fl.
Proof.
split; case=> v [i [[Hb Hj _ _ _] Hf [p Hp Hne]]]; have [Hb1 Hb'] := FC Hb; have [Hb2 _] := FC Hb';
    have [Hj1 _] := FC Hj; have Hj2 : join_law v i ([:: "a.2"; "b.1"], None) := Hj1;
    (have F1 : v "a.1" + z50 * i "a.1" = 0 by apply: Hf); (have F2 : v "b.2" + z50 * i "b.2" = 0 by apply: Hf).
- have TA : v "a.1" = v "a.2" /\ i "a.1" = - i "a.2" := iffLR (thruB _ _ _ _ _) Hb1.
  have TB : v "b.1" = v "b.2" /\ i "b.1" = - i "b.2" := iffLR (thruB _ _ _ _ _) Hb2.
  by apply: (resC0 TA TB F1 F2 Hj2 _ Hne).
- have TA : v "a.1" = v "a.2" /\ i "a.1" = - i "a.2" := iffLR (thruB _ _ _ _ _) Hb2.
  have TB : v "b.1" = v "b.2" /\ i "b.1" = - i "b.2" := iffLR (thruB _ _ _ _ _) Hb1.
  apply: (resC0 TA TB F1 F2 Hj2 _ Hne).
  have Hp' : p \in [:: "b.1"; "b.2"; "a.1"; "a.2"] := Hp.
  by move: Hp'; rewrite !inE => /or4P[] ->; rewrite ?orbT.
Qed.

Lemma noraiseC f fl e : ~ blk_raises (net_hist hC) z50 f fl e /\ ~ blk_raises (net_hist hC') z50 f fl e.
Proof. by split; apply: tab_no_raise; repeat constructor; exists [:: [:: 0; 1]; [:: 1; 0]]. Qed.

(** two throughs in series, the calls in two orders: both getS return *)
Example C13_witness : exists c1 c2 c1' c2' S1 S2, [/\ reach z50 [::] hC c1, reach z50 [::] hC' c2,
  reordered (build_only hC) (build_only hC') /\
  (same_sat z50 (net_hist hC) (net_hist hC') 7%N tt /\ free (net_hist hC) =1 free (net_hist hC')),
  get1S 7%N 0 [::] tt c1 = (c1', Ok S1) & get1S 7%N 0 [::] tt c2 = (c2', Ok S2)].
Proof.
have [c1 H1] := exC C; have [c2 H2] := exC' C.
have [c1' [S1 G1]] : exists c' S, get1S 7%N 0 [::] tt c1 = (c', Ok S).
  apply: (getS_returns (h := hC) H1) => //; [by left|by move=> e; case: (noraiseC 7%N tt e)|by exists "a.1"|by case: (resC 7%N tt)].
have [c2' [S2 G2]] : exists c' S, get1S 7%N 0 [::] tt c2 = (c', Ok S).
  apply: (getS_returns (h := hC') H2) => //; [by left|by move=> e; case: (noraiseC 7%N tt e)|by exists "a.1"|by case: (resC 7%N tt)].
have HR : reordered (build_only hC) (build_only hC').
  apply: (@reord_swap _ _ _ _ [::]); last exact: reord_refl.
  by split.
exists c1, c2, c1', c2', S1, S2; split=> //; split=> //.
have HP := reordered_perm HR; rewrite -!net_build in HP.
by split; [exact: net_perm_sat|exact: net_perm_free].
Qed.

(** Portnames = [a.2, a.1], and a wrong one *)
Example C14_witness : exists c c' S, [/\ reach z50 nsF hB c, get1S 7%N 0 [::] tt c = (c', Ok S) &
  ports c' = [:: "a.2"; "a.1"]].
Proof.
have [c [c' [r [r' [Hr Hs _ _]]]]] := exF C.
have Epc : ports c = [:: "a.1"; "a.2"].
  have Ho : omap (fun c : circ KT => ports c) (run 0 gp (new_circ KT z50 nsF) hB) = Some [:: "a.1"; "a.2"].
    by vm_compute.
  by case: Hr => _ _ Hc0; move: Ho; rewrite Hc0 => -[].
have [c1 [S G]] : exists c' S, get1S 7%N 0 [::] tt c = (c', Ok S).
  apply: (getS_returns (h := hB) Hr) => //; [by right; rewrite Epc|exact: noraise|by exists "a.1"|exact: resB].
exists c, c1, S; split=> //; rewrite (C14_portnames_order Hr _ G) //.
Qed.

Example C14_bad_witness : exists c, [/\ reach z50 [:: "q"] hB c, ~~ perm_eq [:: "q"] (ports c) &
  exists p, free (net_hist hB) p].
Proof.
have [c Hr] := exB C [:: "q"]; exists c; split=> //; last by exists "a.1".
apply/negP=> /perm_mem /(_ "q"); rewrite inE eqxx.
by rewrite (v_fp (ci_inv (reach_CI Hr))).
Qed.

Example C15_witness : exists c c', [/\ reach z50 [::] hB c, free (net_hist hB) "a.2",
  rho_of z50 [:: ("Z", 100%:R)] = Ok ((100%:R - z50) / (100%:R + z50)),
  (100%:R + z50 != 0) && ((100%:R : C) != 0) & terminate c "a.2" [:: ("Z", 100%:R)] = (c', Ok tt)].
Proof.
have [c Hr] := exB C [::].
have H0 : (100%:R + z50 != 0) && ((100%:R : C) != 0) by rewrite /CircEx.z50 -natrD !pnatr_eq0.
have E : rho_of z50 [:: ("Z", 100%:R)] = Ok ((100%:R - z50) / (100%:R + z50)).
  by rewrite /rho_of /=; case/andP: H0 => /negbTE ->.
have [|c' Ec] := C15_accepted (p := "a.2") Hr _ E; first by [].
by exists c, c'.
Qed.

Example C16_witness : exists c1 c2 c1' c2' S1 S2, [/\ only_getS [:: GetS],
  free (net_hist hB) "a.2", reach z50 [::] (hB ++ [:: GetS] ++ (OTerm KT "a.2" [:: ("RC", 2%:R^-1)], true) :: [::]) c1,
  reach z50 [::] (hB ++ (OTerm KT "a.2" [:: ("RC", 2%:R^-1)], true) :: [::]) c2 &
  get1S 7%N 0 [::] tt c1 = (c1', Ok S1) /\ get1S 7%N 0 [::] tt c2 = (c2', Ok S2)].
Proof.
have [c1 H1] := exD C; have [c2 H2] := exA C.
have [c1' [S1 G1]] := getD 7%N H1; have [c2' [S2 G2]] := getA 7%N H2.
by exists c1, c2, c1', c2', S1, S2.
Qed.

(** ** C17 is false: a thru with RC 1/2 at a.2; getS; RC 0 at a.2; getS gives the
    matrix with RC 1/2, which is not the matrix of the network *)
Theorem C17_new_load_seen_refuted : exists c c1 c2 (S : rows C),
  [/\ reach z50 [::] hA c, get1S 7%N 0 [::] tt c = (c1, Ok S),
      terminate c1 "a.2" [:: ("RC", 0)] = (c2, Ok tt),
      get1S 7%N 0 [::] tt c2 = (c2, Ok S) &
      ~ net_S z50 z50 (net_hist (hA ++ [:: GetS; Term "a.2" 0])) 7%N tt (ports c2) S].
Proof. exact: exE. Qed.

Lemma resT r f fl : ~ resonant z50 (net_hist [:: Add "a" thru; Term "a.2" (r : C)]) f fl.
Proof.
case=> v [i [[Hb _ Ht _ _] Hf [p Hp Hne]]].
have [Hb1 _] := FC Hb.
have [E1 E2] : v "a.1" = v "a.2" /\ i "a.1" = - i "a.2" := iffLR (thruB _ _ _ _ _) Hb1.
have [/= E3 _] := FC Ht.
have E4 : v "a.1" + z50 * i "a.1" = 0 by apply: Hf.
have E5 : v "a.2" - z50 * i "a.2" = 0 by rewrite -[RHS]E4 E1 E2; ring.
have E6 : v "a.2" + z50 * i "a.2" = 0 by rewrite E3 E5 mulr0.
have [E7 E8] := zero_vi E6 E5.
move: Hp; rewrite !inE => /orP[] /eqP Ep; move: Hne; rewrite Ep; last by rewrite E7 E8 eqxx.
by rewrite E1 E2 E7 E8 oppr0 eqxx.
Qed.

(** at another frequency the new load is used *)
Example C17_other_frequency_witness : exists c c' S,
  [/\ reach z50 [::] (rcons (hA ++ [:: GetS]) (OTerm KT "a.2" [:: ("RC", 0)], true)) c,
      (8%N, tt) \notin asked (past_of (hA ++ [:: GetS])) & get1S 8%N 0 [::] tt c = (c', Ok S)].
Proof.
have [c [c1 [c2 [S [Hr E Et _ _]]]]] := exE C.
have Hr1 : reach z50 [::] (rcons hA GetS) c1.
  by apply: (@reach_snoc _ _ _ _ _ _ _ _ hA c (@OGetS C nat_eqType unit_eqType KT 7%N 0 tt) true c1 Hr);
     rewrite // /exec E.
have Hr2 : reach z50 [::] (rcons (hA ++ [:: GetS]) (OTerm KT "a.2" [:: ("RC", 0)], true)) c2.
  by apply: (@reach_snoc _ _ _ _ _ _ _ _ (rcons hA GetS) c1 (@OTerm C nat_eqType unit_eqType KT "a.2" [:: ("RC", 0)]) true c2 Hr1);
     rewrite // /exec Et.
have [c' [S' G]] : exists c' S, get1S 8%N 0 [::] tt c2 = (c', Ok S).
  apply: (getS_returns Hr2) => //; [by left|exact: noraiseA|by exists "a.1"|exact: resT].
by exists c2, c', S'.
Qed.

Example C18_witness : exists c1 c2 c1' c2' S1 S2,
  [/\ reach z50 [::] [:: Add "a" thru; GetS] c1, reach z50 [::] hB c2,
      build_only [:: Add "a" thru; GetS] = build_only hB :> seq (op KT),
      get1S 8%N 0 [::] tt c1 = (c1', Ok S1) & get1S 8%N 0 [::] tt c2 = (c2', Ok S2)].
Proof.
have [c1 H1] := exBG C; have [c2 H2] := exB C [::].
have [c2' [S2 G2]] := getB 8%N H2.
have [c1' [S1 G1]] : exists c' S, get1S 8%N 0 [::] tt c1 = (c', Ok S).
  apply: (getS_returns H1) => //; [by left|exact: noraise|by exists "a.1"|exact: resB].
by exists c1, c2, c1', c2', S1, S2.
Qed.

Example C19_witness : exists c1 c2 c1' c2' S1 S2,
  [/\ "a" \notin dkeys (nblk (@net_of C nat_eqType unit_eqType KT [::])),
     build_only hG = [::] ++ OAdd "a" wall PNone 0 :: [::] ++ [:: OAdd "a" thru PNone 0] /\
     build_only hB = [::] ++ OAdd "a" thru PNone 0 :: [::],
     resolve_ports (osize wall) (oports wall) PNone = Ok [:: "1"; "2"] /\
     resolve_ports (osize thru) (oports thru) PNone = Ok [:: "1"; "2"],
     reach z50 [::] hG c1 /\ reach z50 [::] hB c2 &
     get1S 7%N 0 [::] tt c1 = (c1', Ok S1) /\ get1S 7%N 0 [::] tt c2 = (c2', Ok S2)].
Proof.
have [c1 H1] := exG C; have [c2 H2] := exB C [::].
have [c1' [S1 G1]] := getG 7%N H1; have [c2' [S2 G2]] := getB 7%N H2.
by exists c1, c2, c1', c2', S1, S2.
Qed.

Example C19_wrong_size_witness : exists c, reach z50 [::] hB c /\
  addblock 0 c "a" half PNone 0 = (uncache c, Raise KeyError).
Proof.
have [c Hr] := exB C [::]; exists c; split=> //.
by rewrite (C19_wrong_size (ps := [:: "1"; "2"]) (o0 := thru) _ _ Hr).
Qed.

Example C20_witness : exists c c', [/\ reach z50 [::] hA c, terminate c "b.9" [::] = (c', Raise ValueError),
  free (net_hist hA) "a.1" & ("a.2" \in nodes (net_hist hA)) && ~~ free (net_hist hA) "a.2"].
Proof.
have [c Hr] := exA C; exists c, c; split=> //.
have HI := ci_inv (reach_CI Hr).
have HT : dget (dT c) "b.9" = None by apply/dget_None; rewrite (v_T HI).
have HP : "b.9" \in ports c = false by rewrite (v_fp HI).
have HE : dget (dE c) "b.9" = None.
  apply/dget_None; case: (v_E HI) => [->|[_ ->]] //; by rewrite HP.
by rewrite /terminate [rho_of _ _]/= HT HE consume_ko // HP.
Qed.

(** ** C21: a through; getS; a second through: getS raises at every frequency *)
Theorem C21_grow_after_getS_refuted : exists c c1 S1 c2,
  [/\ reach z50 [::] hB c, get1S 7%N 0 [::] tt c = (c1, Ok S1), addblock 0 c1 "b" thru PNone 0 = (c2, Ok tt) &
      forall f2 z2, exists e, (get1S f2 z2 [::] tt c2).2 = Raise e].
Proof. exact: exH. Qed.

Example C22_witness : exists c c' S, [/\ reach z50 [::] hB c, order_known [::] hB,
  {subset ports c <= dkeys EF} & get1S 7%N (if (0 : C) == 0 then z50 else 0) [::] tt c = (c', Ok S)].
Proof.
have [c Hr] := exB C [::]; have [c' [S G]] := getB 7%N Hr; exists c, c', S; split=> //.
- by left.
- by rewrite (portsB Hr) => p; rewrite !inE.
by rewrite eqxx (get1S_own _ _ Hr).
Qed.

(** ** C23 is false with Portnames in another order: the first Solution takes the
    excitations in the old order, the second in the new one *)
Theorem C23_repeatable_refuted : exists c c' r r',
  [/\ reach z50 nsF hB c, Solution1 7%N EF 0 tt c = (c', Ok r),
      Solution1 7%N EF 0 tt c' = (c', Ok r') & r <> r'].
Proof. exact: exF. Qed.

Example C23_repeatable_witness : exists c c' r, [/\ reach z50 [::] hB c, order_known [::] hB,
  {subset ports c <= dkeys EF} & Solution1 7%N EF 0 tt c = (c', Ok r)].
Proof.
have [c [c' [S [Hr Ho Hs G]]]] := C22_witness.
have [r [v [i [Es _ _ _ _]]]] := C22_solution Hr (isT : may_ask hB 7%N tt) Ho Hs G.
by exists c, c', r.
Qed.

(** ** C24: a circuit with a through inside is a block of another one *)
Example C24_witness : exists c d d' S, [/\ reach z50 [::] hB c,
  CircHist.reach 0 (gpn (K' := K1 C)) z50 [::] (hJ c) d,
  full_ok (fun _ b => b +s+ "/") z50 (net_hist (hJ c) : net (deep KT 0 gpn 1)),
  may_ask (hJ c) 7%N tt & get1S 7%N 0 [::] tt d = (d', Ok S)].
Proof.
have [c [d [Hc Hd]]] := exJ C; have [d' [S G]] := getJ 7%N Hc Hd.
exists c, d, d', S; split=> //; first exact: full_okJ.
by rewrite /may_ask /= andbF.
Qed.

(** a circuit with Portnames in another order, not asked for its S yet: as a block
    it has its ports in one order and its matrix in the other *)
Theorem C24_portnames_refuted : exists (c : circ KT) S, reach z50 nsF hM c /\
  let o := NCirc z50 nsF hM c in
  [/\ (n_getS 7%N z50 tt o).2 = Ok S,
      oports (o : nest_cls 0 gp) = Some [:: "a.1"; "a.2"],
      oports ((n_getS 7%N z50 tt o).1 : nest_cls 0 gp) = Some [:: "a.2"; "a.1"] &
      exists v i, n_den o 7%N tt v i /\ ~ rel_S z50 2 S v i].
Proof. exact: exM. Qed.

Example C25_witness : exists c c' S, [/\ reach z50 [::] hI c, get1S 7%N 0 [::] tt c = (c', Ok S),
  build_only hI = [:: OAdd "E" half PNone 0; OAdd "D" thru PNone 0;
                     ODeembed KT [:: (dot "D" "1", "p")] [:: (dot "E" "1", dot "D" "2")]],
  (forall v i, oden (half : KT) 7%N tt v i <-> embedded (@refl C) (@through C) 0 v i) &
  (forall v i, oden (thru : KT) 7%N tt v i <-> through (v 0%N) (i 0%N) (v 1%N) (i 1%N))].
Proof.
have [c Hr] := exI C; have [c' [S G]] := getI 7%N Hr; exists c, c', S; split=> //.
  by move=> v i; exact: half_embedded.
by move=> v i; exact: thruE.
Qed.

Example C27_witness : exists c', addblock 0 (new_circ KT z50 [::]) "a" thru (PDict [:: ("2", "out")]) 0 = (c', Ok tt) /\
  ports c' = [:: "a.1"; "a.out"].
Proof. by eexists; split; [reflexivity|vm_compute]. Qed.

Example C28_witness : exists c c' S c'' best, [/\ reach z50 [::] hB c, order_known [::] hB,
  {subset ports c <= dkeys EF},  get1S 7%N (if (0 : C) == 0 then z50 else 0) [::] tt c = (c', Ok S) &
  maxV gp (fun _ => None) 7%N EF 0 tt "X" c = (c'', Ok best)].
Proof.
have [c [c' [S [Hr Ho Hs G]]]] := C22_witness.
have [||c'' [best E]] := C28_maxV_returns (omax := fun _ => None) "X" Hr (isT : may_ask hB 7%N tt) Hs G => //.
  by move=> p _; exists 0.
by exists c, c', S, c'', best.
Qed.

(** a.2 is brought out as "n", and "n" gets a load *)
Definition thrux : KT := TDev [:: "1"; "2"] (Some [:: 0; 0]) z50 (fun _ _ => Ok [:: [:: 0; 1]; [:: 1; 0]]).
Definition hN : seq event := [:: Add "a" thrux; Conn C [:: "a.2"; "n"]; Term "n" 0].
Example C28_used_port_witness : exists c, CircHist.reach 0 (@getpos_flat C _ _ KT) z50 [::] hN c /\
  ("n" \in nodes (net_hist hN)) && ~~ free (net_hist hN) "n".
Proof.
have Hk : hist_ok hN.
  have Hi : oinv (thrux : KT).
    by split; [exact: z50_0|move=> xs [<-]|move=> f fl Sm [<-]].
  rewrite /hist_ok /=; repeat (first [by []|exact: Hi|split]).
  by right; split=> // ps [<-].
have H : isSome (run 0 (@getpos_flat C _ _ KT) (new_circ KT z50 [::]) hN) by vm_compute.
case E: (run _ _ _ _) H => [c|//] _.
by exists c; split=> //; split=> //; exact: z50_0.
Qed.
End Wit.

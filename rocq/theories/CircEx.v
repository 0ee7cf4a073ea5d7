(** Concrete circuits that meet the hypotheses of the theorems in PropsCirc.v. *)
From mathcomp Require Import all_ssreflect all_algebra.
From mathcomp Require Import algebra_tactics.ring.
From Coq Require Import String Ascii.
From Coq Require List.
From Verif Require Import Base MxLib ConvModel ConvSpec ConvProofs ConvArr CircModel CircSpec CircLib CircInv CircTerm CircApp CircConn CircAdd CircDe CircFill CircSolve CircExt CircHist CircGet CircMain CircOrd CircThm CircThm2 CircThm3 CircThm4 CircThm5 CircMaxV CircNest CircFlat CircDev CircThm6.
Set Implicit Arguments.
Unset Strict Implicit.
Unset Printing Implicit Defensive.
Import Order.TTheory GRing.Theory Num.Theory.
Local Open Scope ring_scope.
Local Open Scope seq_scope.
Local Open Scope string_scope.

Section Ex.
Variable C : numClosedFieldType.
(** frequencies are numbers 0, 1, ...; the only flags dictionary is tt *)
Definition KT := tab_cls C nat_eqType unit_eqType.
Definition z50 : C := 50%:R.
Lemma z50_0 : z50 != 0. Proof. by rewrite pnatr_eq0. Qed.
Definition dev (ps : seq string) (S : rows C) : KT :=
  @TDev C nat_eqType unit_eqType ps None z50 (fun _ _ => Ok S).
(** a through connection and a reflecting one-port *)
Definition thru : KT := dev [:: "1"; "2"] [:: [:: 0; 1]; [:: 1; 0]].
Definition half : KT := dev [:: "1"] [:: [:: 2%:R^-1]].
Definition gp : circ KT -> string -> res C := fun _ _ => Ok 0.
Notation reach := (reach 0 gp).
Notation event := (event KT).

Definition Add nm o : event := (OAdd nm o PNone 0, true).
Definition Term p r : event := (@OTerm C nat_eqType unit_eqType KT p [:: ("RC", r)], true).
Definition Conn ps : event := (@OConnect C nat_eqType unit_eqType KT ps, true).
Definition GetS : event := (@OGetS C nat_eqType unit_eqType KT 7%N 0 tt, true).

Lemma dev_inv ps S : shape_ok (size ps) S -> oinv (dev ps S : KT).
Proof. by move=> H; split=> //; [exact: z50_0|move=> f fl Sm [<-]]. Qed.

Lemma reach_run ns h c : hist_ok h -> run 0 gp (new_circ KT z50 ns) h = Some c -> reach z50 ns h c.
Proof. by move=> Hh Hr; split=> //; exact: z50_0. Qed.

Lemma some_run ns h : isSome (run 0 gp (new_circ KT z50 ns) h) ->
  exists c, run 0 gp (new_circ KT z50 ns) h = Some c.
Proof. by case: (run _ _ _ _) => // c _; exists c. Qed.

(** one through block, its second port loaded with RC = 1/2 *)
Definition hA : seq event := [:: Add "a" thru; Term "a.2" 2%:R^-1].
Definition hB : seq event := [:: Add "a" thru].
(** two through blocks in series *)
Definition hC : seq event := [:: Add "a" thru; Add "b" thru; Conn [:: "a.2"; "b.1"]].
Definition hC' : seq event := [:: Add "b" thru; Add "a" thru; Conn [:: "a.2"; "b.1"]].

Ltac hist := repeat (first [ by [] | by apply: (@dev_inv [:: "1"; "2"]) | by apply: (@dev_inv [:: "1"]) | split ]);
  try (by right; split=> // ps [<-]); try by left.

Lemma hA_ok : hist_ok hA. Proof. by rewrite /hist_ok /=; hist. Qed.
Lemma hB_ok : hist_ok hB. Proof. by rewrite /hist_ok /=; hist. Qed.
Lemma hC_ok : hist_ok hC. Proof. by rewrite /hist_ok /=; hist. Qed.
Lemma hC'_ok : hist_ok hC'. Proof. by rewrite /hist_ok /=; hist. Qed.

Lemma exA : exists c, reach z50 [::] hA c.
Proof. have [|c Hc] := some_run (ns := [::]) (h := hA); first by vm_compute. by exists c; apply: reach_run hA_ok Hc. Qed.
Lemma exB ns : exists c, reach z50 ns hB c.
Proof. have [|c Hc] := some_run (ns := ns) (h := hB); first by vm_compute. by exists c; apply: reach_run hB_ok Hc. Qed.
Lemma exC : exists c, reach z50 [::] hC c.
Proof. have [|c Hc] := some_run (ns := [::]) (h := hC); first by vm_compute. by exists c; apply: reach_run hC_ok Hc. Qed.
Lemma exC' : exists c, reach z50 [::] hC' c.
Proof. have [|c Hc] := some_run (ns := [::]) (h := hC'); first by vm_compute. by exists c; apply: reach_run hC'_ok Hc. Qed.

Lemma netA : net_hist hA = Net [:: ("a", ([:: "1"; "2"], thru))] [::] [:: ("a.2", LRC (2%:R^-1 : C))] [::] [::].
Proof. by []. Qed.
Lemma netB : net_hist hB = Net [:: ("a", ([:: "1"; "2"], thru))] [::] [::] [::] [::].
Proof. by []. Qed.

(** the meaning of the devices *)
Lemma two_0 : (2%:R : C) != 0. Proof. by rewrite pnatr_eq0. Qed.

Lemma rel2 (z : C) a b c d (v i : vi C) : rel_S z 2 [:: [:: a; b]; [:: c; d]] v i <->
  (v 0%N - z * i 0%N) / 2%:R = a * ((v 0%N + z * i 0%N) / 2%:R) + b * ((v 1%N + z * i 1%N) / 2%:R) /\
  (v 1%N - z * i 1%N) / 2%:R = c * ((v 0%N + z * i 0%N) / 2%:R) + d * ((v 1%N + z * i 1%N) / 2%:R).
Proof.
have sum2 (g : nat -> C) : \sum_(j < 2) g j = g 0%N + g 1%N.
  by rewrite !big_ord_recl big_ord0 addr0.
pose g k j := nth 0 (nth [::] [:: [:: a; b]; [:: c; d]] k) j * ((v j + z * i j) / 2%:R).
have E k : \sum_(j < 2) nth 0 (nth [::] [:: [:: a; b]; [:: c; d]] k) j * ((v j + z * i j) / 2%:R) = g k 0%N + g k 1%N.
  exact: (sum2 (g k)).
split=> [H|[H0 H1] [|[|k]] //= _].
- by have := H 0%N isT; rewrite E => ->; have := H 1%N isT; rewrite E => ->.
- by rewrite (E 0%N).
- by rewrite (E 1%N).
Qed.

Lemma thruE f fl (v i : vi C) : oden (thru : KT) f fl v i <-> v 0%N = v 1%N /\ i 0%N = - i 1%N.
Proof.
have Hz := z50_0; have H2 := two_0.
split.
  case=> Sm [<-] /rel2 [E2' E1'].
  have E1 : v 1%N - z50 * i 1%N = v 0%N + z50 * i 0%N.
    by apply: (mulIf (invr_neq0 H2)); rewrite E1' mul0r mul1r addr0.
  have E2 : v 0%N - z50 * i 0%N = v 1%N + z50 * i 1%N.
    by apply: (mulIf (invr_neq0 H2)); rewrite E2' mul0r mul1r add0r.
  have E3 : v 0%N = v 1%N.
    apply: (mulIf H2); rewrite [v 0%N * _]mulr_natr [v 1%N * _]mulr_natr.
    have -> : v 0%N *+ 2 = (v 0%N - z50 * i 0%N) + (v 0%N + z50 * i 0%N) by ring.
    by rewrite E2 -E1; ring.
  split=> //; apply: (mulfI Hz).
  have -> : z50 * i 0%N = v 0%N - (v 0%N - z50 * i 0%N) by ring.
  by rewrite E2 E3; ring.
case=> E1 E2; exists [:: [:: 0; 1]; [:: 1; 0]] => //; apply/rel2.
by rewrite E1 E2 !mul0r !mul1r addr0 add0r mulrN opprK.
Qed.

Lemma thruB nm (v i : asg C) f fl :
  block_law f fl v i (nm, ([:: "1"; "2"], thru)) <->
  v (dot nm "1") = v (dot nm "2") /\ i (dot nm "1") = - i (dot nm "2").
Proof. exact: thruE. Qed.

Lemma zero_vi (v i : C) : v + z50 * i = 0 -> v - z50 * i = 0 -> v = 0 /\ i = 0.
Proof.
move=> E1 E2; have Hz := z50_0; have H2 := two_0.
have E3 : v = 0.
  by apply: (mulIf H2); rewrite mul0r mulr_natr -[RHS](addr0 0) -{1}E1 -E2; ring.
split=> //; apply: (mulfI Hz); rewrite mulr0 -[RHS]E1 E3; ring.
Qed.

Lemma resA f fl : ~ resonant z50 (net_hist hA) f fl.
Proof.
case=> v [i [[Hb _ Ht _ _] Hf [p Hp Hne]]].
have [Hb1 _] := FC Hb.
have [E1 E2] : v "a.1" = v "a.2" /\ i "a.1" = - i "a.2" := iffLR (thruB _ _ _ _ _) Hb1.
have [/= E3 _] := FC Ht.
have E4 : v "a.1" + z50 * i "a.1" = 0 by apply: Hf.
have E5 : v "a.2" - z50 * i "a.2" = 0 by rewrite -[RHS]E4 E1 E2; ring.
have E6 : v "a.2" + z50 * i "a.2" = 0 by rewrite E3 E5 mulr0.
have [E7 E8] := zero_vi E6 E5.
move: Hp; rewrite !inE => /orP[] /eqP Ep; move: Hne; rewrite Ep; last by rewrite E7 E8 eqxx.
by rewrite E1 E2 E7 E8 oppr0 eqxx.
Qed.

Lemma resB f fl : ~ resonant z50 (net_hist hB) f fl.
Proof.
case=> v [i [[Hb _ _ _ _] Hf [p Hp Hne]]].
have [Hb1 _] := FC Hb.
have [E1 E2] : v "a.1" = v "a.2" /\ i "a.1" = - i "a.2" := iffLR (thruB _ _ _ _ _) Hb1.
have E4 : v "a.1" + z50 * i "a.1" = 0 by apply: Hf.
have E5 : v "a.2" - z50 * i "a.2" = 0 by rewrite -[RHS]E4 E1 E2; ring.
have E6 : v "a.2" + z50 * i "a.2" = 0 by apply: Hf.
have [E7 E8] := zero_vi E6 E5.
move: Hp; rewrite !inE => /orP[] /eqP Ep; move: Hne; rewrite Ep; last by rewrite E7 E8 eqxx.
by rewrite E1 E2 E7 E8 oppr0 eqxx.
Qed.

Lemma noraise f fl e : ~ blk_raises (net_hist hB) z50 f fl e.
Proof. by apply: tab_no_raise; repeat constructor; exists [:: [:: 0; 1]; [:: 1; 0]]. Qed.
Lemma noraiseA f fl e : ~ blk_raises (net_hist hA) z50 f fl e.
Proof. by apply: tab_no_raise; repeat constructor; exists [:: [:: 0; 1]; [:: 1; 0]]. Qed.

Lemma getA c f : reach z50 [::] hA c -> exists c' S, get1S f 0 [::] tt c = (c', Ok S).
Proof.
move=> Hr; apply: (getS_returns (h := hA) Hr) => //.
- by left.
- exact: noraiseA.
- by exists "a.1".
- exact: resA.
Qed.

Lemma getB c f : reach z50 [::] hB c -> exists c' S, get1S f 0 [::] tt c = (c', Ok S).
Proof.
move=> Hr; apply: (getS_returns (h := hB) Hr) => //.
- by left.
- exact: noraise.
- by exists "a.1".
- exact: resB.
Qed.

(** getS, then a load at a port that was free *)
Lemma exBG : exists c, reach z50 [::] [:: Add "a" thru; GetS] c.
Proof.
have [c Hr] := exB [::]; have [c' [S E]] := getB 7%N Hr; exists c'.
by apply: (@reach_snoc _ _ _ _ _ _ _ _ hB c (@OGetS C nat_eqType unit_eqType KT 7%N 0 tt) true c' Hr);
   rewrite // /exec E.
Qed.

Definition hD : seq event := [:: Add "a" thru; GetS; Term "a.2" 2%:R^-1].

Lemma exD : exists c, reach z50 [::] hD c.
Proof.
have [c Hr] := exBG.
have [|c' Et] := @term_ok C nat_eqType unit_eqType KT 0 gp z50 [::] [:: Add "a" thru; GetS] c "a.2" [:: ("RC", 2%:R^-1)] 2%:R^-1 Hr isT.
  by rewrite /rho_of.
exists c'.
apply: (@reach_snoc _ _ _ _ _ _ _ _ [:: Add "a" thru; GetS] c (@OTerm C nat_eqType unit_eqType KT "a.2" [:: ("RC", 2%:R^-1)]) true c' Hr) => //.
by rewrite /exec Et.
Qed.

Lemma getD c f : reach z50 [::] hD c -> exists c' S, get1S f 0 [::] tt c = (c', Ok S).
Proof.
move=> Hr; apply: (getS_returns (h := hD) Hr) => //.
- by left.
- exact: noraiseA.
- by exists "a.1".
- exact: resA.
Qed.

(** a port that has a load gets another one: the next getS still gives the old
    matrix, which is not the one of the network *)
Lemma exE : exists c c1 c2 (S : rows C),
  [/\ reach z50 [::] hA c, get1S 7%N 0 [::] tt c = (c1, Ok S),
      terminate c1 "a.2" [:: ("RC", 0)] = (c2, Ok tt),
      get1S 7%N 0 [::] tt c2 = (c2, Ok S) &
      ~ net_S z50 z50 (net_hist (hA ++ [:: GetS; Term "a.2" 0])) 7%N tt (ports c2) S].
Proof.
have [c Hr] := exA; have [c1 [S E]] := getA 7%N Hr.
have Hr1 : reach z50 [::] (rcons hA GetS) c1.
  by apply: (@reach_snoc _ _ _ _ _ _ _ _ hA c (@OGetS C nat_eqType unit_eqType KT 7%N 0 tt) true c1 Hr);
     rewrite // /exec E.
have [|c2 Et] := @reterm_ok C nat_eqType unit_eqType KT 0 gp z50 [::] (rcons hA GetS) c1 "a.2" [:: ("RC", 0)] 0 Hr1 isT.
  by rewrite /rho_of.
have HI1 := ci_inv (reach_CI Hr1).
have Hk : "a.2" \in dkeys (dT c1) by rewrite (v_T HI1).
have [E2 _] := thm_C17_stale 0 Hk E Et.
exists c, c1, c2, S; split=> // -[Hsh HS].
have Ep : ports c2 = ports c1.
  move: Et; rewrite /terminate /rho_of /=; move: Hk; rewrite -dhasE /dhas.
  by case: (dget _ _) => [[[iA iB] e]|//] _ [<-].
have [[Hsh1 HS1] _] := thm_C12 Hr (isT : may_ask hA 7%N tt) E.
have Epp : ports c1 = [:: "a.1"].
  by rewrite (thm_C14 Hr (isT : may_ask hA 7%N tt) E).
have Ez : zreq 0 z50 = z50 by rewrite /zreq eqxx.
rewrite Ep Epp in HS; rewrite Ez Epp in HS1.
pose v := fun p : string => (3%:R / 2%:R : C).
pose i := fun p : string => if p == "a.1" then (z50^-1 / 2%:R : C) else - (z50^-1 / 2%:R).
have Hz := z50_0; have H2 := two_0.
have H1 : rel_S z50 1 S (fun _ => 3%:R / 2%:R) (fun _ => z50^-1 / 2%:R).
  apply/HS1; exists v, i; split; last by case.
  rewrite netA; split; repeat constructor=> /=.
    by apply/(thruB "a" v i 7%N tt); rewrite /v /i /= opprK.
  rewrite /load_law /v /i /=; field; exact: Hz.
have [v' [i' [[Hb _ Ht _ _] Hj]]] := iffLR (HS _ _) H1.
have [/= Ev Ei] := Hj 0%N isT.
have [Hb1 _] := FC Hb.
have [E3 E4] : v' "a.1" = v' "a.2" /\ i' "a.1" = - i' "a.2" := iffLR (thruB _ _ _ _ _) Hb1.
have [/= E5 _] := FC Ht.
move: E5; rewrite mul0r -E3 Ev.
have -> : i' "a.2" = - (z50^-1 / 2%:R) by rewrite -Ei E4 opprK.
rewrite mulrN mulrA mulfV // => E5; have: (3%:R / 2%:R - 1 / 2%:R : C) = 1 by field.
by rewrite E5 => /eqP; rewrite eq_sym oner_eq0.
Qed.

(** Portnames in the other order; first Solution call *)
Definition nsF := [:: "a.2"; "a.1"].
Definition EF : seq (string * C) := [:: ("a.1", 1); ("a.2", 0)].

Lemma in_keys T (r : seq (string * T)) k : k \in dkeys r -> exists x, List.In (k, x) r.
Proof.
elim: r => //= -[k' y] s IH; rewrite in_cons => /orP[/eqP ->|/IH [x Hx]].
  by exists y; left.
by exists x; right.
Qed.

Lemma exF : exists c c' r r',
  [/\ reach z50 nsF hB c, Solution1 7%N EF 0 tt c = (c', Ok r),
      Solution1 7%N EF 0 tt c' = (c', Ok r') & r <> r'].
Proof.
have [c Hr] := exB nsF.
have Epc : ports c = [:: "a.1"; "a.2"].
  have Ho : omap (fun c : circ KT => ports c) (run 0 gp (new_circ KT z50 nsF) hB) = Some [:: "a.1"; "a.2"].
    by vm_compute.
  by case: Hr => _ _ Hc0; move: Ho; rewrite Hc0 => -[].
have Hperm : perm_eq nsF (ports c) by rewrite Epc.
have [c' [S G]] : exists c' S, get1S 7%N 0 [::] tt c = (c', Ok S).
  apply: (getS_returns (h := hB) Hr) => //.
  - by right.
  - exact: noraise.
  - by exists "a.1".
  - exact: resB.
have Hm : may_ask hB 7%N tt by [].
have Ep : ports c' = nsF by rewrite (thm_C14 Hr Hm G).
have Hr' : reach z50 nsF (rcons hB GetS) c'.
  by apply: (@reach_snoc _ _ _ _ _ _ _ _ hB c (@OGetS C nat_eqType unit_eqType KT 7%N 0 tt) true c' Hr);
     rewrite // /exec G.
have Ez0 : (if (0 : C) == 0 then z50 else 0) = z50 by rewrite eqxx.
have G1 : get1S 7%N (if (0 : C) == 0 then z50 else 0) [::] tt c = (c', Ok S).
  by rewrite Ez0 (get1S_own _ _ Hr).
have G2 : get1S 7%N (if (0 : C) == 0 then z50 else 0) [::] tt c' = (c', Ok S).
  rewrite Ez0 (get1S_own _ _ Hr').
  have [S0 [E1 E2 E3 E4]] := get_cached G.
  by rewrite /get1S E1 E2 E3 !eqxx /= E4.
have Hs1 : {subset ports c <= dkeys EF} by rewrite Epc => p; rewrite !inE.
have Hs2 : {subset ports c' <= dkeys EF} by rewrite Ep => p; rewrite !inE orbC.
have [r [v [i [R1 _ R2 [R3 _] R4]]]] := thm_C22_gen Hr Hm Hs1 G1.
have [r' [v' [i' [R1' _ R2' _ R4']]]] := thm_C22_gen Hr' (isT : may_ask (rcons hB GetS) 7%N tt) Hs2 G2.
exists c, c', r, r'; split=> // Er; subst r'.
rewrite Epc Ep in R2; rewrite Ep in R2'.
have [/= A1 _] := R2 0%N isT; have [/= A2 _] := R2' 0%N isT.
have Hin : "a.2" \in dkeys r by rewrite R3.
have [x Hx] : exists x, List.In ("a.2", x) r.
  exact: in_keys.
have B1 := R4 _ _ Hx; have B2 := R4' _ _ Hx.
move: B1; rewrite B2 Ez0 => -[E1 E2 _ _].
move: A1; rewrite Ez0 -E1 -E2; move: A2; rewrite Ez0 => -> /eqP.
by rewrite eq_sym oner_eq0.
Qed.

(** a block is replaced *)
Definition wall : KT := dev [:: "1"; "2"] [:: [:: 0; 0]; [:: 0; 0]].
Definition hG : seq event := [:: Add "a" wall; Add "a" thru].
Lemma hG_ok : hist_ok hG. Proof. by rewrite /hist_ok /=; hist. Qed.
Lemma exG : exists c, reach z50 [::] hG c.
Proof. have [|c Hc] := some_run (ns := [::]) (h := hG); first by vm_compute. by exists c; apply: reach_run hG_ok Hc. Qed.
Lemma getG c f : reach z50 [::] hG c -> exists c' S, get1S f 0 [::] tt c = (c', Ok S).
Proof.
move=> Hr; apply: (getS_returns (h := hG) Hr) => //.
- by left.
- exact: noraise.
- by exists "a.1".
- exact: resB.
Qed.

(** a block added after getS *)
Lemma exH : exists c c1 S1 c2,
  [/\ reach z50 [::] hB c, get1S 7%N 0 [::] tt c = (c1, Ok S1), addblock 0 c1 "b" thru PNone 0 = (c2, Ok tt) &
      forall f2 z2, exists e, (get1S f2 z2 [::] tt c2).2 = Raise e].
Proof.
have [c Hr] := exB [::]; have [c1 [S E]] := getB 7%N Hr.
have [c2 E2] : exists c2, addblock 0 c1 "b" thru PNone 0 = (c2, Ok tt).
  rewrite /addblock /=.
  have Hr1 : reach z50 [::] (rcons hB GetS) c1.
    by apply: (@reach_snoc _ _ _ _ _ _ _ _ hB c (@OGetS C nat_eqType unit_eqType KT 7%N 0 tt) true c1 Hr);
       rewrite // /exec E.
  have -> : dget (blocks (uncache c1)) "b" = None.
    by apply/dget_None; rewrite /= (blk_keys (ci_inv (reach_CI Hr1))).
  by rewrite /addblock_new /=; eexists.
exists c, c1, S, c2; split=> // f2 z2.
by apply: (thm_C21_add f2 z2 tt Hr _ E _ _ E2).
Qed.

(** deembedding a through *)
Definition De ints exts : event := (@ODeembed C nat_eqType unit_eqType KT ints exts, true).
Definition hI : seq event := [:: Add "E" half; Add "D" thru; De [:: ("D.1", "p")] [:: ("E.1", "D.2")]].
Lemma hI_ok : hist_ok hI.
Proof.
rewrite /hist_ok /=; hist; by move: H; rewrite mem_seq1 => /eqP ->.
Qed.
Lemma exI : exists c, reach z50 [::] hI c.
Proof. have [|c Hc] := some_run (ns := [::]) (h := hI); first by vm_compute. by exists c; apply: reach_run hI_ok Hc. Qed.

Lemma rel1 (z a : C) (v i : vi C) : rel_S z 1 [:: [:: a]] v i <->
  (v 0%N - z * i 0%N) / 2%:R = a * ((v 0%N + z * i 0%N) / 2%:R).
Proof.
split=> [H|H [|k] //= _]; last by rewrite big_ord_recl big_ord0 addr0.
by have := H 0%N isT; rewrite big_ord_recl big_ord0 addr0.
Qed.

Definition refl (v i : vi C) : Prop :=
  (v 0%N - z50 * i 0%N) / 2%:R = 2%:R^-1 * ((v 0%N + z50 * i 0%N) / 2%:R).
Definition through (x1 y1 x2 y2 : C) : Prop := x1 = x2 /\ y1 = - y2.

Lemma halfE f fl (v i : vi C) : oden (half : KT) f fl v i <-> refl v i.
Proof.
split=> [[Sm [<-] /rel1] //|H].
by exists [:: [:: 2%:R^-1]] => //; apply/rel1.
Qed.

Lemma half_embedded f fl (v i : vi C) : oden (half : KT) f fl v i <-> embedded refl through 0 v i.
Proof.
rewrite halfE; split=> [H|[x [y [H [E1 E2]]]]].
  by exists (v 0%N), (i 0%N).
by move: H; rewrite /refl /vi_set /= E1 (oppr_inj E2).
Qed.

Lemma resI f fl : ~ resonant z50 (net_hist hI) f fl.
Proof.
case=> v [i [[Hb _ _ Hdi Hde] Hf [p Hp Hne]]].
have [Hb1 Hb'] := FC Hb; have [Hb2 _] := FC Hb'.
have Eh : (v "E.1" - z50 * i "E.1") / 2%:R = 2%:R^-1 * ((v "E.1" + z50 * i "E.1") / 2%:R).
  exact: (iffLR (halfE _ _ _ _) Hb1).
have [E1 E2] : v "D.1" = v "D.2" /\ i "D.1" = - i "D.2" := iffLR (thruB _ _ _ _ _) Hb2.
have [[/= E3 E4] _] := FC Hdi; have [[/= E5 E6] _] := FC Hde.
have E7 : v "p" + z50 * i "p" = 0 by apply: Hf.
have E8 : v "E.1" = v "p" by rewrite E5 -E1 E3.
have E9 : i "E.1" = i "p" by rewrite E6 -[RHS]opprK -E4 E2 opprK.
have E10 : v "p" - z50 * i "p" = 0.
  move: Eh; rewrite E8 E9 E7 mul0r mulr0 => /eqP; rewrite mulf_eq0 invr_eq0 (negbTE two_0) orbF => /eqP //.
have [Ev Ei] := zero_vi E7 E10.
move: Hne; move: Hp; rewrite !inE => /or4P[] /eqP ->; apply/negP; rewrite negb_or !negbK.
- by rewrite E8 E9 Ev Ei eqxx.
- by rewrite E3 E4 Ev Ei oppr0 eqxx.
- by rewrite -E5 -E6 E8 E9 Ev Ei eqxx.
- by rewrite Ev Ei eqxx.
Qed.

Lemma getI c f : reach z50 [::] hI c -> exists c' S, get1S f 0 [::] tt c = (c', Ok S).
Proof.
move=> Hr; apply: (getS_returns (h := hI) Hr) => //.
- by left.
- by apply: tab_no_raise; repeat constructor; eexists.
- by exists "p".
- exact: resI.
Qed.

(** a circuit used as a block: the unloaded through of hB as block x of a circuit
    that loads its second port *)
Definition gpn (K' : vcls C nat_eqType unit_eqType) : circ K' -> string -> res C := fun _ _ => Ok 0.
Definition K1 := deep KT 0 gpn 1.
Definition box (c : circ KT) : K1 := inr (NCirc z50 [::] hB c).

Definition hJ (c : circ KT) : seq (CircHist.event K1) :=
  [:: (OAdd "x" (box c) PNone 0, true);
      (@OTerm C nat_eqType unit_eqType K1 "x.a.2" [:: ("RC", 2%:R^-1)], true)].

Lemma box_inv c : reach z50 [::] hB c -> oinv (box c).
Proof. by move=> Hr; split=> //; left. Qed.

Lemma portsB c : reach z50 [::] hB c -> ports c = [:: "a.1"; "a.2"].
Proof.
have Ho : omap (fun c : circ KT => ports c) (run 0 gp (new_circ KT z50 [::]) hB) = Some [:: "a.1"; "a.2"].
  by vm_compute.
by case=> _ _ Hc0; move: Ho; rewrite Hc0 => -[].
Qed.

Lemma hJ_ok c : reach z50 [::] hB c -> hist_ok (hJ c).
Proof.
move=> Hr; rewrite /hist_ok /=; split=> //; split=> //; first exact: box_inv.
right; split=> // ps; rewrite /= (portsB Hr) => -[<-] //.
Qed.

Lemma exJ : exists c d, reach z50 [::] hB c /\ CircHist.reach 0 (gpn (K' := K1)) z50 [::] (hJ c) d.
Proof.
have Ec : isSome (obind (fun c => run 0 (gpn (K' := K1)) (new_circ K1 z50 [::]) (hJ c))
                   (run 0 gp (new_circ KT z50 [::]) hB)) by vm_compute.
case Ec0: (run 0 gp (new_circ KT z50 [::]) hB) Ec => [c0|//]; rewrite [obind _ _]/obind /oapp; have Hc0 : reach z50 [::] hB c0 by apply: reach_run Ec0; exact: hB_ok.
case Ed: (run 0 (gpn (K' := K1)) (new_circ K1 z50 [::]) (hJ c0)) => [d|//] _; exists c0, d; split=> //.
by split=> //; [exact: z50_0|exact: hJ_ok].
Qed.

Definition netJ (c : circ KT) : net K1 := Net [:: ("x", ([:: "a.1"; "a.2"], box c))] [::] [:: ("x.a.2", LRC (2%:R^-1 : C))] [::] [::].
Lemma net_add_term (K : vcls C nat_eqType unit_eqType) (nm : string) (o : K) (ps : seq string) p kw :
  osize o = size ps -> oports o = Some ps -> ps <> [::] ->
  net_hist [:: (OAdd nm o PNone 0, true); (OTerm K p kw, true)] =
  Net [:: (nm, (ps, o))] [::] [:: (p, load_of kw)] [::] [::].
Proof.
move=> E1 E2 E3.
have E : resolve_ports (osize o) (oports o) PNone = Ok ps by rewrite E1 E2; exact: resolve_default.
have -> : net_hist [:: (OAdd nm o PNone 0, true); (OTerm K p kw, true)] =
  net_step (net_step (net0 K) (OAdd nm o PNone 0)) (OTerm K p kw) by [].
have -> : net_step (net0 K) (OAdd nm o PNone 0) = Net [:: (nm, (ps, o))] [::] [::] [::] [::].
  by rewrite /net_step E.
by [].
Qed.
Lemma net_hJ c : reach z50 [::] hB c -> net_hist (hJ c) = netJ c.
Proof.
move=> Hr; have Ep := portsB Hr.
have E1 : osize (box c) = size [:: "a.1"; "a.2"] := congr1 size Ep.
have E2 : oports (box c) = Some [:: "a.1"; "a.2"] := congr1 Some Ep.
exact: (@net_add_term K1 "x" (box c) [:: "a.1"; "a.2"] "x.a.2" [:: ("RC", 2%:R^-1)] E1 E2).
Qed.

Lemma full_ok_netJ c : full_ok (fun _ b => b +s+ "/") z50 (netJ c : net (deep KT 0 gpn 1)).
Proof.
have U : uniq ([:: "x.a.1"; "x.a.2"] ++ [:: "x/a.1"; "x/a.2"]) by [].
split; [exact: U| |exact: I].
by apply: List.Forall_cons (List.Forall_nil _); left.
Qed.

Lemma full_okJ c : reach z50 [::] hB c ->
  full_ok (fun _ b => b +s+ "/") z50 (net_hist (hJ c) : net (deep KT 0 gpn 1)).
Proof. by move=> Hr; rewrite (net_hJ Hr); exact: full_ok_netJ. Qed.

Lemma getJ c d f : reach z50 [::] hB c -> CircHist.reach 0 (gpn (K' := K1)) z50 [::] (hJ c) d ->
  exists d' S, get1S f 0 [::] tt d = (d', Ok S).
Proof.
move=> Hr Hd; apply: (getS_returns (h := hJ c) Hd) => //.
- by rewrite /may_ask /= andbF.
- by left.
- have En : nblk (net_hist (hJ c)) = [:: ("x", ([:: "a.1"; "a.2"], box c))].
    by rewrite (net_hJ Hr).
  move=> e [nm [ps [o [o' []]]]]; rewrite En => -[[_ _ <-]|//] Ha.
  have : exists n : ncirc KT, [/\ o' = inr n, n_inv 0 gp n, n_z n = z50, n_ns n = [::] & net_hist (n_h n) = net_hist hB].
    elim: Ha => [|o1 f1 z1 fl1 Hz1 _ [n [-> Hn Ez Ens En1]]].
      by exists (NCirc z50 [::] hB c); split=> //; split=> //; left.
    exists (n_getS f1 z1 fl1 n).1; split=> //.
      by have [] := @nest_law C nat_eqType unit_eqType KT 0 gp n f1 z1 fl1 Hn Hz1.
    by rewrite /= net_rcons.
  case=> n [-> [Hn Hk Ht] Ez Ens En1] _ /=.
  have [|||||c' [S E]] := getS_returns (f := f) (fl := tt) Hn.
  - by rewrite /may_ask Ht.
  - by left.
  - by rewrite Ez En1; exact: noraise.
  - by exists "a.1"; rewrite En1.
  - by rewrite Ez En1; exact: resB.
  by rewrite -Ez (get1S_own _ _ Hn) E.
- by exists "x.a.1"; rewrite (net_hJ Hr).
rewrite (net_hJ Hr); case=> v [i [[Hb _ Ht _ _] Hf [p Hp Hne]]].
have [Hb1 _] := FC Hb; have [/= E3 _] := FC Ht.
have [E1 E2] : v "x.a.1" = v "x.a.2" /\ i "x.a.1" = - i "x.a.2".
  case: Hb1 => w [j [[Hw _ _ _ _] Hj]]; have [Hw1 _] := FC Hw.
  have [W1 W2] : w "a.1" = w "a.2" /\ j "a.1" = - j "a.2" := iffLR (thruB _ _ _ _ _) Hw1.
  rewrite /= (portsB Hr) in Hj.
  have [/= <- <-] := Hj 0%N isT; have [/= <- <-] := Hj 1%N isT; by [].
have E4 : v "x.a.1" + z50 * i "x.a.1" = 0 by apply: Hf.
have E5 : v "x.a.2" - z50 * i "x.a.2" = 0 by rewrite -[RHS]E4 E1 E2; ring.
have E6 : v "x.a.2" + z50 * i "x.a.2" = 0 by rewrite E3 E5 mulr0.
have [E7 E8] := zero_vi E6 E5.
move: Hp; rewrite !inE => /orP[] /eqP Ep; move: Hne; rewrite Ep; last by rewrite E7 E8 eqxx.
by rewrite E1 E2 E7 E8 oppr0 eqxx.
Qed.

(** a circuit whose Portnames order is not settled yet: as a block it has its ports
    in one order and its matrix in the other *)
Definition mix : KT := dev [:: "1"; "2"] [:: [:: 2%:R^-1; 0]; [:: 0; 0]].

Definition hM : seq event := [:: Add "a" mix].
Lemma hM_ok : hist_ok hM. Proof. by rewrite /hist_ok /=; hist. Qed.
Lemma exM0 : exists c, reach z50 nsF hM c /\ ports c = [:: "a.1"; "a.2"].
Proof.
have [|c Hc] := some_run (ns := nsF) (h := hM); first by vm_compute.
exists c; split; first by apply: reach_run hM_ok Hc.
have Ho : omap (fun c : circ KT => ports c) (run 0 gp (new_circ KT z50 nsF) hM) = Some [:: "a.1"; "a.2"].
  by vm_compute.
by move: Ho; rewrite Hc => -[].
Qed.

Lemma mixB (v i : asg C) f fl :
  block_law f fl v i ("a", ([:: "1"; "2"], mix)) <->
  (v "a.1" - z50 * i "a.1") / 2%:R = 2%:R^-1 * ((v "a.1" + z50 * i "a.1") / 2%:R) /\
  (v "a.2" - z50 * i "a.2") / 2%:R = 0.
Proof.
split.
  case=> Sm [<-] /rel2 [E1 E2]; move: E1 E2; rewrite /= !mul0r !addr0 => E1 E2; by split.
case=> E1 E2; exists [:: [:: 2%:R^-1; 0]; [:: 0; 0]] => //; apply/rel2.
by rewrite /= !mul0r !addr0.
Qed.

Lemma resM f fl : ~ resonant z50 (net_hist hM) f fl.
Proof.
case=> v [i [[Hb _ _ _ _] Hf [p Hp Hne]]].
have [Hb1 _] := FC Hb; have [E1 E2] := iffLR (mixB _ _ _ _) Hb1.
have E4 : v "a.1" + z50 * i "a.1" = 0 by apply: Hf.
have E6 : v "a.2" + z50 * i "a.2" = 0 by apply: Hf.
have H0 (x : C) : x / 2%:R = 0 -> x = 0.
  by move=> /eqP; rewrite mulf_eq0 invr_eq0 (negbTE two_0) orbF => /eqP.
have E5 : v "a.2" - z50 * i "a.2" = 0 by exact: H0.
have E3 : v "a.1" - z50 * i "a.1" = 0 by apply: H0; rewrite E1 E4 mul0r mulr0.
have [E7 E8] := zero_vi E6 E5; have [E9 E10] := zero_vi E4 E3.
by move: Hp; rewrite !inE => /orP[] /eqP Ep; move: Hne; rewrite Ep ?E7 ?E8 ?E9 ?E10 eqxx.
Qed.

Lemma exM : exists (c : circ KT) S, reach z50 nsF hM c /\
  let o := NCirc z50 nsF hM c in
  [/\ (n_getS 7%N z50 tt o).2 = Ok S,
      oports (o : nest_cls 0 gp) = Some [:: "a.1"; "a.2"],
      oports ((n_getS 7%N z50 tt o).1 : nest_cls 0 gp) = Some [:: "a.2"; "a.1"] &
      exists v i, n_den o 7%N tt v i /\ ~ rel_S z50 2 S v i].
Proof.
have [c [Hr Ep]] := exM0.
have Hperm : perm_eq nsF (ports c) by rewrite Ep.
have Hm : may_ask hM 7%N tt by [].
have [c' [S G]] : exists c' S, get1S 7%N 0 [::] tt c = (c', Ok S).
  apply: (getS_returns (h := hM) Hr) => //.
  - by right.
  - by apply: tab_no_raise; repeat constructor; eexists.
  - by exists "a.1".
  - exact: resM.
have G' : get1S 7%N z50 [::] tt c = (c', Ok S) by rewrite (get1S_own _ _ Hr).
have Ep' : ports c' = nsF by rewrite (thm_C14 Hr Hm G).
exists c, S; split=> //=; rewrite /n_getS /= G' /= Ep Ep'; split=> //.
pose v := fun p : string => if p == "a.1" then 3%:R else 1 : C.
pose i := fun p : string => z50^-1 : C.
have Hz := z50_0; have H2 := two_0.
exists (fun j => v (nth "" [:: "a.1"; "a.2"] j)), (fun j => i (nth "" [:: "a.1"; "a.2"] j)); split.
  exists v, i; split; last by move=> j _; rewrite /= Ep.
  split; repeat constructor; apply/(mixB v i 7%N tt); rewrite /v /i /= mulfV // subrr mul0r.
  by split=> //; field.
have [[Hsh HS] _] := thm_C12 Hr Hm G.
have Ez : zreq 0 z50 = z50 by rewrite /zreq eqxx.
rewrite Ez Ep' in HS; move=> /(iffLR (HS _ _)) [v' [i' [[Hb _ _ _ _] Hj]]].
have [/= E1 E2] := Hj 0%N isT.
have [Hb1 _] := FC Hb; have [_ E3] := iffLR (mixB _ _ _ _) Hb1.
move: E3; rewrite E1 E2 /v /i /= mulfV // => E3.
have: ((3%:R - 1) / 2%:R : C) = 1 by field.
by rewrite E3 => /eqP; rewrite eq_sym oner_eq0.
Qed.
End Ex.

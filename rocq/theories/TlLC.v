(** TLresolver: which sets of parameters can be solved, when it raises, and the consistency of
    the four line constants (continued). *)
From mathcomp Require Import all_ssreflect all_algebra.
From mathcomp.algebra_tactics Require Import ring.
From Coq Require Import String Lia.
From Verif Require Import Base ConvModel ConvProofs TlModel TlThm TlPhys TlLoop TlSolve.
Set Implicit Arguments.
Unset Strict Implicit.
Unset Printing Implicit Defensive.
Import Order.TTheory GRing.Theory Num.Theory.
Local Open Scope string_scope.
Local Open Scope ring_scope.
Local Open Scope seq_scope.
Arguments any : simpl never.
Arguments avail : simpl never.
Arguments TlModel.scan : simpl never.

Section Tl.
Variable C : numClosedFieldType.
Variables log exp pow10 : C -> C.
Variables pi c0 mu0 e0 eta0coax : C.
Variable Zbase : C.
Variable forget : seq (seq string * string).
Variable fcheck : C.
Notation EQNS := (EQNS log exp pow10 pi c0 mu0 e0 eta0coax Zbase).
Notation value := (value log exp pow10 pi c0 mu0 e0 eta0coax Zbase).
Notation wf := (wf log exp pow10 pi c0 mu0 e0 eta0coax Zbase).
Notation inv := (inv log exp pow10 pi c0 mu0 e0 eta0coax Zbase).
Notation scan := (scan log exp pow10 pi c0 mu0 e0 eta0coax Zbase forget fcheck).
Notation loop := (loop log exp pow10 pi c0 mu0 e0 eta0coax Zbase forget fcheck).
Notation TLresolver := (TLresolver log exp pow10 pi c0 mu0 e0 eta0coax Zbase forget fcheck).
Notation eqn := (eqn C).
Notation eqn0 := (eqn0 C).
Notation table := (table C).
Notation sv := (sv C).
Notation kwargs := (seq (string * (C -> C -> res C))).


Notation reads := (reads log exp pow10 pi c0 mu0 e0 eta0coax Zbase).
Notation okv := (@okv C).
(** ** no exception *)
Lemma loop_noraise n st e : inv st -> forget = [::] ->
  (forall kw f, dget (v_tab st) kw = Some (Given f) -> okv (f fcheck 0)) ->
  ("RsO" \in dkeys (v_tab st) -> "RsI" \in dkeys (v_tab st)) ->
  ("rhoO" \in dkeys (v_tab st) -> ("rhoI" \in dkeys (v_tab st)) || ("RsI" \in dkeys (v_tab st))) ->
  loop n st <> Some (Raise e).
Proof.
move=> I F0; elim: n st I => [|n IH] st I Hg HR Hm; rewrite loopE.
  case: ifP => // _; case E: scan => [[ke|]|x] //.
  by have [] := @scan_raise _ _ _ _ _ _ _ _ _ _ forget fcheck st 0 EQNS x I Hg HR (fun i Hi => conj Hi erefl).
case: ifP => // _; case E: scan => [[[j e']|]|x] //; last first.
  by have [] := @scan_raise _ _ _ _ _ _ _ _ _ _ forget fcheck st 0 EQNS x I Hg HR (fun i Hi => conj Hi erefl).
have [i [H1 H2 H3 H4 H5]] := scan_some E; move: H2; rewrite add0n => H2; subst i e'.
have Ek : dkeys (v_tab (use st (j, nth eqn0 EQNS j))) = rcons (dkeys (v_tab st)) (e_kw (nth eqn0 EQNS j)).
  exact: use_keys.
have Sk i : (i < j)%N -> known (v_tab st) (e_deps (nth eqn0 EQNS i)) -> e_kw (nth eqn0 EQNS i) \in dkeys (v_tab st).
  move=> Hi K; case: I => _ _ Us.
  have Hi' : (i < j - 0)%N by rewrite subn0.
  case: (scan_skipped E Hi').
  - move=> /hasP [u Hu /perm_mem P]; apply: (Us _ Hu); rewrite P.
    by rewrite /sig mem_rcons mem_head.
  - by rewrite F0.
  - by [].
  - by rewrite K.
apply: IH; first exact: use_inv.
- by move=> kw f; rewrite use_dget; case: eqP => // _; apply: Hg.
- rewrite Ek !mem_rcons !inE => /orP [/eqP Kw|/HR ->]; last by rewrite orbT.
  have Ej : j = 25%N by move: H1 Kw {H4 H5 E Ek Sk}; do 49!(case: j => [|j] //).
  subst j; have kO : "rhoO" \in dkeys (v_tab st) by apply: (allP H5).
  case/orP: (Hm kO) => K; last by rewrite K orbT.
  have kmI : "murI" \in dkeys (v_tab st) by apply: (Sk 0%N).
  by rewrite (Sk 24%N) ?orbT //= K kmI.
- rewrite Ek !mem_rcons !inE => /orP [/eqP Kw|/Hm /orP [->|->]]; rewrite ?orbT //.
  by exfalso; move: H1 Kw {H4 H5 E Ek Sk}; do 49!(case: j => [|j] //).
Qed.
(** ** the four line constants *)
Definition four : seq string := [:: "LTL"; "CTL"; "Z0TL"; "vr"].
(** at most one of the four comes before kw *)
Definition early (ks : seq string) (kw : string) : Prop :=
  {in four &, forall p q, p != q -> (seq.index p ks < seq.index kw ks)%N ->
     (seq.index q ks < seq.index kw ks)%N -> False}.
Definition lineq (tb : table) : Prop :=
  {in four, forall kw, kw \in dkeys tb ->
     early (dkeys tb) kw \/ exists2 k, dget tb kw = Some (Computed _ k) & (4 <= k <= 11)%N}.
Lemma lineq_use st j : forget = [::] -> inv st -> scan st 0 EQNS = Ok (Some (j, nth eqn0 EQNS j)) ->
  (j < 49)%N -> lineq (v_tab st) -> lineq (v_tab (use st (j, nth eqn0 EQNS j))).
Proof.
move=> F0 I E Hj Q; have [i [H1 H2 H3 H4 H5]] := scan_some E; move: H2; rewrite add0n => H2; subst i.
have Ek : dkeys (v_tab (use st (j, nth eqn0 EQNS j))) = rcons (dkeys (v_tab st)) (e_kw (nth eqn0 EQNS j)).
  exact: use_keys.
have Sk i : (i < j)%N -> known (v_tab st) (e_deps (nth eqn0 EQNS i)) -> e_kw (nth eqn0 EQNS i) \in dkeys (v_tab st).
  move=> Hi K; case: I => _ _ Us.
  have Hi' : (i < j - 0)%N by rewrite subn0.
  case: (scan_skipped E Hi').
  - move=> /hasP [u Hu /perm_mem P]; apply: (Us _ Hu); rewrite P.
    by rewrite /sig mem_rcons mem_head.
  - by rewrite F0.
  - by [].
  - by rewrite K.
set ks := dkeys (v_tab st) in H4 Ek Sk *.
have idx p : p \in ks -> seq.index p (rcons ks (e_kw (nth eqn0 EQNS j))) = seq.index p ks by apply: idx_rcons.
have idn p : p \notin ks -> (size ks <= seq.index p (rcons ks (e_kw (nth eqn0 EQNS j))))%N.
  by move=> N; rewrite -cats1 index_cat (negbTE N) leq_addr.
move=> kw F; rewrite use_dget Ek mem_rcons inE => /orP [/eqP Kw|K]; last first.
  case: (Q _ F K) => [Ea|[k Hk1 Hk2]]; last first.
    right; exists k => //; case: eqP => // X.
    by case/negP: H4; rewrite -X.
  left=> p q Fp Fq Npq; rewrite (idx _ K) => L1 L2.
  have Kl r : (seq.index r (rcons ks (e_kw (nth eqn0 EQNS j))) < seq.index kw ks)%N ->
      r \in ks /\ (seq.index r ks < seq.index kw ks)%N.
    move=> L; case Kr: (r \in ks); first by rewrite -idx.
    have := leq_ltn_trans (idn _ (negbT Kr)) L; rewrite ltnNge index_size //.
  have [_ L1'] := Kl _ L1; have [_ L2'] := Kl _ L2.
  exact: Ea Fp Fq Npq L1' L2'.
rewrite Kw eqxx.
case J: (4 <= j <= 11)%N; first by right; exists j.
left=> p q Fp Fq Npq; rewrite -cats1 !index_cat (negbTE H4) /= eqxx addn0 => L1 L2.
have Kl r : ((if r \in ks then seq.index r ks else size ks + seq.index r [:: e_kw (nth eqn0 EQNS j)]) < size ks)%N -> r \in ks.
  by case: ifP => // _; rewrite ltnNge leq_addr.
have /= [Kp Kq] : p \in ks /\ q \in ks by move: L1 L2; rewrite /= => L1 L2; split; apply: Kl.
have Hj12 : (11 < j)%N.
  rewrite Kw in F; move: Hj F J {E Q H1 H3 H4 H5 Ek Sk idx idn Kw L1 L2 Kl}.
  by do 12!(case: j => [|j] //).
have Cl k : (k <= 11)%N -> known (v_tab st) (e_deps (nth eqn0 EQNS k)) -> e_kw (nth eqn0 EQNS k) \in ks.
  by move=> Hk; apply: Sk; apply: leq_ltn_trans Hk Hj12.
have All : [/\ "LTL" \in ks, "CTL" \in ks, "Z0TL" \in ks & "vr" \in ks].
  have c4 := Cl 4%N isT; have c5 := Cl 5%N isT; have c6 := Cl 6%N isT; have c7 := Cl 7%N isT.
  have c8 := Cl 8%N isT; have c9 := Cl 9%N isT; have c10 := Cl 10%N isT; have c11 := Cl 11%N isT.
  rewrite /= /known /= -/ks ?andbT in c4 c5 c6 c7 c8 c9 c10 c11.
  move: Fp Fq Npq Kp Kq c4 c5 c6 c7 c8 c9 c10 c11; rewrite !inE.
  by case/or4P => /eqP ->; case/or4P => /eqP -> //= _ -> ->;
    case: ("LTL" \in ks); case: ("CTL" \in ks); case: ("Z0TL" \in ks); case: ("vr" \in ks) => //=;
    (try by move=> /(_ isT)); (try by move=> _ /(_ isT)); (try by move=> _ _ /(_ isT));
    (try by move=> _ _ _ /(_ isT)); (try by move=> _ _ _ _ /(_ isT)); (try by move=> _ _ _ _ _ /(_ isT));
    (try by move=> _ _ _ _ _ _ /(_ isT)); (try by move=> _ _ _ _ _ _ _ /(_ isT)).
case: All => A1 A2 A3 A4; case/negP: H4; rewrite -Kw.
by move: F; rewrite !inE => /or4P [] /eqP ->.
Qed.
Lemma lineq_start (kws : kwargs) tb : inputs [::] kws = Ok tb -> uniq (map fst kws) ->
  (count (mem (map fst kws)) four <= 2)%N -> lineq (missing tb).
Proof.
move=> E U Cn kw F K; left=> p q Fp Fq Npq L1 L2.
have Kp := idx_keys K L1; have Kq := idx_keys K L2.
have G r : r \in four -> r \in dkeys (missing tb) -> r \in map fst kws.
  by move=> Fr; rewrite (missing_keys r E U) /=; move: Fr; rewrite !inE => /or4P [] /eqP ->.
have Np : p != kw by apply/eqP => X; move: L1; rewrite X ltnn.
have Nq : q != kw by apply/eqP => X; move: L2; rewrite X ltnn.
have : (size [:: p; q; kw] <= size [seq x <- four | x \in map fst kws])%N.
  apply: uniq_leq_size; first by rewrite /= !inE negb_or Npq Np Nq.
  move=> r; rewrite !inE mem_filter => /or3P [] /eqP ->; rewrite ?Fp ?Fq ?F ?G //.
by rewrite size_filter => H; have := leq_trans H Cn.
Qed.

Lemma lineq_final tb w x L Cc Z v : wf tb -> small log exp pow10 pi c0 mu0 e0 eta0coax Zbase tb ->
  lineq tb -> c0 != 0 ->
  value tb w x "LTL" = Ok L -> value tb w x "CTL" = Ok Cc -> value tb w x "Z0TL" = Ok Z ->
  value tb w x "vr" = Ok v -> L != 0 -> Cc != 0 -> Z != 0 -> v != 0 ->
  Z ^+ 2 * Cc = L /\ (v * c0) ^+ 2 * (L * Cc) = 1.
Proof.
move=> W Sm Q c0n EL EC EZ Ev Ln Cn Zn vn.
have Kn p y : value tb w x p = Ok y -> p \in dkeys tb.
  by move=> E; case H: (p \in dkeys tb) => //; move: E; rewrite value_none ?H.
have kL := Kn _ _ EL; have kC := Kn _ _ EC; have kZ := Kn _ _ EZ; have kv := Kn _ _ Ev.
pose ks := dkeys tb; pose ix p := seq.index p ks.
have inj p q : p \in ks -> q \in ks -> p != q -> ix p <> ix q.
  by move=> K1 K2 N E; case/eqP: N; rewrite -(nth_index "" K1) -(nth_index "" K2) -/(ix p) -/(ix q) E.
have nLC := inj _ _ kL kC isT; have nLZ := inj _ _ kL kZ isT; have nLv := inj _ _ kL kv isT.
have nCZ := inj _ _ kC kZ isT; have nCv := inj _ _ kC kv isT; have nZv := inj _ _ kZ kv isT.
have ear kw p q : early ks kw -> p \in four -> q \in four -> p != q ->
    (ix p < ix kw)%coq_nat -> (ix q < ix kw)%coq_nat -> False.
  by move=> H F1 F2 N /ssrnat.ltP L1 /ssrnat.ltP L2; apply: (H p q F1 F2 N L1 L2).
have dep kw k d : dget tb kw = Some (Computed _ k) -> d \in e_deps (nth eqn0 EQNS k) ->
    (ix d < ix kw)%coq_nat.
  by move=> /W [_ _ D] /D H; apply/ssrnat.ltP.
have sqz : np_sqrt (L / Cc) ^+ 2 = L / Cc := np_sqrtK _.
have QL : (early ks "LTL" \/ [/\ (ix "Z0TL" < ix "LTL")%coq_nat, (ix "vr" < ix "LTL")%coq_nat & L * (c0 * v) = Z])
   \/ ([/\ (ix "Z0TL" < ix "LTL")%coq_nat, (ix "CTL" < ix "LTL")%coq_nat & Z ^+ 2 * Cc = L]
   \/ [/\ (ix "CTL" < ix "LTL")%coq_nat, (ix "vr" < ix "LTL")%coq_nat & (v * c0) ^+ 2 * (L * Cc) = 1]).
  have [H|[k Ek Hk]] := Q "LTL" isT kL; first by left; left.
  have V := value_computed w x W Sm Ek; have D := dep _ _ _ Ek; have [_ Kw _] := W _ _ Ek.
  have : k \in [:: 4; 6; 10]%N by move: Hk Kw; clear; do 12!(case: k => [|k] //).
  rewrite !inE => /or3P [] /eqP Ej; subst k.
  - left; right; split; [exact: D|exact: D|].
    by move: V; rewrite EL /= /f2 EZ Ev /= => -[->]; field; rewrite c0n vn.
  - right; left; split; [exact: D|exact: D|].
    by move: V; rewrite EL /= /f2 EZ EC /= => -[->].
  - right; right; split; [exact: D|exact: D|].
    by move: V; rewrite EL /= /f2 Ev EC /= => -[->]; field; rewrite c0n vn Cn.
have QC : (early ks "CTL" \/ [/\ (ix "Z0TL" < ix "CTL")%coq_nat, (ix "vr" < ix "CTL")%coq_nat & Cc * (Z * c0 * v) = 1])
   \/ ([/\ (ix "Z0TL" < ix "CTL")%coq_nat, (ix "LTL" < ix "CTL")%coq_nat & Z ^+ 2 * Cc = L]
   \/ [/\ (ix "LTL" < ix "CTL")%coq_nat, (ix "vr" < ix "CTL")%coq_nat & (v * c0) ^+ 2 * (L * Cc) = 1]).
  have [H|[k Ek Hk]] := Q "CTL" isT kC; first by left; left.
  have V := value_computed w x W Sm Ek; have D := dep _ _ _ Ek; have [_ Kw _] := W _ _ Ek.
  have : k \in [:: 5; 7; 11]%N by move: Hk Kw; clear; do 12!(case: k => [|k] //).
  rewrite !inE => /or3P [] /eqP Ej; subst k.
  - left; right; split; [exact: D|exact: D|].
    by move: V; rewrite EC /= /f2 EZ Ev /= => -[->]; field; rewrite c0n vn Zn.
  - right; left; split; [exact: D|exact: D|].
    by move: V; rewrite EC /= /f2 EL EZ /= => -[->]; field; rewrite Zn.
  - right; right; split; [exact: D|exact: D|].
    by move: V; rewrite EC /= /f2 Ev EL /= => -[->]; field; rewrite c0n vn Ln.
have QZ : early ks "Z0TL" \/ [/\ (ix "LTL" < ix "Z0TL")%coq_nat, (ix "CTL" < ix "Z0TL")%coq_nat & Z ^+ 2 * Cc = L].
  have [H|[k Ek Hk]] := Q "Z0TL" isT kZ; first by left.
  have V := value_computed w x W Sm Ek; have D := dep _ _ _ Ek; have [_ Kw _] := W _ _ Ek.
  have : k \in [:: 8]%N by move: Hk Kw; clear; do 12!(case: k => [|k] //).
  rewrite !inE => /eqP Ej; subst k.
  right; split; [exact: D|exact: D|].
  by move: V; rewrite EZ /= /f2 EL EC /= => -[->]; rewrite sqz mulfVK.
have Qv : early ks "vr" \/ [/\ (ix "LTL" < ix "vr")%coq_nat, (ix "CTL" < ix "vr")%coq_nat & (v * c0) ^+ 2 * (L * Cc) = 1].
  have [H|[k Ek Hk]] := Q "vr" isT kv; first by left.
  have V := value_computed w x W Sm Ek; have D := dep _ _ _ Ek; have [_ Kw _] := W _ _ Ek.
  have : k \in [:: 9]%N by move: Hk Kw; clear; do 12!(case: k => [|k] //).
  rewrite !inE => /eqP Ej; subst k.
  right; split; [exact: D|exact: D|].
  move: V; rewrite Ev /= /f2 EL EC /= => -[->].
  have sn : np_sqrt (L * Cc) != 0 by rewrite np_sqrt_eq0 mulf_neq0.
  have -> : (1 / (c0 * np_sqrt (L * Cc)) * c0) ^+ 2 = 1 / np_sqrt (L * Cc) ^+ 2 by field; rewrite sn c0n.
  by rewrite np_sqrtK; field; rewrite Ln Cn.
clear EL EC EZ Ev kL kC kZ kv Kn dep.
have r13 : L * (c0 * v) = Z -> Z ^+ 2 * Cc = L -> (v * c0) ^+ 2 * (L * Cc) = 1.
  move=> R1 R3; apply: (mulfI Ln); rewrite mulr1 -[RHS]R3 -R1; ring.
have r12 : L * (c0 * v) = Z -> Cc * (Z * c0 * v) = 1 -> Z ^+ 2 * Cc = L.
  by move=> R1 R2; rewrite -[RHS]mulr1 -R2 -R1; ring.
have r14 : L * (c0 * v) = Z -> (v * c0) ^+ 2 * (L * Cc) = 1 -> Z ^+ 2 * Cc = L.
  by move=> R1 R4; rewrite -[RHS]mulr1 -R4 -R1; ring.
have r23 : Cc * (Z * c0 * v) = 1 -> Z ^+ 2 * Cc = L -> (v * c0) ^+ 2 * (L * Cc) = 1.
  move=> R2 R3; rewrite -R3.
  have -> : (v * c0) ^+ 2 * (Z ^+ 2 * Cc * Cc) = (Cc * (Z * c0 * v)) ^+ 2 by ring.
  by rewrite R2 expr1n.
have r24 : Cc * (Z * c0 * v) = 1 -> (v * c0) ^+ 2 * (L * Cc) = 1 -> Z ^+ 2 * Cc = L.
  move=> R2 R4; have vc : (v * c0) ^+ 2 * Cc != 0 by rewrite !mulf_neq0 ?expf_neq0 ?mulf_neq0.
  apply: (mulfI vc); have -> : (v * c0) ^+ 2 * Cc * (Z ^+ 2 * Cc) = (Cc * (Z * c0 * v)) ^+ 2 by ring.
  by rewrite R2 expr1n -R4; ring.
have e3 kw p q r : early ks kw -> p \in four -> q \in four -> r \in four -> p != q -> p != r -> q != r ->
   [/\ ~ ((ix p < ix kw)%coq_nat /\ (ix q < ix kw)%coq_nat), ~ ((ix p < ix kw)%coq_nat /\ (ix r < ix kw)%coq_nat)
     & ~ ((ix q < ix kw)%coq_nat /\ (ix r < ix kw)%coq_nat)].
  by move=> H F1 F2 F3 N1 N2 N3; split=> -[A B]; [apply: ear H F1 F2 N1 A B|apply: ear H F1 F3 N2 A B|apply: ear H F2 F3 N3 A B].
have eL H := e3 "LTL" "CTL" "Z0TL" "vr" H isT isT isT isT isT isT.
have eC H := e3 "CTL" "LTL" "Z0TL" "vr" H isT isT isT isT isT isT.
have eZ H := e3 "Z0TL" "CTL" "LTL" "vr" H isT isT isT isT isT isT.
have ev H := e3 "vr" "CTL" "LTL" "Z0TL" H isT isT isT isT isT isT.
move: (ix "LTL") (ix "CTL") (ix "Z0TL") (ix "vr") nLC nLZ nLv nCZ nCv nZv QL QC QZ Qv eL eC eZ ev.
clear -r12 r13 r14 r23 r24.
move=> iL iC iZ iv nLC nLZ nLv nCZ nCv nZv.
move=> [[/[dup] HL _|[a1 a2 HL]]|[[a1 a2 HL]|[a1 a2 HL]]];
  move=> [[HC|[b1 b2 HC]]|[[b1 b2 HC]|[b1 b2 HC]]];
  move=> [HZ|[c1 c2 HZ]]; move=> [Hv|[d1 d2 Hv]] eL eC eZ ev;
  try (case: (eL HL) => l1 l2 l3); try (case: (eC HC) => k1 k2 k3);
  try (case: (eZ HZ) => z1 z2 z3); try (case: (ev Hv) => v1 v2 v3); clear eL eC eZ ev;
  try (exfalso; lia);
  by split; eauto 3.
Qed.
End Tl.

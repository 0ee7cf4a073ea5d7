(** Proofs about rfTRL with position dependent parameters. *)
From mathcomp Require Import all_ssreflect all_algebra.
From mathcomp.algebra_tactics Require Import ring.
From Coq Require Import String.
From Verif Require Import Base ConvModel ConvSpec MxLib ConvProofs ConvArr DevModel DevSpec DevThm TrlModel TrlSpec TrlThm TrlVar.
Set Implicit Arguments.
Unset Strict Implicit.
Unset Printing Implicit Defensive.
Import Order.TTheory GRing.Theory Num.Theory.
Local Open Scope ring_scope.

Section Calc.
Variable C : numClosedFieldType.
Variable der : (C -> C) -> (C -> C) -> Prop.
Hypothesis Hd : calculus der.
Implicit Types (f g V I U J : C -> C).

Lemma der_zero f f' a b : der f f' -> 0 <= a -> a <= b -> (forall x, a <= x <= b -> f' x = 0) -> f a = f b.
Proof.
move=> H Ha Hab H0; apply/eqP; rewrite eq_le (der_mono Hd H Ha Hab) => [/=|x Hx]; last by rewrite H0.
have H1 := der_lin Hd (-1) 0 H H.
have := der_mono Hd H1 Ha Hab; rewrite !mul0r !addr0 !mulN1r ler_opp2; apply=> x Hx.
by rewrite H0 // mulr0 mul0r addr0.
Qed.

Variables z y : C -> C.
Local Notation tele := (telegraph der z y).

Lemma tele_sub a b a' b' V I : a <= a' -> b' <= b -> tele a b V I -> tele a' b' V I.
Proof.
move=> Ha Hb [V' [I' [H1 H2 H3]]]; exists V', I'; split=> // x /andP [Hx1 Hx2].
by apply: H3; rewrite (le_trans Ha Hx1) (le_trans Hx2 Hb).
Qed.

Lemma tele_lin a b V I U J p q : tele a b V I -> tele a b U J ->
  tele a b (fun x => p * V x + q * U x) (fun x => p * I x + q * J x).
Proof.
move=> [V' [I' [H1 H2 H3]]] [U' [J' [G1 G2 G3]]]; do 2!eexists; split; [exact: (der_lin Hd p q H1 G1)|exact: (der_lin Hd p q H2 G2)|].
by move=> x Hx; have [-> ->] := H3 x Hx; have [-> ->] := G3 x Hx; split; ring.
Qed.

(** V J - I U is the same everywhere *)
Lemma wronskian a b V I U J : 0 <= a -> a <= b -> tele a b V I -> tele a b U J ->
  V a * J a - I a * U a = V b * J b - I b * U b.
Proof.
move=> Ha Hab [V' [I' [H1 H2 H3]]] [U' [J' [G1 G2 G3]]].
have D := der_lin Hd 1 (-1) (der_mul Hd H1 G2) (der_mul Hd H2 G1).
have := der_zero D Ha Hab; rewrite !mul1r !mulN1r; apply=> x Hx.
by have [-> ->] := H3 x Hx; have [-> ->] := G3 x Hx; ring.
Qed.

(** the power that passes: V I^* + I U^* *)
Lemma power_const a b V I U J : 0 <= a -> a <= b -> tele a b V I -> tele a b U J ->
  (forall x, a <= x <= b -> 'Re (z x) = 0 /\ 'Re (y x) = 0) ->
  V a * (J a)^* + I a * (U a)^* = V b * (J b)^* + I b * (U b)^*.
Proof.
move=> Ha Hab [V' [I' [H1 H2 H3]]] [U' [J' [G1 G2 G3]]] H0.
have D := der_lin Hd 1 1 (der_mul Hd H1 (der_conj Hd G2)) (der_mul Hd H2 (der_conj Hd G1)).
have := der_zero D Ha Hab; rewrite !mul1r; apply=> x Hx.
have [-> ->] := H3 x Hx; have [-> ->] := G3 x Hx; have [Hz Hy] := H0 x Hx.
have K w : 'Re w = 0 -> w + w^* = 0.
  by rewrite ReE => /eqP; rewrite mulf_eq0 invr_eq0 pnatr_eq0 orbF => /eqP.
rewrite !rmorphM /=; transitivity ((z x + (z x)^*) * (I x * (J x)^*) + (y x + (y x)^*) * (V x * (U x)^*)); first by ring.
by rewrite !K // !mul0r addr0.
Qed.

Lemma power_grow a b V I : 0 <= a -> a <= b -> tele a b V I ->
  (forall x, a <= x <= b -> 0 <= 'Re (z x) /\ 0 <= 'Re (y x)) ->
  V a * (I a)^* + I a * (V a)^* <= V b * (I b)^* + I b * (V b)^*.
Proof.
move=> Ha Hab [V' [I' [H1 H2 H3]]] H0.
have D := der_lin Hd 1 1 (der_mul Hd H1 (der_conj Hd H2)) (der_mul Hd H2 (der_conj Hd H1)).
have := der_mono Hd D Ha Hab; rewrite !mul1r; apply=> x Hx.
have [-> ->] := H3 x Hx; have [Hz Hy] := H0 x Hx.
have K w : 0 <= 'Re w -> 0 <= w + w^*.
  rewrite ReE => H; have -> : w + w^* = 2%:R * ((w + w^*) / 2%:R) by field.
  by rewrite mulr_ge0 // ler0n.
rewrite !mul1r !rmorphM /=.
set e := (X in 0 <= X); have -> : e = (z x + (z x)^*) * (I x * (I x)^*) + (y x + (y x)^*) * (V x * (V x)^*) by rewrite /e; ring.
by rewrite addr_ge0 // mulr_ge0 ?K // mul_conjC_ge0.
Qed.
End Calc.

(** ** the line *)
Section Law.
Variable C : numClosedFieldType.
Variable der : (C -> C) -> (C -> C) -> Prop.
Hypothesis Hd : calculus der.
Variables (z y : C -> C) (L : C).
Hypothesis HL : 0 <= L.
Local Notation law := (var_law der z y L).

Lemma var_recip v1 v2 i1 i2 v1' v2' i1' i2' : law v1 v2 i1 i2 -> law v1' v2' i1' i2' ->
  i1 * v1' + i2 * v2' = v1 * i1' + v2 * i2'.
Proof.
move=> [V [I [H [E1 E2 E3 E4]]]] [U [J [G [F1 F2 F3 F4]]]].
have := wronskian Hd (lexx 0) HL H G; rewrite E1 E2 E3 E4 F1 F2 F3 F4 => W.
apply/eqP; rewrite -subr_eq0; apply/eqP.
transitivity (v1 * - i1' - - i1 * v1' - (v2 * i2' - i2 * v2')); first by ring.
by rewrite W subrr.
Qed.

Lemma var_lossless v1 v2 i1 i2 v1' v2' i1' i2' :
  (forall x, 0 <= x <= L -> 'Re (z x) = 0 /\ 'Re (y x) = 0) -> law v1 v2 i1 i2 -> law v1' v2' i1' i2' ->
  v1 * i1'^* + i1 * v1'^* + (v2 * i2'^* + i2 * v2'^*) = 0.
Proof.
move=> H0 [V [I [H [E1 E2 E3 E4]]]] [U [J [G [F1 F2 F3 F4]]]].
have := power_const Hd (lexx 0) HL H G H0; rewrite E1 E2 E3 E4 F1 F2 F3 F4 => <-.
by rewrite rmorphN /=; ring.
Qed.

Lemma var_power v1 v2 i1 i2 : (forall x, 0 <= x <= L -> 0 <= 'Re (z x) /\ 0 <= 'Re (y x)) ->
  law v1 v2 i1 i2 -> 0 <= power (col2 v1 v2) (col2 i1 i2).
Proof.
move=> H0 [V [I [H [E1 E2 E3 E4]]]].
have := power_grow Hd (lexx 0) HL H H0; rewrite E1 E2 E3 E4 => W.
rewrite /power sum2 !mxE /= !ReE -mulrDl mulr_ge0 ?invr_ge0 ?ler0n //.
rewrite -subr_ge0 in W; rewrite !rmorphM /= !conjCK.
set e := (X in 0 <= X) in W; set e' := (X in 0 <= X).
by have -> : e' = e by rewrite /e /e' rmorphN /=; ring.
Qed.

(** the two solutions that start with (1, 0) and (0, 1) *)
Variables V1 V2 I1 I2 : C -> C.
Hypothesis HM1 : telegraph der z y 0 L V1 I1.
Hypothesis HM2 : telegraph der z y 0 L V2 I2.
Hypothesis HM1' : V1 0 = 1 /\ I1 0 = 0.
Hypothesis HM2' : V2 0 = 0 /\ I2 0 = 1.
Local Notation MM x := (mx2 (V1 x) (V2 x) (I1 x) (I2 x)).

Lemma tele_start V I x : 0 <= x <= L -> telegraph der z y 0 L V I ->
  V x = V1 x * V 0 + V2 x * I 0 /\ I x = I1 x * V 0 + I2 x * I 0.
Proof.
move=> /andP [Hx1 Hx2] H; have [A1 A2] := HM1'; have [A3 A4] := HM2'.
have sub U J := @tele_sub _ der z y 0 L 0 x U J (lexx 0) Hx2.
have W1 := wronskian Hd (lexx 0) Hx1 (sub _ _ H) (sub _ _ HM1).
have W2 := wronskian Hd (lexx 0) Hx1 (sub _ _ H) (sub _ _ HM2).
have W := wronskian Hd (lexx 0) Hx1 (sub _ _ HM1) (sub _ _ HM2).
rewrite A1 A2 A3 A4 !mulr0 !mulr1 ?sub0r ?subr0 in W1 W2 W.
have E0 : V 0 = V x * I2 x - I x * V2 x by rewrite -W2.
have E1 : I 0 = - (V x * I1 x - I x * V1 x) by rewrite -W1 opprK.
rewrite E0 E1; split.
  transitivity (V x * (V1 x * I2 x - I1 x * V2 x)); first by rewrite -W mulr1.
  by ring.
transitivity (I x * (V1 x * I2 x - I1 x * V2 x)); first by rewrite -W mulr1.
by ring.
Qed.

Lemma tele_from v0 i0 : exists V I, [/\ telegraph der z y 0 L V I, V 0 = v0, I 0 = i0 &
  forall x, V x = V1 x * v0 + V2 x * i0 /\ I x = I1 x * v0 + I2 x * i0].
Proof.
have [A1 A2] := HM1'; have [A3 A4] := HM2'.
exists (fun x => v0 * V1 x + i0 * V2 x), (fun x => v0 * I1 x + i0 * I2 x); split.
- exact: (tele_lin Hd v0 i0 HM1 HM2).
- by rewrite A1 A3; ring.
- by rewrite A2 A4; ring.
- by move=> x; split; ring.
Qed.

Lemma lawE v1 v2 i1 i2 : law v1 v2 i1 i2 <-> v2 = V1 L * v1 - V2 L * i1 /\ i2 = I1 L * v1 - I2 L * i1.
Proof.
split=> [[V [I [H [E1 E2 E3 E4]]]]|[-> ->]].
  have [] := tele_start (_ : 0 <= L <= L) H; first by rewrite HL lexx.
  by rewrite E1 E2 E3 E4 !mulrN.
have [V [I [H E1 E2 E]]] := tele_from v1 (- i1); have [EV EI] := E L.
by exists V, I; split=> //; split=> //; rewrite ?EV ?EI mulrN //; ring.
Qed.

Lemma law_scat zb S : zb != 0 -> s_from_vi1 (MM L) zb = Ok S -> is_scat2 law zb S.
Proof. by move=> Hz /(svi_scat Hz); apply: is_scat2_ext => *; rewrite lawE !mxE. Qed.

(** a passive line has a scattering matrix on every positive impedance *)
Lemma law_svi zb : 0 < zb -> (forall x, 0 <= x <= L -> 0 <= 'Re (z x) /\ 0 <= 'Re (y x)) ->
  exists S, s_from_vi1 (MM L) zb = Ok S.
Proof.
move=> Hz H0; rewrite /s_from_vi1; set A := \matrix_(i, j) (if i == 0 then (if j == 0 then 1 else - zb) else _).
suff HA : A \in unitmx by rewrite /np_inv HA /=; eexists.
rewrite -unitmx_tr -row_free_unit -kermx_eq0; apply/rowV0P => u /sub_kermxP E.
pose q1 := u 0 0; pose q2 := u 0 1.
have HE k : q1 * A k 0 + q2 * A k 1 = 0.
  by have := congr1 (fun X : 'rV[C]_2 => X 0 k) E; rewrite mxE sum2 !mxE.
have := HE 0; have := HE 1; rewrite !mxE /= => E2 E1.
have Eq : q1 = zb * q2.
  by apply/eqP; rewrite -subr_eq0 -E1; apply/eqP; ring.
have [v2 [i2 Hlaw]] : exists v2 i2, law q1 v2 (- q2) i2 by do 2!eexists; apply/lawE; split; reflexivity.
have [Ev Ei] := iffLR (lawE _ _ _ _) Hlaw.
have Ev2 : v2 = - (zb * i2).
  by apply/eqP; rewrite -subr_eq0 opprK Ev Ei -E2; apply/eqP; ring.
have := var_power H0 Hlaw; rewrite /power sum2 !mxE /= Ev2 Eq rmorphN mulrN mulNr !ReE.
rewrite !rmorphN !rmorphM /= !(conj_Creal (gtr0_real Hz)) !conjCK => Hp.
have : 0 <= - (zb * (q2 * q2^* + i2 * i2^*)).
  by move: Hp; set e := (X in 0 <= X); suff -> : e = - (zb * (q2 * q2^* + i2 * i2^*)) by []; rewrite /e; field.
rewrite oppr_ge0 pmulr_rle0 // => Hq.
have E0 : q2 = 0.
  apply/eqP; rewrite -mul_conjC_eq0; rewrite eq_le mul_conjC_ge0 andbT.
  by apply: le_trans Hq; rewrite ler_addl mul_conjC_ge0.
apply/rowP => k; rewrite mxE; move: k; apply: ord2P => //.
by rewrite -/q1 Eq E0 mulr0.
Qed.
End Law.

(** ** from odeint to the line *)
Section Ode.
Variable C : numClosedFieldType.
Variable der : (C -> C) -> (C -> C) -> Prop.
Hypothesis Hd : calculus der.
Variables (rjwL gjwC : C -> C -> C) (odeint : (seq C -> C -> seq C) -> seq C -> seq C -> seq (seq C)).
Local Notation eqnVI := (eqnVI rjwL gjwC).
(** odeint solves the equations of the line *)
Definition good_odeint := forall w y0 xs, size y0 = 4%N -> all (fun c => c \is Num.real) y0 ->
  0 <= head 0 xs -> head 0 xs <= last 0 xs -> integrates der (eqnVI w) y0 xs (odeint (eqnVI w) y0 xs).
Hypothesis Hode : good_odeint.

Lemma ode_tele w xs a b c d : [/\ a \is Num.real, b \is Num.real, c \is Num.real & d \is Num.real] ->
  0 <= head 0 xs -> head 0 xs <= last 0 xs -> exists V I,
  [/\ telegraph der (rjwL w) (gjwC w) (head 0 xs) (last 0 xs) V I, V (head 0 xs) = a + 'i * b, I (head 0 xs) = c + 'i * d &
   exists Y : C -> seq C, odeint (eqnVI w) [:: a; b; c; d] xs = map Y xs /\
    forall x, V x = (Y x)`_0 + 'i * (Y x)`_1 /\ I x = (Y x)`_2 + 'i * (Y x)`_3].
Proof.
move=> [Ha Hb Hc Hdd] Hx0 Hx; have Hr : all (fun t => t \is Num.real) [:: a; b; c; d] by rewrite /= Ha Hb Hc Hdd.
have [Y [_ H0 H1 H2]] := @Hode w [:: a; b; c; d] xs erefl Hr Hx0 Hx.
exists (fun x => 1 * Y 0%N x + 'i * Y 1%N x), (fun x => 1 * Y 2%N x + 'i * Y 3%N x); split.
-
  have [d0 D0 E0] := H1 0%N erefl; have [d1 D1 E1] := H1 1%N erefl.
  have [d2 D2 E2] := H1 2%N erefl; have [d3 D3 E3] := H1 3%N erefl.
  eexists; eexists; split; [exact: (der_lin Hd 1 'i D0 D1)|exact: (der_lin Hd 1 'i D2 D3)|].
  move=> x Hxx; cbn beta; by rewrite E0 // E1 // E2 // E3 //= !mul1r -!Crect.
- by rewrite (H0 0%N) // (H0 1%N) //= mul1r.
- by rewrite (H0 2%N) // (H0 3%N) //= mul1r.
- by exists (fun x => mkseq (Y ^~ x) 4%N); split=> // x; rewrite /= !mul1r.
Qed.

(** two solutions that start with (1, 0) and (0, 1), and what is computed of them *)
Definition basis (z y : C -> C) (L : C) (V1 V2 I1 I2 : C -> C) :=
  [/\ telegraph der z y 0 L V1 I1, telegraph der z y 0 L V2 I2, V1 0 = 1 /\ I1 0 = 0 & V2 0 = 0 /\ I2 0 = 1].

Lemma mx2_1 : mx2 1 0 0 1 = 1%:M :> 'M[C]_2.
Proof. by apply/matrixP; apply: ord2P; apply: ord2P; rewrite !mxE. Qed.

Lemma ode_VI w xs L : 0 <= L -> head 0 xs = 0 -> last 0 xs = L ->
  exists V1 V2 I1 I2, basis (rjwL w) (gjwC w) L V1 V2 I1 I2 /\
  [seq vi_rows rr.1 rr.2 | rr <- zip (odeint (eqnVI w) [:: 1; 0; 0; 0] xs) (odeint (eqnVI w) [:: 0; 0; 1; 0] xs)] =
  [seq mx2 (V1 x) (V2 x) (I1 x) (I2 x) | x <- xs].
Proof.
move=> HL H0 H1; have Hx : head 0 xs <= last 0 xs by rewrite H0 H1.
have Hx0 : 0 <= head 0 xs by rewrite H0.
have [V1 [I1 [A1 A2 A3 [Y1 [A4 A5]]]]] := @ode_tele w xs 1 0 0 0 (And4 (real1 _) (real0 _) (real0 _) (real0 _)) Hx0 Hx.
have [V2 [I2 [B1 B2 B3 [Y2 [B4 B5]]]]] := @ode_tele w xs 0 0 1 0 (And4 (real0 _) (real0 _) (real1 _) (real0 _)) Hx0 Hx.
rewrite H0 H1 in A1 A2 A3 B1 B2 B3.
exists V1, V2, I1, I2; split; first by rewrite mulr0 !addr0 in A2 A3 B2 B3.
rewrite A4 B4; elim: xs {H0 H1 Hx Hx0 A4 B4} => //= x xs ->; congr (_ :: _).
by rewrite /vi_rows; have [-> ->] := A5 x; have [-> ->] := B5 x.
Qed.
End Ode.

(** ** the node points *)
Section Nodes.
Variable C : numClosedFieldType.
Variables (pi : C) (rjwL gjwC : C -> C -> C) (ceil : C -> nat) (fuel : nat).
Local Notation nodesV := (nodesV pi rjwL gjwC ceil fuel).
Local Notation wavlen := (wavlen pi rjwL gjwC).

Lemma pdivE (x y q : C) : pdiv x y = Ok q -> y != 0 /\ q = x / y.
Proof. by rewrite /pdiv /=; case: ifP => // /negbT Hy [<-]. Qed.

Lemma mapM_map A B (f : A -> res B) (g : A -> B) xs ys : (forall x y, f x = Ok y -> y = g x) -> mapM f xs = Ok ys -> ys = map g xs.
Proof.
move=> H; elim: xs ys => [|x xs IH] ys /=; first by case.
by case E: (f x) => [y|] //=; case E': (mapM f xs) => [l|] //= [<-]; rewrite (IH _ E') (H _ _ E).
Qed.

Lemma stride_le n (L d x : C) xs : stride n L d x = Ok xs -> all (fun t => t <= L) xs /\ (x <= L -> exists s, xs = x :: s).
Proof.
elim: n x xs => [|n IH] x xs /=; case: ifP => // H; try by case=> <-; split.
case E: (stride n L d (x - d)) => [ys|] //= [<-] /=; rewrite H; have [H1 _] := IH _ _ E.
by split=> // _; exists ys.
Qed.

Lemma linspace_ends (L : C) n : (1 < n)%N -> exists s, linspace L n = 0 :: rcons s L.
Proof.
case: n => [|[|n]] // _; exists [seq L * k%:R / n.+1%:R | k <- iota 1 n]; rewrite /linspace.
have -> : iota 0 n.+2 = 0%N :: iota 1 n ++ [:: n.+1] by rewrite -[[:: n.+1]]/(iota (1 + n) 1) -iotaD addn1.
rewrite /= map_cat /= -cats1 mulr0 mul0r; congr (_ :: _ ++ [:: _]).
by rewrite mulfK // pnatr_eq0.
Qed.

Lemma nodesV_ends dx L f xs : 0 <= L -> nodesV dx L f = Ok xs ->
  [/\ (0 < size xs)%N, head 0 xs = 0 & last 0 xs = L].
Proof.
move=> HL; rewrite /TrlVar.nodesV; case: dx => [d|d].
  case: (march _ _ _ _) => [ys|] //; rewrite [bind (Ok ys) _]/= => H.
  have E : xs = [seq x * L / last 0 (0 :: ys) | x <- 0 :: ys].
    have {}H : mapM (fun x => pdiv (x * L) (last 0 (0 :: ys))) (0 :: ys) = Ok xs by exact: H.
    by apply: (mapM_map _ H) => x q /pdivE [_ ->].
  have Hl : last 0 (0 :: ys) != 0.
    by move: H; rewrite [mapM _ _]/=; case E1: (pdiv _ _) => [q|] //= _; have [] := pdivE E1.
  rewrite E; split=> //; first by rewrite /= !mul0r.
  have := last_map (fun x => x * L / last 0 (0 :: ys)) ys 0; rewrite /= => ->.
  by rewrite [last 0 ys * L]mulrC -mulrA divff // mulr1.
case: ifP => Hd.
  case E: (stride _ _ _ _) => [ys|] //; rewrite [bind (Ok ys) _]/=.
  have [Hall /(_ HL) [s Es]] := stride_le E; rewrite Es => -[<-].
  case: ifP => Hlt; first by rewrite /= last_rcons.
  split=> //; have : last 0 (0 :: s) \in ys by rewrite Es; exact: (mem_last 0 s).
  by move=> /(allP Hall); rewrite le_eqVlt Hlt orbF => /eqP.
case E: (pdiv L d) => [q|] //= [<-].
have [s ->] := @linspace_ends L (maxn 2 (ceil q)) (leq_maxl _ _).
by rewrite /= last_rcons.
Qed.

(** the steps lead forward *)
Definition forward (dx : stepping C) (f : C) : Prop :=
  if dx is DInt d then 0 < d /\ forall x l, wavlen f x = Ok l -> 0 <= l else True.

Lemma march_path n (L : C) step x ys : (forall x y, step x = Ok y -> x <= y) -> march n L step x = Ok ys ->
  path <=%O x ys.
Proof.
move=> Hs; elim: n x ys => [|n IH] x ys /=; case: ifP => // _; try by case=> <-.
case E: (step x) => [y|] //=; case E': (march n L step y) => [l|] //= [<-] /=.
by rewrite (Hs _ _ E) (IH _ _ E').
Qed.

Lemma stride_ge n (L d x : C) xs : d <= 0 -> stride n L d x = Ok xs -> all (fun t => x <= t) xs.
Proof.
move=> Hd; elim: n x xs => [|n IH] x xs /=; case: ifP => // H; try by case=> <-.
case E: (stride n L d (x - d)) => [ys|] //= [<-] /=; rewrite lexx /=.
by apply: sub_all (IH _ _ E) => t; apply: le_trans; rewrite ler_addl oppr_ge0.
Qed.

Lemma nodesV_in dx L f xs : 0 <= L -> forward dx f -> nodesV dx L f = Ok xs -> all (fun x => 0 <= x <= L) xs.
Proof.
move=> HL; rewrite /TrlVar.nodesV; case: dx => [d|d].
  move=> [Hd Hw]; case Em: (march _ _ _ _) => [ys|] //; rewrite [bind (Ok ys) _]/= => H.
  have E : xs = [seq x * L / last 0 (0 :: ys) | x <- 0 :: ys].
    have {}H : mapM (fun x => pdiv (x * L) (last 0 (0 :: ys))) (0 :: ys) = Ok xs by exact: H.
    by apply: (mapM_map _ H) => x q /pdivE [_ ->].
  have Hl : last 0 (0 :: ys) != 0.
    by move: H; rewrite [mapM _ _]/=; case E1: (pdiv _ _) => [q|] //= _; have [] := pdivE E1.
  have Hp : path <=%O 0 ys.
    apply: march_path Em => x y; case El: (wavlen f x) => [l|] //=; case Eh: (pdiv l d) => [h|] //= [<-].
    by have [_ ->] := pdivE Eh; rewrite ler_addl divr_ge0 ?(Hw _ _ El) // ltW.
  have Hge : all (fun x => 0 <= x) (0 :: ys) by rewrite /= lexx; apply: (order_path_min le_trans Hp).
  have Hle x : x \in 0 :: ys -> x <= last 0 ys.
    have Hs : sorted <=%O (0 :: ys) by [].
    elim: (ys) 0 Hs x => [|y s IH] a /=; first by move=> _ x; rewrite inE => /eqP ->.
    move=> /andP [Ha Hs] x; rewrite inE => /orP [/eqP ->|Hx]; last exact: IH.
    by apply: le_trans Ha _; apply: IH => //; rewrite mem_head.
  rewrite E all_map; apply/allP => x Hx /=; have Hx0 := allP Hge x Hx.
  have Hl0 : 0 < last 0 ys by rewrite lt_neqAle eq_sym Hl (Hle 0) ?mem_head.
  rewrite (divr_ge0 (mulr_ge0 Hx0 HL) (ltW Hl0)) /= ler_pdivr_mulr //.
  by rewrite mulrC ler_wpmul2l // Hle.
case: ifP => Hd _.
  case E: (stride _ _ _ _) => [ys|] //; rewrite [bind (Ok ys) _]/=.
  have [Hall /(_ HL) [s Es]] := stride_le E; have Hge := stride_ge (ltW Hd) E.
  have Hy : all (fun x => 0 <= x <= L) ys by apply/allP => x Hx; rewrite (allP Hge) ?(allP Hall).
  rewrite Es in Hy *; case=> <-; case: ifP => // _.
  rewrite -rcons_cons all_rcons HL lexx; exact: Hy.
case E: (pdiv L d) => [q|] //= [<-]; set n := maxn 2 _.
have Hn : (1 < n)%N by apply: leq_maxl.
apply/allP => x /mapP [k]; rewrite mem_iota => /andP [_ Hk] ->.
have Hn1 : 0 < n.-1%:R :> C by rewrite ltr0n -subn1 subn_gt0.
rewrite divr_ge0 ?mulr_ge0 ?ler0n // ler_pdivr_mulr // ler_wpmul2l // ler_nat.
by rewrite -ltnS prednK // ltnW.
Qed.
End Nodes.

(** ** the object *)
Arguments TrlVar.solveV0 : simpl never.
Section Obj.
Variable C : numClosedFieldType.
Variable der : (C -> C) -> (C -> C) -> Prop.
Hypothesis Hd : calculus der.
Variables (pi : C) (rjwL gjwC : C -> C -> C).
Variable odeint : (seq C -> C -> seq C) -> seq C -> seq C -> seq (seq C).
Hypothesis Hode : good_odeint der rjwL gjwC odeint.
Variables (ceil : C -> nat) (fuel : nat).
Local Notation nodesV := (nodesV pi rjwL gjwC ceil fuel).
Local Notation solveV0 := (solveV0 pi rjwL gjwC odeint ceil fuel).
Local Notation solveV := (solveV pi rjwL gjwC odeint ceil fuel).
Local Notation getS := (v_getS pi rjwL gjwC odeint ceil fuel).
Local Notation get1S := (v_get1S pi rjwL gjwC odeint ceil fuel).
Local Notation loop := (v_loop pi rjwL gjwC odeint ceil fuel).
Local Notation VISWs := (v_VISWs pi rjwL gjwC odeint ceil fuel).
Local Notation forward := (forward pi rjwL gjwC).
Local Notation omega f := (2%:R * pi * f).
Local Notation lawf L f := (var_law der (rjwL (omega f)) (gjwC (omega f)) L).
Local Notation MM V1 V2 I1 I2 x := (mx2 (V1 x) (V2 x) (I1 x) (I2 x)).

Lemma solveV0_basis dx L zb f e : 0 <= L -> solveV0 dx L zb f = Ok e -> exists V1 V2 I1 I2,
  [/\ basis der (rjwL (omega f)) (gjwC (omega f)) L V1 V2 I1 I2,
      s_from_vi1 (MM V1 V2 I1 I2 L) zb = Ok (e_S e), e_VI e = [seq MM V1 V2 I1 I2 x | x <- e_xs e],
      [/\ (0 < size (e_xs e))%N, head 0 (e_xs e) = 0 & last 0 (e_xs e) = L] &
      forward dx f -> all (fun x => 0 <= x <= L) (e_xs e)].
Proof.
move=> HL; rewrite /TrlVar.solveV0; case En: (nodesV _ _ _) => [xs|] //; rewrite [bind (Ok xs) _]/=.
have [Hsz Hh Hl] := nodesV_ends HL En; rewrite Hh Hl.
have lastm (A B : Type) (g : A -> B) s x y : (0 < size s)%N -> last y (map g s) = g (last x s).
  by case: s => // a s _ /=; rewrite last_map.
case: eqP => [E0|_].
  have [V1 [V2 [I1 [I2 [Hb _]]]]] := @ode_VI _ der Hd rjwL gjwC odeint Hode (omega f) [:: 0; L] L HL erefl erefl.
  have [_ _ [A1 A2] [B1 B2]] := Hb; rewrite -E0 in Hb *.
  case Es: (s_from_vi1 _ _) => [Sm|] // [<-]; exists V1, V2, I1, I2; split=> //=.
  - by rewrite -Es A1 A2 B1 B2.
  - by rewrite A1 A2 B1 B2.
  - by rewrite lexx.
have [V1 [V2 [I1 [I2 [Hb ->]]]]] := @ode_VI _ der Hd rjwL gjwC odeint Hode (omega f) xs L HL Hh Hl.
case Es: (s_from_vi1 _ _) => [Sm|] // [<-]; exists V1, V2, I1, I2; split=> //=.
- by rewrite -Es (lastm _ _ _ xs 0) // Hl.
- by move=> Hf; apply: nodesV_in HL Hf En.
Qed.

Lemma solveV0_scat dx L zb f e : 0 <= L -> zb != 0 -> solveV0 dx L zb f = Ok e -> is_scat2 (lawf L f) zb (e_S e).
Proof.
move=> HL Hz /(solveV0_basis HL) [V1 [V2 [I1 [I2 [[H1 H2 H3 H4] HS _ _ _]]]]].
exact: (law_scat Hd HL H1 H2 H3 H4 Hz HS).
Qed.

Definition vref (o : vtrl C) (Zb : option C) : C := if truthy Zb is Some z then z else v_zb o.

Lemma v_getS_law o f Zb S : 0 <= v_L o -> v_zb o != 0 -> vref o Zb != 0 -> (getS o f Zb [::]).2 = Ok S ->
  is_scat2 (lawf (v_L o) f) (vref o Zb) S.
Proof.
move=> HL Hb Hz; rewrite /v_getS /v_get1S /TrlVar.solveV /=.
case E: (solveV0 _ _ _ _) => [e|] //=; have HS := solveV0_scat HL Hb E.
rewrite /vref in Hz *; case: (truthy Zb) Hz => [z|] Hz; last by move=> [<-].
case: ifP => [Hne|/negbFE/eqP ->]; last by move=> [<-].
by move/(scat2_convert S Hb Hz HS).
Qed.

Lemma v_getS_total o f Zb xs : 0 <= v_L o -> 0 < v_zb o -> 0 < vref o Zb -> nodesV (v_dx o) (v_L o) f = Ok xs ->
  (forall x, 0 <= x <= v_L o -> 0 <= 'Re (rjwL (omega f) x) /\ 0 <= 'Re (gjwC (omega f) x)) ->
  exists S, (getS o f Zb [::]).2 = Ok S.
Proof.
move=> HL Hb Hz Hn Hp; rewrite /v_getS /v_get1S /TrlVar.solveV /=.
have [e E] : exists e, solveV0 (v_dx o) (v_L o) (v_zb o) f = Ok e.
  have lastm (A B : Type) (g : A -> B) s x y : (0 < size s)%N -> last y (map g s) = g (last x s).
    by case: s => // a s _ /=; rewrite last_map.
  rewrite /TrlVar.solveV0 Hn [bind (Ok xs) _]/=; have [Hsz Hh Hl] := nodesV_ends HL Hn; rewrite Hh Hl.
  case: eqP => [E0|_].
    have [V1 [V2 [I1 [I2 [[H1 H2 H3 H4] _]]]]] := @ode_VI _ der Hd rjwL gjwC odeint Hode (omega f) [:: 0; v_L o] _ HL erefl erefl.
    have [S HS] := law_svi Hd HL H1 H2 H3 H4 Hb Hp; move: HS.
    by rewrite -E0; case: H3 => -> ->; case: H4 => -> -> HS; rewrite /= HS; eexists.
  have [V1 [V2 [I1 [I2 [[H1 H2 H3 H4] ->]]]]] := @ode_VI _ der Hd rjwL gjwC odeint Hode (omega f) xs _ HL Hh Hl.
  have [S HS] := law_svi Hd HL H1 H2 H3 H4 Hb Hp.
  by rewrite (lastm _ _ _ xs 0) // Hl HS; eexists.
rewrite E /=; have HS := solveV0_scat HL (lt0r_neq0 Hb) E.
rewrite /vref in Hz *; case: (truthy Zb) Hz => [z|] Hz; last by eexists.
case: ifP => _; last by eexists.
have [V1 [V2 [I1 [I2 [[H1 H2 H3 H4] _ _ _ _]]]]] := solveV0_basis HL E.
have [S HS2] := law_svi Hd HL H1 H2 H3 H4 Hz Hp.
exists S; apply/(scat2_convert S (lt0r_neq0 Hb) (lt0r_neq0 Hz) HS).
exact: (law_scat Hd HL H1 H2 H3 H4 (lt0r_neq0 Hz) HS2).
Qed.

(** ** VISWs and what is kept *)
Definition viswV (dx : stepping C) (L zb f a1 a2 z : C) : res (seq C * (seq C * seq C)) :=
  do e <- solveV0 dx L zb f;
  do Sm <- (if truthy (Some z) is Some z' then
              if z' != zb then convert1 (const_mx z') (e_S e) (const_mx zb) "V" "V" else Ok (e_S e)
            else Ok (e_S e));
  let b1 := Sm 0 0 * a1 + Sm 0 1 * a2 in
  do I0 <- pdiv (- (a1 - b1)) z;
  Ok (e_xs e, profile e (a1 + b1) I0).

(** everything stored agrees with a fresh computation *)
Definition v_consistent (o : vtrl C) : Prop :=
  forall f e, dget (v_solved o) f = Some e ->
    exists2 e0, solveV0 (v_dx o) (v_L o) (v_zb o) f = Ok e0 &
     [/\ e_xs e = e_xs e0, e_S e = e_S e0, e_VI e = e_VI e0 &
      forall a z sw, dget (e_sw e) (a, z) = Some sw ->
        exists a1 a2, a = [:: a1; a2] /\ viswV (v_dx o) (v_L o) (v_zb o) f a1 a2 z = Ok (e_xs e0, sw)].

(** the data of the line stay *)
Definition same_line (o o' : vtrl C) : Prop := [/\ v_L o' = v_L o, v_zb o' = v_zb o & v_dx o' = v_dx o].
Lemma same_refl o : same_line o o. Proof. by []. Qed.

Lemma consistentV_nil o : v_consistent (v_with o [::]).
Proof. by []. Qed.

Lemma solveV_consistent o f : v_consistent o -> v_consistent (solveV o f).1 /\ same_line o (solveV o f).1.
Proof.
move=> Ho; rewrite /TrlVar.solveV; case E: (dget _ _) => [e|] //.
case E0: (solveV0 _ _ _ _) => [e|] //=; split=> // f' e'.
rewrite /= dget_dset; case: eqP => [-> [<-]|_]; last exact: Ho.
exists e => //; split=> // a z sw.
by move: E0; rewrite /TrlVar.solveV0; case: (nodesV _ _ _) => //= xs; case: (s_from_vi1 _ _) => //= Sm [<-].
Qed.

Lemma get1V_consistent o Zb f : v_consistent o -> v_consistent (get1S o Zb f).1 /\ same_line o (get1S o Zb f).1.
Proof.
by move=> Ho; have := solveV_consistent f Ho; rewrite /v_get1S; case: (TrlVar.solveV _ _ _ _ _ _ _ _).
Qed.

Lemma same_trans o1 o2 o3 : same_line o1 o2 -> same_line o2 o3 -> same_line o1 o3.
Proof. by move=> [A B D] [A' B' D']; split; congruence. Qed.

Lemma loopV_consistent o Zb fs : v_consistent o -> v_consistent (loop o Zb fs).1 /\ same_line o (loop o Zb fs).1.
Proof.
elim: fs o => [|f fs IH] o Ho //=.
have [H Hs] := get1V_consistent Zb f Ho; case: (v_get1S _ _ _ _ _ _ _ _ _) H Hs => o1 [S1|x] //= H Hs.
have [H1 H2] := IH _ H; case: (v_loop _ _ _ _ _ _ _ _ _) H1 H2 => o2 r /= H1 H2; split=> //.
exact: same_trans Hs H2.
Qed.

Lemma viswV_step o f a1 a2 Zb : v_consistent o ->
  [/\ v_consistent (VISWs o f a1 a2 Zb).1, same_line o (VISWs o f a1 a2 Zb).1 &
  (VISWs o f a1 a2 Zb).2 = viswV (v_dx o) (v_L o) (v_zb o) f a1 a2 (vref o Zb)].
Proof.
move=> Ho; rewrite /TrlVar.v_VISWs.
set hit := (if dget (v_solved o) f is Some e then _ else _).
case Eh: hit => [sw|].
  move: Eh; rewrite /hit; case E: (dget _ f) => [e|] //; case: Zb {hit} => [z|] // Hsw.
  split=> //=; have [e0 He0 [H1 H2 H3 /(_ _ _ _ Hsw)]] := Ho _ _ E.
  case=> b1 [b2 [[<- <-] Hv]].
  have Hz : truthy (Some z) = Some z.
    move: Hv; rewrite /viswV He0 /=; case: (z =P 0) => [->|] //=.
    by rewrite /pdiv /= eqxx.
  by rewrite /vref Hz Hv H1.
rewrite -/(vref o Zb); set z := vref o Zb.
rewrite /v_getS /v_set /v_get1S /TrlVar.solveV /=.
rewrite /viswV; case E0: (solveV0 _ _ _ _) => [e|] //=.
set r := (match _ with Some _ => _ | None => _ end).
have Hc1 : v_consistent (VTrl (v_L o) (v_zb o) (v_dx o) [:: (f, e)]).
  have := (solveV_consistent f (@consistentV_nil o)).1; rewrite /TrlVar.solveV /= E0 //.
rewrite /v_with /=.
case Er: r => [Sm|] //=.
case Ep: (pdiv _ _) => [I0|] //=; rewrite eqxx /= eqxx /=; split=> // f' e'.
rewrite /=; case: eqP => [->|//] [<-]; exists e => //; split=> // a z' sw /=.
rewrite dget_dset; case: eqP => [[-> ->] [<-]|_].
  by exists a1, a2; split=> //; rewrite /viswV E0 /= -/r Er /= Ep.
move=> Hsw; have [e0] : exists2 e0, solveV0 (v_dx o) (v_L o) (v_zb o) f = Ok e0 & _ := Hc1 f e (etrans (congr1 (fun b : bool => if b then Some e else None) (eqxx f)) erefl).
by rewrite /= E0 => -[<-] [_ _ _ H]; apply: H.
Qed.

Lemma v_do_consistent o c : v_consistent o ->
  v_consistent (v_do pi rjwL gjwC odeint ceil fuel o c) /\ same_line o (v_do pi rjwL gjwC odeint ceil fuel o c).
Proof.
move=> Ho; case: c => [kw|f Zb p|fs Zb p|f a1 a2 Zb] /=.
- by rewrite /v_set; case: kw.
- rewrite /v_getS /v_set; case: p => [|k p] //=.
  by have [H1 H2] := get1V_consistent Zb f (@consistentV_nil o); split.
- rewrite /v_getSs /v_set; case: p => [|k p] //=.
  by have [H1 H2] := loopV_consistent Zb fs (@consistentV_nil o); split.
- by have [] := viswV_step f a1 a2 Zb Ho.
Qed.

Lemma v_run_consistent o cs : v_consistent o ->
  v_consistent (foldl (v_do pi rjwL gjwC odeint ceil fuel) o cs) /\ same_line o (foldl (v_do pi rjwL gjwC odeint ceil fuel) o cs).
Proof.
elim: cs o => //= c cs IH o Ho; have [H1 H2] := v_do_consistent c Ho; have [H3 H4] := IH _ H1.
by split=> //; apply: same_trans H2 H4.
Qed.

(** the profile *)
Lemma viswV_profile dx L zb f a1 a2 z xs Vs Is : 0 <= L -> forward dx f -> zb != 0 -> z != 0 ->
  viswV dx L zb f a1 a2 z = Ok (xs, (Vs, Is)) ->
  [/\ (0 < size xs)%N, head 0 xs = 0, last 0 xs = L, all (fun x => 0 <= x <= L) xs &
   (forall V I, telegraph der (rjwL (omega f)) (gjwC (omega f)) 0 L V I ->
     (V 0 + z * (- I 0)) / 2%:R = a1 -> (V L + z * I L) / 2%:R = a2 -> Vs = map V xs /\ Is = map I xs) /\
   exists V I, [/\ telegraph der (rjwL (omega f)) (gjwC (omega f)) 0 L V I,
     (V 0 + z * (- I 0)) / 2%:R = a1 & (V L + z * I L) / 2%:R = a2]].
Proof.
move=> HL Hf Hzb Hz; rewrite /viswV; case E: (solveV0 _ _ _ _) => [e|] //=.
set r := (match _ with Some _ => _ | None => _ end); case Er: r => [Sm|] //=.
rewrite /pdiv /= (negbTE Hz) /= => -[<- <- <-].
have HS : is_scat2 (lawf L f) z Sm.
  have HS0 := solveV0_scat HL Hzb E; move: Er; rewrite /r (negbTE Hz).
  case: ifP => [_|/negbFE/eqP ->]; last by move=> [<-].
  by move/(scat2_convert Sm Hzb Hz HS0).
have [V1 [V2 [I1 [I2 [[H1 H2 H3 H4] _ HVI [A1 A2 A3] /(_ Hf) Hall]]]]] := solveV0_basis HL E.
split=> //; split.
  move=> V I Ht Ha1 Ha2.
  have Hl : lawf L f (V 0) (V L) (- I 0) (I L) by exists V, I; split=> //; rewrite opprK.
  have /rel2 [Hb _] := iffLR (HS _ _ _ _) Hl.
  have Eb : Sm 0 0 * a1 + Sm 0 1 * a2 = (V 0 - z * (- I 0)) / 2%:R by rewrite Hb -Ha1 -Ha2; field.
  have EV : a1 + (Sm 0 0 * a1 + Sm 0 1 * a2) = V 0 by rewrite Eb -Ha1; field.
  have EI : - (a1 - (Sm 0 0 * a1 + Sm 0 1 * a2)) / z = I 0 by rewrite Eb -Ha1; field; rewrite Hz.
  rewrite EV EI HVI -!map_comp; split; apply/eq_in_map => x Hx /=;
    have [HV HI] := tele_start Hd H1 H2 H3 H4 (allP Hall _ Hx) Ht; by rewrite !mxE /= ?HV ?HI.
have [v1 [v2 [i1 [i2 [[V [I [Ht [E1 E2 E3 E4]]]] B1 B2]]]]] : exists v1 v2 i1 i2, [/\ lawf L f v1 v2 i1 i2, (v1 + z * i1) / 2%:R = a1 & (v2 + z * i2) / 2%:R = a2].
  have [v [i [Hr Ha _]]] := @relates_ex C 2 "V" (const_mx z) Sm (col2 a1 a2) erefl (admV Hz).
  exists (v 0 0), (v 1 0), (i 0 0), (i 1 0); split.
  - by apply/HS; rewrite -(col2E v) -(col2E i).
  - by have := congr1 (fun y : 'cV[C]_2 => y 0 0) Ha; rewrite !mxE /wave_a /=.
  - by have := congr1 (fun y : 'cV[C]_2 => y 1 0) Ha; rewrite !mxE /wave_a /=.
by exists V, I; split=> //; rewrite ?E1 ?E2 ?E3 ?E4 ?opprK.
Qed.

(** a list of frequencies *)
Lemma v_loop_Ok o Zb fs Ss : (forall f e, dget (v_solved o) f = Some e ->
    exists2 e0, solveV0 (v_dx o) (v_L o) (v_zb o) f = Ok e0 & e_S e = e_S e0) ->
  (loop o Zb fs).2 = Ok Ss <-> mapM (fun f => (getS o f Zb [::]).2) fs = Ok Ss.
Proof.
elim: fs o Ss => [|f fs IH] o Ss Hs /=; first by split.
have H1 : (get1S o Zb f).2 = (getS o f Zb [::]).2.
  rewrite /v_getS /v_get1S /TrlVar.solveV /=.
  case E: (dget (v_solved o) f) => [e|] /=; first by have [e0 -> ->] := Hs _ _ E.
  by case: (solveV0 _ _ _ _).
rewrite -H1; case E1: (get1S o Zb f) => [o1 [S1|x]] //=.
have [[HL HZ HD] Hs1] : same_line o o1 /\ (forall f e, dget (v_solved o1) f = Some e ->
    exists2 e0, solveV0 (v_dx o1) (v_L o1) (v_zb o1) f = Ok e0 & e_S e = e_S e0).
  move: E1; rewrite /v_get1S /TrlVar.solveV; case E: (dget (v_solved o) f) => [e|].
    by case=> <- _.
  case E0: (solveV0 _ _ _ _) => [e|] [<- _] /=; split=> // f' e'.
  by rewrite dget_dset; case: eqP => [-> [<-]|_]; [exists e|apply: Hs].
have Hsame f' : (getS o1 f' Zb [::]).2 = (getS o f' Zb [::]).2 by rewrite /v_getS /v_set /v_with HL HZ HD.
have := IH o1 ^~ Hs1; case: (loop o1 Zb fs) => o2 [l|x] /= IH1.
  have := iffLR (IH1 l) erefl => E; suff -> : mapM (fun f => (getS o f Zb [::]).2) fs = Ok l by [].
  by rewrite -E; apply: eq_mapM => f'; rewrite Hsame.
case E: (mapM _ fs) => [l|y0] //=.
have : Raise x = Ok l :> res (seq 'M[C]_2); last by [].
by apply/IH1; rewrite -E; apply: eq_mapM => f'; rewrite Hsame.
Qed.
End Obj.

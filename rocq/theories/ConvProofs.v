(** Proofs about the conversion functions. *)
From mathcomp Require Import all_ssreflect all_algebra.
From mathcomp.algebra_tactics Require Import ring.
From Coq Require Import String.
From Verif Require Import Base MxLib ConvModel ConvSpec.
Set Implicit Arguments.
Unset Strict Implicit.
Unset Printing Implicit Defensive.
Import Order.TTheory GRing.Theory Num.Theory.
Local Open Scope ring_scope.

Section Sqrt.
Variable C : numClosedFieldType.
Implicit Types z : C.

Lemma np_sqrtK z : np_sqrt z ^+ 2 = z.
Proof. by rewrite /np_sqrt; case: ifP => _; rewrite ?sqrrN sqrtCK. Qed.

Lemma np_sqrt_Re_ge0 z : 0 <= 'Re (np_sqrt z).
Proof.
rewrite /np_sqrt; case: ifP => // H.
rewrite raddfN /= oppr_ge0; move/negbT: H.
by rewrite -real_ltNge ?real0 ?Creal_Re // => /ltW.
Qed.

Lemma np_sqrt_eq0 z : (np_sqrt z == 0) = (z == 0).
Proof. by rewrite -[z in RHS]np_sqrtK sqrf_eq0. Qed.

Lemma np_sqrt_gt0 z : 0 < z -> 0 < np_sqrt z.
Proof.
move=> Hz; rewrite /np_sqrt.
have Hs : 0 < sqrtC z by rewrite sqrtC_gt0.
have -> : 'Re (sqrtC z) = sqrtC z by apply/Creal_ReP; rewrite gtr0_real.
by rewrite ltW.
Qed.
End Sqrt.

Section ConvProofs.
Variable C : numClosedFieldType.

Let two_neq0 : (2%:R : C) != 0. Proof. by rewrite pnatr_eq0. Qed.

(** ** one matrix: S_from_Z, Z_from_S, Y_from_S *)
Lemma np_invE n (A B : 'M[C]_n) : np_inv A = Ok B <-> A \in unitmx /\ B = invmx A.
Proof. by rewrite /np_inv; case: ifP => H; split=> // -[] // _ ->. Qed.

Lemma np_inv_Raise n (A : 'M[C]_n) e : np_inv A = Raise e <-> A \notin unitmx /\ e = LinAlgError.
Proof.
rewrite /np_inv; case: ifP => H; split => //; first by case.
  by case=> <-. by case=> _ ->.
Qed.

Lemma s_from_z1_Ok n Zb (Z S : 'M[C]_n) :
  s_from_z1 Zb Z = Ok S <->
  Z + Zb%:M \in unitmx /\ S = (Z - Zb%:M) *m invmx (Z + Zb%:M).
Proof.
rewrite /s_from_z1 /np_inv; case: ifP => H /=; split => //; last by case.
  by case=> <-. by case=> _ ->.
Qed.

Lemma s_from_z1_cases n Zb (Z : 'M[C]_n) :
  (exists S, s_from_z1 Zb Z = Ok S) \/ s_from_z1 Zb Z = Raise LinAlgError.
Proof. by rewrite /s_from_z1 /np_inv; case: ifP => _ /=; [left; eexists|right]. Qed.

Lemma z_from_s1_Ok n Zb (Z S : 'M[C]_n) :
  z_from_s1 Zb S = Ok Z <->
  1%:M - S \in unitmx /\ Z = (Zb *: invmx (1%:M - S)) *m (1%:M + S).
Proof.
rewrite /z_from_s1 /np_inv; case: ifP => H /=; split => //; last by case.
  by case=> <-. by case=> _ ->.
Qed.

Lemma z_from_s1_cases n Zb (Z : 'M[C]_n) :
  (exists S, z_from_s1 Zb Z = Ok S) \/ z_from_s1 Zb Z = Raise LinAlgError.
Proof. by rewrite /z_from_s1 /np_inv; case: ifP => _ /=; [left; eexists|right]. Qed.

Lemma y_from_s1_Ok n Zb (Y S : 'M[C]_n) :
  y_from_s1 Zb S = Ok Y <->
  1%:M + S \in unitmx /\ Y = Zb^-1 *: (invmx (1%:M + S) *m (1%:M - S)).
Proof.
rewrite /y_from_s1 /np_inv; case: ifP => H /=; split => //; last by case.
  by case=> <-. by case=> _ ->.
Qed.

Lemma y_from_s1_cases n Zb (Z : 'M[C]_n) :
  (exists S, y_from_s1 Zb Z = Ok S) \/ y_from_s1 Zb Z = Raise LinAlgError.
Proof. by rewrite /y_from_s1 /np_inv; case: ifP => _ /=; [left; eexists|right]. Qed.

Lemma isSE n Zb (Z X : 'M[C]_n) : isS Zb Z X <-> Z - Zb%:M = X *m (Z + Zb%:M).
Proof.
rewrite -mx_extP /isS; split=> H i.
  by rewrite -mulmxA mulmxBl mulmxDl mul_scalar_mx; apply: H.
by have := H i; rewrite -mulmxA mulmxBl mulmxDl mul_scalar_mx.
Qed.

Lemma s_from_z1_iff n Zb (Z S : 'M[C]_n) : Zb != 0 ->
  s_from_z1 Zb Z = Ok S <-> isS Zb Z S.
Proof.
move=> Hz; rewrite s_from_z1_Ok isSE; split=> [[Hu ->]|H].
  by rewrite mulmxKV.
have Hu : Z + Zb%:M \in unitmx.
  apply: (ratio_unit _ H) => x H1 H2.
  have : (Z + Zb%:M) *m x - (Z - Zb%:M) *m x = 0 by rewrite H1 H2 subr0.
  rewrite -mulmxBl opprB addrC addrA -[_ - Z + Z]addrA addNr addr0 -raddfD /= mul_scalar_mx.
  move/eqP; rewrite scaler_eq0 -mulr2n mulrn_eq0 /= (negbTE Hz) /=.
  by move/eqP.
by split=> //; apply: (iffLR (ratio_uniq _ _ Hu)).
Qed.

Lemma s_from_z1_raise n Zb (Z : 'M[C]_n) : Zb != 0 ->
  s_from_z1 Zb Z = Raise LinAlgError <-> ~ exists S, isS Zb Z S.
Proof.
move=> Hz; split=> [H [S /(s_from_z1_iff _ _ Hz)]|H]; first by rewrite H.
case: (s_from_z1_cases Zb Z) => // -[S HS]; case: H; exists S.
by apply/s_from_z1_iff.
Qed.

Lemma isZE n Zb (S X : 'M[C]_n) : isZ Zb S X <-> 1%:M + S = (Zb^-1 *: X) *m (1%:M - S).
Proof.
rewrite -mx_extP /isZ; split=> H i; have := H i; rewrite -mulmxA mulmxBl mulmxDl !mul1mx.
  by move=> ->; rewrite -scalemxAr -scalemxAl.
by move=> ->; rewrite -scalemxAr -scalemxAl.
Qed.

Lemma comm_pm n (S : 'M[C]_n) : (1%:M - S) *m (1%:M + S) = (1%:M + S) *m (1%:M - S).
Proof.
rewrite !(mulmxDl, mulmxDr, mulmxBl, mulmxBr) !(mul1mx, mulmx1).
by rewrite mulNmx mulmxN !addrA addrK subrK.
Qed.

Lemma comm_inv n (A B : 'M[C]_n) : A \in unitmx -> A *m B = B *m A ->
  invmx A *m B = B *m invmx A.
Proof. by move=> Hu H; rewrite -[B in LHS](mulmxK Hu) -H -mulmxA mulKmx. Qed.

Lemma z_from_s1_iff n Zb (S Z : 'M[C]_n) : Zb != 0 ->
  z_from_s1 Zb S = Ok Z <-> isZ Zb S Z.
Proof.
move=> Hz; rewrite z_from_s1_Ok isZE; split=> [[Hu ->]|H].
  rewrite -!scalemxAl scalerA mulVf // scale1r comm_inv ?comm_pm //.
  by rewrite mulmxKV.
have Hu : 1%:M - S \in unitmx.
  apply: (ratio_unit _ H) => x; rewrite mulmxBl mulmxDl mul1mx => H1 H2.
  have : (x - S *m x) + (x + S *m x) = 0 by rewrite H1 H2 addr0.
  rewrite addrACA addNr addr0 -mulr2n -scaler_nat => /eqP.
  by rewrite scaler_eq0 (negbTE two_neq0) => /eqP.
split=> //; rewrite -scalemxAl comm_inv ?comm_pm // H mulmxK //.
by rewrite scalerA mulfV // scale1r.
Qed.

Lemma z_from_s1_raise n Zb (S : 'M[C]_n) : Zb != 0 ->
  z_from_s1 Zb S = Raise LinAlgError <-> ~ exists Z, isZ Zb S Z.
Proof.
move=> Hz; split=> [H [Z /(z_from_s1_iff _ _ Hz)]|H]; first by rewrite H.
case: (z_from_s1_cases Zb S) => // -[Z HZ]; case: H; exists Z.
by apply/z_from_s1_iff.
Qed.

Lemma zswap (V : zmodType) (a b c d : V) : a - b = c + d <-> a - c = b + d.
Proof.
split=> /eqP; rewrite subr_eq => /eqP ->; apply/eqP; rewrite subr_eq.
  by rewrite addrAC [c + b]addrC addrAC.
by rewrite addrAC [b + c]addrC addrAC.
Qed.

Lemma add_pm (V : zmodType) (x y : V) : (x + y) + (x - y) = x *+ 2.
Proof. by rewrite addrACA subrr addr0 mulr2n. Qed.
Lemma sub_pm (V : zmodType) (x y : V) : (x + y) - (x - y) = y *+ 2.
Proof. by rewrite opprB [y - x]addrC addrACA subrr add0r mulr2n. Qed.

(** Z and S describe the same multiport, seen from either side *)
Lemma isS_isZ n Zb (S Z : 'M[C]_n) : Zb != 0 -> isS Zb Z S <-> isZ Zb S Z.
Proof.
move=> Hz; rewrite isSE isZE.
have H1 : Z - Zb%:M = S *m (Z + Zb%:M) <-> Z - S *m Z = Zb *: (1%:M + S).
  rewrite mulmxDr mul_mx_scalar scalerDr scalemx1; exact: zswap.
have H2 : 1%:M + S = (Zb^-1 *: Z) *m (1%:M - S) <-> Z - Z *m S = Zb *: (1%:M + S).
  rewrite -scalemxAl mulmxBr mulmx1; split=> [->|->].
    by rewrite scalerA mulfV // scale1r.
  by rewrite scalerA mulVf // scale1r.
rewrite H1 H2.
have E1 : Z - S *m Z = (1%:M - S) *m Z by rewrite mulmxBl mul1mx.
have E2 : Z - Z *m S = Z *m (1%:M - S) by rewrite mulmxBr mulmx1.
rewrite E1 E2.
have Hk (x : 'cV[C]_n) : (1%:M - S) *m x = 0 -> Zb *: (1%:M + S) *m x = 0 -> x = 0.
  rewrite mulmxBl -scalemxAl mulmxDl mul1mx => G1 G2.
  have G3 : x + S *m x = 0.
    by apply/eqP; move/eqP: G2; rewrite scaler_eq0 (negbTE Hz).
  have : (x - S *m x) + (x + S *m x) = 0 by rewrite G1 G3 addr0.
  rewrite addrACA addNr addr0 -mulr2n -scaler_nat => /eqP.
  by rewrite scaler_eq0 (negbTE two_neq0) => /eqP.
have HkT : forall x : 'cV[C]_n, (1%:M - S)^T *m x = 0 -> (Zb *: (1%:M + S))^T *m x = 0 -> x = 0.
  move=> x; rewrite [(_ - S)^T]linearB /= [(_ *: _)^T]linearZ /= [(_ + S)^T]linearD /= trmx1 mulmxBl.
  rewrite -scalemxAl mulmxDl mul1mx => G1 /eqP G2.
  have G3 : x + S^T *m x = 0 by apply/eqP; move: G2; rewrite scaler_eq0 (negbTE Hz).
  have : (x - S^T *m x) + (x + S^T *m x) = 0 by rewrite G1 G3 addr0.
  rewrite addrACA addNr addr0 -mulr2n -scaler_nat => /eqP.
  by rewrite scaler_eq0 (negbTE two_neq0) => /eqP.
split=> H.
  have Hu : 1%:M - S \in unitmx.
    rewrite -unitmx_tr; apply: (ratio_unit HkT (X := Z^T)).
    by rewrite -H trmx_mul.
  rewrite -(mulKmx Hu Z) H -scalemxAr -scalemxAl comm_inv ?comm_pm //.
  by rewrite mulmxKV.
have Hu : 1%:M - S \in unitmx by apply: (ratio_unit Hk (X := Z)).
rewrite -(mulmxK Hu Z) H -scalemxAl -scalemxAr -comm_inv ?comm_pm //.
by rewrite mulKVmx.
Qed.

Lemma z_s_roundtrip n Zb (Z S : 'M[C]_n) : Zb != 0 ->
  s_from_z1 Zb Z = Ok S <-> z_from_s1 Zb S = Ok Z.
Proof. by move=> Hz; rewrite s_from_z1_iff // z_from_s1_iff // isS_isZ. Qed.

Lemma isYE n Zb (S X : 'M[C]_n) : isY Zb S X <-> Zb^-1 *: (1%:M - S) = X *m (1%:M + S).
Proof.
rewrite -mx_extP /isY; split=> H i; have := H i;
  by rewrite -mulmxA -scalemxAl mulmxBl mulmxDl !mul1mx.
Qed.

Lemma y_from_s1_iff n Zb (S Y : 'M[C]_n) : Zb != 0 ->
  y_from_s1 Zb S = Ok Y <-> isY Zb S Y.
Proof.
move=> Hz; rewrite y_from_s1_Ok isYE; split=> [[Hu ->]|H].
  by rewrite -scalemxAl comm_inv ?comm_pm // mulmxKV.
have Hu : 1%:M + S \in unitmx.
  apply: (ratio_unit _ H) => x; rewrite -scalemxAl mulmxBl mulmxDl mul1mx => H1 /eqP.
  rewrite scaler_eq0 invr_eq0 (negbTE Hz) /= => /eqP H2.
  have : (x - S *m x) + (x + S *m x) = 0 by rewrite H1 H2 addr0.
  rewrite addrACA addNr addr0 -mulr2n -scaler_nat => /eqP.
  by rewrite scaler_eq0 (negbTE two_neq0) => /eqP.
split=> //; rewrite comm_inv ?comm_pm //.
by rewrite scalemxAl H mulmxK.
Qed.

Lemma y_from_s1_raise n Zb (S : 'M[C]_n) : Zb != 0 ->
  y_from_s1 Zb S = Raise LinAlgError <-> ~ exists Y, isY Zb S Y.
Proof.
move=> Hz; split=> [H [Z /(y_from_s1_iff _ _ Hz)]|H]; first by rewrite H.
case: (y_from_s1_cases Zb S) => // -[Z HZ]; case: H; exists Z.
by apply/y_from_s1_iff.
Qed.

Lemma z_y_inverse n Zb (S Z Y : 'M[C]_n) : Zb != 0 ->
  z_from_s1 Zb S = Ok Z -> y_from_s1 Zb S = Ok Y -> Z *m Y = 1%:M /\ Y *m Z = 1%:M.
Proof.
move=> Hz /z_from_s1_Ok [Hu1 ->] /y_from_s1_Ok [Hu2 ->].
have E : Zb *: invmx (1%:M - S) *m (1%:M + S) *m
         (Zb^-1 *: (invmx (1%:M + S) *m (1%:M - S))) = 1%:M.
  rewrite -scalemxAr -!scalemxAl scalerA mulVf // scale1r.
  by rewrite mulmxA mulmxK // mulVmx.
by split=> //; apply: mulmx1C.
Qed.

(** ** ConvertGeneral, one port *)
Lemma coeffs1_cases N t (Z : 'rV[C]_N) q : coeffs1 t Z = Ok q ->
  [\/ t = "V"%string, t = "G"%string | t = "P"%string].
Proof.
rewrite /coeffs1; case: eqP => [->|_]; first by constructor 1.
by case: eqP => [->|_]; [constructor 2|case: eqP => [->|//]; constructor 3].
Qed.

Lemma coeffs1_ok N t (Z : 'rV[C]_N) : typ_ok t -> exists q, coeffs1 t Z = Ok q.
Proof.
rewrite /typ_ok !inE => /or3P [] /eqP ->; rewrite /coeffs1 /=; by eexists.
Qed.

Lemma coeffs1_bad N t (Z : 'rV[C]_N) : ~~ typ_ok t -> coeffs1 t Z = Raise ValueError.
Proof.
rewrite /typ_ok !inE !negb_or => /and3P [H1 H2 H3].
by rewrite /coeffs1 (negbTE H1) (negbTE H2) (negbTE H3).
Qed.

Lemma Re_split (z : C) : z^* = 2%:R * 'Re z - z.
Proof. by rewrite ReE mulrCA mulfV // mulr1 addrC addKr. Qed.

Lemma coeffs1_wave N t (Z : 'rV[C]_N) q k : coeffs1 t Z = Ok q -> admissible t (Z 0 k) ->
  [/\ forall v i, wave_a t (Z 0 k) v i = QaV q 0 k * v + QaI q 0 k * i,
      forall v i, wave_b t (Z 0 k) v i = QbV q 0 k * v + QbI q 0 k * i
    & forall v i a b,
        (a = wave_a t (Z 0 k) v i /\ b = wave_b t (Z 0 k) v i) <->
        (v = QVa q 0 k * a + QVb q 0 k * b /\ i = QIa q 0 k * a + QIb q 0 k * b)].
Proof.
move=> Hq; have Ht := coeffs1_cases Hq; case: Ht Hq => ->; rewrite /coeffs1 /=;
  case=> <-; rewrite /admissible /wave_a /wave_b /= => Hz.
- split=> [v i|v i|v i a b]; rewrite ?mxE; try by field.
  set z := Z 0 k in Hz *.
  by split=> -[-> ->]; split; field; rewrite ?Hz ?two_neq0.
- set z := Z 0 k in Hz *.
  have Hs : np_sqrt ('Re z) != 0 by rewrite np_sqrt_eq0 gt_eqF.
  have Hss := np_sqrtK ('Re z); rewrite -/z.
  set s := np_sqrt _ in Hs Hss *.
  split=> [v i|v i|v i a b]; rewrite ?mxE -/z -/s.
  + by field; rewrite ?Hs ?two_neq0.
  + by field; rewrite ?Hs ?two_neq0.
  have Hc := Re_split z; rewrite -Hss in Hc; rewrite Hc.
  by split=> -[-> ->]; split; field; rewrite ?Hs ?two_neq0.
- set z := Z 0 k in Hz *.
  have Hs : np_sqrt z != 0 by rewrite np_sqrt_eq0.
  have Hss := np_sqrtK z; rewrite -/z.
  set s := np_sqrt _ in Hs Hss *.
  split=> [v i|v i|v i a b]; rewrite ?mxE -/z -/s.
  + by field; rewrite ?Hs ?two_neq0.
  + by field; rewrite ?Hs ?two_neq0.
  rewrite -!Hss.
  by split=> -[-> ->]; split; field; rewrite ?Hs ?two_neq0.
Qed.

(** ** ConvertGeneral, one matrix *)
Definition wva N t (Z : 'rV[C]_N) (v i : 'cV[C]_N) : 'cV[C]_N :=
  \col_k wave_a t (Z 0 k) (v k 0) (i k 0).
Definition wvb N t (Z : 'rV[C]_N) (v i : 'cV[C]_N) : 'cV[C]_N :=
  \col_k wave_b t (Z 0 k) (v k 0) (i k 0).

Lemma relatesE N t (Z : 'rV[C]_N) S v i :
  relates t Z S v i <-> wvb t Z v i = S *m wva t Z v i.
Proof.
rewrite -cV_extP /relates; split=> H k; have := H k; rewrite !mxE.
  by move=> ->; apply: eq_bigr => j _; rewrite !mxE.
by move=> ->; apply: eq_bigr => j _; rewrite !mxE.
Qed.

Lemma wv_iff N t (Z : 'rV[C]_N) q (v i a b : 'cV[C]_N) : coeffs1 t Z = Ok q -> adm t Z ->
  (a = wva t Z v i /\ b = wvb t Z v i) <->
  (v = diag_mx (QVa q) *m a + diag_mx (QVb q) *m b /\
   i = diag_mx (QIa q) *m a + diag_mx (QIb q) *m b).
Proof.
move=> Hq Ha; rewrite -!cV_extP; split=> [[H1 H2]|[H1 H2]].
  have H k : v k 0 = QVa q 0 k * a k 0 + QVb q 0 k * b k 0 /\
             i k 0 = QIa q 0 k * a k 0 + QIb q 0 k * b k 0.
    have [_ _ H3] := coeffs1_wave (k := k) Hq (Ha k); apply/H3.
    by have := H1 k; have := H2 k; rewrite !mxE => -> ->.
  by split=> k; rewrite addmxE !diag_mulE; have [] := H k.
have H k : a k 0 = wave_a t (Z 0 k) (v k 0) (i k 0) /\
           b k 0 = wave_b t (Z 0 k) (v k 0) (i k 0).
  have [_ _ H3] := coeffs1_wave (k := k) Hq (Ha k); apply/H3.
  by have := H1 k; have := H2 k; rewrite !addmxE !diag_mulE => -> ->.
by split=> k; rewrite mxE; have [] := H k.
Qed.

Lemma wvaE N t (Z : 'rV[C]_N) q (v i : 'cV[C]_N) : coeffs1 t Z = Ok q -> adm t Z ->
  wva t Z v i = diag_mx (QaV q) *m v + diag_mx (QaI q) *m i /\
  wvb t Z v i = diag_mx (QbV q) *m v + diag_mx (QbI q) *m i.
Proof.
move=> Hq Ha; rewrite -!cV_extP; split=> k; rewrite !mxE.
  have [H _ _] := coeffs1_wave (k := k) Hq (Ha k); rewrite H.
  by rewrite -!mulmx_cVE !diag_mulE.
have [_ H _] := coeffs1_wave (k := k) Hq (Ha k); rewrite H.
by rewrite -!mulmx_cVE !diag_mulE.
Qed.

Section OneMatrix.
Variables (N : nat) (t1 t2 : string) (Z1 Z2 : 'rV[C]_N) (S1 : 'M[C]_N) (q1 q2 : q8 C N).
Hypotheses (Hq1 : coeffs1 t1 Z1 = Ok q1) (Hq2 : coeffs1 t2 Z2 = Ok q2).
Hypotheses (Ha1 : adm t1 Z1) (Ha2 : adm t2 Z2).
Let V := diag_mx (QVa q1) + diag_mx (QVb q1) *m S1.
Let I := diag_mx (QIa q1) + diag_mx (QIb q1) *m S1.
Let A2 := diag_mx (QaV q2) *m V + diag_mx (QaI q2) *m I.
Let B2 := diag_mx (QbV q2) *m V + diag_mx (QbI q2) *m I.

Let rel1P v i : relates t1 Z1 S1 v i <->
  v = V *m wva t1 Z1 v i /\ i = I *m wva t1 Z1 v i.
Proof.
rewrite relatesE /V /I !mulmxDl -!mulmxA; split=> [H|H].
  by apply/(wv_iff _ _ _ _ Hq1 Ha1); rewrite H.
by have [_ <-] := iffRL (wv_iff _ _ _ _ Hq1 Ha1) H.
Qed.

Let relV a : relates t1 Z1 S1 (V *m a) (I *m a) /\ wva t1 Z1 (V *m a) (I *m a) = a.
Proof.
have [Ea Eb] := iffRL (wv_iff (V *m a) (I *m a) a (S1 *m a) Hq1 Ha1)
  (conj (etrans (mulmxDl _ _ _) (congr1 _ (esym (mulmxA _ _ _))))
        (etrans (mulmxDl _ _ _) (congr1 _ (esym (mulmxA _ _ _))))).
by split; rewrite // relatesE -Ea -Eb.
Qed.

Let a2E a : wva t2 Z2 (V *m a) (I *m a) = A2 *m a /\ wvb t2 Z2 (V *m a) (I *m a) = B2 *m a.
Proof.
have [-> ->] := wvaE (V *m a) (I *m a) Hq2 Ha2.
by rewrite !mulmxA -!mulmxDl.
Qed.

Let jointker (a : 'cV_N) : A2 *m a = 0 -> B2 *m a = 0 -> a = 0.
Proof.
have [<- <-] := a2E a => H1 H2.
have [Hv Hi] := iffLR (wv_iff _ _ _ _ Hq2 Ha2)
  (conj (erefl (wva t2 Z2 (V *m a) (I *m a))) (erefl (wvb t2 Z2 (V *m a) (I *m a)))).
have [_ <-] := relV a.
have [-> _] := wvaE (V *m a) (I *m a) Hq1 Ha1.
rewrite H1 H2 !mulmx0 addr0 in Hv; rewrite H1 H2 !mulmx0 addr0 in Hi.
by rewrite Hv Hi !mulmx0 addr0.
Qed.

Lemma conv1_fwd S2 : conv1 q1 q2 S1 = Ok S2 <->
  (forall v i, relates t1 Z1 S1 v i -> relates t2 Z2 S2 v i).
Proof.
have HE : (forall v i, relates t1 Z1 S1 v i -> relates t2 Z2 S2 v i) <-> B2 = S2 *m A2.
  rewrite -mx_extP; split=> [H a|H v i /rel1P [Hv Hi]].
    rewrite -mulmxA; have [<- <-] := a2E a; rewrite -relatesE; apply: H.
    by have [] := relV a.
  rewrite relatesE; have := a2E (wva t1 Z1 v i); rewrite -Hv -Hi.
  by case=> -> ->; rewrite mulmxA.
rewrite HE /conv1 -/V -/I -/A2 -/B2 /np_inv.
case: ifP => [Hu|Hn] /=.
  rewrite (ratio_uniq _ _ Hu); split; first by case=> <-.
  by move=> ->.
split=> // H; have := ratio_unit jointker H; by rewrite Hn.
Qed.

Lemma conv1_bwd S2 : conv1 q1 q2 S1 = Ok S2 ->
  forall v i, relates t2 Z2 S2 v i -> relates t1 Z1 S1 v i.
Proof.
move=> Hc v i Hr.
have Hu : A2 \in unitmx by move: Hc; rewrite /conv1 -/V -/I -/A2 /np_inv; case: ifP.
pose a := invmx A2 *m wva t2 Z2 v i.
have [H1 H2] := relV a.
have H3 := iffLR (conv1_fwd S2) Hc _ _ H1.
have [E1 E2] := a2E a.
have Ea : wva t2 Z2 (V *m a) (I *m a) = wva t2 Z2 v i.
  by rewrite E1 /a mulKVmx.
have Eb : wvb t2 Z2 (V *m a) (I *m a) = wvb t2 Z2 v i.
  by rewrite (iffLR (relatesE _ _ _ _ _) H3) (iffLR (relatesE _ _ _ _ _) Hr) Ea.
have [Hv Hi] := iffLR (wv_iff v i _ _ Hq2 Ha2) (conj (esym (esym Ea)) (esym (esym Eb))).
have [Hv' Hi'] := iffLR (wv_iff _ _ _ _ Hq2 Ha2)
  (conj (erefl (wva t2 Z2 (V *m a) (I *m a))) (erefl (wvb t2 Z2 (V *m a) (I *m a)))).
by rewrite -Hv' in Hv; rewrite -Hi' in Hi; rewrite Hv Hi.
Qed.

Lemma conv1_cases : (exists S2, conv1 q1 q2 S1 = Ok S2) \/ conv1 q1 q2 S1 = Raise LinAlgError.
Proof. by rewrite /conv1 /np_inv; case: ifP => _ /=; [left; eexists|right]. Qed.
End OneMatrix.

Lemma convert1E N t1 t2 (Z1 Z2 : 'rV[C]_N) S1 : typ_ok t1 -> typ_ok t2 ->
  exists q1 q2, [/\ coeffs1 t1 Z1 = Ok q1, coeffs1 t2 Z2 = Ok q2 &
    convert1 Z2 S1 Z1 t1 t2 = conv1 q1 q2 S1].
Proof.
move=> /(coeffs1_ok Z1) [q1 H1] /(coeffs1_ok Z2) [q2 H2].
by exists q1, q2; split=> //; rewrite /convert1 H1 /= H2.
Qed.

Lemma convert1_iff N t1 t2 (Z1 Z2 : 'rV[C]_N) S1 S2 :
  typ_ok t1 -> typ_ok t2 -> adm t1 Z1 -> adm t2 Z2 ->
  convert1 Z2 S1 Z1 t1 t2 = Ok S2 <->
  (forall v i, relates t1 Z1 S1 v i <-> relates t2 Z2 S2 v i).
Proof.
move=> Ht1 Ht2 Ha1 Ha2.
have [q1 [q2 [H1 H2 ->]]] := convert1E Z1 Z2 S1 Ht1 Ht2.
split=> [H v i|H].
  split; first exact: (iffLR (conv1_fwd _ H1 H2 Ha1 Ha2 _) H).
  exact: (conv1_bwd H1 H2 Ha1 Ha2 H).
by apply/(conv1_fwd _ H1 H2 Ha1 Ha2) => v i /H.
Qed.

Lemma convert1_fwd_iff N t1 t2 (Z1 Z2 : 'rV[C]_N) S1 S2 :
  typ_ok t1 -> typ_ok t2 -> adm t1 Z1 -> adm t2 Z2 ->
  convert1 Z2 S1 Z1 t1 t2 = Ok S2 <->
  (forall v i, relates t1 Z1 S1 v i -> relates t2 Z2 S2 v i).
Proof.
move=> Ht1 Ht2 Ha1 Ha2.
have [q1 [q2 [H1 H2 ->]]] := convert1E Z1 Z2 S1 Ht1 Ht2.
exact: conv1_fwd.
Qed.

Lemma convert1_raise N t1 t2 (Z1 Z2 : 'rV[C]_N) S1 e :
  typ_ok t1 -> typ_ok t2 -> adm t1 Z1 -> adm t2 Z2 ->
  convert1 Z2 S1 Z1 t1 t2 = Raise e <->
  e = LinAlgError /\
  ~ exists S2, forall v i, relates t1 Z1 S1 v i <-> relates t2 Z2 S2 v i.
Proof.
move=> Ht1 Ht2 Ha1 Ha2.
have Hc : (exists S2, convert1 Z2 S1 Z1 t1 t2 = Ok S2) \/
          convert1 Z2 S1 Z1 t1 t2 = Raise LinAlgError.
  have [q1 [q2 [H1 H2 ->]]] := convert1E Z1 Z2 S1 Ht1 Ht2.
  exact: conv1_cases.
split=> [H|[-> H]].
  split; first by case: Hc => [[S2]|]; rewrite H // => -[].
  by case=> S2 /(convert1_iff _ _ Ht1 Ht2 Ha1 Ha2); rewrite H.
by case: Hc => // -[S2 /(convert1_iff _ _ Ht1 Ht2 Ha1 Ha2) HS]; case: H; exists S2.
Qed.

(** algebraic laws as consequences *)
Lemma convert1_id N t (Z : 'rV[C]_N) S : typ_ok t -> adm t Z ->
  convert1 Z S Z t t = Ok S.
Proof. by move=> Ht Ha; apply/convert1_iff. Qed.

Lemma convert1_back N t1 t2 (Z1 Z2 : 'rV[C]_N) S1 S2 :
  typ_ok t1 -> typ_ok t2 -> adm t1 Z1 -> adm t2 Z2 ->
  convert1 Z2 S1 Z1 t1 t2 = Ok S2 <-> convert1 Z1 S2 Z2 t2 t1 = Ok S1.
Proof.
move=> Ht1 Ht2 Ha1 Ha2; rewrite !convert1_iff //.
by split=> H v i; rewrite H.
Qed.

Lemma convert1_comp N t1 t2 t3 (Z1 Z2 Z3 : 'rV[C]_N) S1 S2 :
  typ_ok t1 -> typ_ok t2 -> typ_ok t3 -> adm t1 Z1 -> adm t2 Z2 -> adm t3 Z3 ->
  convert1 Z2 S1 Z1 t1 t2 = Ok S2 ->
  convert1 Z3 S2 Z2 t2 t3 = convert1 Z3 S1 Z1 t1 t3.
Proof.
move=> Ht1 Ht2 Ht3 Ha1 Ha2 Ha3 /(convert1_iff _ _ Ht1 Ht2 Ha1 Ha2) H12.
case E: (convert1 Z3 S1 Z1 t1 t3) => [S3|e].
  move/(convert1_iff _ _ Ht1 Ht3 Ha1 Ha3): E => H13.
  by apply/convert1_iff => // v i; rewrite -H12.
move/(convert1_raise _ _ Ht1 Ht3 Ha1 Ha3): E => [-> H].
apply/convert1_raise => //; split=> // -[S3 H3]; apply: H; exists S3 => v i.
by rewrite H12 H3.
Qed.

(** ** agreement with the impedance / admittance route *)
Lemma relatesV N (z : C) (S : 'M[C]_N) v i : 
  relates "V" (const_mx z) S v i <-> v - z *: i = S *m (v + z *: i).
Proof.
rewrite relatesE.
have -> : wvb "V" (const_mx z) v i = (2%:R^-1) *: (v - z *: i).
  by apply/cV_extP => k; rewrite !mxE /wave_b /= mulrC.
have -> : wva "V" (const_mx z) v i = (2%:R^-1) *: (v + z *: i).
  by apply/cV_extP => k; rewrite !mxE /wave_a /= mulrC.
rewrite -scalemxAr; split=> [H|->//].
by apply: (scalerI (a := 2%:R^-1)) => //; rewrite invr_neq0.
Qed.

Lemma admV N (z : C) : z != 0 -> adm (N := N) "V" (const_mx z).
Proof. by move=> H k; rewrite /admissible mxE. Qed.

Lemma relates_Z N (z : C) (S Z : 'M[C]_N) v i : z != 0 ->
  z_from_s1 z S = Ok Z -> relates "V" (const_mx z) S v i <-> v = Z *m i.
Proof.
move=> Hz HZ; rewrite relatesV.
have HS := iffRL (z_s_roundtrip _ _ Hz) HZ.
have HiS := iffLR (s_from_z1_iff _ _ Hz) HS.
have HiZ := iffLR (z_from_s1_iff _ _ Hz) HZ.
split=> [H|->]; last exact: HiS.
pose a := 2%:R^-1 *: (v + z *: i).
have Hb : S *m a = 2%:R^-1 *: (v - z *: i) by rewrite -scalemxAr H.
have := HiZ a; rewrite /= Hb /a -scalerDr -scalerBr.
have -> : v + z *: i + (v - z *: i) = 2%:R *: v.
  by rewrite add_pm scaler_nat.
have -> : v + z *: i - (v - z *: i) = 2%:R *: (z *: i).
  by rewrite sub_pm scaler_nat.
by rewrite !scalerK.
Qed.

Lemma relates_Y N (z : C) (S Y : 'M[C]_N) v i : z != 0 ->
  y_from_s1 z S = Ok Y -> relates "V" (const_mx z) S v i <-> i = Y *m v.
Proof.
move=> Hz HY; rewrite relatesV.
have HiY := iffLR (y_from_s1_iff _ _ Hz) HY.
have [Hu EY] := iffLR (y_from_s1_Ok _ _ _) HY.
split=> [H|->].
  pose a := 2%:R^-1 *: (v + z *: i).
  have Hb : S *m a = 2%:R^-1 *: (v - z *: i) by rewrite -scalemxAr H.
  have := HiY a; rewrite /= Hb /a -scalerDr -scalerBr.
  have -> : v + z *: i + (v - z *: i) = 2%:R *: v.
    by rewrite add_pm scaler_nat.
  have -> : v + z *: i - (v - z *: i) = 2%:R *: (z *: i).
    by rewrite sub_pm scaler_nat.
  by rewrite !scalerK.
pose a := invmx (1%:M + S) *m v.
have Hv : v = a + S *m a by rewrite -[a in X in X + _]mul1mx -mulmxDl /a mulKVmx.
have := HiY a; rewrite /= -Hv => <-.
rewrite scalerA mulfV // scale1r.
by rewrite Hv sub_pm add_pm -!scaler_nat scalemxAr.
Qed.

Lemma convert_via_Z N (z1 z2 : C) (S Z : 'M[C]_N) : z1 != 0 -> z2 != 0 ->
  z_from_s1 z1 S = Ok Z ->
  convert1 (const_mx z2) S (const_mx z1) "V" "V" = s_from_z1 z2 Z.
Proof.
move=> H1 H2 HZ.
have Hiff S2 : isS z2 Z S2 <-> forall v i, relates "V" (const_mx z1) S v i ->
               relates "V" (const_mx z2) S2 v i.
  split=> [H v i|H i]; first by rewrite (relates_Z _ _ H1 HZ) relatesV => ->; exact: H.
  by rewrite /= -relatesV; apply: H; rewrite (relates_Z _ _ H1 HZ).
case E: (s_from_z1 z2 Z) => [S2|e].
  apply/convert1_fwd_iff => //; try exact: admV.
  by apply/Hiff/s_from_z1_iff.
have Ee : e = LinAlgError by case: (s_from_z1_cases z2 Z) => [[S2]|]; rewrite E // => -[].
rewrite Ee in E *; move/(s_from_z1_raise _ H2): E => E.
apply/convert1_raise => //; try exact: admV.
by split=> // -[S2 HS2]; apply: E; exists S2; apply/Hiff => v i /HS2.
Qed.

(** ** reciprocity *)
Definition dotp N (x y : 'cV[C]_N) : C := \sum_k x k 0 * y k 0.

Lemma dotp_mx N (x y : 'cV[C]_N) : dotp x y = (x^T *m y) 0 0.
Proof. by rewrite mxE; apply: eq_bigr => k _; rewrite mxE. Qed.

Lemma sym_dotp N (S : 'M[C]_N) :
  symmetric S <-> forall a a', dotp a (S *m a') = dotp a' (S *m a).
Proof.
split=> [HS a a'|H].
  rewrite !dotp_mx.
  have -> : (a'^T *m (S *m a)) 0 0 = ((a'^T *m (S *m a))^T) 0 0 by rewrite [RHS]mxE.
  by rewrite !trmx_mul trmxK HS mulmxA.
apply/matrixP => i j; rewrite mxE.
have := H (delta_mx j 0) (delta_mx i 0).
rewrite !dotp_mx -!colE.
have E k l : (((delta_mx k 0 : 'cV[C]_N))^T *m col l S) 0 0 = S k l.
  by rewrite trmx_delta -rowE !mxE.
by rewrite !E.
Qed.

Lemma recip_wave t (z v i v' i' : C) : admissible t z ->
  wave_a t z v i * wave_b t z v' i' - wave_a t z v' i' * wave_b t z v i =
  (if t == "V"%string then z else 1) / 2%:R * (i * v' - v * i').
Proof.
rewrite /admissible /wave_a /wave_b.
case: ifP => _ Hz; first by field.
case: ifP Hz => _ Hz.
  have Hs : np_sqrt z != 0 by rewrite np_sqrt_eq0.
  have Hss := np_sqrtK z; set s := np_sqrt z in Hs Hss *; rewrite -Hss.
  by field; rewrite ?Hs ?two_neq0.
case/andP: Hz => _ Hz.
have Hs : np_sqrt ('Re z) != 0 by rewrite np_sqrt_eq0 gt_eqF.
have Hss := np_sqrtK ('Re z); set s := np_sqrt ('Re z) in Hs Hss *.
rewrite Re_split -Hss.
by field; rewrite ?Hs ?two_neq0.
Qed.

(** for admissible reference data S is symmetric iff the multiport is reciprocal *)
Lemma sym_iff_recip N t (Z : 'rV[C]_N) S : typ_ok t -> recip_ok t Z ->
  symmetric S <->
  forall v i v' i', relates t Z S v i -> relates t Z S v' i' -> dotp i v' = dotp v i'.
Proof.
move=> Ht [Ha Hu].
have [q Hq] := coeffs1_ok Z Ht.
have [c Hc0 Hc] : exists2 c : C, c != 0 &
    forall k, (if t == "V"%string then Z 0 k else 1) / 2%:R = c.
  case: eqP => [Et|Et].
    case: Hu => // -[z Hz]; case: (N =P 0%N) => [HN|HN].
      by exists 1; [rewrite oner_eq0|move=> k; have := ltn_ord k; rewrite [X in (_ < X)%N]HN].
    have Hk : (0 < N)%N by rewrite lt0n; apply/eqP.
    exists (z / 2%:R); last by move=> k; rewrite Hz.
    rewrite mulf_neq0 ?invr_neq0 //.
    by have := Ha (Ordinal Hk); rewrite Hz /admissible Et eqxx.
  by exists (1 / 2%:R) => //; rewrite mul1r invr_neq0.
have Hd v i v' i' : dotp (wva t Z v i) (wvb t Z v' i') - dotp (wva t Z v' i') (wvb t Z v i)
                    = c * (dotp i v' - dotp v i').
  rewrite -!sumrB mulr_sumr; apply: eq_bigr => k _; rewrite !mxE.
  by rewrite recip_wave // Hc.
split=> [/sym_dotp HS v i v' i' /relatesE H /relatesE H'|H].
  apply/eqP; rewrite -subr_eq0; have := Hd v i v' i'.
  rewrite H H' HS subrr => /esym/eqP.
  by rewrite mulf_eq0 (negbTE Hc0).
apply/sym_dotp => a a'.
have Hex x : exists v i, [/\ relates t Z S v i, wva t Z v i = x & wvb t Z v i = S *m x].
  pose v := diag_mx (QVa q) *m x + diag_mx (QVb q) *m (S *m x).
  pose i := diag_mx (QIa q) *m x + diag_mx (QIb q) *m (S *m x).
  have [E1 E2] := iffRL (wv_iff v i x (S *m x) Hq Ha) (conj erefl erefl).
  by exists v, i; split=> //; rewrite relatesE -E1 -E2.
have [v [i [Hr <- Hb]]] := Hex a; have [v' [i' [Hr' <- Hb']]] := Hex a'.
rewrite -(iffLR (relatesE _ _ _ _ _) Hr) -(iffLR (relatesE _ _ _ _ _) Hr').
by apply/eqP; rewrite -subr_eq0 Hd (H _ _ _ _ Hr Hr') subrr mulr0.
Qed.

Lemma convert1_sym N t1 t2 (Z1 Z2 : 'rV[C]_N) S1 S2 :
  typ_ok t1 -> typ_ok t2 -> recip_ok t1 Z1 -> recip_ok t2 Z2 ->
  convert1 Z2 S1 Z1 t1 t2 = Ok S2 -> symmetric S1 <-> symmetric S2.
Proof.
move=> Ht1 Ht2 Hr1 Hr2; have [Ha1 _] := Hr1; have [Ha2 _] := Hr2.
move/(convert1_iff _ _ Ht1 Ht2 Ha1 Ha2) => H.
rewrite (sym_iff_recip _ Ht1 Hr1) (sym_iff_recip _ Ht2 Hr2).
by split=> HS v i v' i' G G'; apply: HS; apply/H.
Qed.

(** ** power *)
Definition hdot N (x y : 'cV[C]_N) : C := \sum_k x k 0 * (y k 0)^*.

Lemma hdot_mx N (x y : 'cV[C]_N) : hdot x y = ((map_mx conjC y)^T *m x) 0 0.
Proof. by rewrite mxE; apply: eq_bigr => k _; rewrite !mxE mulrC. Qed.

Lemma unitary_hdot N (S : 'M[C]_N) :
  unitary S <-> forall a a', hdot (S *m a) (S *m a') = hdot a a'.
Proof.
split=> [HS a a'|H].
  rewrite !hdot_mx map_mxM trmx_mul mulmxA -[_ *m _ *m S]mulmxA.
  by move: HS; rewrite /unitary => ->; rewrite mulmx1.
apply/matrixP => i j.
have := H (delta_mx j 0) (delta_mx i 0).
rewrite -!colE !hdot_mx.
have -> : ((map_mx conjC (col i S))^T *m col j S) 0 0 = ((map_mx conjC S)^T *m S) i j.
  by rewrite !mxE; apply: eq_bigr => k _; rewrite !mxE.
move=> ->; rewrite map_delta_mx trmx_delta -rowE !mxE eq_sym.
by rewrite andbT.
Qed.

Lemma norm2_hdot N (x : 'cV[C]_N) : norm2 x = hdot x x.
Proof. by apply: eq_bigr => k _; rewrite normCK. Qed.

Lemma power_wave N t (Z : 'rV[C]_N) : power_ok t Z ->
  exists2 c : C, 0 < c & forall k (v i v' i' : C),
   wave_a t (Z 0 k) v i * (wave_a t (Z 0 k) v' i')^* -
   wave_b t (Z 0 k) v i * (wave_b t (Z 0 k) v' i')^* = c * (v * i'^* + i * v'^*).
Proof.
have h2 : 0 < 2%:R^-1 :> C by rewrite invr_gt0 ltr0Sn.
have conj2 : (2%:R^-1 : C)^* = 2%:R^-1 by rewrite fmorphV /= rmorph_nat.
case=> [[-> Hz]|[-> Hz]|[-> [z [Hz0 Hz]]]].
- exists 2%:R^-1 => // k v i v' i'; have {}Hz := Hz k; set z := Z 0 k in Hz *.
  rewrite /wave_a /wave_b /=.
  have Hs0 := np_sqrt_gt0 Hz.
  have Hs : np_sqrt ('Re z) != 0 by rewrite gt_eqF.
  have Hcs : (np_sqrt ('Re z))^* = np_sqrt ('Re z).
    by apply/CrealP; rewrite gtr0_real.
  have Hss := np_sqrtK ('Re z); set s := np_sqrt ('Re z) in Hs Hss Hcs *.
  rewrite !(rmorphM, fmorphV, rmorphD, rmorphN, rmorph1) /= Hcs !conjCK (Re_split z) -Hss.
  by field; rewrite ?Hs ?two_neq0.
- exists 2%:R^-1 => // k v i v' i'; have {}Hz := Hz k; set z := Z 0 k in Hz *.
  rewrite /wave_a /wave_b /=.
  have Hs0 := np_sqrt_gt0 Hz.
  have Hs : np_sqrt z != 0 by rewrite gt_eqF.
  have Hcs : (np_sqrt z)^* = np_sqrt z by apply/CrealP; rewrite gtr0_real.
  have Hcz : z^* = z by apply/CrealP; rewrite gtr0_real.
  have Hss := np_sqrtK z; set s := np_sqrt z in Hs Hss Hcs *.
  rewrite !(rmorphM, fmorphV, rmorphD, rmorphN, rmorph1) /= Hcs !Hcz -Hss.
  by field; rewrite ?Hs ?two_neq0.
- exists (z / 2%:R) => [|k v i v' i']; first by rewrite mulr_gt0.
  rewrite Hz /wave_a /wave_b /=.
  have Hcz : z^* = z by apply/CrealP; rewrite gtr0_real.
  rewrite !(rmorphM, fmorphV, rmorphD, rmorphN, rmorph1) /= Hcz.
  by field; rewrite ?two_neq0.
Qed.

Lemma power_adm N t (Z : 'rV[C]_N) : power_ok t Z -> typ_ok t /\ adm t Z.
Proof.
case=> [[-> Hz]|[-> Hz]|[-> [z [Hz0 Hz]]]]; split=> // k; rewrite /admissible //=.
  by rewrite gt_eqF.
by rewrite Hz gt_eqF.
Qed.

Lemma relates_ex N t (Z : 'rV[C]_N) S x : typ_ok t -> adm t Z ->
  exists v i, [/\ relates t Z S v i, wva t Z v i = x & wvb t Z v i = S *m x].
Proof.
move=> Ht Ha; have [q Hq] := coeffs1_ok Z Ht.
pose v := diag_mx (QVa q) *m x + diag_mx (QVb q) *m (S *m x).
pose i := diag_mx (QIa q) *m x + diag_mx (QIb q) *m (S *m x).
have [E1 E2] := iffRL (wv_iff v i x (S *m x) Hq Ha) (conj erefl erefl).
by exists v, i; split=> //; rewrite relatesE -E1 -E2.
Qed.

Lemma unitary_iff_lossless N t (Z : 'rV[C]_N) S : power_ok t Z ->
  unitary S <->
  forall v i v' i', relates t Z S v i -> relates t Z S v' i' -> hdot v i' + hdot i v' = 0.
Proof.
move=> Hp; have [Ht Ha] := power_adm Hp; have [c Hc Hw] := power_wave Hp.
have Hd v i v' i' : hdot (wva t Z v i) (wva t Z v' i') - hdot (wvb t Z v i) (wvb t Z v' i')
                    = c * (hdot v i' + hdot i v').
  rewrite -sumrB -big_split /= mulr_sumr; apply: eq_bigr => k _; rewrite !mxE.
  exact: Hw.
split=> [/unitary_hdot HS v i v' i' /relatesE H /relatesE H'|H].
  have := Hd v i v' i'; rewrite H H' HS subrr => /esym/eqP.
  by rewrite mulf_eq0 gt_eqF //= => /eqP.
apply/unitary_hdot => a a'.
have [v [i [Hr <- Hb]]] := relates_ex S a Ht Ha.
have [v' [i' [Hr' <- Hb']]] := relates_ex S a' Ht Ha.
rewrite -Hb -Hb'.
by apply/esym/eqP; rewrite -subr_eq0 Hd (H _ _ _ _ Hr Hr') mulr0.
Qed.

Lemma convert1_unitary N t1 t2 (Z1 Z2 : 'rV[C]_N) S1 S2 :
  power_ok t1 Z1 -> power_ok t2 Z2 ->
  convert1 Z2 S1 Z1 t1 t2 = Ok S2 -> unitary S1 <-> unitary S2.
Proof.
move=> Hp1 Hp2; have [Ht1 Ha1] := power_adm Hp1; have [Ht2 Ha2] := power_adm Hp2.
move/(convert1_iff _ _ Ht1 Ht2 Ha1 Ha2) => H.
rewrite (unitary_iff_lossless _ Hp1) (unitary_iff_lossless _ Hp2).
by split=> HS v i v' i' G G'; apply: HS; apply/H.
Qed.

Lemma hdot_power N (v i : 'cV[C]_N) : hdot v i + hdot i v = 2%:R * power v i.
Proof.
rewrite /power mulr_sumr -big_split /=; apply: eq_bigr => k _.
rewrite ReE rmorphM /= conjCK mulrCA mulfV // mulr1.
by rewrite [i k 0 * _]mulrC.
Qed.

Lemma passive_iff N t (Z : 'rV[C]_N) S : power_ok t Z ->
  passive S <-> forall v i, relates t Z S v i -> 0 <= power v i.
Proof.
move=> Hp; have [Ht Ha] := power_adm Hp; have [c Hc Hw] := power_wave Hp.
have Hd v i : norm2 (wva t Z v i) - norm2 (wvb t Z v i) = c * (2%:R * power v i).
  rewrite -hdot_power !norm2_hdot -sumrB -big_split /= mulr_sumr.
  by apply: eq_bigr => k _; rewrite !mxE; exact: Hw.
have Hge v i : (0 <= power v i) = (norm2 (wvb t Z v i) <= norm2 (wva t Z v i)).
  by rewrite -[RHS]subr_ge0 Hd !pmulr_rge0 // ltr0Sn.
split=> [HS v i /relatesE H|H a].
  by rewrite Hge H; apply: HS.
have [v [i [Hr <- <-]]] := relates_ex S a Ht Ha.
by rewrite -Hge; apply: H.
Qed.

Lemma convert1_passive N t1 t2 (Z1 Z2 : 'rV[C]_N) S1 S2 :
  power_ok t1 Z1 -> power_ok t2 Z2 ->
  convert1 Z2 S1 Z1 t1 t2 = Ok S2 -> passive S1 <-> passive S2.
Proof.
move=> Hp1 Hp2; have [Ht1 Ha1] := power_adm Hp1; have [Ht2 Ha2] := power_adm Hp2.
move/(convert1_iff _ _ Ht1 Ht2 Ha1 Ha2) => H.
rewrite (passive_iff _ Hp1) (passive_iff _ Hp2).
by split=> HS v i G; apply: HS; apply/H.
Qed.

End ConvProofs.

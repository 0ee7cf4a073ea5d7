(** Proofs about the devices. *)
From mathcomp Require Import all_ssreflect all_algebra.
From mathcomp.algebra_tactics Require Import ring.
From Coq Require Import String.
From Verif Require Import Base ConvModel ConvSpec MxLib ConvProofs ConvArr DevModel DevSpec.
Set Implicit Arguments.
Unset Strict Implicit.
Unset Printing Implicit Defensive.
Import Order.TTheory GRing.Theory Num.Theory.
Local Open Scope ring_scope.

Section DevThm.
Variable C : numClosedFieldType.

Lemma two_neq0 : 2%:R != 0 :> C.
Proof. by rewrite pnatr_eq0. Qed.

Lemma col2E (x : 'cV[C]_2) : x = col2 (x 0 0) (x 1 0).
Proof. by apply/cV_extP; apply: ord2P; rewrite mxE. Qed.

Lemma rel2 (z : C) (S : 'M[C]_2) v1 v2 i1 i2 :
  relates "V" (const_mx z) S (col2 v1 v2) (col2 i1 i2) <->
  v1 - z * i1 = S 0 0 * (v1 + z * i1) + S 0 1 * (v2 + z * i2) /\
  v2 - z * i2 = S 1 0 * (v1 + z * i1) + S 1 1 * (v2 + z * i2).
Proof.
rewrite relatesV -cV_extP; split=> [H|[H0 H1]].
  by have := H 0; have := H 1; rewrite !mulmx_cVE !sum2 !mxE /=.
by apply: ord2P; rewrite mulmx_cVE sum2 !mxE.
Qed.

Lemma mx2E (a b c d : C) x y : mx2 a b c d *m col2 x y = col2 (a * x + b * y) (c * x + d * y).
Proof. by apply/cV_extP; apply: ord2P; rewrite mulmx_cVE sum2 !mxE. Qed.

Lemma col2_inj (a b c d : C) : col2 a b = col2 c d <-> a = c /\ b = d.
Proof.
split=> [H|[-> ->] //]; have := congr1 (fun y : 'cV[C]_2 => y 0 0) H.
by have := congr1 (fun y : 'cV[C]_2 => y 1 0) H; rewrite !mxE /=.
Qed.

(** voltages and currents for given waves *)
Lemma rel2_wave (z : C) (S : 'M[C]_2) v1 v2 i1 i2 :
  relates "V" (const_mx z) S (col2 v1 v2) (col2 i1 i2) <->
  col2 (v1 - z * i1) (v2 - z * i2) = S *m col2 (v1 + z * i1) (v2 + z * i2).
Proof.
rewrite relatesV.
have -> : col2 v1 v2 - z *: col2 i1 i2 = col2 (v1 - z * i1) (v2 - z * i2).
  by apply/cV_extP; apply: ord2P; rewrite !mxE.
have -> // : col2 v1 v2 + z *: col2 i1 i2 = col2 (v1 + z * i1) (v2 + z * i2).
by apply/cV_extP; apply: ord2P; rewrite !mxE.
Qed.

(** generic: a two-port given by A b = B a *)
Lemma scat_AB (law : C -> C -> C -> C -> Prop) (A B : 'M[C]_2) z S : z != 0 ->
  (forall v1 v2 i1 i2, law v1 v2 i1 i2 <->
     A *m col2 (v1 - z * i1) (v2 - z * i2) = B *m col2 (v1 + z * i1) (v2 + z * i2)) ->
  (do Ai <- np_inv A; Ok (Ai *m B)) = Ok S <-> is_scat2 law z S.
Proof.
move=> Hz HL.
have Hex (a b : 'cV[C]_2) : exists v1 v2 i1 i2, col2 (v1 - z * i1) (v2 - z * i2) = b /\
     col2 (v1 + z * i1) (v2 + z * i2) = a.
  exists ((a 0 0 + b 0 0) / 2%:R), ((a 1 0 + b 1 0) / 2%:R),
    ((a 0 0 - b 0 0) / (2%:R * z)), ((a 1 0 - b 1 0) / (2%:R * z)).
  by split; rewrite [RHS]col2E; apply/col2_inj; split; field; rewrite ?Hz ?two_neq0.
split.
  case E: (np_inv A) => [Ai|e] //= [<-]; move/np_invE: E => [Hu ->] v1 v2 i1 i2.
  rewrite HL rel2_wave -mulmxA; split=> [<-|->]; first by rewrite mulKmx.
  by rewrite mulKVmx.
move=> HS; have Hu : A \in unitmx.
  apply/unitmx_kerP => x Hx; have [v1 [v2 [i1 [i2 [E1 E2]]]]] := Hex 0 x.
  have := iffLR (HS v1 v2 i1 i2); rewrite HL rel2_wave E1 E2 Hx !mulmx0.
  by apply.
rewrite /np_inv Hu /=; congr Ok; apply/mx_extP => a.
have [v1 [v2 [i1 [i2 [E1 E2]]]]] := Hex a (S *m a).
have := iffRL (HS v1 v2 i1 i2); rewrite HL rel2_wave E1 E2 => /(_ erefl) E.
by rewrite -mulmxA -E mulKmx.
Qed.

Lemma scat_AB_raise (law : C -> C -> C -> C -> Prop) (A B : 'M[C]_2) z e : z != 0 ->
  (forall v1 v2 i1 i2, law v1 v2 i1 i2 <->
     A *m col2 (v1 - z * i1) (v2 - z * i2) = B *m col2 (v1 + z * i1) (v2 + z * i2)) ->
  (do Ai <- np_inv A; Ok (Ai *m B)) = Raise e <-> (~ exists S, is_scat2 law z S) /\ e = LinAlgError.
Proof.
move=> Hz HL; split.
  move=> E; split; first by move=> [S /(scat_AB _ Hz HL)]; rewrite E.
  by move: E; rewrite /np_inv; case: ifP => //= _ [<-].
case=> Hn ->; case E: (do Ai <- np_inv A; Ok (Ai *m B)) => [S|e'].
  by case: Hn; exists S; apply/(scat_AB _ Hz HL).
by move: E; rewrite /np_inv; case: ifP => //= _ [<-].
Qed.

Lemma is_scat2_uniq law z (S S' : 'M[C]_2) : z != 0 -> is_scat2 law z S -> is_scat2 law z S' -> S = S'.
Proof.
move=> Hz H H'; apply/mx_extP => a.
have [v [i [Hr Ha Hb]]] := @relates_ex C 2 "V" (const_mx z) S a erefl (admV Hz).
move: (Hr); rewrite (col2E v) (col2E i) -H H' -(col2E v) -(col2E i) => /relatesE.
by rewrite Hb Ha => ->.
Qed.

(** ** the two-port equations *)
Definition lin_law z (zs yp v1 v2 i1 i2 : C) : Prop := v1 - v2 = zs * z * i1 /\ z * (i1 + i2) = yp * v2.

Lemma lin_AB (z zs yp v1 v2 i1 i2 : C) : z != 0 ->
  lin_law z zs yp v1 v2 i1 i2 <->
  mx2 1 (1 + yp) (- (1 + zs)) 1 *m col2 (v1 - z * i1) (v2 - z * i2) =
  mx2 1 (1 - yp) (1 - zs) (-1) *m col2 (v1 + z * i1) (v2 + z * i2).
Proof.
move=> Hz; rewrite !mx2E col2_inj /lin_law; split=> -[E1 E2].
  split; apply/eqP; rewrite -subr_eq0; apply/eqP.
    transitivity (2%:R * (yp * v2 - z * (i1 + i2))); first by ring.
    by rewrite E2 subrr mulr0.
  transitivity (2%:R * (zs * z * i1 - (v1 - v2))); first by ring.
  by rewrite E1 subrr mulr0.
have K (x : C) : 2%:R * x = 0 -> x = 0.
  by move/eqP; rewrite mulf_eq0 (negbTE two_neq0) => /eqP.
split; apply/eqP; rewrite -subr_eq0; apply/eqP; apply: K.
  transitivity (1 * (1 * 0) - (- (1 + zs) * (v1 - z * i1) + 1 * (v2 - z * i2) - 
    ((1 - zs) * (v1 + z * i1) + -1 * (v2 + z * i2)))); first by ring.
  by rewrite E2 subrr; ring.
transitivity (1 * (1 * 0) - (1 * (v1 - z * i1) + (1 + yp) * (v2 - z * i2) - 
    (1 * (v1 + z * i1) + (1 - yp) * (v2 + z * i2)))); first by ring.
by rewrite E1 subrr; ring.
Qed.

Lemma ii_neq0 (w : C) : w != 0 -> 'i * w != 0.
Proof. by move=> H; rewrite mulf_neq0 // neq0Ci. Qed.

Lemma series_iff (o : rlc C) (jw c v i : C) : jw != 0 -> ediv (1 / jw) (Cs o) = Ok c ->
  series_rlc jw o v i <-> v = (Rs o + jw * Ls o + c) * i.
Proof.
move=> Hj; rewrite /series_rlc; case: (Cs o) => [x|] /=.
  case: ifP => // /negbT Hx [<-]; split.
    by case=> vr [vl [vc [-> -> -> ->]]]; field; rewrite Hj Hx.
  move=> ->; exists (Rs o * i), (jw * Ls o * i), (i / (jw * x)); split=> //; field; rewrite ?Hj ?Hx //.
move=> [<-]; split; first by case=> vr [vl [vc [-> -> -> ->]]]; ring.
by move=> ->; exists (Rs o * i), (jw * Ls o * i), 0; split=> //; ring.
Qed.

Lemma parallel_iff (o : rlc C) (jw g b v i : C) : jw != 0 -> ediv 1 (Rp o) = Ok g ->
  ediv (1 / jw) (Lp o) = Ok b ->
  parallel_rlc jw o v i <-> i = (g + b + jw * Cp o) * v.
Proof.
move=> Hj Hg Hb; rewrite /parallel_rlc.
have Hr ir : res_law (Rp o) v ir <-> ir = g * v.
  move: Hg; case: (Rp o) => [x|] /=; last by case=> <-; rewrite mul0r.
  case: ifP => // /negbT Hx [<-]; split=> ->; field; rewrite ?Hx //.
have Hl il : ind_law jw (Lp o) v il <-> il = b * v.
  move: Hb; case: (Lp o) => [x|] /=; last by case=> <-; rewrite mul0r.
  case: ifP => // /negbT Hx [<-]; split=> ->; field; rewrite ?Hx ?Hj //.
split.
  by case=> ir [il [ic [/Hr -> /Hl -> -> ->]]]; ring.
move=> ->; exists (g * v), (b * v), (jw * Cp o * v); split; [by apply/Hr|by apply/Hl|by []|by ring].
Qed.

(** the load lemma *)
Lemma load_iff (r z v i : C) : z != 0 -> r + z != 0 -> 
  v - z * i = (r - z) / (r + z) * (v + z * i) <-> v = r * i.
Proof.
move=> Hz Hr; split=> [E|->]; last by field; rewrite Hr.
have H : 2%:R * z * (v - r * i) = 0.
  transitivity ((r + z) * (v - z * i) - (r + z) * ((r - z) / (r + z) * (v + z * i))).
    by field; rewrite Hr.
  by rewrite -E subrr.
move/eqP: H; rewrite !mulf_eq0 (negbTE two_neq0) (negbTE Hz) /= subr_eq0.
by move/eqP.
Qed.

Definition dc_unscaled (o : rlc C) (w : C) : Prop := [/\ w = 0, Cs o = Inf & Lp o = Inf].

Lemma half_inj (x y : C) : x + x = y + y -> x = y.
Proof.
move=> E; apply/eqP; rewrite -subr_eq0.
have : 2%:R * (x - y) = 0 by rewrite mulrBr !mulr_natl !mulr2n E subrr.
by move/eqP; rewrite mulf_eq0 (negbTE two_neq0).
Qed.

Lemma minus_iff (z v i : C) : v - z * i = -1 * (v + z * i) <-> v = 0.
Proof.
split=> [E|->]; last by ring.
apply: half_inj; rewrite addr0.
transitivity (v - z * i - -1 * (v + z * i)); first by ring.
by rewrite E subrr.
Qed.

Lemma plus_iff (z v i : C) : z != 0 -> v - z * i = 1 * (v + z * i) <-> i = 0.
Proof.
move=> Hz; split=> [E|->]; last by ring.
have H : 2%:R * z * i = 0.
  transitivity (1 * (v + z * i) - (v - z * i)); first by ring.
  by rewrite E subrr.
by move/eqP: H; rewrite !mulf_eq0 (negbTE two_neq0) (negbTE Hz) => /eqP.
Qed.

Lemma diag_rel (z r1 r2 v1 v2 i1 i2 : C) :
  relates "V" (const_mx z) (mx2 r1 0 0 r2) (col2 v1 v2) (col2 i1 i2) <->
  v1 - z * i1 = r1 * (v1 + z * i1) /\ v2 - z * i2 = r2 * (v2 + z * i2).
Proof. by rewrite rel2 !mxE /= !mul0r addr0 add0r. Qed.

Lemma rlc_AC (o : rlc C) (z w zs c g b : C) : z != 0 -> w != 0 ->
  ediv (1 / ('i * w)) (Cs o) = Ok c -> ediv 1 (Rp o) = Ok g -> ediv (1 / ('i * w)) (Lp o) = Ok b ->
  forall v1 v2 i1 i2, rlc_law ('i * w) o v1 v2 i1 i2 <->
   lin_law z ((Rs o + 'i * w * Ls o + c) / z) ((g + b + 'i * w * Cp o) * z) v1 v2 i1 i2.
Proof.
move=> Hz Hw Hc Hg Hb v1 v2 i1 i2; rewrite /rlc_law /lin_law.
have Hj := ii_neq0 Hw.
have Hs := series_iff (v1 - v2) i1 Hj Hc.
have Hp := parallel_iff v2 (i1 + i2) Hj Hg Hb.
split=> -[].
  by move/Hs=> -> /Hp ->; split; [rewrite divfK|ring].
rewrite divfK // => E1 E2; split; first by apply/Hs.
by apply/Hp/(mulfI Hz); rewrite E2; ring.
Qed.

Definition ok_values (o : rlc C) : Prop := [/\ Cs o <> Fin 0, Rp o <> Fin 0 & Lp o <> Fin 0].

Lemma ediv_ok (x : C) y : y <> Fin 0 -> exists q, ediv x y = Ok q.
Proof.
case: y => [y|] H /=; last by exists 0.
by case: eqP => [E|_]; [case: H; rewrite E|exists (x / y)].
Qed.

(** AC: complete characterisation, with the raising case *)
Lemma rlc_AC_iff (o : rlc C) z w S : z != 0 -> w != 0 -> ok_values o ->
  rlc_get1S o z w = Ok S <-> is_scat2 (rlc_law ('i * w) o) z S.
Proof.
move=> Hz Hw [H1 H2 H3].
have [c Hc] := ediv_ok (1 / ('i * w)) H1; have [g Hg] := ediv_ok 1 H2.
have [b Hb] := ediv_ok (1 / ('i * w)) H3.
rewrite /rlc_get1S Hw Hc /pdiv /= (negbTE Hz) /= Hg /= Hb /=.
apply: scat_AB => // v1 v2 i1 i2.
by rewrite (rlc_AC (z := z) 0 Hz Hw Hc Hg Hb) lin_AB.
Qed.

Lemma rlc_AC_raise (o : rlc C) z w e : z != 0 -> w != 0 -> ok_values o ->
  rlc_get1S o z w = Raise e <-> (~ exists S, is_scat2 (rlc_law ('i * w) o) z S) /\ e = LinAlgError.
Proof.
move=> Hz Hw [H1 H2 H3].
have [c Hc] := ediv_ok (1 / ('i * w)) H1; have [g Hg] := ediv_ok 1 H2.
have [b Hb] := ediv_ok (1 / ('i * w)) H3.
rewrite /rlc_get1S Hw Hc /pdiv /= (negbTE Hz) /= Hg /= Hb /=.
apply: scat_AB_raise => // v1 v2 i1 i2.
by rewrite (rlc_AC (z := z) 0 Hz Hw Hc Hg Hb) lin_AB.
Qed.

(** DC *)
Lemma dc_series_inf (o : rlc C) v i : Cs o = Inf -> series_rlc ('i * 0) o v i <-> v = Rs o * i.
Proof.
move=> E; rewrite /series_rlc E /=; split.
  by case=> vr [vl [vc [-> -> -> ->]]]; ring.
by move=> ->; exists (Rs o * i), 0, 0; split=> //; ring.
Qed.
Lemma dc_series_fin (o : rlc C) c v i : Cs o = Fin c -> series_rlc ('i * 0) o v i <-> i = 0.
Proof.
move=> E; rewrite /series_rlc E /=; split.
  by case=> vr [vl [vc [_ _ -> _]]]; ring.
by move=> ->; exists 0, 0, v; split=> //; ring.
Qed.
Lemma dc_par_fin (o : rlc C) l v i : Lp o = Fin l -> parallel_rlc ('i * 0) o v i <-> v = 0.
Proof.
move=> E; rewrite /parallel_rlc E /=; split.
  by case=> ir [il [ic [_ -> _ _]]]; ring.
move=> ->; exists 0, i, 0; split; try by ring.
by case: (Rp o) => //= r; rewrite mulr0.
Qed.
Lemma dc_par_inf (o : rlc C) v i : Lp o = Inf -> parallel_rlc ('i * 0) o v i <-> res_law (Rp o) v i.
Proof.
move=> E; rewrite /parallel_rlc E /=; split.
  by case=> ir [il [ic [H -> -> ->]]]; rewrite mulr0 !mul0r !addr0.
move=> H; exists i, 0, 0; split=> //; by ring.
Qed.

Lemma rlc_DC (o : rlc C) z S : z != 0 -> ~ dc_unscaled o 0 ->
  rlc_get1S o z 0 = Ok S -> is_scat2 (rlc_law ('i * 0) o) z S.
Proof.
move=> Hz Hn; rewrite /rlc_get1S eqxx /=.
case Ec: (Cs o) => [c|]; case El: (Lp o) => [l|].
- move=> [<-] v1 v2 i1 i2; rewrite diag_rel /rlc_law (dc_series_fin _ _ Ec) (dc_par_fin _ _ El).
  by rewrite plus_iff // minus_iff.
- case Er: (Rp o) => [r|]; rewrite /pdiv /=.
    case: ifP => //= /negbT Hr [<-] v1 v2 i1 i2.
    rewrite diag_rel /rlc_law (dc_series_fin _ _ Ec) (dc_par_inf _ _ El) Er /=.
    rewrite (plus_iff v1 i1 Hz) (load_iff v2 i2 Hz Hr); by split=> -[-> H]; split=> //; move: H; rewrite add0r.
  move=> [<-] v1 v2 i1 i2.
  rewrite diag_rel /rlc_law (dc_series_fin _ _ Ec) (dc_par_inf _ _ El) Er /=.
  rewrite (plus_iff v1 i1 Hz) (plus_iff v2 i2 Hz); by split=> -[-> H]; split=> //; move: H; rewrite add0r.
- rewrite /pdiv /=; case: ifP => //= /negbT Hr [<-] v1 v2 i1 i2.
  rewrite diag_rel /rlc_law (dc_series_inf _ _ Ec) (dc_par_fin _ _ El).
  by rewrite minus_iff (load_iff v1 i1 Hz Hr); split=> -[H E]; split=> //; move: H; rewrite E subr0.
by case: Hn.
Qed.

(** in the remaining case the code forgets the reference impedance *)
Lemma rlc_DC_unscaled (o : rlc C) z S : Cs o = Inf -> Lp o = Inf -> Rp o <> Fin 0 ->
  rlc_get1S o z 0 = Ok S <-> is_scat2 (rlc_law ('i * 0) o) 1 S.
Proof.
move=> Ec El Er; rewrite /rlc_get1S eqxx /= Ec El.
have [g Hg] := ediv_ok 1 Er; rewrite Hg /=.
apply: scat_AB; first exact: oner_neq0.
move=> v1 v2 i1 i2; rewrite -lin_AB ?oner_neq0 //.
rewrite /rlc_law (dc_series_inf _ _ Ec) (dc_par_inf _ _ El) /lin_law mulr1 mul1r.
have H : res_law (Rp o) v2 (i1 + i2) <-> i1 + i2 = g * v2.
  move: Hg; case: (Rp o) Er => [r|] /= Er; last by case=> <-; rewrite mul0r.
  case: ifP => // /negbT Hr [<-].
  by split=> [->|->]; field; rewrite Hr.
by split=> -[E1 /H E2].
Qed.

Lemma ediv_Ok_neq (x q : C) y : ediv x y = Ok q -> y <> Fin 0.
Proof. by case: y => [y|] //= H [E]; move: H; rewrite E eqxx. Qed.

(** every successful result is the scattering matrix of the two-port, on Zbase or (in the
    one DC case) on 1 *)
Lemma rlc_sound (o : rlc C) z w S : z != 0 -> rlc_get1S o z w = Ok S ->
  (~ dc_unscaled o w -> is_scat2 (rlc_law ('i * w) o) z S) /\
  (dc_unscaled o w -> is_scat2 (rlc_law ('i * w) o) 1 S).
Proof.
move=> Hz H; case: (w =P 0) => [Ew|/eqP Hw].
  subst w; split=> [Hn|[_ Ec El]]; first exact: rlc_DC.
  apply/(rlc_DC_unscaled z _ Ec El) => //.
  by move: H; rewrite /rlc_get1S eqxx /= Ec El; case E: (ediv _ _) => [q|] //= _; apply: ediv_Ok_neq E.
split=> [_|[E]]; last by rewrite E eqxx in Hw.
apply/rlc_AC_iff => //.
move: H; rewrite /rlc_get1S Hw /=; case E1: (ediv _ (Cs o)) => [c|] //=.
case: (pdiv _ z) => [zs|] //=; case E2: (ediv _ (Rp o)) => [g|] //=.
case E3: (ediv _ (Lp o)) => [b|] //= _.
by split; [apply: ediv_Ok_neq E1|apply: ediv_Ok_neq E2|apply: ediv_Ok_neq E3].
Qed.

Lemma dc_unscaledP (o : rlc C) w : dc_unscaled o w \/ ~ dc_unscaled o w.
Proof.
rewrite /dc_unscaled; case: (w =P 0) => Hw; last by right; case.
case: (Cs o) => [c|]; first by right; case.
by case: (Lp o) => [c|]; [right; case|left].
Qed.

Lemma rlc_sound_ex (o : rlc C) z w S : z != 0 -> rlc_get1S o z w = Ok S ->
  exists2 z', is_scat2 (rlc_law ('i * w) o) z' S & z' = z \/ z' = 1.
Proof.
move=> Hz /(rlc_sound Hz) [H1 H2]; case: (dc_unscaledP o w) => H.
  by exists 1; [apply: H2|right].
by exists z; [apply: H1|left].
Qed.

(** *** reciprocity *)
Lemma res_recip r (v i v' i' : C) : res_law r v i -> res_law r v' i' -> v * i' = v' * i.
Proof. by case: r => [r|] /= -> ->; ring. Qed.
Lemma ind_recip jw l (v i v' i' : C) : ind_law jw l v i -> ind_law jw l v' i' -> v * i' = v' * i.
Proof. by case: l => [r|] /= -> ->; ring. Qed.
Lemma cap_recip jw c (v i v' i' : C) : cap_law jw c v i -> cap_law jw c v' i' -> v * i' = v' * i.
Proof. by case: c => [r|] /= -> ->; ring. Qed.

Lemma rlc_recip jw o (v1 v2 i1 i2 v1' v2' i1' i2' : C) :
  rlc_law jw o v1 v2 i1 i2 -> rlc_law jw o v1' v2' i1' i2' ->
  i1 * v1' + i2 * v2' = v1 * i1' + v2 * i2'.
Proof.
case=> -[vr [vl [vc [A1 A2 A3 A4]]]] [ir [il [ic [B1 B2 B3 B4]]]].
case=> -[vr' [vl' [vc' [A1' A2' A3' A4']]]] [ir' [il' [ic' [B1' B2' B3' B4']]]].
apply/eqP; rewrite -subr_eq0; apply/eqP.
transitivity ((v1' - v2') * i1 - (v1 - v2) * i1' + (v2' * (i1 + i2) - v2 * (i1' + i2'))); first by ring.
rewrite A4 A4' B4 B4' !mulrDl !mulrDr.
rewrite (res_recip A1 A1') (ind_recip A2 A2') (cap_recip A3 A3').
by rewrite (res_recip B1 B1') (ind_recip B2 B2') (cap_recip B3 B3') !subrr addr0.
Qed.

Lemma dotp2 (x y : 'cV[C]_2) : dotp x y = x 0 0 * y 0 0 + x 1 0 * y 1 0.
Proof. by rewrite /dotp sum2. Qed.

Lemma scat2_sym law z (S : 'M[C]_2) : z != 0 -> is_scat2 law z S ->
  (forall v1 v2 i1 i2 v1' v2' i1' i2' : C, law v1 v2 i1 i2 -> law v1' v2' i1' i2' ->
    i1 * v1' + i2 * v2' = v1 * i1' + v2 * i2') -> symmetric S.
Proof.
move=> Hz HS Hr; apply/(sym_iff_recip (t := "V") (Z := const_mx z)) => //.
  by split; [apply: admV|right; exists z => k; rewrite mxE].
move=> v i v' i'; rewrite (col2E v) (col2E i) (col2E v') (col2E i') -!HS => H H'.
by rewrite !dotp2 !mxE /=; apply: Hr.
Qed.

Lemma rlc_symmetric (o : rlc C) z w S : z != 0 -> rlc_get1S o z w = Ok S -> symmetric S.
Proof.
move=> Hz /(rlc_sound_ex Hz) [z' H Hz']; apply: (scat2_sym _ H).
  by case: Hz' => ->; rewrite ?oner_neq0.
by move=> *; apply: rlc_recip; eassumption.
Qed.

(** *** passivity *)
Lemma power2 (v1 v2 i1 i2 : C) :
  power (col2 v1 v2) (col2 i1 i2) = 'Re ((v1 - v2) * i1^*) + 'Re (v2 * (i1 + i2)^*).
Proof.
rewrite /power sum2 !mxE /= -!raddfD /=; congr ('Re _).
by rewrite rmorphD /=; ring.
Qed.

Lemma Re_ge0 (x : C) : 0 <= x -> 0 <= 'Re x.
Proof. by move=> H; rewrite (Creal_ReP _ (ger0_real H)). Qed.
Lemma mulcc_ge0 (x : C) : 0 <= x * x^*.
Proof. by rewrite -normCK exprn_ge0. Qed.
(** an imaginary number *)
Lemma Re_imag (x : C) : x \is Num.real -> 'Re ('i * x) = 0.
Proof. by move=> H; rewrite ReE rmorphM /= conjCi (conj_Creal H) mulNr subrr mul0r. Qed.

Lemma res_power r (v i : C) : ext_ge0 r -> res_law r v i -> 0 <= 'Re (v * i^*).
Proof.
case: r => [r|] /= H ->; last by rewrite rmorph0 mulr0 Re_ge0.
by rewrite -mulrA Re_ge0 // mulr_ge0 // mulcc_ge0.
Qed.
Lemma cc_real (x : C) : x * x^* \is Num.real.
Proof. exact/ger0_real/mulcc_ge0. Qed.
Definition ext_real (x : ext C) : Prop := if x is Fin y then y \is Num.real else True.
Lemma ge0_ext_real x : ext_ge0 x -> ext_real x.
Proof. by case: x => //= x; apply: ger0_real. Qed.
Lemma ind_power w l (v i : C) : w \is Num.real -> ext_real l -> ind_law ('i * w) l v i -> 'Re (v * i^*) = 0.
Proof.
case: l => [l|] /= Hw H ->; last by rewrite rmorph0 mulr0 raddf0.
by rewrite -!mulrA Re_imag // rpredM // rpredM // cc_real.
Qed.
Lemma Re_conj (x : C) : 'Re (x^*) = 'Re x.
Proof. by rewrite !ReE conjCK addrC. Qed.
Lemma cap_power w c (v i : C) : w \is Num.real -> ext_real c -> cap_law ('i * w) c v i -> 'Re (v * i^*) = 0.
Proof.
case: c => [c|] /= Hw H ->; last by rewrite mul0r raddf0.
by rewrite -Re_conj rmorphM /= conjCK mulrC -!mulrA Re_imag // rpredM // rpredM // cc_real.
Qed.

Lemma rlc_power (o : rlc C) w (v1 v2 i1 i2 : C) : w \is Num.real -> rlc_passive o ->
  rlc_law ('i * w) o v1 v2 i1 i2 -> 0 <= power (col2 v1 v2) (col2 i1 i2).
Proof.
move=> Hw [P1 [P2 P3] P4 P5 P6] [[vr [vl [vc [A1 A2 A3 A4]]]] [ir [il [ic [B1 B2 B3 B4]]]]].
rewrite power2 A4 B4 !rmorphD /= !mulrDl !mulrDr !raddfD /=.
have := res_power (r := Fin (Rs o)) P1 A1 => R1; have := res_power P4 B1 => R2.
rewrite (ind_power Hw (ger0_real P2 : ext_real (Fin _)) A2) (cap_power Hw (ge0_ext_real P3) A3).
rewrite (ind_power Hw (ge0_ext_real P5) B2) (cap_power Hw (ger0_real P6 : ext_real (Fin _)) B3).
by rewrite !addr0 addr_ge0.
Qed.

Lemma posV (z : C) : 0 < z -> power_ok (N := 2) "V" (const_mx z).
Proof. by move=> H; constructor 3; split=> //; exists z; split=> // k; rewrite mxE. Qed.

Lemma rlc_passive_S (o : rlc C) z w S : 0 < z -> w \is Num.real -> rlc_passive o ->
  rlc_get1S o z w = Ok S -> passive S.
Proof.
move=> Hz Hw Hp H; have [|z' HS Hz'] := rlc_sound_ex _ H; first by rewrite gt_eqF.
have Hz1 : 0 < z' by case: Hz' => ->; rewrite ?ltr01.
apply/(passive_iff _ (posV Hz1)) => v i; rewrite (col2E v) (col2E i) -HS.
exact: rlc_power.
Qed.

(** lossless *)
Lemma ind_lossless w l (v i v' i' : C) : w \is Num.real -> ext_real l ->
  ind_law ('i * w) l v i -> ind_law ('i * w) l v' i' -> v * i'^* + i * v'^* = 0.
Proof.
case: l => [l|] /= Hw Hl -> ->; last by rewrite rmorph0 mulr0 mul0r addr0.
by rewrite !rmorphM /= conjCi (conj_Creal Hw) (conj_Creal Hl); ring.
Qed.
Lemma cap_lossless w l (v i v' i' : C) : w \is Num.real -> ext_real l ->
  cap_law ('i * w) l v i -> cap_law ('i * w) l v' i' -> v * i'^* + i * v'^* = 0.
Proof.
case: l => [l|] /= Hw Hl -> ->; last by rewrite rmorph0 mulr0 mul0r addr0.
by rewrite !rmorphM /= conjCi (conj_Creal Hw) (conj_Creal Hl); ring.
Qed.

Lemma rlc_unitary (o : rlc C) z w S : 0 < z -> w \is Num.real -> rlc_lossless o ->
  rlc_get1S o z w = Ok S -> unitary S.
Proof.
move=> Hz Hw [L1 L2 [L3 L4] L5 L6] H; have [|z' HS Hz'] := rlc_sound_ex _ H; first by rewrite gt_eqF.
have Hz1 : 0 < z' by case: Hz' => ->; rewrite ?ltr01.
apply/(unitary_iff_lossless _ (posV Hz1)) => v i v' i'.
rewrite (col2E v) (col2E i) (col2E v') (col2E i') -!HS.
case=> -[vr [vl [vc [A1 A2 A3 A4]]]] [ir [il [ic [B1 B2 B3 B4]]]].
case=> -[vr' [vl' [vc' [A1' A2' A3' A4']]]] [ir' [il' [ic' [B1' B2' B3' B4']]]].
rewrite /hdot !sum2 !mxE /=.
transitivity ((v 0 0 - v 1 0) * (i' 0 0)^* + i 0 0 * (v' 0 0 - v' 1 0)^* +
   (v 1 0 * (i' 0 0 + i' 1 0)^* + (i 0 0 + i 1 0) * (v' 1 0)^*)).
  by rewrite !rmorphD !rmorphN /=; ring.
rewrite A4 A4' B4 B4'.
move: A1 A1' B1 B1'; rewrite /= L1 L2 /= !mul0r => -> -> -> ->; rewrite !add0r.
rewrite !rmorphD /=.
transitivity ((vl * (i' 0 0)^* + i 0 0 * vl'^*) + (vc * (i' 0 0)^* + i 0 0 * vc'^*) +
  ((v 1 0 * il'^* + il * (v' 1 0)^*) + (v 1 0 * ic'^* + ic * (v' 1 0)^*))); first by ring.
rewrite (ind_lossless Hw (L3 : ext_real (Fin _)) A2 A2') (cap_lossless Hw L5 A3 A3').
by rewrite (ind_lossless Hw L6 B2 B2') (cap_lossless Hw (L4 : ext_real (Fin _)) B3 B3') !addr0.
Qed.

(** never a LinAlgError for a physical two-port *)
Lemma rlc_total (o : rlc C) z w : 0 < z -> w \is Num.real -> rlc_passive o -> ok_values o ->
  exists S, rlc_get1S o z w = Ok S.
Proof.
move=> Hz Hw Hp [H1 H2 H3].
have Hz0 : z != 0 by rewrite gt_eqF.
have K (zs yp z1 : C) : 0 < z1 -> 
    (forall v1 v2 i1 i2, lin_law z1 zs yp v1 v2 i1 i2 -> 0 <= power (col2 v1 v2) (col2 i1 i2)) ->
    exists S, rlc_mx zs yp = Ok S.
  move=> Hz1 HP; have Hz10 : z1 != 0 by rewrite gt_eqF.
  rewrite /rlc_mx; set A := mx2 _ _ _ _; suff Hu : A \in unitmx.
    by rewrite /np_inv Hu /=; eexists.
  apply/unitmx_kerP => x Hx.
  have HL : lin_law z1 zs yp (x 0 0) (x 1 0) (- x 0 0 / z1) (- x 1 0 / z1).
    have Hv y : y + z1 * (- y / z1) = 0 by field.
    apply/(lin_AB _ _ _ _ _ _ Hz10); rewrite !Hv.
    have Hb y : y - z1 * (- y / z1) = 2%:R * y by field.
    rewrite !Hb.
    have -> : col2 (2%:R * x 0 0) (2%:R * x 1 0) = 2%:R *: x.
      by apply/cV_extP; apply: ord2P; rewrite !mxE.
    have -> : col2 0 0 = 0 :> 'cV[C]_2 by apply/cV_extP; apply: ord2P; rewrite !mxE.
    by rewrite -scalemxAr Hx mulmx0 scaler0.
  have := HP _ _ _ _ HL.
  rewrite /power sum2 !mxE /=.
  have Hpw y : 'Re (y * (- y / z1)^*) = - (y * y^* / z1).
    rewrite !rmorphM !rmorphN /= fmorphV (conj_Creal (gtr0_real Hz1)).
    rewrite mulrA mulrN mulNr raddfN /=; congr (- _).
    by apply/Creal_ReP; rewrite rpredM ?cc_real // rpredV gtr0_real.
  rewrite !Hpw -opprD oppr_ge0 -mulrDl pmulr_lle0 ?invr_gt0 // => Hle.
  have := mulcc_ge0 (x 0 0); have := mulcc_ge0 (x 1 0) => G1 G0.
  have Z0 : x 0 0 * (x 0 0)^* = 0.
    by apply/eqP; rewrite eq_le G0 andbT; apply: le_trans Hle; rewrite ler_addl.
  have Z1 : x 1 0 * (x 1 0)^* = 0.
    by apply/eqP; rewrite eq_le G1 andbT; apply: le_trans Hle; rewrite ler_addr.
  move/eqP: Z0; move/eqP: Z1; rewrite !mul_conjC_eq0 => /eqP E1 /eqP E0.
  by rewrite (col2E x) E1 E0; apply/cV_extP; apply: ord2P; rewrite !mxE.
have [P1 _ P4 _ _] := Hp.
case: (w =P 0) => [Ew|/eqP Hw0].
  subst w; rewrite /rlc_get1S eqxx /=.
  have Hsum r : 0 <= r -> (r + z == 0) = false.
    by move=> Hr; rewrite gt_eqF // ltr_paddl.
  case Ec: (Cs o) => [c|]; case El: (Lp o) => [l|].
  - by eexists.
  - case Er: (Rp o) => [r|]; rewrite /pdiv /=; last by eexists.
    by rewrite Hsum; [eexists|move: P4; rewrite Er].
  - by rewrite /pdiv /= Hsum //=; eexists.
  have [g Hg] := ediv_ok 1 H2; rewrite Hg /=.
  apply: (K _ _ 1) => [|v1 v2 i1 i2 [E1 E2]]; first exact: ltr01.
  apply: (rlc_power Hw Hp); rewrite /rlc_law (dc_series_inf _ _ Ec) (dc_par_inf _ _ El).
  rewrite mulr1 in E1; rewrite mul1r in E2; split=> //.
  move: Hg; case: (Rp o) {P4 Hp} H2 => [r|] /= Er; last by case=> Eg; rewrite E2 -Eg mul0r.
  by case: ifP => // /negbT Hr [Eg]; rewrite E2 -Eg; field; rewrite Hr.
have [c Hc] := ediv_ok (1 / ('i * w)) H1; have [g Hg] := ediv_ok 1 H2.
have [b Hb] := ediv_ok (1 / ('i * w)) H3.
rewrite /rlc_get1S Hw0 Hc /pdiv /= (negbTE Hz0) /= Hg /= Hb /=.
apply: (K _ _ z) => // v1 v2 i1 i2 /(rlc_AC 0 Hz0 Hw0 Hc Hg Hb).
exact: (rlc_power Hw Hp).
Qed.

(** *** change of reference impedance *)
Lemma scat2_convert law z1 z2 (S1 S2 : 'M[C]_2) : z1 != 0 -> z2 != 0 -> is_scat2 law z1 S1 ->
  is_scat2 law z2 S2 <-> convert1 (const_mx z2) S1 (const_mx z1) "V" "V" = Ok S2.
Proof.
move=> H1 H2 HS1; rewrite (convert1_iff _ _ (erefl : typ_ok "V") (erefl : typ_ok "V") (admV H1) (admV H2)).
split=> [HS v i|HS v1 v2 i1 i2]; last by rewrite HS1 HS.
by rewrite (col2E v) (col2E i) -HS -HS1.
Qed.

(** *** exceptions *)
Lemma rlc_zero_div (o : rlc C) z w : w != 0 ->
  rlc_get1S o z w = Raise ZeroDivisionError <-> z = 0 \/ ~ ok_values o.
Proof.
move=> Hw; rewrite /rlc_get1S Hw /= /rlc_mx.
have Hd y : y = Fin 0 \/ y <> Fin 0 :> ext C.
  case: y => [y|]; last by right.
  by case: (y =P 0) => [->|H]; [left|right; case].
have He x y : y = Fin 0 -> ediv x y = Raise ZeroDivisionError :> res C by move=> ->; rewrite /= eqxx.
have Hni (A : 'M[C]_2) B : (do Ai <- np_inv A; Ok (Ai *m B)) = Raise ZeroDivisionError -> False.
  by rewrite /np_inv; case: ifP.
case: (Hd (Cs o)) => [E1|E1]; first by rewrite He //=; split=> // _; right; case.
have [c ->] := ediv_ok (1 / ('i * w)) E1; rewrite /= /pdiv /=.
case: (z =P 0) => [->|Hz] /=; first by split=> // _; left.
case: (Hd (Rp o)) => [E2|E2]; first by rewrite He //=; split=> // _; right; case.
have [g ->] := ediv_ok 1 E2; rewrite /=.
case: (Hd (Lp o)) => [E3|E3]; first by rewrite He //=; split=> // _; right; case.
have [b ->] := ediv_ok (1 / ('i * w)) E3; rewrite /=.
by split=> [/Hni //|[//|[]]].
Qed.

(** ** rfBase.getS *)
Lemma mapM_comp (A B D : Type) (f : A -> res B) (g : B -> res D) xs ys :
  (do s <- mapM f xs; mapM g s) = Ok ys <-> mapM (fun x => do y <- f x; g y) xs = Ok ys.
Proof.
elim: xs ys => [|x xs IH] ys //=.
case: (f x) => [y|e] //=.
case Es: (mapM f xs) IH => [s|e] /= IH; last first.
  by split=> //; case: (g y) => //= d; case E: (mapM _ xs) => [t|] //=; move/IH: E.
case: (g y) => //= d; case Et: (mapM g s) IH => [t|e] /= IH.
  by have /IH -> := erefl (Ok t).
by case E: (mapM _ xs) => [t|] //=; move/IH: E.
Qed.

Section BaseThm.
Variables (n : nat) (F : Type) (get1S : F -> res 'M[C]_n) (zb : C).

Lemma base_getS_iff f Zb S : base_getS get1S zb f Zb = Ok S <->
  exists2 S0, get1S f = Ok S0 &
   let z := if Zb is Some z then z else zb in
   if z != zb then convert1 (const_mx z) S0 (const_mx zb) "V" "V" = Ok S else S = S0.
Proof.
rewrite /base_getS /base_getSs /=; set z := (if Zb is Some z then z else zb).
case: (get1S f) => [S0|e] /=; last by split=> // -[].
case: ifP => Hz /=; last by split=> [[<-]|[S1 [->] ->]]; [exists S0|].
case E: (convert1 _ _ _ _ _) => [S1|e] /=; split.
- by move=> [<-]; exists S0.
- by case=> S2 [<-]; rewrite E.
- by [].
- by case=> S2 [<-]; rewrite E.
Qed.

(** a list of frequencies is handled one by one *)
Lemma base_getSs_iff fs Zb Ss : base_getSs get1S zb fs Zb = Ok Ss <->
  mapM (fun f => base_getS get1S zb f Zb) fs = Ok Ss.
Proof.
set z := (if Zb is Some z then z else zb).
pose g (S0 : 'M[C]_n) := if z != zb then convert1 (const_mx z) S0 (const_mx zb) "V" "V" else Ok S0.
have -> : base_getSs get1S zb fs Zb = (do s <- mapM get1S fs; mapM g s).
  rewrite /base_getSs /g -/z; case: (mapM get1S fs) => //= s; case: ifP => // _.
  by rewrite mapM_map_Ok map_id.
rewrite mapM_comp.
have HG f S : (do s <- get1S f; g s) = Ok S <-> base_getS get1S zb f Zb = Ok S.
  rewrite base_getS_iff -/z /g /=; split.
    case: (get1S f) => [S0|] //= H; exists S0 => //; move: H; case: ifP => // _ [] //.
  by case=> S0 -> /=; case: ifP => _ // ->.
rewrite !mapM_Ok; split=> -[H1 H2]; split=> // k x0 y0 Hk; apply/HG; exact: H2.
Qed.
End BaseThm.

(** ** rfCoupler *)
Lemma mx4E (A B : C) i j : mx4 A B i j = nth 0 (nth [::] 
   [:: [:: 0; A; B; 0]; [:: A; 0; 0; B]; [:: B; 0; 0; A]; [:: 0; B; A; 0]] i) j.
Proof. by rewrite mxE. Qed.

Lemma ord4P (P : 'I_4 -> Prop) : P (inord 0) -> P (inord 1) -> P (inord 2) -> P (inord 3) -> forall k, P k.
Proof.
move=> H0 H1 H2 H3 k; rewrite -(inord_val k).
by case: k => -[|[|[|[|k]]]].
Qed.

Lemma mx4_sym (A B : C) : symmetric (mx4 A B).
Proof.
apply/matrixP; apply: ord4P; apply: ord4P; by rewrite !mxE !inordK.
Qed.

Lemma sum4 (f : 'I_4 -> C) : \sum_j f j = f (inord 0) + f (inord 1) + f (inord 2) + f (inord 3).
Proof.
rewrite !big_ord_recr big_ord0 /= add0r; congr (_ + _ + _ + _); congr f; apply: val_inj;
  by rewrite /= inordK.
Qed.

Lemma mx4_unitary (A B : C) : A * A^* + B * B^* = 1 -> A * B^* + B * A^* = 0 -> unitary (mx4 A B).
Proof.
move=> H1 H2; have H3 : A^* * A + B^* * B = 1 by rewrite -H1; ring.
have H4 : A^* * B + B^* * A = 0 by rewrite -H2; ring.
have H5 : B^* * A + A^* * B = 0 by rewrite -H2; ring.
have H6 : B^* * B + A^* * A = 1 by rewrite -H1; ring.
apply/matrixP; apply: ord4P; apply: ord4P; rewrite mxE sum4 !mxE !inordK //= -?val_eqE /= ?inordK //=
  ?rmorph0 ?mul0r ?mulr0 ?addr0 ?add0r //.
Qed.

Section Coupler.
Variables (M : mathlib C) (c0 : C).
(** the electrical angle of the coupler at frequency f *)
Definition angle (o : coupler C) (f : C) : C :=
  2%:R * m_pi M * f / c0 * (if cp_Lc o is Some L then L else c0 / (4%:R * f)).
(** cos and sin of an angle behave as for a real angle *)
Definition trig_at (x : C) : Prop :=
  [/\ m_cos M x \is Num.real, m_sin M x \is Num.real & m_cos M x ^+ 2 + m_sin M x ^+ 2 = 1].

Lemma coupler_get1S_Ok o f S : coupler_get1S M c0 o f = Ok S ->
  let x := angle o f in let s1k2 := np_sqrt (1 - cp_kc o ^+ 2) in
  let N := s1k2 * m_cos M x + 'i * m_sin M x in
  N != 0 /\ S = mx4 (s1k2 / N) ('i * cp_kc o * m_sin M x / N).
Proof.
rewrite /coupler_get1S /angle; case: (cp_Lc o) => [L|] /=.
  by rewrite /pdiv /=; case: ifP => //= /negbT HN [<-].
by rewrite /pdiv /=; case: ifP => //= _; case: ifP => //= /negbT HN [<-].
Qed.

Lemma coupler_lossless o f S : cp_kc o \is Num.real -> cp_kc o ^+ 2 <= 1 -> trig_at (angle o f) ->
  coupler_get1S M c0 o f = Ok S -> symmetric S /\ unitary S.
Proof.
move=> Hk Hk1 [Hc Hs Hcs] /coupler_get1S_Ok /=.
set x := angle o f in Hc Hs Hcs *; set c := m_cos M x in Hc Hcs *; set s := m_sin M x in Hs Hcs *.
set k := cp_kc o in Hk Hk1 *; set r := np_sqrt _; set N := _ + _; case=> HN ->.
split; first exact: mx4_sym.
have Hr : r \is Num.real.
  have : 0 <= 1 - k ^+ 2 by rewrite subr_ge0.
  rewrite le_eqVlt => /orP [/eqP E|H]; last by apply/gtr0_real/np_sqrt_gt0.
  have -> : r = 0; last exact: rpred0.
  by apply/eqP; rewrite np_sqrt_eq0 -E.
have Hr2 : r ^+ 2 = 1 - k ^+ 2 by exact: np_sqrtK.
have HNc : N^* = r * c - 'i * s.
  by rewrite rmorphD !rmorphM /= conjCi !conj_Creal // mulNr.
have HNN : N * N^* = r ^+ 2 * c ^+ 2 + s ^+ 2.
  rewrite HNc /N -[s ^+ 2]mul1r.
  have E : 'i ^+ 2 = -1 :> C by exact: sqrCi.
  transitivity (r ^+ 2 * c ^+ 2 - 'i ^+ 2 * s ^+ 2); first by ring.
  by rewrite E mulN1r opprK mul1r.
have HN0 : N^* != 0 by rewrite conjC_eq0.
have HB : ('i * k * s / N)^* = - 'i * k * s / N^*.
  by rewrite !rmorphM /= fmorphV conjCi (conj_Creal Hk) (conj_Creal Hs).
have HA : (r / N)^* = r / N^* by rewrite rmorphM /= fmorphV (conj_Creal Hr).
have E : 'i ^+ 2 = -1 :> C by exact: sqrCi.
apply: mx4_unitary; rewrite HA HB.
  transitivity ((r ^+ 2 - 'i ^+ 2 * (k ^+ 2 * s ^+ 2)) / (N * N^*)); first by field; rewrite HN HN0.
  rewrite E mulN1r opprK HNN.
  have -> : r ^+ 2 + k ^+ 2 * s ^+ 2 = r ^+ 2 * c ^+ 2 + s ^+ 2.
    have -> : c ^+ 2 = 1 - s ^+ 2 by rewrite -Hcs addrK.
    by rewrite Hr2; ring.
  by rewrite divff // -HNN mulf_neq0.
by field; rewrite HN HN0.
Qed.

(** at 90 degrees *)
Lemma coupler_centre o f S : angle o f = m_pi M / 2%:R ->
  m_cos M (m_pi M / 2%:R) = 0 -> m_sin M (m_pi M / 2%:R) = 1 ->
  coupler_get1S M c0 o f = Ok S -> S = mx4 (- 'i * np_sqrt (1 - cp_kc o ^+ 2)) (cp_kc o).
Proof.
move=> Ha Hc Hs /coupler_get1S_Ok /=; rewrite Ha Hc Hs mulr0 add0r !mulr1 => -[_ ->].
by congr mx4; [rewrite invCi mulrC|rewrite mulrAC divff ?neq0Ci // mul1r].
Qed.

Lemma angle_f0 k zb f : c0 != 0 -> f != 0 -> angle (Coupler k (Some (c0 / (4%:R * f))) zb) f = m_pi M / 2%:R.
Proof. by move=> H1 H2; rewrite /angle /=; field; rewrite ?H1 ?H2 ?pnatr_eq0. Qed.
Lemma angle_Lc k zb L : c0 != 0 -> L != 0 -> angle (Coupler k (Some L) zb) (c0 / (4%:R * L)) = m_pi M / 2%:R.
Proof. by move=> H1 H2; rewrite /angle /=; field; rewrite ?H1 ?H2 ?pnatr_eq0. Qed.
Lemma angle_any k zb f : c0 != 0 -> f != 0 -> angle (Coupler k None zb) f = m_pi M / 2%:R.
Proof. by move=> H1 H2; rewrite /angle /=; field; rewrite ?H1 ?H2 ?pnatr_eq0. Qed.

(** the coupler answers, except for full coupling at sin = 0 *)
Lemma coupler_total o f : cp_kc o \is Num.real -> cp_kc o ^+ 2 < 1 -> trig_at (angle o f) ->
  (cp_Lc o = None -> f != 0) -> exists S, coupler_get1S M c0 o f = Ok S.
Proof.
move=> Hk Hk1 [Hc Hs Hcs] Hf.
have H : np_sqrt (1 - cp_kc o ^+ 2) * m_cos M (angle o f) + 'i * m_sin M (angle o f) != 0.
  set r := np_sqrt _; have Hr : 0 < r by apply: np_sqrt_gt0; rewrite subr_gt0.
  have Hrc : r * m_cos M (angle o f) \is Num.real by rewrite rpredM // gtr0_real.
  apply/eqP => E; have := congr1 (fun y => 'Re y) E; have := congr1 (fun y => 'Im y) E.
  rewrite /= Re_rect // Im_rect // !raddf0 => E1 /eqP; rewrite mulf_eq0 gt_eqF //= => /eqP E2.
  by move/eqP: Hcs; rewrite E1 E2 expr0n addr0 eq_sym oner_eq0.
move: H; rewrite /coupler_get1S /angle; case: (cp_Lc o) Hf => [L|] Hf /= HN.
  by rewrite /pdiv /= (negbTE HN) /=; eexists.
rewrite /pdiv /= mulf_eq0 pnatr_eq0 /= (negbTE (Hf erefl)) /= (negbTE HN) /=; by eexists.
Qed.
End Coupler.

(** ** rfArcObj *)

Lemma waveV (z r v i : C) : wave_b "V" z v i = r * wave_a "V" z v i <-> v - z * i = r * (v + z * i).
Proof.
rewrite /wave_a /wave_b /= mulrA; split=> [|->//].
by apply: (mulIf (_ : 2%:R^-1 != 0)); rewrite invr_eq0 two_neq0.
Qed.

Lemma arc_reflects (L zb w r : C) : zb != 0 -> arc_get1S L zb w = Ok r ->
  reflects (fun v i => v = 'i * w * L * i) zb r.
Proof.
rewrite /arc_get1S /pdiv /= => Hz; case: ifP => // /negbT Hn [<-] v i.
by rewrite waveV load_iff.
Qed.

Lemma arc_norm (L zb w r : C) : zb \is Num.real -> w * L \is Num.real -> arc_get1S L zb w = Ok r -> `|r| = 1.
Proof.
rewrite /arc_get1S /pdiv /= -mulrA; move: (w * L) => x Hz Hw; case: ifP => // /negbT Hn [<-].
have E : `|'i * x - zb| = `|'i * x + zb|.
  apply/eqP; rewrite -(eqr_expn2 (n := 2)) // !normCK.
  rewrite !rmorphD !rmorphM rmorphN /= conjCi !(conj_Creal Hz) (conj_Creal Hw).
  by apply/eqP; ring.
by rewrite normf_div E divff // normr_eq0.
Qed.

Lemma arc_total (L zb w : C) : 0 < zb -> w * L \is Num.real -> exists r, arc_get1S L zb w = Ok r.
Proof.
move=> Hz Hw; rewrite /arc_get1S /pdiv /= -mulrA.
case: eqP => [E|_]; last by eexists.
have := congr1 (fun y => 'Re y) E; rewrite /= addrC (Re_rect (gtr0_real Hz) Hw) raddf0 => E1.
by rewrite E1 ltxx in Hz.
Qed.

Lemma conv11 (z1 z2 r : C) (Q : 'M[C]_1) law : z1 != 0 -> z2 != 0 -> reflects law z1 r ->
  convert1 (const_mx z2) (r%:M : 'M_1) (const_mx z1) "V" "V" = Ok Q -> reflects law z2 (Q 0 0).
Proof.
move=> H1 H2 Hl; rewrite (convert1_iff _ _ (erefl : typ_ok "V") (erefl : typ_ok "V") (admV H1) (admV H2)).
move=> H v i; rewrite Hl.
have := H (const_mx v) (const_mx i); rewrite /relates.
have HS (T : 'M[C]_1) z : (forall k : 'I_1, wave_b "V" ((const_mx z : 'rV[C]_1) 0 k) ((const_mx v : 'cV[C]_1) k 0) ((const_mx i : 'cV[C]_1) k 0) =
   \sum_j T k j * wave_a "V" ((const_mx z : 'rV[C]_1) 0 j) ((const_mx v : 'cV[C]_1) j 0) ((const_mx i : 'cV[C]_1) j 0)) <->
   wave_b "V" z v i = T 0 0 * wave_a "V" z v i.
  split=> [/(_ 0)|E k]; first by rewrite big_ord1 !mxE.
  by rewrite big_ord1 !mxE (ord1 k) E.
by rewrite !HS mxE eqxx mulr1n => ->.
Qed.

Lemma arc_getS_reflects (L zb w : C) Zb r : let z := if Zb is Some z then z else zb in
  zb != 0 -> z != 0 -> arc_getS L zb w Zb = Ok r -> reflects (fun v i => v = 'i * w * L * i) z r.
Proof.
move=> z Hzb Hz; rewrite /arc_getS /arc_getSs -/z /=.
case E: (arc_get1S L zb w) => [r0|] //=; have Hr := arc_reflects Hzb E.
case: ifP => Hne /=; last by move=> [<-]; move/negbFE/eqP: Hne => ->.
rewrite /ConvertGeneral /=.
case Ec: (@convert1 C 1 _ _ _ _ _) => [Q|] //= [<-].
exact: conv11 Hr Ec.
Qed.

Lemma arc_list_own (L zb : C) ws Zb : (if Zb is Some z then z else zb) = zb ->
  arc_getSs L zb ws Zb = rmap (@Nd1 C) (mapM (arc_get1S L zb) ws).
Proof. by rewrite /arc_getSs => ->; rewrite eqxx; case: (mapM _ _). Qed.

Lemma arc_list_other (L zb : C) ws z r : z != zb -> arc_getSs L zb ws (Some z) = Ok r -> exists x, r = Nd1 [:: x].
Proof.
move=> Hz; rewrite /arc_getSs Hz; case: (mapM _ ws) => //= rs; exact: ConvertGeneral_list_length.
Qed.

(** ** maxV *)
Lemma np_max_ltP (xs : seq C) m : all (fun x => x \is Num.real) xs ->
  np_max (fun x y : C => x < y) xs = Ok m -> m \in xs /\ {in xs, forall x, x <= m}.
Proof.
case: xs => [|x xs] //= /andP [Hx Hxs] [<-].
elim: xs x Hx Hxs => [|y xs IH] x Hx /=; first by move=> _; split; [rewrite mem_head|move=> z; rewrite inE => /eqP ->].
case/andP=> Hy Hxs; set x' := (if x < y then y else x).
have Hx' : x' \is Num.real by rewrite /x'; case: ifP.
have [H1 H2] := IH x' Hx' Hxs.
have Hm : x' <= foldl (fun m y0 => if m < y0 then y0 else m) x' xs by apply: H2; rewrite mem_head.
have [L1 L2] : x <= x' /\ y <= x'.
  rewrite /x'; case: ifP => Hlt; first by rewrite (ltW Hlt).
  by split=> //; rewrite real_leNgt // Hlt.
split.
  move: H1; rewrite !inE => /orP [/eqP E|->]; last by rewrite !orbT.
  rewrite E; have : (x' == x) || (x' == y) by rewrite /x'; case: (x < y); rewrite eqxx ?orbT.
  by case/orP=> ->; rewrite ?orbT.
move=> z; rewrite !inE => /or3P [/eqP ->|/eqP ->|Hz]; try exact: le_trans Hm.
by apply: H2; rewrite inE Hz orbT.
Qed.

Section MaxV.
Variable ports : seq string.
Local Notation n := (size ports).

Lemma vports_v (z : C) (Sm : 'M[C]_n) (A : seq C) (v i : 'cV[C]_n) : relates "V" (const_mx z) Sm v i ->
  (forall k, wave_a "V" z (v k 0) (i k 0) = A`_k) -> vports Sm A = [seq v k 0 | k <- enum 'I_n].
Proof.
move=> Hr Ha; apply: eq_map => k; have := Hr k; rewrite !mxE.
have -> : \sum_j Sm k j * wave_a "V" ((const_mx z : 'rV[C]_n) 0 j) (v j 0) (i j 0) =
          \sum_j Sm k j * (\col_k0 A`_k0 : 'cV[C]_n) j 0.
  by apply: eq_bigr => j _; rewrite !mxE Ha.
by move=> <-; rewrite -Ha /wave_a /wave_b /=; field; rewrite ?two_neq0.
Qed.

Lemma max_where_abs (u : 'I_n -> C) m w V : max_where ports (fun x y : C => x < y) [seq `|u k| | k <- enum 'I_n] = Ok (m, w, V) ->
  [/\ V = [seq `|u k| | k <- enum 'I_n], forall k, `|u k| <= m &
      exists k : 'I_n, [/\ w = nth ""%string ports k, `|u k| = m & forall j : 'I_n, (j < k)%N -> `|u j| < m]].
Proof.
rewrite /max_where; set xs := map _ _.
case E: (np_max _ xs) => [m'|] //= [<- <- <-].
have Hre : all (fun x => x \is Num.real) xs.
  by apply/allP => x /mapP [k _ ->]; rewrite normr_real.
have [H1 H2] := np_max_ltP Hre E.
have Hle k : `|u k| <= m' by apply: H2; apply/mapP; exists k => //; rewrite mem_enum.
have Hsz : size xs = n by rewrite size_map size_enum_ord.
have Hi : (seq.index m' xs < n)%N by rewrite -[X in (_ < X)%N]Hsz index_mem.
split=> //; exists (Ordinal Hi); split=> //.
  have := nth_index 0 H1; rewrite (nth_map (Ordinal Hi)) ?size_enum_ord // => E1.
  by rewrite -[RHS]E1; congr (`|u _|); apply: val_inj; rewrite /= nth_enum_ord.
move=> j Hj; rewrite lt_neqAle Hle andbT.
have := before_find 0 Hj; rewrite (nth_map j) ?size_enum_ord // nth_ord_enum /= => ->.
by [].
Qed.

(** v, i: the port voltages and currents for incident waves A *)
Definition excited (z : C) (Sm : 'M[C]_n) (A : string -> C) (v i : 'cV[C]_n) : Prop :=
  relates "V" (const_mx z) Sm v i /\ forall k : 'I_n, wave_a "V" z (v k 0) (i k 0) = A (nth ""%string ports k).

Lemma excited_ex z Sm A : z != 0 -> exists v i, excited z Sm A v i.
Proof.
move=> Hz; have [v [i [Hr Ha _]]] := @relates_ex C n "V" (const_mx z) Sm (\col_k A (nth ""%string ports k)) erefl (admV Hz).
exists v, i; split=> // k; have := congr1 (fun y : 'cV[C]_n => y k 0) Ha.
by rewrite !mxE.
Qed.

Lemma base_maxV_ok getS (zb : C) E Zb m w V Sm v i :
  let z := if truthy Zb is Some z then z else zb in
  getS z = Ok Sm -> excited z Sm (fun p => odflt 0 (dget E p)) v i ->
  base_maxV getS zb E Zb = Ok (m, w, V) ->
  [/\ V = zip ports [seq `|v k 0| | k <- enum 'I_n], forall k, `|v k 0| <= m &
      exists k : 'I_n, [/\ w = nth ""%string ports k, `|v k 0| = m & forall j : 'I_n, (j < k)%N -> `|v j 0| < m]].
Proof.
move=> z HS [Hr Ha]; rewrite /base_maxV -/z; case: ifP => // _; rewrite HS /=.
rewrite (vports_v Hr) => [|k]; last by rewrite Ha (nth_map ""%string).
rewrite -map_comp.
case Em: (max_where _ _ _) => [[[m' w'] V']|] //= [<- <- <-].
by have [-> H1 H2] := max_where_abs Em.
Qed.

Lemma obj_maxV_ok getS (zb : C) E Zb m w V Sm v i :
  let z := if Zb is Some z then z else zb in
  getS z = Ok Sm -> excited z Sm (fun p => odflt 0 (dget E p)) v i ->
  obj_maxV true getS zb E Zb = Ok (m, w, V) ->
  [/\ V = [seq `|v k 0| | k <- enum 'I_n], forall k, `|v k 0| <= m &
      exists k : 'I_n, [/\ w = nth ""%string ports k, `|v k 0| = m & forall j : 'I_n, (j < k)%N -> `|v j 0| < m]].
Proof.
move=> z HS [Hr Ha]; rewrite /obj_maxV -/z; case EA: (mapM _ _) => [A|] //=; rewrite HS /=.
rewrite (vports_v Hr) => [|k]; last first.
  move/mapM_Ok: EA => [Hsz /(_ k ""%string 0 (ltn_ord k))]; rewrite Ha.
  by case: (dget E _) => // x [->].
by rewrite -map_comp => /max_where_abs.
Qed.
End MaxV.
End DevThm.

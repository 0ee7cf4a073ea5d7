(** Lemmas in the form used by PropsConv.v, concrete instances and counterexamples. *)
From mathcomp Require Import all_ssreflect all_algebra.
From mathcomp.algebra_tactics Require Import ring.
From Coq Require Import String.
From Verif Require Import Base MxLib ConvModel ConvSpec ConvProofs ConvArr Imports.
Set Implicit Arguments.
Unset Strict Implicit.
Unset Printing Implicit Defensive.
Import Order.TTheory GRing.Theory Num.Theory.
Local Open Scope ring_scope.

Section Api.
Variable C : numClosedFieldType.

Lemma c01_S_from_Z n (Zb : C) (Z : 'M[C]_n) (r : nd C) : Zb != 0 ->
  S_from_Z (Nd2 Z) Zb = Ok r <-> exists S : 'M[C]_n, r = Nd2 S /\ isS Zb Z S.
Proof.
move=> Hz; rewrite /S_from_Z lift3_matrix rmap_Nd2.
by split=> -[S [-> HS]]; exists S; split=> //; apply/(s_from_z1_iff _ _ Hz).
Qed.

Lemma rmap_Nd2_raise n (x : res 'M[C]_n) e :
  rmap (fun B : 'M_n => Nd2 B) x = Raise e <-> x = Raise e.
Proof. by case: x => //= e'; split=> -[->]. Qed.

Lemma c01_S_from_Z_fails n (Zb : C) (Z : 'M[C]_n) : Zb != 0 ->
  S_from_Z (Nd2 Z) Zb = Raise LinAlgError <-> ~ exists S : 'M[C]_n, isS Zb Z S.
Proof. by move=> Hz; rewrite /S_from_Z lift3_matrix rmap_Nd2_raise s_from_z1_raise. Qed.

Lemma c01_S_unique n (Zb : C) (Z S S' : 'M[C]_n) : Zb != 0 ->
  isS Zb Z S -> isS Zb Z S' -> S = S'.
Proof. by move=> Hz /(s_from_z1_iff _ _ Hz) E /(s_from_z1_iff _ _ Hz); rewrite E => -[]. Qed.

Lemma c01_Z_from_S n (Zb : C) (S : 'M[C]_n) (r : nd C) : Zb != 0 ->
  Z_from_S (Nd2 S) Zb = Ok r <-> exists Z : 'M[C]_n, r = Nd2 Z /\ isZ Zb S Z.
Proof.
move=> Hz; rewrite /Z_from_S lift3_matrix rmap_Nd2.
by split=> -[Z [-> HS]]; exists Z; split=> //; apply/(z_from_s1_iff _ _ Hz).
Qed.

Lemma c01_Z_from_S_fails n (Zb : C) (S : 'M[C]_n) : Zb != 0 ->
  Z_from_S (Nd2 S) Zb = Raise LinAlgError <-> ~ exists Z : 'M[C]_n, isZ Zb S Z.
Proof. by move=> Hz; rewrite /Z_from_S lift3_matrix rmap_Nd2_raise z_from_s1_raise. Qed.

Lemma c01_Y_from_S n (Zb : C) (S : 'M[C]_n) (r : nd C) : Zb != 0 ->
  Y_from_S (Nd2 S) Zb = Ok r <-> exists Y : 'M[C]_n, r = Nd2 Y /\ isY Zb S Y.
Proof.
move=> Hz; rewrite /Y_from_S lift3_matrix rmap_Nd2.
by split=> -[Z [-> HS]]; exists Z; split=> //; apply/(y_from_s1_iff _ _ Hz).
Qed.

Lemma c01_Y_from_S_fails n (Zb : C) (S : 'M[C]_n) : Zb != 0 ->
  Y_from_S (Nd2 S) Zb = Raise LinAlgError <-> ~ exists Y : 'M[C]_n, isY Zb S Y.
Proof. by move=> Hz; rewrite /Y_from_S lift3_matrix rmap_Nd2_raise y_from_s1_raise. Qed.

Lemma c01_round_trip n (Zb : C) (Z S : 'M[C]_n) : Zb != 0 ->
  S_from_Z (Nd2 Z) Zb = Ok (Nd2 S) <-> Z_from_S (Nd2 S) Zb = Ok (Nd2 Z).
Proof.
move=> Hz; rewrite /S_from_Z /Z_from_S !lift3_matrix !rmap_Nd2_Ok.
exact: z_s_roundtrip.
Qed.

Lemma c01_Z_Y_inverse n (Zb : C) (S Z Y : 'M[C]_n) : Zb != 0 ->
  Z_from_S (Nd2 S) Zb = Ok (Nd2 Z) -> Y_from_S (Nd2 S) Zb = Ok (Nd2 Y) ->
  Z *m Y = 1%:M /\ Y *m Z = 1%:M.
Proof.
move=> Hz; rewrite /Z_from_S /Y_from_S !lift3_matrix !rmap_Nd2_Ok.
exact: z_y_inverse.
Qed.

Lemma c02_same_multiport n (S1 : 'M[C]_n) (z1 z2 : 'rV[C]_n) t1 t2 r :
  typ_ok t1 -> typ_ok t2 -> adm t1 z1 -> adm t2 z2 ->
  ConvertGeneral (Nd1 [seq z2 0 j | j <- enum 'I_n]) (Nd2 S1)
                 (Nd1 [seq z1 0 j | j <- enum 'I_n]) t1 t2 = Ok r <->
  exists S2 : 'M[C]_n, r = Nd2 S2 /\
    forall v i, relates t1 z1 S1 v i <-> relates t2 z2 S2 v i.
Proof.
move=> Ht1 Ht2 Ha1 Ha2; rewrite ConvertGeneral_matrix_vec // rmap_Nd2.
by split=> -[S [-> HS]]; exists S; split=> //; apply/(convert1_iff _ _ Ht1 Ht2 Ha1 Ha2).
Qed.

Lemma adm_const n t (z : C) : admissible t z -> adm t (const_mx z : 'rV[C]_n).
Proof. by move=> H k; rewrite mxE. Qed.

Lemma c02_same_multiport_scalar n (S1 : 'M[C]_n) (z1 z2 : C) t1 t2 r :
  typ_ok t1 -> typ_ok t2 -> admissible t1 z1 -> admissible t2 z2 ->
  ConvertGeneral (Nd0 z2) (Nd2 S1) (Nd0 z1) t1 t2 = Ok r <->
  exists S2 : 'M[C]_n, r = Nd2 S2 /\
    forall v i, relates t1 (const_mx z1) S1 v i <-> relates t2 (const_mx z2) S2 v i.
Proof.
move=> Ht1 Ht2 /(@adm_const n) Ha1 /(@adm_const n) Ha2.
rewrite ConvertGeneral_matrix // rmap_Nd2.
by split=> -[S [-> HS]]; exists S; split=> //; apply/(convert1_iff _ _ Ht1 Ht2 Ha1 Ha2).
Qed.

Lemma c02_fails n (S1 : 'M[C]_n) (z1 z2 : 'rV[C]_n) t1 t2 e :
  typ_ok t1 -> typ_ok t2 -> adm t1 z1 -> adm t2 z2 ->
  ConvertGeneral (Nd1 [seq z2 0 j | j <- enum 'I_n]) (Nd2 S1)
                 (Nd1 [seq z1 0 j | j <- enum 'I_n]) t1 t2 = Raise e <->
  e = LinAlgError /\
  ~ exists S2 : 'M[C]_n, forall v i, relates t1 z1 S1 v i <-> relates t2 z2 S2 v i.
Proof.
move=> Ht1 Ht2 Ha1 Ha2; rewrite ConvertGeneral_matrix_vec // rmap_Nd2_raise.
exact: convert1_raise.
Qed.

Lemma c02_unique n (S1 S2 S2' : 'M[C]_n) (z1 z2 : 'rV[C]_n) t1 t2 :
  typ_ok t1 -> typ_ok t2 -> adm t1 z1 -> adm t2 z2 ->
  (forall v i, relates t1 z1 S1 v i -> relates t2 z2 S2 v i) ->
  (forall v i, relates t1 z1 S1 v i -> relates t2 z2 S2' v i) -> S2 = S2'.
Proof.
move=> Ht1 Ht2 Ha1 Ha2 /(convert1_fwd_iff _ _ Ht1 Ht2 Ha1 Ha2) E.
by move/(convert1_fwd_iff _ _ Ht1 Ht2 Ha1 Ha2); rewrite E => -[].
Qed.

Lemma c02_stack n (s : seq 'M[C]_n) (z1 z2 : 'M[C]_(size s, n)) t1 t2 R :
  typ_ok t1 -> typ_ok t2 -> (0 < size s)%N ->
  (forall k, adm t1 (row k z1)) -> (forall k, adm t2 (row k z2)) ->
  ConvertGeneral (Nd2 z2) (Nd3 s) (Nd2 z1) t1 t2 = Ok R <->
  exists r : seq 'M[C]_n, [/\ R = Nd3 r, size r = size s &
    forall (k : 'I_(size s)) v i,
      relates t1 (row k z1) (nth 0 s k) v i <-> relates t2 (row k z2) (nth 0 r k) v i].
Proof.
move=> Ht1 Ht2 Hs Ha1 Ha2; rewrite ConvertGeneral_stack //.
split=> -[r [-> Hr Hk]]; exists r; split=> // k.
  exact: (iffLR (convert1_iff _ _ Ht1 Ht2 (Ha1 k) (Ha2 k)) (Hk k)).
exact: (iffRL (convert1_iff _ _ Ht1 Ht2 (Ha1 k) (Ha2 k)) (Hk k)).
Qed.

Lemma c03_identity n (S : 'M[C]_n) (z : C) t : typ_ok t -> admissible t z ->
  ConvertGeneral (Nd0 z) (Nd2 S) (Nd0 z) t t = Ok (Nd2 S).
Proof.
move=> Ht /(@adm_const n) Ha; rewrite ConvertGeneral_matrix // rmap_Nd2_Ok.
exact: convert1_id.
Qed.

Lemma c03_round_trip n (S1 S2 : 'M[C]_n) (z1 z2 : 'rV[C]_n) t1 t2 :
  typ_ok t1 -> typ_ok t2 -> adm t1 z1 -> adm t2 z2 ->
  let Z1 := Nd1 [seq z1 0 j | j <- enum 'I_n] in
  let Z2 := Nd1 [seq z2 0 j | j <- enum 'I_n] in
  ConvertGeneral Z2 (Nd2 S1) Z1 t1 t2 = Ok (Nd2 S2) <->
  ConvertGeneral Z1 (Nd2 S2) Z2 t2 t1 = Ok (Nd2 S1).
Proof.
by move=> Ht1 Ht2 Ha1 Ha2 /=; rewrite !ConvertGeneral_matrix_vec // !rmap_Nd2_Ok; apply: convert1_back.
Qed.

Lemma c03_composition n (S1 S2 : 'M[C]_n) (z1 z2 z3 : 'rV[C]_n) t1 t2 t3 :
  typ_ok t1 -> typ_ok t2 -> typ_ok t3 -> adm t1 z1 -> adm t2 z2 -> adm t3 z3 ->
  let Z1 := Nd1 [seq z1 0 j | j <- enum 'I_n] in
  let Z2 := Nd1 [seq z2 0 j | j <- enum 'I_n] in
  let Z3 := Nd1 [seq z3 0 j | j <- enum 'I_n] in
  ConvertGeneral Z2 (Nd2 S1) Z1 t1 t2 = Ok (Nd2 S2) ->
  ConvertGeneral Z3 (Nd2 S2) Z2 t2 t3 = ConvertGeneral Z3 (Nd2 S1) Z1 t1 t3.
Proof.
move=> Ht1 Ht2 Ht3 Ha1 Ha2 Ha3 /=; rewrite !ConvertGeneral_matrix_vec // !rmap_Nd2_Ok => H.
by congr rmap; apply: (convert1_comp Ht1 Ht2 Ht3 Ha1 Ha2 Ha3 H).
Qed.

Lemma c04_impedance_route n (S Z : 'M[C]_n) (z1 z2 : C) :
  z1 != 0 -> z2 != 0 -> Z_from_S (Nd2 S) z1 = Ok (Nd2 Z) ->
  ConvertGeneral (Nd0 z2) (Nd2 S) (Nd0 z1) "V" "V" = S_from_Z (Nd2 Z) z2.
Proof.
move=> H1 H2; rewrite /Z_from_S lift3_matrix rmap_Nd2_Ok => H.
by rewrite ConvertGeneral_matrix // /S_from_Z lift3_matrix (convert_via_Z H1 H2 H).
Qed.

Lemma c04_admittance_route n (S S2 Y : 'M[C]_n) (z1 z2 : C) :
  z1 != 0 -> z2 != 0 -> Y_from_S (Nd2 S) z1 = Ok (Nd2 Y) ->
  ConvertGeneral (Nd0 z2) (Nd2 S) (Nd0 z1) "V" "V" = Ok (Nd2 S2) ->
  Y_from_S (Nd2 S2) z2 = Ok (Nd2 Y).
Proof.
move=> H1 H2; rewrite /Y_from_S !lift3_matrix !rmap_Nd2_Ok => HY.
rewrite ConvertGeneral_matrix // rmap_Nd2_Ok => Hc.
have H := iffLR (@convert1_iff _ _ "V" "V" _ _ S S2 isT isT (admV H1) (admV H2)) Hc.
apply/(y_from_s1_iff _ _ H2) => a /=.
pose v := a + S2 *m a; pose i := z2^-1 *: (a - S2 *m a).
have Hr : relates "V" (const_mx z2) S2 v i.
  rewrite relatesV /v /i scalerA mulfV // scale1r sub_pm add_pm.
  by rewrite -!scaler_nat scalemxAr.
by have := iffLR (relates_Y v i H1 HY) (iffRL (H v i) Hr).
Qed.

Lemma c05_reciprocity n (S1 S2 : 'M[C]_n) (z1 z2 : 'rV[C]_n) t1 t2 :
  typ_ok t1 -> typ_ok t2 -> recip_ok t1 z1 -> recip_ok t2 z2 ->
  ConvertGeneral (Nd1 [seq z2 0 j | j <- enum 'I_n]) (Nd2 S1)
                 (Nd1 [seq z1 0 j | j <- enum 'I_n]) t1 t2 = Ok (Nd2 S2) ->
  symmetric S1 <-> symmetric S2.
Proof.
by move=> Ht1 Ht2 H1 H2; rewrite ConvertGeneral_matrix_vec // rmap_Nd2_Ok; apply: convert1_sym.
Qed.

Lemma c05_lossless n (S1 S2 : 'M[C]_n) (z1 z2 : 'rV[C]_n) t1 t2 :
  power_ok t1 z1 -> power_ok t2 z2 ->
  ConvertGeneral (Nd1 [seq z2 0 j | j <- enum 'I_n]) (Nd2 S1)
                 (Nd1 [seq z1 0 j | j <- enum 'I_n]) t1 t2 = Ok (Nd2 S2) ->
  unitary S1 <-> unitary S2.
Proof.
move=> H1 H2; have [Ht1 _] := power_adm H1; have [Ht2 _] := power_adm H2.
by rewrite ConvertGeneral_matrix_vec // rmap_Nd2_Ok; apply: convert1_unitary.
Qed.

Lemma c05_passive n (S1 S2 : 'M[C]_n) (z1 z2 : 'rV[C]_n) t1 t2 :
  power_ok t1 z1 -> power_ok t2 z2 ->
  ConvertGeneral (Nd1 [seq z2 0 j | j <- enum 'I_n]) (Nd2 S1)
                 (Nd1 [seq z1 0 j | j <- enum 'I_n]) t1 t2 = Ok (Nd2 S2) ->
  passive S1 <-> passive S2.
Proof.
move=> H1 H2; have [Ht1 _] := power_adm H1; have [Ht2 _] := power_adm H2.
by rewrite ConvertGeneral_matrix_vec // rmap_Nd2_Ok; apply: convert1_passive.
Qed.

Lemma c06_slices n (Z0 : 'M[C]_n) (Zs : seq 'M[C]_n) Zb r :
  S_from_Z (Nd3 (Z0 :: Zs)) Zb = Ok r <->
  exists Ss : seq 'M[C]_n, [/\ r = Nd3 Ss, size Ss = size (Z0 :: Zs) &
    forall k, (k < size (Z0 :: Zs))%N ->
      S_from_Z (Nd2 (nth 0 (Z0 :: Zs) k)) Zb = Ok (Nd2 (nth 0 Ss k))].
Proof.
rewrite /S_from_Z lift3_stack; split.
  case E: (mapM _ _) => [Ss|] //= [<-]; exists Ss.
  have [Hs Hk] := iffLR (mapM_Ok _ _ _) E; split=> // k Hlt.
  by rewrite lift3_matrix rmap_Nd2_Ok; apply: Hk.
case=> Ss [-> Hs Hk].
have -> : mapM (fun Z => s_from_z1 Zb Z) (Z0 :: Zs) = Ok Ss; last by [].
apply/mapM_Ok; split=> // k x0 y0 Hlt.
have := Hk k Hlt; rewrite lift3_matrix rmap_Nd2_Ok.
by rewrite (set_nth_default x0 0 Hlt) (set_nth_default y0 0) // Hs.
Qed.

Lemma inv_scal (x : C) : x != 0 -> np_inv (x%:M : 'M[C]_1) = Ok (x^-1)%:M.
Proof. by move=> H; rewrite /np_inv unitmxE det_scalar1 unitfE H invmx_scalar. Qed.

Lemma c06_list (z : C) zs Zb : {in z :: zs, forall x, x + Zb != 0} ->
  S_from_Z (Nd1 (z :: zs)) Zb = Ok (Nd1 [seq (x - Zb) / (x + Zb) | x <- z :: zs]).
Proof.
move=> H; rewrite /S_from_Z lift3_list.
have -> : mapM (fun x : C => s_from_z1 Zb (x%:M : 'M[C]_1)) (z :: zs) =
  Ok [seq ((x - Zb) / (x + Zb))%:M | x <- z :: zs].
  elim: (z :: zs) H => //= x s IH H.
  rewrite {1}/s_from_z1 -raddfD /= inv_scal ?H ?mem_head //= IH /=; last first.
    by move=> y Hy; apply: H; rewrite inE Hy orbT.
  by rewrite -raddfB -scalar_mxM.
by rewrite /rmap -map_comp; congr (Ok (Nd1 _)); apply: eq_map => x /=; rewrite !mxE.
Qed.

Lemma c06_list_shape (Z2 Z1 S2 : nd C) (s : seq C) t1 t2 :
  ConvertGeneral Z2 (Nd1 s) Z1 t1 t2 = Ok S2 -> nd_shape S2 = [:: 1%N].
Proof. by case/ConvertGeneral_list_length => x ->. Qed.

Lemma c07_bad_shape (a : nd C) Zb : ~~ good_shape (nd_shape a) ->
  [/\ S_from_Z a Zb = Raise TypeError, Z_from_S a Zb = Raise TypeError &
      Y_from_S a Zb = Raise TypeError].
Proof. by move=> H; split; apply: lift3_bad. Qed.

Lemma c07_ValueError_cases n (S1 : 'M[C]_n) (Z2 : nd C) (zs : seq C) z t1 t2 :
  (size zs != n -> ConvertGeneral Z2 (Nd2 S1) (Nd1 zs) t1 t2 = Raise ValueError) /\
  (~~ typ_ok t1 -> ConvertGeneral Z2 (Nd2 S1) (Nd0 z) t1 t2 = Raise ValueError) /\
  (typ_ok t1 -> ~~ typ_ok t2 -> ConvertGeneral (Nd0 z) (Nd2 S1) (Nd0 z) t1 t2 = Raise ValueError).
Proof.
rewrite /ConvertGeneral /= sq_id /= /coeffs /=; split; first by move/negbTE => ->.
by split=> [/negbTE ->|-> /negbTE ->].
Qed.

Lemma c08_S_from_VI (M : 'M[C]_2) Z0 (r : nd C) : Z0 != 0 ->
  S_from_VI (Nd2 M) Z0 = Ok r <-> exists S : 'M[C]_2, r = Nd2 S /\ isSVI M Z0 S.
Proof.
move=> Hz; have -> : S_from_VI (Nd2 M) Z0 = rmap (fun B : 'M_2 => Nd2 B) (s_from_vi1 M Z0).
  by rewrite /S_from_VI; case: (s_from_vi1 M Z0).
rewrite rmap_Nd2.
by split=> -[S [-> HS]]; exists S; split=> //; apply/(s_from_vi1_iff _ _ Hz).
Qed.

Lemma c08_fails (M : 'M[C]_2) Z0 : Z0 != 0 ->
  S_from_VI (Nd2 M) Z0 = Raise LinAlgError <-> ~ exists S : 'M[C]_2, isSVI M Z0 S.
Proof.
move=> Hz; have -> : S_from_VI (Nd2 M) Z0 = rmap (fun B : 'M_2 => Nd2 B) (s_from_vi1 M Z0).
  by rewrite /S_from_VI; case: (s_from_vi1 M Z0).
by rewrite rmap_Nd2_raise s_from_vi1_raise.
Qed.

Lemma c08_unique (M S S' : 'M[C]_2) Z0 : Z0 != 0 -> isSVI M Z0 S -> isSVI M Z0 S' -> S = S'.
Proof. by move=> Hz /(s_from_vi1_iff _ _ Hz) E /(s_from_vi1_iff _ _ Hz); rewrite E => -[]. Qed.

Lemma c08_bad_shape (a : nd C) Z0 : nd_shape a != [:: 2; 2]%N -> S_from_VI a Z0 = Raise ValueError.
Proof. by case: a => [c|s|[|[|[|m]]] [|[|[|n]]] A|m n s|d]. Qed.
End Api.

Lemma c09_bindings :
  [/\ bound "S_from_Y" "_check_3D_shape_" = Some (PMod "_check_3D_shape_"),
      bound "rfBase" "Z_from_S" = Some (PMod "Z_from_S"),
      bound "rfBase" "Y_from_S" = Some (PMod "Y_from_S")
    & bound "rfGTL" "rfArcObj" = Some (PMod "rfArcObj")].
Proof. by have [H1 H2 H3] := bad_bindings; split=> //; exact: S_from_Y_binding. Qed.

(** ** concrete instances, over every complex-like field K  *)
Section Examples.
Variable K : numClosedFieldType.
Lemma algn0 n : (n.+1%:R : K) != 0. Proof. by rewrite pnatr_eq0. Qed.

Lemma ex_S_from_Z : S_from_Z (Nd2 (100%:R%:M : 'M[K]_2)) 50%:R = Ok (Nd2 ((3%:R^-1)%:M : 'M[K]_2)).
Proof.
have H50 := algn0 49.
apply/(c01_S_from_Z _ _ H50); exists (3%:R^-1)%:M; split=> // i /=.
rewrite !mul_scalar_mx -scalerBl -scalerDl scalerA; congr (_ *: _).
by field; rewrite ?algn0.
Qed.

Lemma ex_Z_from_S : Z_from_S (Nd2 ((3%:R^-1)%:M : 'M[K]_2)) 50%:R = Ok (Nd2 (100%:R%:M : 'M[K]_2)).
Proof. by apply/c01_round_trip; [exact: algn0|exact: ex_S_from_Z]. Qed.

Lemma ex_aux (C : numClosedFieldType) (x s : C) : s != 0 ->
  (100%:R * x - 25%:R * x) / (2%:R * s) = 3%:R / 5%:R * ((100%:R * x + 25%:R * x) / (2%:R * s)).
Proof. by move=> Hs; field; rewrite Hs ?pnatr_eq0. Qed.

Lemma ex_aux2 (C : numClosedFieldType) (v x s : C) : s != 0 ->
  v - 100%:R * x = (5%:R * s) * ((v - 25%:R * x) / (2%:R * s) - 3%:R / 5%:R * ((v + 25%:R * x) / (2%:R * s))).
Proof. by move=> Hs; field; rewrite Hs ?pnatr_eq0. Qed.

Lemma ex_aux3 (C : numClosedFieldType) (x : C) :
  (100%:R * x - 50%:R * x) / 2%:R = 3%:R^-1 * ((100%:R * x + 50%:R * x) / 2%:R).
Proof. by field; rewrite ?pnatr_eq0. Qed.

Lemma ex_ConvertGeneral : exists S2 : 'M[K]_2,
  ConvertGeneral (Nd0 25%:R) (Nd2 ((3%:R^-1)%:M : 'M[K]_2)) (Nd0 50%:R) "V" "P" = Ok (Nd2 S2)
  /\ S2 != 0.
Proof.
have H50 := algn0 49; have H25 := algn0 24.
have Hs : np_sqrt (25%:R : K) != 0 by rewrite np_sqrt_eq0.
exists ((3%:R / 5%:R)%:M); split.
  apply/c02_same_multiport_scalar => //; exists ((3%:R / 5%:R)%:M); split=> // v i.
  have Er t (z s : K) : relates t (const_mx z) (s%:M : 'M[K]_2) v i <->
     forall k, wave_b t z (v k 0) (i k 0) = s * wave_a t z (v k 0) (i k 0).
    rewrite relatesE -cV_extP mul_scalar_mx.
    by split=> H k; have := H k; rewrite !mxE.
  rewrite !Er /wave_a /wave_b /=; split=> H k; have {}H := H k.
    have Hv : v k 0 = 100%:R * i k 0.
      move/eqP: H; rewrite -subr_eq0 => /eqP H.
      apply/eqP; rewrite -subr_eq0; apply/eqP.
      have -> : v k 0 - 100%:R * i k 0 = 3%:R * ((v k 0 - 50%:R * i k 0) / 2%:R - 3%:R^-1 * ((v k 0 + 50%:R * i k 0) / 2%:R)).
        by field; rewrite ?algn0.
      by rewrite H mulr0.
    by rewrite Hv; apply: ex_aux.
  have Hv : v k 0 = 100%:R * i k 0.
    move/eqP: H; rewrite -subr_eq0 => /eqP H.
    apply/eqP; rewrite -subr_eq0; apply/eqP.
    by rewrite (@ex_aux2 K _ _ _ Hs) H mulr0.
  rewrite Hv; exact: ex_aux3.
apply/eqP => /matrixP /(_ 0 0); rewrite !mxE eqxx mulr1n => /eqP.
by rewrite mulf_eq0 invr_eq0 !(negbTE (algn0 _)).
Qed.

Lemma ex_power_ok : power_ok "P" (\row_(j < 2) (j.+1)%:R : 'rV[K]_2) /\
  recip_ok "P" (\row_(j < 2) (j.+1)%:R : 'rV[K]_2).
Proof.
split; first by constructor 2; split=> // k; rewrite mxE ltr0Sn.
by split; [move=> k; rewrite /admissible /= mxE algn0|left].
Qed.

#[local] Arguments convert1 : simpl never.

Lemma c06_refuted :
  exists (S1 S2 : nd K), ConvertGeneral (Nd0 25%:R) S1 (Nd0 50%:R) "V" "V" = Ok S2
    /\ nd_shape S2 <> nd_shape S1.
Proof.
pose s := [:: (0 : K); 0].
have H : exists S2 : 'M[K]_1, convert1 (const_mx 25%:R) ((0 : K)%:M : 'M[K]_1) (const_mx 50%:R) "V" "V" = Ok S2.
  have Hz : Z_from_S (Nd2 ((0 : K)%:M : 'M[K]_1)) 50%:R = Ok (Nd2 (50%:R%:M : 'M[K]_1)).
    apply/c01_Z_from_S; first exact: algn0.
    exists 50%:R%:M; split=> // a /=; rewrite !mul_scalar_mx scale0r addr0 subr0.
    by rewrite scalerA mulfV ?algn0 // scale1r.
  have := c04_impedance_route (algn0 49) (algn0 24) Hz.
  rewrite ConvertGeneral_matrix // /S_from_Z lift3_matrix /s_from_z1 -raddfD /= inv_scal; last first.
    by rewrite -natrD algn0.
  rewrite /bind; case: (convert1 _ _ _ _ _) => [x|] //= _; by exists x.
have [S2 HS2] := H.
exists (Nd1 s), (Nd1 [:: e00 S2]); split=> //.
rewrite /ConvertGeneral /=.
by set c := convert1 _ _ _ _ _; have -> : c = Ok S2 by exact: HS2.
Qed.

Lemma c07_refuted : exists a : nd K, ~~ good_shape (nd_shape a) /\ S_from_Z a 50%:R <> Raise ValueError.
Proof.
exists (Nd2 (0 : 'M[K]_(2, 3))); split=> //.
by have [-> _ _] := c07_bad_shape (a := Nd2 (0 : 'M[K]_(2, 3))) 50%:R isT.
Qed.

Lemma ex_S_from_VI : S_from_VI (Nd2 (1%:M : 'M[K]_2)) 30%:R = Ok (Nd2 (\matrix_(i, j) (i != j)%:R : 'M[K]_2)).
Proof.
apply/c08_S_from_VI; first exact: algn0.
exists (\matrix_(i, j) (i != j)%:R); split=> // v1 i1 /=.
rewrite relatesV; apply/cV_extP; apply: ord2P; rewrite mulmx_cVE sum2 !mxE /=; ring.
Qed.

(** V waves on unequal impedances: the through connection seen on (1, 2) *)
Lemma c05_mixed_V : exists (S1 S2 : 'M[K]_2) (z1 z2 : 'rV[K]_2),
  [/\ adm "V" z1, adm "V" z2,
      ConvertGeneral (Nd1 [seq z2 0 j | j <- enum 'I_2]) (Nd2 S1)
                 (Nd1 [seq z1 0 j | j <- enum 'I_2]) "V" "V" = Ok (Nd2 S2),
      symmetric S1 & ~ symmetric S2].
Proof.
pose S1 : 'M[K]_2 := \matrix_(i, j) (i != j)%:R.
pose S2 : 'M[K]_2 := \matrix_(i, j)
  (if i == 0 then (if j == 0 then 1 / 3%:R else 2%:R / 3%:R) else (if j == 0 then 4%:R / 3%:R else - 1 / 3%:R)).
pose z1 : 'rV[K]_2 := const_mx 1.
pose z2 : 'rV[K]_2 := \row_(j < 2) (if j == 0 then 1 else 2%:R).
have Ha1 : adm "V" z1 by move=> k; rewrite /admissible /= mxE oner_neq0.
have Ha2 : adm "V" z2 by apply: ord2P; rewrite /admissible /= mxE /= ?oner_neq0 ?algn0.
exists S1, S2, z1, z2; split=> //.
- apply/c02_same_multiport => //; exists S2; split=> // v i.
  have Hthru : relates "V" z1 S1 v i <-> v 0 0 = v 1 0 /\ i 0 0 = - i 1 0.
    rewrite /relates /wave_a /wave_b /=; split=> [H|[Hv Hi]].
      have := H 0; have := H 1; rewrite !sum2 !mxE /= !mul0r !mul1r add0r addr0 => E1 E0.
      have Hp : v 0 0 = v 1 0.
        have -> : v 0 0 = (v 0 0 - i 0 0) / 2%:R + (v 0 0 + i 0 0) / 2%:R.
          by field.
        by rewrite E0 -E1; field.
      split=> //.
      have -> : i 0 0 = (v 0 0 + i 0 0) / 2%:R - (v 0 0 - i 0 0) / 2%:R by field.
      by rewrite E0 -E1; field.
    by apply: ord2P; rewrite sum2 !mxE /= Hv Hi; field.
  rewrite Hthru /relates /wave_a /wave_b /=; split=> [[Hv Hi]|H].
    by apply: ord2P; rewrite sum2 !mxE /= Hv Hi; field.
  have := H 0; have := H 1; rewrite !sum2 !mxE /= => E1 E0.
  have F1 : (v 1 0 - 2%:R * i 1 0) / 2%:R - (4%:R / 3%:R * ((v 0 0 + 1 * i 0 0) / 2%:R) + - 1 / 3%:R * ((v 1 0 + 2%:R * i 1 0) / 2%:R)) = 0.
    by rewrite E1 subrr.
  have F0 : (v 0 0 - 1 * i 0 0) / 2%:R - (1 / 3%:R * ((v 0 0 + 1 * i 0 0) / 2%:R) + 2%:R / 3%:R * ((v 1 0 + 2%:R * i 1 0) / 2%:R)) = 0.
    by rewrite E0 subrr.
  split.
    apply/eqP; rewrite -subr_eq0; apply/eqP.
    have -> : v 0 0 - v 1 0 = 1 * ((v 0 0 - 1 * i 0 0) / 2%:R - (1 / 3%:R * ((v 0 0 + 1 * i 0 0) / 2%:R) + 2%:R / 3%:R * ((v 1 0 + 2%:R * i 1 0) / 2%:R)))
      - ((v 1 0 - 2%:R * i 1 0) / 2%:R - (4%:R / 3%:R * ((v 0 0 + 1 * i 0 0) / 2%:R) + - 1 / 3%:R * ((v 1 0 + 2%:R * i 1 0) / 2%:R))).
      by field.
    by rewrite F0 F1 mulr0 subr0.
  apply/eqP; rewrite -addr_eq0; apply/eqP.
  have -> : i 0 0 + i 1 0 = - ((v 0 0 - 1 * i 0 0) / 2%:R - (1 / 3%:R * ((v 0 0 + 1 * i 0 0) / 2%:R) + 2%:R / 3%:R * ((v 1 0 + 2%:R * i 1 0) / 2%:R)))
      - ((v 1 0 - 2%:R * i 1 0) / 2%:R - (4%:R / 3%:R * ((v 0 0 + 1 * i 0 0) / 2%:R) + - 1 / 3%:R * ((v 1 0 + 2%:R * i 1 0) / 2%:R))) / 2%:R.
    by field.
  by rewrite F0 F1 mul0r oppr0 addr0.
- by apply/matrixP => i j; rewrite !mxE eq_sym.
- move/matrixP/(_ 0 1); rewrite !mxE /= => /eqP.
  rewrite -subr_eq0.
  have -> : (4%:R / 3%:R - 2%:R / 3%:R : K) = 2%:R / 3%:R by field.
  by rewrite mulf_eq0 invr_eq0 !(negbTE (algn0 _)).
Qed.
End Examples.

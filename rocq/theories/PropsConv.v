(** Properties C01-C09: conversions between S, Z, Y and reference impedances.
    Vocabulary: ConvSpec.v; model: ConvModel.v, Imports.v. *)
From mathcomp Require Import all_ssreflect all_algebra.
From Coq Require Import String.
From Verif Require Import Base ConvModel ConvSpec ConvProofs ConvArr Imports ConvExamples ConvMore.
Set Implicit Arguments.
Unset Strict Implicit.
Unset Printing Implicit Defensive.
Import Order.TTheory GRing.Theory Num.Theory.
Local Open Scope ring_scope.

(** ** C01 *)
Theorem C01_S_from_Z (C : numClosedFieldType) n (Zb : C) (Z : 'M[C]_n) (r : nd C) : Zb != 0 ->
  S_from_Z (Nd2 Z) Zb = Ok r <-> exists S : 'M[C]_n, r = Nd2 S /\ isS Zb Z S.
Proof. exact: c01_S_from_Z. Qed.
Print Assumptions C01_S_from_Z.

Theorem C01_S_from_Z_fails (C : numClosedFieldType) n (Zb : C) (Z : 'M[C]_n) : Zb != 0 ->
  S_from_Z (Nd2 Z) Zb = Raise LinAlgError <-> ~ exists S : 'M[C]_n, isS Zb Z S.
Proof. exact: c01_S_from_Z_fails. Qed.
Print Assumptions C01_S_from_Z_fails.

Theorem C01_S_unique (C : numClosedFieldType) n (Zb : C) (Z S S' : 'M[C]_n) : Zb != 0 ->
  isS Zb Z S -> isS Zb Z S' -> S = S'.
Proof. exact: c01_S_unique. Qed.
Print Assumptions C01_S_unique.

Theorem C01_Z_from_S (C : numClosedFieldType) n (Zb : C) (S : 'M[C]_n) (r : nd C) : Zb != 0 ->
  Z_from_S (Nd2 S) Zb = Ok r <-> exists Z : 'M[C]_n, r = Nd2 Z /\ isZ Zb S Z.
Proof. exact: c01_Z_from_S. Qed.
Print Assumptions C01_Z_from_S.

Theorem C01_Z_from_S_fails (C : numClosedFieldType) n (Zb : C) (S : 'M[C]_n) : Zb != 0 ->
  Z_from_S (Nd2 S) Zb = Raise LinAlgError <-> ~ exists Z : 'M[C]_n, isZ Zb S Z.
Proof. exact: c01_Z_from_S_fails. Qed.
Print Assumptions C01_Z_from_S_fails.

Theorem C01_Y_from_S (C : numClosedFieldType) n (Zb : C) (S : 'M[C]_n) (r : nd C) : Zb != 0 ->
  Y_from_S (Nd2 S) Zb = Ok r <-> exists Y : 'M[C]_n, r = Nd2 Y /\ isY Zb S Y.
Proof. exact: c01_Y_from_S. Qed.
Print Assumptions C01_Y_from_S.

Theorem C01_Y_from_S_fails (C : numClosedFieldType) n (Zb : C) (S : 'M[C]_n) : Zb != 0 ->
  Y_from_S (Nd2 S) Zb = Raise LinAlgError <-> ~ exists Y : 'M[C]_n, isY Zb S Y.
Proof. exact: c01_Y_from_S_fails. Qed.
Print Assumptions C01_Y_from_S_fails.

Theorem C01_round_trip (C : numClosedFieldType) n (Zb : C) (Z S : 'M[C]_n) : Zb != 0 ->
  S_from_Z (Nd2 Z) Zb = Ok (Nd2 S) <-> Z_from_S (Nd2 S) Zb = Ok (Nd2 Z).
Proof. exact: c01_round_trip. Qed.
Print Assumptions C01_round_trip.

Theorem C01_Z_Y_inverse (C : numClosedFieldType) n (Zb : C) (S Z Y : 'M[C]_n) : Zb != 0 ->
  Z_from_S (Nd2 S) Zb = Ok (Nd2 Z) -> Y_from_S (Nd2 S) Zb = Ok (Nd2 Y) ->
  Z *m Y = 1%:M /\ Y *m Z = 1%:M.
Proof. exact: c01_Z_Y_inverse. Qed.
Print Assumptions C01_Z_Y_inverse.

Example C01_witness (C : numClosedFieldType) : S_from_Z (Nd2 (100%:R%:M : 'M[C]_2)) 50%:R = Ok (Nd2 ((3%:R^-1)%:M : 'M[C]_2)).
Proof. exact: ex_S_from_Z. Qed.

(** ** C02: whole function, one matrix, per port impedances *)
Theorem C02_same_multiport (C : numClosedFieldType) n (S1 : 'M[C]_n) (z1 z2 : 'rV[C]_n) t1 t2 r :
  typ_ok t1 -> typ_ok t2 -> adm t1 z1 -> adm t2 z2 ->
  ConvertGeneral (Nd1 [seq z2 0 j | j <- enum 'I_n]) (Nd2 S1)
                 (Nd1 [seq z1 0 j | j <- enum 'I_n]) t1 t2 = Ok r <->
  exists S2 : 'M[C]_n, r = Nd2 S2 /\
    forall v i, relates t1 z1 S1 v i <-> relates t2 z2 S2 v i.
Proof. exact: c02_same_multiport. Qed.
Print Assumptions C02_same_multiport.

(** scalar reference impedances (the usual call) *)
Theorem C02_same_multiport_scalar (C : numClosedFieldType) n (S1 : 'M[C]_n) (z1 z2 : C) t1 t2 r :
  typ_ok t1 -> typ_ok t2 -> admissible t1 z1 -> admissible t2 z2 ->
  ConvertGeneral (Nd0 z2) (Nd2 S1) (Nd0 z1) t1 t2 = Ok r <->
  exists S2 : 'M[C]_n, r = Nd2 S2 /\
    forall v i, relates t1 (const_mx z1) S1 v i <-> relates t2 (const_mx z2) S2 v i.
Proof. exact: c02_same_multiport_scalar. Qed.
Print Assumptions C02_same_multiport_scalar.

(** failure exactly when no such matrix exists *)
Theorem C02_fails (C : numClosedFieldType) n (S1 : 'M[C]_n) (z1 z2 : 'rV[C]_n) t1 t2 e :
  typ_ok t1 -> typ_ok t2 -> adm t1 z1 -> adm t2 z2 ->
  ConvertGeneral (Nd1 [seq z2 0 j | j <- enum 'I_n]) (Nd2 S1)
                 (Nd1 [seq z1 0 j | j <- enum 'I_n]) t1 t2 = Raise e <->
  e = LinAlgError /\
  ~ exists S2 : 'M[C]_n, forall v i, relates t1 z1 S1 v i <-> relates t2 z2 S2 v i.
Proof. exact: c02_fails. Qed.
Print Assumptions C02_fails.

(** the matrix is unique: even the one-sided inclusion determines it *)
Theorem C02_unique (C : numClosedFieldType) n (S1 S2 S2' : 'M[C]_n) (z1 z2 : 'rV[C]_n) t1 t2 :
  typ_ok t1 -> typ_ok t2 -> adm t1 z1 -> adm t2 z2 ->
  (forall v i, relates t1 z1 S1 v i -> relates t2 z2 S2 v i) ->
  (forall v i, relates t1 z1 S1 v i -> relates t2 z2 S2' v i) -> S2 = S2'.
Proof. exact: c02_unique. Qed.
Print Assumptions C02_unique.

(** any number of frequencies, impedances per frequency and port: slice k is the
    conversion of slice k with row k of the impedance arrays *)
Theorem C02_stack (C : numClosedFieldType) n (s : seq 'M[C]_n) (z1 z2 : 'M[C]_(size s, n)) t1 t2 R :
  typ_ok t1 -> typ_ok t2 -> (0 < size s)%N ->
  (forall k, adm t1 (row k z1)) -> (forall k, adm t2 (row k z2)) ->
  ConvertGeneral (Nd2 z2) (Nd3 s) (Nd2 z1) t1 t2 = Ok R <->
  exists r : seq 'M[C]_n, [/\ R = Nd3 r, size r = size s &
    forall (k : 'I_(size s)) v i,
      relates t1 (row k z1) (nth 0 s k) v i <-> relates t2 (row k z2) (nth 0 r k) v i].
Proof. exact: c02_stack. Qed.
Print Assumptions C02_stack.

(** impedances of any accepted shape (one value, one per port, one per frequency and port:
    [imp_row], ConvMore.v), stacks of any length *)
Theorem C02_any_impedance (C : numClosedFieldType) n (s : seq 'M[C]_n) (Z1 Z2 : nd C) t1 t2 R :
  typ_ok t1 -> typ_ok t2 -> (0 < size s)%N ->
  imp_shape (size s) n Z1 -> imp_shape (size s) n Z2 ->
  (forall k, (k < size s)%N -> adm t1 (imp_row n Z1 k) /\ adm t2 (imp_row n Z2 k)) ->
  ConvertGeneral Z2 (Nd3 s) Z1 t1 t2 = Ok R <->
  exists r : seq 'M[C]_n, [/\ R = Nd3 r, size r = size s &
    forall k, (k < size s)%N -> forall v i,
      relates t1 (imp_row n Z1 k) (nth 0 s k) v i <-> relates t2 (imp_row n Z2 k) (nth 0 r k) v i].
Proof. exact: c02_any. Qed.
Print Assumptions C02_any_impedance.

Theorem C02_any_impedance_matrix (C : numClosedFieldType) n (S1 : 'M[C]_n) (Z1 Z2 : nd C) t1 t2 R :
  typ_ok t1 -> typ_ok t2 -> imp_shape 1 n Z1 -> imp_shape 1 n Z2 ->
  adm t1 (imp_row n Z1 0) -> adm t2 (imp_row n Z2 0) ->
  ConvertGeneral Z2 (Nd2 S1) Z1 t1 t2 = Ok R <->
  exists S2 : 'M[C]_n, R = Nd2 S2 /\
    forall v i, relates t1 (imp_row n Z1 0) S1 v i <-> relates t2 (imp_row n Z2 0) S2 v i.
Proof. exact: c02_any_matrix. Qed.
Print Assumptions C02_any_impedance_matrix.

Theorem C02_any_impedance_scalar (C : numClosedFieldType) (s1 : C) (Z1 Z2 : nd C) t1 t2 R :
  typ_ok t1 -> typ_ok t2 -> imp_shape 1 1 Z1 -> imp_shape 1 1 Z2 ->
  adm t1 (imp_row 1 Z1 0) -> adm t2 (imp_row 1 Z2 0) ->
  ConvertGeneral Z2 (Nd0 s1) Z1 t1 t2 = Ok R <->
  exists s2 : C, R = Nd0 s2 /\
    forall v i, relates t1 (imp_row 1 Z1 0) (s1%:M) v i <-> relates t2 (imp_row 1 Z2 0) (s2%:M) v i.
Proof. exact: c02_any_scalar. Qed.
Print Assumptions C02_any_impedance_scalar.

Example C02_witness (C : numClosedFieldType) : exists S2 : 'M[C]_2,
  ConvertGeneral (Nd0 25%:R) (Nd2 ((3%:R^-1)%:M : 'M[C]_2)) (Nd0 50%:R) "V" "P" = Ok (Nd2 S2)
  /\ S2 != 0.
Proof. exact: ex_ConvertGeneral. Qed.

(** ** C03 *)
Theorem C03_identity (C : numClosedFieldType) n (S : 'M[C]_n) (z : C) t :
  typ_ok t -> admissible t z ->
  ConvertGeneral (Nd0 z) (Nd2 S) (Nd0 z) t t = Ok (Nd2 S).
Proof. exact: c03_identity. Qed.
Print Assumptions C03_identity.

Theorem C03_identity_any (C : numClosedFieldType) n (s : seq 'M[C]_n) (Z : nd C) t :
  typ_ok t -> (0 < size s)%N ->
  imp_shape (size s) n Z -> (forall k, (k < size s)%N -> adm t (imp_row n Z k)) ->
  ConvertGeneral Z (Nd3 s) Z t t = Ok (Nd3 s).
Proof. exact: c03_identity_any. Qed.
Print Assumptions C03_identity_any.

Theorem C03_round_trip (C : numClosedFieldType) n (S1 S2 : 'M[C]_n) (z1 z2 : 'rV[C]_n) t1 t2 :
  typ_ok t1 -> typ_ok t2 -> adm t1 z1 -> adm t2 z2 ->
  let Z1 := Nd1 [seq z1 0 j | j <- enum 'I_n] in
  let Z2 := Nd1 [seq z2 0 j | j <- enum 'I_n] in
  ConvertGeneral Z2 (Nd2 S1) Z1 t1 t2 = Ok (Nd2 S2) <->
  ConvertGeneral Z1 (Nd2 S2) Z2 t2 t1 = Ok (Nd2 S1).
Proof. exact: c03_round_trip. Qed.
Print Assumptions C03_round_trip.

Theorem C03_composition (C : numClosedFieldType) n (S1 S2 : 'M[C]_n) (z1 z2 z3 : 'rV[C]_n) t1 t2 t3 :
  typ_ok t1 -> typ_ok t2 -> typ_ok t3 -> adm t1 z1 -> adm t2 z2 -> adm t3 z3 ->
  let Z1 := Nd1 [seq z1 0 j | j <- enum 'I_n] in
  let Z2 := Nd1 [seq z2 0 j | j <- enum 'I_n] in
  let Z3 := Nd1 [seq z3 0 j | j <- enum 'I_n] in
  ConvertGeneral Z2 (Nd2 S1) Z1 t1 t2 = Ok (Nd2 S2) ->
  ConvertGeneral Z3 (Nd2 S2) Z2 t2 t3 = ConvertGeneral Z3 (Nd2 S1) Z1 t1 t3.
Proof. exact: c03_composition. Qed.
Print Assumptions C03_composition.

(** ** C04 *)
Theorem C04_impedance_route (C : numClosedFieldType) n (S Z : 'M[C]_n) (z1 z2 : C) :
  z1 != 0 -> z2 != 0 -> Z_from_S (Nd2 S) z1 = Ok (Nd2 Z) ->
  ConvertGeneral (Nd0 z2) (Nd2 S) (Nd0 z1) "V" "V" = S_from_Z (Nd2 Z) z2.
Proof. exact: c04_impedance_route. Qed.
Print Assumptions C04_impedance_route.

(** the admittance matrix is not changed by a change of reference impedance *)
Theorem C04_admittance_route (C : numClosedFieldType) n (S S2 Y : 'M[C]_n) (z1 z2 : C) :
  z1 != 0 -> z2 != 0 -> Y_from_S (Nd2 S) z1 = Ok (Nd2 Y) ->
  ConvertGeneral (Nd0 z2) (Nd2 S) (Nd0 z1) "V" "V" = Ok (Nd2 S2) ->
  Y_from_S (Nd2 S2) z2 = Ok (Nd2 Y).
Proof. exact: c04_admittance_route. Qed.
Print Assumptions C04_admittance_route.

Example C04_witness (C : numClosedFieldType) :
  Z_from_S (Nd2 ((3%:R^-1)%:M : 'M[C]_2)) 50%:R = Ok (Nd2 (100%:R%:M : 'M[C]_2)).
Proof. exact: ex_Z_from_S. Qed.

(** ** C05 *)
Theorem C05_reciprocity (C : numClosedFieldType) n (S1 S2 : 'M[C]_n) (z1 z2 : 'rV[C]_n) t1 t2 :
  typ_ok t1 -> typ_ok t2 -> recip_ok t1 z1 -> recip_ok t2 z2 ->
  ConvertGeneral (Nd1 [seq z2 0 j | j <- enum 'I_n]) (Nd2 S1)
                 (Nd1 [seq z1 0 j | j <- enum 'I_n]) t1 t2 = Ok (Nd2 S2) ->
  symmetric S1 <-> symmetric S2.
Proof. exact: c05_reciprocity. Qed.
Print Assumptions C05_reciprocity.

Theorem C05_lossless (C : numClosedFieldType) n (S1 S2 : 'M[C]_n) (z1 z2 : 'rV[C]_n) t1 t2 :
  power_ok t1 z1 -> power_ok t2 z2 ->
  ConvertGeneral (Nd1 [seq z2 0 j | j <- enum 'I_n]) (Nd2 S1)
                 (Nd1 [seq z1 0 j | j <- enum 'I_n]) t1 t2 = Ok (Nd2 S2) ->
  unitary S1 <-> unitary S2.
Proof. exact: c05_lossless. Qed.
Print Assumptions C05_lossless.

Theorem C05_passive (C : numClosedFieldType) n (S1 S2 : 'M[C]_n) (z1 z2 : 'rV[C]_n) t1 t2 :
  power_ok t1 z1 -> power_ok t2 z2 ->
  ConvertGeneral (Nd1 [seq z2 0 j | j <- enum 'I_n]) (Nd2 S1)
                 (Nd1 [seq z1 0 j | j <- enum 'I_n]) t1 t2 = Ok (Nd2 S2) ->
  passive S1 <-> passive S2.
Proof. exact: c05_passive. Qed.
Print Assumptions C05_passive.

(** what symmetric / unitary / passive mean physically *)
Theorem C05_passive_meaning (C : numClosedFieldType) n t (z : 'rV[C]_n) (S : 'M[C]_n) :
  power_ok t z -> passive S <-> forall v i, relates t z S v i -> 0 <= power v i.
Proof. exact: passive_iff. Qed.
Print Assumptions C05_passive_meaning.

(** voltage waves with different port impedances do not preserve symmetry *)
Theorem C05_reciprocity_mixed_V_refuted (C : numClosedFieldType) :
  exists (S1 S2 : 'M[C]_2) (z1 z2 : 'rV[C]_2),
  [/\ adm "V" z1, adm "V" z2,
      ConvertGeneral (Nd1 [seq z2 0 j | j <- enum 'I_2]) (Nd2 S1)
                 (Nd1 [seq z1 0 j | j <- enum 'I_2]) "V" "V" = Ok (Nd2 S2),
      symmetric S1 & ~ symmetric S2].
Proof. exact: c05_mixed_V. Qed.
Print Assumptions C05_reciprocity_mixed_V_refuted.

Example C05_witness (C : numClosedFieldType) : power_ok "P" (\row_(j < 2) (j.+1)%:R : 'rV[C]_2) /\
  recip_ok "P" (\row_(j < 2) (j.+1)%:R : 'rV[C]_2).
Proof. exact: ex_power_ok. Qed.

(** ** C06 *)
Theorem C06_shape_S_from_Z (C : numClosedFieldType) (a b : nd C) Zb :
  S_from_Z a Zb = Ok b ->
  (0 < size (nd_shape a) -> 0 < nth 1%N (nd_shape a) 0)%N -> nd_shape b = nd_shape a.
Proof. exact: lift3_shape. Qed.
Print Assumptions C06_shape_S_from_Z.

Theorem C06_shape_Z_from_S (C : numClosedFieldType) (a b : nd C) Zb :
  Z_from_S a Zb = Ok b ->
  (0 < size (nd_shape a) -> 0 < nth 1%N (nd_shape a) 0)%N -> nd_shape b = nd_shape a.
Proof. exact: lift3_shape. Qed.
Print Assumptions C06_shape_Z_from_S.

Theorem C06_shape_Y_from_S (C : numClosedFieldType) (a b : nd C) Zb :
  Y_from_S a Zb = Ok b ->
  (0 < size (nd_shape a) -> 0 < nth 1%N (nd_shape a) 0)%N -> nd_shape b = nd_shape a.
Proof. exact: lift3_shape. Qed.
Print Assumptions C06_shape_Y_from_S.

(** slices are treated independently *)
Theorem C06_slices (C : numClosedFieldType) n (Z0 : 'M[C]_n) (Zs : seq 'M[C]_n) Zb r :
  S_from_Z (Nd3 (Z0 :: Zs)) Zb = Ok r <->
  exists Ss : seq 'M[C]_n, [/\ r = Nd3 Ss, size Ss = size (Z0 :: Zs) &
    forall k, (k < size (Z0 :: Zs))%N ->
      S_from_Z (Nd2 (nth 0 (Z0 :: Zs) k)) Zb = Ok (Nd2 (nth 0 Ss k))].
Proof. exact: c06_slices. Qed.
Print Assumptions C06_slices.

(** one-port lists: element k is the reflection coefficient of element k *)
Theorem C06_list (C : numClosedFieldType) (z : C) zs Zb : {in z :: zs, forall x, x + Zb != 0} ->
  S_from_Z (Nd1 (z :: zs)) Zb = Ok (Nd1 [seq (x - Zb) / (x + Zb) | x <- z :: zs]).
Proof. exact: c06_list. Qed.
Print Assumptions C06_list.

Theorem C06_slices_Z_from_S (C : numClosedFieldType) n (S0 : 'M[C]_n) (Ss : seq 'M[C]_n) Zb r :
  Z_from_S (Nd3 (S0 :: Ss)) Zb = Ok r <->
  exists Zs : seq 'M[C]_n, [/\ r = Nd3 Zs, size Zs = size (S0 :: Ss) &
    forall k, (k < size (S0 :: Ss))%N ->
      Z_from_S (Nd2 (nth 0 (S0 :: Ss) k)) Zb = Ok (Nd2 (nth 0 Zs k))].
Proof. exact: lift3_slices. Qed.
Print Assumptions C06_slices_Z_from_S.

Theorem C06_slices_Y_from_S (C : numClosedFieldType) n (S0 : 'M[C]_n) (Ss : seq 'M[C]_n) Zb r :
  Y_from_S (Nd3 (S0 :: Ss)) Zb = Ok r <->
  exists Ys : seq 'M[C]_n, [/\ r = Nd3 Ys, size Ys = size (S0 :: Ss) &
    forall k, (k < size (S0 :: Ss))%N ->
      Y_from_S (Nd2 (nth 0 (S0 :: Ss) k)) Zb = Ok (Nd2 (nth 0 Ys k))].
Proof. exact: lift3_slices. Qed.
Print Assumptions C06_slices_Y_from_S.

Theorem C06_list_Z_from_S (C : numClosedFieldType) (s : C) ss Zb : {in s :: ss, forall x, x != 1} ->
  Z_from_S (Nd1 (s :: ss)) Zb = Ok (Nd1 [seq Zb * (1 + x) / (1 - x) | x <- s :: ss]).
Proof. exact: c06_list_Z. Qed.
Print Assumptions C06_list_Z_from_S.

Theorem C06_list_Y_from_S (C : numClosedFieldType) (s : C) ss Zb : {in s :: ss, forall x, x != -1} ->
  Y_from_S (Nd1 (s :: ss)) Zb = Ok (Nd1 [seq (1 - x) / (Zb * (1 + x)) | x <- s :: ss]).
Proof. exact: c06_list_Y. Qed.
Print Assumptions C06_list_Y_from_S.

Theorem C06_shape_ConvertGeneral (C : numClosedFieldType) (Z2 S1 Z1 S2 : nd C) t1 t2 :
  ConvertGeneral Z2 S1 Z1 t1 t2 = Ok S2 -> size (nd_shape S1) != 1%N ->
  (0 < size (nd_shape S1) -> 0 < nth 1%N (nd_shape S1) 0)%N -> nd_shape S2 = nd_shape S1.
Proof. exact: ConvertGeneral_shape. Qed.
Print Assumptions C06_shape_ConvertGeneral.

(** a list of m one-port values: ConvertGeneral always returns one value *)
Theorem C06_shape_ConvertGeneral_list (C : numClosedFieldType) (Z2 Z1 S2 : nd C) (s : seq C) t1 t2 :
  ConvertGeneral Z2 (Nd1 s) Z1 t1 t2 = Ok S2 -> nd_shape S2 = [:: 1%N].
Proof. exact: c06_list_shape. Qed.
Print Assumptions C06_shape_ConvertGeneral_list.

Theorem C06_shape_ConvertGeneral_refuted (C : numClosedFieldType) :
  exists (S1 S2 : nd C), ConvertGeneral (Nd0 25%:R) S1 (Nd0 50%:R) "V" "V" = Ok S2
    /\ nd_shape S2 <> nd_shape S1.
Proof. exact: c06_refuted. Qed.
Print Assumptions C06_shape_ConvertGeneral_refuted.

(** ** C07 *)
Theorem C07_bad_shape_exception (C : numClosedFieldType) (a : nd C) Zb :
  ~~ good_shape (nd_shape a) ->
  [/\ S_from_Z a Zb = Raise TypeError, Z_from_S a Zb = Raise TypeError &
      Y_from_S a Zb = Raise TypeError].
Proof. exact: c07_bad_shape. Qed.
Print Assumptions C07_bad_shape_exception.

Theorem C07_ConvertGeneral_bad_shape (C : numClosedFieldType) (Z2 S1 Z1 : nd C) t1 t2 :
  ~~ good_shape (nd_shape S1) -> ConvertGeneral Z2 S1 Z1 t1 t2 = Raise TypeError.
Proof. exact: ConvertGeneral_bad. Qed.
Print Assumptions C07_ConvertGeneral_bad_shape.

(** impedances that are neither a scalar, nor one value per port, nor one per frequency and
    port; a wrong-length list is reported as ValueError, any other shape as TypeError *)
Theorem C07_ConvertGeneral_bad_impedance (C : numClosedFieldType) n (S1 : 'M[C]_n)
    (s : seq 'M[C]_n) (Z1 Z2 : nd C) t1 t2 :
  let exc (Z : nd C) := if size (nd_shape Z) == 1%N then ValueError else TypeError in
  [/\ ~~ imp_shape 1 n Z1 -> ConvertGeneral Z2 (Nd2 S1) Z1 t1 t2 = Raise (exc Z1),
      imp_shape 1 n Z1 -> typ_ok t1 -> ~~ imp_shape 1 n Z2 ->
        ConvertGeneral Z2 (Nd2 S1) Z1 t1 t2 = Raise (exc Z2),
      ~~ imp_shape (size s) n Z1 -> ConvertGeneral Z2 (Nd3 s) Z1 t1 t2 = Raise (exc Z1) &
      imp_shape (size s) n Z1 -> typ_ok t1 -> ~~ imp_shape (size s) n Z2 ->
        ConvertGeneral Z2 (Nd3 s) Z1 t1 t2 = Raise (exc Z2)].
Proof. exact: c07_bad_impedance. Qed.
Print Assumptions C07_ConvertGeneral_bad_impedance.

Theorem C07_ValueError_refuted (C : numClosedFieldType) :
  exists a : nd C, ~~ good_shape (nd_shape a) /\ S_from_Z a 50%:R <> Raise ValueError.
Proof. exact: c07_refuted. Qed.
Print Assumptions C07_ValueError_refuted.

(** the cases that are refused with ValueError as documented *)
Theorem C07_ValueError_cases (C : numClosedFieldType) n (S1 : 'M[C]_n) (Z2 : nd C) (zs : seq C) z t1 t2 :
  (size zs != n -> ConvertGeneral Z2 (Nd2 S1) (Nd1 zs) t1 t2 = Raise ValueError) /\
  (~~ typ_ok t1 -> ConvertGeneral Z2 (Nd2 S1) (Nd0 z) t1 t2 = Raise ValueError) /\
  (typ_ok t1 -> ~~ typ_ok t2 -> ConvertGeneral (Nd0 z) (Nd2 S1) (Nd0 z) t1 t2 = Raise ValueError).
Proof. exact: c07_ValueError_cases. Qed.
Print Assumptions C07_ValueError_cases.

(** ** C08 *)
Theorem C08_S_from_VI (C : numClosedFieldType) (M : 'M[C]_2) Z0 (r : nd C) : Z0 != 0 ->
  S_from_VI (Nd2 M) Z0 = Ok r <-> exists S : 'M[C]_2, r = Nd2 S /\ isSVI M Z0 S.
Proof. exact: c08_S_from_VI. Qed.
Print Assumptions C08_S_from_VI.

Theorem C08_fails (C : numClosedFieldType) (M : 'M[C]_2) Z0 : Z0 != 0 ->
  S_from_VI (Nd2 M) Z0 = Raise LinAlgError <-> ~ exists S : 'M[C]_2, isSVI M Z0 S.
Proof. exact: c08_fails. Qed.
Print Assumptions C08_fails.

Theorem C08_unique (C : numClosedFieldType) (M S S' : 'M[C]_2) Z0 : Z0 != 0 ->
  isSVI M Z0 S -> isSVI M Z0 S' -> S = S'.
Proof. exact: c08_unique. Qed.
Print Assumptions C08_unique.

Theorem C08_bad_shape (C : numClosedFieldType) (a : nd C) Z0 : nd_shape a != [:: 2; 2]%N ->
  S_from_VI a Z0 = Raise ValueError.
Proof. exact: c08_bad_shape. Qed.
Print Assumptions C08_bad_shape.

Example C08_witness (C : numClosedFieldType) : S_from_VI (Nd2 (1%:M : 'M[C]_2)) 30%:R = Ok (Nd2 (\matrix_(i, j) (i != j)%:R : 'M[C]_2)).
Proof. exact: ex_S_from_VI. Qed.

(** ** C09 *)
Theorem C09_S_from_Y_refuted (C : numClosedFieldType) (Y : nd C) Zb :
  S_from_Y Y Zb = Raise TypeError.
Proof. exact: S_from_Y_always_raises. Qed.
Print Assumptions C09_S_from_Y_refuted.

(** the formula in S_from_Y's loop is right (with the check function in place of the module,
    and for stacks): it is unreachable because of the import above *)
Theorem C09_S_from_Y_formula (C : numClosedFieldType) n (Zb : C) (S Y : 'M[C]_n) : Zb != 0 ->
  s_from_y1 Zb Y = Ok S <-> isY Zb S Y.
Proof. exact: s_from_y1_iff. Qed.
Print Assumptions C09_S_from_Y_formula.

Theorem C09_bindings :
  [/\ bound "S_from_Y" "_check_3D_shape_" = Some (PMod "_check_3D_shape_"),
      bound "rfBase" "Z_from_S" = Some (PMod "Z_from_S"),
      bound "rfBase" "Y_from_S" = Some (PMod "Y_from_S")
    & bound "rfGTL" "rfArcObj" = Some (PMod "rfArcObj")].
Proof. exact: c09_bindings. Qed.
Print Assumptions C09_bindings.

Theorem C09_good_bindings :
  [/\ bound "S_from_Z" "_check_3D_shape_" = Some (PFun "_check_3D_shape_" "_check_3D_shape_"),
      bound "Z_from_S" "_check_3D_shape_" = Some (PFun "_check_3D_shape_" "_check_3D_shape_"),
      bound "Y_from_S" "_check_3D_shape_" = Some (PFun "_check_3D_shape_" "_check_3D_shape_")
    & bound "ConvertGeneral" "_check_3D_shape_" = Some (PFun "_check_3D_shape_" "_check_3D_shape_")].
Proof. exact: good_bindings. Qed.
Print Assumptions C09_good_bindings.

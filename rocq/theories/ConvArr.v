(** Conversion functions on whole arrays (shapes), and S_from_VI. *)
From mathcomp Require Import all_ssreflect all_algebra.
From mathcomp.algebra_tactics Require Import ring.
From Coq Require Import String.
From Verif Require Import Base MxLib ConvModel ConvSpec ConvProofs.
Set Implicit Arguments.
Unset Strict Implicit.
Unset Printing Implicit Defensive.
Import Order.TTheory GRing.Theory Num.Theory.
Local Open Scope ring_scope.

Section ConvArr.
Variable C : numClosedFieldType.
Let two_neq0 : (2%:R : C) != 0. Proof. by rewrite pnatr_eq0. Qed.

Lemma sq_id n (A : 'M[C]_n) : sq A = Some A.
Proof.
rewrite /sq; case: eqP => // e.
by rewrite (eq_irrelevance e erefl) castmx_id.
Qed.

Lemma sqs_id n (s : seq 'M[C]_n) : sqs s = Some s.
Proof.
rewrite /sqs; case: eqP => // e; rewrite (eq_irrelevance e erefl).
by congr Some; rewrite -[RHS]map_id; apply: eq_map => A; rewrite castmx_id.
Qed.

Lemma check3D_bad (a : nd C) : ~~ good_shape (nd_shape a) -> check3D a = Raise TypeError.
Proof.
case: a => [c|s|m n A|m n s|d] //=.
- by move=> H; rewrite /sq; case: eqP => // e; rewrite -e eqxx in H.
- by move=> H; rewrite /sqs; case: eqP => // e; rewrite -e eqxx in H.
Qed.

Lemma lift3_bad f (a : nd C) : ~~ good_shape (nd_shape a) -> lift3 f a = Raise TypeError.
Proof. by move=> H; rewrite /lift3 check3D_bad. Qed.

Lemma ConvertGeneral_bad (Z2 S1 Z1 : nd C) t1 t2 : ~~ good_shape (nd_shape S1) ->
  ConvertGeneral Z2 S1 Z1 t1 t2 = Raise TypeError.
Proof. by move=> H; rewrite /ConvertGeneral check3D_bad. Qed.

Lemma mapM_size A B (f : A -> res B) xs ys : mapM f xs = Ok ys -> size ys = size xs.
Proof. by case/mapM_Ok. Qed.

(** the result has the shape of the argument (stacks must not be empty) *)
Lemma lift3_shape f (a b : nd C) : lift3 f a = Ok b -> (0 < size (nd_shape a) -> 0 < nth 1 (nd_shape a) 0)%N ->
  nd_shape b = nd_shape a.
Proof.
rewrite /lift3; case: a => [c|s|m n A|m n s|d] //=.
- by case: (f _ _) => //= x [<-].
- case E: (mapM _ _) => [ys|] //=; have := mapM_size E; rewrite size_map.
  case: ys {E} => [|y ys] //= Hs [<-] _ /=.
  by rewrite size_map Hs.
- rewrite /sq; case: eqP => //= e; subst n.
  by case: (f _ _) => //= x [<-].
- rewrite /sqs; case: eqP => //= e; subst n.
  case E: (mapM _ _) => [ys|] //=; have := mapM_size E; rewrite size_map.
  case: ys {E} => [|y ys] //= Hs; first by rewrite -Hs => _ /(_ isT).
  by case=> <- _ /=; rewrite -Hs.
Qed.

(** the four accepted kinds of arguments, slice by slice *)
Lemma lift3_scalar f (c : C) : lift3 f (Nd0 c) = rmap (fun A : 'M_1 => Nd0 (A 0 0)) (f 1%N c%:M).
Proof. by rewrite /lift3 /=; case: (f _ _) => //=. Qed.

Lemma lift3_list f (c : C) s :
  lift3 f (Nd1 (c :: s)) =
  rmap (fun l => Nd1 (map (fun A : 'M_1 => A 0 0) l)) (mapM (fun x => f 1%N x%:M) (c :: s)).
Proof.
rewrite /lift3 /=.
have -> : mapM (@f 1%N) [seq x%:M | x <- s] = mapM (fun x : C => f 1%N x%:M) s.
  by elim: s => //= x s ->.
by case: (f _ _) => //= A; case: (mapM _ _) => //=.
Qed.

Lemma lift3_matrix f n (A : 'M[C]_n) : lift3 f (Nd2 A) = rmap (fun B : 'M_n => Nd2 B) (f n A).
Proof. by rewrite /lift3 /= sq_id /=; case: (f n A). Qed.

Lemma lift3_stack f n (A : 'M[C]_n) s :
  lift3 f (Nd3 (A :: s)) = rmap (fun l : seq 'M_n => Nd3 l) (mapM (@f n) (A :: s)).
Proof.
rewrite /lift3 /= sqs_id /=.
by case: (f _ _) => //= B; case: (mapM _ _) => //=.
Qed.

(** ConvertGeneral: kept shape for everything but lists of one-port values *)
Lemma ConvertGeneral_shape (Z2 S1 Z1 S2 : nd C) t1 t2 :
  ConvertGeneral Z2 S1 Z1 t1 t2 = Ok S2 -> size (nd_shape S1) != 1%N ->
  (0 < size (nd_shape S1) -> 0 < nth 1 (nd_shape S1) 0)%N ->
  nd_shape S2 = nd_shape S1.
Proof.
rewrite /ConvertGeneral; case: S1 => [c|s|m n A|m n s|d] //=.
- case: (coeffs _ _ _ _) => //= z1; case: (coeffs _ _ _ _) => //= z2.
  by case: (convert1 _ _ _ _ _) => //= x [<-].
- rewrite /sq; case: eqP => //= e; subst n.
  case: (coeffs _ _ _ _) => //= z1; case: (coeffs _ _ _ _) => //= z2.
  by case: (convert1 _ _ _ _ _) => //= x [<-].
- rewrite /sqs; case: eqP => //= e; subst n; rewrite size_map.
  case: (coeffs _ _ _ _) => //= z1; case: (coeffs _ _ _ _) => //= z2.
  case E: (mapM _ _) => [ys|] //=; have := mapM_size E; rewrite size_iota.
  case: ys {E} => [|y ys] //= Hs; first by rewrite -Hs => _ _ /(_ isT).
  by case=> <- _ _ /=; rewrite -Hs.
Qed.

(** ... where it returns a list of length one whatever the length of the argument *)
Lemma ConvertGeneral_list_length Z2 (s : seq C) Z1 t1 t2 S2 :
  ConvertGeneral Z2 (Nd1 s) Z1 t1 t2 = Ok S2 -> exists x, S2 = Nd1 [:: x].
Proof.
rewrite /ConvertGeneral /=; rewrite size_map.
case: (coeffs _ _ _ _) => //= z1; case: (coeffs _ _ _ _) => //= z2.
by case: (mapM _ _) => //= -[|y ys] //= [<-]; eexists.
Qed.

(** one matrix with scalar reference impedances: the whole function is [convert1] *)
Lemma ConvertGeneral_matrix n (S1 : 'M[C]_n) z1 z2 t1 t2 : typ_ok t1 -> typ_ok t2 ->
  ConvertGeneral (Nd0 z2) (Nd2 S1) (Nd0 z1) t1 t2 =
  rmap (fun B : 'M_n => Nd2 B) (convert1 (const_mx z2) S1 (const_mx z1) t1 t2).
Proof.
move=> Ht1 Ht2; rewrite /ConvertGeneral /= sq_id /= /coeffs /= Ht1 Ht2 /=.
by case: (convert1 _ _ _ _ _).
Qed.

(** per port impedances *)
Lemma ConvertGeneral_matrix_vec n (S1 : 'M[C]_n) (z1 z2 : 'rV[C]_n) t1 t2 : typ_ok t1 -> typ_ok t2 ->
  ConvertGeneral (Nd1 [seq z2 0 j | j <- enum 'I_n]) (Nd2 S1) (Nd1 [seq z1 0 j | j <- enum 'I_n]) t1 t2 =
  rmap (fun B : 'M_n => Nd2 B) (convert1 z2 S1 z1 t1 t2).
Proof.
move=> Ht1 Ht2; rewrite /ConvertGeneral /= sq_id /= /coeffs /=.
have Es (z : 'rV[C]_n) : size [seq z 0 j | j <- enum 'I_n] = n.
  by rewrite size_map size_enum_ord.
rewrite !Es !eqxx /= Ht1 Ht2 /=.
have E (z : 'rV[C]_n) : (\row_j [seq z 0 j | j <- enum 'I_n]`_j) = z.
  apply/rowP => j; rewrite mxE (nth_map j) ?size_enum_ord //.
  by rewrite nth_ord_enum.
by rewrite !E; case: (convert1 _ _ _ _ _).
Qed.

(** stacks with a row of impedances per frequency: slice k of the result is the conversion
    of slice k with row k *)
Lemma ConvertGeneral_stack n (s : seq 'M[C]_n) (z1 z2 : 'M[C]_(size s, n)) t1 t2 R :
  typ_ok t1 -> typ_ok t2 -> (0 < size s)%N ->
  ConvertGeneral (Nd2 z2) (Nd3 s) (Nd2 z1) t1 t2 = Ok R <->
  exists r : seq 'M[C]_n, [/\ R = Nd3 r, size r = size s &
    forall k : 'I_(size s), convert1 (row k z2) (nth 0 s k) (row k z1) t1 t2 = Ok (nth 0 r k)].
Proof.
move=> Ht1 Ht2 Hs; rewrite /ConvertGeneral /= sqs_id /= /coeffs /= !eqxx /= Ht1 Ht2 /=.
have Erow (z : 'M[C]_(size s, n)) (k : 'I_(size s)) :
  (\row_(j < n) match insub (k : nat) with Some k' =>
      match insub (j : nat) with Some j' => z k' j' | None => 0 end | None => 0 end) = row k z.
  by apply/rowP => j; rewrite !mxE !valK.
split=> [|[r [-> Hr Hk]]].
- case E: (mapM _ _) => [r|] //= H.
  have [Hsz Hn] := iffLR (mapM_Ok _ _ _) E; rewrite size_iota in Hsz Hn.
  exists r; split=> //; first by case: (r) H Hsz => [|y ys] //= [<-]; rewrite // => Hz; rewrite Hz in Hs.
  move=> k; have := Hn k 0%N 0 (ltn_ord k); rewrite nth_iota // add0n.
  by rewrite !Erow.
- have -> : mapM (fun k : nat => convert1
       (\row_(j < n) match insub k with Some k' =>
          match insub (j : nat) with Some j' => z2 k' j' | None => 0 end | None => 0 end)
       (nth 0 s k)
       (\row_(j < n) match insub k with Some k' =>
          match insub (j : nat) with Some j' => z1 k' j' | None => 0 end | None => 0 end) t1 t2)
       (iota 0 (size s)) = Ok r.
    apply/mapM_Ok; rewrite size_iota; split=> // k x0 y0 Hlt.
    rewrite nth_iota // add0n.
    have := Hk (Ordinal Hlt); rewrite -!Erow /= => ->.
    by congr Ok; apply: set_nth_default; rewrite Hr.
  by case: (r) Hr => [|y ys] //= Hz; rewrite -Hz in Hs.
Qed.

(** wrong impedance shapes *)
Lemma ConvertGeneral_badZ (Z2 Z1 : nd C) n (S1 : 'M[C]_n) t1 t2 :
  (size (nd_shape Z1) > 2)%N || ((size (nd_shape Z1) == 2%N) && (nd_shape Z1 != [:: 1%N; n])) ->
  ConvertGeneral Z2 (Nd2 S1) Z1 t1 t2 = Raise TypeError.
Proof.
rewrite /ConvertGeneral /= sq_id /= /coeffs.
case: Z1 => [c|s|m k A|m k s|d] //=.
move=> H; case: ifP => // /andP [/eqP E1 /eqP E2].
by exfalso; move: H; rewrite E1 E2 eqxx.
Qed.

(** *** S_from_VI *)
Lemma sum2 (f : 'I_2 -> C) : \sum_j f j = f 0 + f 1.
Proof. by rewrite !big_ord_recl big_ord0 addr0; congr (_ + f _); apply: val_inj. Qed.

Lemma ord2P (P : 'I_2 -> Prop) : P 0 -> P 1 -> forall k, P k.
Proof.
move=> H0 H1 [[|[|k]] Hk] //.
  by rewrite (_ : Ordinal Hk = 0) //; apply: val_inj.
by rewrite (_ : Ordinal Hk = 1) //; apply: val_inj.
Qed.

Lemma s_from_vi1_iff (M : 'M[C]_2) Z0 (S : 'M[C]_2) : Z0 != 0 -> s_from_vi1 M Z0 = Ok S <-> isSVI M Z0 S.
Proof.
move=> Hz; rewrite /s_from_vi1.
set A := \matrix_(i, j) _; set B := \matrix_(i, j) _.
have HA v1 i1 : A *m col2 v1 i1 =
   col2 (v1 + Z0 * - i1) (M 0 0 * v1 + M 0 1 * i1 + Z0 * (M 1 0 * v1 + M 1 1 * i1)).
  by apply/cV_extP; apply: ord2P; rewrite mulmx_cVE sum2 !mxE /=; ring.
have HB v1 i1 : B *m col2 v1 i1 =
   col2 (v1 - Z0 * - i1) (M 0 0 * v1 + M 0 1 * i1 - Z0 * (M 1 0 * v1 + M 1 1 * i1)).
  by apply/cV_extP; apply: ord2P; rewrite mulmx_cVE sum2 !mxE /=; ring.
have Hc (x : 'cV[C]_2) : x = col2 (x 0 0) (x 1 0).
  by apply/cV_extP; apply: ord2P; rewrite mxE.
have Hiff : isSVI M Z0 S <-> B = S *m A.
  rewrite -mx_extP; split=> H.
    move=> x; rewrite (Hc x) -mulmxA HA HB.
    have := H (x 0 0) (x 1 0); rewrite /= relatesV.
    set v := col2 _ _; set i := col2 _ _ => E.
    have -> : col2 (x 0 0 - Z0 * - x 1 0) 
      (M 0 0 * x 0 0 + M 0 1 * x 1 0 - Z0 * (M 1 0 * x 0 0 + M 1 1 * x 1 0)) = v - Z0 *: i.
      by apply/cV_extP; apply: ord2P; rewrite !mxE.
    by rewrite E; congr (_ *m _); apply/cV_extP; apply: ord2P; rewrite !mxE.
  move=> v1 i1 /=; rewrite relatesV.
  have := H (col2 v1 i1); rewrite -mulmxA HA HB => E.
  set v := col2 v1 _; set i := col2 (- i1) _.
  have -> : v - Z0 *: i = col2 (v1 - Z0 * - i1) 
      (M 0 0 * v1 + M 0 1 * i1 - Z0 * (M 1 0 * v1 + M 1 1 * i1)).
    by apply/cV_extP; apply: ord2P; rewrite !mxE.
  by rewrite E; congr (_ *m _); apply/cV_extP; apply: ord2P; rewrite !mxE.
rewrite Hiff /np_inv; case: ifP => [Hu|Hn] /=.
  by rewrite (ratio_uniq _ _ Hu); split=> [[->]|->].
split=> // H; suff : A \in unitmx by rewrite Hn.
apply: (ratio_unit _ H) => x; rewrite (Hc x) HA HB => E1 E2.
have := congr1 (fun y : 'cV[C]_2 => y 0 0) E1; have := congr1 (fun y : 'cV[C]_2 => y 0 0) E2.
rewrite !mxE /= mulrN opprK => F2 F1.
have Hx0 : x 0 0 = 0.
  have : 2%:R * x 0 0 = 0.
    have : (x 0 0 - Z0 * x 1 0) + (x 0 0 + Z0 * x 1 0) = 0 by rewrite F1 F2 addr0.
    by move=> <-; ring.
  by move/eqP; rewrite mulf_eq0 (negbTE two_neq0) => /eqP.
have Hx1 : x 1 0 = 0.
  move: F2; rewrite Hx0 add0r => /eqP; rewrite mulf_eq0 (negbTE Hz) => /eqP //.
by rewrite Hx0 Hx1; apply/cV_extP; apply: ord2P; rewrite !mxE.
Qed.

Lemma s_from_vi1_raise (M : 'M[C]_2) Z0 : Z0 != 0 ->
  s_from_vi1 M Z0 = Raise LinAlgError <-> ~ exists S, isSVI M Z0 S.
Proof.
move=> Hz; split=> [H [S /(s_from_vi1_iff _ _ Hz)]|H]; first by rewrite H.
case E: (s_from_vi1 M Z0) => [S|e].
  by case: H; exists S; apply/s_from_vi1_iff.
move: E; rewrite /s_from_vi1 /np_inv; case: ifP => //= _ [<-] //.
Qed.

Lemma Nd2_inj n (A B : 'M[C]_n) : Nd2 A = Nd2 B -> A = B.
Proof.
case=> E0; have E := Eqdep_dec.inj_pair2_eq_dec _ PeanoNat.Nat.eq_dec _ _ _ _ E0.
exact: (Eqdep_dec.inj_pair2_eq_dec _ PeanoNat.Nat.eq_dec _ _ _ _ E).
Qed.

Lemma rmap_Nd2 n (x : res 'M[C]_n) r :
  rmap (fun B : 'M_n => Nd2 B) x = Ok r <-> exists S, r = Nd2 S /\ x = Ok S.
Proof.
case: x => [S|e] /=; split=> //; last by case=> S [].
  by case=> <-; exists S.
by case=> S' [-> [->]].
Qed.

Lemma rmap_Nd2_Ok n (x : res 'M[C]_n) S :
  rmap (fun B : 'M_n => Nd2 B) x = Ok (Nd2 S) <-> x = Ok S.
Proof.
rewrite rmap_Nd2; split=> [[S' [/Nd2_inj -> //]]|->]; by exists S.
Qed.

End ConvArr.

(** More about the conversions: slices and lists for every function, impedances of every
    accepted shape, admittances. *)
From mathcomp Require Import all_ssreflect all_algebra.
From Coq Require Import String.
From Verif Require Import Base MxLib ConvModel ConvSpec ConvProofs ConvArr ConvExamples.
Set Implicit Arguments.
Unset Strict Implicit.
Unset Printing Implicit Defensive.
Import Order.TTheory GRing.Theory Num.Theory.
Local Open Scope ring_scope.

Section ConvMore.
Variable C : numClosedFieldType.

Lemma lift3_slices (f : forall n, 'M[C]_n -> res 'M[C]_n) n (A : 'M[C]_n) s r :
  lift3 f (Nd3 (A :: s)) = Ok r <->
  exists B : seq 'M[C]_n, [/\ r = Nd3 B, size B = size (A :: s) &
    forall k, (k < size (A :: s))%N -> lift3 f (Nd2 (nth 0 (A :: s) k)) = Ok (Nd2 (nth 0 B k))].
Proof.
rewrite lift3_stack; split.
  case E: (mapM _ _) => [Ss|] //= [<-]; exists Ss.
  have [Hs Hk] := iffLR (mapM_Ok _ _ _) E; split=> // k Hlt.
  by rewrite lift3_matrix rmap_Nd2_Ok; apply: Hk.
case=> Ss [-> Hs Hk].
have -> : mapM (@f n) (A :: s) = Ok Ss; last by [].
apply/mapM_Ok; split=> // k x0 y0 Hlt.
have := Hk k Hlt; rewrite lift3_matrix rmap_Nd2_Ok.
by rewrite (set_nth_default x0 0 Hlt) (set_nth_default y0 0) // Hs.
Qed.

Lemma lift3_listE (f : forall n, 'M[C]_n -> res 'M[C]_n) (g : C -> C) z zs :
  {in z :: zs, forall x, f 1%N x%:M = Ok (g x)%:M} ->
  lift3 f (Nd1 (z :: zs)) = Ok (Nd1 [seq g x | x <- z :: zs]).
Proof.
move=> H; rewrite lift3_list.
have -> : mapM (fun x : C => f 1%N x%:M) (z :: zs) = Ok [seq (g x)%:M | x <- z :: zs].
  elim: (z :: zs) H => //= x s IH H.
  rewrite H ?mem_head //= IH //= => y Hy.
  by apply: H; rewrite inE Hy orbT.
by rewrite /rmap -map_comp; congr (Ok (Nd1 _)); apply: eq_map => x /=; rewrite !mxE.
Qed.

Lemma c06_list_Z (s : C) ss Zb : {in s :: ss, forall x, x != 1} ->
  Z_from_S (Nd1 (s :: ss)) Zb = Ok (Nd1 [seq Zb * (1 + x) / (1 - x) | x <- s :: ss]).
Proof.
move=> H; apply: lift3_listE => x Hx.
rewrite /z_from_s1 -raddfB /= inv_scal ?subr_eq0 1?eq_sym ?H //=.
by rewrite -raddfD scale_scalar_mx -scalar_mxM; congr (Ok _%:M); rewrite mulrAC.
Qed.

Lemma c06_list_Y (s : C) ss Zb : {in s :: ss, forall x, x != -1} ->
  Y_from_S (Nd1 (s :: ss)) Zb = Ok (Nd1 [seq (1 - x) / (Zb * (1 + x)) | x <- s :: ss]).
Proof.
move=> H; apply: lift3_listE => x Hx.
rewrite /y_from_s1 -raddfD /= inv_scal; last by rewrite addrC addr_eq0 H.
rewrite /= -raddfB /= -scalar_mxM scale_scalar_mx.
by congr (Ok (scalar_mx _)); rewrite invfM [RHS]mulrCA [(1 - x) * _]mulrC.
Qed.

(** admittances *)
Lemma s_from_y1_iff n Zb (S Y : 'M[C]_n) : Zb != 0 -> s_from_y1 Zb Y = Ok S <-> isY Zb S Y.
Proof.
move=> Hz; rewrite isYE.
pose A : 'M[C]_n := (Zb^-1)%:M + Y; pose B : 'M[C]_n := (Zb^-1)%:M - Y.
have EI : Zb^-1 *: (1%:M - S) = Y *m (1%:M + S) <-> A *m S = B.
  have Z3 (V : zmodType) (p q y c : V) : p - q = y + c <-> q + c = p - y.
    have X : (p - q == y + c) = (q + c == p - y).
      by rewrite subr_eq eq_sym [RHS]eq_sym subr_eq -addrA addrC [c + q]addrC eq_sym.
    by split=> /eqP => [|H]; [rewrite X => /eqP|apply/eqP; rewrite X].
  rewrite /A /B scalerBr scalemx1 mulmxDl mulmxDr mulmx1 mul_scalar_mx.
  exact: Z3.
have cAB : A *m B = B *m A.
  rewrite /A /B mulmxDl mulmxDr [in RHS]mulmxDr !mulmxBl mulmxN mulmxBr.
  by rewrite (scalar_mxC _ Y); set u := _ *m _; set w := Y *m _; set x := Y *m Y; rewrite addrACA.
rewrite EI /s_from_y1 /np_inv -/A -/B; case: ifP => [Hu|Hn] /=.
  rewrite -[B *m _]comm_inv //; split=> [[<-]|<-]; first by rewrite mulKVmx.
  by rewrite mulKmx.
split=> // E; suff: A \in unitmx by rewrite Hn.
have E2 : A *m ((Zb / 2%:R) *: (1%:M + S)) = 1%:M.
  rewrite -scalemxAr mulmxDr mulmx1 E /A /B addrACA subrr addr0 -raddfD /=.
  rewrite scale_scalar_mx; congr _%:M.
  rewrite -mulr2n -[_^-1 *+ 2]mulr_natl mulrA divfK; last by rewrite pnatr_eq0.
  by rewrite divff.
by case/mulmx1_unit: E2.
Qed.

(** ** impedances of any accepted shape *)
(** the impedance of port j at frequency k: one value for all, one per port, or one per
    frequency and port *)
Definition imp_at (Z : nd C) (k j : nat) : C :=
  match Z with
  | Nd0 c => c
  | Nd1 s => s`_j
  | Nd2 m n A => match (insub k : option 'I_m), (insub j : option 'I_n) with
                 | Some k', Some j' => A k' j' | _, _ => 0 end
  | _ => 0
  end.
Definition imp_row n (Z : nd C) (k : nat) : 'rV[C]_n := \row_j imp_at Z k j.

Definition imp_shape (nF n : nat) (Z : nd C) : bool :=
  nd_shape Z \in [:: [::]; [:: n]; [:: nF; n]].

Lemma zrowsE nF n Z : imp_shape nF n Z -> exists zr : nat -> 'rV[C]_n,
  zrows nF n Z = Ok zr /\ forall k, zr k = imp_row n Z k.
Proof.
rewrite /imp_shape !inE; case: Z => [c|s|m k A|m k s|d]; case/or3P => /eqP //=.
- by move=> _; eexists; split; [reflexivity|] => k; apply/rowP => j; rewrite !mxE.
- case=> ->; rewrite eqxx; eexists; split; [reflexivity|] => k.
  by apply/rowP => j; rewrite !mxE.
- case=> e1 e2; rewrite (introT eqP e1) (introT eqP e2) /=; eexists; split; [reflexivity|] => i.
  by apply/rowP => j; rewrite !mxE.
- by rewrite addnC.
- by rewrite addnC.
- by rewrite addnC.
Qed.

Lemma zrows_bad nF n Z : ~~ imp_shape nF n Z -> exists e, zrows nF n Z = Raise e /\
   (e = if size (nd_shape Z) == 1%N then ValueError else TypeError).
Proof.
rewrite /imp_shape !inE; case: Z => [c|s|m k A|m k s|d] //=.
- move=> H; exists ValueError; split=> //; case: ifP => // /eqP e; by move: H; rewrite e eqxx.
- move=> H; exists TypeError; split=> //; case: andP => // -[/eqP e1 /eqP e2].
  by exfalso; move: H; rewrite e1 e2 eqxx orbT.
- by move=> _; exists TypeError.
- by move=> _; exists TypeError; split=> //; rewrite size_nseq addnC.
Qed.

Lemma c02_any n (s : seq 'M[C]_n) (Z1 Z2 : nd C) t1 t2 R :
  typ_ok t1 -> typ_ok t2 -> (0 < size s)%N ->
  imp_shape (size s) n Z1 -> imp_shape (size s) n Z2 ->
  (forall k, (k < size s)%N -> adm t1 (imp_row n Z1 k) /\ adm t2 (imp_row n Z2 k)) ->
  ConvertGeneral Z2 (Nd3 s) Z1 t1 t2 = Ok R <->
  exists r : seq 'M[C]_n, [/\ R = Nd3 r, size r = size s &
    forall k, (k < size s)%N -> forall v i,
      relates t1 (imp_row n Z1 k) (nth 0 s k) v i <-> relates t2 (imp_row n Z2 k) (nth 0 r k) v i].
Proof.
move=> Ht1 Ht2 Hs /zrowsE [z1 [E1 H1]] /zrowsE [z2 [E2 H2]] Ha.
rewrite /ConvertGeneral /= sqs_id /= /coeffs E1 E2 /= Ht1 Ht2 /=.
split=> [|[r [-> Hr Hk]]].
- case E: (mapM _ _) => [r|] //= H.
  have [Hsz Hn] := iffLR (mapM_Ok _ _ _) E; rewrite size_iota in Hsz Hn.
  exists r; split=> //.
    by case: (r) H Hsz => [|y ys] //= [<-] //; rewrite // => Hz; rewrite Hz in Hs.
  move=> k Hlt; have := Hn k 0%N 0 Hlt; rewrite nth_iota // add0n H1 H2.
  by have [a1 a2] := Ha k Hlt; move/(iffLR (convert1_iff _ _ Ht1 Ht2 a1 a2)).
- have -> : mapM (fun k : nat => convert1 (z2 k) (nth 0 s k) (z1 k) t1 t2)
       (iota 0 (size s)) = Ok r; last first.
    by case: (r) Hr => [|y ys] //= Hz; rewrite -Hz in Hs.
  apply/mapM_Ok; rewrite size_iota; split=> // k x0 y0 Hlt.
  rewrite nth_iota // add0n H1 H2.
  have [a1 a2] := Ha k Hlt.
  have -> : nth y0 r k = nth 0 r k by apply: set_nth_default; rewrite Hr.
  by apply/(convert1_iff _ _ Ht1 Ht2 a1 a2); apply: Hk.
Qed.

(** one matrix is a stack of one matrix, one value a matrix of size one *)
Lemma c02_any_matrix n (S1 : 'M[C]_n) (Z1 Z2 : nd C) t1 t2 R :
  typ_ok t1 -> typ_ok t2 -> imp_shape 1 n Z1 -> imp_shape 1 n Z2 ->
  adm t1 (imp_row n Z1 0) -> adm t2 (imp_row n Z2 0) ->
  ConvertGeneral Z2 (Nd2 S1) Z1 t1 t2 = Ok R <->
  exists S2 : 'M[C]_n, R = Nd2 S2 /\
    forall v i, relates t1 (imp_row n Z1 0) S1 v i <-> relates t2 (imp_row n Z2 0) S2 v i.
Proof.
move=> Ht1 Ht2 /zrowsE [z1 [E1 H1]] /zrowsE [z2 [E2 H2]] a1 a2.
rewrite /ConvertGeneral /= sq_id /= /coeffs E1 E2 /= Ht1 Ht2 /= H1 H2.
have := @convert1_iff C n t1 t2 _ _ S1 _ Ht1 Ht2 a1 a2.
case: (convert1 _ _ _ _ _) => [S2|e] /= H; split=> //.
- by case=> <-; exists S2; split=> //; apply/H.
- by case=> S2' [-> /H [->]].
- by case=> S2' [_ /H].
Qed.

Lemma c02_any_scalar (s1 : C) (Z1 Z2 : nd C) t1 t2 R :
  typ_ok t1 -> typ_ok t2 -> imp_shape 1 1 Z1 -> imp_shape 1 1 Z2 ->
  adm t1 (imp_row 1 Z1 0) -> adm t2 (imp_row 1 Z2 0) ->
  ConvertGeneral Z2 (Nd0 s1) Z1 t1 t2 = Ok R <->
  exists s2 : C, R = Nd0 s2 /\
    forall v i, relates t1 (imp_row 1 Z1 0) (s1%:M) v i <-> relates t2 (imp_row 1 Z2 0) (s2%:M) v i.
Proof.
move=> Ht1 Ht2 /zrowsE [z1 [E1 H1]] /zrowsE [z2 [E2 H2]] a1 a2.
rewrite /ConvertGeneral /= /coeffs E1 E2 /= Ht1 Ht2 /= H1 H2.
have := @convert1_iff C 1 t1 t2 _ _ s1%:M _ Ht1 Ht2 a1 a2.
case: (convert1 _ _ _ _ _) => [S2|e] /= H; split=> //.
- case=> <-; exists (S2 0 0); split=> //; apply/H.
  by congr Ok; apply/matrixP => i j; rewrite !ord1 mxE eqxx mulr1n.
- by case=> s2 [-> /H [->]]; rewrite mxE eqxx mulr1n.
- by case=> S2' [_ /H].
Qed.

(** refused impedances *)
Lemma c07_bad_impedance n (S1 : 'M[C]_n) (s : seq 'M[C]_n) (Z1 Z2 : nd C) t1 t2 :
  let exc (Z : nd C) := if size (nd_shape Z) == 1%N then ValueError else TypeError in
  [/\ ~~ imp_shape 1 n Z1 -> ConvertGeneral Z2 (Nd2 S1) Z1 t1 t2 = Raise (exc Z1),
      imp_shape 1 n Z1 -> typ_ok t1 -> ~~ imp_shape 1 n Z2 ->
        ConvertGeneral Z2 (Nd2 S1) Z1 t1 t2 = Raise (exc Z2),
      ~~ imp_shape (size s) n Z1 -> ConvertGeneral Z2 (Nd3 s) Z1 t1 t2 = Raise (exc Z1) &
      imp_shape (size s) n Z1 -> typ_ok t1 -> ~~ imp_shape (size s) n Z2 ->
        ConvertGeneral Z2 (Nd3 s) Z1 t1 t2 = Raise (exc Z2)].
Proof.
rewrite /ConvertGeneral /= sq_id sqs_id /= /coeffs; split.
- by case/zrows_bad => e [-> ->].
- by case/zrowsE => z1 [-> _] /= -> /zrows_bad [e [-> ->]].
- by case/zrows_bad => e [-> ->].
- by case/zrowsE => z1 [-> _] /= -> /zrows_bad [e [-> ->]].
Qed.

Lemma c03_identity_any n (s : seq 'M[C]_n) (Z : nd C) t : typ_ok t -> (0 < size s)%N ->
  imp_shape (size s) n Z -> (forall k, (k < size s)%N -> adm t (imp_row n Z k)) ->
  ConvertGeneral Z (Nd3 s) Z t t = Ok (Nd3 s).
Proof.
move=> Ht Hs Hi Ha; apply/c02_any => //; first by move=> k Hk; split; apply: Ha.
by exists s; split.
Qed.
End ConvMore.

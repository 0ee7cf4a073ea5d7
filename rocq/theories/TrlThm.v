(** Proofs about rfTRL. *)
From mathcomp Require Import all_ssreflect all_algebra.
From mathcomp.algebra_tactics Require Import ring.
From Coq Require Import String.
From Verif Require Import Base ConvModel ConvSpec MxLib ConvProofs ConvArr DevModel DevSpec DevThm TrlModel TrlSpec.
Set Implicit Arguments.
Unset Strict Implicit.
Unset Printing Implicit Defensive.
Import Order.TTheory GRing.Theory Num.Theory.
Local Open Scope ring_scope.

Section Laws.
Variable C : numClosedFieldType.
Implicit Types (v i z t : C).

(** S_from_VI: the relation is complete *)
Lemma svi_scat (M : 'M[C]_2) z S : z != 0 -> s_from_vi1 M z = Ok S ->
  is_scat2 (fun v1 v2 i1 i2 => v2 = M 0 0 * v1 - M 0 1 * i1 /\ i2 = M 1 0 * v1 - M 1 1 * i1) z S.
Proof.
move=> Hz HS; have HI := iffLR (s_from_vi1_iff M S Hz) HS.
move=> v1 v2 i1 i2; split=> [[-> ->]|].
  by have /= := HI v1 (- i1); rewrite !mulrN opprK.
move: HS; rewrite /s_from_vi1; set A := \matrix_(i, j) _; set B := \matrix_(i, j) _.
case E: (np_inv A) => [Ai|] //= [ES]; move/np_invE: E => [Hu EAi].
pose a := col2 (v1 + z * i1) (v2 + z * i2).
have [p Hp Hp'] : exists2 p, A *m p = a & invmx A *m a = p by exists (invmx A *m a); rewrite ?mulKVmx.
move=> /rel2_wave; rewrite -ES EAi -mulmxA -/a Hp' => Hb.
pose q1 : C := p 0 0; pose q2 : C := p 1 0.
have HA : A *m p = col2 (q1 - z * q2) (M 0 0 * q1 + M 0 1 * q2 + z * (M 1 0 * q1 + M 1 1 * q2)).
  by apply/cV_extP; apply: ord2P; rewrite mulmx_cVE sum2 !mxE /= -/q1 -/q2; ring.
have HB : B *m p = col2 (q1 + z * q2) (M 0 0 * q1 + M 0 1 * q2 - z * (M 1 0 * q1 + M 1 1 * q2)).
  by apply/cV_extP; apply: ord2P; rewrite mulmx_cVE sum2 !mxE /= -/q1 -/q2; ring.
move: Hp Hb; rewrite HA HB => /col2_inj [Ea1 Ea2] /col2_inj [Eb1 Eb2].
have S2 (a1 b1 a2 b2 : C) : a1 + z * b1 = a2 + z * b2 -> a1 - z * b1 = a2 - z * b2 -> a1 = a2 /\ b1 = b2.
  move=> F1 F2; have E1 : a1 = a2.
    apply: half_inj; transitivity ((a1 + z * b1) + (a1 - z * b1)); first by ring.
    by rewrite F1 F2; ring.
  by split=> //; apply: (mulfI Hz); apply: (addrI a1); rewrite F1 E1.
have [] := S2 q1 (- q2) v1 i1; rewrite ?mulrN ?opprK // => E1 E2.
have [] := S2 _ _ _ _ Ea2 (esym Eb2) => E3 E4.
have E5 : q2 = - i1 by rewrite -E2 opprK.
by rewrite -E3 -E4 E1 E5; split; ring.
Qed.

Lemma is_scat2_ext (l1 l2 : C -> C -> C -> C -> Prop) z S :
  (forall v1 v2 i1 i2, l1 v1 v2 i1 i2 <-> l2 v1 v2 i1 i2) -> is_scat2 l1 z S -> is_scat2 l2 z S.
Proof. by move=> H HS v1 v2 i1 i2; rewrite -H HS. Qed.

Lemma line_recip t Zc v1 v2 i1 i2 v1' v2' i1' i2' : Zc != 0 ->
  line_law t Zc v1 v2 i1 i2 -> line_law t Zc v1' v2' i1' i2' ->
  i1 * v1' + i2 * v2' = v1 * i1' + v2 * i2'.
Proof.
move=> Hz [A1 A2] [B1 B2].
apply: (mulfI (_ : 2%:R * Zc != 0)); first by rewrite mulf_neq0 // two_neq0.
apply/eqP; rewrite -subr_eq0; apply/eqP.
transitivity ((v1 + Zc * i1) * (v1' - Zc * i1') - (v1 - Zc * i1) * (v1' + Zc * i1') +
   ((v2 + Zc * i2) * (v2' - Zc * i2') - (v2 - Zc * i2) * (v2' + Zc * i2'))); first by ring.
by rewrite A1 A2 B1 B2; ring.
Qed.

Lemma through_recip v1 v2 i1 i2 v1' v2' i1' i2' :
  through_law v1 v2 i1 i2 -> through_law v1' v2' i1' i2' -> i1 * v1' + i2 * v2' = v1 * i1' + v2 * i2'.
Proof.
move=> [-> A] [-> B]; rewrite -mulrDl -mulrDr A B; ring.
Qed.

(** cascade of two lines *)
Lemma line_cascade t1 t2 Zc v1 v2 i1 i2 : Zc != 0 -> t1 != 0 -> t2 != 0 ->
  cascade (line_law t1 Zc) (line_law t2 Zc) v1 v2 i1 i2 <-> line_law (t1 * t2) Zc v1 v2 i1 i2.
Proof.
move=> Hz H1 H2; split.
  case=> vm [im [[A1 A2] [B1 B2]]].
  rewrite /line_law !mulrN opprK in A1 A2 B1 B2 *; split.
    by rewrite B1 A1; ring.
  by rewrite A2 -mulrA -B2.
case=> A B.
exists ((t1 * (v1 + Zc * i1) + t2 * (v2 + Zc * i2)) / 2%:R), ((t2 * (v2 + Zc * i2) - t1 * (v1 + Zc * i1)) / (2%:R * Zc)).
have E1 : (t1 * (v1 + Zc * i1) + t2 * (v2 + Zc * i2)) / 2%:R - Zc * ((t2 * (v2 + Zc * i2) - t1 * (v1 + Zc * i1)) / (2%:R * Zc)) = t1 * (v1 + Zc * i1).
  by field; rewrite Hz.
have E2 : (t1 * (v1 + Zc * i1) + t2 * (v2 + Zc * i2)) / 2%:R + Zc * ((t2 * (v2 + Zc * i2) - t1 * (v1 + Zc * i1)) / (2%:R * Zc)) = t2 * (v2 + Zc * i2).
  by field; rewrite Hz.
by split; split; rewrite ?mulrN ?opprK ?E1 ?E2 ?A ?B; ring.
Qed.

Lemma line_power t Zc v1 v2 i1 i2 : 0 < Zc -> `|t| <= 1 -> line_law t Zc v1 v2 i1 i2 ->
  0 <= power (col2 v1 v2) (col2 i1 i2).
Proof.
move=> Hz Ht [A B].
have K v i : 'Re (v * i^*) = (`|v + Zc * i| ^+ 2 - `|v - Zc * i| ^+ 2) / (4%:R * Zc).
  rewrite ReE !normCK !rmorphD !rmorphM rmorphN !rmorphM /= conjCK (conj_Creal (gtr0_real Hz)).
  by field; rewrite gt_eqF.
rewrite /power sum2 !mxE /= !K B A !normrM !exprMn -mulrDl.
apply: mulr_ge0; last by rewrite invr_ge0 mulr_ge0 ?ler0n // ltW.
have Ht2 : 0 <= 1 - `|t| ^+ 2 by rewrite subr_ge0 expr_le1.
have -> : forall x y : C, x - `|t| ^+ 2 * y + (y - `|t| ^+ 2 * x) = (1 - `|t| ^+ 2) * (x + y) by move=> *; ring.
by rewrite mulr_ge0 // addr_ge0 // exprn_ge0.
Qed.

Lemma line_lossless t Zc v1 v2 i1 i2 v1' v2' i1' i2' : Zc \is Num.real -> Zc != 0 -> t * t^* = 1 ->
  line_law t Zc v1 v2 i1 i2 -> line_law t Zc v1' v2' i1' i2' ->
  v1 * i1'^* + i1 * v1'^* + (v2 * i2'^* + i2 * v2'^*) = 0.
Proof.
move=> Hr Hz Ht [A B] [A' B'].
have K v i v' i' : v * i'^* + i * v'^* =
    ((v + Zc * i) * (v' + Zc * i')^* - (v - Zc * i) * (v' - Zc * i')^*) / (2%:R * Zc).
  rewrite !rmorphD !rmorphN !rmorphM /= (conj_Creal Hr).
  by field; rewrite Hz.
rewrite !K A B A' B' !rmorphM /=; set x := v1 + _; set y := v2 + _; set x' := (v1' + _)^*; set y' := (v2' + _)^*.
transitivity ((1 - t * t^*) * (x * x' + y * y') / (2%:R * Zc)); last by rewrite Ht subrr !mul0r.
by field; rewrite Hz.
Qed.

(** matched *)
Lemma line_matched t Zc S : Zc != 0 -> is_scat2 (line_law t Zc) Zc S -> S = mx2 0 t t 0.
Proof.
move=> Hz H; apply: (is_scat2_uniq Hz H) => v1 v2 i1 i2.
rewrite rel2 !mxE /= !mul0r add0r addr0.
by split=> -[A B]; split.
Qed.
Lemma through_S z S : z != 0 -> is_scat2 (@through_law C) z S -> S = mx2 0 1 1 0.
Proof.
move=> Hz H; apply: (is_scat2_uniq Hz H) => v1 v2 i1 i2.
rewrite rel2 !mxE /= !mul0r add0r addr0 !mul1r; split.
  move=> [-> E]; have -> : i2 = - i1 by apply/eqP; rewrite -addr_eq0 addrC E.
  by split; ring.
move=> [A B]; have E : v1 = v2.
  apply: half_inj; transitivity ((v1 - z * i1) + (v1 + z * i1)); first by ring.
  by rewrite A -B; ring.
split=> //; apply: (mulfI Hz).
transitivity ((v2 + z * i2) - (v1 - z * i1) + (v1 - v2)); first by ring.
by rewrite A E; ring.
Qed.

(** a scattering matrix describes a line on every reference impedance where it exists *)
Lemma scat2_unitary law z S : 0 < z -> is_scat2 law z S ->
  (forall v1 v2 i1 i2 v1' v2' i1' i2', law v1 v2 i1 i2 -> law v1' v2' i1' i2' ->
     v1 * i1'^* + i1 * v1'^* + (v2 * i2'^* + i2 * v2'^*) = 0) -> unitary S.
Proof.
move=> Hz HS H; apply/(unitary_iff_lossless _ (posV Hz)) => v i v' i'.
rewrite (col2E v) (col2E i) (col2E v') (col2E i') -!HS => L1 L2.
rewrite /hdot !sum2 !mxE /=.
rewrite -(H _ _ _ _ _ _ _ _ L1 L2); ring.
Qed.
Lemma scat2_passive law z S : 0 < z -> is_scat2 law z S ->
  (forall v1 v2 i1 i2, law v1 v2 i1 i2 -> 0 <= power (col2 v1 v2) (col2 i1 i2)) -> passive S.
Proof.
move=> Hz HS H; apply/(passive_iff _ (posV Hz)) => v i.
by rewrite (col2E v) (col2E i) -!HS; apply: H.
Qed.
End Laws.

Arguments TrlModel.vi_at : simpl never.
Arguments TrlModel.solve0 : simpl never.
Section Line.
Variable C : numClosedFieldType.
Variables (exp rjwL gjwC : C -> C) (nodes : C -> C -> seq C).
Local Notation vi_at := (vi_at exp rjwL gjwC).
Local Notation solve0 := (solve0 exp rjwL gjwC nodes).
Local Notation trl_getS := (trl_getS exp rjwL gjwC nodes).
Local Notation trl_getSs := (trl_getSs exp rjwL gjwC nodes).
Local Notation VISWs := (VISWs exp rjwL gjwC nodes).
Local Notation solveVI := (solveVI exp rjwL gjwC nodes).

(** propagation constant and characteristic impedance *)
Definition gam (w : C) := np_sqrt (rjwL w * gjwC w).
Definition Zchar (w : C) := rjwL w / gam w.

Lemma vi_at_line w x M : vi_at false w x = Ok M ->
  [/\ gam w != 0, exp (gam w * x) != 0, Zchar w != 0 &
   forall v0 i0 v i, (v = M 0 0 * v0 + M 0 1 * i0 /\ i = M 1 0 * v0 + M 1 1 * i0) <->
     tl_point (exp (gam w * x)) (Zchar w) v0 i0 v i].
Proof.
rewrite /TrlModel.vi_at /pdiv /= -/(gam w); case: ifP => // /negbT Hg /=; rewrite -/(Zchar w).
case: ifP => // /negbT He /=; case: ifP => // /negbT Hz [<-]; split=> // v0 i0 v i.
rewrite !mxE /=; set e := exp _ in He *; set Zc := Zchar w in Hz *.
split.
  case=> -> ->; split; field; rewrite ?He ?Hz //.
case=> A B; split.
  transitivity (((v + Zc * i) + (v - Zc * i)) / 2%:R); first by field.
  by rewrite A B; field; rewrite ?He ?Hz.
transitivity (((v + Zc * i) - (v - Zc * i)) / (2%:R * Zc)); first by field; rewrite Hz.
by rewrite A B; field; rewrite ?He ?Hz.
Qed.

Lemma vi_at_ok w x : gam w != 0 -> exp (gam w * x) != 0 -> exists M, vi_at false w x = Ok M.
Proof.
move=> Hg He; rewrite /TrlModel.vi_at /pdiv /= -/(gam w) (negbTE Hg) /= (negbTE He) /=.
have Hz : rjwL w / gam w != 0.
  rewrite mulf_neq0 ?invr_neq0 //; apply: contraNneq Hg => E.
  by rewrite /gam E mul0r np_sqrt_eq0.
by rewrite (negbTE Hz) /=; eexists.
Qed.

(** the line between the end points: a direct connection for L = 0 *)
Definition tl_law (L w : C) (v1 v2 i1 i2 : C) : Prop :=
  if L == 0 then through_law v1 v2 i1 i2
  else line_law (exp (gam w * L))^-1 (Zchar w) v1 v2 i1 i2.

(** node points run from 0 to L *)
Definition good_nodes := forall L w, exists s, nodes L w = 0 :: rcons s L.
Hypothesis Hnodes : good_nodes.

Lemma eq_mapM A B (f g : A -> res B) xs : (forall x, f x = g x) -> mapM f xs = mapM g xs.
Proof. by move=> H; elim: xs => //= x xs ->; rewrite H. Qed.

Lemma mapM_last A B (f : A -> res B) xs x ys : mapM f (rcons xs x) = Ok ys ->
  exists ys' y, ys = rcons ys' y /\ f x = Ok y.
Proof.
elim: xs ys => [|a xs IH] ys /=.
  by case E: (f x) => [y|] //= [<-]; exists [::], y.
case: (f a) => [b|] //=; case E: (mapM _ _) => [zs|] //= [<-].
by have [ys' [y [-> Hy]]] := IH _ E; exists (b :: ys'), y.
Qed.

Lemma solve0_last L zb w e : solve0 L zb w = Ok e ->
  exists VI M, [/\ e_VI e = rcons VI M, vi_at (L == 0) w L = Ok M & s_from_vi1 M zb = Ok (e_S e)].
Proof.
rewrite /TrlModel.solve0; have [s ->] := Hnodes L w; rewrite /= last_rcons eq_sym.
case: eqP => [->|_] /=.
  case E: (s_from_vi1 _ _) => [Sm|] //= [<-] /=.
  by exists [:: mx2 1 0 0 1], (mx2 1 0 0 1).
case E0: (TrlModel.vi_at _ _ _ _ _ (0 : C)) => [M0|] //=; case E: (mapM _ _) => [VI|] //=.
have [VI' [M [-> HM]]] := mapM_last E; rewrite last_rcons.
by case ES: (s_from_vi1 _ _) => [Sm|] //= [<-] /=; exists (M0 :: VI'), M.
Qed.

Lemma solve0_scat L zb w e : zb != 0 -> solve0 L zb w = Ok e -> is_scat2 (tl_law L w) zb (e_S e).
Proof.
move=> Hz /solve0_last [_ [M [_ HM /(svi_scat Hz)]]]; apply: is_scat2_ext => v1 v2 i1 i2.
rewrite /tl_law; case: eqP HM => [_|_] HM.
  move: HM; rewrite /TrlModel.vi_at => -[<-]; rewrite !mxE /= !mul1r !mul0r subr0 sub0r.
  split=> -[-> E]; split=> //; first by rewrite E subrr.
  by apply/eqP; rewrite -addr_eq0 addrC E.
have [Hg He Hzc H] := vi_at_line HM.
have := H v1 (- i1) v2 i2; rewrite !mulrN => ->.
set t := exp _ in He *; rewrite /tl_point /line_law mulrN opprK.
split=> -[A B]; split.
- exact: B.
- by apply: (mulfI He); rewrite -A mulrA divff // mul1r.
- by rewrite B mulrA divff // mul1r.
- exact: A.
Qed.

(** ** getS *)
Definition zref0 (o : trl C) (Zb : option C) : C := if truthy Zb is Some z then z else t_zb o.

Lemma trl_set_nil (o : trl C) : trl_set o [::] = (with_solved o [::], Ok false).
Proof. by []. Qed.

Lemma set_loop_solved (o o' : trl C) kw m m' : set_loop o kw m = (o', Ok m') -> t_solved o' = [::].
Proof.
elim: kw o m => [|[k v] kw IH] o m /=; first by case=> <-.
by case: ifP => _; [apply: IH|case: ifP => _ //; apply: IH].
Qed.

Lemma trl_getS_law o w Zb p S : t_zb (trl_set o p).1 != 0 -> zref0 (trl_set o p).1 Zb != 0 ->
  (trl_getS o w Zb p).2 = Ok S ->
  is_scat2 (tl_law (t_L (trl_set o p).1) w) (zref0 (trl_set o p).1 Zb) S.
Proof.
rewrite /TrlModel.trl_getS; case Es: (trl_set o p) => [o1 [m|//]] /= Hb Hz.
have Hs := set_loop_solved Es.
rewrite /trl_get1S /TrlModel.solveVI Hs /=.
case E: (TrlModel.solve0 _ _ _ _ _ _ _) => [e|] //=; have HS := solve0_scat Hb E.
rewrite /zref0 in Hz *; case: (truthy Zb) Hz => [z|] Hz; last by move=> [<-].
case: ifP => [Hne|/negbFE/eqP ->]; last by move=> [<-].
by move/(scat2_convert S Hb Hz HS).
Qed.

(** getS does not depend on what was solved before *)
Lemma trl_getS_fresh (o : trl C) w Zb p s : (trl_getS (with_solved o s) w Zb p).2 = (trl_getS o w Zb p).2.
Proof.
rewrite /TrlModel.trl_getS /trl_set.
have : forall o1 m, match set_loop (with_solved o1 s) p m, set_loop o1 p m with
   | (_, Raise x), (_, Raise y) => x = y | (a, Ok _), (b, Ok _) => a = b | _, _ => False end.
  elim: p => [|[k v] p IH] o1 m //=.
  by case: ifP => _; [apply: (IH (Trl _ _ _))|case: ifP => _ //; apply: (IH (Trl _ _ _))].
move=> /(_ o false); case: (set_loop _ _ _) => o1 [m1|x1]; case: (set_loop _ _ _) => o2 [m2|x2] //.
  by move=> ->.
by move=> /= ->.
Qed.

(** a list of frequencies *)
Lemma get1S_loop_Ok o Zb ws Ss : (forall w e, dget (t_solved o) w = Some e -> solve0 (t_L o) (t_zb o) w = Ok e) ->
  (get1S_loop exp rjwL gjwC nodes o Zb ws).2 = Ok Ss <->
  mapM (fun w => (trl_getS o w Zb [::]).2) ws = Ok Ss.
Proof.
elim: ws o Ss => [|w ws IH] o Ss Hs /=; first by split.
have H1 : (trl_get1S exp rjwL gjwC nodes o Zb w).2 = (trl_getS o w Zb [::]).2.
  rewrite /TrlModel.trl_getS /trl_get1S trl_set_nil /TrlModel.solveVI /=.
  case E: (dget (t_solved o) w) => [e|]; first by rewrite (Hs _ _ E).
  by case: (TrlModel.solve0 _ _ _ _ _ _ _).
rewrite -H1; case E1: (trl_get1S _ _ _ _ _ _ _) => [o1 [S1|x]] //=.
have [HL [HZ Hs1]] : t_L o1 = t_L o /\ t_zb o1 = t_zb o /\
    (forall w e, dget (t_solved o1) w = Some e -> solve0 (t_L o1) (t_zb o1) w = Ok e).
  move: E1; rewrite /trl_get1S /TrlModel.solveVI; case E: (dget (t_solved o) w) => [e|].
    by case=> <- _.
  case E0: (TrlModel.solve0 _ _ _ _ _ _ _) => [e|] [<- _] /=; split=> //; split=> // w' e'.
  by rewrite dget_dset; case: eqP => [-> [<-]|_] //; apply: Hs.
have := IH o1 ^~ Hs1; case: (get1S_loop _ _ _ _ _ _ _) => o2 [l|x] /= IH1.
  have := iffLR (IH1 l) erefl => E; suff -> : mapM (fun w => (trl_getS o w Zb [::]).2) ws = Ok l by [].
  by rewrite -E; apply: eq_mapM => w'; rewrite /TrlModel.trl_getS !trl_set_nil /with_solved HL HZ.
case E: (mapM _ ws) => [l|y] //=.
have : Raise x = Ok l :> res (seq 'M[C]_2); last by [].
apply/IH1; rewrite -E; apply: eq_mapM => w'; by rewrite /TrlModel.trl_getS !trl_set_nil /with_solved HL HZ.
Qed.

(** ** VISWs *)
(** what VISWs computes, without the stored results *)
Definition visw0 (L zb w a1 a2 z : C) : res (seq C * (seq C * seq C)) :=
  do e <- solve0 L zb w;
  do Sm <- (if truthy (Some z) is Some z' then
              if z' != zb then convert1 (const_mx z') (e_S e) (const_mx zb) "V" "V" else Ok (e_S e)
            else Ok (e_S e));
  let b1 := Sm 0 0 * a1 + Sm 0 1 * a2 in
  do I0 <- pdiv (- (a1 - b1)) z;
  Ok (e_xs e, profile e (a1 + b1) I0).

(** everything stored agrees with a fresh computation *)
Definition consistent (o : trl C) : Prop :=
  forall w e, dget (t_solved o) w = Some e ->
    exists2 e0, solve0 (t_L o) (t_zb o) w = Ok e0 &
     [/\ e_xs e = e_xs e0, e_S e = e_S e0, e_VI e = e_VI e0 &
      forall a z sw, dget (e_sw e) (a, z) = Some sw ->
        exists a1 a2, a = [:: a1; a2] /\ visw0 (t_L o) (t_zb o) w a1 a2 z = Ok (e_xs e0, sw)].

Lemma consistent_nil o : consistent (with_solved o [::]).
Proof. by []. Qed.

Lemma solveVI_consistent o w : consistent o -> consistent (solveVI o w).1 /\
  t_L (solveVI o w).1 = t_L o /\ t_zb (solveVI o w).1 = t_zb o.
Proof.
move=> Ho; rewrite /TrlModel.solveVI; case E: (dget _ _) => [e|] //.
case E0: (TrlModel.solve0 _ _ _ _ _ _ _) => [e|] //=; split=> // w' e'.
rewrite /= dget_dset; case: eqP => [-> [<-]|_]; last exact: Ho.
exists e => //; split=> // a z sw.
by move: E0; rewrite /TrlModel.solve0; case: (mapM _ _) => //= VI; case: (s_from_vi1 _ _) => //= Sm [<-].
Qed.

Lemma get1S_consistent o Zb w : consistent o -> consistent (trl_get1S exp rjwL gjwC nodes o Zb w).1 /\
  t_L (trl_get1S exp rjwL gjwC nodes o Zb w).1 = t_L o /\ t_zb (trl_get1S exp rjwL gjwC nodes o Zb w).1 = t_zb o.
Proof.
by move=> Ho; have := solveVI_consistent w Ho; rewrite /trl_get1S; case: (TrlModel.solveVI _ _ _ _ _ _).
Qed.

Lemma loop_consistent o Zb ws : consistent o -> consistent (get1S_loop exp rjwL gjwC nodes o Zb ws).1.
Proof.
elim: ws o => [|w ws IH] o Ho //=.
have [H _] := get1S_consistent Zb w Ho; case: (trl_get1S _ _ _ _ _ _ _) H => o1 [S1|x] //= H.
by have := IH _ H; case: (get1S_loop _ _ _ _ _ _ _).
Qed.

Lemma visw_step o w a1 a2 Zb : consistent o ->
  consistent (VISWs o w a1 a2 Zb).1 /\
  (VISWs o w a1 a2 Zb).2 = visw0 (t_L o) (t_zb o) w a1 a2 (zref0 o Zb).
Proof.
move=> Ho; rewrite /TrlModel.VISWs.
set hit := (if dget (t_solved o) w is Some e then _ else _).
case Eh: hit => [sw|].
  move: Eh; rewrite /hit; case E: (dget _ w) => [e|] //; case: Zb {hit} => [z|] // Hsw.
  split=> //=; have [e0 He0 [H1 H2 H3 /(_ _ _ _ Hsw)]] := Ho _ _ E.
  case=> b1 [b2 [[<- <-] Hv]].
  have Hz : truthy (Some z) = Some z.
    move: Hv; rewrite /visw0 He0 /=; case: (z =P 0) => [->|] //=.
    by rewrite /pdiv /= eqxx.
  by rewrite /zref0 Hz Hv H1.
rewrite -/(zref0 o Zb); set z := zref0 o Zb.
rewrite /TrlModel.trl_getS trl_set_nil /trl_get1S /TrlModel.solveVI /=.
rewrite /visw0; case E0: (TrlModel.solve0 _ _ _ _ _ _ _) => [e|] //=.
set r := (match _ with Some _ => _ | None => _ end).
have Hc1 : consistent (Trl (t_L o) (t_zb o) [:: (w, e)]).
  have := (solveVI_consistent w (@consistent_nil o)).1; rewrite /TrlModel.solveVI /= E0 //.
rewrite /with_solved /=.
case Er: r => [Sm|] //=.
case Ep: (pdiv _ _) => [I0|] //=; rewrite eqxx /= eqxx /=; split=> // w' e'.
rewrite /=; case: eqP => [->|//] [<-]; exists e => //; split=> // a z' sw /=.
rewrite dget_dset; case: eqP => [[-> ->] [<-]|_].
  by exists a1, a2; split=> //; rewrite /visw0 E0 /= -/r Er /= Ep.
move=> Hsw; have [e0] : exists2 e0, solve0 (t_L o) (t_zb o) w = Ok e0 & _ := Hc1 w e (etrans (congr1 (fun b : bool => if b then Some e else None) (eqxx w)) erefl).
by rewrite /= E0 => -[<-] [_ _ _ H]; apply: H.
Qed.

(** histories without a failing set *)
Definition good_call (o : trl C) (c : trl_call C) : Prop :=
  match c with
  | CSet kw => exists m, (trl_set o kw).2 = Ok m
  | CGetS _ _ p | CGetSs _ _ p => exists m, (trl_set o p).2 = Ok m
  | CVISWs _ _ _ _ => True
  end.
Fixpoint good_calls (o : trl C) (cs : seq (trl_call C)) : Prop :=
  if cs is c :: cs' then good_call o c /\ good_calls (trl_do exp rjwL gjwC nodes o c) cs' else True.

Lemma do_consistent o c : consistent o -> good_call o c -> consistent (trl_do exp rjwL gjwC nodes o c).
Proof.
move=> Ho; case: c => [kw|w Zb p|ws Zb p|w a1 a2 Zb] /=.
- case Es: (trl_set o kw) => [o1 r] /= [m Er]; rewrite Er in Es.
  by move=> w e; rewrite (set_loop_solved Es).
- rewrite /TrlModel.trl_getS; case Es: (trl_set o p) => [o1 r] /= [m Er]; rewrite Er in Es *.
  have H1 : consistent o1 by move=> w' e; rewrite (set_loop_solved Es).
  by have [] := get1S_consistent Zb w H1.
- rewrite /TrlModel.trl_getSs; case Es: (trl_set o p) => [o1 r] /= [m Er]; rewrite Er in Es *.
  have H1 : consistent o1 by move=> w' e; rewrite (set_loop_solved Es).
  exact: loop_consistent.
- by move=> _; have [] := visw_step w a1 a2 Zb Ho.
Qed.

Lemma run_consistent o cs : consistent o -> good_calls o cs ->
  consistent (foldl (trl_do exp rjwL gjwC nodes) o cs).
Proof.
by elim: cs o => //= c cs IH o Ho [Hc Hcs]; apply: IH => //; apply: do_consistent.
Qed.

(** ** the profile *)
Lemma mapM_nth A B (f : A -> res B) xs ys x0 y0 : mapM f xs = Ok ys ->
  size ys = size xs /\ forall k, (k < size xs)%N -> f (nth x0 xs k) = Ok (nth y0 ys k).
Proof. by move/mapM_Ok => [-> H]; split=> // k Hk; apply: H. Qed.

Lemma solve0_VI L zb w e : solve0 L zb w = Ok e ->
  [/\ mapM (vi_at (L == 0) w) (e_xs e) = Ok (e_VI e), exists s, e_xs e = 0 :: rcons s L &
      L != 0 -> e_xs e = nodes L w].
Proof.
rewrite /TrlModel.solve0; have [s ->] := Hnodes L w; rewrite /= last_rcons eq_sym.
case: eqP => [->|_].
  case E: (mapM _ _) => [VI|] //; rewrite [bind (Ok VI) _]/=.
  case: (s_from_vi1 _ _) => // Sm [<-].
  by split=> //; exists [::].
case E: (mapM _ _) => [VI|] //; rewrite [bind (Ok VI) _]/=.
case: (s_from_vi1 _ _) => // Sm [<-].
by split=> //; exists s.
Qed.

Lemma tl_point_uniq (g Zc v0 i0 v i v' i' : C) : Zc != 0 -> tl_point g Zc v0 i0 v i -> tl_point g Zc v0 i0 v' i' ->
  v = v' /\ i = i'.
Proof.
move=> Hz [A B] [A' B']; have E : v = v'.
  apply: half_inj; transitivity ((v + Zc * i) + (v - Zc * i)); first by ring.
  by rewrite A B -A' -B'; ring.
by split=> //; apply: (mulfI Hz); apply: (addrI v); rewrite A E -A'.
Qed.

Lemma visw0_profile L zb w a1 a2 z xs V I v1 v2 i1 i2 : exp 0 = 1 -> zb != 0 -> z != 0 ->
  visw0 L zb w a1 a2 z = Ok (xs, (V, I)) ->
  tl_law L w v1 v2 i1 i2 -> (v1 + z * i1) / 2%:R = a1 -> (v2 + z * i2) / 2%:R = a2 ->
  [/\ size V = size xs /\ size I = size xs, (exists s, xs = 0 :: rcons s L) /\ (L != 0 -> xs = nodes L w),
      head 0 V = v1 /\ head 0 I = - i1, last 0 V = v2 /\ last 0 I = i2 &
      L != 0 -> forall k, (k < size xs)%N -> tl_point (exp (gam w * xs`_k)) (Zchar w) v1 (- i1) V`_k I`_k].
Proof.
move=> He0 Hzb Hz; rewrite /visw0; case E: (TrlModel.solve0 _ _ _ _ _ _ _) => [e|] //=.
set r := (match _ with Some _ => _ | None => _ end); case Er: r => [Sm|] //=.
rewrite /pdiv /= (negbTE Hz) /= => -[<- <- <-] HL Ha1 Ha2.
have HS : is_scat2 (tl_law L w) z Sm.
  have HS0 := solve0_scat Hzb E; move: Er; rewrite /r (negbTE Hz).
  case: ifP => [_|/negbFE/eqP ->]; last by move=> [<-].
  by move/(scat2_convert Sm Hzb Hz HS0).
have /rel2 [Hb _] := iffLR (HS _ _ _ _) HL.
have Eb : Sm 0 0 * a1 + Sm 0 1 * a2 = (v1 - z * i1) / 2%:R.
  by rewrite Hb -Ha1 -Ha2; field.
have EV : a1 + (Sm 0 0 * a1 + Sm 0 1 * a2) = v1 by rewrite Eb -Ha1; field.
have EI : - (a1 - (Sm 0 0 * a1 + Sm 0 1 * a2)) / z = - i1 by rewrite Eb -Ha1; field; rewrite Hz.
rewrite EV EI; have [HVI [s Exs] Hn] := solve0_VI E.
have [Hsz Hk] := mapM_nth 0 0 HVI.
pose VI k := nth 0 (e_VI e) k.
have HVn k : (k < size (e_xs e))%N -> (nth 0 [seq (M : 'M[C]_2) 0 0 * v1 + M 0 1 * - i1 | M <- e_VI e] k = VI k 0 0 * v1 + VI k 0 1 * - i1) /\
   (nth 0 [seq (M : 'M[C]_2) 1 0 * v1 + M 1 1 * - i1 | M <- e_VI e] k = VI k 1 0 * v1 + VI k 1 1 * - i1).
  by move=> H; rewrite !(nth_map 0) ?Hsz.
have Hs1 : (0 < size (e_xs e))%N by rewrite Exs.
have Hlast : (size (e_xs e)).-1 = (size s).+1 by rewrite Exs /= size_rcons.
have Hsl : ((size s).+1 < size (e_xs e))%N by rewrite Exs /= size_rcons.
have Hxl : (e_xs e)`_(size s).+1 = L by rewrite Exs /= nth_rcons ltnn eqxx.
have Hx0 : (e_xs e)`_0 = 0 by rewrite Exs.
split.
- by rewrite /profile !size_map Hsz.
- by split=> //; exists s.
- rewrite -!nth0; have [-> ->] := HVn _ Hs1.
  have := Hk 0%N Hs1; rewrite -/(VI 0%N) Hx0; case: (L =P 0) => [_|_].
    by rewrite /TrlModel.vi_at => -[<-]; rewrite !mxE /=; split; ring.
  case/vi_at_line => Hg He Hzc /(_ v1 (- i1) v1 (- i1)) [_ H].
  have [] := H; last by move=> <- <-.
  by rewrite /tl_point mulr0 He0 invr1; split; ring.
- rewrite -!nth_last !size_map Hsz Hlast; have [-> ->] := HVn _ Hsl.
  have := Hk _ Hsl; rewrite -/(VI _) Hxl; move: HL; rewrite /tl_law; case: (L =P 0) => [_|_].
    case=> <- Ei; rewrite /TrlModel.vi_at => -[<-]; rewrite !mxE /=; split; first by ring.
    rewrite mul0r add0r mul1r; apply/eqP; rewrite eq_sym -addr_eq0 addrC; exact/eqP.
  move=> [A B]; case/vi_at_line => Hg He Hzc /(_ v1 (- i1) v2 i2) [_ H].
  have [] := H; last by move=> <- <-.
  rewrite /tl_point mulrN opprK A; split=> //.
  by rewrite B mulrA divff // mul1r.
- move=> HL0 k Hkk; have [-> ->] := HVn _ Hkk.
  have := Hk _ Hkk; rewrite (negbTE HL0) -/(VI k).
  by case/vi_at_line => Hg He Hzc H; apply/H.
Qed.

(** the excitation exists *)
Lemma tl_excited L w z S a1 a2 : z != 0 -> is_scat2 (tl_law L w) z S ->
  exists v1 v2 i1 i2, [/\ tl_law L w v1 v2 i1 i2, (v1 + z * i1) / 2%:R = a1 & (v2 + z * i2) / 2%:R = a2].
Proof.
move=> Hz HS.
have [v [i [Hr Ha _]]] := @relates_ex C 2 "V" (const_mx z) S (col2 a1 a2) erefl (admV Hz).
exists (v 0 0), (v 1 0), (i 0 0), (i 1 0); split.
- by apply/HS; rewrite -(col2E v) -(col2E i).
- by have := congr1 (fun y : 'cV[C]_2 => y 0 0) Ha; rewrite !mxE /wave_a /=.
- by have := congr1 (fun y : 'cV[C]_2 => y 1 0) Ha; rewrite !mxE /wave_a /=.
Qed.

(** definedness: the exact conditions *)
Lemma solve0_total L zb w : zb != 0 -> L != 0 -> gam w != 0 ->
  (forall x, exp (gam w * x) != 0) ->
  (exists S, is_scat2 (tl_law L w) zb S) -> exists e, solve0 L zb w = Ok e.
Proof.
move=> Hzb HL Hg He [S HS]; rewrite /TrlModel.solve0; have [s ->] := Hnodes L w.
rewrite /= last_rcons eq_sym (negbTE HL).
have Htot xs : exists VI, mapM (vi_at false w) xs = Ok VI.
  elim: xs => [|x xs [VI IH]] /=; first by eexists.
  by have [M HM] := vi_at_ok Hg (He x); rewrite HM /= IH; eexists.
have [VI0 EVI] := Htot (0 :: rcons s L); rewrite EVI.
change (exists e, (do Sm <- s_from_vi1 (last 0 VI0) zb; Ok (Entry (0 :: rcons s L) Sm VI0 [::])) = Ok e).
have [VI' [M [EM HM]]] := mapM_last (xs := 0 :: s) EVI; rewrite EM last_rcons.
have [_ Hel Hzc H] := vi_at_line HM.
suff -> : s_from_vi1 M zb = Ok S by eexists.
apply/s_from_vi1_iff => // v1 i1 /=; apply/HS; rewrite /tl_law (negbTE HL).
have [A B] := iffLR (H v1 i1 _ _) (conj erefl erefl).
split; first by rewrite mulrN B.
by rewrite mulrN opprK A mulrA mulVf // mul1r.
Qed.

(** a passive line always has a scattering matrix on a positive impedance *)
Lemma line_scat_ex (t Zc z : C) : 0 < Zc -> 0 < z -> t != 0 -> `|t| <= 1 -> exists S, is_scat2 (line_law t Zc) z S.
Proof.
move=> HZ Hz Ht0 Ht; have Hz0 : z != 0 by rewrite gt_eqF.
have HZ0 : Zc != 0 by rewrite gt_eqF.
pose A := mx2 (- t * (z - Zc)) (z + Zc) (z + Zc) (- t * (z - Zc)).
pose B := mx2 (t * (z + Zc)) (- (z - Zc)) (- (z - Zc)) (t * (z + Zc)).
have HL v1 v2 i1 i2 : line_law t Zc v1 v2 i1 i2 <->
    A *m col2 (v1 - z * i1) (v2 - z * i2) = B *m col2 (v1 + z * i1) (v2 + z * i2).
  rewrite !mx2E col2_inj /line_law; split=> -[E1 E2].
    split; apply/eqP; rewrite -subr_eq0; apply/eqP.
      transitivity (2%:R * z * ((v2 - Zc * i2) - t * (v1 + Zc * i1))); first by ring.
      by rewrite E1 subrr mulr0.
    transitivity (2%:R * z * ((v1 - Zc * i1) - t * (v2 + Zc * i2))); first by ring.
    by rewrite E2 subrr mulr0.
  have K (x : C) : 2%:R * z * x = 0 -> x = 0.
    by move/eqP; rewrite !mulf_eq0 (negbTE (two_neq0 C)) (negbTE Hz0) => /eqP.
  split; apply/eqP; rewrite -subr_eq0; apply/eqP; apply: K.
    transitivity (- t * (z - Zc) * (v1 - z * i1) + (z + Zc) * (v2 - z * i2) - (t * (z + Zc) * (v1 + z * i1) + - (z - Zc) * (v2 + z * i2))); first by ring.
    by rewrite E1 subrr.
  transitivity ((z + Zc) * (v1 - z * i1) + - t * (z - Zc) * (v2 - z * i2) - (- (z - Zc) * (v1 + z * i1) + t * (z + Zc) * (v2 + z * i2))); first by ring.
  by rewrite E2 subrr.
suff Hu : A \in unitmx.
  exists (invmx A *m B); apply/(scat_AB _ Hz0 HL).
  by rewrite /np_inv Hu.
apply/unitmx_kerP => x Hx.
have HLx : line_law t Zc (x 0 0) (x 1 0) (- x 0 0 / z) (- x 1 0 / z).
  have Hv (y : C) : y + z * (- y / z) = 0 by field.
  have Hb (y : C) : y - z * (- y / z) = 2%:R * y by field.
  apply/HL; rewrite !Hv !Hb.
  have -> : col2 (2%:R * x 0 0) (2%:R * x 1 0) = 2%:R *: x.
    by apply/cV_extP; apply: ord2P; rewrite !mxE.
  have -> : col2 0 0 = 0 :> 'cV[C]_2 by apply/cV_extP; apply: ord2P; rewrite !mxE.
  by rewrite -scalemxAr Hx mulmx0 scaler0.
have := line_power HZ Ht HLx.
rewrite /power sum2 !mxE /=.
have Hpw (y : C) : 'Re (y * (- y / z)^*) = - (y * y^* / z).
  rewrite !rmorphM !rmorphN /= fmorphV (conj_Creal (gtr0_real Hz)).
  rewrite mulrA mulrN mulNr raddfN /=; congr (- _).
  by apply/Creal_ReP; rewrite rpredM ?cc_real // rpredV gtr0_real.
rewrite !Hpw -opprD oppr_ge0 -mulrDl pmulr_lle0 ?invr_gt0 // => Hle.
have := mulcc_ge0 (x 0 0); have := mulcc_ge0 (x 1 0) => G1 G0.
have Z0 : x 0 0 * (x 0 0)^* = 0.
  by apply/eqP; rewrite eq_le G0 andbT; apply: le_trans Hle; rewrite ler_addl.
have Z1 : x 1 0 * (x 1 0)^* = 0.
  by apply/eqP; rewrite eq_le G1 andbT; apply: le_trans Hle; rewrite ler_addr.
move/eqP: Z0; move/eqP: Z1; rewrite !mul_conjC_eq0 => /eqP E1 /eqP E0.
by rewrite (col2E x) E1 E0; apply/cV_extP; apply: ord2P; rewrite !mxE.
Qed.

Lemma through_scat_ex (z : C) : z != 0 -> is_scat2 (@through_law C) z (mx2 0 1 1 0).
Proof.
move=> Hz v1 v2 i1 i2; rewrite rel2 !mxE /= !mul0r add0r addr0 !mul1r; split.
  move=> [-> E]; have -> : i2 = - i1 by apply/eqP; rewrite -addr_eq0 addrC E.
  by split; ring.
move=> [A B]; have E : v1 = v2.
  apply: half_inj; transitivity ((v1 - z * i1) + (v1 + z * i1)); first by ring.
  by rewrite A -B; ring.
split=> //; apply: (mulfI Hz).
transitivity ((v2 + z * i2) - (v1 - z * i1) + (v1 - v2)); first by ring.
by rewrite A E; ring.
Qed.

Lemma solve0_zero zb w : zb != 0 -> exists e, solve0 0 zb w = Ok e.
Proof.
move=> Hz; rewrite /TrlModel.solve0; have [s ->] := Hnodes 0 w; rewrite /= last_rcons eqxx /=.
suff -> : s_from_vi1 (mx2 1 0 0 1) zb = Ok (mx2 0 1 1 0) by eexists.
apply/s_from_vi1_iff => // v1 i1 /=; apply/(through_scat_ex Hz).
by rewrite !mxE /=; split; ring.
Qed.

(** getS answers exactly when the matrix exists *)
Lemma trl_getS_total o w Zb : t_zb o != 0 -> zref0 o Zb != 0 -> t_L o != 0 -> gam w != 0 ->
  (forall x, exp (gam w * x) != 0) -> (exists S, is_scat2 (tl_law (t_L o) w) (t_zb o) S) ->
  (exists S, is_scat2 (tl_law (t_L o) w) (zref0 o Zb) S) -> exists S, (trl_getS o w Zb [::]).2 = Ok S.
Proof.
move=> Hb Hz HL Hg He HS [S2 HS2]; rewrite /TrlModel.trl_getS trl_set_nil /trl_get1S /TrlModel.solveVI /=.
have [e Ee] := solve0_total Hb HL Hg He HS; rewrite Ee /=; have HS1 := solve0_scat Hb Ee.
rewrite /zref0 in Hz HS2; case: (truthy Zb) Hz HS2 => [z|] Hz HS2; last by eexists.
case: ifP => _; last by eexists.
by exists S2; apply/(scat2_convert S2 Hb Hz HS1).
Qed.
End Line.

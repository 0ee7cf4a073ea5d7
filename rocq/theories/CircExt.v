(** The solved circuit: the equations that are not excitations hold exactly when
    the network's laws hold, and the matrix returned by extS is the scattering
    matrix of the network seen from the external ports. *)
From mathcomp Require Import all_ssreflect all_algebra.
From mathcomp Require Import zify.
From mathcomp.algebra_tactics Require Import ring.
From Coq Require Import String Ascii.
From Coq Require List.
From Verif Require Import Base MxLib ConvModel ConvSpec ConvProofs CircModel CircSpec CircLib CircInv CircTerm CircApp CircConn CircAdd CircFill CircSolve.
Set Implicit Arguments.
Unset Strict Implicit.
Unset Printing Implicit Defensive.
Import GRing.Theory Num.Theory.
Local Open Scope ring_scope.
Local Open Scope seq_scope.

Section Ext.
Variable C : numClosedFieldType.
Variables F Fl : eqType.
Variable K : vcls C F Fl.
Notation circ := (circ K).
Notation net := (net K).
Implicit Types (c : circ) (N : net) (w : string -> C) (G : seq (gr C)).

Definition isGE (g : gr C) : bool := if g is GE _ then true else false.

Lemma two0 : (2%:R : C) != 0. Proof. by rewrite pnatr_eq0. Qed.

Lemma wave_fwd (z a b : C) : z != 0 -> ((a + b) + z * ((a - b) / z)) / 2%:R = a.
Proof. by move=> Hz; have H2 := two0; field; rewrite ?Hz ?H2. Qed.
Lemma wave_bwd (z a b : C) : z != 0 -> ((a + b) - z * ((a - b) / z)) / 2%:R = b.
Proof. by move=> Hz; have H2 := two0; field; rewrite ?Hz ?H2. Qed.
Lemma wave_V (v i z : C) : (v + z * i) / 2%:R + (v - z * i) / 2%:R = v.
Proof. by have H2 := two0; field; rewrite ?H2. Qed.
Lemma wave_I (v i z : C) : z != 0 -> ((v + z * i) / 2%:R - (v - z * i) / 2%:R) / z = i.
Proof. by move=> Hz; have H2 := two0; field; rewrite ?Hz ?H2. Qed.

(** waves of given voltages and currents *)
Definition wof (z : C) (v i : asg C) : string -> C := fun s =>
  match s with
  | String a (String b p) =>
    if (a == "-"%char) && (b == ">"%char) then (v p + z * i p) / 2%:R
    else if (a == "<"%char) && (b == "-"%char) then (v p - z * i p) / 2%:R else 0
  | _ => 0
  end.

Lemma wof_fwd z v i p : wof z v i (fwd p) = (v p + z * i p) / 2%:R. Proof. by []. Qed.
Lemma wof_bwd z v i p : wof z v i (bwd p) = (v p - z * i p) / 2%:R. Proof. by []. Qed.
Lemma Vw_wof z v i p : Vw (wof z v i) p = v p.
Proof. by rewrite /Vw wof_fwd wof_bwd wave_V. Qed.
Lemma Iw_wof z v i p : z != 0 -> Iw z (wof z v i) p = i p.
Proof. by move=> Hz; rewrite /Iw wof_fwd wof_bwd wave_I. Qed.

(** the laws of joins, loads and deembeddings only depend on the values *)
Lemma eq_join_law (v i v' i' : asg C) j : v =1 v' -> i =1 i' -> join_law v i j -> join_law v' i' j.
Proof.
move=> Hv Hi [H1 H2]; split; first by move=> p q Hp Hq; rewrite -!Hv; exact: H1.
case: j.2 H2 => [n [H2 H3]|H2]; last by rewrite -[RHS]H2; apply: eq_bigr => p _; rewrite Hi.
by split; [move=> p Hp; rewrite -!Hv; exact: H2|rewrite -Hi -H3; apply: eq_bigr => p _; rewrite Hi].
Qed.

Lemma Forall_imp (A : Type) (P Q : A -> Prop) l : (forall x, P x -> Q x) ->
  List.Forall P l -> List.Forall Q l.
Proof. by move=> H; elim=> //= x s Hx _ IH; constructor; auto. Qed.

Lemma Forall_iff (A : Type) (P Q : A -> Prop) l : (forall x, P x <-> Q x) ->
  List.Forall P l <-> List.Forall Q l.
Proof. by move=> H; split; apply: Forall_imp => x; apply H. Qed.

Section Rows.
Variables (c : circ) (N : net) (G : seq (gr C)) (f : F) (fl : Fl).
Hypothesis HI : Inv c N.
Hypothesis HG : Ginv c N G.
Hypothesis Hfl : forall nm, filled1 f fl c G nm.
Let z := zb c.
Let Hz : z != 0. Proof. exact: v_zb HI. Qed.

Lemma block_rows nm ps o (v i : asg C) w :
  (forall p, Vw w p = v p) -> (forall p, Iw z w p = i p) ->
  List.In (nm, (ps, o)) (nblk N) ->
  block_law f fl v i (nm, (ps, o)) <->
  (forall g k x, List.In g G -> g = GS nm ps k x -> rsum (waves c) (coef g) w = 0).
Proof.
move=> HV HJ Hin; have Hd := In_dget (v_ub HI) Hin.
have [b Hb [_ /= Ep Ho Heq [Hsz Hup]]] := Forall2_dget' (v_blk HI) Hd.
have [Sm [Hsh Hden] Hrow] := Hfl Hb; rewrite Ep in Hden Hrow.
have [Htk _ _] := g_blk HG Hb; rewrite Ep in Htk.
have Hsub s : s \in fwds nm ps ++ bwds nm ps -> s \in waves c.
  by rewrite -Htk => H; apply: (mem_drop (n0 := (bloc b).2)); exact: mem_take H.
have Hrs k x : (k < size ps)%N -> rsum (waves c) (coef (GS nm ps k x)) w =
  \sum_(j < size ps) nth 0 x j * w (fwd (dot nm (nth "" ps j))) - w (bwd (dot nm (nth "" ps k))).
  move=> Hk; apply: rsum_GS => //; first exact: v_uw HI.
  - by move=> s Hs; apply: Hsub; rewrite mem_cat Hs.
  - by apply: Hsub; rewrite mem_cat; apply/orP; right; apply/mapP; exists (nth "" ps k); rewrite ?mem_nth.
have Ha p : (v p + z * i p) / 2%:R = w (fwd p) by rewrite -HV -HJ wave_fwd.
have Hbb p : (v p - z * i p) / 2%:R = w (bwd p) by rewrite -HV -HJ wave_bwd.
have HR : block_law f fl v i (nm, (ps, o)) <-> rel_S z (size ps) Sm
   (fun k => v (dot nm (nth "" ps k))) (fun k => i (dot nm (nth "" ps k))).
  by rewrite /block_law /= -Heq.2 Hden.
split.
  move=> /HR Hrel g k x /In_nth [e He E] Eg; rewrite Eg in E *.
  have [b' [Hb' Ep' Ee Hk]] := g_blk' HG He E.
  have Ebb : b' = b by move: Hb'; rewrite Hb => -[].
  rewrite Ee Ebb Hrow // in E; case: E => <-.
  rewrite Hrs // -Hbb (Hrel k Hk); apply/eqP; rewrite subr_eq0; apply/eqP.
  by apply: eq_bigr => j _; rewrite Ha.
move=> H; apply/HR => k Hk; rewrite Hbb.
have Hlt : ((bloc b).1 + k < size G)%N.
  by have [_ Hlt _] := g_blk HG Hb; apply: leq_trans Hlt; rewrite Ep ltn_add2l.
have Hin' : List.In (nth (g0 C) G ((bloc b).1 + k)) G by apply/In_nth; exists ((bloc b).1 + k)%N.
have := H _ k (nth [::] Sm k) Hin' (Hrow k Hk).
rewrite (Hrow k Hk) Hrs // => /eqP; rewrite subr_eq0 => /eqP <-.
by apply: eq_bigr => j _; rewrite Ha.
Qed.

Lemma rows_sat (v i : asg C) w : (forall p, Vw w p = v p) -> (forall p, Iw z w p = i p) ->
  (forall g, List.In g G -> ~~ isGE g -> rsum (waves c) (coef g) w = 0) <->
  sat z N f fl v i.
Proof.
move=> HV HJ.
have Hk1 : klaw z N w <-> [/\ List.Forall (join_law v i) (njoin N),
   List.Forall (di_law v i) (ndi N) & List.Forall (de_law v i) (nde N)].
  have Hd x : di_law (Vw w) (Iw z w) x <-> di_law v i x by rewrite /di_law !HV !HJ.
  have He x : de_law (Vw w) (Iw z w) x <-> de_law v i x by rewrite /de_law !HV !HJ.
  have Hj x : join_law (Vw w) (Iw z w) x <-> join_law v i x.
    by split; apply: eq_join_law => p; rewrite ?HV ?HJ.
  rewrite /klaw; split=> -[H1 H2 H3]; split;
   [by apply/(Forall_iff _ Hj)|by apply/(Forall_iff _ Hd)|by apply/(Forall_iff _ He)|
    by apply/(Forall_iff _ Hj)|by apply/(Forall_iff _ Hd)|by apply/(Forall_iff _ He)].
split.
  move=> H; have [HK1 HK2 HK3] := iffLR Hk1 (iffLR (g_K HG w) (fun g Hg => H _ Hg isT)).
  split=> //; apply/List.Forall_forall.
    move=> [nm [ps o]] Hin; apply/(block_rows HV HJ Hin) => g k x Hg E.
    by apply: H => //; rewrite E.
  move=> [p ld] /(In_dget (v_uT HI)) Hd /=.
  have Hp : p \in dkeys (dT c) by rewrite (v_T HI) (dget_keys Hd).
  have [[[iA iB] e] HT] := dget_mem Hp.
  have [[H1 H2 _ _ He] [rho [ld' [Hr Hld Hrho]]]] := g_T HG HT.
  have Eld : ld' = ld by move: Hld; rewrite Hd => -[].
  rewrite Eld in Hrho; rewrite -HV -HJ; apply/Hrho.
  have Hin : List.In (GT p rho) G by apply/In_nth; exists e.
  have := H _ Hin isT; rewrite rsum_GT // ?(v_uw HI) // => /eqP.
  by rewrite subr_eq0 => /eqP ->.
case=> HB HJn HT HD HE [nm ps k x|p rho|p|g] // Hg _.
- have /In_nth [e He E] := Hg; have [b [Hb Ep Ee Hk]] := g_blk' HG He E.
  have [ps' [o [Hd [_ /= Ep' _ _ _] Hin]]] := Forall2_dget (v_blk HI) Hb.
  have Eps : ps' = ps by rewrite -Ep' Ep.
  rewrite Eps in Hin; have /= Hl := (iffLR (List.Forall_forall _ _) HB) _ Hin.
  exact: (iffLR (block_rows HV HJ Hin) Hl).
- have /In_nth [e He E] := Hg; have [iA [iB HT']] := g_T' HG He E.
  have [[H1 H2 _ _ _] [rho' [ld' [Hr Hld Hrho]]]] := g_T HG HT'.
  have Er : rho' = rho by move: Hr; rewrite E => -[].
  have /= := (iffLR (List.Forall_forall _ _) HT) _ (dget_In Hld).
  rewrite -HV -HJ => /Hrho; rewrite Er rsum_GT // ?(v_uw HI) // => ->; exact: subrr.
exact: (iffRL (g_K HG w) (iffRL Hk1 (And3 HJn HD HE))).
Qed.

End Rows.

(** ** the matrix equation *)
Section Mx.
Variables (c : circ) (N : net) (G : seq (gr C)).
Hypothesis HI : Inv c N.
Hypothesis HG : Ginv c N G.
Let n := nc c.
Let W := waves c.
Let M : 'M[C]_n := mx_of n n (mM c).
Hypothesis Hsq : size (mM c) = n.

Definition colw (w : string -> C) : 'cV[C]_n := \col_j w (nth "" W j).
Definition wcol (x : 'cV[C]_n) : string -> C := fun s =>
  if insub (seq.index s W) is Some j then x j 0 else 0.

Lemma nW : n = size W. Proof. exact: v_nc HI. Qed.

Lemma colwK x : colw (wcol x) = x.
Proof.
apply/cV_extP => j; rewrite mxE /wcol index_uniq -?nW ?(v_uw HI) //.
by rewrite valK.
Qed.

Lemma wcolK w s : s \in W -> wcol (colw w) s = w s.
Proof.
move=> Hs; rewrite /wcol; case: insubP => [j _ Ej|]; first by rewrite mxE Ej nth_index.
by rewrite nW index_mem Hs.
Qed.

Lemma sizeG : size G = n. Proof. by rewrite -Hsq (g_M HG) size_map. Qed.

Lemma M_E e j : M e j = coef (nth (g0 C) G e) (nth "" W j).
Proof.
rewrite mxE (g_M HG) (nth_map (g0 C)) ?sizeG // /render.
by rewrite (nth_map "") // -nW.
Qed.

Lemma M_colw w e : (M *m colw w) e 0 = rsum W (coef (nth (g0 C) G e)) w.
Proof.
rewrite mxE /rsum (big_nth "") big_mkord -nW; apply: eq_bigr => j _.
by rewrite M_E mxE.
Qed.


Lemma nth_rows_of m k (A : 'M[C]_(m, k)) (a : 'I_m) (b : 'I_k) :
  nth 0 (nth [::] (rows_of A) a) b = A a b.
Proof.
rewrite /rows_of (nth_map a) ?size_enum_ord // nth_ord_enum.
by rewrite (nth_map b) ?size_enum_ord // nth_ord_enum.
Qed.

(** excitation rows of the external ports *)
Hypothesis Hcl : closed c.
Let ps := ports c.
Let k := size ps.

Lemma exc_rows : exists Ex : 'I_k -> 'I_n, forall b : 'I_k,
  dget (dE c) (nth "" ps b) = Some (val (Ex b)).
Proof.
apply: (@fin_all_exists _ _ (fun (b : 'I_k) (e : 'I_n) => dget (dE c) (nth "" ps b) = Some (val e))) => b.
have [_ Hk _] := Hcl.
have Hp : nth "" ps b \in dkeys (dE c) by rewrite Hk mem_nth.
have [e He] := dget_mem Hp; have [Hlt Hg] := g_E HG He.
by rewrite sizeG in Hlt; exists (Ordinal Hlt).
Qed.

Variable Ex : 'I_k -> 'I_n.
Hypothesis HEx : forall b : 'I_k, dget (dE c) (nth "" ps b) = Some (val (Ex b)).

Lemma Ex_row b : nth (g0 C) G (Ex b) = GE (nth "" ps b).
Proof. by have [] := g_E HG (HEx b). Qed.

Lemma nth_ps_inj (a b : 'I_k) : nth "" ps a = nth "" ps b -> a = b.
Proof.
move=> /eqP; rewrite nth_uniq ?(v_up HI) // => /eqP E; exact: val_inj.
Qed.

Lemma Ex_inj : injective Ex.
Proof.
move=> a b E; apply: nth_ps_inj.
by have := Ex_row a; rewrite E Ex_row => -[].
Qed.

Lemma Ex_onto (e : 'I_n) p : nth (g0 C) G e = GE p -> exists2 b, e = Ex b & p = nth "" ps b.
Proof.
move=> Hg; have Hlt : (e < size G)%N by rewrite sizeG.
have Hd := g_E' HG Hlt Hg; have [_ Hk _] := Hcl.
have Hp : p \in ps by rewrite -Hk (dget_keys Hd).
have Hi : (seq.index p ps < k)%N by rewrite index_mem.
have Hn : nth "" ps (Ordinal Hi) = p by rewrite nth_index.
exists (Ordinal Hi) => //; apply: val_inj.
by have := HEx (Ordinal Hi); rewrite Hn Hd => -[].
Qed.

Definition rhs (a : nat -> C) : 'cV[C]_n := \sum_(b < k) a b *: delta_mx (Ex b) 0.

Lemma rhs_Ex a b : rhs a (Ex b) 0 = a b.
Proof.
rewrite /rhs summxE (bigD1 b) //= !mxE !eqxx mulr1 big1 ?addr0 // => b' Hb'.
by rewrite !mxE (inj_eq Ex_inj) eq_sym (negbTE Hb') mulr0.
Qed.

Lemma rhs_nE a (e : 'I_n) : ~~ isGE (nth (g0 C) G e) -> rhs a e 0 = 0.
Proof.
move=> He; rewrite /rhs summxE big1 // => b _; rewrite !mxE.
case: eqP => [E|]; last by rewrite mulr0.
by move: He; rewrite E Ex_row.
Qed.

Lemma port_waves b : (fwd (nth "" ps b) \in W) && (bwd (nth "" ps b) \in W) = (nth "" ps b \in nodes N).
Proof. by rewrite (fwd_wave _ HI) (bwd_wave _ HI) andbb. Qed.

Lemma port_fwd (b : 'I_k) : fwd (nth "" ps b) \in W.
Proof. by rewrite (fwd_wave _ HI) (port_node HI) // mem_nth. Qed.
Lemma port_bwd (b : 'I_k) : bwd (nth "" ps b) \in W.
Proof. by rewrite (bwd_wave _ HI) (port_node HI) // mem_nth. Qed.

Lemma sysP w a : M *m colw w = rhs a <->
  (forall g, List.In g G -> ~~ isGE g -> rsum W (coef g) w = 0) /\
  (forall b : 'I_k, w (fwd (nth "" ps b)) = a b).
Proof.
split=> [E|[H1 H2]].
  have HE (e : 'I_n) : rsum W (coef (nth (g0 C) G e)) w = rhs a e 0 by rewrite -E M_colw.
  split.
    move=> g /In_nth [e]; rewrite sizeG => He Eg Hg.
    by have := HE (Ordinal He); rewrite /= Eg => ->; rewrite rhs_nE //= Eg.
  move=> b; have := HE (Ex b); rewrite rhs_Ex Ex_row rsum_GE ?(v_uw HI) //.
  exact: port_fwd.
apply/cV_extP => e; rewrite M_colw.
case Hg: (isGE (nth (g0 C) G e)).
  case Eg: (nth (g0 C) G e) Hg => [| |p|] // _.
  have [b -> ->] := Ex_onto Eg; rewrite rhs_Ex rsum_GE ?(v_uw HI) //.
  exact: port_fwd.
rewrite rhs_nE ?Hg //.
apply: H1; rewrite ?Hg //.
apply/In_nth; exists (nat_of_ord e); rewrite ?sizeG //.
Qed.

(** index of a wave as an ordinal *)
Lemma widx s : s \in W -> exists j : 'I_n, val j = seq.index s W.
Proof.
move=> Hs; have H : (seq.index s W < n)%N by rewrite nW index_mem.
by exists (Ordinal H).
Qed.

Lemma wcol_at (x : 'cV[C]_n) s (j : 'I_n) : val j = seq.index s W -> wcol x s = x j 0.
Proof. by move=> E; rewrite /wcol -E valK. Qed.

Lemma colw_at w s (j : 'I_n) : s \in W -> val j = seq.index s W -> colw w j 0 = w s.
Proof. by move=> Hs E; rewrite mxE E nth_index. Qed.

Hypothesis HU : M \in unitmx.

Lemma inv_rhs a (j : 'I_n) : (invmx M *m rhs a) j 0 = \sum_(b < k) invmx M j (Ex b) * a b.
Proof.
rewrite /rhs mulmx_sumr summxE; apply: eq_bigr => b _.
by rewrite -scalemxAr mxE -colE mxE mulrC.
Qed.

(** rows of the inverse seen from an excitation *)
Lemma inv_fwd (a b : 'I_k) (j : 'I_n) : val j = seq.index (fwd (nth "" ps a)) W ->
  invmx M j (Ex b) = (a == b)%:R.
Proof.
move=> Hj; have := congr1 (fun A : 'M[C]_n => A (Ex a) (Ex b)) (mulmxV HU).
rewrite [in X in _ = X -> _]mxE (inj_eq Ex_inj) => <-.
rewrite mxE (bigD1 j) //= M_E Ex_row /= Hj nth_index ?port_fwd // eqxx mul1r.
rewrite big1 ?addr0 // => i Hi; rewrite M_E Ex_row /=.
case: eqP => [E|]; last by rewrite mul0r.
case/eqP: Hi; apply: val_inj; rewrite Hj -E index_uniq ?(v_uw HI) // -?nW //.
Qed.

End Mx.


(** ** extS on a closed circuit *)
Lemma rows_shape k (A : 'M[C]_k) : shape_ok k (rows_of A).
Proof.
rewrite /shape_ok /rows_of size_map size_enum_ord eqxx /=.
by apply/allP => r /mapP [i _ ->]; rewrite size_map size_enum_ord.
Qed.

Lemma closed_close c : closed c -> close c = (c, Ok tt).
Proof. by case=> _ _ H; rewrite /close H eqxx. Qed.

Lemma mapM_all A B (h : A -> res B) (s : seq A) :
  (forall x, List.In x s -> exists y, h x = Ok y) -> exists ys, mapM h s = Ok ys.
Proof.
elim: s => [|x s IH] H /=; first by exists [::].
have [y ->] := H x (or_introl erefl); have [|ys ->] := IH.
  by move=> u Hu; apply: H; right.
by exists (y :: ys).
Qed.

Lemma In_mem (T : eqType) (x : T) s : List.In x s -> x \in s.
Proof. by elim: s => //= y s IH [->|/IH H]; rewrite in_cons ?eqxx // H orbT. Qed.

(** the system is singular exactly when the network is resonant *)
Lemma singular_resonant c N G f fl : Inv c N -> Ginv c N G ->
  (forall nm, filled1 f fl c G nm) -> closed c ->
  (mx_of (nc c) (nc c) (mM c) \notin unitmx) <-> resonant (zb c) N f fl.
Proof.
move=> HI HG Hfl Hcl; have [_ _ Hsq] := Hcl.
have Hz := v_zb HI.
have [Ex HEx] := exc_rows HG Hsq Hcl.
have H0 : rhs Ex (fun=> 0) = 0.
  by rewrite /rhs big1 // => b _; rewrite scale0r.
have Hfree p : free N p -> exists b : 'I_(size (ports c)), p = nth "" (ports c) b.
  rewrite -(v_fp HI) => Hp; have Hi : (seq.index p (ports c) < size (ports c))%N by rewrite index_mem.
  by exists (Ordinal Hi); rewrite nth_index.
split.
  move=> Hns; have [x Hx Hx0] := notunit_ker Hns.
  set w := wcol (c := c) x.
  have Ew : colw c w = x by apply: colwK HI _.
  have [Hr Hi] : (forall g, List.In g G -> ~~ isGE g -> rsum (waves c) (coef g) w = 0) /\
     (forall b : 'I_(size (ports c)), w (fwd (nth "" (ports c) b)) = 0).
    by apply/(sysP HI HG Hsq Hcl HEx w (fun=> 0)); rewrite Ew H0.
  exists (Vw w), (Iw (zb c) w); split.
  - by apply/(rows_sat HI HG Hfl) => //.
  - move=> p /Hfree [b ->]; rewrite /Vw /Iw Hi add0r sub0r mulrCA divff // mulr1.
    exact: subrr.
  have [j Hj] : exists j, x j 0 != 0 by apply/cV0Pn.
  have Hs : nth "" (waves c) j \in waves c by rewrite mem_nth // -(v_nc HI).
  have Ewj : w (nth "" (waves c) j) = x j 0.
    by rewrite -[in RHS]Ew mxE.
  have : exists2 p, p \in nodes N & (w (fwd p) != 0) || (w (bwd p) != 0).
    move: (Hs); rewrite (v_mem HI) mem_cat => /orP[] /mapP [p Hp E]; exists p => //;
    by rewrite -E Ewj Hj ?orbT.
  case=> p Hp Hw; exists p => //; move: Hw; rewrite -!negb_and; apply: contra => /andP[/eqP HV /eqP HJ].
  have -> : w (fwd p) = 0 by rewrite -(wave_fwd (w (fwd p)) (w (bwd p)) Hz) -/(Vw w p) -/(Iw (zb c) w p) HV HJ mulr0 addr0 mul0r.
  have -> : w (bwd p) = 0 by rewrite -(wave_bwd (w (fwd p)) (w (bwd p)) Hz) -/(Vw w p) -/(Iw (zb c) w p) HV HJ mulr0 subr0 mul0r.
  by rewrite eqxx.
case=> v [i [Hs Hf [p Hp Hvi]]]; apply/negP => HU.
set w := wof (zb c) v i.
have HV q : Vw w q = v q by exact: Vw_wof.
have HJ q : Iw (zb c) w q = i q by apply: Iw_wof.
have Hr := iffRL (rows_sat HI HG Hfl HV HJ) Hs.
have E : mx_of (nc c) (nc c) (mM c) *m colw c w = rhs Ex (fun=> 0).
  apply/(sysP HI HG Hsq Hcl HEx); split=> // b.
  rewrite /w wof_fwd Hf ?mul0r // -(v_fp HI) mem_nth //.
have Ew : colw c w = 0 by apply: (unitmx_kerP _ HU); rewrite E H0.
have Hw0 s : s \in waves c -> w s = 0.
  by move=> Hs'; rewrite -(wcolK HI w Hs') Ew /wcol; case: insubP => // j _ _; rewrite mxE.
move: Hvi; rewrite -HV -HJ /Vw /Iw !Hw0 ?(fwd_wave _ HI) ?(bwd_wave _ HI) //.
by rewrite addr0 subr0 mul0r eqxx.
Qed.

Lemma inv_bwd_S c N G (HI : Inv c N) (HG : Ginv c N G) (Hsq : size (mM c) = nc c)
  (f : F) (fl : Fl) (Hfl : forall nm, filled1 f fl c G nm) (Hcl : closed c)
  (Ex : 'I_(size (ports c)) -> 'I_(nc c))
  (HEx : forall b : 'I_(size (ports c)), dget (dE c) (nth "" (ports c) b) = Some (val (Ex b)))
  (HU : mx_of (nc c) (nc c) (mM c) \in unitmx)
  (Bx : 'I_(size (ports c)) -> 'I_(nc c))
  (HBx : forall b : 'I_(size (ports c)), val (Bx b) = seq.index (bwd (nth "" (ports c) b)) (waves c)) :
  net_S (zb c) (zb c) N f fl (ports c)
    (rows_of (\matrix_(a, b) invmx (mx_of (nc c) (nc c) (mM c)) (Bx a) (Ex b))).
Proof.
have Hz := v_zb HI.
set M := mx_of _ _ _ in HU *; set k := size (ports c); set A := \matrix_(a, b) _.
have HA (a b : 'I_k) : nth 0 (nth [::] (rows_of A) a) b = invmx M (Bx a) (Ex b).
  by rewrite nth_rows_of mxE.
split; first exact: rows_shape.
move=> v i; split.
  move=> HR; pose a j := (v j + zb c * i j) / 2%:R.
  set x := invmx M *m rhs Ex a; pose w := wcol (c := c) x.
  have Ew : colw c w = x by apply: colwK HI _.
  have HM : M *m colw c w = rhs Ex a by rewrite Ew mulKVmx.
  have [Hr Hi] := iffLR (sysP HI HG Hsq Hcl HEx w a) HM.
  have Hb (b : 'I_k) : w (bwd (nth "" (ports c) b)) = (v b - zb c * i b) / 2%:R.
    rewrite /w (wcol_at x (HBx b)) inv_rhs HR //; apply: eq_bigr => j _.
    by rewrite HA.
  exists (Vw w), (Iw (zb c) w); split; first by apply/(rows_sat HI HG Hfl).
  move=> j Hj; have Hf := Hi (Ordinal Hj); have Hb' := Hb (Ordinal Hj); rewrite /= in Hf Hb'.
  by rewrite /Vw /Iw Hf Hb' /a wave_V wave_I.
case=> v' [i' [Hs Hag]] j Hj.
set w := wof (zb c) v' i'.
have HV q : Vw w q = v' q by exact: Vw_wof.
have HJ q : Iw (zb c) w q = i' q by apply: Iw_wof.
have Hr := iffRL (rows_sat HI HG Hfl HV HJ) Hs.
pose a j := (v j + zb c * i j) / 2%:R.
have E : M *m colw c w = rhs Ex a.
  apply/(sysP HI HG Hsq Hcl HEx); split=> // b.
  by rewrite /w wof_fwd; have [-> ->] := Hag b (ltn_ord b).
have Ew : colw c w = invmx M *m rhs Ex a by rewrite -E mulKmx.
have [<- <-] := Hag j Hj; rewrite -[LHS]/(w (bwd (nth "" (ports c) j))).
have Hin := port_bwd HI (Ordinal Hj).
have /= <- := colw_at w Hin (HBx (Ordinal Hj)).
by rewrite Ew inv_rhs; apply: eq_bigr => b _; rewrite (HA (Ordinal Hj)).
Qed.

Lemma lindex_in (T : eqType) (s : seq T) x : x \in s -> lindex s x = Ok (seq.index x s).
Proof. by rewrite /lindex => ->. Qed.

(** unique solvability *)
Lemma posed c N G f fl : Inv c N -> Ginv c N G ->
  (forall nm, filled1 f fl c G nm) -> closed c ->
  (mx_of (nc c) (nc c) (mM c) \in unitmx -> well_posed (zb c) N f fl) /\
  (mx_of (nc c) (nc c) (mM c) \notin unitmx -> ill_posed (zb c) N f fl).
Proof.
move=> HI HG Hfl Hcl; have [_ _ Hsq] := Hcl.
have Hz := v_zb HI.
have [Ex HEx] := exc_rows HG Hsq Hcl.
have SR := singular_resonant HI HG Hfl Hcl.
have Hfree p : free N p -> exists b : 'I_(size (ports c)), p = nth "" (ports c) b.
  rewrite -(v_fp HI) => Hp; have Hi : (seq.index p (ports c) < size (ports c))%N by rewrite index_mem.
  by exists (Ordinal Hi); rewrite nth_index.
have Hsol v i (a : asg C) : sat (zb c) N f fl v i ->
   (forall p, free N p -> (v p + zb c * i p) / 2%:R = a p) ->
   mx_of (nc c) (nc c) (mM c) *m colw c (wof (zb c) v i) = rhs Ex (fun j => a (nth "" (ports c) j)).
  move=> Hs Ha; apply/(sysP HI HG Hsq Hcl HEx); split=> [|b].
    have HV q : Vw (wof (zb c) v i) q = v q by exact: Vw_wof.
    have HJ q : Iw (zb c) (wof (zb c) v i) q = i q by apply: Iw_wof.
    exact: (iffRL (rows_sat HI HG Hfl HV HJ) Hs).
  by rewrite wof_fwd Ha // -(v_fp HI) mem_nth.
split=> HU.
  split; first by move/SR; rewrite HU.
  move=> a; split.
    set x := invmx (mx_of (nc c) (nc c) (mM c)) *m rhs Ex (fun j => a (nth "" (ports c) j)).
    pose w := wcol (c := c) x.
    have Ew : colw c w = x by apply: colwK HI _.
    have HM : mx_of (nc c) (nc c) (mM c) *m colw c w = rhs Ex (fun j => a (nth "" (ports c) j)).
      by rewrite Ew mulKVmx.
    have [Hr Hi] := iffLR (sysP HI HG Hsq Hcl HEx w _) HM.
    exists (Vw w), (Iw (zb c) w); split; first by apply/(rows_sat HI HG Hfl).
    by move=> p /Hfree [b ->]; rewrite wave_fwd // Hi.
  move=> v i v' i' Hs Hs' Ha Ha' p Hp.
  have E := Hsol _ _ _ Hs Ha; have E' := Hsol _ _ _ Hs' Ha'.
  have Ec : colw c (wof (zb c) v i) = colw c (wof (zb c) v' i').
    by rewrite -(mulKmx HU (colw c (wof (zb c) v i))) E -E' mulKmx.
  have Hw s : s \in waves c -> wof (zb c) v i s = wof (zb c) v' i' s.
    by move=> Hw; rewrite -(wcolK HI _ Hw) Ec (wcolK HI _ Hw).
  have Ef := Hw (fwd p); have Eb := Hw (bwd p).
  rewrite (fwd_wave _ HI) Hp in Ef; rewrite (bwd_wave _ HI) Hp in Eb.
  split.
    by rewrite -(Vw_wof (zb c) v i p) -(Vw_wof (zb c) v' i' p) /Vw Ef ?Eb.
  by rewrite -(Iw_wof v i p Hz) -(Iw_wof v' i' p Hz) /Iw Ef ?Eb.
have Hres : resonant (zb c) N f fl by apply/SR.
split=> // Hs; have [v [i [H1 H2 [p Hp Hvi]]]] := Hres.
have H0 : sat (zb c) N f fl (Vw (fun=> 0)) (Iw (zb c) (fun=> 0)).
  apply/(rows_sat HI HG Hfl) => // g _ _; rewrite /rsum big1 // => s _; by rewrite mulr0.
have [_ Hu] := Hs (fun=> 0).
have [||E1 E2] := Hu _ _ _ _ H1 H0 _ _ p Hp.
- by move=> q Hq; rewrite H2 ?mul0r.
- by move=> q Hq; rewrite /Vw /Iw addr0 subr0 mul0r mulr0 addr0 mul0r.
by move: Hvi; rewrite E1 E2 /Vw /Iw addr0 subr0 mul0r eqxx.
Qed.

Lemma extS_closed c N f fl c' r : Inv c N -> fillG f fl c N -> closed c -> ports c <> [::] ->
  extS c = (c', r) ->
  (exists S iM, [/\ r = Ok S, c' = with_cache c (Some iM) (Some S) (cf c) (cfl c),
      inv_rows (nc c) (mM c) = Ok iM, net_S (zb c) (zb c) N f fl (ports c) S & well_posed (zb c) N f fl]) \/
  [/\ r = Raise LinAlgError, c' = c & ill_posed (zb c) N f fl].
Proof.
move=> HI [G HG Hfl] Hcl Hne; have [Hpn Hk Hsq] := Hcl.
have [Ex HEx] := exc_rows HG Hsq Hcl.
rewrite /extS closed_close //= /portnames Hpn.
have Hw p : List.In p (ports c) -> (fwd p \in waves c) /\ (bwd p \in waves c).
  by move/(@In_mem _) => Hp; rewrite (fwd_wave _ HI) (bwd_wave _ HI) (port_node HI Hp).
have [iEs EE] : exists ys, mapM (dget_exn (dE c)) (ports c) = Ok ys.
  apply: mapM_all => p /(@In_mem _); rewrite -Hk => /dget_mem [e He].
  by exists e; rewrite /dget_exn He.
have [iAs EA] : exists ys, mapM (fun p => lindex (waves c) (fwd p)) (ports c) = Ok ys.
  apply: mapM_all => p /Hw [Hf _]; by exists (seq.index (fwd p) (waves c)); rewrite lindex_in.
have [iBs EB] : exists ys, mapM (fun p => lindex (waves c) (bwd p)) (ports c) = Ok ys.
  apply: mapM_all => p /Hw [_ Hf]; by exists (seq.index (bwd p) (waves c)); rewrite lindex_in.
rewrite EE EA EB.
have [HsE HE] := iffLR (mapM_Ok _ _ _) EE.
have [HsA HA] := iffLR (mapM_Ok _ _ _) EA.
have [HsB HB] := iffLR (mapM_Ok _ _ _) EB.
have HE' (b : 'I_(size (ports c))) : nth 0%N iEs b = val (Ex b).
  by have := HE b "" 0%N (ltn_ord b); rewrite /dget_exn HEx => -[].
have HA' (b : 'I_(size (ports c))) : nth 0%N iAs b = seq.index (fwd (nth "" (ports c) b)) (waves c).
  have := HA b "" 0%N (ltn_ord b); rewrite lindex_in ?(port_fwd HI b) //; by case.
have HB' (b : 'I_(size (ports c))) : nth 0%N iBs b = seq.index (bwd (nth "" (ports c) b)) (waves c).
  have := HB b "" 0%N (ltn_ord b); rewrite lindex_in ?(port_bwd HI b) //; by case.
have [SR SS] : (mx_of (nc c) (nc c) (mM c) \in unitmx -> well_posed (zb c) N f fl) /\
   (mx_of (nc c) (nc c) (mM c) \notin unitmx -> ill_posed (zb c) N f fl).
  exact: (posed HI HG Hfl Hcl).
rewrite /inv_rows Hsq eqxx /np_inv; case: ifP => HU /=; last first.
  by case=> <- <-; right; split=> //; apply: SS; rewrite HU.
have -> : (size (ports c) == 0%N) = false by case: (ports c) Hne.
set iM := rows_of _.
have [Ax HAx] : exists Ax : 'I_(size (ports c)) -> 'I_(nc c), forall b, val (Ax b) = nth 0%N iAs b.
  apply: (@fin_all_exists _ _ (fun (b : 'I_(size (ports c))) (e : 'I_(nc c)) => val e = nth 0%N iAs b)) => b; rewrite HA'.
  exact: (widx HI (port_fwd HI b)).
have [Bx HBx] : exists Bx : 'I_(size (ports c)) -> 'I_(nc c), forall b, val (Bx b) = nth 0%N iBs b.
  apply: (@fin_all_exists _ _ (fun (b : 'I_(size (ports c))) (e : 'I_(nc c)) => val e = nth 0%N iBs b)) => b; rewrite HB'.
  exact: (widx HI (port_bwd HI b)).
have QA : sub_rows (size (ports c)) iM iAs iEs = 1%:M.
  apply/matrixP => a b; rewrite !mxE HE' -HAx nth_rows_of.
  rewrite (inv_fwd HI HG Hsq HEx HU (a := a)) //; by rewrite HAx HA'.
rewrite QA unitmx1 invmx1 mulmx1 => -[<- <-]; left.
eexists; exists iM; split=> //; last by apply: SR; rewrite HU.
have -> : sub_rows (size (ports c)) iM iBs iEs = \matrix_(a, b) invmx (mx_of (nc c) (nc c) (mM c)) (Bx a) (Ex b).
  by apply/matrixP => a b; rewrite !mxE HE' -HBx nth_rows_of.
apply: (inv_bwd_S HI HG Hsq Hfl Hcl HEx HU) => b; by rewrite HBx HB'.
Qed.

(** ** the wave vector for an excitation *)
Lemma nth_upds (es : seq (nat * C)) (v : seq C) e : uniq (map fst es) ->
  nth 0 (foldl (fun v eE => upd v eE.1 eE.2) v es) e =
  if e \in map fst es then nth 0 (map snd es) (seq.index e (map fst es)) else nth 0 v e.
Proof.
elim: es v => //= -[a x] es IH v /= /andP[Ha Hu]; rewrite IH // in_cons.
rewrite /upd nth_set_nth /= [a == e]eq_sym; case: (e =P a) => [->|_] //=.
by rewrite (negbTE Ha).
Qed.

Lemma size_upds (es : seq (nat * C)) (v : seq C) : all (fun e => (e < size v)%N) (map fst es) ->
  size (foldl (fun v eE => upd v eE.1 eE.2) v es) = size v.
Proof.
elim: es v => //= -[a x] es IH v /= /andP[Ha Hu].
have Es : size (upd v a x) = size v by rewrite size_set_nth; apply/maxn_idPr.
by rewrite IH Es.
Qed.

Definition sol_ok c N f fl (iM : rows C) : Prop := forall Ei, size Ei = size (ports c) ->
  exists Es w, [/\ exc_vec c Ei = Ok Es,
     (forall s, s \in waves c -> nth 0 (mat_vec iM Es) (seq.index s (waves c)) = w s),
     sat (zb c) N f fl (Vw w) (Iw (zb c) w) &
     forall j, (j < size (ports c))%N -> w (fwd (nth "" (ports c) j)) = nth 0 Ei j].

Lemma extS_sol c N f fl iM : Inv c N -> fillG f fl c N -> closed c ->
  inv_rows (nc c) (mM c) = Ok iM -> sol_ok c N f fl iM.
Proof.
move=> HI [G HG Hfl] Hcl Hinv Ei HEi; have [Hpn Hk Hsq] := Hcl.
have [Ex HEx] := exc_rows HG Hsq Hcl.
move: Hinv; rewrite /inv_rows Hsq eqxx /np_inv; case: ifP => HU //= -[EiM].
set a := fun j => nth 0 Ei j.
set es := [seq (val (Ex b), a (val b)) | b <- enum 'I_(size (ports c))].
have Hes : mapM (fun pE : string * C => rmap (fun e => (e, pE.2)) (dget_exn (dE c) pE.1))
             (zip (ports c) Ei) = Ok es.
  apply/mapM_Ok; split; first by rewrite size_map size_enum_ord size_zip HEi minnn.
  move=> j x0 y0; rewrite size_zip HEi minnn => Hj.
  rewrite (nth_map (Ordinal Hj)) ?size_enum_ord //.
  have -> : nth (Ordinal Hj) (enum 'I_(size (ports c))) j = Ordinal Hj
    by exact: (nth_ord_enum (Ordinal Hj) (Ordinal Hj)).
  rewrite (set_nth_default ("", 0)) ?size_zip ?HEi ?minnn // nth_zip //= /dget_exn.
  by rewrite -[nth "" (ports c) j]/(nth "" (ports c) (Ordinal Hj)) HEx.
set Es := foldl (fun v (eE : nat * C) => upd v eE.1 eE.2) (nseq (size (mM c)) 0) es.
have Efst : map fst es = [seq val (Ex b) | b <- enum 'I_(size (ports c))] by rewrite -map_comp.
have Hu : uniq (map fst es).
  rewrite Efst map_inj_uniq ?enum_uniq // => b b' /val_inj; exact: (Ex_inj HI HG HEx).
have HsEs : size Es = nc c.
  rewrite size_upds ?size_nseq // Efst; apply/allP => e /mapP [b _ ->].
  by rewrite Hsq ltn_ord.
have HEs (e : 'I_(nc c)) : nth 0 Es e = rhs Ex a e 0.
  rewrite nth_upds //; case: ifP => [|Hn].
    rewrite Efst => /mapP [b _ E].
    have -> : e = Ex b by apply: val_inj.
    have Hinj : injective (fun b => val (Ex b)).
      by move=> b1 b2 /val_inj; exact: (Ex_inj HI HG HEx).
    rewrite (rhs_Ex HI HG HEx) (@index_map _ _ _ Hinj) /es.
    rewrite -map_comp (nth_map b) ?index_mem ?mem_enum //= nth_index ?mem_enum //.
  rewrite nth_nseq if_same /rhs summxE big1 // => b _; rewrite !mxE.
  case: eqP => [E|]; last by rewrite mulr0.
  by move/negP: Hn; case; rewrite E Efst; apply: (map_f (fun b => val (Ex b))); rewrite mem_enum.
set x := invmx (mx_of (nc c) (nc c) (mM c)) *m rhs Ex a.
exists Es, (wcol (c := c) x).
have Ew : colw c (wcol (c := c) x) = x by apply: colwK HI _.
have HM : mx_of (nc c) (nc c) (mM c) *m colw c (wcol (c := c) x) = rhs Ex a by rewrite Ew mulKVmx.
have [Hr Hi] := iffLR (sysP HI HG Hsq Hcl HEx _ a) HM.
split.
- by rewrite /exc_vec Hes.
- move=> s Hs; have [j Hj] := widx HI Hs; rewrite (wcol_at x Hj) -Hj -EiM /mat_vec.
  rewrite (nth_map [::]); last by rewrite /rows_of size_map size_enum_ord ltn_ord.
  rewrite mxE HsEs; apply: eq_bigr => e _; by rewrite nth_rows_of HEs.
- by apply/(rows_sat HI HG Hfl).
- by move=> j Hj; exact: (Hi (Ordinal Hj)).
Qed.

End Ext.

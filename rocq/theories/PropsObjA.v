(** Properties C56 (rfObject made from an array) and C57 (rfObject through pickle). *)
From mathcomp Require Import all_ssreflect all_algebra.
From Coq Require Import String.
From Verif Require Import Base ConvModel ConvSpec MxLib ConvProofs ConvArr DevModel DevSpec DevThm ObjModel ObjSpec ObjThm ObjThm2 PropsObj ObjArr.
Set Implicit Arguments.
Unset Strict Implicit.
Unset Printing Implicit Defensive.
Import Order.TTheory GRing.Theory Num.Theory.
Local Open Scope ring_scope.
Local Open Scope seq_scope.

Section C56.
Variables (C : numClosedFieldType) (F : realFieldType).
Variables (inj : F -> C) (angle cis lre lim expc : C -> C) (pi : C) (wrap : C -> C -> C).
Variable rest : seq F -> seq (amx C) -> res (F -> res (amx C)).
Variables (argsort : seq F -> seq nat) (dflt : nat -> seq string).
(** numpy's angle, exp(1j x), log and exp, used as such *)
Hypothesis Hpi : 0 < pi.
Hypothesis Hcis : forall s, `|s| * cis (angle s) = s.
Hypothesis Hexp : forall s, s != 0 -> expc (lre s + 'i * lim s) = s.
Variable mode : imode.
Local Notation interp := (interp2 inj angle cis lre lim expc pi wrap rest mode).
Local Notation getS := (obj_getS interp argsort).
Local Notation getSs := (obj_getSs interp argsort).
Local Notation setS := (obj_setS dflt).
Implicit Types o : obj C F.

(** the calls that only read *)
Inductive asked o : obj C F -> Prop :=
  | asked_0 : asked o o
  | asked_S o1 f u Zb : asked o o1 -> asked o (getS o1 f u Zb).1
  | asked_Ss o1 fs u Zb : asked o o1 -> asked o (getSs o1 fs u Zb).1.

Definition const n (M : 'M[C]_n) zb fscale o : Prop :=
  [/\ [/\ o_zb o = zb, o_fscale o = fscale, o_sh o = n, o_zr o = 0%N & size (o_ports o) = n], o_fs o = [:: 0; ftop F], o_Ss o = [:: AM M; AM M], o_sorted o = true &
      forall g, o_cache o = Some g -> forall x, g x = Ok (AM M)].

Lemma top_neq : 0 != ftop F.
Proof. by rewrite eq_sym /ftop expf_neq0 // pnatr_eq0. Qed.

Lemma const_new n (M : 'M[C]_n) ps ts zb (fscale : F) o : from_array (AArr (Nd2 M)) ps ts zb fscale = Ok o ->
  const M zb fscale o.
Proof.
rewrite /= sq_square; case: ifP => // Hp; case: ts => // -[<-]; split=> //; split=> //=.
by move: Hp; case: (ps =P [::]) => [->|Hn] /= Hp; [rewrite size_map size_iota|move/negbFE/eqP: Hp].
Qed.

Lemma const_get n (M : 'M[C]_n) zb fscale o Zb f : (mode = IDB -> forall i j, M i j != 0) -> const M zb fscale o ->
  (obj_get interp argsort o Zb f).2 = (if odflt zb Zb == zb then Ok (AM M) else conv (odflt zb Zb) (AM M) zb) /\
  const M zb fscale (obj_get interp argsort o Zb f).1.
Proof.
move=> HM [[H1 H1' H6 H7 H8] H2 H3 H4 H5]; rewrite /obj_get.
have -> : (if Zb is Some z then z else o_zb o) = odflt zb Zb by rewrite H1; case: Zb.
suff [Hr Hc] : (get1S interp argsort o f).2 = Ok (AM M) /\ const M zb fscale (get1S interp argsort o f).1.
  by case: (get1S _ _ _ _) Hr Hc => o1 r /= -> Hc; rewrite /= H1; split.
rewrite /get1S H2 H3 [lookup _ _ _]/=; case: ifP => _; first by split=> //; split.
case: ifP => _; first by split=> //; split.
rewrite /interp_; case Ec: (o_cache o) => [g|]; first by rewrite (H5 _ Ec); split=> //; split=> //; rewrite Ec.
rewrite sort_fs_id ?H4 // H2 H3; have [g [Eg Hg]] := interp2_const inj wrap rest Hpi Hcis Hexp top_neq HM.
rewrite Eg /=; split; first exact: Hg.
by split=> //= g' [<-].
Qed.
Lemma const_loop n (M : 'M[C]_n) zb fscale Zb fs : (mode = IDB -> forall i j, M i j != 0) -> forall o, const M zb fscale o ->
  (get_loop interp argsort o Zb fs).2 = mapM (fun _ => if odflt zb Zb == zb then Ok (AM M) else conv (odflt zb Zb) (AM M) zb) fs /\
  const M zb fscale (get_loop interp argsort o Zb fs).1.
Proof.
move=> HM; have H0 o f := @const_get n M zb fscale o Zb f HM.
move: H0; move: (if odflt zb Zb == zb then _ else _) => r0 H0.
elim: fs => [|f fs IH] o Ho; first by split.
rewrite [get_loop _ _ _ _ _]/= [mapM _ _]/=.
have [] := H0 _ f Ho; case: (obj_get _ _ _ _ _) => o1 r /= -> H1.
case: r0 {H0} IH => [B|e] //= IH; have [] := IH _ H1; case: (get_loop _ _ _ _ _) => o2 r2 /= -> H2.
by split.
Qed.
Lemma const_asked n (M : 'M[C]_n) zb fscale o o1 : (mode = IDB -> forall i j, M i j != 0) -> const M zb fscale o -> asked o o1 ->
  const M zb fscale o1.
Proof.
move=> HM Ho; elim=> [|o2 f u Zb _ H|o2 fs u Zb _ H] //; first by have [] := const_get Zb (f * u / o_fscale o2) HM H.
rewrite /obj_getSs; case: fs => [|f fs] //.
by have [] := const_loop Zb [seq g * u / o_fscale o2 | g <- f :: fs] HM H.
Qed.

(** rfObject(M) is the multiport with the scattering matrix M at every frequency: whatever was
    asked before, getS(f) returns M for every f in every unit, with the interpolations 'MA'
    and 'RI' for every M and with 'dB' for an M without zeros.  On another reference
    impedance it returns the matrix of the same network. *)
Theorem C56_constant n (M : 'M[C]_n) ps ts zb (fscale : F) o o1 f u :
  from_array (AArr (Nd2 M)) ps ts zb fscale = Ok o -> asked o o1 -> (mode = IDB -> forall i j, M i j != 0) ->
  [/\ (getS o1 f u None).2 = Ok (AM M), (getS o1 f u (Some zb)).2 = Ok (AM M) &
   forall z S, zb != 0 -> z != 0 -> (getS o1 f u (Some z)).2 = Ok S ->
     exists M' : 'M[C]_n, S = AM M' /\ forall v i, relates "V" (const_mx zb) M v i <-> relates "V" (const_mx z) M' v i].
Proof.
move=> /const_new Ho Ha HM; have H1 := const_asked HM Ho Ha; rewrite /obj_getS.
split; rewrite ?(const_get _ _ HM H1).1 /= ?eqxx // => z Sm Hz0 Hz; rewrite (const_get _ _ HM H1).1 /=.
case: eqP => [->|_]; first by case=> <-; exists M; split.
rewrite /conv /=; case Ec: (convert1 _ _ _ _ _) => [B|//] /= [ES2]; exists B; split; first by rewrite -ES2.
by move/(convert1_iff _ _ (isT : typ_ok "V") (isT : typ_ok "V") (@admV C n _ Hz0) (@admV C n _ Hz)): Ec.
Qed.

(** a list of frequencies: M for each *)
Theorem C56_list n (M : 'M[C]_n) ps ts zb (fscale : F) o o1 fs u :
  from_array (AArr (Nd2 M)) ps ts zb fscale = Ok o -> asked o o1 -> (mode = IDB -> forall i j, M i j != 0) ->
  fs <> [::] -> (getSs o1 fs u None).2 = Ok (nseq (size fs) (AM M)).
Proof.
move=> /const_new Ho Ha HM Hf; have H1 := const_asked HM Ho Ha; rewrite /obj_getSs; case: fs Hf => [|f fs] // _.
rewrite (const_loop _ _ HM H1).1 /= eqxx /=; elim: fs => [|g fs IH] //=.
by move: IH; case: (mapM _ _) => [l|] //= [->].
Qed.

(** which arguments are accepted: a square matrix, as many port names as it has rows or none,
    no touchstone *)
Theorem C56_accepted a ps ts zb (fscale : F) :
  (exists o, from_array a ps ts zb fscale = Ok o) <->
  [/\ exists n (M : 'M[C]_n), a = AArr (Nd2 M) /\ (ps = [::] \/ size ps = n) & ts = false].
Proof.
split.
  case=> o; case: a => [||[x|l|m n M|m n M|k]] //=; rewrite /sq; case: eqP => // E.
  subst n; case: ifP => // Hp; case: ts => // _; split=> //; exists m, M; split=> //.
  by move: Hp; case: (ps =P [::]) => [->|_] /=; [left|move/negbFE/eqP; right].
case=> -[n [M [-> Hp]]] ->; rewrite /= sq_square; case: ifP => [/andP [H1 /eqP H2]|_]; last by eexists.
by case: Hp H1 => [->|].
Qed.

(** the others: TypeError for what is no square matrix, ValueError for the rest *)
Theorem C56_refused ps ts zb (fscale : F) :
  [/\ from_array (F := F) (C := C) ANone ps ts zb fscale = Raise TypeError,
      from_array (F := F) (C := C) ARagged ps ts zb fscale = Raise ValueError,
      (forall m n (M : 'M[C]_(m, n)), m <> n -> from_array (AArr (Nd2 M)) ps ts zb fscale = Raise TypeError),
      (forall x : nd C, (if x is Nd2 _ _ _ then false else true) -> from_array (AArr x) ps ts zb fscale = Raise TypeError) &
      forall n (M : 'M[C]_n), ps <> [::] -> size ps <> n \/ ts -> from_array (AArr (Nd2 M)) ps ts zb fscale = Raise ValueError].
Proof.
split=> //.
- by move=> m n M Hn; rewrite /= /sq; case: eqP => // E; case: Hn.
- by case.
move=> n M Hp H; rewrite /= sq_square; case: ifP => // /negbT; rewrite negb_and !negbK => H1.
case: H H1 => [/eqP H|->] //; by rewrite (negbTE H) orbF => /eqP.
Qed.

(** the ports: the names given, or else m001, m002, ...; these are different names *)
Theorem C56_ports n (M : 'M[C]_n) ps ts zb (fscale : F) o : from_array (AArr (Nd2 M)) ps ts zb fscale = Ok o ->
  [/\ size (o_ports o) = n, ps <> [::] -> o_ports o = ps &
      ps = [::] -> uniq (o_ports o) /\ forall k, (k < n)%N -> nth ""%string (o_ports o) k = mname k.+1].
Proof.
rewrite /= sq_square; case: ifP => // Hp; case: ts => // -[<-] /=.
move: Hp; case: (ps =P [::]) => [->|Hn] /= Hp; split=> //; last by move/negbFE/eqP: Hp.
  by rewrite size_map size_iota.
move=> _; split; first by rewrite (map_inj_uniq mname_inj) iota_uniq.
by move=> k Hk; rewrite (nth_map 0%N) ?size_iota // nth_iota.
Qed.

(** a matrix stored for a frequency below 1e18: from then on every frequency that is not in the table raises
    IndexError *)
Theorem C56_setS_refuted n (M N : 'M[C]_n) ps ts zb (fscale : F) o o1 f g u Zb : (0 < n)%N ->
  from_array (AArr (Nd2 M)) ps ts zb fscale = Ok o -> asked o o1 -> (mode = IDB -> forall i j, M i j != 0) ->
  f < ftop F -> g * u / fscale \notin [:: 0; ftop F; f] ->
  exists o2, setS o1 [:: f] (Nd2 N) None = (o2, Ok tt) /\ (getS o2 g u Zb).2 = Raise IndexError.
Proof.
move=> Hn /const_new Ho Ha HM Hf Hg.
have [[H1 H1' H6 H7 H8] H2 H3 H4 H5] := const_asked HM Ho Ha.
have Hp : (o_ports o1 == [::]) = false by apply/eqP => E; move: H8 Hn; rewrite E => <-.
rewrite /obj_setS /= sq_square /= Hp /= H8 eqxx /= H2 /= H6 eqxx /= !H2 H4 /=.
eexists; split; first by reflexivity.
rewrite /obj_getS H1' /obj_get /get1S off_table /=; last by [].
by rewrite /interp_ /sort_fs /= ltNge (ltW Hf) /= H7.
Qed.
End C56.

Section C57.
Variables (C : numClosedFieldType) (F : realFieldType).
Variable interp1d : seq F -> seq (amx C) -> res (F -> res (amx C)).
Variables (argsort : seq F -> seq nat) (argsort_s : seq string -> seq nat) (dflt : nat -> seq string).
Variable trlS : C -> C -> C -> F -> res 'M[C]_2.
Variable leS : rel string.
Hypothesis Harg : good_argsort 0 <=%R argsort.
Hypothesis Hargs : good_argsort ""%string leS argsort_s.
Implicit Types o p : obj C F.
Local Notation run := (run interp1d argsort argsort_s dflt trlS).
Local Notation getS := (obj_getS interp1d argsort).
Local Notation setS := (obj_setS dflt).
Local Notation sortports := (obj_sortports argsort_s).
Local Notation reply := (reply interp1d argsort dflt).
Local Notation replies := (replies interp1d argsort dflt).

(** the interpolation kept is that of the table *)
Definition kept o : Prop := forall g, o_cache o = Some g -> o_sorted o /\ interp1d (o_fs o) (o_Ss o) = Ok g.
Definition psim o p : Prop := exists sh zc ch,
  [/\ p = Obj (o_ports o) (o_zb o) (o_fscale o) (o_fs o) (o_Ss o) sh (o_sorted o) (o_zr o) zc ch,
      o_fs o = [::] \/ sh = o_sh o, ch = o_cache o \/ ch = None & kept o].

Lemma psim_intro ps zb fsc fs Ss sh sh' (so : bool) zr zc zc' ch ch' : fs = [::] \/ sh' = sh -> ch' = ch \/ ch' = None ->
  (forall g, ch = Some g -> so /\ interp1d fs Ss = Ok g) ->
  psim (Obj ps zb fsc fs Ss sh so zr zc ch) (Obj ps zb fsc fs Ss sh' so zr zc' ch').
Proof. by move=> H1 H2 H3; exists sh', zc', ch'; split. Qed.
Lemma take_nil A (x0 : A) (s : seq A) idxs : perm_eq idxs (iota 0 (size s)) -> s = [::] -> take_idx x0 s idxs = [::].
Proof. by move=> Hp Hs; have := perm_size Hp; rewrite Hs => /size0nil ->. Qed.

Lemma psim_get o p Zb f : psim o p -> (obj_get interp1d argsort p Zb f).2 = (obj_get interp1d argsort o Zb f).2 /\
  psim (obj_get interp1d argsort o Zb f).1 (obj_get interp1d argsort p Zb f).1.
Proof.
case: o => ps zb fsc fs Ss sh so zr zc ch [sh' [zc' [ch' [-> Hs Hc Hk]]]]; rewrite /kept /= in Hs Hc Hk *.
suff : (get1S interp1d argsort (Obj ps zb fsc fs Ss sh' so zr zc' ch') f).2 = (get1S interp1d argsort (Obj ps zb fsc fs Ss sh so zr zc ch) f).2 /\
  psim (get1S interp1d argsort (Obj ps zb fsc fs Ss sh so zr zc ch) f).1 (get1S interp1d argsort (Obj ps zb fsc fs Ss sh' so zr zc' ch') f).1.
  by rewrite /obj_get; case: (get1S _ _ _ _) => p1 r1; case: (get1S _ _ _ _) => o1 r /= [-> H2]; split.
rewrite /get1S /=; case: (lookup _ _ _) => [Sm|]; first by split=> //; exact: psim_intro.
rewrite /interp_ /=; case: ch Hc Hk => [g|] Hc Hk.
  have [Hso Hg] := Hk _ erefl; case: Hc => ->; first by split=> //; apply: psim_intro=> //; left.
  by rewrite sort_fs_id //= Hg /=; split=> //; apply: psim_intro=> //; left.
have {Hc} -> : ch' = None by case: Hc.
rewrite /sort_fs /=; case: so Hk => Hk.
  case Ei: (interp1d _ _) => [g|e] /=; split=> //; apply: psim_intro=> //; [by left|by move=> g' [<-]|by left].
have Hs' : take_idx 0 fs (argsort fs) = [::] \/ sh' = sh.
  by case: Hs => [E|E]; [left; apply: take_nil=> //; exact: (Harg _).1|right].
case: ifP => _ /=; first by split=> //; apply: psim_intro=> //; left.
by case Ei: (interp1d _ _) => [g|e] /=; split=> //; apply: psim_intro=> //; [left|move=> g' [<-]|left].
Qed.
Lemma psim_loop Zb fs : forall o p, psim o p -> (get_loop interp1d argsort p Zb fs).2 = (get_loop interp1d argsort o Zb fs).2 /\
  psim (get_loop interp1d argsort o Zb fs).1 (get_loop interp1d argsort p Zb fs).1.
Proof.
elim: fs => [|f fs IH] o p H //=; have [] := psim_get Zb f H.
case: (obj_get _ _ p _ _) => p1 r1; case: (obj_get _ _ o _ _) => o1 r /= -> H1; case: r => [B|e] //=.
have [] := IH _ _ H1; case: (get_loop _ _ p1 _ _) => p2 r2; case: (get_loop _ _ o1 _ _) => o2 r2' /= -> H2.
by split.
Qed.
Lemma psim_setS f Sm names o p : psim o p -> (setS p f Sm names).2 = (setS o f Sm names).2 /\ psim (setS o f Sm names).1 (setS p f Sm names).1.
Proof.
case: o => ps zb fsc fs Ss sh so zr zc ch [sh' [zc' [ch' [-> Hs Hc Hk]]]]; rewrite /kept /= in Hs Hc Hk *.
have H0 ps' : psim (Obj ps' zb fsc fs Ss sh so zr zc None) (Obj ps' zb fsc fs Ss sh' so zr zc' None).
  by apply: psim_intro=> //; left.
rewrite /obj_setS /set_cache /=; case: (check3D Sm) => [[L n Ms]|e]; last by split=> //; exact: H0.
case: ifP => _; first by split=> //; exact: H0.
have Hgo ps' : let K sh0 zc0 := (if size ps' != n then (Obj ps' zb fsc fs Ss sh0 so zr zc0 None, Raise TypeError) else
      let o := if size fs == 0%N then Obj ps' zb fsc fs Ss n so zr zc0 None else Obj ps' zb fsc fs Ss sh0 so zr zc0 None in
      if o_sh o != n then (o, Raise SystemError) else
      let fs := o_fs o ++ f in
      let o := set_tab o fs (o_Ss o ++ [seq AM M | M <- Ms]) in
      if o_sorted o && (size fs == 0%N) then (o, Raise IndexError) else
      (set_sorted o (o_sorted o && ((size fs == 1)%N || (nth 0 fs (size fs - 2) < nth 0 fs (size fs - 1)))), Ok tt)) in
   (K sh' zc').2 = (K sh zc).2 /\ psim (K sh zc).1 (K sh' zc').1.
  rewrite /=; case: ifP => _; first by split=> //; exact: H0.
  have Hi fs1 Ss1 so1 n1 : psim (Obj ps' zb fsc fs1 Ss1 n1 so1 zr zc None) (Obj ps' zb fsc fs1 Ss1 n1 so1 zr zc' None).
    by apply: psim_intro=> //; [right|left].
  case: (size fs =P 0%N) => [E0|E0] /=.
    by rewrite eqxx /=; case: ifP => _; split=> //; exact: Hi.
  case: Hs => [E|->]; first by case: E0; rewrite E.
  by case: ifP => _ /=; first (by split=> //; exact: Hi); case: ifP => _; split=> //; exact: Hi.
case: names => [ps1|]; case: (ps == [::]); try by split=> //; exact: H0.
- exact: (Hgo ps1).
- exact: (Hgo (dflt n)).
- exact: (Hgo ps).
Qed.

Lemma psim_reply c o p : set_or_get c -> psim o p -> (reply p c).2 = (reply o c).2 /\ psim (reply o c).1 (reply p c).1.
Proof.
case: c => // [f Sm names|f u Zb|fs u Zb] _ H /=.
- by have [-> H1] := psim_setS f Sm names H.
- rewrite /obj_getS; have -> : o_fscale p = o_fscale o by case: H => sh [zc [ch [-> _ _ _]]].
  by have [-> H1] := psim_get Zb (f * u / o_fscale o) H.
- rewrite /obj_getSs; have -> : o_fscale p = o_fscale o by case: H => sh [zc [ch [-> _ _ _]]].
  by case: fs => [|f fs] //; have [-> H1] := psim_loop Zb [seq f0 * u / o_fscale o | f0 <- f :: fs] H.
Qed.
Lemma psim_replies cs o p : all (@set_or_get C F) cs -> psim o p -> replies p cs = replies o cs.
Proof.
elim: cs o p => [|c cs IH] o p //= /andP [Hc Hcs] H; have [-> H1] := psim_reply Hc H.
by rewrite (IH _ _ Hcs H1).
Qed.
Lemma reply_do o c : set_or_get c -> (reply o c).1 = (obj_do interp1d argsort argsort_s dflt trlS o c).1.
Proof. by case: c => //= *; [case: (obj_setS _ _ _ _ _)|case: (obj_getS _ _ _ _ _ _)|case: (obj_getSs _ _ _ _ _ _)]. Qed.
Lemma run_kept cs o : all (@set_or_get C F) cs -> kept o -> kept (run o cs).
Proof.
elim: cs o => [|c cs IH] o //= /andP [Hc Hcs] H; apply: IH => //.
have H0 : psim o o by case: o H => ps zb fsc fs Ss sh so zr zc ch H; apply: psim_intro=> //; [right|left].
by have [_ [sh [zc [ch [_ _ _]]]]] := psim_reply Hc H0; rewrite reply_do.
Qed.
Definition inv2 o : Prop := ok_size o /\ o_zr o = 0%N.
Lemma sort_inv2 o : inv2 o -> inv2 (sort_fs argsort o).1.
Proof.
move=> [H1 H2]; rewrite /sort_fs; case: (o_sorted o) => //; case: ifP => H; last by move: H; rewrite H2 lt0n => /negbFE/eqP E; split=> //=; rewrite /ok_size /= /take_idx !size_map.
by split=> //=; rewrite /ok_size /= /take_idx !size_map.
Qed.
Lemma get_inv2 o Zb f : inv2 o -> inv2 (obj_get interp1d argsort o Zb f).1.
Proof.
move=> H; rewrite /obj_get /get1S; case: (lookup _ _ _) => [A|] //=; rewrite /interp_.
case: (o_cache o) => [g|] //; have := sort_inv2 H.
by case: (sort_fs _ _) => o1 [x|e] //= H1; case: (interp1d _ _).
Qed.
Lemma loop_inv2 o Zb fs : inv2 o -> inv2 (get_loop interp1d argsort o Zb fs).1.
Proof.
elim: fs o => [|f fs IH] o H //=; have := get_inv2 Zb f H; case: (obj_get _ _ _ _ _) => o1 [A|e] //= H1.
by have := IH o1 H1; case: (get_loop _ _ _ _ _).
Qed.
Lemma mapM_size' A B (f : A -> res B) s t : mapM f s = Ok t -> size t = size s.
Proof.
elim: s t => [|x s IH] t /=; first by case=> <-.
by case: (f x) => //= y; case E: (mapM f s) => [l|] //= [<-] /=; rewrite (IH _ E).
Qed.
Lemma deembed_tab_size (trl : F -> res 'M[C]_2) kp fs (Ss : seq (amx C)) : size (deembed_tab trl kp fs Ss).1 = size Ss.
Proof.
elim: fs Ss => [|f fs IH] [|A Ss] //=; case: (trl f) => //= T; case: (deembed1 _ _ _) => //= A'.
by have := IH Ss; case: (deembed_tab _ _ _ _) => r x /= ->.
Qed.
Lemma deembed_inv2 o ps kp d : inv2 o -> inv2 (deembed_ports trlS o ps kp d).1.1.
Proof.
elim: ps o kp d => [|p ps IH] o kp d H //=; case: (dget d p) => [[L Z|]|] //; last exact: IH.
have := deembed_tab_size (trlS (- L) Z (o_zb o)) kp (o_fs o) (o_Ss o).
have [H1 H2] := H; case: (deembed_tab _ _ _ _) => Ss [x|e] /= E; last by split=> //; rewrite /ok_size /= E.
by apply: IH; split=> //; rewrite /ok_size /= E.
Qed.
Lemma do_inv2 o c : inv2 o -> inv2 (obj_do interp1d argsort argsort_s dflt trlS o c).1.
Proof.
move=> H; have [H1 H2] := H; case: c => [f Sm names|f u Zb|fs u Zb|k f A|z|order|d] /=.
- rewrite /obj_setS; case: (check3D Sm) => [[L n Ms]|e] //=; case: ifP => // /negbFE /eqP Hsz.
  have Hgo (o1 : obj C F) : inv2 o1 -> inv2 (let: (o2, r) := (if size (o_ports o1) != n then (o1, Raise TypeError) else
      let o := if size (o_fs o1) == 0%N then set_sh o1 n else o1 in
      if o_sh o != n then (o, Raise SystemError) else
      let fs := o_fs o ++ f in
      let o := set_tab o fs (o_Ss o ++ [seq AM M | M <- Ms]) in
      if o_sorted o && (size fs == 0%N) then (o, Raise IndexError) else
      (set_sorted o (o_sorted o && ((size fs == 1)%N || (nth 0 fs (size fs - 2) < nth 0 fs (size fs - 1)))), Ok tt)) in (o2, is_ok r)).1.
    case=> G1 G2; case: ifP => //= _.
    have Hi (o2 : obj C F) b : inv2 o2 -> inv2 (set_tab o2 (o_fs o2 ++ f) (o_Ss o2 ++ [seq AM M | M <- Ms])) /\
      inv2 (set_sorted (set_tab o2 (o_fs o2 ++ f) (o_Ss o2 ++ [seq AM M | M <- Ms])) b).
      by move=> [K1 K2]; split; split=> //; rewrite /ok_size /= !size_cat size_map Hsz K1.
    have Hi1 : inv2 (if size (o_fs o1) == 0%N then set_sh o1 n else o1) by case: (_ == _).
    move: (if size (o_fs o1) == 0%N then _ else _) Hi1 => o2 Hi1; case: ifP => //= _.
    by case: (_ && _); [exact: (Hi o2 true Hi1).1|exact: (Hi o2 _ Hi1).2].
  case: names => [ps|]; case: (o_ports o == [::]) => //.
  + exact: (Hgo (set_ports (set_cache o None) ps)).
  + exact: (Hgo (set_ports (set_cache o None) (dflt n))).
  + exact: (Hgo (set_cache o None)).
- by rewrite /obj_getS; have := get_inv2 Zb (f * u / o_fscale o) H; case: (obj_get _ _ _ _ _).
- rewrite /obj_getSs; case: fs => [|f fs] //.
  by have := loop_inv2 Zb [seq f0 * u / o_fscale o | f0 <- f :: fs] H; case: (get_loop _ _ _ _ _).
- rewrite /obj_setitem; case: ifP => // Hk; have E : size (set_nth 0 (o_fs o) k f) = size (o_fs o).
    by rewrite size_set_nth; apply/maxn_idPr.
  have E2 : size (set_nth (am0 C) (o_Ss o) k A) = size (o_Ss o).
    by rewrite size_set_nth; apply/maxn_idPr; rewrite -H1.
  by case: ifP => _; split=> //; rewrite /ok_size /= E ?E2.
- by rewrite /convert2newZbase; case E: (mapM _ _) => [Ss|e] //; split=> //; rewrite /ok_size /= (mapM_size' E).
- rewrite /obj_sortports; case: (if order is Some l then _ else _) => [idxs|e] //=.
  case: ifP => //= _; case: ifP => //= _; split=> //; by rewrite /ok_size /= size_map.
- rewrite /obj_deembed; have := @deembed_inv2 (set_cache o None) (o_ports o) 0%N d H.
  by case: (deembed_ports _ _ _ _ _) => -[o1 [|x d1]] [y|e].
Qed.
Lemma run_inv2 cs o : inv2 o -> inv2 (run o cs).
Proof. by elim: cs o => [|c cs IH] o H //=; apply: IH; apply: do_inv2. Qed.
Lemma run_size cs ports (zb : C) (fscale : F) : ok_size (run (new_obj ports zb fscale) cs).
Proof. by have [] : inv2 (run (new_obj ports zb fscale) cs) by apply: run_inv2. Qed.

(** An rfObject on which only setS and getS were called, returning or raising, answers any
    further setS and getS calls after pickle.loads(pickle.dumps(o)) as it would have
    without, results and exceptions. *)
Theorem C57_same ports (zb : C) (fscale : F) cs cs' : let o := run (new_obj ports zb fscale) cs in
  all (@set_or_get C F) cs -> all (@set_or_get C F) cs' -> replies (unpickled o) cs' = replies o cs'.
Proof.
move=> o Hcs Hcs'; apply: psim_replies=> //.
have Hk : kept o by apply: run_kept.
have Hs : ok_size o by apply: run_size.
case: o Hk Hs => ps zb' fsc fs Ss sh so zr zc ch Hk Hs; apply: psim_intro=> //; last by right.
by move: Hs; rewrite /ok_size /=; case: (Ss) => [/size0nil ->|]; [left|right].
Qed.

(** Whatever was called before (changes of the reference impedance or of the order of the ports
    included), what it holds is kept, and what it interpolates then is the interpolation of
    the table it holds: unlike the object it was made from (C29_stale_refuted). *)
Theorem C57_interpolates ports (zb : C) (fscale : F) cs f u S : let o := run (new_obj ports zb fscale) cs in
  [/\ o_ports (unpickled o) = o_ports o, o_zb (unpickled o) = o_zb o, items (unpickled o) = items o &
   f * u / o_fscale o \notin o_fs o -> (getS (unpickled o) f u None).2 = Ok S ->
   exists tab g, [/\ perm_eq tab (items o), interp1d (unzip1 tab) (unzip2 tab) = Ok g & g (f * u / o_fscale o) = Ok S]].
Proof.
move=> o; split=> // Hn; have Hs : ok_size (unpickled o) by exact: (@run_size cs ports zb fscale).
rewrite /obj_getS /obj_get /get1S off_table //.
have Hc : cache_fresh interp1d (unpickled o) by move=> g.
have [_ H] := interp_fresh Harg (f * u / o_fscale o) S Hs Hc.
by move: H; case: (interp_ _ _ _ _) => o1 r /= H; rewrite eqxx; case: r H => [A|e] //= H [E]; apply: H; rewrite E.
Qed.

(** But its ports cannot be sorted any more: where sortports would return it raises
    IndexError, after it has changed the order of the ports, and of the matrices of a table
    that is not empty. *)
Theorem C57_sortports_refuted ports (zb : C) (fscale : F) cs order o1 : uniq ports -> ports != [::] ->
  let o := run (new_obj ports zb fscale) cs in sortports o order = (o1, Ok tt) ->
  exists p1, [/\ sortports (unpickled o) order = (p1, Raise IndexError), o_ports p1 = o_ports o1 &
                 items o != [::] -> items p1 = items o1].
Proof.
move=> Hu Hn o; have [H1 H2 H3 H4] : named o by exact: (@run_named C F interp1d argsort argsort_s dflt trlS leS Hargs (new_obj ports zb fscale) cs).
have [Hs Hz] : inv2 o by apply: run_inv2.
rewrite /obj_sortports; case Ei: (if order is Some l then _ else _) => [idxs|e] //=.
have Hp : perm_eq idxs (iota 0 (size (o_ports o))).
  case: order Ei => [l|] Ei; first by have [] := list_idxs_ok H2 Ei.
  by have [G1 G2] := Hargs (o_ports o); case: Ei => <-.
have Hsz : size idxs = size (o_ports o) by rewrite (perm_size Hp) size_iota.
have Hall n : n = size (o_ports o) -> has (fun k => n <= k)%N idxs = false.
  by move=> ->; apply/hasP => -[k]; rewrite (perm_mem Hp) mem_iota add0n => /= Hk; rewrite leqNgt Hk.
have H0 : has (fun k => 0 <= k)%N idxs by case: idxs Hsz {Hp Hall Ei} => // /esym/size0nil E; rewrite E in H1.
have E1 : has [eta leq (o_sh o)] idxs = false by apply: Hall.
have E2 : has [eta leq (o_zc o)] idxs = false by apply: Hall; rewrite -H4.
rewrite E1 E2 Hz /= H0 => -[<-] /=.
case Es: (o_Ss o) => [|A l].
  by rewrite H0; eexists; split=> //; rewrite /items Es; case: (o_fs o).
by rewrite E1; eexists; split=> //=; rewrite /items /= Es.
Qed.
End C57.

(** a through two-port, its default port names; functions as assumed exist *)
Example C56_witness (C : numClosedFieldType) (F : realFieldType) :
  let M : 'M[C]_2 := mx2 0 1 1 0 in
  (exists (angle cis lre lim expc : C -> C) (pi : C), [/\ 0 < pi, forall s, `|s| * cis (angle s) = s &
     forall s, s != 0 -> expc (lre s + 'i * lim s) = s]) /\
  exists o : obj C F, from_array (AArr (Nd2 M)) [::] false 50%:R 1 = Ok o /\ o_ports o = [:: "m001"; "m002"]%string.
Proof.
move=> M; split; last by rewrite /= sq_square; eexists; split.
exists id, (fun s => s / `|s|), (fun s => 'Re s), (fun s => 'Im s), id, 1; split; first exact: ltr01.
- move=> s; case: (s =P 0) => [->|/eqP Hs]; first by rewrite normr0 mul0r.
  by rewrite mulrCA mulfV ?mulr1 // normr_eq0.
- by move=> s _; rewrite /= -Crect.
Qed.

(** a two-port with ports b, a and one matrix: after pickle, sortports raises and the matrix
    is permuted *)
Example C57_witness (C : numClosedFieldType) (F : realFieldType) (M : 'M[C]_2) (zb : C) interp1d dflt trlS argsort argsort_s :
  let o := run interp1d argsort argsort_s dflt trlS (new_obj [:: "b"; "a"]%string zb (1 : F)) [:: OSetS [:: 1] (Nd2 M) None] in
  items o = [:: (1, AM M)] /\
  exists o1 p1, [/\ obj_sortports argsort_s o (Some [:: "a"]%string) = (o1, Ok tt),
    obj_sortports argsort_s (unpickled o) (Some [:: "a"]%string) = (p1, Raise IndexError) &
    o_ports p1 = [:: "a"; "b"]%string].
Proof.
move=> o.
have -> : o = Obj [:: "b"; "a"]%string zb 1 [:: 1] [:: AM M] 2 true 0 2 None.
  by rewrite /o /= /obj_setS /= sq_square.
split; first by [].
by do 2 eexists; split; reflexivity.
Qed.

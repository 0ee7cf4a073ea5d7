(** Properties C29, C30, C31: rfObject.  interp1d, argsort and the matrices of the lines used
    by deembed are arguments; nothing is assumed about interp1d. *)
From mathcomp Require Import all_ssreflect all_algebra.
From mathcomp.algebra_tactics Require Import ring.
From Coq Require Import String.
From Verif Require Import Base ConvModel ConvSpec MxLib ConvProofs ConvArr DevModel DevSpec DevThm TrlModel TrlSpec TrlThm PropsTrl ObjModel ObjSpec ObjThm ObjThm2.
Set Implicit Arguments.
Unset Strict Implicit.
Unset Printing Implicit Defensive.
Import Order.TTheory GRing.Theory Num.Theory.
Local Open Scope ring_scope.
Local Open Scope seq_scope.

Section Props.
Variables (C : numClosedFieldType) (F : realFieldType).
Variable interp1d : seq F -> seq (amx C) -> res (F -> res (amx C)).
Variables (argsort : seq F -> seq nat) (argsort_s : seq string -> seq nat) (dflt : nat -> seq string).
Variable trlS : C -> C -> C -> F -> res 'M[C]_2.
Variable leS : rel string.              (* numpy's order of strings *)
Hypothesis Harg : good_argsort 0 <=%R argsort.
Hypothesis Hargs : good_argsort ""%string leS argsort_s.
Implicit Types o : obj C F.
Local Notation obj_do := (obj_do interp1d argsort argsort_s dflt trlS).
Local Notation run := (run interp1d argsort argsort_s dflt trlS).
Local Notation sets_ok := (sets_ok interp1d argsort argsort_s dflt trlS).
Local Notation getS := (obj_getS interp1d argsort).
Local Notation getSs := (obj_getSs interp1d argsort).
Local Notation setS := (obj_setS dflt).
Local Notation sortports := (obj_sortports argsort_s).
Local Notation deembed := (obj_deembed trlS).

Lemma new_size ports (zb : C) (fscale : F) : ok_size (new_obj ports zb fscale). Proof. by []. Qed.

(** ** C29 *)
(** after any sequence of setS calls that returned, with any getS calls in between: getS of a
    tabulated frequency returns exactly the matrix stored with it; u is the unit of the
    frequency given, fscale the object's *)
Theorem C29_tabulated ports (zb : C) (fscale : F) cs f u S : let o0 := new_obj ports zb fscale in
  all (@set_or_get C F) cs -> sets_ok o0 cs -> uniq (unzip1 (data cs)) ->
  (f * u / fscale, S) \in data cs ->
  (getS (run o0 cs) f u None).2 = Ok S /\
  forall z, (getS (run o0 cs) f u (Some z)).2 = if z == zb then Ok S else conv z S zb.
Proof.
move=> o0 Hcs Hok Hu Hin.
have [_ Hp Hzb Hf] := run_data Harg (new_size ports zb fscale) Hcs Hok; rewrite -/o0 /= in Hp Hzb Hf.
have Hg : dget (items (run o0 cs)) (f * u / fscale) = Some S.
  by rewrite (dget_perm _ _ Hp) //; apply/eqP; rewrite dget_in.
by split=> [|z]; rewrite /obj_getS Hf (get_lookup _ _ _ Hg) /= Hzb ?eqxx.
Qed.
(** the same unit: u = fscale *)
Theorem C29_same_unit ports (zb : C) (fscale : F) cs f S : fscale != 0 -> let o0 := new_obj ports zb fscale in
  all (@set_or_get C F) cs -> sets_ok o0 cs -> uniq (unzip1 (data cs)) -> (f, S) \in data cs ->
  (getS (run o0 cs) f fscale None).2 = Ok S.
Proof.
move=> Hf o0 H1 H2 H3 H4; apply: (C29_tabulated _ _ _ _).1 => //.
by rewrite mulfK.
Qed.
(** a list of frequencies *)
Theorem C29_list o fs u Zb Ss : fs <> [::] -> mapM (fun f => if dget (items o) (f * u / o_fscale o) is Some Sm then
    (if (if Zb is Some z then z else o_zb o) == o_zb o then Ok Sm else conv (if Zb is Some z then z else o_zb o) Sm (o_zb o)) else Raise KeyError) fs = Ok Ss ->
  getSs o fs u Zb = (o, Ok Ss).
Proof.
case: fs => // f0 fs _; rewrite /obj_getSs; move: {f0 fs}(f0 :: fs) => fs.
elim: fs Ss => [|f fs IH] Ss; first by case=> <-.
rewrite [mapM _ _]/=; case E: (dget _ _) => [A|] //.
rewrite [map _ _]/= [get_loop _ _ _ _ _]/= (get_lookup _ _ _ E).
case: (if _ == _ then _ else _) => [B|] //=.
by case Em: (mapM _ fs) => [l|] //= [<-]; rewrite (IH _ Em).
Qed.
(** any other frequency: the interpolation sees exactly the data stored *)
Theorem C29_interpolated ports (zb : C) (fscale : F) cs f u S : let o0 := new_obj ports zb fscale in
  all (@set_or_get C F) cs -> sets_ok o0 cs -> f * u / fscale \notin unzip1 (data cs) ->
  (getS (run o0 cs) f u None).2 = Ok S ->
  exists tab g, [/\ perm_eq tab (data cs), interp1d (unzip1 tab) (unzip2 tab) = Ok g & g (f * u / fscale) = Ok S].
Proof.
move=> o0 Hcs Hok Hn.
have [Hs Hp Hzb Hf] := run_data Harg (new_size ports zb fscale) Hcs Hok; rewrite -/o0 /= in Hs Hp Hzb Hf.
have Hc : cache_fresh interp1d (run o0 cs) by apply: run_fresh => //; move=> g.
rewrite /obj_getS Hf /obj_get /get1S lookupE.
have -> : dget (zip (o_fs (run o0 cs)) (o_Ss (run o0 cs))) (f * u / fscale) = None.
  case E: (dget _ _) => [A|] //; exfalso; move/negP: Hn; apply.
  have : f * u / fscale \in dkeys (items (run o0 cs)) by rewrite -dhasE /dhas /items E.
  by rewrite /dkeys (perm_mem (perm_map _ Hp)).
have [_] := @interp_fresh _ _ interp1d argsort Harg _ (f * u / fscale) S Hs Hc.
case: (interp_ _ _ _ _) => o1 [A|e] //= H; rewrite Hzb eqxx => -[E]; rewrite E in H.
have [tab [g [H1 H2 H3]]] := H erefl; exists tab, g; split=> //; exact: perm_trans H1 Hp.
Qed.
(** data handed over in increasing order stay so *)
Theorem C29_increasing ports (zb : C) (fscale : F) cs : let o0 := new_obj ports zb fscale in
  all (@set_or_get C F) cs -> sets_ok o0 cs -> sorted <%R (unzip1 (data cs)) -> items (run o0 cs) = data cs.
Proof.
move=> o0 H1 H2 H3.
by have [] := @run_sorted _ _ interp1d argsort argsort_s dflt trlS Harg o0 cs (new_size _ _ _) isT H1 H2 H3.
Qed.
(** every call returns when the shapes fit *)
Theorem C29_setS_defined o f n (Ms : seq 'M[C]_n) : size (o_ports o) = n -> (0 < n)%N -> (o_fs o != [::] -> o_sh o = n) ->
  (0 < size f)%N -> size f = size Ms -> (setS o f (Nd3 Ms) None).2 = Ok tt.
Proof.
move=> Hp Hn Hsh Hf Hs; rewrite /obj_setS /check3D.
have -> : sqs Ms = Some Ms by rewrite /sqs; case: eqP => // e; rewrite eq_axiomK; congr Some; rewrite -[RHS]map_id; apply: eq_map => M; rewrite castmx_id.
rewrite Hs eqxx /= -size_eq0 Hp (gtn_eqF Hn) /= Hp eqxx /=.
case: (size (o_fs o) =P 0%N) => [E|E] /=; rewrite ?eqxx /= ?Hsh -?size_eq0 ?eqxx /=; try exact/eqP.
  by rewrite size_cat E add0n (gtn_eqF Hf) andbF.
by rewrite size_cat addn_eq0 (gtn_eqF Hf) !andbF.
Qed.

(** the "sorted" mark only looks at the last two frequencies: setS([3,1,2], ...) counts as
    sorted and the table stays unsorted for ever *)
Theorem C29_sorted_refuted n (M1 M2 M3 : 'M[C]_n.+1) (zb : C) (fscale : F) ports : size ports = n.+1 ->
  let o := (setS (new_obj ports zb fscale) [:: 3%:R; 1; 2%:R] (Nd3 [:: M1; M2; M3]) None).1 in
  forall fs u Zb, o_fs (getSs o fs u Zb).1 = [:: 3%:R; 1; 2%:R].
Proof.
move=> Hp o fs u Zb.
have Hok : (setS (new_obj ports zb fscale) [:: 3%:R; 1; 2%:R] (Nd3 [:: M1; M2; M3]) None).2 = Ok tt.
  by apply: C29_setS_defined.
have [E1 _ _ _ [_ _ [_ E2] _ _]] := setS_ok Hok; rewrite -/o /= in E1 E2.
have Hs : o_sorted o by rewrite E2 E1 /= ltr1n.
have : items (getSs o fs u Zb).1 = items o /\ True.
  rewrite /obj_getSs; case: fs => [|f fs]; first by split.
  by have [-> _] := @loop_sorted _ _ interp1d argsort o Zb [seq f0 * u / o_fscale o | f0 <- f :: fs] Hs.
case=> E _.
have Hsz : ok_size o by rewrite /ok_size E1; have [_ -> _ _ _] := setS_ok Hok; rewrite /mats /check3D /sqs; case: eqP => // e.
have [Hsz' _] : ok_size (getSs o fs u Zb).1 /\ True.
  rewrite /obj_getSs; case: fs {E} => [|f fs]; first by split.
  by have [] := loop_tab interp1d Harg Zb [seq f0 * u / o_fscale o | f0 <- f :: fs] Hsz.
by rewrite -(unzip_items Hsz').1 E (unzip_items Hsz).1.
Qed.
(** frequencies given in decreasing order: every getS between them raises IndexError *)
Theorem C29_unsorted_refuted n (M1 M2 : 'M[C]_n.+1) (zb : C) (fscale f1 f2 f u : F) Zb ports : size ports = n.+1 ->
  f1 < f2 -> f * u / fscale != f1 -> f * u / fscale != f2 ->
  let o1 := (setS (new_obj ports zb fscale) [:: f2] (Nd2 M2) None).1 in
  let o2 := (setS o1 [:: f1] (Nd2 M1) None).1 in
  (getS o2 f u Zb).2 = Raise IndexError.
Proof.
move=> Hp H12 Hn1 Hn2 o1 o2.
have Hsq (M : 'M[C]_n.+1) : sq M = Some M by rewrite /sq; case: eqP => // e; rewrite eq_axiomK castmx_id.
have Hpn : ports != [::] by rewrite -size_eq0 Hp.
have E1 : o1 = Obj ports zb fscale [:: f2] [:: AM M2] n.+1 true 0 (size ports) None.
  rewrite /o1 /obj_setS /= Hsq /= (negbTE Hpn) /= ?Hp ?eqxx /= ?Hp ?eqxx. by rewrite /set_sorted /= Hp.
have E2 : o2 = Obj ports zb fscale [:: f2; f1] [:: AM M2; AM M1] n.+1 false 0 (size ports) None.
  rewrite /o2 E1 /obj_setS /= Hsq /= (negbTE Hpn) /= ?Hp ?eqxx /= ?Hp ?eqxx /=.
  by rewrite ltNge (ltW H12).
rewrite E2 /obj_getS /obj_get /get1S /= ![_ == f * u / fscale]eq_sym (negbTE Hn1) (negbTE Hn2).
by rewrite /interp_ /= /sort_fs /=.
Qed.
Lemma zip_mem1 (A B : eqType) (s : seq A) (t : seq B) a b : (a, b) \in zip s t -> a \in s.
Proof.
elim: s t => [|x s IH] [|y t] //=; rewrite !in_cons xpair_eqE => /orP [/andP [-> _] //|/IH ->].
by rewrite orbT.
Qed.
Lemma interp_cached o f S o1 : interp_ interp1d argsort o f = (o1, Ok S) -> exists2 g, o_cache o1 = Some g & g f = Ok S.
Proof.
rewrite /interp_; case E: (o_cache o) => [g|]; first by case=> <- Eg; exists g.
case: (sort_fs argsort o) => o2 [u|] //; case: (interp1d _ _) => [g|] // [<- Eg]; by exists g.
Qed.
Lemma off_table o f : f \notin o_fs o -> lookup (o_fs o) (o_Ss o) f = None.
Proof.
rewrite lookupE => Hn; case E: (dget _ _) => [A|] //; exfalso; move/negP: Hn; apply.
have : f \in dkeys (zip (o_fs o) (o_Ss o)) by rewrite -dhasE /dhas E.
by case/mapP=> -[a b] /zip_mem1 Hab /= ->.
Qed.
Lemma interpolated_cache o f u S : ok_size o -> f * u / o_fscale o \notin o_fs o -> (getS o f u None).2 = Ok S ->
  let o1 := (getS o f u None).1 in [/\ exists2 g, o_cache o1 = Some g & g (f * u / o_fscale o) = Ok S, o_fscale o1 = o_fscale o, 
   f * u / o_fscale o1 \notin o_fs o1 & ok_size o1].
Proof.
move=> Hs Hn; have := get_tab interp1d Harg None (f * u / o_fscale o) Hs.
rewrite /obj_getS /obj_get /get1S off_table //.
case E: (interp_ _ _ _ _) => [o1 [A|e]] //= [S1 Hp [_ _] Hf _]; rewrite eqxx => -[EA]; rewrite EA in E.
have [g G1 G2] := interp_cached E; split=> //; first by exists g.
rewrite Hf; have [U1 _] := unzip_items S1; have [U0 _] := unzip_items Hs.
by rewrite -U1 (perm_mem (perm_map _ Hp)) -/unzip1 U0.
Qed.
Lemma getS_cached o f u g : f * u / o_fscale o \notin o_fs o -> o_cache o = Some g -> (getS o f u None).2 = g (f * u / o_fscale o).
Proof.
move=> Hn Hc; rewrite /obj_getS /obj_get /get1S off_table // /interp_ Hc /= eqxx.
by case: (g _).
Qed.
(** after convert2newZbase an interpolated matrix is still the one on the old impedance *)
Theorem C29_stale_refuted o f u z o2 S : ok_size o -> f * u / o_fscale o \notin o_fs o ->
  (getS o f u None).2 = Ok S -> convert2newZbase (getS o f u None).1 z = (o2, Ok tt) ->
  o_zb o2 = z /\ (getS o2 f u None).2 = Ok S.
Proof.
move=> Hs Hn HS; have [[g Hg Eg] Hf Hn1 _] := interpolated_cache Hs Hn HS.
move: (getS o f u None).1 Hg Hf Hn1 => o1 Hg Hf Hn1.
rewrite /convert2newZbase; case: (mapM _ _) => [Ss|] //= [<-]; split=> //.
by rewrite (getS_cached (g := g)) //= Hf.
Qed.

(** convert2newZbase: at every tabulated frequency the object is the same network, now
    described on the new impedance; asking for the old impedance gives the old matrix *)
Theorem C29_convert o z o2 f u S : o_zb o != 0 -> z != 0 -> convert2newZbase o z = (o2, Ok tt) ->
  dget (items o) (f * u / o_fscale o) = Some S ->
  [/\ o_zb o2 = z, o_fs o2 = o_fs o, (getS o2 f u (Some (o_zb o))).2 = Ok S &
      exists n (M M2 : 'M[C]_n), [/\ S = AM M, (getS o2 f u None).2 = Ok (AM M2) &
        forall v i, relates "V" (const_mx (o_zb o)) M v i <-> relates "V" (const_mx z) M2 v i]].
Proof.
move=> Hz0 Hz; rewrite /convert2newZbase.
case Em: (mapM _ _) => [Ss|//] [<-] Hd.
have [S2 H1 H2] : exists2 S2, dget (zip (o_fs o) Ss) (f * u / o_fscale o) = Some S2 & conv z S (o_zb o) = Ok S2.
  move: Hd Em; rewrite /items; elim: (o_fs o) (o_Ss o) Ss => [|g fs IH] [|A As] Ss //=.
  case Eg: (f * u / o_fscale o == g); [case=> ->|move=> Hd].
    by case Ec: (conv z S (o_zb o)) => [B|//] /=; case: (mapM _ _) => [l|] //= [<-]; exists B; rewrite //= Eg.
  case: (conv z A (o_zb o)) => [B|//] /=; case Em: (mapM _ _) => [l|] //= [<-] /=.
  rewrite Eg; exact: IH Hd Em.
have Hd2 : dget (items (set_zb (set_tab o (o_fs o) Ss) z)) (f * u / o_fscale o) = Some S2 by [].
case: S Hd H2 => n M Hd; rewrite /conv /=.
case Ec: (convert1 _ _ _ _ _) => [B|//] /= [ES2].
have HB := Ec; move/(convert1_iff _ _ (isT : typ_ok "V") (isT : typ_ok "V") (@admV C n _ Hz0) (@admV C n _ Hz)): HB => HB.
split=> //.
  rewrite /obj_getS /= (get_lookup _ _ _ Hd2) /=; case: eqP => [Ezz|_]; last first.
    rewrite -ES2 /conv /=; suff -> : convert1 (const_mx (o_zb o)) B (const_mx z) "V" "V" = Ok M by [].
    apply/(convert1_iff _ _ (isT : typ_ok "V") (isT : typ_ok "V") (@admV C n _ Hz) (@admV C n _ Hz0)) => v i.
    by rewrite HB.
  by move: Ec; rewrite -Ezz convert1_id // => [[EB]|]; [rewrite -ES2 -EB|exact: admV].
exists n, M, B; split=> //.
by rewrite /obj_getS /= (get_lookup _ _ _ Hd2) /= eqxx -ES2.
Qed.

(** ** frequencies stored out of order *)
Definition zr_inv o := o_zr o = 0%N /\ (o_sorted o = false -> o_cache o = None /\ (0 < size (o_fs o))%N).

Lemma zr_get o Zb f : ok_size o -> zr_inv o -> zr_inv (obj_get interp1d argsort o Zb f).1 /\
  o_sorted (obj_get interp1d argsort o Zb f).1 = o_sorted o.
Proof.
move=> Hsz [H1 H2]; rewrite /obj_get /get1S; case: (lookup _ _ _) => [Sm|] //=.
rewrite /interp_; case Ec: (o_cache o) => [g|] //=.
rewrite /sort_fs; case Hs: (o_sorted o) H2 => H2; first by case: (interp1d _ _) => [g|e] /=; split=> //; split=> //; rewrite /= Hs.
have [_ H3] := H2 (erefl _); rewrite H1 H3 /=; split=> //; split=> //= _; split=> //.
have /perm_size := (Harg (o_fs o)).1; by rewrite size_iota size_map => ->.
Qed.

Lemma zr_loop o Zb fs : ok_size o -> zr_inv o -> zr_inv (get_loop interp1d argsort o Zb fs).1 /\
  o_sorted (get_loop interp1d argsort o Zb fs).1 = o_sorted o.
Proof.
elim: fs o => [|f fs IH] o Hs Ho //=.
have [] := get_tab interp1d Harg Zb f Hs; have [] := zr_get Zb f Hs Ho.
case: (obj_get _ _ _) => o1 [Sm|e] //= Z1 E1 S1 _ _ _ _.
by have [] := IH o1 S1 Z1; rewrite -E1; case: (get_loop _ _ _ _ _).
Qed.

Lemma zr_run o cs : ok_size o -> zr_inv o -> all (@set_or_get C F) cs -> sets_ok o cs ->
  [/\ zr_inv (run o cs), (o_sorted (run o cs) -> o_sorted o) &
      (o_sorted (run o cs) -> items (run o cs) = items o ++ data cs)].
Proof.
elim: cs o => [|c cs IH] o Hs Ho /=; first by rewrite cats0.
case/andP=> Hc Hcs [Hset Hrest].
have [S1 _ _ _] : [/\ ok_size (obj_do o c).1, True, True & True].
  by have [] := @run_data _ _ interp1d argsort argsort_s dflt trlS Harg o [:: c] Hs; rewrite /= ?Hc.
have [Z1 E1 E2] : [/\ zr_inv (obj_do o c).1, (o_sorted (obj_do o c).1 -> o_sorted o) &
   (o_sorted (obj_do o c).1 -> items (obj_do o c).1 = items o ++ data_of c)].
  case: c Hc Hset {Hrest S1} => // [f Sm p|f u Zb|fs u Zb] _ /= Hset.
  - have := @setS_ok _ _ dflt o f Sm p; case: (obj_setS _ _ _ _) Hset => o1 [[]|e] /= Hset; last by have := Hset isT.
    case=> // H1 H2 H3 H3' [_ _ [H4 H4'] H5 _]; split.
    + split; first by rewrite H5; case: Ho.
      move=> E; split=> //; case: Ho => _ Ho; case Es: (o_sorted o) H4 Ho => H4 Ho.
        by rewrite lt0n size_eq0; apply: H4.
      by rewrite H1 size_cat addn_gt0; have [_ ->] := Ho (erefl _).
    + by rewrite H4' => /andP[].
    + by rewrite /items H1 H2 zip_cat.
  - rewrite /obj_getS cats0; have [] := zr_get Zb (f * u / o_fscale o) Hs Ho.
    have := @get_sorted _ _ interp1d argsort o Zb (f * u / o_fscale o).
    by case: (obj_get _ _ _) => o1 r /= Hg Z1 E1; rewrite E1; split=> // /Hg [].
  - rewrite /obj_getSs cats0; case: fs {Hset} => [|f fs]; first by split.
    have [] := zr_loop Zb [seq f0 * u / o_fscale o | f0 <- f :: fs] Hs Ho.
    have := @loop_sorted _ _ interp1d argsort o Zb [seq f0 * u / o_fscale o | f0 <- f :: fs].
    by case: (get_loop _ _ _ _ _) => o1 r /= Hg Z1 E1; rewrite E1; split=> // /Hg [].
have [G1 G2 G3] := IH _ S1 Z1 Hcs Hrest; split=> //; first by move/G2.
by move=> H; rewrite G3 // E2 ?(G2 H) // /data /= catA.
Qed.

(** once a setS call leaves the last two frequencies in decreasing (or equal) order, every
    getS of a frequency that is not in the table raises IndexError, whatever is stored later *)
Theorem C29_out_of_order_refuted ports (zb : C) (fscale : F) cs1 f Sm p cs2 fr a b g u Zb :
  let o0 := new_obj ports zb fscale in let cs := cs1 ++ OSetS f Sm p :: cs2 in
  all (@set_or_get C F) cs -> sets_ok o0 cs ->
  unzip1 (data (rcons cs1 (OSetS f Sm p))) = fr ++ [:: a; b] -> b <= a ->
  g * u / fscale \notin unzip1 (data cs) ->
  (getS (run o0 cs) g u Zb).2 = Raise IndexError.
Proof.
move=> o0 cs Hcs Hok Ed Hba Hg.
have Hz0 : zr_inv o0 by split.
have Hsz0 : ok_size o0 by [].
have [Hz _ _] := zr_run Hsz0 Hz0 Hcs Hok.
have [Hsz Hp Hzb Hfs] := run_data Harg Hsz0 Hcs Hok.
have Hns : o_sorted (run o0 cs) = false.
  apply/negP => Hs; move: Hcs Hok Hs; rewrite /cs -cat_rcons all_cat => /andP [Hc1 Hc2].
  have Hcat (o : obj C F) (l1 l2 : seq (obj_call C F)) : sets_ok o (l1 ++ l2) <-> sets_ok o l1 /\ sets_ok (run o l1) l2.
    elim: l1 o => [|c l1 IH] o /=; first by split=> [|[]].
    by rewrite IH; tauto.
  have Hrun (o : obj C F) (l1 l2 : seq (obj_call C F)) : run o (l1 ++ l2) = run (run o l1) l2.
    by rewrite /ObjThm.run foldl_cat.
  rewrite Hrun => /Hcat [Hk1 Hk2] Hs.
  have [Hz1 _ _] := zr_run Hsz0 Hz0 Hc1 Hk1.
  have [Hsz1 _ _ _] := run_data Harg Hsz0 Hc1 Hk1.
  have [_ Hs1 _] := zr_run Hsz1 Hz1 Hc2 Hk2; have {Hs1}Hs1 := Hs1 Hs.
  have [_ _ HI] := zr_run Hsz0 Hz0 Hc1 Hk1; have {HI}HI := HI Hs1.
  move: Hc1 Hk1; rewrite -cats1 all_cat /= => /andP [Hc1 _] /Hcat [Hk1 [/(_ isT) Hk3 _]].
  move: Hs1 HI; rewrite -cats1 Hrun /=; case Eo: (obj_setS dflt (run o0 cs1) f Sm p) Hk3 => [o1 [[]|e]] /= Hk3; last by move: Hk3; rewrite /ObjModel.obj_do /= Eo.
  have := @setS_ok _ _ dflt (run o0 cs1) f Sm p; rewrite Eo => -[] // H1 H2 H3 _ [_ _ [_ H4] _ _].
  move=> /= Hs1 HI.
  have Efs : o_fs o1 = fr ++ [:: a; b].
    rewrite -Ed -cats1 -HI /items unzip1_zip // H1 H2 !size_cat H3.
    have [Hsz2 _ _ _] := run_data Harg Hsz0 Hc1 Hk1; by rewrite Hsz2.
  move: Hs1; rewrite H4 Efs size_cat [size [:: a; b]]/= addn2.
  have -> : ((size fr).+2 - 2 = size fr)%N by rewrite subn2.
  have -> : ((size fr).+2 - 1 = (size fr).+1)%N by rewrite subn1.
  rewrite nth_cat ltnn subnn /= nth_cat ltnNge leqnSn /= subSn // subnn /=.
  by rewrite ltNge Hba andbF.
rewrite /obj_getS Hfs /=; case: Hz => Hzr /(_ Hns) [Hc Hn].
rewrite /obj_get /get1S off_table; last first.
  by have [U1 _] := unzip_items Hsz; rewrite -U1 (perm_mem (perm_map _ Hp)).
by rewrite /interp_ Hc /sort_fs Hns Hzr Hn.
Qed.

(** ** C30 *)
(** sortports: the element between any two ports is the same as before, at every frequency;
    with a list, these ports come first and the others follow in their old order; without,
    the ports are sorted *)
Theorem C30_sortports o order o1 : uniq (o_ports o) -> sortports o order = (o1, Ok tt) ->
  [/\ perm_eq (o_ports o1) (o_ports o), o_fs o1 = o_fs o /\ size (o_Ss o1) = size (o_Ss o),
      forall k p q, (k < size (o_Ss o))%N -> p \in o_ports o -> q \in o_ports o ->
        between (o_ports o1) (nth (am0 C) (o_Ss o1) k) p q = between (o_ports o) (nth (am0 C) (o_Ss o) k) p q,
      forall k, (k < size (o_Ss o))%N -> adim (nth (am0 C) (o_Ss o1) k) = size (o_ports o) &
      if order is Some l then o_ports o1 = l ++ [seq p <- o_ports o | p \notin l] else sorted leS (o_ports o1)].
Proof.
move=> Hu; rewrite /obj_sortports.
case Ei: (if order is Some l then _ else _) => [idxs|] //.
have [Hp Ho] : perm_eq idxs (iota 0 (size (o_ports o))) /\ 
   (if order is Some l then take_idx ""%string (o_ports o) idxs = l ++ [seq p <- o_ports o | p \notin l] else sorted leS (take_idx ""%string (o_ports o) idxs)).
  case: order Ei => [l|] Ei; first by have [] := list_idxs_ok Hu Ei.
  by have [H1 H2] := Hargs (o_ports o); case: Ei => <-.
case: ifP => // _; case: ifP => // _ [<-] /=; split=> //.
- exact: take_idx_perm.
- by rewrite size_map.
- move=> k p q Hk Hip Hiq; rewrite (nth_map (am0 C)) //; exact: perm_between.
- by move=> k Hk; rewrite (nth_map (am0 C)) //= (perm_size Hp) size_iota.
Qed.

(** getS of a tabulated frequency after sortports *)
Theorem C30_getS o order o1 f u S : uniq (o_ports o) -> ok_size o -> sortports o order = (o1, Ok tt) ->
  dget (items o) (f * u / o_fscale o) = Some S -> exists S1, (getS o1 f u None).2 = Ok S1 /\
  forall p q, p \in o_ports o -> q \in o_ports o -> between (o_ports o1) S1 p q = between (o_ports o) S p q.
Proof.
move=> Hu Hs; rewrite /obj_sortports.
case Ei: (if order is Some l then _ else _) => [idxs|] //.
have Hp : perm_eq idxs (iota 0 (size (o_ports o))).
  case: order Ei => [l|] Ei; first by have [] := list_idxs_ok Hu Ei.
  by have [H1 H2] := Hargs (o_ports o); case: Ei => <-.
case: ifP => // _; case: ifP => // _ [<-] /= Hg.
exists (perm_amx idxs S); split; last by move=> p q Hi Hj; apply: perm_between.
set o2 := set_zc _ _.
suff Hg2 : dget (items o2) (f * u / o_fscale o2) = Some (perm_amx idxs S) by rewrite /obj_getS (get_lookup _ _ _ Hg2) /= eqxx.
move: Hg Hs; rewrite /o2; rewrite /ok_size /items /=; elim: (o_fs o) (o_Ss o) => [|f0 fs IH] [|A Ss] //=.
by case: eqP => [_ [->]|_] // Hd [Hsz]; apply: IH.
Qed.

Definition named o := [/\ o_ports o != [::], uniq (o_ports o), size (o_ports o) = o_sh o & o_sh o = o_zc o].

Lemma sort_fs_named o : named o -> named (sort_fs argsort o).1.
Proof. by rewrite /sort_fs; case: (o_sorted o) => //; case: ifP. Qed.
Lemma get_named o Zb f : named o -> named (obj_get interp1d argsort o Zb f).1.
Proof.
move=> H; rewrite /obj_get /get1S; case: (lookup _ _ _) => [A|] //=; rewrite /interp_.
case: (o_cache o) => [g|] //; have := sort_fs_named H.
by case: (sort_fs _ _) => o1 [x|e] //= H1; case: (interp1d _ _).
Qed.
Lemma loop_named o Zb fs : named o -> named (get_loop interp1d argsort o Zb fs).1.
Proof.
elim: fs o => [|f fs IH] o H //=; have := get_named Zb f H; case: (obj_get _ _ _ _ _) => o1 [A|e] //= H1.
by have := IH o1 H1; case: (get_loop _ _ _ _ _).
Qed.
Lemma sortports_named o order : named o -> named (sortports o order).1.
Proof.
case=> H1 H2 H3 H4; rewrite /obj_sortports.
case Ei: (if order is Some l then _ else _) => [idxs|] //=.
have Hp : perm_eq idxs (iota 0 (size (o_ports o))).
  case: order Ei => [l|] Ei; first by have [] := list_idxs_ok H2 Ei.
  by have [G1 G2] := Hargs (o_ports o); case: Ei => <-.
have Hsz : size idxs = size (o_ports o) by rewrite (perm_size Hp) size_iota.
have Hall n : n = size (o_ports o) -> has (fun k => n <= k)%N idxs = false.
  by move=> ->; apply/hasP => -[k]; rewrite (perm_mem Hp) mem_iota add0n => /= Hk; rewrite leqNgt Hk.
rewrite /= !Hall ?H3 ?H4 //=.
have Hpp := take_idx_perm ""%string Hp.
split; rewrite /= ?size_map ?Hsz ?(perm_uniq Hpp) //.
by rewrite -size_eq0 size_map Hsz size_eq0.
Qed.
Lemma deembed_ports_named o ps kp d : named o -> named (deembed_ports trlS o ps kp d).1.1.
Proof.
elim: ps o kp d => [|p ps IH] o kp d H //=; case: (dget d p) => [[L Z|]|] //; last exact: IH.
by case: (deembed_tab _ _ _ _) => Ss [x|e] //; apply: IH.
Qed.
Lemma do_named o c : named o -> named (obj_do o c).1.
Proof.
move=> H; case: c => [f Sm names|f u Zb|fs u Zb|k f A|z|order|d] /=.
- have [H1 H2 H3 H4] := H; rewrite /obj_setS; case: (check3D Sm) => [[L n Ms]|e] //=; case: ifP => // _.
  case: names => [ps|]; rewrite (negbTE H1) //=; case: ifP => // /negbFE /eqP Hn.
  have Hn1 : named (set_sh (set_cache o None) n) by split=> //=; rewrite -H4 -H3 Hn.
  case: (size _ == 0%N).
    by case E: (_ != _) => //=; case E1: (_ && _).
  by case E: (_ != _) => //=; case E1: (_ && _).
- by rewrite /obj_getS; have := get_named Zb (f * u / o_fscale o) H; case: (obj_get _ _ _ _ _).
- rewrite /obj_getSs; case: fs => [|f fs] //.
  by have := loop_named Zb [seq f0 * u / o_fscale o | f0 <- f :: fs] H; case: (get_loop _ _ _ _ _).
- by rewrite /obj_setitem; case: ifP => //; case: ifP.
- by rewrite /convert2newZbase; case: (mapM _ _).
- by have := sortports_named order H; case: (sortports _ _).
- rewrite /obj_deembed; have := @deembed_ports_named (set_cache o None) (o_ports o) 0%N d H.
  by case: (deembed_ports _ _ _ _ _) => -[o1 [|x d1]] [y|e].
Qed.
Lemma run_named o cs : named o -> named (run o cs).
Proof. by elim: cs o => [|c cs IH] o H //=; apply: IH; apply: do_named. Qed.
(** it returns for every object created with port names, whatever was done with it; a list
    with a name twice or an unknown name is refused *)
Theorem C30_defined ports (zb : C) (fscale : F) cs l : uniq ports -> ports != [::] -> 
  let o := run (new_obj ports zb fscale) cs in
  if uniq l && all (fun p => p \in o_ports o) l then exists o1, sortports o (Some l) = (o1, Ok tt)
  else sortports o (Some l) = (o, Raise ValueError).
Proof.
move=> Hu Hn o; have [H1 H2 H3 H4] : named o by apply: run_named.
case: ifP => [/andP [Hl /allP Hs]|Hl]; last first.
  rewrite /obj_sortports; case E: (list_idxs _ _) => [idxs|e].
    have [_ _ G1 G2] := list_idxs_ok H2 E; move/negP: Hl; case; rewrite G1 /=; exact/allP.
  suff -> : e = ValueError by [].
  move: E; rewrite /list_idxs; case Em: (mapM _ l) => [i1|e'] /=; first by case: ifP => // _ [<-].
  case=> <-; elim: l {Hl} Em => [|p l IH] //=; case: (p \in o_ports o) => /=; last by case.
  by case Em': (mapM _ l) => [i2|e2] //= [Ee]; rewrite Ee in Em'; apply: IH.
have [idxs Ei] : exists idxs, list_idxs (o_ports o) l = Ok idxs by apply: list_idxs_total.
have [Hp _ _ _] := list_idxs_ok H2 Ei.
rewrite /obj_sortports Ei.
have Hall n : n = size (o_ports o) -> has (fun k => n <= k)%N idxs = false.
  by move=> ->; apply/hasP => -[k]; rewrite (perm_mem Hp) mem_iota add0n => /= Hk; rewrite leqNgt Hk.
by rewrite /= !Hall ?H3 ?H4 //=; eexists.
Qed.
Lemma default_defined o : named o -> exists o1, sortports o None = (o1, Ok tt).
Proof.
case=> H1 H2 H3 H4; rewrite /obj_sortports; have [Hp _] := Hargs (o_ports o).
have Hall n : n = size (o_ports o) -> has (fun k => n <= k)%N (argsort_s (o_ports o)) = false.
  by move=> ->; apply/hasP => -[k]; rewrite (perm_mem Hp) mem_iota add0n => /= Hk; rewrite leqNgt Hk.
by rewrite /= !Hall ?H3 ?H4 //=; eexists.
Qed.
Theorem C30_default_defined ports (zb : C) (fscale : F) cs : uniq ports -> ports != [::] ->
  exists o1, sortports (run (new_obj ports zb fscale) cs) None = (o1, Ok tt).
Proof. by move=> Hu Hn; apply: default_defined; apply: run_named. Qed.

(** interpolated matrices keep the old order of the ports *)
Theorem C30_stale_refuted o f u order o2 S : ok_size o -> f * u / o_fscale o \notin o_fs o ->
  (getS o f u None).2 = Ok S -> sortports (getS o f u None).1 order = (o2, Ok tt) ->
  (getS o2 f u None).2 = Ok S.
Proof.
move=> Hs Hn HS; have [[g Hg Eg] Hf Hn1 _] := interpolated_cache Hs Hn HS.
move: (getS o f u None).1 Hg Hf Hn1 => o1 Hg Hf Hn1.
rewrite /obj_sortports; case: (if order is Some l then _ else _) => [idxs|] //=.
case: ifP => // _; case: ifP => // _ [<-].
by rewrite (getS_cached (g := g)) //= Hf.
Qed.
(** an object that got its port names from setS cannot be sorted: IndexError, although the
    ports and matrices have been sorted *)
Theorem C30_unnamed_refuted n (M : 'M[C]_n.+1) (zb : C) (fscale f : F) names : uniq names -> size names = n.+1 ->
  let o := (setS (new_obj [::] zb fscale) [:: f] (Nd2 M) (Some names)).1 in
  o_ports o = names /\ exists o1, sortports o None = (o1, Raise IndexError) /\ perm_eq (o_ports o1) names.
Proof.
move=> Hu Hn o.
have Hsq : sq M = Some M by rewrite /sq; case: eqP => // e; rewrite eq_axiomK castmx_id.
have Eo : o = Obj names zb fscale [:: f] [:: AM M] n.+1 true 0 0 None.
  by rewrite /o /obj_setS /= Hsq /= ?Hn ?eqxx /= ?Hn ?eqxx.
rewrite Eo; split=> //; rewrite /obj_sortports /=; have [Hp _] := Hargs names.
have -> : has (fun k => n < k)%N (argsort_s names) = false.
  by apply/hasP => -[k]; rewrite (perm_mem Hp) mem_iota add0n Hn ltnS => /= Hk; rewrite ltnNge Hk.
have -> : has (fun k => 0 <= k)%N (argsort_s names) = true.
  apply/hasP; exists 0%N => //; by rewrite (perm_mem Hp) mem_iota add0n Hn.
by eexists; split; [reflexivity|]; apply: take_idx_perm.
Qed.

(** ** C31 *)
(** an object whose table holds, at every frequency f, the matrix of an n-port O_f with lines
    (L, Z) attached to the ports named in d: deembed(d) leaves the matrices of O_f.  t L Z f
    is exp(-gamma L) of the line; the line of length -L used by deembed has 1/t. *)
Theorem C31_deembed n (t : C -> C -> F -> C) o (d : seq (string * dval C)) (Ms Os : seq 'M[C]_n) :
  o_zb o != 0 -> uniq (o_ports o) -> size (o_ports o) = n ->
  o_Ss o = [seq AM M | M <- Ms] -> size (o_fs o) = size Ms -> size Os = size Ms ->
  (forall p L Z f T, dget d p = Some (DPair L Z) -> trlS (- L) Z (o_zb o) f = Ok T ->
     [/\ Z != 0, t L Z f != 0 & is_scat2 (line_law (t L Z f)^-1 Z) (o_zb o) T]) ->
  (forall m, (m < size (o_fs o))%N -> is_scat (with_lines (fun k : 'I_n =>
      if dget d (nth ""%string (o_ports o) k) is Some (DPair L Z) then Some (line_law (t L Z (nth 0 (o_fs o) m)) Z) else None)
      (relates "V" (const_mx (o_zb o)) (nth 0 Os m))) (o_zb o) (nth 0 Ms m)) ->
  forall o1 d1, deembed o d = (o1, d1, Ok tt) -> o_Ss o1 = [seq AM M | M <- Os] /\ o_fs o1 = o_fs o.
Proof.
move=> Hz Hu Hn ESs Hsz HO HT HS o1 d1.
rewrite /obj_deembed; case E: (deembed_ports _ _ _ _ _) => [[o2 d2] [[]|e]] E2; last by case: d2 E E2.
have {E2} Eo : o2 = o1 by case: d2 E E2 => [|x d2] _ [].
rewrite Eo -[X in deembed_ports _ _ X _ _](drop0 (o_ports o)) in E.
have [Ms' E1 [G1 G2 G3 G4]] := @deembed_ports_ok C F trlS n (o_zb o) t (o_ports o) d d d2 (o_fs o)
  (fun m => relates "V" (const_mx (o_zb o)) (nth 0 Os m)) Ms (set_cache o None) o1 0%N Hz Hu Hn erefl erefl ESs Hsz (leq0n _) (fun _ _ => erefl) HT HS E.
suff -> : Os = Ms' by [].
apply: (@eq_from_nth _ 0); first by rewrite G1 HO.
move=> m; rewrite HO -Hsz => Hm; apply/matrixP => i j.
have [V [I [HR Ha]]] := relates_ex_wave (nth 0 Os m) (fun l => if l == j then 1 else 0) Hz.
have HR' := iffLR (G4 m Hm V I) HR.
have Ex (X : 'M[C]_n) : \sum_l X i l * (V l 0 + o_zb o * I l 0) = X i j.
  rewrite (bigD1 j) //= Ha eqxx mulr1 big1 ?addr0 // => l /negbTE Hl; by rewrite Ha Hl mulr0.
by rewrite -Ex -(Ex (nth 0 Ms' m)) -(iffLR (relates_waves _ _ _ _) HR) -(iffLR (relates_waves _ _ _ _) HR').
Qed.

(** and it does return, when the n-ports with only some of the lines have scattering
    matrices too *)
Theorem C31_defined n (t : C -> C -> F -> C) o (d : seq (string * dval C)) (Ms : seq 'M[C]_n) (Rs : nat -> 'cV[C]_n -> 'cV[C]_n -> Prop) :
  o_zb o != 0 -> uniq (o_ports o) -> size (o_ports o) = n ->
  o_Ss o = [seq AM M | M <- Ms] -> size (o_fs o) = size Ms ->
  uniq (dkeys d) -> {subset dkeys d <= o_ports o} -> (forall p v, dget d p = Some v -> exists L Z, v = DPair L Z) ->
  (forall p L Z f, dget d p = Some (DPair L Z) -> exists T, trlS (- L) Z (o_zb o) f = Ok T /\
     [/\ Z != 0, t L Z f != 0 & is_scat2 (line_law (t L Z f)^-1 Z) (o_zb o) T]) ->
  let lines m (k : 'I_n) := if dget d (nth ""%string (o_ports o) k) is Some (DPair L Z)
                            then Some (line_law (t L Z (nth 0 (o_fs o) m)) Z) else None in
  (forall m q, (m < size (o_fs o))%N -> exists S, is_scat (with_lines (fun k : 'I_n => if (k < q)%N then None else lines m k) (Rs m)) (o_zb o) S) ->
  (forall m, (m < size (o_fs o))%N -> is_scat (with_lines (lines m) (Rs m)) (o_zb o) (nth 0 Ms m)) ->
  exists o1, deembed o d = (o1, [::], Ok tt).
Proof.
move=> Hz Hu Hn ESs Hsz Hud Hsub Hpair HT lines Hex HS.
have [|o1 E] := @deembed_ports_total C F trlS n (o_zb o) t (o_ports o) d d (o_fs o) Rs Ms (set_cache o None) 0%N
  Hz Hu Hn erefl erefl ESs Hsz (leq0n _) (fun _ _ => erefl) Hud _ Hpair HT Hex HS; first by rewrite drop0.
by exists o1; rewrite /obj_deembed -[X in deembed_ports _ _ X _ _](drop0 (o_ports o)) E.
Qed.

(** a length alone, or a dict of rfTRL arguments, as documented: TypeError *)
Theorem C31_scalar_refuted o p d : p \in o_ports o -> uniq (o_ports o) -> dget d p = Some (DOther C) ->
  (forall q, q \in o_ports o -> q != p -> dget d q = None) -> exists o1 d1, deembed o d = (o1, d1, Raise TypeError).
Proof.
move=> Hp Hu Hd Hq; rewrite /obj_deembed.
suff [o1 [d1 ->]] : exists o1 d1, deembed_ports trlS (set_cache o None) (o_ports o) 0 d = (o1, d1, Raise TypeError).
  by exists o1, d1; case: d1.
move: (set_cache o None) (0%N) => o0 k; elim: (o_ports o) k Hp Hu Hq => [|q ps IH] k //=.
rewrite in_cons => /orP [/eqP <-|Hp] /andP [Hn Hu] Hq; first by rewrite Hd; do 2 eexists.
have Hne : q != p by apply: contraNneq Hn => ->.
rewrite (Hq q) ?mem_head //; apply: IH => // r Hr; apply: Hq; by rewrite in_cons Hr orbT.
Qed.
(** unknown ports are refused *)
Theorem C31_unknown o d p : p \in dkeys d -> p \notin o_ports o -> is_ok (deembed o d).2 = false.
Proof.
move=> Hp Hn; rewrite /obj_deembed.
have : forall o0 ps k d, p \in dkeys d -> p \notin ps -> p \in dkeys (deembed_ports trlS o0 ps k d).1.2.
  move=> o0 ps; elim: ps o0 => [|q ps IH] o0 k d0 //= H; rewrite in_cons negb_or => /andP [H1 H2].
  case Eq: (dget d0 q) => [v|]; last exact: IH.
  have Hd : p \in dkeys (ddel d0 q).
    by move: H; rewrite -!dhasE /dhas dget_ddel_neq.
  by case: v Eq => [L Z|] Eq //=; case: (deembed_tab _ _ _ _) => Ss [x|e] //=; apply: IH.
move=> /(_ (set_cache o None) (o_ports o) 0%N d Hp Hn).
by case: (deembed_ports _ _ _ _ _) => -[o1 [|x d1]] [y|e].
Qed.
End Props.

(** the lines deembed builds with rfTRL: constant parameters z = rjwL Z, y = gjwC Z per metre *)
Theorem C31_rfTRL (C : numClosedFieldType) (F : realFieldType) (exp : C -> C) (rjwL gjwC : C -> C -> C)
    (nodes : C -> C -> seq C) (w : F -> C) : good_nodes nodes ->
  let trlS L Z zb f := (trl_getS exp (rjwL Z) (gjwC Z) nodes (Trl L zb [::]) (w f) None [::]).2 in
  let t L Z f := exp (gam (rjwL Z) (gjwC Z) (w f) * - L) in
  forall L Z zb f T, L != 0 -> zb != 0 -> Zchar (rjwL Z) (gjwC Z) (w f) = Z -> trlS (- L) Z zb f = Ok T ->
  [/\ Z != 0, t L Z f != 0 & is_scat2 (line_law (t L Z f)^-1 Z) zb T].
Proof.
move=> Hn trlS t L Z zb f T HL Hzb HZ HT.
have HL' : t_L (Trl (- L) zb [::]) != 0 by rewrite /= oppr_eq0.
have [H1 H2] := Zc_neq0 Hn HT HL'; rewrite HZ in H1.
split=> //; have := @C37_line C exp (rjwL Z) (gjwC Z) nodes Hn (Trl (- L) zb [::]) (w f) None T Hzb Hzb HL' HT.
by rewrite HZ.
Qed.

(** argsort exists *)
Definition my_argsort (T : Type) (x0 : T) (le : rel T) (s : seq T) : seq nat :=
  sort (fun i j => le (nth x0 s i) (nth x0 s j)) (iota 0 (size s)).
Lemma my_argsort_good (T : Type) (x0 : T) (le : rel T) : total le -> good_argsort x0 le (my_argsort x0 le).
Proof.
move=> Ht s; split; first by rewrite /my_argsort perm_sort.
by rewrite sorted_map; apply: sort_sorted => i j; apply: Ht.
Qed.

Example C29_witness (C : numClosedFieldType) (F : realFieldType) (M1 M2 : 'M[C]_2) (f1 f2 f3 u : F) (zb : C) interp1d dflt trlS argsort_s :
  f1 != f2 -> f2 * u / u != f3 * u / u ->
  let cs := [:: OSetS [:: f2] (Nd2 M2) None; OGetS f3 u None; OSetS [:: f1] (Nd2 M1) None] in
  let o0 := new_obj [:: "b"; "a"]%string zb u in
  [/\ good_argsort (0 : F) <=%R (my_argsort 0 <=%R), all (@set_or_get C F) cs,
      sets_ok interp1d (my_argsort 0 <=%R) argsort_s dflt trlS o0 cs, uniq (unzip1 (data cs)) &
      data cs = [:: (f2, AM M2); (f1, AM M1)]].
Proof.
have Hsq (M : 'M[C]_2) : sq M = Some M by rewrite /sq; case: eqP => // e; rewrite eq_axiomK castmx_id.
have Hd M : mats (Nd2 M) = [:: AM (M : 'M[C]_2)] by rewrite /mats /= Hsq.
move=> H12 H23 cs o0; have Ed : data cs = [:: (f2, AM M2); (f1, AM M1)] by rewrite /data /= !Hd.
split=> //; first by apply: my_argsort_good; apply: le_total.
  have Hset (o : obj C F) f M : o_ports o = [:: "b"; "a"]%string -> o_sh o = 2%N ->
      [/\ (obj_setS dflt o [:: f] (Nd2 (M : 'M[C]_2)) None).2 = Ok tt,
         o_ports (obj_setS dflt o [:: f] (Nd2 (M : 'M[C]_2)) None).1 = [:: "b"; "a"]%string &
         o_sh (obj_setS dflt o [:: f] (Nd2 (M : 'M[C]_2)) None).1 = 2%N].
    move=> Ep Es; rewrite /obj_setS /= Hsq /= Ep /=.
    have Hc : (size (o_fs o ++ [:: f]) == 0%N) = false by rewrite size_cat addn1.
    by case: (size (o_fs o) == _) => /=; rewrite ?Es /= Hc andbF /= !Ep.
  have Hget (o : obj C F) f : o_ports (obj_getS interp1d (my_argsort 0 <=%R) o f u None).1 = o_ports o /\
      o_sh (obj_getS interp1d (my_argsort 0 <=%R) o f u None).1 = o_sh o.
    rewrite /obj_getS /obj_get /get1S; case: (lookup _ _ _) => [x|] //; rewrite /interp_.
    by case: (o_cache o) => [g|] //; rewrite /sort_fs; case: (o_sorted o) => /=; [|case: ifP => _ // /=]; case: (interp1d _ _).
  have [A1 A2 A3] := Hset o0 f2 M2 erefl erefl.
  split=> [_|]; first by rewrite /obj_do; case: (obj_setS _ _ _ _ _) A1 => ? ? /= ->.
  split=> //; split=> // _; rewrite /obj_do.
  case E1: (obj_setS dflt o0 _ _ _) A2 A3 => [o1 r1] /= A2 A3.
  have [] := Hget o1 f3; case E2: (obj_getS _ _ o1 f3 u None) => [o2 r2] /=; rewrite A2 A3 => B1 B2.
  by have [] := Hset o2 f1 M1 B1 B2; case: (obj_setS _ _ _ _ _) => ? ? /= ->.
by rewrite Ed /= andbT inE eq_sym.
Qed.

(** a one-port with reflection 1/2 behind a line with exp(-gamma L) = 1/2: 1/8 outside *)
Example C31_witness (C : numClosedFieldType) (F : realFieldType) :
  let z : C := 1 in let t : C := 2%:R^-1 in let T : 'M[C]_2 := mx2 0 2%:R 2%:R 0 in
  let O : 'M[C]_1 := (2%:R^-1)%:M in let M : 'M[C]_1 := (8%:R^-1)%:M in
  is_scat2 (line_law t^-1 1) z T /\
  is_scat (with_lines (fun _ => Some (line_law t 1)) (relates "V" (const_mx z) O)) z M /\
  exists o1 : obj C F, obj_deembed (fun _ _ _ _ => Ok T) (Obj [:: "a"%string] z 1 [:: 1] [:: AM M] 1 true 0 1 None)
     [:: ("a"%string, DPair 3%:R 1)] = (o1, [::], Ok tt) /\ o_Ss o1 = [:: AM O].
Proof.
move=> z t T O M; have H2 : (2%:R : C) != 0 by rewrite pnatr_eq0.
have H1 : is_scat2 (line_law t^-1 1) z T.
  move=> v1 v2 i1 i2; rewrite rel2 /line_law /T /t invrK /z !mxE /= !mul0r add0r addr0 !mul1r.
  by split=> -[-> ->].
have HM : is_scat (with_lines (fun _ => Some (line_law t 1)) (relates "V" (const_mx z) O)) z M.
  move=> V I; rewrite relates_waves; split.
    case=> v [i [/relates_waves HR Hl]] k; have := HR k; have [A B] := Hl k.
    rewrite (ord1 k) in A B *; rewrite !big_ord1 !mxE /= !mulr1n /z => E.
    rewrite A; rewrite !mul1r in E B *; rewrite E.
    rewrite opprK in B; rewrite B /t; move: (V 0 0) (I 0 0) => x y.
    by field.
  move=> HR; have E := HR 0; rewrite big_ord1 !mxE /= mulr1n /z !mul1r in E.
  have [a Ea] : exists a, a = V 0 0 + I 0 0 by eexists.
  exists (const_mx (3%:R / 8%:R * a)), (const_mx (8%:R^-1 * a)); split.
    apply/relates_waves => k; rewrite (ord1 k) big_ord1 !mxE /= mulr1n /z !mul1r; by field.
  move=> k; rewrite (ord1 k) !mxE /line_law !mul1r E /t -Ea; split; by field.
split=> //; split=> //.
rewrite /obj_deembed /= /deembed1 /= (insubT (fun i => (i < 1)%N) (isT : (0 < 1)%N)) /=.
have -> : T 0 0 = 0 by rewrite !mxE.
rewrite mul0r subr0 (negbTE (oner_neq0 C)) /=.
eexists; split; first by [].
rewrite /=; congr [:: AM _]; apply/matrixP => i j; rewrite (ord1 i) (ord1 j) !mxE /=.
by rewrite !mulr1n; field.
Qed.

(** Proofs about rfObject. *)
From mathcomp Require Import all_ssreflect all_algebra.
From mathcomp.algebra_tactics Require Import ring.
From Coq Require Import String.
From Verif Require Import Base ConvModel ConvSpec MxLib ConvProofs ConvArr DevModel DevSpec DevThm TrlSpec TrlThm ObjModel ObjSpec.
Set Implicit Arguments.
Unset Strict Implicit.
Unset Printing Implicit Defensive.
Import Order.TTheory GRing.Theory Num.Theory.
Local Open Scope ring_scope.
Local Open Scope seq_scope.

Section Table.
Variables (C : numClosedFieldType) (F : realFieldType).
Variable interp1d : seq F -> seq (amx C) -> res (F -> res (amx C)).
Variables (argsort : seq F -> seq nat) (argsort_s : seq string -> seq nat) (dflt : nat -> seq string).
Variable trlS : C -> C -> C -> F -> res 'M[C]_2.
Hypothesis Harg : good_argsort 0 <=%R argsort.
Hypothesis Hargs : forall s, perm_eq (argsort_s s) (iota 0 (size s)).
Implicit Types o : obj C F.
Local Notation sort_fs := (sort_fs argsort).
Local Notation obj_do := (obj_do interp1d argsort argsort_s dflt trlS).
Local Notation obj_get := (obj_get interp1d argsort).
Local Notation obj_setS := (obj_setS dflt).
Definition run o cs := foldl (fun o c => (obj_do o c).1) o cs.

Definition ok_size o := size (o_fs o) = size (o_Ss o).

Lemma lookupE (fs : seq F) (Ss : seq (amx C)) f : lookup fs Ss f = dget (zip fs Ss) f.
Proof. by elim: fs Ss => [|f' fs IH] [|A Ss] //=; rewrite eq_sym; case: eqP => // _. Qed.

Lemma dget_in (K : eqType) (V : eqType) (d : seq (K * V)) k v : uniq (dkeys d) -> (dget d k == Some v) = ((k, v) \in d).
Proof.
elim: d => [|[k' v'] d IH] //= /andP [Hn Hu]; rewrite in_cons xpair_eqE.
case: (k =P k') => [->|_] /=; last exact: IH.
have -> : ((k', v) \in d) = false.
  by apply/negbTE; apply: contra Hn => H; apply: (map_f fst H).
by rewrite orbF; apply/eqP/eqP => [[]|->].
Qed.
Lemma dget_perm (K : eqType) (V : eqType) (d1 d2 : seq (K * V)) k : uniq (dkeys d2) -> perm_eq d1 d2 -> dget d1 k = dget d2 k.
Proof.
move=> Hu Hp; have Hu1 : uniq (dkeys d1) by rewrite (perm_uniq (perm_map _ Hp)).
have H v : (dget d1 k == Some v) = (dget d2 k == Some v) by rewrite !dget_in // (perm_mem Hp).
case E1: (dget d1 k) => [v1|].
  by have := H v1; rewrite E1 eqxx => /esym /eqP.
by case E2: (dget d2 k) => [v2|] //; have := H v2; rewrite E1 E2 eqxx.
Qed.

Lemma zip_take_idx (A B : Type) (a0 : A) (b0 : B) s t idxs : size s = size t ->
  zip (take_idx a0 s idxs) (take_idx b0 t idxs) = take_idx (a0, b0) (zip s t) idxs.
Proof. by move=> Hs; elim: idxs => [|k idxs IH] //=; rewrite IH nth_zip. Qed.
Lemma take_idx_perm (A : eqType) (x0 : A) (s : seq A) idxs : perm_eq idxs (iota 0 (size s)) -> perm_eq (take_idx x0 s idxs) s.
Proof. by move=> H; rewrite -[X in perm_eq _ X](mkseq_nth x0) /mkseq; apply: perm_map. Qed.

Lemma sort_fs_tab o : ok_size o -> let o1 := (sort_fs o).1 in
  [/\ ok_size o1, perm_eq (items o1) (items o), o_ports o1 = o_ports o /\ o_zb o1 = o_zb o,
      o_fscale o1 = o_fscale o & o_sh o1 = o_sh o].
Proof.
rewrite /ObjModel.sort_fs => Hs; case: (o_sorted o); first by split.
have Hp := (Harg (o_fs o)).1.
have H : ok_size (set_tab o (take_idx 0 (o_fs o) (argsort (o_fs o))) (take_idx (am0 C) (o_Ss o) (argsort (o_fs o)))) /\
  perm_eq (items (set_tab o (take_idx 0 (o_fs o) (argsort (o_fs o))) (take_idx (am0 C) (o_Ss o) (argsort (o_fs o))))) (items o).
  split; first by rewrite /ok_size /= !size_map.
  rewrite /items /= zip_take_idx //; apply: take_idx_perm.
  by rewrite size_zip Hs minnn -Hs.
by case: H => H1 H2; case: ifP => _ /=; split.
Qed.

Lemma interp_tab o f : ok_size o -> let o1 := (interp_ interp1d argsort o f).1 in
  [/\ ok_size o1, perm_eq (items o1) (items o), o_ports o1 = o_ports o /\ o_zb o1 = o_zb o,
      o_fscale o1 = o_fscale o & o_sh o1 = o_sh o].
Proof.
move=> Hs; rewrite /interp_; case: (o_cache o) => [g|]; first by split.
have [] := sort_fs_tab Hs; case: (sort_fs o) => o1 [u|e] /= H1 H2 H3 H4 H6; last by split.
by case: (interp1d _ _) => [g|e] /=; split.
Qed.
Lemma get_tab o Zb f : ok_size o -> let o1 := (obj_get o Zb f).1 in
  [/\ ok_size o1, perm_eq (items o1) (items o), o_ports o1 = o_ports o /\ o_zb o1 = o_zb o,
      o_fscale o1 = o_fscale o & o_sh o1 = o_sh o].
Proof.
move=> Hs; rewrite /ObjModel.obj_get /get1S; case: (lookup _ _ _) => [Sm|] /=; first by split.
by have := interp_tab f Hs; case: (interp_ _ _ _ _).
Qed.
Lemma loop_tab o Zb fs : ok_size o -> let o1 := (get_loop interp1d argsort o Zb fs).1 in
  [/\ ok_size o1, perm_eq (items o1) (items o), o_ports o1 = o_ports o /\ o_zb o1 = o_zb o,
      o_fscale o1 = o_fscale o & o_sh o1 = o_sh o].
Proof.
elim: fs o => [|f fs IH] o Hs /=; first by split.
have [] := get_tab Zb f Hs; case: (obj_get o Zb f) => o1 [Sm|e] /= H1 H2 [H3 H3'] H4 H5; last by split.
have [] := IH o1 H1; case: (get_loop _ _ _ _ _) => o2 r /= G1 G2 [G3 G3'] G4 G5.
by split=> //; rewrite ?(perm_trans G2) // ?G3 ?G3' ?G4 ?G5.
Qed.

(** setS *)
Lemma setS_ok o f S names : (obj_setS o f S names).2 = Ok tt -> let o1 := (obj_setS o f S names).1 in
  [/\ o_fs o1 = o_fs o ++ f, o_Ss o1 = o_Ss o ++ mats S, size f = size (mats S), o_cache o1 = None &
      [/\ o_zb o1 = o_zb o, o_fscale o1 = o_fscale o, (o_sorted o -> o_fs o1 != [::]) /\ (o_sorted o1 = o_sorted o &&
        ((size (o_fs o1) == 1)%N || (nth 0 (o_fs o1) (size (o_fs o1) - 2) < nth 0 (o_fs o1) (size (o_fs o1) - 1)))),
        o_zr o1 = o_zr o & o_zc o1 = o_zc o]].
Proof.
rewrite /ObjModel.obj_setS /mats; case: (check3D S) => [[L n Sm]|e] //=.
case: ifP => // /negbFE /eqP Hs.
set named := (match names with None => _ | Some _ => _ end).
case En: named => [o1|] //=; case: ifP => // _; case: ifP => // _; case: ifP => // Hne _.
have : [/\ o_fs o1 = o_fs o, o_Ss o1 = o_Ss o, o_cache o1 = None, o_sorted o1 = o_sorted o & 
  [/\ o_zb o1 = o_zb o, o_fscale o1 = o_fscale o, o_zr o1 = o_zr o & o_zc o1 = o_zc o]].
  move: En; rewrite /named; case: names {named} => [ps|] /=.
    by case: (o_ports o == [::]) => // -[<-].
  by case=> <-; case: (o_ports o == [::]).
case: (size _ == 0%N) Hne => Hne -[H1 H2 H3 H4 [H5 H6 H7 H8]] /=; rewrite /= ?H1 ?H2 ?H3 ?H4 ?H5 ?H6 ?H7 ?H8 ?size_map in Hne *; split=> //; split=> //; split=> // Hso; by move: Hne; rewrite Hso -size_eq0 /= => ->.
Qed.

Lemma data_rcons (cs : seq (obj_call C F)) c : data (rcons cs c) = data cs ++ data_of c.
Proof. by rewrite /data map_rcons flatten_rcons. Qed.

(** all setS calls of a history return *)
Fixpoint sets_ok o cs : Prop :=
  if cs is c :: cs' then (is_set c -> (obj_do o c).2) /\ sets_ok (obj_do o c).1 cs' else True.

Lemma run_data o cs : ok_size o -> all (@set_or_get C F) cs -> sets_ok o cs ->
  [/\ ok_size (run o cs), perm_eq (items (run o cs)) (items o ++ data cs),
      o_zb (run o cs) = o_zb o & o_fscale (run o cs) = o_fscale o].
Proof.
elim: cs o => [|c cs IH] o Hs /=; first by rewrite cats0; split.
case/andP=> Hc Hcs [Hset Hrest].
have Hstep : [/\ ok_size (obj_do o c).1, perm_eq (items (obj_do o c).1) (items o ++ data_of c),
    o_zb (obj_do o c).1 = o_zb o & o_fscale (obj_do o c).1 = o_fscale o].
  case: c Hc Hset {Hrest} => // [f Sm p|f u Zb|fs u Zb] _ /= Hset.
  - have := @setS_ok o f Sm p; case: (obj_setS _ _ _ _) Hset => o1 [[]|e] /= Hset; last by have := Hset isT.
    case=> // H1 H2 H3 _ [H4 H5 _ _ _]; split=> //.
      by rewrite /ok_size H1 H2 !size_cat Hs H3.
    by rewrite /items H1 H2 zip_cat.
  - rewrite /obj_getS; have [] := get_tab Zb (f * u / o_fscale o) Hs.
    by case: (obj_get _ _ _) => o1 r /= ? ? [? ?] ? ?; rewrite cats0; split.
  - rewrite /obj_getSs; case: fs {Hset} => [|f fs]; first by rewrite cats0; split.
    have [] := loop_tab Zb [seq f0 * u / o_fscale o | f0 <- f :: fs] Hs.
    by case: (get_loop _ _ _ _ _) => o1 r /= ? ? [? ?] ? ?; rewrite cats0; split.
case: Hstep => S1 S2 S3 S4; have [G1 G2 G3 G4] := IH _ S1 Hcs Hrest.
split=> //; rewrite ?G3 ?G4 //.
by rewrite (perm_trans G2) // /data /= catA perm_cat2r.
Qed.

Lemma get_lookup o Zb f Sm : dget (items o) f = Some Sm -> obj_get o Zb f =
  (o, if (if Zb is Some z then z else o_zb o) == o_zb o then Ok Sm else conv (if Zb is Some z then z else o_zb o) Sm (o_zb o)).
Proof. by rewrite /items -lookupE /ObjModel.obj_get /get1S => -> /=. Qed.

(** interpolation works on the data stored *)
Definition cache_fresh o : Prop := forall g, o_cache o = Some g ->
  exists2 tab, perm_eq tab (items o) & interp1d (unzip1 tab) (unzip2 tab) = Ok g.

Lemma unzip_items o : ok_size o -> unzip1 (items o) = o_fs o /\ unzip2 (items o) = o_Ss o.
Proof. by move=> Hs; rewrite /items unzip1_zip ?unzip2_zip ?Hs. Qed.

Lemma sort_fs_cache o : o_cache (sort_fs o).1 = o_cache o.
Proof. by rewrite /ObjModel.sort_fs; case: (o_sorted o) => //; case: ifP. Qed.

Lemma interp_fresh o f A : ok_size o -> cache_fresh o -> cache_fresh (interp_ interp1d argsort o f).1 /\
  ((interp_ interp1d argsort o f).2 = Ok A -> exists tab g,
     [/\ perm_eq tab (items o), interp1d (unzip1 tab) (unzip2 tab) = Ok g & g f = Ok A]).
Proof.
move=> Hs Hc; rewrite /interp_; case Ec: (o_cache o) => [g|].
  split=> //=; have [tab H1 H2] := Hc _ Ec; by move=> H; exists tab, g.
have [] := sort_fs_tab Hs; have := sort_fs_cache o.
case: (sort_fs o) => o1 [u|e] /= Hc1 S1 S2 _ _ _; last by split=> // g; rewrite Hc1 Ec.
have [U1 U2] := unzip_items S1.
case Ei: (interp1d _ _) => [g|e] /=; last by split=> // g; rewrite Hc1 Ec.
split; first by move=> _ [<-]; exists (items o1); rewrite ?U1 ?U2.
by move=> H; exists (items o1), g; rewrite U1 U2.
Qed.

Lemma get_fresh o Zb f : ok_size o -> cache_fresh o -> cache_fresh (obj_get o Zb f).1.
Proof.
move=> Hs Hc; rewrite /ObjModel.obj_get /get1S; case: (lookup _ _ _) => [Sm|] //=.
by have [] := @interp_fresh o f (am0 C) Hs Hc; case: (interp_ _ _ _ _).
Qed.
Lemma loop_fresh o Zb fs : ok_size o -> cache_fresh o -> cache_fresh (get_loop interp1d argsort o Zb fs).1.
Proof.
elim: fs o => [|f fs IH] o Hs Hc //=.
have := @get_fresh o Zb f Hs Hc; have [] := get_tab Zb f Hs.
case: (obj_get _ _ _) => o1 [Sm|e] //= S1 _ _ _ _ Hc1.
by have := IH o1 S1 Hc1; case: (get_loop _ _ _ _ _).
Qed.
Lemma setS_cache o f Sm names : o_cache (obj_setS o f Sm names).1 = None.
Proof.
rewrite /ObjModel.obj_setS; case: (check3D Sm) => [[L n Ms]|e] //=; case: ifP => // _.
case: names => [ps|]; case: (o_ports o == [::]) => //=; case: ifP => // _;
  by case: (size _ == 0%N); case: ifP => // _; case: ifP.
Qed.
Lemma run_fresh o cs : ok_size o -> cache_fresh o -> all (@set_or_get C F) cs -> sets_ok o cs -> cache_fresh (run o cs).
Proof.
elim: cs o => [|c cs IH] o Hs Hc //= /andP [Hsg Hcs] [H1 H2].
have [S1 _ _ _] : [/\ ok_size (obj_do o c).1, True, True & True].
  by have [] := @run_data o [:: c] Hs; rewrite /= ?Hsg.
apply: IH => //; case: c Hsg H1 {H2 S1} => // [f Sm p|f u Zb|fs u Zb] _ _ /=.
- by have := setS_cache o f Sm p; case: (obj_setS _ _ _ _) => o1 r /= E g; rewrite E.
- by rewrite /obj_getS; have := @get_fresh o Zb (f * u / o_fscale o) Hs Hc; case: (obj_get _ _ _).
- rewrite /obj_getSs; case: fs => [|f fs] //.
  by have := @loop_fresh o Zb [seq f0 * u / o_fscale o | f0 <- f :: fs] Hs Hc; case: (get_loop _ _ _ _ _).
Qed.

(** data in increasing order *)
Lemma sort_fs_id o : o_sorted o -> sort_fs o = (o, Ok tt).
Proof. by rewrite /ObjModel.sort_fs => ->. Qed.
Lemma get_sorted o Zb f : o_sorted o -> items (obj_get o Zb f).1 = items o /\ o_sorted (obj_get o Zb f).1.
Proof.
move=> H; rewrite /ObjModel.obj_get /get1S; case: (lookup _ _ _) => [Sm|] //=.
rewrite /interp_; case: (o_cache o) => [g|] //=; rewrite sort_fs_id //.
by case: (interp1d _ _).
Qed.
Lemma loop_sorted o Zb fs : o_sorted o -> items (get_loop interp1d argsort o Zb fs).1 = items o /\
  o_sorted (get_loop interp1d argsort o Zb fs).1.
Proof.
elim: fs o => [|f fs IH] o Hs //=.
have [] := get_sorted Zb f Hs; case: (obj_get _ _ _) => o1 [Sm|e] //= E1 S1.
by have [] := IH _ S1; case: (get_loop _ _ _ _ _) => o2 r /= -> ->.
Qed.
Lemma run_sorted o cs : ok_size o -> o_sorted o -> all (@set_or_get C F) cs -> sets_ok o cs ->
  sorted <%R (o_fs o ++ unzip1 (data cs)) -> items (run o cs) = items o ++ data cs /\ o_sorted (run o cs).
Proof.
elim: cs o => [|c cs IH] o Hs Ho /=; first by move=> _ _ _; rewrite cats0 Ho.
case/andP=> Hc Hcs [Hset Hrest] Hlt.
have [S1 _ _ _] : [/\ ok_size (obj_do o c).1, True, True & True].
  by have [] := @run_data o [:: c] Hs; rewrite /= ?Hc.
have [E1 E2] : items (obj_do o c).1 = items o ++ data_of c /\ o_sorted (obj_do o c).1.
  case: c Hc Hset Hlt {Hrest S1} => // [f Sm p|f u Zb|fs u Zb] _ /= Hset Hlt.
  - have := @setS_ok o f Sm p; case: (obj_setS _ _ _ _) Hset => o1 [[]|e] /= Hset; last by have := Hset isT.
    case=> // H1 H2 H3 _ [_ _ H4 _ _].
    rewrite /items H1 H2 zip_cat //; split=> //.
    have Hlt1 : sorted <%R (o_fs o1).
      move: Hlt; rewrite /data /= /unzip1 map_cat -/unzip1 unzip1_zip ?H3 // catA => /cat_sorted2 [].
      by rewrite H1.
    case: H4 => /(_ Ho) Hne ->; rewrite Ho /=; case: (o_fs o1) Hlt1 Hne => [|x [|y s]] // Hlt1 _.
    apply/orP; right; rewrite (lt_sorted_ltn_nth 0 Hlt1) ?inE /= ?subSS ?subn0 ?ltnS //.
  - rewrite /obj_getS cats0; have [] := get_sorted Zb (f * u / o_fscale o) Ho; by case: (obj_get _ _ _).
  - rewrite /obj_getSs cats0; case: fs {Hset Hlt} => [|f fs] //.
    by have [] := loop_sorted Zb [seq f0 * u / o_fscale o | f0 <- f :: fs] Ho; case: (get_loop _ _ _ _ _).
have [|G1 G2] := IH _ S1 E2 Hcs Hrest.
  have -> : o_fs (obj_do o c).1 = o_fs o ++ unzip1 (data_of c).
    by rewrite -(unzip_items S1).1 E1 /unzip1 map_cat -/unzip1 (unzip_items Hs).1.
  by rewrite -catA -[unzip1 _ ++ _]map_cat.
by rewrite G1 E1 -catA.
Qed.
End Table.

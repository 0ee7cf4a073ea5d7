(** addblock of a dotted name (C55): proofs *)
From mathcomp Require Import all_ssreflect all_algebra.
From mathcomp Require Import zify.
From Coq Require Import String Ascii.
From Coq Require List.
From Verif Require Import Base MxLib ConvModel ConvSpec ConvProofs ConvArr CircModel CircSpec CircLib CircInv CircTerm CircApp CircConn CircAdd CircDe CircFill CircSolve CircExt CircHist CircGet CircMain CircOrd CircThm CircThm2 CircThm3 CircThm4 CircThm5 CircMaxV CircNest CircFlat CircDev CircThm6 CircSub CircSubT CircCopy CircCopyT CircAddP.
Set Implicit Arguments.
Unset Strict Implicit.
Unset Printing Implicit Defensive.
Import Order.TTheory GRing.Theory Num.Theory.
Local Open Scope string_scope.
Local Open Scope ring_scope.
Local Open Scope seq_scope.

Lemma split_dot_left s nm sub : split_dot s = Some (nm, sub) -> ~~ has_char "."%char nm.
Proof.
elim: s nm => [//|a s IH] nm; cbn [split_dot]; case: (a =P "."%char) => [_ [<- _] //|Ha].
case E: (split_dot s) => [[x y]|] // [<- Ey]; cbn [has_char]; rewrite negb_or eq_sym; apply/andP; split; first exact/eqP.
by apply: IH; rewrite E Ey.
Qed.
Lemma split_dot_N s : split_dot s = None -> ~~ has_char "."%char s.
Proof.
elim: s => [//|a s IH]; cbn [split_dot]; case: (a =P "."%char) => // Ha.
case E: (split_dot s) => [[x y]|] // _; cbn [has_char]; rewrite negb_or eq_sym; apply/andP; split; first exact/eqP.
exact: IH.
Qed.

Section Sim.
Variable C : numClosedFieldType.
Variables F Fl : eqType.
Section S1.
Variable K : ocls C F Fl.
Variable R : K -> K -> Prop.
Hypothesis Rt : forall a b c, R a b -> R b c -> R a c.
Lemma csim_trans (c d e : circ K) : csim R c d -> csim R d e -> csim R c e.
Proof.
case=> bs [p [-> Hp Hb]] [bs' [p' [-> Hp' Hb']]]; exists bs', p'; split=> //.
  by case: Hp' => /= [->|[E ->]] //; case: Hp => [E'|[E' E2]]; [right; split=> //; rewrite -E'|rewrite E2 in E].
move: bs' Hb' {Hp Hp'}; rewrite /upd_bp /=; elim: Hb => [|x y l l' Hx _ IH] bs' H; inversion_clear H; first by constructor.
constructor; last exact: IH.
by case: Hx H0 => a1 a2 a3 a4 a5 [b1 b2 b3 b4 b5]; split; try congruence; apply: Rt a5 b5.
Qed.
Lemma csim_refl (c : circ K) : (forall o, R o o) -> csim R c c.
Proof.
move=> H; exists (blocks c), (pn c); split; [by case: c|by left|].
by elim: (blocks c) => [|nb bs IH]; constructor=> //; split.
Qed.
Lemma brel_dget bs bs' nm b : List.Forall2 (brel R) bs bs' -> dget bs nm = Some b ->
  exists b', [/\ dget bs' nm = Some b', bports b' = bports b, bloc b' = bloc b, bxpos b' = bxpos b & R (bobj b) (bobj b')].
Proof.
elim=> [//|[n x] [n' x'] l l' [/= -> H1 H2 H3 H4] _ IH] /=.
by case: eqP => [_ [<-]|_ /IH //]; exists x'.
Qed.
Lemma replace_sim (c d : circ K) nm b b' o o' : csim R c d -> dget (blocks c) nm = Some b -> dget (blocks d) nm = Some b' -> R o o' ->
  csim R (with_blocks (uncache c) (dset (blocks c) nm (Block (bports b) (bloc b) o (bxpos b))))
         (with_blocks (uncache d) (dset (blocks d) nm (Block (bports b') (bloc b') o' (bxpos b')))).
Proof.
case=> bs [p [-> Hp Hb]] E E' Ho; have [b2 [E2 H1 H2 H3 _]] := brel_dget Hb E.
have Eb : b2 = b' by move: E'; rewrite /upd_bp /= E2 => -[].
rewrite -Eb H1 H2 H3; do 2 eexists; split; [reflexivity|exact: Hp|].
by apply: brel_dset.
Qed.
Lemma csim_ports (c d : circ K) : csim R c d -> ports d = ports c.
Proof. by case=> bs [p [-> _ _]]. Qed.
End S1.

Variable K : vcls C F Fl.
Variable nan : C.
Variable getpos : forall K' : vcls C F Fl, circ K' -> string -> res C.
Notation deep := (deep K nan getpos).
Notation nest n := (nest_cls nan (@getpos (deep n))).
Notation reach := (reach nan (@getpos _)).
Notation simn := (@simn C F Fl K nan getpos _).

Lemma simn_refl n : forall o : deep n, simn o o.
Proof. by elim: n => [//|n IH] [d|k] //; apply: csim_refl. Qed.
Lemma simn_trans n : forall a b c : deep n, simn a b -> simn b c -> simn a c.
Proof.
elim: n => [|n IH] a b c; first by move=> /= -> ->.
case: a => [a|a]; case: b => [b|b]; case: c => [c|c] //; first by move=> /= -> ->.
exact: csim_trans.
Qed.
Lemma simn_size n (a b : deep n) : simn a b -> osize b = osize a.
Proof.
case: n a b => [|n] a b; first by move=> /= ->.
case: a => [a|a]; case: b => [b|b] //=; [by move=> ->|by move=> /csim_ports ->].
Qed.

Variable ob : anyobj K nan getpos.
Hypothesis Hob : forall m, oinv (ob m).
Variables (pa : portarg) (x : C).

Definition is_add n (e : op (deep n)) := if e is OAdd _ _ _ _ then True else False.
Definition good n z ns h (c : circ (deep n)) path (d' : circ (deep n)) : Prop :=
  exists c' e, [/\ reach z ns (rcons h (e, true)) c', is_add e,
    replaced ob (net_hist h) path (net_hist (rcons h (e, true))), csim simn c' d' & ports c' = ports c].

(** the block itself is replaced *)
Lemma direct n z ns h (c d d' : circ (deep n)) path : reach z ns h c -> csim simn c d -> split_dot path = None ->
  path \in dkeys (nblk (net_hist h)) -> addblock nan d path (ob n) pa x = (d', Ok tt) ->
  exists c' e, [/\ reach z ns (rcons h (e, true)) c', is_add e,
    (exists ps o, [/\ dget (nblk (net_hist h)) path = Some (ps, o), osize (ob n) = size ps &
       net_hist (rcons h (e, true)) = with_nblk (net_hist h) (dset (nblk (net_hist h)) path (ps, ob n))]),
    csim simn c' d' & ports c' = ports c].
Proof.
move=> Hr Hs Hp Hk; have HI := ci_inv (reach_CI Hr).
have Hk' := Hk; rewrite -(blk_keys HI) in Hk'.
have [b Eb] : exists b, dget (blocks c) path = Some b by move: Hk'; rewrite -dhasE /dhas; case: (dget _ _) => // b _; exists b.
have [b' [Eb' H1 H2 H3 H4]] : exists b', [/\ dget (blocks d) path = Some b', bports b' = bports b, bloc b' = bloc b, bxpos b' = bxpos b & simn (bobj b) (bobj b')].
  by case: (Hs) => bs [p [-> _ Hb]]; exact: brel_dget Hb Eb.
have [ps [o [En [_ _ _ _ [Hsz _]] _]]] := Forall2_dget (v_blk HI) Eb.
have Hd := negbTE (split_dot_N Hp).
rewrite {1}/addblock Hd; have -> : blocks (uncache d) = blocks d by [].
rewrite Eb' (simn_size H4) -[_ != _]/(osize (ob n) != osize (bobj b)); case: eqP => [Eo [<-]|//].
set c' := with_blocks (uncache c) (dset (blocks c) path (Block (bports b) (bloc b) (ob n) (bxpos b))).
have Ex : exec nan (@getpos _) c (OAdd path (ob n) pa x) = (c', true).
  by rewrite /exec /addblock Hd; have -> : blocks (uncache c) = blocks c by []; rewrite Eb Eo eqxx.
exists c', (OAdd path (ob n) pa x); split=> //.
- by apply: reach_snoc Hr _ Ex; split=> //; left.
- exists ps, o; split=> //; first by rewrite Eo.
  by rewrite net_rcons /= En.
- by apply: replace_sim => //; exact: simn_refl.
Qed.

Lemma addpath_step n : forall z ns h (c d : circ (deep n)) path d', reach z ns h c -> csim simn c d ->
  knows (net_hist h) path -> addpath ob pa x d path = (d', Ok tt) -> good z ns h c path d'.
Proof.
elim: n => [|n IH] z ns h c d path d' Hr Hs.
  rewrite /= ; case Ep: (split_dot path) => [[nm sub]|] // Hk Ha.
  have [c' [e [H1 H2 H3 H4 H5]]] := direct Hr Hs Ep Hk Ha.
  by exists c', e; split=> //=.
rewrite /good /=; case Ep: (split_dot path) => [[nm sub]|]; last by move=> Hk Ha; exact: direct Hr Hs Ep Hk Ha.
have Hd := split_dot_left Ep.
case En: (dget (nblk (net_hist h)) nm) => [[ps [?|k]]|] // Hk.
have HI := ci_inv (reach_CI Hr); have Hin := dget_In En.
have [bc Ec [_ Hbp Hoi [Haf _] [Hsz _]]] := Forall2_dget' (v_blk HI) En.
have Hok : oinv (k : nest n).
  by have := proj1 (List.Forall_forall _ _) (reach_oinv Hr) _ Hin.
have [kc [Ekc Hkc Ez Eh Epo]] := after_nest Hok Haf; cbn [fst snd] in Ekc.
have [bd [Ed H1 H2 H3 H4]] : exists b', [/\ dget (blocks d) nm = Some b', bports b' = bports bc, bloc b' = bloc bc, bxpos b' = bxpos bc & simn (bobj bc) (bobj b')].
  by case: (Hs) => bs [p [-> _ Hb]]; exact: brel_dget Hb Ec.
rewrite /addblock_sub; have -> : blocks (uncache d) = blocks d by []; rewrite Ed.
move: H4; rewrite Ekc; case Eod: (bobj bd) => [?|kd] //; rewrite -[X in X -> _]/(csim simn (n_c kc) (n_c kd)) => H4.
set r := addpath _ _ _ _ _; case Er: r => [d2 [u|e]] // [<-].
have [Hrk Hkn Hrt] := Hkc.
have Hs2 : csim simn (n_c kc) (copy_circ (@dupn C F Fl K nan getpos n) (n_c kd)).
  by apply: (csim_trans (@simn_trans n) H4); apply: copy_sim; exact: simn_dup.
have Hk2 : knows (net_hist (n_h kc)) sub by rewrite Eh.
have Er' : addpath ob pa x (copy_circ (@dupn C F Fl K nan getpos n) (n_c kd)) sub = (d2, Ok tt) by rewrite -[LHS]/r Er; case: (u).
have [c2 [e [R1 R2 R3 R4 R5]]] := IH _ _ _ _ _ _ _ Hrk Hs2 Hk2 Er'.
pose k' : nest n := NCirc (n_z kc) (n_ns kc) (rcons (n_h kc) (e, true)) c2.
have Hk' : oinv (k' : nest n).
  split=> //; first exact: known_rcons.
  by rewrite /k' /= past_rcons; case: (e) R2.
set c' := with_blocks (uncache c) (dset (blocks c) nm (Block (bports bc) (bloc bc) (inr k' : deep n.+1) (bxpos bc))).
have Eo : osize (inr k' : deep n.+1) = osize (bobj bc) by rewrite Ekc /= R5.
have Ex : exec nan (@getpos _) c (OAdd nm (inr k' : deep n.+1) pa x) = (c', true).
  rewrite /exec /addblock (negbTE Hd); have -> : blocks (uncache c) = blocks c by [].
  by rewrite Ec Eo eqxx.
exists c', (OAdd nm (inr k' : deep n.+1) pa x); split=> //.
- apply: reach_snoc Hr _ Ex; split=> //; left.
  exact: (dget_keys En).
- exists ps, k, k'; split=> //.
  + by rewrite net_rcons /= En.
  + by rewrite /= R5.
  + by rewrite -Eh.
- exact: (replace_sim (o := inr k' : deep n.+1) (o' := inr (NCirc (n_z kd) (n_ns kd) (n_h kd) d2) : deep n.+1) Hs Ec Ed R4).
Qed.

Lemma direct_ok n z ns h (c d : circ (deep n)) path : reach z ns h c -> csim simn c d -> split_dot path = None ->
  (if dget (nblk (net_hist h)) path is Some (ps, _) then osize (ob n) == size ps else false) ->
  exists d', addblock nan d path (ob n) pa x = (d', Ok tt).
Proof.
move=> Hr Hs Hp; have HI := ci_inv (reach_CI Hr).
case En: (dget _ _) => [[ps o]|] // /eqP Eo.
have [b Eb [_ _ _ _ [Hsz _]]] := Forall2_dget' (v_blk HI) En.
have [b' [Eb' H1 H2 H3 H4]] : exists b', [/\ dget (blocks d) path = Some b', bports b' = bports b, bloc b' = bloc b, bxpos b' = bxpos b & simn (bobj b) (bobj b')].
  by case: (Hs) => bs [p [-> _ Hb]]; exact: brel_dget Hb Eb.
rewrite /addblock (negbTE (split_dot_N Hp)); have -> : blocks (uncache d) = blocks d by [].
by rewrite Eb' (simn_size H4) Eo Hsz eqxx; eexists.
Qed.

Lemma addpath_ok n : forall z ns h (c d : circ (deep n)) path, reach z ns h c -> csim simn c d ->
  fits ob (net_hist h) path -> exists d', addpath ob pa x d path = (d', Ok tt).
Proof.
elim: n => [|n IH] z ns h c d path Hr Hs /=.
  by case Ep: (split_dot path) => [[nm sub]|] //; exact: direct_ok Hr Hs Ep.
case Ep: (split_dot path) => [[nm sub]|]; last exact: direct_ok Hr Hs Ep.
case En: (dget (nblk (net_hist h)) nm) => [[ps [?|k]]|] // Hk.
have HI := ci_inv (reach_CI Hr); have Hin := dget_In En.
have [bc Ec [_ Hbp Hoi [Haf _] [Hsz _]]] := Forall2_dget' (v_blk HI) En.
have Hok : oinv (k : nest n).
  by have := proj1 (List.Forall_forall _ _) (reach_oinv Hr) _ Hin.
have [kc [Ekc Hkc Ez Eh Epo]] := after_nest Hok Haf; cbn [fst snd] in Ekc.
have [bd [Ed H1 H2 H3 H4]] : exists b', [/\ dget (blocks d) nm = Some b', bports b' = bports bc, bloc b' = bloc bc, bxpos b' = bxpos bc & simn (bobj bc) (bobj b')].
  by case: (Hs) => bs [p [-> _ Hb]]; exact: brel_dget Hb Ec.
rewrite /addblock_sub; have -> : blocks (uncache d) = blocks d by []; rewrite Ed.
move: H4; rewrite Ekc; case Eod: (bobj bd) => [?|kd] //; rewrite -[X in X -> _]/(csim simn (n_c kc) (n_c kd)) => H4.
have [Hrk Hkn Hrt] := Hkc.
have Hs2 : csim simn (n_c kc) (copy_circ (@dupn C F Fl K nan getpos n) (n_c kd)).
  by apply: (csim_trans (@simn_trans n) H4); apply: copy_sim; exact: simn_dup.
have [|d2 ->] := IH _ _ _ _ _ sub Hrk Hs2; first by rewrite Eh.
by eexists.
Qed.
End Sim.

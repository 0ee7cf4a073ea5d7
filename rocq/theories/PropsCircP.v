(** C55: replacing a block inside a sub-circuit (addblock of a dotted name). *)
From mathcomp Require Import all_ssreflect all_algebra.
From mathcomp Require Import zify.
From Coq Require Import String Ascii.
From Coq Require List.
From Verif Require Import Base MxLib ConvModel ConvSpec ConvProofs ConvArr CircModel CircSpec CircLib CircInv CircTerm CircApp CircConn CircAdd CircDe CircFill CircSolve CircExt CircHist CircGet CircMain CircOrd CircThm CircThm2 CircThm3 CircThm4 CircThm5 CircMaxV CircNest CircFlat CircDev CircThm6 CircEx CircSub CircSubT CircCopy CircCopyT CircAddP CircAddPT CircAddN.
Set Implicit Arguments.
Unset Strict Implicit.
Unset Printing Implicit Defensive.
Import Order.TTheory GRing.Theory Num.Theory.
Local Open Scope string_scope.
Local Open Scope ring_scope.
Local Open Scope seq_scope.

Section Thms.
Variable C : numClosedFieldType.
Variables F Fl : eqType.
Variable K : vcls C F Fl.
Variable nan : C.
Variable getpos : forall K' : vcls C F Fl, circ K' -> string -> res C.
Notation deep := (deep K nan getpos).
Notation reach := (CircHist.reach nan (@getpos _)).
Notation simn := (@simn C F Fl K nan getpos _).

Let tracks_sim n z ns (cs : seq (call K nan getpos)) : forall h (c d : circ (deep n)),
  reach z ns h c -> reterm (past_of h) = false -> csim simn c d -> tracks z (net_hist h) d cs.
Proof.
elim: cs => [|[path ob pa x|f z' fl] cs IH] h c d Hr Ht Hs /=.
- move=> f z' fl d' S; have Hm : may_ask h f fl by rewrite /may_ask Ht.
  have := get_sim (@simn_get _ _ _ K nan getpos n) f z' fl Hs.
  case Gc: (get1S f z' [::] fl c) => [c' r] /= [Er Hs'] Gd; rewrite Gd /= in Er Hs'.
  rewrite -Er in Gc; rewrite (csim_ports Hs'); have [H1 _] := thm_C12 Hr Hm Gc; exact: H1.
- move=> Hk Ho d' Ha; have [c' [e [H1 H2 H3 H4 _]]] := addpath_step Ho Hr Hs Hk Ha.
  eexists; split; first exact: H3.
  by apply: IH H1 _ H4; rewrite past_rcons; case: e H2 {H3}.
have := get_sim (@simn_get _ _ _ K nan getpos n) f z' fl Hs.
have Hm : may_ask h f fl by rewrite /may_ask Ht.
case Gc: (get1S f z' [::] fl c) => [c' r] [_ Hs'].
have Hr' : reach z ns (rcons h (@OGetS C F Fl (deep n) f z' fl, is_ok r)) c'.
  by apply: (@reach_snoc _ _ _ _ _ _ _ _ h c (@OGetS C F Fl (deep n) f z' fl) (is_ok r) c' Hr) => //; rewrite /exec Gc.
have := IH _ _ _ Hr' _ Hs'; rewrite net_rcons; apply.
by rewrite past_rcons /=; case: (r).
Qed.

(** ** C55 *)
(** addblock(path, obj) with a path 'a.b...c' through sub-circuits to an existing block puts obj
    in that block's place, there and nowhere else: whatever sequence of such calls and getS
    calls is made on a circuit, at any nesting depth, every S-matrix then returned is that
    of the network so changed. *)
Theorem C55_replaces n z ns h (c : circ (deep n)) (cs : seq (call K nan getpos)) :
  reach z ns h c -> reterm (past_of h) = false -> tracks z (net_hist h) c cs.
Proof. by move=> Hr Ht; apply: tracks_sim Hr Ht _; apply: csim_refl; exact: simn_refl. Qed.

(** Such a call returns, if obj has as many ports as the block it replaces. *)
Theorem C55_accepted n z ns h (c : circ (deep n)) (ob : anyobj K nan getpos) pa x path : reach z ns h c ->
  fits ob (net_hist h) path -> exists d, addpath ob pa x c path = (d, Ok tt).
Proof. by move=> Hr Hf; apply: (addpath_ok pa x Hr (csim_refl c (@simn_refl _ _ _ K nan getpos n)) Hf). Qed.

(** A first name that is no block of the circuit: ValueError; a path through a device:
    AttributeError.  A refused call only drops the stored matrices. *)
Theorem C55_refused n z ns h (c : circ (deep n)) (ob : anyobj K nan getpos) pa x path nm sub : reach z ns h c ->
  split_dot path = Some (nm, sub) ->
  [/\ nm \notin dkeys (nblk (net_hist h)) -> (addpath ob pa x c path).2 = Raise ValueError,
      (forall ps d, dget (nblk (net_hist h)) nm = Some (ps, dev_at nan getpos d n) -> (addpath ob pa x c path).2 = Raise AttributeError) &
      forall d e, addpath ob pa x c path = (d, Raise e) -> d = uncache c].
Proof.
move=> Hr Ep; have HI := ci_inv (reach_CI Hr).
have Hsub g : (nm \notin dkeys (nblk (net_hist h)) -> (addblock_sub c nm g).2 = Raise ValueError) /\
   (forall d e, addblock_sub c nm g = (d, Raise e) -> d = uncache c).
  rewrite /addblock_sub -(blk_keys HI); split=> [Hn|d e].
    by have -> : dget (blocks (uncache c)) nm = None by apply/dget_None.
  case: (dget _ _) => [b|]; last by case=> <-.
  by case: (g (bobj b)).2 => [u|e'] // [<-].
case: n c h Hr HI Hsub => [|n] c h Hr HI Hsub /=; rewrite Ep; split; try exact: (proj1 (Hsub _)); try exact: (proj2 (Hsub _)).
  move=> ps d En; have [b Eb _] := Forall2_dget' (v_blk HI) En.
  by rewrite /addblock_sub; have -> : dget (blocks (uncache c)) nm = Some b by exact: Eb.
move=> ps d En; have [b Eb [_ _ _ [Haf _] _]] := Forall2_dget' (v_blk HI) En.
rewrite /addblock_sub; have -> : dget (blocks (uncache c)) nm = Some b by exact: Eb.
have [d' ->] // : exists d', bobj b = inl d'.
elim: Haf => [|o' f z0 fl _ _ [d' ->]]; first by exists d.
by eexists.
Qed.

(** A path to a block that the sub-circuit does not have is not refused: the call returns, it
    adds the block to the sub-circuit, whose number of ports then is no longer that of its
    block, and from then on no getS and no Solution of the circuit returns. *)
Theorem C55_new_refuted n z ns h (c : circ (deep n.+1)) (ob : anyobj K nan getpos) pa x path nm sub ps k ops : reach z ns h c ->
  split_dot path = Some (nm, sub) -> split_dot sub = None ->
  dget (nblk (net_hist h)) nm = Some (ps, inr k) -> sub \notin dkeys (nblk (net_hist (n_h k))) ->
  (0 < osize (ob n))%N -> resolve_ports (osize (ob n)) (oports (ob n)) pa = Ok ops ->
  exists d, addpath ob pa x c path = (d, Ok tt) /\
    forall qs : seq (question C F Fl), ~~ has (fun r => is_ok r) (asks qs d).2.
Proof.
move=> Hr E1 E2 E3 E4 E5 E6; have [d Ha] := new_ok (ob := ob) x Hr E1 E2 E3 E4 E6; exists d; split=> // qs.
apply: asks_Bk; exact: (new_Bk Hr E1 E2 E3 E4 E5 Ha).
Qed.
End Thms.

(** the through block a inside the sub-circuit x (whose second port has a load) replaced by
    another two-port, and a new block added there *)
Example C55_witness (C : numClosedFieldType) :
  let ob := dev_at 0 (gpn (C := C)) (mix C) in
  exists c (d d1 d2 : circ (deep (KT C) 0 (gpn (C := C)) 1)),
  [/\ CircHist.reach 0 (@gpn C (deep (KT C) 0 (gpn (C := C)) 1)) (z50 C) [::] (hJ c) d /\ reterm (past_of (hJ c)) = false,
      knows (net_hist (hJ c)) "x.a" && fits ob (net_hist (hJ c)) "x.a",
      (forall m, oinv (ob m)), addpath ob PNone 0 d "x.a" = (d1, Ok tt) &
      addpath ob PNone 0 d "x.new" = (d2, Ok tt) /\ is_ok (get1S 7%N 0 [::] tt d2).2 = false].
Proof.
move=> ob; have [c [d [Hc Hd]]] := exJ C; exists c, d.
have Ho m : oinv (ob m) by case: m => [|m]; exact: dev_inv.
have Hn := net_hJ Hc.
have Hf : fits ob (net_hist (hJ c)) "x.a" by rewrite Hn.
have [d1 E1] := C55_accepted PNone 0 Hd Hf; exists d1.
have En : dget (nblk (net_hist (hJ c))) "x" = Some ([:: "a.1"; "a.2"], box c) by rewrite Hn.
have [//|d2 [E2 H2]] := @C55_new_refuted C _ _ (KT C) 0 (gpn (C := C)) 0 _ _ _ d ob PNone 0 "x.new" "x" "new" _ _ [:: "1"; "2"] Hd erefl erefl En isT isT.
exists d2; split=> //.
- by split=> //=; rewrite andbF.
- by rewrite Hf andbT Hn.
split=> //; have := H2 [:: QS 7%N 0 tt]; rewrite /= orbF.
by case: (get1S 7%N 0 [::] tt d2) => d3 [].
Qed.

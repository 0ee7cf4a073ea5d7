(** Proofs for GtlNet.v: the circuit that rfGTL builds is one reached by building calls. *)
From mathcomp Require Import all_ssreflect all_algebra.
From mathcomp Require Import zify.
From Coq Require Import String Ascii.
From Coq Require List.
From Verif Require Import Base MxLib ConvModel ConvSpec ConvProofs ConvArr CircModel CircSpec CircLib CircInv CircTerm CircApp CircConn CircAdd CircDe CircFill CircSolve CircExt CircHist CircGet CircMain CircOrd CircThm CircThm2 CircThm3 CircThm4 CircMaxV SetThm GtlNet.
Set Implicit Arguments.
Unset Strict Implicit.
Unset Printing Implicit Defensive.
Import GRing.Theory Num.Theory.
Local Open Scope string_scope.
Local Open Scope ring_scope.
Local Open Scope seq_scope.

Section Repos.
Variable C : numClosedFieldType.
Variables F Fl : eqType.
Variable K : vcls C F Fl.
Variable nan : C.
Notation circ := (circ K).
Notation getp := (@getpos_flat C F Fl K).
Implicit Types (c : circ).

(** the same circuit with other positions *)
Definition rb (bx : string -> C) (nb : string * block K) : string * block K :=
  (nb.1, Block (bports nb.2) (bloc nb.2) (bobj nb.2) (bx nb.1)).
Definition repos c (xs : seq C) (bx : string -> C) : circ :=
  with_blocks (with_ports c (ports c) xs) (map (rb bx) (blocks c)).

Lemma dget_rb bx (bs : seq (string * block K)) nm :
  dget (map (rb bx) bs) nm = omap (fun b => Block (bports b) (bloc b) (bobj b) (bx nm)) (dget bs nm).
Proof. by elim: bs => //= -[n b] bs IH /=; case: eqP => [->|]. Qed.
Lemma dset_rb bx (bs : seq (string * block K)) nm b :
  map (rb bx) (dset bs nm b) = dset (map (rb bx) bs) nm (Block (bports b) (bloc b) (bobj b) (bx nm)).
Proof. by elim: bs => //= -[n b'] bs IH /=; case: eqP => [->|] //=; rewrite IH. Qed.

Lemma R_add c nm o pa x c' xs bx : addblock nan c nm o pa x = (c', Ok tt) ->
  dget (blocks c) nm = None -> oinv o ->
  size (xpos c) = size (ports c) -> size xs = size (ports c) ->
  exists xs', [/\ addblock nan (repos c xs bx) nm o pa (bx nm) = (repos c' xs' bx, Ok tt),
    size xs' = size (ports c') & size (xpos c') = size (ports c')].
Proof.
rewrite /addblock; case: ifP => // _ + Hn Ho H1 H2; rewrite /= Hn dget_rb Hn /=.
rewrite /addblock_new; case E: (resolve_ports _ _ _) => [ops|] // [<-].
set ys := fun r : C => if oxpos o is Some l then [seq r + px.2 | px <- zip ops l] else [seq r | _ <- ops].
have Hs r : size (ys r) = size ops.
  rewrite /ys; case Ex: (oxpos o) => [l|]; last by rewrite size_map.
  by rewrite size_map size_zip; apply/minn_idPl; rewrite (resolve_size E); exact: (oinv_xpos Ho Ex).
exists (xs ++ ys (bx nm)); split=> /=.
- by rewrite /repos /= dset_rb.
- by rewrite !size_cat Hs H2 !size_map.
by rewrite !size_cat (Hs x) H1 !size_map.
Qed.

Lemma lpop_size (T : Type) (s t : seq T) k : lpop s k = Ok t -> (k < size s)%N /\ (size t).+1 = size s.
Proof.
rewrite /lpop; case: ifP => // Hk [<-]; split=> //.
by rewrite size_cat size_takel ?(ltnW Hk) // size_drop; lia.
Qed.
Lemma lpop_ok (T : Type) (s : seq T) k : (k < size s)%N -> exists2 t, lpop s k = Ok t & (size t).+1 = size s.
Proof.
move=> Hk; rewrite /lpop Hk; eexists; first reflexivity.
by rewrite size_cat size_takel ?(ltnW Hk) // size_drop; lia.
Qed.

Lemma R_consume c p c' xs bx : consume c p = (c', Ok tt) ->
  size (xpos c) = size (ports c) -> size xs = size (ports c) ->
  exists xs', [/\ consume (repos c xs bx) p = (repos c' xs' bx, Ok tt),
    size xs' = size (ports c') & size (xpos c') = size (ports c')].
Proof.
rewrite /consume /=; case: (lindex _ _) => // k; case Ep: (lpop _ _) => [ps|] //.
case Ex: (lpop _ _) => [ys|] // [<-] H1 H2.
have [_ S1] := lpop_size Ep; have [Hk S2] := lpop_size Ex.
have [|t -> S3] := @lpop_ok _ xs k; first by rewrite H2 -H1.
by exists t; split=> //=; lia.
Qed.

Lemma R_loop A (st : circ -> A -> circ * res unit) (ys : seq A) bx :
  (forall c y c' xs, List.In y ys -> st c y = (c', Ok tt) -> size (xpos c) = size (ports c) -> size xs = size (ports c) ->
    exists xs', [/\ st (repos c xs bx) y = (repos c' xs' bx, Ok tt),
    size xs' = size (ports c') & size (xpos c') = size (ports c')]) ->
  forall c c' xs, loop st c ys = (c', Ok tt) -> size (xpos c) = size (ports c) -> size xs = size (ports c) ->
    exists xs', [/\ loop st (repos c xs bx) ys = (repos c' xs' bx, Ok tt),
    size xs' = size (ports c') & size (xpos c') = size (ports c')].
Proof.
elim: ys => [|y ys IH] H c c' xs /=; first by case=> <- H1 H2; exists xs.
case E: (st c y) => [c1 [[]|e]] //= E' H1 H2.
have [xs1 [-> S1 S1']] := H _ _ _ xs (or_introl erefl) E H1 H2; rewrite /=.
by apply: IH => // d x d' zs Hx; apply: H; right.
Qed.

Lemma R_term c p kw c' xs bx : terminate c p kw = (c', Ok tt) ->
  size (xpos c) = size (ports c) -> size xs = size (ports c) ->
  exists xs', [/\ terminate (repos c xs bx) p kw = (repos c' xs' bx, Ok tt),
    size xs' = size (ports c') & size (xpos c') = size (ports c')].
Proof.
rewrite /terminate /=; case: (rho_of _ _) => // rho.
case: (dget (dT c) p) => [[[iA iB] e]|]; first by case=> <- H1 H2; exists xs.
case: (dget (dE c) p) => [e|].
  case: (lindex _ _) => // iA; case: (lindex _ _) => // iB.
  set c1 := with_dicts _ _ _ _; case Ec: (consume c1 p) => [c2 [[]|]] //= [<-] H1 H2.
  by have [|//|xs' [E S1 S2]] := @R_consume c1 p c2 xs bx Ec => //; exists xs'; split=> //; rewrite [consume _ _]E.
case Ec: (consume c p) => [c2 [[]|]] //= + H1 H2.
have [xs' [-> S1 S2]] := @R_consume c p c2 xs bx Ec H1 H2 => /=.
by case: (lindex _ _) => // iA; case: (lindex _ _) => // iB [<-]; exists xs'.
Qed.

Lemma R_conn c ps c' xs bx : connect getp c ps = (c', Ok tt) -> newports c ps = [::] ->
  size (xpos c) = size (ports c) -> size xs = size (ports c) ->
  exists xs', [/\ connect getp (repos c xs bx) ps = (repos c' xs' bx, Ok tt),
    size xs' = size (ports c') & size (xpos c') = size (ports c')].
Proof.
rewrite /connect => + Hn; have -> : newports (repos c xs bx) ps = [::] by [].
rewrite Hn /=; case: (mapM _ _) => // iAs; case: (mapM _ _) => // iBs.
set l := filter _ _; case El: (loop _ c l) => [c1 [[]|]] //= [<-] H1 H2.
have [|xs' [-> S1 S2]] := @R_loop _ (@consume C F Fl K) l bx _ c c1 xs El H1 H2.
  by move=> d q d' zs _; exact: R_consume.
by exists xs'.
Qed.

(** ** the last connects *)
(** equal but for the positions of the ports of P0 *)
Definition near (P0 : seq string) c1 c0 := exists xs, [/\ c0 = with_ports c1 (ports c1) xs,
  size xs = size (ports c1), size (xpos c1) = size (ports c1) &
  forall k, (k < size (ports c1))%N -> nth "" (ports c1) k \notin P0 -> nth 0 xs k = nth 0 (xpos c1) k].

Lemma nth_pop (T : Type) (x : T) s k j : nth x (take k s ++ drop k.+1 s) j = nth x s (if (j < k)%N then j else j.+1).
Proof.
rewrite nth_cat size_take; case: (ltnP k (size s)) => Hk; first case: (ltnP j k) => Hj.
- by rewrite nth_take.
- by rewrite nth_drop; congr nth; lia.
rewrite take_oversize //; case: (ltnP j (size s)) => Hj; first by rewrite (leq_trans Hj Hk).
by rewrite nth_drop [LHS]nth_default ?[RHS]nth_default //; [case: ifP|]; lia.
Qed.

Lemma near_consume P0 c1 c0 p c1' : near P0 c1 c0 -> consume c1 p = (c1', Ok tt) ->
  exists2 c0', consume c0 p = (c0', Ok tt) & near P0 c1' c0'.
Proof.
case=> xs [-> H1 H2 H3]; rewrite /consume /=; case: (lindex _ _) => // k.
case Ep: (lpop _ _) => [ps|] //; case Ex: (lpop _ _) => [ys|] // [<-].
have [Hp S1] := lpop_size Ep; have [Hk S2] := lpop_size Ex.
have [|t Et S3] := @lpop_ok _ xs k; first by rewrite H1 -H2.
rewrite Et; eexists; first reflexivity.
exists t; split=> //=; try lia; move=> j Hj Hj0.
move: Ep Ex Et; rewrite /lpop Hp Hk H1 -H2 Hk => -[Ep] [Ex] [Et].
move: Hj0; rewrite -Ep -Ex -Et !nth_pop; apply: H3.
by case: ifP; lia.
Qed.

Lemma near_loop P0 ps c1 c0 c1' : near P0 c1 c0 -> loop (@consume C F Fl K) c1 ps = (c1', Ok tt) ->
  exists2 c0', loop (@consume C F Fl K) c0 ps = (c0', Ok tt) & near P0 c1' c0'.
Proof.
elim: ps c1 c0 => [|p ps IH] c1 c0 Hn /=; first by case=> <-; exists c0.
case E: (consume c1 p) => [d [[]|]] //= E'.
by have [d0 -> Hn'] := near_consume Hn E; exact: IH Hn' E'.
Qed.

Lemma near_conn P0 c1 c0 b p c1' bl : near P0 c1 c0 -> ~~ has_char "."%char b ->
  dget (blocks c1) b = Some bl -> connect getp c1 [:: dot b p; p] = (c1', Ok tt) ->
  exists2 c0', connect getp c0 [:: dot b p; p] = (c0', Ok tt) & near P0 c1' c0'.
Proof.
move=> [xs [E00 H1 H2 H3]] Hb Hbl; rewrite /connect; rewrite {}E00 {c0}.
set c0 := with_ports c1 _ _; set q := [:: _; _].
have -> : newports c0 q = newports c1 q by [].
have -> : oldports c0 q = oldports c1 q by [].
case: ifP => // Hs; case: ifP => // Hd.
case Ed: (fwd (dot b p) \in waves c1); last first.
  by move: Hd; rewrite /newports /= Ed /= dot_has.
have Eo : exists l, oldports c1 q = dot b p :: l by rewrite /oldports /= Ed; eexists.
have [l ->] := Eo.
set r := loop _ c1 _; case Er: r => [d1 [[]|]] //; cbn [fst snd].
have [d0 E0 Hn] : exists2 d0, loop (fun c p0 => connect_new getp c (dot b p :: l) p0) c0 (newports c1 q) = (d0, Ok tt) & near P0 d1 d0.
  move: Er; rewrite /r /newports /= Ed /=; case: ifP => _ /=; last by case=> <-; exists c0 => //; exists xs.
  rewrite /connect_new /getpos_flat.
  have Hg c : blocks c = blocks c1 -> getpos_fuel (String.length (dot b p)) c (dot b p) = getpos_fuel (String.length (dot b p)) c1 (dot b p).
    have Esp : split_dot (dot b p) = Some (b, p) by exact: split_dot_dot.
    move=> Ebl; have -> : getpos_fuel (String.length (dot b p)) c (dot b p) =
       match split_dot (dot b p) with None => Raise ValueError | Some (blk, rest) =>
        if dget (blocks c) blk is Some b0 then
      do k <- (match lindex (bports b0) rest with
               | Ok k => Ok k
               | Raise _ => if oports (bobj b0) is Some ps then lindex ps rest
                            else Raise AttributeError end);
      if oxpos (bobj b0) is Some xs then
        if (k < size xs)%N then Ok (bxpos b0 + nth 0 xs k) else Raise IndexError
      else Raise AttributeError
    else Raise ValueError end.
      by case: (String.length _) => [|n]; rewrite /= Esp Ebl Hbl.
    by case: (String.length _) => [|n]; rewrite /= Esp Ebl Hbl.
  rewrite !(Hg (with_ports _ _ _)) //; case: (getpos_fuel _ _ _) => //= x [<-].
  eexists; first reflexivity.
  exists (xs ++ [:: x]); split=> //=; rewrite ?size_cat /= ?H1 ?H2 //.
  move=> k; rewrite addn1 ltnS leq_eqVlt => /orP[/eqP ->|Hk]; first by rewrite !nth_cat H1 H2 ltnn subnn.
  by rewrite !nth_cat Hk H1 H2 Hk; exact: H3.
rewrite E0; move: (newports c1 q) {Er Eo Hs Hd E0} => nw; clear r; clearbody q; cbn [fst snd].
have -> : waves d0 = waves d1 by have [xs' [-> _ _ _]] := Hn.
case: (mapM _ q) => // iAs; case: (mapM _ q) => // iBs.
set l' := filter _ _; case El: (loop _ d1 l') => [e1 [[]|]] //= [<-].
have [e0 -> Hn'] := near_loop Hn El; rewrite /=.
have [ys [Ee0 Y1 Y2 Y3]] := Hn'; rewrite Ee0 /=.
by eexists; [reflexivity|exists ys].
Qed.
End Repos.

(** C25 (deembedding), C27 (port naming). *)
From mathcomp Require Import all_ssreflect all_algebra.
From mathcomp Require Import zify.
From mathcomp.algebra_tactics Require Import ring.
From Coq Require Import String Ascii Permutation DecimalString DecimalNat.
From Coq Require List.
From Verif Require Import Base MxLib ConvModel ConvSpec ConvProofs ConvArr CircModel CircSpec CircLib CircInv CircTerm CircApp CircConn CircAdd CircDe CircFill CircSolve CircExt CircHist CircGet CircMain CircOrd CircThm CircThm2 CircThm3 CircThm4.
Set Implicit Arguments.
Unset Strict Implicit.
Unset Printing Implicit Defensive.
Import GRing.Theory Num.Theory.
Local Open Scope ring_scope.
Local Open Scope seq_scope.

Section Thm5.
Variable C : numClosedFieldType.
Variables F Fl : eqType.
Variable K : vcls C F Fl.
Variable nan : C.
Variable getpos : circ K -> string -> res C.
Notation circ := (circ K).
Notation net := (net K).
Notation op := (op K).
Notation reach := (reach nan getpos).
Implicit Types (c : circ) (N : net) (h : seq (event K)).

(** ** C25 *)
(** the voltages v with the one of port k replaced by x *)
Definition vi_set (v : nat -> C) (k : nat) (x : C) : nat -> C := fun j => if j == k then x else v j.

(** The multiport O with the two-port D attached to its port k: D's first port is
    joined with port k of O (opposite currents), D's second port is the new port k *)
Definition embedded (O : (nat -> C) -> (nat -> C) -> Prop) (D : C -> C -> C -> C -> Prop) (k : nat)
    (v i : nat -> C) : Prop :=
  exists x y, O (vi_set v k x) (vi_set i k y) /\ D x (- y) (v k) (i k).

Lemma thm_C25 z ns h c f z' fl c' S nE nD oE oD paE paD xE xD (psE : seq string) q d1 d2 p
    (O : (nat -> C) -> (nat -> C) -> Prop) (D : C -> C -> C -> C -> Prop) :
  build_only h = [:: OAdd nE oE paE xE; OAdd nD oD paD xD;
                     ODeembed K [:: (dot nD d1, p)] [:: (dot nE q, dot nD d2)]] ->
  resolve_ports (osize oE) (oports oE) paE = Ok psE ->
  resolve_ports (osize oD) (oports oD) paD = Ok [:: d1; d2] ->
  q \in psE -> nE != nD ->
  let k := seq.index q psE in
  (forall v i v' i', (forall j, (j < size psE)%N -> v j = v' j /\ i j = i' j) -> O v i -> O v' i') ->
  (forall v i, oden oD f fl v i <-> D (v 0%N) (i 0%N) (v 1%N) (i 1%N)) ->
  (forall v i, oden oE f fl v i <-> embedded O D k v i) ->
  (forall x1 y1 x1' y1' x2 y2, D x1 y1 x2 y2 -> D x1' y1' x2 y2 -> x1 = x1' /\ y1 = y1') ->
  (forall x1 y1, exists x2 y2, D x1 y1 x2 y2) ->
  reach z ns h c -> may_ask h f fl -> get1S f z' [::] fl c = (c', Ok S) ->
  let port j := if j == k then p else dot nE (nth "" psE j) in
  ports c' =i [seq port j | j <- iota 0 (size psE)] /\
  forall v i : asg C,
    rel_S (zreq z' z) (size (ports c')) S (fun j => v (nth "" (ports c') j)) (fun j => i (nth "" (ports c') j)) <->
    O (fun j => v (port j)) (fun j => i (port j)).
Proof.
move=> Eb RE RD Hq Hne k Oext HD HE Dinj Dsur Hr Hm G port.
have HC := reach_CI Hr; have HI := ci_inv HC.
have [[_ HS] _] := thm_C12 Hr Hm G.
have [D' Hp' _ _] := get1S_CI HC Hm G; have HI' := ci_inv D'.
set N := net_hist h in HC HI HS D' HI' *.
have EN : N = Net [:: (nE, (psE, oE)); (nD, ([:: d1; d2], oD))] [::] [::]
                  [:: (dot nD d1, p)] [:: (dot nE q, dot nD d2)].
  by rewrite /N net_build Eb /net_of /= RE /= eq_sym (negbTE Hne) /= RD.
have Enodes : nodes N = [seq dot nE r | r <- psE] ++ [:: dot nD d1; dot nD d2] ++ [:: p].
  by rewrite EN /nodes /= -!catA.
have Hun := v_un HI; rewrite Enodes in Hun.
move: Hun; rewrite cat_uniq => /and3P[HuE /hasPn HdE HuD].
have Hinj r : dot nE r \in [seq dot nE r | r <- psE] = (r \in psE).
  by apply/mapP/idP => [[r' Hr' /dot_inj ->]|H] //; exists r.
have Hps : uniq psE by move: HuE; rewrite map_inj_uniq // => a b /dot_inj.
have NE1 r : r \in psE -> dot nE r != dot nD d1.
  move=> H; apply/eqP => E; have := HdE (dot nD d1); rewrite !inE eqxx -E Hinj H => /(_ isT) //.
have NE2 r : r \in psE -> dot nE r != dot nD d2.
  move=> H; apply/eqP => E; have := HdE (dot nD d2); rewrite !inE eqxx orbT -E Hinj H => /(_ isT) //.
have NE3 r : r \in psE -> dot nE r != p.
  move=> H; apply/eqP => E; have := HdE p; rewrite !inE eqxx !orbT -E Hinj H => /(_ isT) //.
have [ND1 ND2 ND3] : [/\ dot nD d1 != dot nD d2, dot nD d1 != p & dot nD d2 != p].
  by move: HuD; rewrite /= !inE !negb_or => /and3P[/andP[-> ->] -> _].
have Hk : (k < size psE)%N by rewrite index_mem.
have Hqk : nth "" psE k = q by rewrite nth_index.
have Hfree s : free N s = (s == p) || (s \in [seq dot nE r | r <- psE & r != q]).
  rewrite /free Enodes EN /used /= !mem_cat !inE.
  have -> : (s \in [seq dot nE r | r <- psE & r != q]) = (s \in [seq dot nE r | r <- psE]) && (s != dot nE q).
    apply/mapP/andP => [[r]|[/mapP [r Hr' ->] Hs]].
      rewrite mem_filter => /andP[Hrq Hr'] ->; rewrite Hinj Hr'; split=> //.
      by apply: contra Hrq => /eqP /dot_inj ->.
    exists r => //; rewrite mem_filter Hr' andbT; apply: contra Hs => /eqP ->; by [].
  case: (s =P p) => [->|Hsp] /=.
    rewrite orbT !negb_or /= (eq_sym p) ND2 (eq_sym p) (NE3 q Hq) (eq_sym p) ND3 //.
    by rewrite !orbT.
  have [Hs|Hs] : s \in [seq dot nE r | r <- psE] \/ (s \in [seq dot nE r | r <- psE]) = false by case: (_ \in _); auto.
    rewrite Hs /=; case/mapP: Hs => r Hr' ->; rewrite !negb_or (NE1 r Hr') (NE2 r Hr') andbT //.
  rewrite Hs /=; case: (s =P dot nD d1) => [_|_] //=; case: (s =P dot nD d2) => [_|_] //=.
  by rewrite orbT.
have Hport : ports c' =i [seq port j | j <- iota 0 (size psE)].
  move=> s; rewrite Hp' (v_fp HI) Hfree.
  have Hpj r : r \in psE -> r != q -> port (seq.index r psE) = dot nE r.
    move=> Hr' Hrq; rewrite /port; case: eqP => [E|_]; last by rewrite nth_index.
    by move: Hrq; rewrite -(nth_index "" Hr') E Hqk eqxx.
  apply/orP/mapP => [[/eqP ->|/mapP [r]]|[j]].
  - by exists k; rewrite ?mem_iota // /port eqxx.
  - rewrite mem_filter => /andP[Hrq Hr'] ->; exists (seq.index r psE); last by rewrite Hpj.
    by rewrite mem_iota /= add0n index_mem.
  - rewrite mem_iota /= add0n => Hj; rewrite /port; case: (j =P k) => [_ ->|Hjk ->]; [by left|right].
    apply/mapP; exists (nth "" psE j) => //; rewrite mem_filter mem_nth // andbT.
    by apply/eqP => E; apply: Hjk; rewrite /k -E index_uniq.
split=> // v i; rewrite HS.
have Hin s : s \in [seq port j | j <- iota 0 (size psE)] -> exists2 j, (j < size (ports c'))%N & s = nth "" (ports c') j.
  rewrite -Hport => Hs; exists (seq.index s (ports c')); first by rewrite index_mem.
  by rewrite nth_index.
have Hportin j : (j < size psE)%N -> port j \in [seq port j | j <- iota 0 (size psE)].
  by move=> Hj; apply: map_f; rewrite mem_iota.
split.
- case=> v' [i' [Hsat Heq]].
  have Heq' j : (j < size psE)%N -> v' (port j) = v (port j) /\ i' (port j) = i (port j).
    by move=> /Hportin /Hin [l Hl ->]; exact: Heq.
  move: Hsat; rewrite EN => -[HB _ _ Hdi Hde].
  have [HBE HBD] : block_law f fl v' i' (nE, (psE, oE)) /\ block_law f fl v' i' (nD, ([:: d1; d2], oD)).
    by inversion HB as [|? ? A1 A2]; inversion A2.
  have [E1 E2] : di_law v' i' (dot nD d1, p) by inversion Hdi.
  have [E3 E4] : de_law v' i' (dot nE q, dot nD d2) by inversion Hde.
  rewrite /= in E1 E2 E3 E4.
  move: HBE; rewrite /block_law /= => /HE [x [y []]]; rewrite Hqk E3 E4 => HO HD1.
  move: HBD; rewrite /block_law /= => /HD /= HD2.
  have [Ex Ey] := Dinj _ _ _ _ _ _ HD1 HD2.
  have [Hk1 Hk2] := Heq' k Hk; rewrite /port eqxx in Hk1 Hk2.
  apply: Oext HO => j Hj; have [Hj1 Hj2] := Heq' j Hj.
  rewrite /vi_set /port; case: (j =P k) => [Ej|Hjk].
    by rewrite Ex E1 Hk1; split=> //; rewrite -[y]opprK Ey E2 opprK Hk2.
  by move: Hj1 Hj2; rewrite /port; case: eqP.
- move=> HO.
  have [x2 [y2 HD2]] := Dsur (v p) (- i p).
  pose v' s := if (s == dot nE q) || (s == dot nD d2) then x2 else if s == dot nD d1 then v p else v s.
  pose i' s := if (s == dot nE q) || (s == dot nD d2) then y2 else if s == dot nD d1 then - i p else i s.
  have Ep : v' p = v p /\ i' p = i p.
    by rewrite /v' /i' !(eq_sym p) (negbTE (NE3 q Hq)) (negbTE ND3) (negbTE ND2).
  have Er r : r \in psE -> r != q -> v' (dot nE r) = v (dot nE r) /\ i' (dot nE r) = i (dot nE r).
    move=> Hr' Hrq; rewrite /v' /i' (negbTE (NE1 r Hr')) (negbTE (NE2 r Hr')).
    by have -> : (dot nE r == dot nE q) = false by apply/negbTE; apply: contra Hrq => /eqP /dot_inj ->.
  have Eq : v' (dot nE q) = x2 /\ i' (dot nE q) = y2 by rewrite /v' /i' eqxx.
  have E2 : v' (dot nD d2) = x2 /\ i' (dot nD d2) = y2 by rewrite /v' /i' eqxx orbT.
  have E1 : v' (dot nD d1) = v p /\ i' (dot nD d1) = - i p.
    by rewrite /v' /i' eqxx (eq_sym _ (dot nE q)) (negbTE (NE1 q Hq)) (negbTE ND1).
  exists v', i'; split.
    rewrite EN; split=> //=.
    + constructor; last constructor=> //.
        rewrite /block_law /=; apply/HE; exists (v p), (i p); rewrite Hqk.
        have [-> ->] := Eq; split=> //.
        apply: Oext HO => j Hj; rewrite /vi_set /port; case: (j =P k) => [//|Hjk].
        have [|-> ->] := Er (nth "" psE j) (mem_nth _ Hj) => //.
        by apply/eqP => E; apply: Hjk; rewrite /k -E index_uniq.
      rewrite /block_law /=; apply/HD => /=.
      by have [-> ->] := E1; have [-> ->] := E2.
    + constructor=> //; rewrite /di_law /=.
      by have [-> ->] := E1; have [-> ->] := Ep.
    + constructor=> //; rewrite /de_law /=.
      by have [-> ->] := Eq; have [-> ->] := E2.
  move=> j Hj; have : nth "" (ports c') j \in ports c' by exact: mem_nth.
  rewrite Hport => /mapP [l]; rewrite mem_iota /= add0n => Hl ->.
  rewrite /port; case: (l =P k) => [//|Hlk].
  apply: Er; first exact: mem_nth.
  by apply/eqP => E; apply: Hlk; rewrite /k -E index_uniq.
Qed.

(** ** C27 *)
Lemma thm_C27_names c nm o pa x c' : addblock nan c nm o pa x = (c', Ok tt) ->
  nm \notin dkeys (blocks c) ->
  exists ops, [/\ resolve_ports (osize o) (oports o) pa = Ok ops, size ops = osize o,
    ports c' = ports c ++ [seq nm +s+ ("." +s+ p) | p <- ops] &
    waves c' = waves c ++ [seq "->" +s+ (nm +s+ ("." +s+ p)) | p <- ops] ++ [seq "<-" +s+ (nm +s+ ("." +s+ p)) | p <- ops]].
Proof.
rewrite /addblock; case: ifP => // _ H /dget_None E; move: H; rewrite [blocks _]/= E.
rewrite /addblock_new; case Er: (resolve_ports _ _ _) => [ops|//] [<-].
by exists ops; split=> //; exact: resolve_size Er.
Qed.
End Thm5.

(** the object's own names by default *)
Lemma resolve_default ps : ps <> [::] -> resolve_ports (size ps) (Some ps) PNone = Ok ps.
Proof.
rewrite /resolve_ports => Hne; have E : subst_dict ps [::] = (ps, [::]).
  by elim: ps {Hne} => //= p ps ->.
by rewrite E /=; case: ps Hne {E} => //= p ps _; rewrite eqxx.
Qed.

Lemma dget_ddel_neq (V : Type) (d : seq (string * V)) p q : q != p -> dget (ddel d p) q = dget d q.
Proof.
move=> Hq; elim: d => //= -[k v] d IH /=; case: (p =P k) => [<-|Hpk] /=; first by rewrite (negbTE Hq).
by rewrite IH.
Qed.

Lemma dkeys_ddel (V : Type) (d : seq (string * V)) p : uniq (dkeys d) ->
  dkeys (ddel d p) = [seq k <- dkeys d | k != p].
Proof.
elim: d => //= -[k v] d IH /= /andP[Hk Hu]; rewrite eq_sym; case: eqP => [E|Hpk] /=; last by rewrite IH.
rewrite -E; rewrite E in Hk *; symmetry; apply/all_filterP/allP => q Hq; apply: contra Hk => /eqP <-.
exact: Hq.
Qed.

Lemma subst_dictE ps (d : seq (string * string)) : uniq ps -> uniq (dkeys d) ->
  (subst_dict ps d).1 = [seq if dget d p is Some q then q else p | p <- ps] /\
  dkeys (subst_dict ps d).2 = [seq k <- dkeys d | k \notin ps].
Proof.
elim: ps d => [|p ps IH] d /=; first by move=> _ _; rewrite filter_predT.
case/andP=> Hp Hu Hd.
have Hd' : uniq (dkeys (ddel d p)) by rewrite dkeys_ddel // filter_uniq.
have [-> ->] := IH _ Hu Hd'; split.
  congr cons; apply/eq_in_map => q Hq; rewrite dget_ddel_neq //.
  by apply: contra Hp => /eqP <-.
rewrite dkeys_ddel // -filter_predI; apply: eq_filter => q /=.
by rewrite in_cons negb_or andbC.
Qed.

(** a renaming *)
Lemma resolve_dict ps d : ps <> [::] -> uniq ps -> uniq (dkeys d) -> {subset dkeys d <= ps} ->
  resolve_ports (size ps) (Some ps) (PDict d) =
  Ok [seq if dget d p is Some q then q else p | p <- ps].
Proof.
move=> Hne Hu Hd Hs; rewrite /resolve_ports.
have [E1 E2] := subst_dictE Hu Hd.
have : dkeys (subst_dict ps d).2 = [::].
  rewrite E2; apply/eqP; rewrite -(negbK (_ == _)) -has_filter; apply/hasPn => k Hk; by rewrite Hs.
case: (subst_dict ps d) E1 {E2} => names [|//] /= -> _.
case: ps Hne {Hu Hs} => //= p ps _; by rewrite size_map eqxx.
Qed.

Lemma resolve_dict_bad ps n d k : uniq ps -> uniq (dkeys d) -> k \in dkeys d -> k \notin ps ->
  resolve_ports n (Some ps) (PDict d) = Raise ValueError.
Proof.
move=> Hu Hd Hk Hn; rewrite /resolve_ports.
have [_ E2] := subst_dictE Hu Hd.
have : k \in dkeys (subst_dict ps d).2 by rewrite E2 mem_filter Hn.
by case: (subst_dict ps d) => names [|x l].
Qed.

(** the caller's dictionary is emptied *)
Lemma dict_emptied ps n d ops : resolve_ports n (Some ps) (PDict d) = Ok ops ->
  portarg_after (Some ps) (PDict d) = PDict [::].
Proof.
rewrite /resolve_ports /portarg_after; by case: (subst_dict ps d) => names [|//].
Qed.

(** an explicit list *)
Lemma resolve_list n ops l : resolve_ports n ops (PList l) = if size l == n then Ok l else Raise ValueError.
Proof. by rewrite /resolve_ports; case: ops. Qed.

(** no names known: the port numbers from 1 *)
Lemma fmt_d k : pyfmt "%d" k = Ok (dec k).
Proof. by rewrite /pyfmt /=; congr Ok; elim: (dec k) => //= c s ->. Qed.

Lemma mapM_total (A B : Type) (f : A -> res B) (g : A -> B) s : (forall x, f x = Ok (g x)) ->
  mapM f s = Ok (map g s).
Proof. by move=> H; elim: s => //= x s ->; rewrite H. Qed.

Lemma resolve_numbers n : resolve_ports n None PNone = Ok [seq dec k | k <- iota 1 n].
Proof.
rewrite /resolve_ports /=.
have -> : mapM (pyfmt "%d") (iota 1 n) = Ok [seq dec k | k <- iota 1 n].
  exact: mapM_total fmt_d.
by rewrite /= size_map size_iota eqxx.
Qed.

Lemma dec_inj : injective dec.
Proof.
move=> a b H; apply: DecimalNat.Unsigned.to_uint_inj.
have : NilEmpty.uint_of_string (dec a) = NilEmpty.uint_of_string (dec b) by rewrite H.
by rewrite /dec !NilEmpty.usu => -[].
Qed.

Lemma numbers_uniq n : uniq [seq dec k | k <- iota 1 n].
Proof. by rewrite (map_inj_uniq dec_inj) iota_uniq. Qed.

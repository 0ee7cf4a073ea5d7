(** Lemmas on the model of TLresolver: the table it makes is a solved, ordered system. *)
From mathcomp Require Import all_ssreflect all_algebra.
From Coq Require Import String.
From Verif Require Import Base ConvModel TlModel.
Set Implicit Arguments.
Unset Strict Implicit.
Unset Printing Implicit Defensive.
Import Order.TTheory GRing.Theory Num.Theory.
Local Open Scope string_scope.
Local Open Scope ring_scope.
Local Open Scope seq_scope.

Section Tl.
Variable C : numClosedFieldType.
Variables log exp pow10 : C -> C.
Variables pi c0 mu0 e0 eta0coax : C.
Variable Zbase : C.
Variable forget : seq (seq string * string).
Variable fcheck : C.
Notation EQNS := (EQNS log exp pow10 pi c0 mu0 e0 eta0coax Zbase).
Notation eval := (eval log exp pow10 pi c0 mu0 e0 eta0coax Zbase).
Notation depth := (depth log exp pow10 pi c0 mu0 e0 eta0coax Zbase).
Notation value := (value log exp pow10 pi c0 mu0 e0 eta0coax Zbase).
Notation scan := (scan log exp pow10 pi c0 mu0 e0 eta0coax Zbase forget fcheck).
Notation loop := (loop log exp pow10 pi c0 mu0 e0 eta0coax Zbase forget fcheck).
Notation TLresolver := (TLresolver log exp pow10 pi c0 mu0 e0 eta0coax Zbase forget fcheck).
Notation eqn := (eqn C).
Notation eqn0 := (eqn0 C).
Notation table := (table C).
Notation sv := (sv C).

(** what the formula of an equation reads *)
Definition reads (k : nat) : seq string :=
  if k == 21%N then [:: "qTLO"; "RsI"] else e_deps (nth eqn0 EQNS k).

Lemma e_fun_ext k g g' w : (k < 49)%N -> {in reads k, g =1 g'} ->
  e_fun (nth eqn0 EQNS k) g w = e_fun (nth eqn0 EQNS k) g' w.
Proof.
do 49!(case: k => [|k]; first by
  rewrite /reads /= /f0_ /f1 /f2 /f3 /f4 => _ H; rewrite ?H ?inE ?eqxx ?orbT).
by [].
Qed.

Definition wf (tb : table) : Prop :=
  forall kw k, dget tb kw = Some (Computed _ k) ->
    [/\ (k < 49)%N, e_kw (nth eqn0 EQNS k) = kw
      & {in e_deps (nth eqn0 EQNS k), forall d,
           (seq.index d (dkeys tb) < seq.index kw (dkeys tb))%N}].

Lemma dget_keys (tb : table) kw s : dget tb kw = Some s -> kw \in dkeys tb.
Proof. by move=> E; rewrite -dhasE /dhas E. Qed.
Lemma keys_dget (tb : table) kw : kw \in dkeys tb -> exists s, dget tb kw = Some s.
Proof. by rewrite -dhasE /dhas; case: dget => // s _; exists s. Qed.
Lemma dget_nkeys (tb : table) kw : kw \notin dkeys tb -> dget tb kw = None.
Proof. by rewrite -dhasE /dhas; case: dget. Qed.

(** rhoI is never computed; murI only as a constant; RsI only from rhoI and murI *)
Lemma wf_rhoI tb s : wf tb -> dget tb "rhoI" = Some s -> exists f, s = Given f.
Proof.
move=> W; case: s => [f|k] E; first by exists f.
have [H K _] := W _ _ E; move: H K; clear.
by do 49!(case: k => [|k] //).
Qed.
Lemma wf_murI tb k : wf tb -> dget tb "murI" = Some (Computed _ k) -> k = 0%N.
Proof.
move=> W E; have [H K _] := W _ _ E; move: H K; clear.
by do 49!(case: k => [|k] //).
Qed.
Lemma wf_RsI tb k : wf tb -> dget tb "RsI" = Some (Computed _ k) -> k = 24%N.
Proof.
move=> W E; have [H K _] := W _ _ E; move: H K; clear.
by do 49!(case: k => [|k] //).
Qed.
Lemma idx_keys (tb : table) d kw : kw \in dkeys tb ->
  (seq.index d (dkeys tb) < seq.index kw (dkeys tb))%N -> d \in dkeys tb.
Proof. by move=> H L; rewrite -index_mem (ltn_trans L) // index_mem. Qed.

Lemma eval_RsI tb w x n m : wf tb -> (3 <= n)%N -> (3 <= m)%N ->
  eval n tb w x "RsI" = eval m tb w x "RsI".
Proof.
move=> W; case: n => [|[|[|n]]] // _; case: m => [|[|[|m]]] // _.
rewrite [LHS]/= [RHS]/=; case E: dget => [[f|k]|] //.
have Ek := wf_RsI W E; subst k.
have [_ _ D] := W _ _ E.
have K := dget_keys E.
have /keys_dget [s1 H1] := idx_keys K (D "rhoI" isT).
have /keys_dget [s2 H2] := idx_keys K (D "murI" isT).
have [f1 E1] := wf_rhoI W H1; subst s1.
apply: e_fun_ext => // a; rewrite /reads /= !inE => /orP [] /eqP -> /=; first by rewrite H1.
rewrite H2; case: s2 H2 => [f2|k2] H2 //.
by rewrite (wf_murI W H2).
Qed.

Lemma eval_stable tb w x : wf tb -> forall i kw n m,
  kw \in dkeys tb -> (seq.index kw (dkeys tb) <= i)%N -> (i + 4 <= n)%N -> (i + 4 <= m)%N ->
  eval n tb w x kw = eval m tb w x kw.
Proof.
move=> W; elim=> [|i IH] kw n m K Hi.
  case: n => [|n] // Hn; case: m => [|m] // Hm.
  rewrite [LHS]/= [RHS]/=; have [s E] := keys_dget K; rewrite E; case: s E => [f|k] E //.
  have [Hk _ D] := W _ _ E.
  have D0 : e_deps (nth eqn0 EQNS k) = [::].
    case: (e_deps _) D => // d l D.
    by have := leq_trans (D d (mem_head _ _)) Hi; rewrite ltn0.
  apply: e_fun_ext => // a; rewrite /reads D0.
  case: ifP => [/eqP E21|//]; by subst k.
case: n => [|n] // Hn; case: m => [|m] // Hm.
rewrite [LHS]/= [RHS]/=; have [s E] := keys_dget K; rewrite E; case: s E => [f|k] E //.
have [Hk _ D] := W _ _ E.
apply: e_fun_ext => // a; rewrite /reads.
case: ifP => [/eqP E21|_] Ha; last first.
  apply: IH; [exact: idx_keys K (D _ Ha) | | |]; try by [].
  by have := leq_trans (D _ Ha) Hi.
subst k; move: Ha; rewrite !inE => /orP [] /eqP ->.
  have Ha : "qTLO" \in e_deps (nth eqn0 EQNS 21) by [].
  apply: IH; [exact: idx_keys K (D _ Ha) | | |]; try by [].
  by have := leq_trans (D _ Ha) Hi.
have X p : (i.+1 + 4 <= p.+1 -> 3 <= p)%N.
  by rewrite addSn ltnS => H; apply: leq_trans H; rewrite addnC.
exact: eval_RsI (X _ Hn) (X _ Hm).
Qed.

(** all the names there are *)
Definition names : seq string := accepted ++ map (@e_kw C) EQNS.
Definition small (tb : table) : Prop := uniq (dkeys tb) /\ {subset dkeys tb <= names}.

Lemma small_size tb : small tb -> (size (dkeys tb) <= 77)%N.
Proof. by case=> U S; have := uniq_leq_size U S. Qed.

Lemma evalS n tb w x kw : eval n.+1 tb w x kw =
  match dget tb kw with
  | None => Raise AttributeError
  | Some (Given f) => f w x
  | Some (Computed k) => e_fun (nth eqn0 EQNS k) (eval n tb w x) w
  end.
Proof. by []. Qed.
Lemma value_computed tb w x kw k : wf tb -> small tb ->
  dget tb kw = Some (Computed _ k) ->
  value tb w x kw = e_fun (nth eqn0 EQNS k) (value tb w x) w.
Proof.
move=> W Sm E; have Sz := small_size Sm.
have [Hk _ D] := W _ _ E; have K := dget_keys E.
rewrite /value; have [n -> Hn] : exists2 n, depth = n.+1 & (81 <= n)%N by exists 88%N.
rewrite evalS E; apply: e_fun_ext => // a Ha.
have Ki d : d \in e_deps (nth eqn0 EQNS k) -> eval n tb w x d = eval n.+1 tb w x d.
  move=> Hd; have Kd := idx_keys K (D _ Hd).
  apply: (@eval_stable tb w x W 77%N) => //; last exact: leqW.
  by apply: leq_trans Sz; rewrite ltnW // index_mem.
move: Ha; rewrite /reads; case: ifP => [/eqP E21|_] Ha; last exact: Ki.
subst k; move: Ha; rewrite !inE => /orP [] /eqP ->; first exact: Ki.
by apply: eval_RsI => //; [apply: leq_trans Hn | apply: leqW; apply: leq_trans Hn].
Qed.
Lemma value_given tb w x kw f : dget tb kw = Some (Given f) -> value tb w x kw = f w x.
Proof. move=> E; rewrite /value; have [n -> _] : exists2 n, depth = n.+1 & (81 <= n)%N by exists 88%N.
by rewrite evalS E. Qed.
Lemma value_none tb w x kw : kw \notin dkeys tb -> value tb w x kw = Raise AttributeError.
Proof. move=> /dget_nkeys E; rewrite /value; have [n -> _] : exists2 n, depth = n.+1 & (81 <= n)%N by exists 88%N.
by rewrite evalS E. Qed.

(** * the loop *)
Lemma scan_some st k es j e : scan st k es = Ok (Some (j, e)) ->
  exists i, [/\ (i < size es)%N, j = (k + i)%N, e = nth eqn0 es i,
                e_kw e \notin dkeys (v_tab st) & known (v_tab st) (e_deps e)].
Proof.
elim: es k => [|e' es IH] k //=.
have L k' : scan st k'.+1 es = Ok (Some (j, e)) -> exists i,
   [/\ (i < (size es).+1)%N, j = (k' + i)%N, e = nth eqn0 (e' :: es) i,
                e_kw e \notin dkeys (v_tab st) & known (v_tab st) (e_deps e)].
  by case/IH => i [H1 H2 H3 H4 H5]; exists i.+1; split=> //; rewrite addnS -addSn.
case: (_ || _); first exact: L.
case H: (_ && _).
  by case=> <- <-; exists 0%N; case/andP: H => ? ?; rewrite addn0.
case: (_ && _); last exact: L.
by case: (value _ _ _ _) => //= _; case: (e_fun _ _ _) => //= _; exact: L.
Qed.
(** the equations before the one chosen, or all if none is, cannot be used *)
Lemma scan_skipped st k es r : scan st k es = Ok r ->
  forall i, (i < if r is Some (j, _) then j - k else size es)%N ->
    let e := nth eqn0 es i in
    [\/ has (fun u => perm_eq u (sig e)) (v_used st), forgotten forget e,
        e_kw e \in dkeys (v_tab st) | ~~ known (v_tab st) (e_deps e)].
Proof.
elim: es k r => [|e' es IH] k r /=; first by move=> [<-].
have L : scan st k.+1 es = Ok r ->
   [\/ has (fun u => perm_eq u (sig e')) (v_used st), forgotten forget e',
        e_kw e' \in dkeys (v_tab st) | ~~ known (v_tab st) (e_deps e')] ->
   forall i, (i < if r is Some (j, _) then j - k else (size es).+1)%N ->
   let e := nth eqn0 (e' :: es) i in
   [\/ has (fun u => perm_eq u (sig e)) (v_used st), forgotten forget e,
        e_kw e \in dkeys (v_tab st) | ~~ known (v_tab st) (e_deps e)].
  move=> H1 H2 [|i] Hi /=; first exact: H2.
  apply: (IH _ _ H1); move: Hi; case: (r) H1 => [[j e]|] H1 //.
  by move/ltn_predRL: (j) => _; rewrite subnS; case: (j - k)%N.
case: ifP => [/orP [] H|_] E.
- by apply: L => //; constructor 1.
- by apply: L => //; constructor 2.
move: E; case: ifP => [|H]; first by move=> _ [<-] i /=; rewrite subnn.
move/negbT: H; rewrite negb_and negbK => H.
have HH : [\/ has (fun u => perm_eq u (sig e')) (v_used st), forgotten forget e',
        e_kw e' \in dkeys (v_tab st) | ~~ known (v_tab st) (e_deps e')].
  by case/orP: H => H; [constructor 3 | constructor 4].
case: (_ && _); last by move=> E; apply: L.
by case: (value _ _ _ _) => //= _; case: (e_fun _ _ _) => //= _ E; apply: L.
Qed.

Definition inv (st : sv) : Prop :=
  [/\ wf (v_tab st), small (v_tab st)
    & {in v_used st, forall u, {subset u <= dkeys (v_tab st)}}].

Lemma use_dget (st : sv) j e kw : dget (v_tab (use st (j, e))) kw =
  if kw == e_kw e then Some (Computed _ j) else dget (v_tab st) kw.
Proof. by rewrite /use /= dget_dset. Qed.
Lemma use_keys (st : sv) j e : e_kw e \notin dkeys (v_tab st) ->
  dkeys (v_tab (use st (j, e))) = rcons (dkeys (v_tab st)) (e_kw e).
Proof. by move=> H; rewrite /use /= dkeys_dset (negbTE H). Qed.

Lemma idx_rcons (s : seq string) a b : a \in s -> seq.index a (rcons s b) = seq.index a s.
Proof. by move=> H; rewrite -cats1 index_cat H. Qed.

Lemma use_inv st j : (j < 49)%N -> let e := nth eqn0 EQNS j in
  e_kw e \notin dkeys (v_tab st) -> known (v_tab st) (e_deps e) -> inv st -> inv (use st (j, e)).
Proof.
move=> Hj e N K [W [U S] Us].
have Ek := use_keys j N.
split.
- move=> kw k; rewrite use_dget; case: eqP => [-> [<-]|_ E].
    split=> // d Hd; have Kd : d \in dkeys (v_tab st) by apply: (allP K).
    rewrite Ek idx_rcons // -cats1 index_cat (negbTE N) /= eqxx addn0.
    by rewrite index_mem.
  have [H1 H2 H3] := W _ _ E; split=> // d Hd; have := H3 _ Hd.
  have Kk := dget_keys E; move=> L; have Kd := idx_keys Kk L.
  by rewrite Ek !idx_rcons.
- split; first by rewrite Ek rcons_uniq N U.
  move=> a; rewrite Ek mem_rcons inE => /orP [/eqP ->|/S //].
  by rewrite /names mem_cat; apply/orP; right; rewrite /e -(@nth_map _ eqn0 _ ""%string) //; apply: mem_nth.
- move=> u; rewrite /use [v_used _]/= inE => /orP [/eqP -> a|Hu a Ha].
    rewrite Ek /sig !mem_rcons !inE => /orP [->//|Ha].
    by rewrite (allP K _ Ha) orbT.
  by rewrite Ek mem_rcons inE (Us _ Hu _ Ha) orbT.
Qed.

Lemma loopE n st : loop n st =
  if avail (v_tab st) [:: "Zc"] && avail (v_tab st) [:: "gamma"] then Some (Ok st)
  else match scan st 0 EQNS with
       | Raise e => Some (Raise e)
       | Ok None => Some (Ok st)
       | Ok (Some ke) => if n is n'.+1 then loop n' (use st ke) else None
       end.
Proof. by case: n. Qed.
Arguments TlModel.scan : simpl never.
(** induction over the turns of the loop *)
Lemma loop_ind (P : sv -> Prop) :
  (forall st j, P st -> inv st -> scan st 0 EQNS = Ok (Some (j, nth eqn0 EQNS j)) ->
     (j < 49)%N -> P (use st (j, nth eqn0 EQNS j))) ->
  forall n st st', P st -> inv st -> loop n st = Some (Ok st') ->
  [/\ P st', inv st' & (avail (v_tab st') [:: "Zc"] && avail (v_tab st') [:: "gamma"])
                       \/ scan st' 0 EQNS = Ok None].
Proof.
move=> H; elim=> [|n IH] st st' Pst I; rewrite loopE.
  case: ifP => [A [<-]|_]; first by split=> //; left.
  by case E: scan => [[[j e]|]|] //= [<-]; split=> //; right.
case: ifP => [A [<-]|_]; first by split=> //; left.
case E: scan => [[[j e]|]|] //=; last by move=> [<-]; split=> //; right.
have [i [H1 H2 H3 H4 H5]] := scan_some E; move: H2; rewrite add0n => H2; subst i e.
by apply: IH; [apply: H | apply: use_inv].
Qed.

Definition left (st : sv) : nat :=
  count (fun e : eqn => e_kw e \notin dkeys (v_tab st)) EQNS.
Lemma count_left (s : seq eqn) (ks : seq string) j : (j < size s)%N ->
  e_kw (nth eqn0 s j) \notin ks ->
  (count (fun e : eqn => e_kw e \notin rcons ks (e_kw (nth eqn0 s j))) s
   < count (fun e : eqn => e_kw e \notin ks) s)%N.
Proof.
have L k t : (count (fun e : eqn => e_kw e \notin rcons ks k) t
  <= count (fun e : eqn => e_kw e \notin ks) t)%N.
  by apply: sub_count => e; rewrite mem_rcons inE negb_or => /andP [].
elim: s j => [|e s IH] [|j] //= H N.
  by rewrite N mem_rcons mem_head add0n add1n ltnS L.
rewrite -addnS; apply: leq_add; last exact: IH.
by rewrite mem_rcons inE negb_or; case: (_ \notin ks); rewrite ?andbF ?leq_b1.
Qed.
Lemma left_use st j : (j < 49)%N -> e_kw (nth eqn0 EQNS j) \notin dkeys (v_tab st) ->
  (left (use st (j, nth eqn0 EQNS j)) < left st)%N.
Proof. by move=> Hj N; rewrite /left (use_keys j N); apply: count_left. Qed.
Lemma loop_total n st : (left st <= n)%N -> loop n st <> None.
Proof.
elim: n st => [|n IH] st H; rewrite loopE.
  case: ifP => // _; case E: scan => [[[j e]|]|] //.
  have [i [H1 H2 H3 H4 H5]] := scan_some E; move: H2; rewrite add0n => H2; subst i e.
  by have := leq_trans (left_use H1 H4) H.
case: ifP => // _; case E: scan => [[[j e]|]|] //.
have [i [H1 H2 H3 H4 H5]] := scan_some E; move: H2; rewrite add0n => H2; subst i e.
by apply: IH; have := leq_trans (left_use H1 H4) H.
Qed.
Lemma loop_mono n m st r : (n <= m)%N -> loop n st = Some r -> loop m st = Some r.
Proof.
elim: n m st => [|n IH] m st.
  by move=> _; rewrite loopE [X in _ -> X = _]loopE; case: ifP => // _; case: scan => [[ke|]|].
case: m => [|m] //; rewrite ltnS => H; rewrite loopE [X in _ -> X = _]loopE.
case: ifP => // _; case: scan => [[ke|]|] //; exact: IH.
Qed.
Lemma loop_dget n st st' kw s : loop n st = Some (Ok st') -> dget (v_tab st) kw = Some s ->
  dget (v_tab st') kw = Some s.
Proof.
elim: n st => [|n IH] st; rewrite loopE; case: ifP => [_ [<-]//|_];
  case E: scan => [[[j e]|]|] //.
- by move=> [<-].
- have [i [H1 H2 H3 H4 H5]] := scan_some E.
  move=> H D; apply: IH H _; rewrite use_dget; case: eqP => // X.
  by case/negP: H4; rewrite -X; apply: dget_keys D.
- by move=> [<-].
Qed.

(** * the inputs *)
Lemma inputs_spec (tb : table) (kws : seq (string * (C -> C -> res C))) (tb' : table) : inputs tb kws = Ok tb' -> uniq (map fst kws) ->
  [/\ {subset map fst kws <= accepted},
      (forall kw, dget tb' kw =
         if dget kws kw is Some f then Some (Given f) else dget tb kw),
      (uniq (dkeys tb) -> uniq (dkeys tb'))
    & (forall kw, (kw \in dkeys tb') = (kw \in dkeys tb) || (kw \in map fst kws))].
Proof.
elim: kws tb => [|[k f] kws IH] tb /=; first by move=> [<-] _; split=> // kw; rewrite orbF.
case: ifP => // Hk /IH {}IH /andP [N U]; have [H1 H2 H3 H4] := IH U.
split.
- by move=> a; rewrite inE => /orP [/eqP -> //|/H1].
- move=> kw; rewrite H2 dget_dset; case: eqP => // ->.
  have -> // : dget kws k = None.
  have := dhasE kws k; rewrite /dhas /dkeys (negbTE N); by case: dget.
- move=> U'; apply: H3; rewrite dkeys_dset; case: ifP => // H; by rewrite rcons_uniq H.
- move=> kw; rewrite H4 dkeys_dset inE; case: ifP => H.
    case: (kw =P k) => [->|_]; last by rewrite orFb.
    by rewrite H.
  rewrite mem_rcons inE; by case: (kw == k) => //=; rewrite ?orbT.
Qed.
Lemma inputs_raise (tb : table) (kws : seq (string * (C -> C -> res C))) e : inputs tb kws = Raise e -> e = ValueError.
Proof. by elim: kws tb => [|[k f] kws IH] tb //=; case: ifP => _; [apply: IH | move=> [<-]]. Qed.
Lemma inputs_ok (tb : table) (kws : seq (string * (C -> C -> res C))) : (exists tb', inputs tb kws = Ok tb') <-> {subset map fst kws <= accepted}.
Proof.
elim: kws tb => [|[k f] kws IH] tb /=; first by split=> // _; exists tb.
case: ifP => H; split.
- by move/IH => S a; rewrite inE => /orP [/eqP ->|/S].
- by move=> S; apply/IH => a Ha; apply: S; rewrite inE Ha orbT.
- by case.
- by move=> S; have := S k; rewrite mem_head H => /(_ isT).
Qed.

Lemma avail_missing0 (tb : table) : {subset dkeys tb <= accepted} -> uniq (dkeys tb) ->
  (forall kw k, dget tb kw <> Some (Computed _ k)) ->
  let tb' := missing tb in
  [/\ {subset dkeys tb' <= accepted}, uniq (dkeys tb'),
      (forall kw k, dget tb' kw <> Some (Computed _ k)),
      {subset dkeys tb <= dkeys tb'}
    & (forall kw, kw \in dkeys tb -> kw != "gTL" -> dget tb' kw = dget tb kw)].
Proof.
pose Q (tb tb' : table) := [/\ {subset dkeys tb' <= accepted}, uniq (dkeys tb'),
      (forall kw k, dget tb' kw <> Some (Computed _ k)),
      {subset dkeys tb <= dkeys tb'}
    & (forall kw, kw \in dkeys tb -> kw != "gTL" -> dget tb' kw = dget tb kw)].
have Qset t t' k (f : C -> C -> res C) : Q t t' -> k \in accepted ->
    (k \notin dkeys t) || (k == "gTL") -> Q t (dset t' k (Given f)).
  case=> S U G M D A H; split.
  - by move=> a; rewrite dkeys_dset; case: ifP => _; [apply: S|
      rewrite mem_rcons inE => /orP [/eqP ->|/S]].
  - by rewrite dkeys_dset; case: ifP => // E; rewrite rcons_uniq E.
  - by move=> kw k'; rewrite dget_dset; case: eqP => // _.
  - by move=> a /M; rewrite dkeys_dset; case: ifP => _ //; rewrite mem_rcons inE => ->; rewrite orbT.
  - move=> kw K N; rewrite dget_dset; case: eqP => [E|_]; last exact: D.
    by subst k; move: H; rewrite K (negbTE N).
have Nav t ks k : ~~ avail t ks -> k \in ks -> k \notin dkeys (t : table).
  by move=> /hasPn H /H.
move=> S U G tb'; suff : Q tb tb' by [].
have Q0 : Q tb tb by split.
rewrite /tb' /missing.
set t1 := (if ~~ avail tb [:: "A"; "AdB"] then _ else _).
have Q1 : Q tb t1.
  rewrite /t1; case: ifP => _.
    set t2 := (if _ then dset tb "rTL" _ else tb).
    have Q2 : Q tb t2.
      rewrite /t2; case: ifP => [H|_]; last exact: Q0.
      by apply: Qset => //; rewrite (Nav _ _ _ H).
    case: ifP => _ //; by apply: Qset => //; rewrite orbT.
  case: ifP => _ //; by apply: Qset => //; rewrite orbT.
case E: dget => [s|] //; case: ifP => // H.
have [f Es] : exists f, s = Given f.
  by case: s E => [f|k] E; [exists f | case: Q1 => _ _ /(_ _ _ E)].
subst s; case: (Q1) => _ _ _ M _.
have N k : k \in [:: "rhoI"; "rhoO"] -> k \notin dkeys tb.
  by move=> K; apply/negP => /M; apply/negP; apply: Nav H K.
by apply: (Qset) => //; [apply: (Qset) => // | ]; rewrite N.
Qed.

Lemma inv0 kws tb : inputs [::] kws = Ok tb -> uniq (map fst kws) -> inv (Sv (missing tb) [::]).
Proof.
move=> E U; have [H1 H2 H3 H4] := inputs_spec E U.
have S : {subset dkeys tb <= accepted} by move=> a; rewrite H4 => /H1.
have G kw k : dget tb kw <> Some (Computed _ k) by rewrite H2; case: dget.
have [M1 M2 M3 M4 M5] := avail_missing0 S (H3 isT) G.
split=> //=; last by split=> // a /M1 Ha; rewrite /names mem_cat Ha.
by move=> kw k /M3.
Qed.

Lemma TLresolver_inv (P : sv -> Prop) n kws tb : uniq (map fst kws) ->
  (forall tb0, inputs [::] kws = Ok tb0 -> P (Sv (missing tb0) [::])) ->
  (forall st j, P st -> inv st -> scan st 0 EQNS = Ok (Some (j, nth eqn0 EQNS j)) ->
     (j < 49)%N -> P (use st (j, nth eqn0 EQNS j))) ->
  TLresolver n kws = Some (Ok tb) ->
  exists tb0 st, [/\ inputs [::] kws = Ok tb0, tb = v_tab st, P st /\ inv st,
     (forall kw s, dget (missing tb0) kw = Some s -> dget tb kw = Some s)
   & (avail tb [:: "Zc"] && avail tb [:: "gamma"]) \/ scan st 0 EQNS = Ok None].
Proof.
move=> U P0 Pu; rewrite /TLresolver; case E: inputs => [tb0|] //.
case L: loop => [[st|]|] //= [<-].
have [H1 H2 H3] := loop_ind Pu (P0 _ E) (inv0 E U) L.
exists tb0, st; split=> // kw s D; exact: loop_dget L D.
Qed.
End Tl.

(** Lemmas for PropsUtil.v *)
From mathcomp Require Import all_ssreflect all_algebra.
From mathcomp.algebra_tactics Require Import ring.
From Coq Require Import String Ascii Decimal DecimalString DecimalNat DecimalFacts.
From Verif Require Import Base UtilModel.
Set Implicit Arguments.
Unset Strict Implicit.
Unset Printing Implicit Defensive.
Import Order.TTheory GRing.Theory Num.Theory.
Local Open Scope string_scope.
Local Open Scope ring_scope.
Local Open Scope seq_scope.

Section Maxfun.
Variable F : realFieldType.
Implicit Types (xs ys : seq F).
(** the parabola p0 x^2 + p1 x + p2 *)
Definition parab (p : F * F * F) (x : F) : F := p.1.1 * x ^+ 2 + p.1.2 * x + p.2.
(** fitting three points with different abscissae is exact *)
Definition good_polyfit (polyfit : F * F * F -> F * F * F -> F * F * F) : Prop :=
  forall x0 x1 x2 y0 y1 y2, x0 != x1 -> x1 != x2 -> x0 != x2 ->
  let p := polyfit (x0, x1, x2) (y0, y1, y2) in
  [/\ parab p x0 = y0, parab p x1 = y1 & parab p x2 = y2].

Lemma sg_neg (a b : F) : Num.sg b - Num.sg a < 0 -> [/\ 0 <= a, b <= 0 & (0 < a) || (b < 0)].
Proof.
have H0 : ((1 : F) < 0) = false by apply/negP; rewrite lt_gtF ?ltr01.
have H2 : ((1 + 1 : F) < 0) = false by apply/negP; rewrite lt_gtF ?addr_gt0 ?ltr01.
case: (sgrP a) => Ha; case: (sgrP b) => Hb; rewrite ?subrr ?subr0 ?sub0r ?opprK ?ltxx ?H0 ?H2 //=.
all: rewrite ?Ha ?Hb ?lexx ?(ltW Ha) ?(ltW Hb) ?orbT //.
Qed.
Lemma sg_neg' (a b : F) : 0 < a -> b <= 0 -> Num.sg b - Num.sg a < 0.
Proof.
move=> Ha; rewrite (gtr0_sg Ha) le_eqVlt => /orP [/eqP ->|Hb].
  by rewrite sgr0 sub0r oppr_lt0 ltr01.
by rewrite (ltr0_sg Hb) -opprD oppr_lt0 addr_gt0 ?ltr01.
Qed.

(** three samples on an arch, increasing abscissae *)
Lemma vertex p x0 x1 x2 y0 y1 y2 : x0 < x1 -> x1 < x2 ->
  parab p x0 = y0 -> parab p x1 = y1 -> parab p x2 = y2 ->
  0 <= y1 - y0 -> y2 - y1 <= 0 -> (0 < y1 - y0) || (y2 - y1 < 0) ->
  let xv := - p.1.2 / (2%:R * p.1.1) in
  let yv := p.2 - p.1.2 ^+ 2 / (4%:R * p.1.1) in
  [/\ p.1.1 < 0, x0 <= xv <= x2, parab p xv = yv & [/\ y0 <= yv, y1 <= yv & y2 <= yv]].
Proof.
case: p => [[a b] c] /=; rewrite /parab /= => H01 H12 E0 E1 E2 G0 G1 Gs.
have D0 : y1 - y0 = (x1 - x0) * (a * (x0 + x1) + b) by rewrite -E0 -E1; ring.
have D1 : y2 - y1 = (x2 - x1) * (a * (x1 + x2) + b) by rewrite -E2 -E1; ring.
have P0 : 0 < x1 - x0 by rewrite subr_gt0.
have P1 : 0 < x2 - x1 by rewrite subr_gt0.
have S0 : 0 <= a * (x0 + x1) + b by rewrite -(pmulr_rge0 _ P0) -D0.
have S1 : a * (x1 + x2) + b <= 0 by rewrite -(pmulr_rle0 _ P1) -D1.
have Ss : a * (x1 + x2) + b < a * (x0 + x1) + b.
  case/orP: Gs => G; [apply: (le_lt_trans S1)|apply: lt_le_trans S0].
    by rewrite -(pmulr_rgt0 _ P0) -D0.
  by rewrite -(pmulr_rlt0 _ P1) -D1.
have Ha : a < 0.
  have P2 : 0 < x2 - x0 by rewrite subr_gt0 (lt_trans H01).
  rewrite -(pmulr_llt0 _ P2); rewrite -subr_lt0 in Ss.
  by congr (_ < 0): Ss; ring.
have Ha0 : a != 0 by rewrite lt_eqF.
have Ev : parab (a, b, c) (- b / (2%:R * a)) = c - b ^+ 2 / (4%:R * a).
  by rewrite /parab /=; field.
have Hge x : a * x ^+ 2 + b * x + c <= c - b ^+ 2 / (4%:R * a).
  rewrite -subr_ge0.
  have -> : c - b ^+ 2 / (4%:R * a) - (a * x ^+ 2 + b * x + c) = (- a) * (x + b / (2%:R * a)) ^+ 2 by field.
  by rewrite mulr_ge0 ?sqr_ge0 // oppr_ge0 ltW.
have Ha2 : 2%:R * a < 0 by rewrite pmulr_rlt0 // ltr0n.
split=> //; last by rewrite -E0 -E1 -E2; split.
apply/andP; split.
  rewrite ler_ndivl_mulr // -subr_ge0.
  have -> : x0 * (2%:R * a) - - b = (a * (x0 + x1) + b) + (- a) * (x1 - x0) by ring.
  by rewrite addr_ge0 // mulr_ge0 ?oppr_ge0 // ltW.
rewrite ler_ndivr_mulr // -subr_le0.
have -> : x2 * (2%:R * a) - - b = (a * (x1 + x2) + b) + a * (x2 - x1) by ring.
by rewrite -[0]addr0 ler_add // mulr_le0_ge0 // ltW.
Qed.

(** ** the loop on increasing abscissae *)
Definition increasing xs := forall i j, (i < j < size xs)%N -> xs`_i < xs`_j.
Lemma idxmaxs_in ys i : i \in idxmaxs ys -> (i.+2 < size ys)%N /\
  [/\ 0 <= ys`_i.+1 - ys`_i, ys`_i.+2 - ys`_i.+1 <= 0 & (0 < ys`_i.+1 - ys`_i) || (ys`_i.+2 - ys`_i.+1 < 0)].
Proof.
by rewrite mem_filter mem_iota add0n leq0n ltn_subRL add2n => /andP [/sg_neg H]; split.
Qed.
Variable polyfit : F * F * F -> F * F * F -> F * F * F.
Hypothesis Hfit : good_polyfit polyfit.
(** a point (x, y): a sample, or on the parabola through three neighbouring samples, between them *)
Definition on_curve xs ys (m : F * F) : Prop :=
  (exists2 k, (k < size xs)%N & m = (xs`_k, ys`_k)) \/
  exists k p, [/\ (k.+2 < size xs)%N, xs`_k <= m.1 <= xs`_k.+2, parab p m.1 = m.2 &
    [/\ parab p xs`_k = ys`_k, parab p xs`_k.+1 = ys`_k.+1 & parab p xs`_k.+2 = ys`_k.+2]].
Lemma step_ok xs ys m i : size xs = size ys -> increasing xs -> i \in idxmaxs ys -> on_curve xs ys m ->
  let m' := maxfun_step polyfit xs ys m i in
  [/\ on_curve xs ys m', m.2 <= m'.2 & ys`_i.+1 <= m'.2].
Proof.
move=> Hs Hx Hi Hm; have [Hi2 [G0 G1 G2]] := idxmaxs_in Hi; rewrite -Hs in Hi2.
have H01 : xs`_i < xs`_i.+1 by apply: Hx; rewrite ltnSn ltnW.
have H12 : xs`_i.+1 < xs`_i.+2 by apply: Hx; rewrite ltnSn.
have H02 := lt_trans H01 H12.
rewrite /maxfun_step.
have := Hfit ys`_i ys`_i.+1 ys`_i.+2 (negbT (lt_eqF H01)) (negbT (lt_eqF H12)) (negbT (lt_eqF H02)).
case: (polyfit _ _) => [[p0 p1] p2] /= [E0 E1 E2].
have /= [Hp Hw Ev [V0 V1 V2]] := vertex H01 H12 E0 E1 E2 G0 G1 G2.
rewrite lt_eqF //= Hw; case: (ltP m.2) => Hlt.
  split=> //; last exact: ltW.
  by right; exists i, (p0, p1, p2).
by split=> //; apply: le_trans Hlt.
Qed.
Lemma loop_ok xs ys m l : size xs = size ys -> increasing xs -> {subset l <= idxmaxs ys} -> on_curve xs ys m ->
  let m' := foldl (maxfun_step polyfit xs ys) m l in
  [/\ on_curve xs ys m', m.2 <= m'.2 & forall i, i \in l -> ys`_i.+1 <= m'.2].
Proof.
move=> Hs Hx; elim: l m => [|i l IH] m Hsub Hm //=.
have [H1 H2 H3] := step_ok Hs Hx (Hsub i (mem_head _ _)) Hm.
have [|A1 A2 A3] := IH (maxfun_step polyfit xs ys m i) _ H1.
  by move=> j Hj; apply: Hsub; rewrite in_cons Hj orbT.
split=> //; first exact: le_trans A2.
by move=> j; rewrite in_cons => /orP [/eqP ->|/A3 //]; apply: le_trans A2.
Qed.
(** the first of the largest samples: an end point or found at 26 *)
Lemma best_sample ys : (0 < size ys)%N -> exists k, [/\ (k < size ys)%N, forall j, (j < size ys)%N -> ys`_j <= ys`_k &
  [\/ k = 0%N, k.+1 = size ys | exists2 i, k = i.+1 & i \in idxmaxs ys]].
Proof.
move=> Hs; have [k Hk Hmin] : exists2 k, (k < size ys)%N /\ (forall j, (j < size ys)%N -> ys`_j <= ys`_k) &
    forall j, (j < k)%N -> ys`_j < ys`_k.
  elim: ys Hs => [|y ys IH] // _; case: (posnP (size ys)) => Ey.
    by exists 0%N => //; split=> // -[|j] //=; rewrite Ey.
  have [k [Hk Hj] Hm] := IH Ey; case: (leP ys`_k y) => Hy.
    by exists 0%N => //; split=> // -[|j] //= /Hj H; apply: le_trans Hy.
  exists k.+1 => //=; first by split=> // -[|j] //=; [rewrite ltW|exact: Hj].
  by case=> [|j] //=; exact: Hm.
case: Hk => Hk Hj; exists k; split=> //.
case: k Hk Hj Hmin => [|i] Hk Hj Hmin; first by constructor 1.
case: (ltnP i.+2 (size ys)) => Hi; last by constructor 2; apply/eqP; rewrite eqn_leq Hk.
constructor 3; exists i => //; rewrite mem_filter mem_iota add0n leq0n ltn_subRL add2n Hi !andbT.
by apply: sg_neg'; rewrite ?subr_gt0 ?subr_le0 ?Hmin ?Hj.
Qed.
End Maxfun.

(** ** decimal *)
Lemma lapp s t : list_ascii_of_string (s ++ t) = list_ascii_of_string s ++ list_ascii_of_string t.
Proof. by elim: s => //= a s ->. Qed.
Lemma lof_inj s t : list_ascii_of_string s = list_ascii_of_string t -> s = t.
Proof. by move=> E; rewrite -(string_of_list_ascii_of_string s) E string_of_list_ascii_of_string. Qed.
Definition under : ascii := "_"%char.
Lemma decimal_inj m n : decimal m = decimal n -> m = n.
Proof.
have H k : Nat.to_uint k <> Nil.
  by rewrite -(Unsigned.of_to k) Unsigned.to_of; apply: unorm_nonnil.
rewrite /decimal => E; have Hm := H m; have Hn := H n.
have := NilZero.usu _ Hm; rewrite E NilZero.usu // => -[E2].
by rewrite -(Unsigned.of_to m) -E2 Unsigned.of_to.
Qed.
Lemma decimal_digits n : under \notin list_ascii_of_string (decimal n).
Proof.
have H : forall d, under \notin list_ascii_of_string (NilEmpty.string_of_uint d) by elim.
rewrite /decimal; case: (Nat.to_uint n) => //= d; by rewrite in_cons negb_or H andbT.
Qed.
Lemma id_inj a b m n : (a ++ "_" ++ decimal m = b ++ "_" ++ decimal n)%string -> m = n.
Proof.
move=> /(congr1 list_ascii_of_string) /(congr1 seq.rev); rewrite !lapp /= !rev_cat !rev_cons -!cats1 -!catA.
have Hi k : under \notin seq.rev (list_ascii_of_string (decimal k)) by rewrite mem_rev decimal_digits.
move=> E; have := congr1 (seq.index under) E; rewrite !index_cat !(negbTE (Hi _)) /= !addn0 => Es.
have := congr1 (take (size (seq.rev (list_ascii_of_string (decimal m))))) E.
rewrite {2}Es !take_size_cat // => /(congr1 seq.rev); rewrite !revK => /lof_inj; exact: decimal_inj.
Qed.

Lemma newID_seq cs st k : (k < size cs)%N -> (nth (""%string, None) cs k).2 = None ->
  nth ""%string (constructs st cs) k =
  ((nth (""%string, None) cs k).1 ++ "_" ++ decimal (if st is Some n then n.+1 + k else k)%N)%string.
Proof.
elim: cs st k => [|[p Id] cs IH] st [|k] //=.
  by move=> _ ->; case: st => [n|] //; rewrite addn0.
move=> Hk HN; rewrite IH //; congr (_ ++ _ ++ decimal _)%string.
by case: st => [n|]; rewrite ?addSn ?addnS ?add0n.
Qed.

(** ** str_dict *)
Section StrDict.
Variable F : Type.
Variable fmt74 : F -> string.
Lemma dv_rect' (P : dv F -> Prop) :
  (forall l, (forall k x, List.In (k, x) l -> P x) -> P (DDict l)) ->
  (forall l, P (DLine l)) -> P (DPairBad F) -> (forall t, P (DAny F t)) -> forall v, P v.
Proof.
move=> H1 H2 H3 H4; fix IH 1; case=> [l|l||t]; [apply: H1|exact: H2|exact: H3|exact: H4].
elim: l => [k' x' []|[k x] l IHl k' x' [[_ <-]|]]; [exact: IH|exact: IHl].
Qed.
(** the text of a value at an indentation level; None: a value that cannot be printed *)
Section Body.
Variable f : dv F -> option string.
Fixpoint txt_items (n : nat) (l : seq (option string * dv F)) : option string :=
  match l with
  | [::] => Some ""%string
  | (Some k, x) :: l' =>
    if (f x, txt_items n l') is (Some s, Some b) then Some (spaces n ++ " " ++ k ++ ": " ++ s ++ b)%string else None
  | (None, _) :: _ => None
  end.
End Body.
Fixpoint txt (n : nat) (v : dv F) : option string :=
  match v with
  | DDict l =>
    if txt_items (txt n.+1) n.+1 l is Some b then Some ("{" ++ nl ++ b ++ spaces n ++ "}," ++ nl)%string else None
  | _ => if sd_leaf fmt74 v is Ok s then Some s else None
  end.
Lemma appA s t u : (s ++ (t ++ u) = (s ++ t) ++ u)%string.
Proof. by elim: s => //= a s ->. Qed.
Lemma app0 s : (s ++ "" = s)%string.
Proof. by elim: s => //= a s ->. Qed.
Lemma str_dict1_txt v n s : match txt n v with
  | Some t => str_dict1 fmt74 (n, s) v = ((n, (s ++ t)%string), Ok tt)
  | None => is_ok (str_dict1 fmt74 (n, s) v).2 = false end.
Proof.
elim/dv_rect': v n s => [l IH|l||t] n s; last 3 first.
- by cbn [txt str_dict1]; case: (sd_leaf fmt74 (DLine l)).
- by [].
- by [].
have Hgo : forall s, match txt_items (txt n.+1) n.+1 l with
    | Some t => sd_items (str_dict1 fmt74) (n.+1, s) l = ((n.+1, (s ++ t)%string), Ok tt)
    | None => is_ok (sd_items (str_dict1 fmt74) (n.+1, s) l).2 = false end.
  elim: l IH => [|[[k|] x] l IHl] IH s'; [by rewrite /= app0| |by []].
  cbn [txt_items sd_items fst snd].
  have := IH (Some k) x (or_introl erefl) n.+1 (s' ++ spaces n.+1 ++ " " ++ k ++ ": ")%string.
  case: (txt n.+1 x) => [t|].
    move=> ->; have := IHl (fun k' x' H => IH k' x' (or_intror H)) ((s' ++ spaces n.+1 ++ " " ++ k ++ ": ") ++ t)%string.
    case: (txt_items _ _ l) => [b|] // ->; by rewrite -?appA /= -?appA.
  by case: (str_dict1 _ _ x) => [st2 [[]|e]].
cbn [txt str_dict1 fst snd].
have := Hgo (s ++ "{" ++ nl)%string; case: (txt_items _ _ l) => [b|].
  by move=> -> /=; rewrite -?appA /= -?appA.
by case: (sd_items _ _ l) => [st2 [[]|e]].
Qed.
End StrDict.

(** ** scaleVSW *)
Section Scale.
Variable C : ringType.
Lemma vsw_rect' (P : vsw -> Prop) :
  (forall l, (forall k x, List.In (k, x) l -> P x) -> P (VDict l)) ->
  (forall r, P (VLine r)) -> P VTuple -> (forall o, P (VNum o)) -> P VBad -> forall v, P v.
Proof.
move=> H1 H2 H3 H4 H5; fix IH 1; case=> [l|r||o|]; [apply: H1|exact: H2|exact: H3|exact: H4|exact: H5].
elim: l => [k' x' []|[k x] l IHl k' x' [[_ <-]|]]; [exact: IH|exact: IHl].
Qed.
(** the places where the voltages of a structure are stored *)
Fixpoint places (v : vsw) : seq nat :=
  match v with
  | VDict l => flatten [seq places kx.2 | kx <- l]
  | VLine r => [:: r]
  | VNum (Some r) => [:: r]
  | _ => [::]
  end.
(** only sequences that can be changed in place *)
Fixpoint mutable (v : vsw) : bool :=
  match v with
  | VDict l => all (fun kx => mutable kx.2) l
  | VLine _ | VNum (Some _) => true
  | _ => false
  end.
Implicit Type h : vheap C.
(** what scaling does to the heap: multiplied once per occurrence *)
Fixpoint times (s : C) (n : nat) (x : C) : C := if n is n'.+1 then times s n' (x * s) else x.
Lemma scale_one_ok v h s : mutable v ->
  exists2 h', scale_one s h v = (h', Ok tt) & forall r, h' r = [seq times s (count_mem r (places v)) x | x <- h r].
Proof.
elim/vsw_rect': v h => [l IH|r||[r|]|] h //=; last 2 first.
- move=> _; eexists; first by []. move=> a; rewrite /upd eq_sym addn0; case: eqP => [->|] //= _; by rewrite map_id.
- move=> _; eexists; first by []. move=> a; rewrite /upd eq_sym addn0; case: eqP => [->|] //= _; by rewrite map_id.
elim: l IH h => [|[k x] l IHl] IH h Hm; first by exists h => // r; rewrite /= map_id.
case/andP: Hm => Hx Hl; have [h1 E1 H1] := IH k x (or_introl erefl) h Hx.
have [h2 E2 H2] := IHl (fun k' x' H => IH k' x' (or_intror H)) h1 Hl.
exists h2; first by rewrite /= E1.
move=> r; rewrite H2 H1 -map_comp count_cat; apply: eq_map => y /=.
elim: (count_mem r (places x)) y => [|m IHm] y //=; by rewrite IHm.
Qed.
End Scale.

(** ** lines *)
(** the text is empty or ends with the newline *)
Definition ends_lf (s : string) : bool := last LF (list_ascii_of_string s) == LF.
Definition has_cr (s : string) : bool := CR \in list_ascii_of_string s.
Lemma split_on_cons c s : exists w ws, split_on c s = w :: ws.
Proof.
elim: s => [|a s [w [ws IH]]] /=; first by exists ""%string, [::].
by rewrite IH; case: (Ascii.eqb _ _); eexists; eexists.
Qed.
Lemma readlines_nil s : readlines s = [::] -> s = ""%string.
Proof. by case: s => //= a s; case: (Ascii.eqb _ _) => //; case: (readlines s). Qed.
Lemma eqbE (a b : ascii) : Ascii.eqb a b = (a == b).
Proof. by case: (Ascii.eqb_spec a b) => [->|/eqP /negbTE ->]; rewrite ?eqxx. Qed.
Lemma readlines_split s : split_on LF s = map strip_lf (readlines s) ++ (if ends_lf s then [:: ""%string] else [::]).
Proof.
elim: s => [|a s IH] //; cbn [split_on readlines]; rewrite !eqbE; case: eqP => [->|/eqP Ha].
  by rewrite IH; congr (_ :: _ ++ _).
rewrite IH; case E: (readlines s) => [|w ws].
  by rewrite (readlines_nil E) /ends_lf /= eqbE (negbTE Ha).
have -> : ends_lf (String a s) = ends_lf s by rewrite /ends_lf; case: s E {IH}.
by rewrite /= eqbE (negbTE Ha).
Qed.
Lemma universal_id s : ~~ has_cr s -> universal s = s.
Proof.
elim: s => [|a s IH] //; rewrite /has_cr /= in_cons negb_or eq_sym => /andP [Ha Hs].
by rewrite eqbE (negbTE Ha) IH.
Qed.
(** the lines of a text: joined by newlines they give the text, and none contains one *)
Lemma split_on_spec c s : String.concat (String c "") (split_on c s) = s /\
  all (fun l => c \notin list_ascii_of_string l) (split_on c s).
Proof.
elim: s => [|a s [IH1 IH2]] //; cbn [split_on]; have [w [ws E]] := split_on_cons c s.
rewrite eqbE E in IH1 IH2 *; case: eqP => [->|/eqP Ha].
  split; last exact: IH2.
  by rewrite -[in RHS]IH1.
split; last by move: IH2; rewrite /= in_cons negb_or eq_sym Ha.
by rewrite -[in RHS]IH1; case: ws {IH1 IH2 E}.
Qed.

(** Properties C35, C41, C44, C45, C47, C48 *)
From mathcomp Require Import all_ssreflect all_algebra.
From mathcomp.algebra_tactics Require Import ring.
From Coq Require Import String Ascii Decimal DecimalString DecimalNat.
From Verif Require Import Base UtilModel UtilThm.
Set Implicit Arguments.
Unset Strict Implicit.
Unset Printing Implicit Defensive.
Import Order.TTheory GRing.Theory Num.Theory.
Local Open Scope string_scope.
Local Open Scope ring_scope.
Local Open Scope seq_scope.

(** * C41 *)
(** increasing abscissae: the result is at least every sample, lies in the sampled interval,
    and is a sample or on the parabola through three neighbouring samples *)
Theorem C41_increasing (F : realFieldType) polyfit (xs ys : seq F) : good_polyfit polyfit ->
  size xs = size ys -> (0 < size xs)%N -> increasing xs ->
  exists x y, [/\ maxfun polyfit xs ys = Ok (x, y), forall k, (k < size ys)%N -> ys`_k <= y,
    xs`_0 <= x <= xs`_(size xs).-1 & on_curve xs ys (x, y)].
Proof.
move=> Hfit Hs H0 Hx; rewrite /maxfun -Hs eqn0Ngt H0 /= -!nth_last -Hs.
set m0 := if _ then _ else _.
have Hlast : ((size xs).-1 < size xs)%N by rewrite prednK.
have Hm0 : on_curve xs ys m0.
  by left; rewrite /m0; case: ifP => _; [exists (size xs).-1|exists 0%N].
have G0 : ys`_0 <= m0.2 /\ ys`_(size xs).-1 <= m0.2.
  by rewrite /m0; case: ltP => H /=; split=> //; exact: ltW.
have [A1 A2 A3] := @loop_ok F polyfit Hfit xs ys m0 (idxmaxs ys) Hs Hx (fun _ H => H) Hm0.
case E: (foldl _ _ _) A1 A2 A3 => [x y] A1 A2 A3; exists x, y; split=> //.
  have [] := @best_sample F ys; first by rewrite -Hs.
  move=> b [Hb Hj Hc] k; rewrite Hs => Hk; apply: (le_trans (Hj _ Hk)).
  case: Hc => [->|Eb|[i -> /A3]] //; first by apply: le_trans A2; case: G0.
  by apply: le_trans A2; case: G0 => _; rewrite Hs -Eb.
have Hin k : (k < size xs)%N -> xs`_0 <= xs`_k <= xs`_(size xs).-1.
  move=> Hk; have L i j : (i <= j < size xs)%N -> xs`_i <= xs`_j.
    rewrite leq_eqVlt => /andP [/orP [/eqP ->|H] Hj] //; apply: ltW; apply: Hx; by rewrite H.
  by rewrite !L //= ?Hlast ?andbT // -ltnS prednK.
case: A1 => [[k /Hin H [-> _]]|[k [p [Hk /andP [H1 H2] _ _]]]] //.
have /andP [I1 _] := Hin k (ltn_trans (ltnSn _) (ltn_trans (ltnSn _) Hk)).
have /andP [_ I2] := Hin _ Hk.
by rewrite (le_trans I1 H1) (le_trans H2 I2).
Qed.
(** decreasing abscissae: the abscissa is compared and returned instead of the ordinate *)
Theorem C41_decreasing_refuted (F : realFieldType) polyfit : good_polyfit polyfit ->
  exists xs ys : seq F, [/\ size xs = 3%N, size ys = 3%N, increasing (seq.rev xs),
    ys`_1 = 5%:R & maxfun polyfit xs ys = Ok (2%:R, 2%:R)].
Proof.
move=> Hfit; exists [:: 2%:R; 1; 0], [:: 0; 5%:R; 0]; split=> //.
  by move=> [|[|[|i]]] [|[|[|j]]] //; rewrite ?andbF // => _; rewrite /= ?ltr01 ?ltr0n ?ltr1n.
have H5 : (0 < 5%:R :> F) by rewrite ltr0n.
rewrite /maxfun /= ltxx /idxmaxs /= sub0r subr0 sgrN (gtr0_sg H5).
rewrite -opprD oppr_lt0 addr_gt0 ?ltr01 //= /maxfun_step /=.
have := Hfit 2%:R 1 0 0 5%:R 0; case: (polyfit _ _) => [[a b] c] /=.
case; rewrite /parab /=.
- by rewrite (eqr_nat F 2 1).
- by rewrite oner_eq0.
- by rewrite pnatr_eq0.
rewrite expr0n expr1n !mulr0 !add0r !mulr1 => E1 E2 Ec; rewrite Ec !addr0 in E1 E2.
have Ea : a = - 5%:R by transitivity (((a * 2 ^+ 2 + b * 2) - (a + b) * 2%:R) / 2%:R); [field|rewrite E1 E2; field].
have Eb : b = 10%:R by transitivity ((a + b) - a); [ring|rewrite E2 Ea; ring].
have -> : - b / (2 * a) = 1.
  by rewrite Ea Eb; field.
have -> : ((2%:R : F) <= 1) = false by rewrite (ler_nat F 2 1).
rewrite andbF /= ltr0n /= (ltr_nat F 2 1) /=.
by rewrite (ltr_nat F 2 0).
Qed.
Example C41_witness (F : realFieldType) : increasing [:: 0; 1; 3%:R : F] /\
  exists polyfit : F * F * F -> F * F * F -> F * F * F, good_polyfit polyfit.
Proof.
split; first by move=> [|[|[|i]]] [|[|[|j]]] //; rewrite ?andbF // => _; rewrite /= ?ltr01 ?ltr0n ?ltr1n.
pose lag (x y : F * F * F) := let: (x0, x1, x2) := x in let: (y0, y1, y2) := y in
  let a0 := y0 / ((x0 - x1) * (x0 - x2)) in let a1 := y1 / ((x1 - x0) * (x1 - x2)) in
  let a2 := y2 / ((x2 - x0) * (x2 - x1)) in
  (a0 + a1 + a2, - (a0 * (x1 + x2) + a1 * (x0 + x2) + a2 * (x0 + x1)), a0 * x1 * x2 + a1 * x0 * x2 + a2 * x0 * x1).
exists lag => x0 x1 x2 y0 y1 y2 H01 H12 H02 /=; rewrite /parab /=.
rewrite -subr_eq0 in H01; rewrite -subr_eq0 in H12; rewrite -subr_eq0 in H02.
have H10 : x1 - x0 != 0 by rewrite -opprB oppr_eq0.
have H21 : x2 - x1 != 0 by rewrite -opprB oppr_eq0.
have H20 : x2 - x0 != 0 by rewrite -opprB oppr_eq0.
by split; field; rewrite ?H01 ?H12 ?H02 ?H10 ?H21 ?H20.
Qed.

(** * C45 *)
(** constructed one after the other, whatever the classes and the Ids given for some: the
    automatic Ids differ *)
Theorem C45_unique st cs i j : (i < j < size cs)%N ->
  (nth (""%string, None) cs i).2 = None -> (nth (""%string, None) cs j).2 = None ->
  nth ""%string (constructs st cs) i <> nth ""%string (constructs st cs) j.
Proof.
case/andP => Hij Hj Ei Ej; rewrite !newID_seq // ?(ltn_trans Hij) //.
by move/id_inj; case: st => [n|] => [/addnI|] E; rewrite E ltnn in Hij.
Qed.
(** two threads can get the same *)
Theorem C45_threads_refuted : exists sched, (trun 0 [:: TStart; TStart] sched).2 = [:: TDone "1"; TDone "1"].
Proof. by exists [:: 0; 1; 0; 1; 0; 1]%N. Qed.
Example C45_witness : constructs None [:: ("rfTRL", None); ("circuit", Some "A"); ("circuit", None)] =
  [:: "rfTRL_0"; "A"; "circuit_2"].
Proof. by []. Qed.

(** * C47 *)
Section C47.
Variable F : Type.
Variable fmt74 : F -> string.
(** the first call gives the text of its argument *)
Theorem C47_first (v : dv F) t : txt fmt74 0 v = Some t -> str_dict fmt74 None v = ((0%N, t), Ok t).
Proof. by move=> E; rewrite /str_dict; have := str_dict1_txt fmt74 v 0 ""%string; rewrite E => ->. Qed.
(** a later one gives all the texts so far: the calls after [st] *)
Fixpoint calls (st : option sd_state) (vs : seq (dv F)) : seq (res string) :=
  if vs is v :: vs' then let: (st1, r) := str_dict fmt74 st v in r :: calls (Some st1) vs' else [::].
Theorem C47_accumulates (vs : seq (dv F)) ts k : map (txt fmt74 0) vs = map Some ts -> (k < size vs)%N ->
  nth (Raise ValueError) (calls None vs) k = Ok (String.concat "" (take k.+1 ts)).
Proof.
have H : forall vs ts k s, map (txt fmt74 0) vs = map Some ts -> (k < size vs)%N ->
    nth (Raise ValueError) (calls (Some (0%N, s)) vs) k = Ok (s ++ String.concat "" (take k.+1 ts))%string.
  elim=> [|v vs0 IH] [|t ts0] k0 s //= [E Es] Hk; rewrite /str_dict.
  have := str_dict1_txt fmt74 v 0 s; rewrite E => -> /=.
  case: k0 Hk => [|k0] Hk /=; first by rewrite take0.
  rewrite (IH ts0) //; case: ts0 Es IH => [|t2 ts0] Es IH.
    by move: Hk; rewrite ltnS; case: (vs0) Es.
  by rewrite /= -!appA.
case: vs => [|v vs]; first by case: k.
by move=> E Hk; rewrite -[RHS](H (v :: vs) ts k ""%string) //; case: k Hk.
Qed.
Theorem C47_refuted : exists v : dv F, exists s1 s2, s1 <> s2 /\ calls None [:: v; v] = [:: Ok s1; Ok s2].
Proof. by exists (DDict [::]); do 2 eexists; split; last by []. Qed.
(** after a call that raised the indentation is wrong as well *)
Theorem C47_error_refuted : exists v w : dv F, exists s, calls None [:: v; w] = [:: Raise TypeError; Ok s] /\
  txt fmt74 0 w <> None /\ forall s0 t, txt fmt74 0 w = Some t -> s <> (s0 ++ t)%string.
Proof.
exists (DDict [:: (None, DPairBad F)]), (DDict [:: (Some "a"%string, DDict [::])]); eexists; split; first by [].
split=> // s0 t /= [<-] /(congr1 list_ascii_of_string) /(congr1 seq.rev).
by rewrite lapp rev_cat.
Qed.
Example C47_witness : txt (F := F) fmt74 0 (DDict [:: (Some "a"%string, DAny F "int"); (Some "b"%string, DDict [::])]) <> None.
Proof. by []. Qed.
End C47.

(** * C48 *)
Section C48.
Variable C : ringType.
Implicit Types (h : vheap C) (items : seq (string * vsw)).
(** every stored voltage multiplied, nothing else touched, when the structure stores each
    sequence once *)
Theorem C48_scales h items (s : C) : mutable (VDict items) -> uniq (places (VDict items)) ->
  exists h', scaleVSW h items s = (h', Ok tt) /\
  forall r, h' r = if r \in places (VDict items) then [seq x * s | x <- h r] else h r.
Proof.
move=> Hm Hu; have [h' E H] := scale_one_ok h s Hm; exists h'; split=> // r.
by rewrite H count_uniq_mem //; case: (r \in _) => //=; rewrite map_id.
Qed.
(** one after the other: as one scaling by the product *)
Theorem C48_compose h items (a b : C) : mutable (VDict items) -> uniq (places (VDict items)) ->
  forall h1 h2 h3, scaleVSW h items a = (h1, Ok tt) -> scaleVSW h1 items b = (h2, Ok tt) ->
  scaleVSW h items (a * b) = (h3, Ok tt) -> forall r, h2 r = h3 r.
Proof.
move=> Hm Hu h1 h2 h3; have [g1 [E1 H1]] := C48_scales h a Hm Hu; rewrite E1 => -[<-].
have [g2 [E2 H2]] := C48_scales g1 b Hm Hu; rewrite E2 => -[<-].
have [g3 [E3 H3]] := C48_scales h (a * b) Hm Hu; rewrite E3 => -[<-] r.
rewrite H3 H2 H1; case: (r \in _) => //; rewrite -map_comp; apply: eq_map => x /=; by rewrite mulrA.
Qed.
(** what the first value that cannot be scaled raises *)
Fixpoint offence (v : vsw) : option exn :=
  match v with
  | VDict l => foldr (fun kx r => if offence kx.2 is Some e then Some e else r) None l
  | VTuple | VNum None => Some TypeError
  | VBad => Some ValueError
  | _ => None
  end.
(** tuples and other values are refused *)
Theorem C48_refused h items (s : C) :
  (scaleVSW h items s).2 = if offence (VDict items) is Some e then Raise e else Ok tt.
Proof.
rewrite /scaleVSW -[scale_items _ _ _]/(scale_one s h (VDict items)); move: (VDict items) h.
elim/vsw_rect' => [l IH|r||[r|]|] h //=.
elim: l IH h => [|[k x] l IHl] IH h //=.
have := IH k x (or_introl erefl) h; case: (scale_one s h x) => h1 [[]|e] /=; case: (offence x) => [e'|] //.
  by move=> _; apply: IHl => k' x' H; apply: (IH k' x'); right.
Qed.
(** a sequence that appears twice is scaled twice *)
Theorem C48_shared_refuted h (s : C) : exists h', scaleVSW h [:: ("a", VLine 0); ("b", VLine 0)] s = (h', Ok tt) /\
  h' 0%N = [seq x * s * s | x <- h 0%N].
Proof. by eexists; split; first by []; rewrite /upd /= -map_comp. Qed.
(** (position, voltage) as a tuple: TypeError, what comes before is scaled already *)
Theorem C48_tuple_refuted h (s : C) : exists h', scaleVSW h [:: ("a", VLine 0); ("b", VNum None)] s = (h', Raise TypeError) /\
  h' 0%N = [seq x * s | x <- h 0%N].
Proof. by eexists; split; first by []. Qed.
Example C48_witness : let v := VDict [:: ("a", VLine 0); ("sub", VDict [:: ("b", VLine 1); ("c", VNum (Some 2%N))])] in
  mutable v /\ uniq (places v).
Proof. by []. Qed.
End C48.

(** * C44 *)
Section C44.
Variable getenv : string -> option string.
Variable expanduser : string -> string.
Variable path_exists : string -> bool.
Variable walk : string -> seq string.
Variable globf : string -> string -> seq string.
Variable sorted_ : seq string -> seq string.
Notation findpath := (findpath getenv expanduser path_exists walk globf sorted_).
Notation existspath := (existspath getenv expanduser path_exists walk globf sorted_).
(** the directories in the documented order: those of the environment variable, the user's,
    the application's *)
Definition documented (userdirs : dirs) (envvar : string) (appdirs : dirs) : seq string :=
  (if envvar is EmptyString then [::] else
   if getenv envvar is Some (String a s) then split_on ":"%char (String a s) else [::]) ++
  makelist userdirs ++ makelist appdirs.
(** a directory contains a match: one of its (sub)directories has one *)
Definition contains (pat d : string) : Prop := path_exists (expanduser d) /\
  exists2 r, r \in walk (expanduser d) & globf r pat <> [::].
Definition sort_ok := forall l, perm_eq (sorted_ l) l /\ sorted (fun a b => String.leb a b) (sorted_ l).

Lemma documentedE u e a : search_dirs getenv u e a = documented u e a.
Proof.
rewrite /search_dirs /documented; case: e => [|c e] //=; by case: (getenv _) => [[|c' s']|].
Qed.
Lemma walk_dirP pat roots : match walk_dir globf sorted_ pat roots with
  | None => forall r, r \in roots -> globf r pat = [::]
  | Some f => exists r1 r r2, [/\ roots = r1 ++ r :: r2, forall x, x \in r1 -> globf x pat = [::],
      globf r pat <> [::] & f = last ""%string (sorted_ (globf r pat))] end.
Proof.
elim: roots => [|r rs IH] //=; case E: (globf r pat) => [|x xs]; last first.
  by exists [::], r, rs; rewrite E; split.
case: (walk_dir _ _ _ _) IH => [f [r1 [r' [r2 [-> H1 H2 H3]]]]|IH].
  exists (r :: r1), r', r2; split=> // y; rewrite in_cons => /orP [/eqP -> //|]; exact: H1.
by move=> y; rewrite in_cons => /orP [/eqP -> //|]; exact: IH.
Qed.
(** the result is the last name, in alphabetical order, of the matches in the first
    (sub)directory that has some, of the first directory that contains one *)
Theorem C44_found pat u e a mOK p : findpath pat u e a mOK = Ok p ->
  exists d1 d d2, documented u e a = d1 ++ d :: d2 /\ (forall x, x \in d1 -> ~ contains pat x) /\ contains pat d /\
  exists r1 r r2, [/\ walk (expanduser d) = r1 ++ r :: r2, forall x, x \in r1 -> globf x pat = [::],
    globf r pat <> [::] & p = last ""%string (sorted_ (globf r pat))].
Proof.
rewrite /UtilModel.findpath documentedE; elim: (documented u e a) => [|d ds IH] //=.
case Ex: (path_exists _) => /=.
  have := walk_dirP pat (walk (expanduser d)); case: (walk_dir _ _ _ _) => [f|] H.
    case=> <-; exists [::], d, ds; split=> //; split=> //; split=> //.
    by case: H => [r1 [r [r2 [E _ H _]]]]; split=> //; exists r => //; rewrite E mem_cat mem_head orbT.
  move=> /IH [d1 [d' [d2 [-> [H1 H2]]]]]; exists (d :: d1), d', d2; split=> //; split=> // x.
  rewrite in_cons => /orP [/eqP ->|]; last exact: H1.
  by case=> _ [r Hr]; rewrite H.
case: mOK IH => // IH /IH [d1 [d' [d2 [-> [H1 H2]]]]]; exists (d :: d1), d', d2; split=> //; split=> // x.
rewrite in_cons => /orP [/eqP ->|]; last exact: H1.
by case; rewrite Ex.
Qed.
(** otherwise IOError: no directory contains a match, or a missing one comes first and
    missingOK is not set *)
Theorem C44_not_found pat u e a mOK : is_ok (findpath pat u e a mOK) = false ->
  findpath pat u e a mOK = Raise IOError /\
  ((forall x, x \in documented u e a -> ~ contains pat x) \/
   mOK = false /\ exists d1 d d2, [/\ documented u e a = d1 ++ d :: d2, forall x, x \in d1 -> ~ contains pat x &
     path_exists (expanduser d) = false]).
Proof.
rewrite /UtilModel.findpath documentedE; elim: (documented u e a) => [|d ds IH] //=; first by move=> _; split=> //; left.
case Ex: (path_exists _) => /=.
  have := walk_dirP pat (walk (expanduser d)); case: (walk_dir _ _ _ _) => [f|] H //.
  have Hd : ~ contains pat d by case=> _ [r Hr]; rewrite H.
  case/IH => -> HH; split=> //; case: HH => [HH|[-> [d1 [d' [d2 [-> H1 H2]]]]]]; [left|right].
    by move=> x; rewrite in_cons => /orP [/eqP ->|/HH].
  split=> //; exists (d :: d1), d', d2; split=> // x; by rewrite in_cons => /orP [/eqP ->|/H1].
case: mOK IH => IH; last first.
  by move=> _; split=> //; right; split=> //; exists [::], d, ds; split.
have Hd : ~ contains pat d by case; rewrite Ex.
case/IH => -> HH; split=> //; case: HH => [HH|[]] //; left.
by move=> x; rewrite in_cons => /orP [/eqP ->|/HH].
Qed.
(** existspath: the same, or the empty text *)
Theorem C44_existspath pat u e a mOK : existspath pat u e a mOK =
  Ok (if findpath pat u e a mOK is Ok p then p else ""%string).
Proof.
rewrite /UtilModel.existspath; case E: (findpath _ _ _ _ _) => [p|x] //.
by have [] := @C44_not_found pat u e a mOK; rewrite E // => -[->].
Qed.
End C44.
(** the environment variable wins over the user's directories *)
Example C44_witness (g := fun s : string => if s == "V"%string then Some "/a:/b"%string else None) :
  findpath g id (fun d => d \in [:: "/b"; "/u"]%string) (fun d => [:: d]) (fun r p => [:: (r ++ "/" ++ p)%string]) id
    "m" (Dir "/u") "V" (DirList [::]) true = Ok "/b/m"%string.
Proof. by []. Qed.

(** * C35 *)
Section C35.
Variable files : string -> option string.
Notation getlines := (getlines files).
(** the text itself: its lines *)
Theorem C35_text h s : has_lf s -> exists ls, [/\ getlines h (SText s) = (h, Ok ls),
  String.concat nl ls = s & all (fun l => LF \notin list_ascii_of_string l) ls].
Proof. by move=> H; exists (split_on LF s); rewrite /= H; have [H1 H2] := split_on_spec LF s; split. Qed.
(** path, open file and text without carriage return and not ending with a newline: the
    same lines *)
Theorem C35_same h h' path s k : has_lf s -> ~~ has_cr s -> ~~ ends_lf s -> ~~ has_lf path ->
  files path = Some s -> h' k = s ->
  [/\ (getlines h (SText path)).2 = (getlines h (SText s)).2, (getlines h' (SFile k)).2 = (getlines h (SText s)).2,
      (getlines h (SText path)).1 = h & (getlines h (SText s)).1 = h].
Proof.
move=> H1 H2 H3 H4 E1 E2; rewrite /= H1 (negbTE H4) E1 E2 universal_id //= readlines_split (negbTE H3) cats0.
by split.
Qed.
(** ending with a newline: the text gives one more, empty, line *)
Theorem C35_newline_refuted h path s : has_lf s -> ~~ has_cr s -> ends_lf s -> ~~ has_lf path -> files path = Some s ->
  exists ls, (getlines h (SText path)).2 = Ok ls /\ (getlines h (SText s)).2 = Ok (rcons ls ""%string).
Proof.
move=> H1 H2 H3 H4 E1; rewrite /= H1 (negbTE H4) E1 universal_id //= readlines_split H3; eexists; split; first by [].
by rewrite cats1.
Qed.
(** a second iteration over an open file gives nothing *)
Theorem C35_again_refuted h k : exists h', (getlines h (SFile k)).1 = h' /\ (getlines h' (SFile k)).2 = Ok [::].
Proof. by eexists; split; first by []; rewrite /= eqxx. Qed.
(** but path and text can be read any number of times *)
Theorem C35_again h s : getlines (getlines h (SText s)).1 (SText s) = getlines h (SText s).
Proof. by rewrite /=; case: (has_lf s) => //; case: (files s). Qed.
(** a list is not accepted *)
Theorem C35_list_refuted h l : (getlines h (SList l)).2 = Raise AttributeError.
Proof. by []. Qed.
(** Windows line ends stay in the lines of a text, not in those of a file *)
Theorem C35_cr_refuted h path : ~~ has_lf path ->
  files path = Some (String "a" (String CR (String LF "b"))) ->
  (getlines h (SText path)).2 = Ok [:: "a"; "b"]%string /\
  (getlines h (SText (String "a" (String CR (String LF "b"))))).2 = Ok [:: String "a" (String CR ""); "b"%string].
Proof. by move=> H E; rewrite /= (negbTE H) E. Qed.
End C35.
Example C35_witness (s := ("a" ++ nl ++ nl ++ "b")%string) : [/\ has_lf s, ~~ has_cr s & ~~ ends_lf s].
Proof. by []. Qed.

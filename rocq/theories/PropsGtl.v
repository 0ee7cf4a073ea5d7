(** Property C46 *)
From mathcomp Require Import all_ssreflect.
From Coq Require Import String.
From Verif Require Import Base GtlModel GtlThm.
Set Implicit Arguments.
Unset Strict Implicit.
Unset Printing Implicit Defensive.
Local Open Scope string_scope.
Local Open Scope seq_scope.

Section C46.
Variable num : Type.
Variable binop : op -> num -> num -> res num.
Variable neg : num -> num.
Variable as_count : num -> option nat.
Variable parse : string -> option (expr num).
Variable fn : string -> option (num -> res num).
Notation vars := (vars num).
Notation resolve := (resolve binop neg as_count parse fn).
Notation denotes := (denotes binop neg parse fn).
Notation VStr := (VStr num).
Notation EVar := (EVar num).
Implicit Types (vs : vars).

(** no variable is defined by way of itself *)
Definition acyclic vs : Prop := exists rank : string -> nat, forall x t e y,
  dget vs x = Some (VStr t) -> parse t = Some e -> y \in names e -> is_text vs y -> rank y < rank x.
(** no text adds two variables that are texts or multiplies with one *)
Definition all_plain vs : Prop := forall x t e, dget vs x = Some (VStr t) -> parse t = Some e -> plain vs e.

(** the loop ends; when it does not raise, a variable has become the number a exactly if it
    stands for a *)
Theorem C46_resolved vs : uniq (dkeys vs) -> acyclic vs -> all_plain vs ->
  exists n r, resolve n vs = Some r /\
  forall vs', r = Ok vs' -> dkeys vs' = dkeys vs /\ forall x a, dget vs' x = Some (VNum a) <-> denotes vs (EVar x) a.
Proof.
move=> Hu [rank Hr] Hp; exists (mass vs rank vs).+1.
have [r [E H]] := @resolve_total num binop neg as_count parse fn vs Hu rank Hr Hp _ vs (inv0 _ _ _ _ _ _) (ltnSn _); exists r; split=> // vs' /H [Hi Hpass].
split; first by case: Hi.
move=> x a; split; last exact: (resolved Hu Hr Hi Hpass).
case: Hi => _ /(_ x); case E0: (dget vs x) => [[b|t]|]; case: (dget vs' x) => [[c|t']|] //.
  by move=> Eb [<-]; rewrite -Eb; apply: DVarN.
by move=> D [<-].
Qed.
(** the order of the definitions does not matter *)
Theorem C46_order vs1 vs2 : uniq (dkeys vs1) -> uniq (dkeys vs2) -> (forall x, dget vs1 x = dget vs2 x) ->
  acyclic vs1 -> all_plain vs1 ->
  forall n1 n2 w1 w2, resolve n1 vs1 = Some (Ok w1) -> resolve n2 vs2 = Some (Ok w2) ->
  forall x a, dget w1 x = Some (VNum a) <-> dget w2 x = Some (VNum a).
Proof.
have Hdet n1 n2 vs r1 r2 : resolve n1 vs = Some r1 -> resolve n2 vs = Some r2 -> r1 = r2.
  elim: n1 n2 vs => [|n1 IH] [|n2] vs //=; case: (pass _ _ _ _ _ vs vs) => [[|f fs]|x]; last by move=> [<-] [<-].
    by move=> [<-] [<-].
  exact: IH.
have Hden vs vs' e a : (forall x, dget vs x = dget vs' x) -> denotes vs e a -> denotes vs' e a.
  move=> Hd; elim=> {e a} *; econstructor; rewrite -?Hd; by eauto.
have Htx vs vs' : (forall x, dget vs x = dget vs' x) -> forall x, is_text vs x = is_text vs' x.
  by move=> Hd x; rewrite /is_text Hd.
move=> Hu1 Hu2 Hd Ha Hp n1 n2 w1 w2 E1 E2 x a.
have [m1 [r1 [F1 /(_ w1)]]] := C46_resolved Hu1 Ha Hp; rewrite (Hdet _ _ _ _ _ F1 E1) => /(_ erefl) [_ H1].
have Ha2 : acyclic vs2.
  case: Ha => rank Hr; exists rank => x' t e y; rewrite -Hd -(Htx _ _ Hd); exact: Hr.
have Hp2 : all_plain vs2.
  move=> x' t e; rewrite -Hd => Hx He; have := Hp _ _ _ Hx He.
  have Hpl e' : plain vs1 e' = plain vs2 e'.
    have Ht e0 : text_var vs1 e0 = text_var vs2 e0 by case: e0 => //= y; exact: Htx.
    by elim: e' => [|||o e1 IH1 e2 IH2|] //=; rewrite IH1 IH2 !Ht.
  by rewrite Hpl.
have [m2 [r2 [F2 /(_ w2)]]] := C46_resolved Hu2 Ha2 Hp2; rewrite (Hdet _ _ _ _ _ F2 E2) => /(_ erefl) [_ H2].
rewrite H1 H2; split; apply: Hden => // y; by rewrite Hd.
Qed.

(** the caller's variables before the model's global ones before the local ones *)
Theorem C46_precedence (loc glo caller : vars) x : uniq (dkeys caller) -> uniq (dkeys glo) ->
  dget (all_vars loc glo caller) x =
  if dget caller x is Some v then Some v else if dget glo x is Some v then Some v else dget loc x.
Proof.
have H (d e : vars) : uniq (dkeys e) -> dget (dupd d e) x = if dget e x is Some v then Some v else dget d x.
  elim: e d => [|[k v] e IH] d //= /andP [Hk Hu]; rewrite IH // dget_dset; case: (x =P k) => [->|_] //.
  have : dhas e k = false by rewrite dhasE; apply/negbTE.
  by rewrite /dhas; case: (dget e k).
have Hkeys (d e : vars) : uniq (dkeys d) -> uniq (dkeys (dupd d e)).
  elim: e d => [|[k v] e IH] d //= Hu; apply: IH; rewrite dkeys_dset; case: ifP => // Hk.
  by rewrite rcons_uniq Hk.
by move=> Hc Hg; rewrite /all_vars H ?Hkeys // H //; case: (dget caller x).
Qed.

(** what the evaluation of an expression fails with, its names standing for numbers *)
Inductive fails vs : expr num -> exn -> Prop :=
  | FNeg e x : fails vs e x -> fails vs (ENeg e) x
  | FLeft o e1 e2 x : fails vs e1 x -> fails vs (EBin o e1 e2) x
  | FRight o e1 e2 a x : denotes vs e1 a -> fails vs e2 x -> fails vs (EBin o e1 e2) x
  | FBin o e1 e2 a b x : denotes vs e1 a -> denotes vs e2 b -> binop o a b = Raise x -> fails vs (EBin o e1 e2) x
  | FArg f g e x : fn f = Some g -> fails vs e x -> fails vs (ECall f e) x
  | FCall f g e a x : fn f = Some g -> denotes vs e a -> g a = Raise x -> fails vs (ECall f e) x.

(** a definition that fails with an error other than NameError and TypeError makes the loop
    raise *)
Theorem C46_reported vs : uniq (dkeys vs) -> acyclic vs -> all_plain vs ->
  forall x t e err, dget vs x = Some (VStr t) -> parse t = Some e -> fails vs e err ->
  err <> NameError -> err <> TypeError ->
  exists n err', resolve n vs = Some (Raise err').
Proof.
move=> Hu [rank Hr] Hp x t e err Hx He Hf Hn1 Hn2; exists (mass vs rank vs).+1.
have Hi0 := @inv0 num binop neg parse fn vs rank.
have [[vs1|err1] [E H]] := @resolve_total num binop neg as_count parse fn vs Hu rank Hr Hp _ vs Hi0 (ltnSn _); last by exists err1.
exfalso; have [Hi Hpass] := H _ erefl.
have Hev : ev binop neg as_count fn vs1 e = Raise err.
  have Hnum e' a : denotes vs e' a -> ev binop neg as_count fn vs1 e' = Ok (VNum a).
    move=> D; apply: (ev_total as_count Hi D) => y Hy; have [b Db] := denotes_names D Hy.
    exists b; exact: (resolved Hu Hr Hi Hpass).
  elim: Hf {He} Hn1 Hn2 => {e err} [e x0 _ IH|o e1 e2 x0 _ IH|o e1 e2 a x0 D _ IH|o e1 e2 a b x0 D1 D2 Eb|f g e x0 Ef _ IH|f g e a x0 Ef D Eg] H1 H2 /=.
  - by rewrite IH.
  - by rewrite IH.
  - by rewrite (Hnum _ _ D) IH.
  - by rewrite (Hnum _ _ D1) (Hnum _ _ D2) /= vbin_num Eb.
  - by rewrite Ef IH.
  - by rewrite Ef (Hnum _ _ D) /= Eg.
have Hnd a : ~ denotes vs e a.
  have Hnum e' a' : denotes vs e' a' -> ev binop neg as_count fn vs1 e' = Ok (VNum a').
    move=> D; apply: (ev_total as_count Hi D) => y Hy; have [b Db] := denotes_names D Hy.
    exists b; exact: (resolved Hu Hr Hi Hpass).
  by move/Hnum; rewrite Hev.
have Hnv y : e <> EVar y by move=> Ey; move: Hf; rewrite Ey => G; inversion G.
suff Hk : dget vs1 x = Some (VStr t).
  have := @pass_dget num binop neg as_count parse fn vs1 vs1 [::] x; rewrite (proj1 Hi) Hk => /(_ Hu Hpass).
  by rewrite /try_eval He Hev; case: err Hn1 Hn2 {Hf Hev}.
move: (mass vs rank vs).+1 E => n {H}.
suff G w : dget w x = Some (VStr t) -> inv binop neg parse fn vs rank w -> resolve n w = Some (Ok vs1) ->
    dget vs1 x = Some (VStr t) by exact: G.
elim: n w => [|n IH] w //= Hw Hiw.
case Ep: (pass _ _ _ _ _ w w) => [[|q qs]|] //; first by case=> <-.
apply: IH; last by case: (pass_inv Hu Hr Hp Hiw Ep).
rewrite dget_update Hw; have := @pass_dget num binop neg as_count parse fn w w (q :: qs) x.
rewrite (proj1 Hiw) Hw => /(_ Hu Ep); case Ed: (dget _ x) => [v|] // /try_evalP [e' He' Hv].
move: He'; rewrite He => -[Ee]; rewrite -Ee in Hv.
have := ev_inv Hiw (Hp _ _ _ Hx He) Hv; case: v {Ed Hv} => [a /Hnd|t' [y [/Hnv]]] //.
Qed.

(** the loop raises only what an operator or a function raises, never NameError or TypeError *)
Theorem C46_raises n vs err : resolve n vs = Some (Raise err) ->
  [/\ err <> NameError, err <> TypeError &
   (exists o a b, binop o a b = Raise err) \/ (exists f g a, fn f = Some g /\ g a = Raise err)].
Proof.
have Hev w e x : ev binop neg as_count fn w e = Raise x ->
  [\/ x = NameError, x = TypeError | (exists o a b, binop o a b = Raise x) \/ (exists f g a, fn f = Some g /\ g a = Raise x)].
  elim: e => [a|y|e IH|o e1 IH1 e2 IH2|f e IH] //=.
  - by case: (dget w y) => // -[<-]; constructor 1.
  - case E: (ev _ _ _ _ w e) IH => [[a|t]|x'] //= _; by case=> <-; constructor 2.
  - case E1: (ev _ _ _ _ w e1) IH1 => [v1|x'] //= _.
    case E2: (ev _ _ _ _ w e2) IH2 => [v2|x'] //= _.
    case: v1 {E1} => [a|s1]; case: v2 {E2} => [b|s2].
    + rewrite vbin_num; case Eb: (binop o a b) => [|x'] //= [<-]; constructor 3; left; by exists o, a, b.
    + by case: o => /=; try (by case=> <-; constructor 2); case: (as_count a) => //; case=> <-; constructor 2.
    + by case: o => /=; try (by case=> <-; constructor 2); case: (as_count b) => //; case=> <-; constructor 2.
    + by case: o => //=; case=> <-; constructor 2.
  - case Ef: (fn f) => [g|]; last by case=> <-; constructor 1.
    case E: (ev _ _ _ _ w e) IH => [[a|t]|x'] //= _.
      case Eg: (g a) => [|x'] //= [<-]; constructor 3; right; by exists f, g, a.
    by case=> <-; constructor 2.
elim: n vs => [|n IH] vs //=; case Ep: (pass _ _ _ _ _ vs vs) => [[|q qs]|x] //; first exact: IH.
case=> <-; move: {2}vs Ep => l; elim: l => [|[y [a|t]] l IHl] //=.
case Et: (try_eval _ _ _ _ _ vs t) => [r|x'] /=.
  by case E: (pass _ _ _ _ _ vs l) IHl => [|x'] //= IHl [<-]; exact: IHl.
case=> <-; move: Et; rewrite /try_eval; case: (parse t) => // e.
case E: (ev _ _ _ _ vs e) => [|x2] //.
by have := Hev _ _ _ E; case: x2 {E} => //= H [<-]; split=> //; case: H.
Qed.

(** a circular definition: for ever *)
Theorem C46_self_refuted n : parse "x" = Some (EVar "x") -> resolve n [:: ("x", VStr "x")] = None.
Proof. by move=> E; elim: n => //= n IH; rewrite /try_eval E /= /update /=. Qed.
Theorem C46_mutual_refuted n : parse "a" = Some (EVar "a") -> parse "b" = Some (EVar "b") ->
  resolve n [:: ("a", VStr "b"); ("b", VStr "a")] = None.
Proof.
move=> Ea Eb; suff : resolve n [:: ("a", VStr "b"); ("b", VStr "a")] = None /\ resolve n [:: ("a", VStr "a"); ("b", VStr "b")] = None by case.
elim: n => //= n [IH1 IH2]; rewrite /try_eval Ea Eb /= /update /=.
by split.
Qed.
(** or not reported either *)
Theorem C46_unreported_refuted one : parse "x+1" = Some (EBin Add (EVar "x") (ENum one)) ->
  resolve 1 [:: ("x", VStr "x+1")] = Some (Ok [:: ("x", VStr "x+1")]).
Proof. by move=> E; rewrite /= /try_eval E. Qed.
(** a product with a variable given as text repeats the text: y = '3', x = 'y*2' gives 33 *)
Theorem C46_product_refuted two three six n33 : parse "3" = Some (ENum three) -> parse "33" = Some (ENum n33) ->
  parse "y*2" = Some (EBin Mul (EVar "y") (ENum two)) -> as_count two = Some 2 ->
  binop Mul three two = Ok six ->
  let vs := [:: ("x", VStr "y*2"); ("y", VStr "3")] in
  resolve 3 vs = Some (Ok [:: ("x", VNum n33); ("y", VNum three)]) /\ denotes vs (EVar "x") six.
Proof.
move=> E3 E33 Ey E2 E6 vs; split.
  by rewrite /= /try_eval Ey E3 /= E2 /= /update /= /try_eval E33 /= /update /=.
apply: DVarT Ey _; first by [].
apply: DBin E6; last by constructor.
by apply: DVarT E3 _; [|constructor].
Qed.
(** a sum of two joins them: 1 + 2 gives 12 *)
Theorem C46_sum_refuted one two n12 : parse "1" = Some (ENum one) -> parse "2" = Some (ENum two) ->
  parse "12" = Some (ENum n12) -> parse "y+z" = Some (EBin Add (EVar "y") (EVar "z")) ->
  resolve 3 [:: ("x", VStr "y+z"); ("y", VStr "1"); ("z", VStr "2")] =
  Some (Ok [:: ("x", VNum n12); ("y", VNum one); ("z", VNum two)]).
Proof. by move=> E1 E2 E12 Ey; rewrite /= /try_eval Ey E1 E2 /= /update /= /try_eval E12 /= /update /=. Qed.
End C46.

(** defined after use, two levels *)
Example C46_witness (num := nat) (binop := fun (o : op) a b => Ok (a + b)) (neg := fun a : nat => a)
  (parse := fun s : string => if s == "y+1" then Some (EBin Add (EVar nat "y") (ENum 1)) else
                    if s == "z" then Some (EVar nat "z") else if s == "4" then Some (ENum 4) else None)
  (vs := [:: ("x", VStr nat "y+1"); ("y", VStr nat "z"); ("z", VStr nat "4")]) :
  [/\ uniq (dkeys vs), acyclic parse vs, all_plain parse vs &
  resolve binop neg (fun n => Some n) parse (fun _ => None) 5 vs = Some (Ok [:: ("x", VNum 5); ("y", VNum 4); ("z", VNum 4)])].
Proof.
split=> //.
  exists (fun s : string => if s == "x" then 2 else if s == "y" then 1 else 0) => x t e y /=.
  case: (x =P "x") => [_ [<-]|_].
    by move=> [<-]; rewrite inE => /eqP ->.
  case: (x =P "y") => [_ [<-]|_].
    by move=> [<-]; rewrite inE => /eqP ->.
  by case: (x =P "z") => [_ [<-] [<-]|].
move=> x t e /=; case: (x =P "x") => [_ [<-] [<-] //|_]; case: (x =P "y") => [_ [<-] [<-] //|_].
by case: (x =P "z") => [_ [<-] [<-]|].
Qed.

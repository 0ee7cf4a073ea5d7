(** rfObject made from an array (C56) and rfObject through pickle (C57).
    rfObject.__init__ 104-218, __getstate__ and __setstate__ 253-283. *)
From mathcomp Require Import all_ssreflect all_algebra.
From Coq Require Import String Ascii DecimalString DecimalNat.
From Verif Require Import Base ConvModel DevModel CircModel ObjModel.
Set Implicit Arguments.
Unset Strict Implicit.
Unset Printing Implicit Defensive.
Import Order.TTheory GRing.Theory Num.Theory.
Local Open Scope ring_scope.
Local Open Scope seq_scope.

(** f'm{k:03d}', 130: at least three digits *)
Fixpoint zeros (n : nat) (s : string) : string := if n is n'.+1 then String "0"%char (zeros n' s) else s.
Definition mname (k : nat) : string := String "m"%char (zeros (3 - String.length (dec k)) (dec k)).

Section ObjArr.
Variable C : numClosedFieldType.
Variable F : realFieldType.

(** the positional argument: no list or array at all; a list whose rows do not fit together
    (np.array raises ValueError); what np.array gives *)
Inductive arr_arg := ANone | ARagged | AArr of nd C.

(** 1e18, 132 *)
Definition ftop : F := 10%:R ^+ 18.

(** rfObject(a, ports=ports, Zbase=zb, funit=..., touchstone=...), 104-218.  ports: the
    list given (the words of a string), [::] when not given; ts: whether a touchstone is given
    (without a positional argument: not modelled) *)
Definition from_array (a : arr_arg) (ports : seq string) (ts : bool) (zb : C) (fscale : F) : res (obj C F) :=
  match a with
  | ANone => Raise TypeError                                                  (* 108 *)
  | ARagged => Raise ValueError                                               (* 113 *)
  | AArr (@Nd2 _ m n M) =>
    if sq M is Some Sm then                                                   (* 120 *)
      if (ports != [::]) && (size ports != m) then Raise ValueError else      (* 156 *)
      if ts then Raise ValueError else                                        (* 198 *)
      Ok (Obj (if ports == [::] then [seq mname k | k <- iota 1 m] else ports)
          zb fscale [:: 0; ftop] [:: AM Sm; AM Sm] m true 0 m None)
    else Raise TypeError
  | AArr _ => Raise TypeError                                                 (* 115 *)
  end.

(** ** interpolation in a table of two rows, _interp_ 449-502: kind is then 1, a straight
    line, also outside the table ('fill_value': 'extrapolate' in config.py 213).  MA: modulus and
    unwrapped angle; dB: logarithm, its imaginary part unwrapped; RI: real and imaginary
    part.  [rest]: tables of another length. *)
Inductive imode := IMA | IDB | IRI.
Variables (inj : F -> C) (angle cis lre lim expc : C -> C) (pi : C) (wrap : C -> C -> C).
Variable rest : seq F -> seq (amx C) -> res (F -> res (amx C)).

(** np.unwrap of two values: a jump of less than pi stays *)
Definition unwrap2 (a b : C) : C := if `|b - a| < pi then b else wrap a b.
Definition parts (m : imode) (s : C) : C * C :=
  match m with IMA => (`|s|, angle s) | IDB => (lre s, lim s) | IRI => ('Re s, 'Im s) end.
Definition whole (m : imode) (p : C * C) : C :=
  match m with IMA => p.1 * cis p.2 | IDB => expc (p.1 + 'i * p.2) | IRI => p.1 + 'i * p.2 end.
Definition line2 (x1 x2 : F) (y1 y2 : C) (x : F) : C := y1 + inj ((x - x1) / (x2 - x1)) * (y2 - y1).
Definition interp1 (m : imode) (x1 x2 x : F) (s1 s2 : C) : C :=
  let p1 := parts m s1 in let p2 := parts m s2 in
  let a2 := if m is IRI then p2.2 else unwrap2 p1.2 p2.2 in
  whole m (line2 x1 x2 p1.1 p2.1 x, line2 x1 x2 p1.2 a2 x).
Definition interp2 (m : imode) (fs : seq F) (Ss : seq (amx C)) : res (F -> res (amx C)) :=
  match fs, Ss with
  | [:: x1; x2], [:: A1; A2] =>
    if x1 == x2 then Raise ValueError else
    Ok (fun x => Ok (AM (\matrix_(i < adim A1, j < adim A1) interp1 m x1 x2 x (mget A1 i j) (mget A2 i j))))
  | _, _ => rest fs Ss
  end.

(** ** pickle.loads(pickle.dumps(o)), 253-283: the arrays become lists and arrays again, by
    which an array without rows loses its other dimensions (a dimension that is gone is 0
    here: every index is out of range); the interpolation is dropped *)
Definition unpickled (o : obj C F) : obj C F :=
  Obj (o_ports o) (o_zb o) (o_fscale o) (o_fs o) (o_Ss o) (if o_Ss o is [::] then 0%N else o_sh o) (o_sorted o)
      (o_zr o) (if o_zr o == 0%N then 0%N else o_zc o) None.

(** ** what calls return *)
Variable interp1d : seq F -> seq (amx C) -> res (F -> res (amx C)).
Variables (argsort : seq F -> seq nat) (dflt : nat -> seq string).
Inductive answer := AUnit of res unit | AS of res (amx C) | ASs of res (seq (amx C)).
Definition reply (o : obj C F) (c : obj_call C F) : obj C F * answer :=
  match c with
  | OSetS f Sm p => let r := obj_setS dflt o f Sm p in (r.1, AUnit r.2)
  | OGetS f u Zb => let r := obj_getS interp1d argsort o f u Zb in (r.1, AS r.2)
  | OGetSs f u Zb => let r := obj_getSs interp1d argsort o f u Zb in (r.1, ASs r.2)
  | OSetItem k f Sm => let r := obj_setitem o k f Sm in (r.1, AUnit r.2)
  | OConvert z => let r := convert2newZbase o z in (r.1, AUnit r.2)
  | _ => (o, AUnit (Ok tt))             (* sortports and deembed: see C30, C31 *)
  end.
Fixpoint replies (o : obj C F) (cs : seq (obj_call C F)) : seq answer :=
  if cs is c :: cs' then let r := reply o c in r.2 :: replies r.1 cs' else [::].
End ObjArr.
Arguments ftop : simpl never.
Arguments from_array {C F}.
Arguments ANone {C}. Arguments ARagged {C}.

(** ** proofs *)
Lemma zeros_uint n s : option_map Nat.of_uint (NilEmpty.uint_of_string (zeros n s)) = option_map Nat.of_uint (NilEmpty.uint_of_string s).
Proof. by elim: n => [|n IH] //=; rewrite -IH; case: (NilEmpty.uint_of_string _). Qed.
Lemma mname_inj : injective mname.
Proof.
move=> a b [H]; have := zeros_uint (3 - String.length (dec a)) (dec a).
rewrite H zeros_uint /dec !NilEmpty.usu /= => -[].
by rewrite !DecimalNat.Unsigned.of_to.
Qed.

Section Thm.
Variable C : numClosedFieldType.
Variable F : realFieldType.
Lemma sq_square n (M : 'M[C]_n) : sq M = Some M.
Proof. by rewrite /sq; case: eqP => // E; rewrite (eq_axiomK E). Qed.

Variables (inj : F -> C) (angle cis lre lim expc : C -> C) (pi : C) (wrap : C -> C -> C).
Variable rest : seq F -> seq (amx C) -> res (F -> res (amx C)).
Hypothesis Hpi : 0 < pi.
Hypothesis Hcis : forall s, `|s| * cis (angle s) = s.
Hypothesis Hexp : forall s, s != 0 -> expc (lre s + 'i * lim s) = s.
Local Notation interp2 := (interp2 inj angle cis lre lim expc pi wrap rest).
Local Notation interp1 := (interp1 inj angle cis lre lim expc pi wrap).

Lemma line2_const x1 x2 (y : C) x : line2 inj x1 x2 y y x = y.
Proof. by rewrite /line2 subrr mulr0 addr0. Qed.
Lemma interp1_const m x1 x2 x s : (m = IDB -> s != 0) -> interp1 m x1 x2 x s s = s.
Proof.
rewrite /ObjArr.interp1 /unwrap2 subrr normr0 Hpi => H.
by case: m H => H /=; rewrite !line2_const ?Hcis ?Hexp -?Crect //; exact: H.
Qed.
Lemma interp2_const m n (M : 'M[C]_n) x1 x2 : x1 != x2 -> (m = IDB -> forall i j, M i j != 0) ->
  exists g, interp2 m [:: x1; x2] [:: AM M; AM M] = Ok g /\ forall x, g x = Ok (AM M).
Proof.
move=> Hx HM; rewrite /= (negbTE Hx); eexists; split; first by reflexivity.
move=> x; congr (Ok (AM _)); apply/matrixP => i j; rewrite mxE.
have Eg : mget (AM M) i j = M i j by rewrite /mget /AM !valK.
rewrite -[RHS](@interp1_const m x1 x2 x (M i j)); last by move=> E; exact: HM.
by rewrite -Eg.
Qed.
End Thm.

(** The block objects of an actual circuit: rfRLC, rfTRL (constant parameters),
    rfCoupler and rfBase tables, as one class of block objects (CircSpec.v), with
    the physical laws of DevSpec.v, TrlSpec.v as their meaning. *)
From mathcomp Require Import all_ssreflect all_algebra.
From Coq Require Import String Ascii.
From Coq Require List.
From Verif Require Import Base MxLib ConvModel ConvSpec ConvProofs ConvArr CircApp CircExt CircFill CircSolve DevModel DevSpec DevThm TrlModel TrlSpec TrlThm CircModel CircSpec CircGet CircDev.
Set Implicit Arguments.
Unset Strict Implicit.
Unset Printing Implicit Defensive.
Import Order.TTheory GRing.Theory Num.Theory.
Local Open Scope ring_scope.
Local Open Scope seq_scope.

Section Elem.
Variable C : numClosedFieldType.
Variable Fl : eqType.
Variable tau : C.                  (* 2 pi *)
Variable exp : C -> C.             (* np.exp *)
Variable M : mathlib C.
Variable c0 : C.

(** the frequencies asked for: any but 0 (at f = 0 rfRLC may answer on the wrong
    impedance: C36_dc_refuted) *)
Definition freq : eqType := [eqType of {f : C | f != 0}].
Definition om (f : freq) : C := tau * val f.

(** the resolved parameters of a line: self.rjwL(w,0), self.gjwC(w,0) and the node points *)
Record lpar := Lpar { l_rjwL : C -> C; l_gjwC : C -> C; l_nodes : C -> C -> seq C }.

(** port names, positions (xpos) and the data of DevModel.v, TrlModel.v; ETab: an rfBase
    with a table of matrices, rfBase.py 83-110 *)
Inductive elem :=
  | ERlc of seq string & seq C & rlc C
  | ETrl of seq string & seq C & lpar & trl C
  | ECpl of seq string & seq C & coupler C
  | ETab (ps : seq string) of seq C & C & seq (C * 'M[C]_(size ps)).

(** len(obj): rfRLC.py 149-150 (self.S is a 2 x 2 matrix; after set() has changed a value
    it is None until the next getS, and len raises: ro_len below), rfTRL.py 337-338,
    rfBase.py 183-184 (a coupler has exactly 4 ports: rfCoupler.py 69-73) *)
Definition e_size (e : elem) : nat :=
  match e with ERlc _ _ _ | ETrl _ _ _ _ => 2 | ECpl _ _ _ => 4 | ETab ps _ _ _ => size ps end.
Definition e_ports (e : elem) : seq string :=
  match e with ERlc ps _ _ | ETrl ps _ _ _ | ECpl ps _ _ | ETab ps _ _ _ => ps end.
Definition e_xpos (e : elem) : seq C :=
  match e with ERlc _ xs _ | ETrl _ xs _ _ | ECpl _ xs _ | ETab _ xs _ _ => xs end.

(** rfRLC.set, rfRLC.py 156-178: keywords in order; an unknown one raises, the ones before
    it are set.  Rs, Ls, Cp = inf (which getS turns into nan) is refused here.  The result is
    whether a value has changed. *)
Definition rlc_get (o : rlc C) (k : string) : option (ext C) :=
  if k == "Rs"%string then Some (Fin (Rs o)) else if k == "Ls"%string then Some (Fin (Ls o))
  else if k == "Cs"%string then Some (Cs o) else if k == "Rp"%string then Some (Rp o)
  else if k == "Lp"%string then Some (Lp o) else if k == "Cp"%string then Some (Fin (Cp o)) else None.
Definition rlc_put (o : rlc C) (k : string) (v : ext C) : option (rlc C) :=
  if k == "Rs"%string then if v is Fin x then Some (Rlc x (Ls o) (Cs o) (Rp o) (Lp o) (Cp o) (rlc_zb o)) else None
  else if k == "Ls"%string then if v is Fin x then Some (Rlc (Rs o) x (Cs o) (Rp o) (Lp o) (Cp o) (rlc_zb o)) else None
  else if k == "Cs"%string then Some (Rlc (Rs o) (Ls o) v (Rp o) (Lp o) (Cp o) (rlc_zb o))
  else if k == "Rp"%string then Some (Rlc (Rs o) (Ls o) (Cs o) v (Lp o) (Cp o) (rlc_zb o))
  else if k == "Lp"%string then Some (Rlc (Rs o) (Ls o) (Cs o) (Rp o) v (Cp o) (rlc_zb o))
  else if k == "Cp"%string then if v is Fin x then Some (Rlc (Rs o) (Ls o) (Cs o) (Rp o) (Lp o) x (rlc_zb o)) else None
  else None.
Definition ext_eq (x y : ext C) : bool :=
  match x, y with Fin a, Fin b => a == b | Inf, Inf => true | _, _ => false end.
Fixpoint rlc_kw (o : rlc C) (kw : seq (string * ext C)) (m : bool) : rlc C * res bool :=
  match kw with
  | [::] => (o, Ok m)
  | (k, v) :: kw' =>
    match rlc_get o k, rlc_put o k v with
    | Some v0, Some o' => rlc_kw o' kw' (m || ~~ ext_eq v0 v)
    | _, _ => (o, Raise ValueError)
    end
  end.
(** an rfRLC object with what it keeps of its last matrix: whether self.S is an array (not
    None); rfRLC.py 80 (a through, after __init__), 170-171, 197-245; len(obj) is
    len(self.S), 149-150.  A getS that raises leaves self.S. *)
Record rlc_obj := RlcObj { ro_rlc : rlc C; ro_S : bool }.
Definition new_rlc (o : rlc C) := RlcObj o true.
Definition ro_set (o : rlc_obj) (kw : seq (string * ext C)) : rlc_obj * res bool :=
  let: (r, m) := rlc_kw (ro_rlc o) kw false in
  (RlcObj r (ro_S o && ~~ (if m is Ok b then b else false)), m).
Definition ro_getS (o : rlc_obj) (w : C) (Zb : option C) (p : rlc_params C) : rlc_obj * res 'M[C]_2 :=
  let: (r, _, Sm) := rlc_getS (ro_rlc o) w Zb p in
  (RlcObj r (ro_S o || (if Sm is Ok _ then true else false)), Sm).
Definition ro_len (o : rlc_obj) : res nat := if ro_S o then Ok 2%N else Raise TypeError.

(** rfTRL.set for constant line parameters, rfTRL.py 344-364 (as set_loop of TrlModel.v, with
    the positions, which follow L: 359-360); an infinite L or Zbase is refused here *)
Fixpoint trl_kw (xs : seq C) (o : trl C) (kw : seq (string * ext C)) : seq C * trl C * res unit :=
  match kw with
  | [::] => (xs, with_solved o [::], Ok tt)                                   (* 362 *)
  | (k, Fin v) :: kw' =>
    if k == "L"%string then trl_kw [:: xs`_0; v + xs`_0] (Trl v (t_zb o) (t_solved o)) kw'
    else if k == "Zbase"%string then trl_kw xs (Trl (t_L o) v (t_solved o)) kw'
    else (xs, o, Raise ValueError)
  | _ => (xs, o, Raise ValueError)
  end.
(** rfBase.set, rfBase.py 214-240, with the empty list of settable attributes these objects
    have (136; rfCoupler adds none) *)
Definition e_set (kw : seq (string * ext C)) (e : elem) : elem * res unit :=
  match e with
  | ERlc ps xs o => let r := rlc_kw o kw false in (ERlc ps xs r.1, rmap (fun _ => tt) r.2)
  | ETrl ps xs l o => let: (xs', o', r) := trl_kw xs o kw in (ETrl ps xs' l o', r)
  | _ => (e, if kw is [::] then Ok tt else Raise ValueError)
  end.

(** the keywords considered: Zbase = 0 (accepted by rfTRL.set) leaves a line that can only
    raise *)
Definition prm_ok (kw : seq (string * ext C)) : bool :=
  all (fun kv => (kv.1 == "Zbase"%string) ==> ~~ ext_eq kv.2 (Fin 0)) kw.

(** obj.getS(f, Zbase=z, params={}, flags=...): rfRLC.py 181-255, rfTRL.py 528-566,
    rfBase.py 270-287 with get1S of rfCoupler.py 149-171 and rfBase.py 244-264 *)
Definition e_getS (f : freq) (z : C) (fl : Fl) (e : elem) : elem * res (rows C) :=
  match e with
  | ERlc ps xs o => let: (o', _, r) := rlc_getS o (om f) (Some z) (no_params C) in
                    (ERlc ps xs o', rmap (@rows_of C 2 2) r)
  | ETrl ps xs l o => let: (o', r) := trl_getS exp (l_rjwL l) (l_gjwC l) (l_nodes l) o (om f) (Some z) [::] in
                      (ETrl ps xs l o', rmap (@rows_of C 2 2) r)
  | ECpl ps xs o => (e, rmap (@rows_of C 4 4) (base_getS (coupler_get1S M c0 o) (cp_zb o) (val f) (Some z)))
  | ETab ps xs zb tab => (e, rmap (@rows_of C _ _) (base_getS (tab_get1S tab) zb (val f) (Some z)))
  end.

Definition elem_ocls : ocls C freq Fl := {|
  ocar := elem;
  osize := e_size;
  oports := fun e => Some (e_ports e);
  oxpos := fun e => Some (e_xpos e);
  oprm := {kw : seq (string * ext C) | prm_ok kw};
  oset := fun kw => e_set (proj1_sig kw);
  ogetS := e_getS |}.

(** a well-formed object: non-zero reference impedance, a position for every port, the node
    points of a line from 0 to its length *)
Definition e_inv (e : elem) : Prop :=
  match e with
  | ERlc ps xs o => (2 <= size xs)%N
  | ETrl ps xs l o => [/\ (2 <= size xs)%N, t_zb o != 0 & good_nodes (l_nodes l)]
  | ECpl ps xs o => [/\ (4 <= size xs)%N & cp_zb o != 0]
  | ETab ps xs zb tab => [/\ (size ps <= size xs)%N & zb != 0]
  end.

(** the physical law between the voltages and inward currents at the ports *)
Definition e_den (e : elem) (f : freq) (fl : Fl) (v i : vi C) : Prop :=
  match e with
  | ERlc ps xs o => rlc_law ('i * om f) o (v 0%N) (v 1%N) (i 0%N) (i 1%N)
  | ETrl ps xs l o => tl_law exp (l_rjwL l) (l_gjwC l) (t_L o) (om f) (v 0%N) (v 1%N) (i 0%N) (i 1%N)
  | ECpl ps xs o => exists2 S, coupler_get1S M c0 o (val f) = Ok S & rel_S (cp_zb o) 4 (rows_of S) v i
  | ETab ps xs zb tab => exists2 S, tab_get1S tab (val f) = Ok S & rel_S zb (size ps) (rows_of S) v i
  end.

(** reciprocal elements: all but degenerate lines and non-symmetric tables *)
Definition recip_elem (f : freq) (e : elem) : Prop :=
  match e with
  | ETrl _ _ l o => t_L o = 0 \/ (l_rjwL l (om f) != 0 /\ l_gjwC l (om f) != 0)
  | ETab _ _ _ tab => forall S, tab_get1S tab (val f) = Ok S -> symmetric S
  | _ => True
  end.
(** passive elements: non-negative element values; lines with a positive characteristic
    impedance on which a wave does not grow; couplers with a coupling of at most 1; tables
    with passive matrices on positive reference impedances *)
Definition passive_elem (f : freq) (e : elem) : Prop :=
  match e with
  | ERlc _ _ o => rlc_passive o
  | ETrl _ _ l o => t_L o = 0 \/
      (0 < Zchar (l_rjwL l) (l_gjwC l) (om f) /\ 1 <= `|exp (gam (l_rjwL l) (l_gjwC l) (om f) * t_L o)|)
  | ECpl _ _ o => [/\ 0 < cp_zb o, cp_kc o \is Num.real, cp_kc o ^+ 2 <= 1 & trig_at M (angle M c0 o (val f))]
  | ETab _ _ zb tab => 0 < zb /\ forall S, tab_get1S tab (val f) = Ok S -> passive S
  end.
Definition lossless_elem (f : freq) (e : elem) : Prop :=
  match e with
  | ERlc _ _ o => rlc_lossless o
  | ETrl _ _ l o => t_L o = 0 \/
      [/\ Zchar (l_rjwL l) (l_gjwC l) (om f) \is Num.real, Zchar (l_rjwL l) (l_gjwC l) (om f) != 0 &
          `|exp (gam (l_rjwL l) (l_gjwC l) (om f) * t_L o)| = 1]
  | ECpl _ _ o => [/\ 0 < cp_zb o, cp_kc o \is Num.real, cp_kc o ^+ 2 <= 1 & trig_at M (angle M c0 o (val f))]
  | ETab _ _ zb tab => 0 < zb /\ forall S, tab_get1S tab (val f) = Ok S -> unitary S
  end.
(** elements whose getS on the impedance z cannot fail: RLC elements and lines are
    characterised by their values, the others by the call *)
Definition defined_elem (f : freq) (fl : Fl) (z : C) (e : elem) : Prop :=
  match e with
  | ERlc _ _ o => rlc_passive o /\ ok_values o
  | ETrl _ _ l o => t_L o = 0 \/
      [/\ 0 < t_zb o, 0 < Zchar (l_rjwL l) (l_gjwC l) (om f), gam (l_rjwL l) (l_gjwC l) (om f) != 0,
          (forall x, exp (gam (l_rjwL l) (l_gjwC l) (om f) * x) != 0) &
          1 <= `|exp (gam (l_rjwL l) (l_gjwC l) (om f) * t_L o)|]
  | _ => exists S, (e_getS f z fl e).2 = Ok S
  end.

Hypothesis Htau : tau != 0.

Lemma om_neq0 f : om f != 0.
Proof. by rewrite mulf_neq0 // (valP f). Qed.

Lemma col2v (v : vi C) : \col_k v (val k) = col2 (v 0%N) (v 1%N).
Proof. by apply/cV_extP; apply: ord2P; rewrite !mxE. Qed.

Lemma rel_S2 z (S : 'M[C]_2) (v i : vi C) :
  rel_S z 2 (rows_of S) v i <-> relates "V" (const_mx z) S (col2 (v 0%N) (v 1%N)) (col2 (i 0%N) (i 1%N)).
Proof. by rewrite rel_S_mx mx_of_rows !col2v. Qed.

Lemma trl_after l (o : trl C) w Zb :
  let o' := (trl_getS exp (l_rjwL l) (l_gjwC l) (l_nodes l) o w Zb [::]).1 in
  t_L o' = t_L o /\ t_zb o' = t_zb o.
Proof.
rewrite /TrlModel.trl_getS trl_set_nil.
have H := get1S_consistent (exp := exp) (rjwL := l_rjwL l) (gjwC := l_gjwC l) (nodes := l_nodes l) (o := with_solved o [::]) Zb w.
by case: (H (@consistent_nil _ _ _ _ _ o)).
Qed.

Lemma base_rel n (T : Type) (g : T -> res 'M[C]_n) zb f z S : zb != 0 -> z != 0 ->
  base_getS g zb f (Some z) = Ok S ->
  forall v i, (exists2 S0, g f = Ok S0 & rel_S zb n (rows_of S0) v i) <-> rel_S z n (rows_of S) v i.
Proof.
move=> Hb Hz /base_getS_iff [S0 E0 /= E] v i.
have H : rel_S z n (rows_of S) v i <-> rel_S zb n (rows_of S0) v i.
  rewrite !rel_S_mx !mx_of_rows; case: ifP E => [_ E|/negbFE/eqP -> -> //].
  have Hc := iffLR (@convert1_iff C n "V" "V" (const_mx zb) (const_mx z) S0 S erefl erefl (admV Hb) (admV Hz)) E.
  by rewrite Hc.
by rewrite H; split=> [[S1]|H1]; [rewrite E0 => -[<-]|exists S0].
Qed.

Definition elem_cls : vcls C freq Fl.
Proof.
refine (@Vcls C freq Fl elem_ocls e_inv e_den _ _ _).
- case=> [ps xs o|ps xs l o|ps xs o|ps xs zb tab] f fl v i v' i' /= H.
  + by have [<- <-] := H 0%N isT; have [<- <-] := H 1%N isT.
  + by have [<- <-] := H 0%N isT; have [<- <-] := H 1%N isT.
  + by case=> S E HS; exists S => //; apply: rel_S_ext HS => k Hk; apply: H.
  + by case=> S E HS; exists S => //; exact: rel_S_ext HS.
- case=> [ps xs o|ps xs l o|ps xs o|ps xs zb tab] /= H ys [<-] //.
  + by case: H.
  + by case: H.
  + by case: H.
case=> [ps xs o|ps xs l o|ps xs o|ps xs zb tab] f z fl Ho Hz.
- have Eg : e_getS f z fl (ERlc ps xs o) = (ERlc ps xs o, rmap (@rows_of C 2 2) (rlc_get1S o z (om f))).
    by case: o {Ho}.
  rewrite [ogetS _ _ _ _]Eg; split=> // S; rewrite [Datatypes.snd _]/=.
  case E: (rlc_get1S _ _ _) => [S0|//] [<-]; split; first exact: rows_shape.
  move=> v i; rewrite rel_S2; have [H _] := rlc_sound Hz E.
  by apply: H => -[/eqP]; rewrite (negbTE (om_neq0 f)).
- have [H1 H2 H3] := Ho; have [E1 E2] := trl_after l o (om f) (Some z).
  rewrite /elem_ocls /e_getS /=; case E: (trl_getS _ _ _ _ _ _ _ _) E1 E2 => [o' r] /= E1 E2; split=> //.
  + by rewrite /= E2.
  + by move=> f' fl' v i; rewrite /= E1.
  move=> S; case: r E => [S0|//] E [<-]; split; first exact: rows_shape.
  move=> v i; rewrite rel_S2.
  have H := @trl_getS_law C exp (l_rjwL l) (l_gjwC l) (l_nodes l) H3 o (om f) (Some z) [::] S0.
  have Ez : zref0 o (Some z) = z by rewrite /zref0 /= (negbTE Hz).
  rewrite trl_set_nil /= in H; have Ez' : zref0 (with_solved o [::]) (Some z) = z by [].
  by rewrite Ez' in H; apply: H => //; rewrite E.
- have [H1 H2] := Ho; rewrite /elem_ocls /e_getS /=; split=> // S.
  case E: (base_getS _ _ _ _) => [S0|//] [<-]; split; first exact: rows_shape.
  exact: base_rel H2 Hz E.
have [H1 H2] := Ho; rewrite /elem_ocls /e_getS /=; split=> // S.
case E: (base_getS _ _ _ _) => [S0|//] [<-]; split; first exact: rows_shape.
exact: base_rel H2 Hz E.
Defined.
End Elem.

(** Concrete block objects: tabulated devices and numpy arrays. *)
From mathcomp Require Import all_ssreflect all_algebra.
From Coq Require Import String Ascii.
From Coq Require List.
From Verif Require Import Base MxLib ConvModel ConvSpec ConvProofs ConvArr CircModel CircSpec CircGet.
Set Implicit Arguments.
Unset Strict Implicit.
Unset Printing Implicit Defensive.
Import Order.TTheory GRing.Theory Num.Theory.
Local Open Scope ring_scope.
Local Open Scope seq_scope.

Section Dev.
Variable C : numClosedFieldType.
Variables F Fl : eqType.

(** An object that computes its scattering matrix on its own reference impedance
    as a function of the frequency (or raises) and converts it to the requested
    one: rfBase.getS (rfBase.py 244-287), rfObject.getS (rfObject.py 523-561),
    rfTRL.getS, rfCoupler.getS for frequencies given one at a time. *)
Record tdev := TDev {
  t_ports : seq string; t_xpos : option (seq C); t_z : C; t_S : F -> Fl -> res (rows C) }.

Definition tab_ocls : ocls C F Fl := {|
  ocar := tdev;
  osize := fun o => size (t_ports o);
  oports := fun o => Some (t_ports o);
  oxpos := t_xpos;
  oprm := unit;
  oset := fun _ o => (o, Ok tt);
  ogetS := fun f z fl o => (o, do Sm <- t_S o f fl; rebase z (t_z o) Sm) |}.

Definition tab_inv (o : tdev) : Prop :=
  [/\ t_z o != 0, (forall xs, t_xpos o = Some xs -> (size (t_ports o) <= size xs)%N) &
      forall f fl Sm, t_S o f fl = Ok Sm -> shape_ok (size (t_ports o)) Sm].

Definition tab_den (o : tdev) f fl (v i : vi C) : Prop :=
  exists2 Sm, t_S o f fl = Ok Sm & rel_S (t_z o) (size (t_ports o)) Sm v i.

Lemma rel_S_ext z n (S : rows C) (v i v' i' : vi C) :
  (forall k, (k < n)%N -> v k = v' k /\ i k = i' k) -> rel_S z n S v i -> rel_S z n S v' i'.
Proof.
move=> H HS k Hk; have [<- <-] := H k Hk; rewrite HS //.
by apply: eq_bigr => j _; have [-> ->] := H j (ltn_ord j).
Qed.

Definition tab_cls : vcls C F Fl.
Proof.
refine (@Vcls C F Fl tab_ocls tab_inv tab_den _ _ _).
- by move=> o f fl v i v' i' H [Sm E HS]; exists Sm => //; exact: rel_S_ext HS.
- by move=> o [].
move=> o f z fl [H1 H2 H3] Hz /=; split=> //.
move=> Sm; case E: (t_S o f fl) => [S0|//] /= Eb.
have [Hs HS] := rebase_ok H1 (H3 _ _ _ E) Eb; split=> // v i.
have Ez : zreq z (t_z o) = z by rewrite /zreq (negbTE Hz).
rewrite Ez in HS; rewrite HS; split; first by case=> S1; rewrite E => -[<-].
by exists S0.
Defined.

(** A 2-D numpy array as block of a circuit on z0 (rfCircuit.py 1306-1307): it has
    no ports, xpos, set or getS and is taken as the scattering matrix on the
    circuit's own reference impedance.  A circuit only asks for its own z0; for
    any other value this object says nothing. *)
Variable z0 : C.
Definition arr_ocls : ocls C F Fl := {|
  ocar := rows C;
  osize := fun o => size o;
  oports := fun _ => None;
  oxpos := fun _ => None;
  oprm := unit;
  oset := fun _ o => (o, Raise AttributeError);
  ogetS := fun f z fl o => (o, if z == z0 then Ok o else Raise ValueError) |}.

Definition arr_cls : vcls C F Fl.
Proof.
refine (@Vcls C F Fl arr_ocls (fun o => shape_ok (size o) o) (fun o _ _ v i => rel_S z0 (size o) o v i) _ _ _).
- by move=> o f fl v i v' i' H; exact: rel_S_ext.
- by [].
by move=> o f z fl Ho Hz /=; split=> //; case: eqP => // -> Sm [<-].
Defined.
End Dev.

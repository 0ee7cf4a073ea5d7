(** Specification vocabulary for transmission lines. *)
From mathcomp Require Import all_ssreflect all_algebra.
From Coq Require Import String.
From Verif Require Import Base ConvModel ConvSpec DevModel DevSpec.
Set Implicit Arguments.
Unset Strict Implicit.
Unset Printing Implicit Defensive.
Import Order.TTheory GRing.Theory Num.Theory.
Local Open Scope ring_scope.

Section TrlSpec.
Variable C : numClosedFieldType.
Implicit Types v i Zc t : C.

(** a line of characteristic impedance Zc: what enters at one end arrives at the other
    end multiplied by t = exp(-gamma L) (v + Zc i: twice the wave going in, v - Zc i: twice
    the wave coming out; i flows into the line) *)
Definition line_law t Zc v1 v2 i1 i2 : Prop :=
  v2 - Zc * i2 = t * (v1 + Zc * i1) /\ v1 - Zc * i1 = t * (v2 + Zc * i2).
(** direct connection *)
Definition through_law v1 v2 i1 i2 : Prop := v1 = v2 /\ i1 + i2 = 0.
(** two two-ports in cascade: port 2 of the first to port 1 of the second *)
Definition cascade (law1 law2 : C -> C -> C -> C -> Prop) v1 v2 i1 i2 : Prop :=
  exists vm im, law1 v1 vm i1 im /\ law2 vm v2 (- im) i2.
Definition scat_law (z : C) (S : 'M[C]_2) v1 v2 i1 i2 : Prop :=
  relates "V" (const_mx z) S (col2 v1 v2) (col2 i1 i2).

(** voltage v and current i (in the direction of decreasing x, as in the code) at a place
    that g = exp(gamma x) away from the end with v0, i0: two waves, one growing with g, one
    decaying *)
Definition tl_point g Zc v0 i0 v i : Prop :=
  v + Zc * i = g * (v0 + Zc * i0) /\ v - Zc * i = g^-1 * (v0 - Zc * i0).
End TrlSpec.

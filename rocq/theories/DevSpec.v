(** Specification vocabulary for the devices: the laws of the circuit elements.
    jw = j 2 pi f.  [Inf] is an element value +inf. *)
From mathcomp Require Import all_ssreflect all_algebra.
From Coq Require Import String.
From Verif Require Import Base ConvModel ConvSpec DevModel.
Set Implicit Arguments.
Unset Strict Implicit.
Unset Printing Implicit Defensive.
Import Order.TTheory GRing.Theory Num.Theory.
Local Open Scope ring_scope.

Section DevSpec.
Variable C : numClosedFieldType.

(** resistor, inductor, capacitor between two nodes: voltage v, current i *)
Definition res_law (r : ext C) (v i : C) : Prop := if r is Fin x then v = x * i else i = 0.
Definition ind_law (jw : C) (l : ext C) (v i : C) : Prop := if l is Fin x then v = jw * x * i else i = 0.
Definition cap_law (jw : C) (c : ext C) (v i : C) : Prop := if c is Fin x then i = jw * x * v else v = 0.

(** Rs, Ls, Cs in series / Rp, Lp, Cp in parallel *)
Definition series_rlc (jw : C) (o : rlc C) (v i : C) : Prop :=
  exists vr vl vc, [/\ res_law (Fin (Rs o)) vr i, ind_law jw (Fin (Ls o)) vl i,
                       cap_law jw (Cs o) vc i & v = vr + vl + vc].
Definition parallel_rlc (jw : C) (o : rlc C) (v i : C) : Prop :=
  exists ir il ic, [/\ res_law (Rp o) v ir, ind_law jw (Lp o) v il,
                       cap_law jw (Fin (Cp o)) v ic & i = ir + il + ic].

(** the documented two-port: port s - (series part) - port p, parallel part from p to
    ground.  v1,i1: voltage and inward current at s;  v2,i2 at p *)
Definition rlc_law (jw : C) (o : rlc C) (v1 v2 i1 i2 : C) : Prop :=
  series_rlc jw o (v1 - v2) i1 /\ parallel_rlc jw o v2 (i1 + i2).

(** S is the scattering matrix on z of the two-port described by the relation law *)
Definition is_scat2 (law : C -> C -> C -> C -> Prop) (z : C) (S : 'M[C]_2) : Prop :=
  forall v1 v2 i1 i2, law v1 v2 i1 i2 <-> relates "V" (const_mx z) S (col2 v1 v2) (col2 i1 i2).

(** element values of a passive circuit *)
Definition ext_ge0 (x : ext C) : Prop := if x is Fin y then 0 <= y else True.
Definition rlc_passive (o : rlc C) : Prop :=
  [/\ 0 <= Rs o, 0 <= Ls o /\ ext_ge0 (Cs o), ext_ge0 (Rp o), ext_ge0 (Lp o) & 0 <= Cp o].
(** lossless *)
Definition rlc_lossless (o : rlc C) : Prop :=
  [/\ Rs o = 0, Rp o = Inf, Ls o \is Num.real /\ Cp o \is Num.real,
      (if Cs o is Fin c then c \is Num.real : Prop else True) & 
      (if Lp o is Fin c then c \is Num.real : Prop else True)].

(** the one-port with reflection r on z obeys the law between its voltage and current *)
Definition reflects (law : C -> C -> Prop) (z r : C) : Prop :=
  forall v i, law v i <-> wave_b "V" z v i = r * wave_a "V" z v i.
End DevSpec.

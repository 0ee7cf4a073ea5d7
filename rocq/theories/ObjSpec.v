(** Specification vocabulary for rfObject. *)
From mathcomp Require Import all_ssreflect all_algebra.
From Coq Require Import String.
From Verif Require Import Base ConvModel ConvSpec DevModel DevSpec TrlSpec ObjModel.
Set Implicit Arguments.
Unset Strict Implicit.
Unset Printing Implicit Defensive.
Import Order.TTheory GRing.Theory Num.Theory.
Local Open Scope ring_scope.

(** what ndarray.argsort promises: a permutation of the indices that sorts *)
Definition good_argsort (T : Type) (x0 : T) (le : rel T) (argsort : seq T -> seq nat) : Prop :=
  forall s, perm_eq (argsort s) (iota 0 (size s)) /\ sorted le [seq nth x0 s k | k <- argsort s].

Section ObjSpec.
Variables (C : numClosedFieldType) (F : realFieldType).

(** the matrices of an array argument of setS *)
Definition mats (S : nd C) : seq (amx C) :=
  if check3D S is Ok (C3 _ n Sm) then [seq AM M | M <- Sm] else [::].
(** the data handed over by a list of calls *)
Definition data_of (c : obj_call C F) : seq (F * amx C) :=
  if c is OSetS f Sm _ then zip f (mats Sm) else [::].
Definition data (cs : seq (obj_call C F)) : seq (F * amx C) := flatten (map data_of cs).
(** calls that only store or read *)
Definition set_or_get (c : obj_call C F) : bool :=
  match c with OSetS _ _ _ | OGetS _ _ _ | OGetSs _ _ _ => true | _ => false end.
Definition is_set (c : obj_call C F) : bool := if c is OSetS _ _ _ then true else false.

(** element of a matrix between two named ports *)
Definition between (ports : seq string) (A : amx C) (p q : string) : C :=
  mget A (seq.index p ports) (seq.index q ports).

(** an n-port with a two-port (or nothing) between each of its ports and the outside: v, i at
    the ports of the n-port itself, V, I outside.  Port 1 of the two-port is at the n-port. *)
Definition with_lines n (ls : 'I_n -> option (C -> C -> C -> C -> Prop))
    (R : 'cV[C]_n -> 'cV[C]_n -> Prop) (V I : 'cV[C]_n) : Prop :=
  exists v i, R v i /\ forall k, match ls k with
    | Some law => law (v k 0) (V k 0) (- i k 0) (I k 0)
    | None => v k 0 = V k 0 /\ i k 0 = I k 0
    end.
(** S is the scattering matrix on z of the n-port with relation R *)
Definition is_scat n (R : 'cV[C]_n -> 'cV[C]_n -> Prop) (z : C) (S : 'M[C]_n) : Prop :=
  forall V I, R V I <-> relates "V" (const_mx z) S V I.
End ObjSpec.

(** C61, specification: reciprocity and power at the ports of block objects, loads
    and circuits. *)
From mathcomp Require Import all_ssreflect all_algebra.
From Coq Require Import String Ascii.
From Coq Require List.
From Verif Require Import Base ConvModel ConvSpec CircModel CircSpec CircHist CircNest.
Set Implicit Arguments.
Unset Strict Implicit.
Unset Printing Implicit Defensive.
Import GRing.Theory Num.Theory.
Local Open Scope ring_scope.
Local Open Scope seq_scope.

Section Pow.
Variable C : numClosedFieldType.
Variables F Fl : eqType.

(** real power entering the ports 0..n-1: Re(sum v conj i) (peak values: twice the mean power) *)
Definition power_in n (v i : vi C) : C := \sum_(k < n) 'Re (v k * (i k)^*).

Section Kind.
Variable K : vcls C F Fl.

(** Lorentz reciprocity: sum v i' = sum v' i for any two states of the ports *)
Definition recip_obj (f : F) (fl : Fl) (o : K) : Prop :=
  forall v i v' i' : vi C, oden o f fl v i -> oden o f fl v' i' ->
    \sum_(k < osize o) v k * i' k = \sum_(k < osize o) v' k * i k.
(** the object never delivers power / neither delivers nor absorbs any *)
Definition passive_obj (f : F) (fl : Fl) (o : K) : Prop :=
  forall v i : vi C, oden o f fl v i -> 0 <= power_in (osize o) v i.
Definition lossless_obj (f : F) (fl : Fl) (o : K) : Prop :=
  forall v i : vi C, oden o f fl v i -> power_in (osize o) v i = 0.

(** all block objects of a network *)
Definition all_blocks (P : K -> Prop) (N : net K) : Prop :=
  List.Forall (fun b : string * (seq string * K) => P b.2.2) (nblk N).

(** no deembed call (deembedding takes a network away, which may leave an active one) *)
Definition no_deembed (h : seq (event K)) : bool :=
  all (fun e : event K => if e.1 is ODeembed _ _ then false else true) h.
End Kind.

(** loads: impedance or admittance with non-negative real part, |reflection| at most 1 *)
Definition passive_load (l : load C) : Prop :=
  match l with LZ Z => 0 <= 'Re Z | LY Y => 0 <= 'Re Y | LRC R => `|R| <= 1 end.
Definition lossless_load (l : load C) : Prop :=
  match l with LZ Z => 'Re Z = 0 | LY Y => 'Re Y = 0 | LRC R => `|R| = 1 end.
Definition all_loads (P : load C -> Prop) (K : vcls C F Fl) (N : net K) : Prop :=
  List.Forall (fun t : string * load C => P t.2) (nterm N).

(** circuits nested to depth n: [every Pd Pl z n o] says that o is a device with
    property Pd or a circuit, without deembedding and with reference impedance of
    property Pz, whose loads have property Pl and whose blocks, again, are such *)
Section Deep.
Variable K : vcls C F Fl.
Variable nan : C.
Variable getpos : forall K' : vcls C F Fl, circ K' -> string -> res C.
Variables (Pd : K -> Prop) (Pl : load C -> Prop) (Pz : C -> Prop).

Fixpoint every (n : nat) : deep K nan getpos n -> Prop :=
  match n return deep K nan getpos n -> Prop with
  | 0 => Pd
  | n'.+1 => fun o : K + nest_cls nan (@getpos (deep K nan getpos n')) =>
      match o with
      | inl d => Pd d
      | inr s => [/\ Pz (n_z s), no_deembed (n_h s), all_loads Pl (net_hist (n_h s)) &
                     all_blocks (@every n') (net_hist (n_h s))]
      end
  end.
End Deep.
End Pow.

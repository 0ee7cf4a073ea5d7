(** rfCircuit.resolve_xpos, rfCircuit.py 1619-1645 *)
From mathcomp Require Import all_ssreflect all_algebra.
From Coq Require Import String Ascii.
From Verif Require Import Base MxLib CircModel.
Set Implicit Arguments.
Unset Strict Implicit.
Unset Printing Implicit Defensive.
Import GRing.Theory.
Local Open Scope string_scope.
Local Open Scope ring_scope.
Local Open Scope seq_scope.

(** (p.split('.',1) + [None])[:2], 1628 *)
Fixpoint split_dot (s : string) : string * option string :=
  if s is String d s' then
    if d == "."%char then ("", Some s') else let: (b, q) := split_dot s' in (String d b, q)
  else ("", None).

Section Xpos.
Variable C : numClosedFieldType.
Variables F Fl : eqType.
Variable K : ocls C F Fl.
Notation circ := (circ K).

(** one pass of the loop, 1624-1643 (rXpos[_kp] is None at the start of each).  block['xpos'] is
    the relpos of addblock (660-679), a number here as everywhere in CircModel.v: subscripting it
    raises TypeError, which becomes RuntimeError (1637-1640), after obj.ports.index has been
    evaluated (ValueError if the name is not there, 1633-1636; an object without ports:
    AttributeError, RuntimeError again).  self.blocks[blkID] is outside the try (1630). *)
Definition xpos_one (c : circ) (p : string) : res C :=
  match split_dot p with
  | (_, None) => Ok 0
  | (b, Some q) =>
    match dget (blocks c) b with
    | None => Raise KeyError
    | Some blk =>
      match oports (bobj blk) with
      | None => Raise RuntimeError
      | Some ops => if q \in ops then Raise RuntimeError else Raise ValueError
      end
    end
  end.
Definition resolve_xpos (c : circ) : circ * res unit :=
  match mapM (xpos_one c) (ports c) with
  | Ok xs => (with_ports c (ports c) xs, Ok tt)                               (* 1645 *)
  | Raise e => (c, Raise e)
  end.
End Xpos.

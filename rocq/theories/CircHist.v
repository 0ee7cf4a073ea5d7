(** Histories of calls on one circuit: execution (model) and the conditions under
    which the properties are stated (specification). *)
From mathcomp Require Import all_ssreflect all_algebra.
From Coq Require Import String Ascii.
From Coq Require List.
From Verif Require Import Base ConvModel ConvSpec CircModel CircSpec.
Set Implicit Arguments.
Unset Strict Implicit.
Unset Printing Implicit Defensive.
Import GRing.Theory Num.Theory.
Local Open Scope ring_scope.
Local Open Scope seq_scope.

Section Hist.
Variable C : numClosedFieldType.
Variables F Fl : eqType.
Variable K : vcls C F Fl.
Variable nan : C.
Variable getpos : circ K -> string -> res C.
Notation circ := (circ K).
Notation net := (net K).
Notation op := (op K).

(** one call: the new state and whether the call returned (true) or raised *)
Definition exec (c : circ) (o : op) : circ * bool :=
  match o with
  | OAdd nm ob pa x => let r := addblock nan c nm ob pa x in (r.1, is_ok r.2)
  | OConnect ps => let r := connect getpos c ps in (r.1, is_ok r.2)
  | OTerm p kw => let r := terminate c p kw in (r.1, is_ok r.2)
  | ODeembed ints exts => let r := deembed c ints exts in (r.1, is_ok r.2)
  | OGetS f z fl => let r := get1S f z [::] fl c in (r.1, is_ok r.2)
  end.

(** an event is a call with its outcome (true: it returned) *)
Definition event := (op * bool)%type.

(** the circuit reached from c by the events h, if these are what happens *)
Fixpoint run (c : circ) (h : seq event) : option circ :=
  if h is (o, ok) :: h' then
    let r := exec c o in if r.2 == ok then run r.1 h' else None
  else Some c.

(** what the conditions below remember of the past: whether getS was called; the
    frequencies and flags asked for in the last getS that returned and in the ones
    that raised after it; whether a port that already had a load got a new one
    since then (and no later call made the circuit forget its result) *)
Record past := Past { tried : bool; asked : seq (F * Fl); reterm : bool }.
Definition past0 := Past false [::] false.

Definition past_step (N : net) (g : past) (e : event) : past :=
  match e with
  | (OAdd _ _ _ _, _) => Past (tried g) (asked g) false
  | (OTerm p _, _) => Past (tried g) (asked g) ((p \in dkeys (nterm N)) && (asked g != [::]))
  | (OGetS f _ fl, true) => Past true [:: (f, fl)] false
  | (OGetS f _ fl, false) => Past true ((f, fl) :: asked g) (reterm g)
  | _ => g
  end.

(** conditions on one event:
    - only getS may raise (what other calls do when they raise is C20);
    - a block object satisfies its invariant; a new block has distinct port names;
    - new blocks, connect and deembed come before the first getS (see C21);
    - new inner ports of deembed are new, distinct and without '.';
    - after a load was changed in place, getS is not asked for a frequency and
      flags it was just asked for (see C17). *)
Definition ev_ok (N : net) (g : past) (e : event) : Prop :=
  match e with
  | (OAdd nm ob pa _, ok) =>
    [/\ ok, oinv ob & (nm \in dkeys (nblk N)) \/
        (tried g = false /\
         forall ps, resolve_ports (osize ob) (oports ob) pa = Ok ps -> uniq ps)]
  | (OConnect _, ok) => ok /\ tried g = false
  | (OTerm _ _, ok) => ok
  | (ODeembed ints _, ok) =>
    [/\ ok, tried g = false, uniq (map snd ints) &
        forall p, p \in map snd ints -> p \notin nodes N /\ ~~ has_char "."%char p]
  | (OGetS f _ fl, _) => ~~ (reterm g && ((f, fl) \in asked g))
  end.

Fixpoint hist_ok_from (N : net) (g : past) (h : seq event) : Prop :=
  if h is e :: h' then
    ev_ok N g e /\ hist_ok_from (net_step N e.1) (past_step N g e) h'
  else True.

(** the past after a history *)
Fixpoint past_from (N : net) (g : past) (h : seq event) : past :=
  if h is e :: h' then past_from (net_step N e.1) (past_step N g e) h' else g.
Definition past_of (h : seq event) : past := past_from (net0 K) past0 h.

Definition hist_ok (h : seq event) : Prop := hist_ok_from (net0 K) past0 h.

(** the network described by a history *)
Definition net_hist (h : seq event) : net := net_of (map fst h).

(** c is reached from a new circuit (reference impedance z, Portnames ns) by h *)
Definition reach (z : C) (ns : seq string) (h : seq event) (c : circ) : Prop :=
  [/\ z != 0, hist_ok h & run (new_circ K z ns) h = Some c].

End Hist.

(** addblock of a dotted name (C55): rfCircuit.addblock, rfCircuit.py 568-599. *)
From mathcomp Require Import all_ssreflect all_algebra.
From Coq Require Import String Ascii.
From Coq Require List.
From Verif Require Import Base ConvModel CircModel CircSpec CircLib CircHist CircNest CircMaxV CircCopy.
Set Implicit Arguments.
Unset Strict Implicit.
Unset Printing Implicit Defensive.
Import GRing.Theory Num.Theory.
Local Open Scope string_scope.
Local Open Scope ring_scope.
Local Open Scope seq_scope.

Section AddP.
Variable C : numClosedFieldType.
Variables F Fl : eqType.
Variable K : vcls C F Fl.
Variable nan : C.
Variable getpos : forall K' : vcls C F Fl, circ K' -> string -> res C.
Notation deep := (deep K nan getpos).

(** The object given, as a block object of every level: only its component at the level the
    path leads to is used (a device is one at every level). *)
Definition anyobj := forall m, deep m.
Definition dev_at (d : K) : anyobj := fun m => match m return deep m with 0%N => d | _.+1 => inl d end.

(** addblock(path, obj, ports, relpos), 568-599: the part before the first '.' names a block
    of this circuit; its object is copied, addblock is called on the copy with the rest of the
    name, and the copy becomes the block's object.  A device has no addblock.  Not modelled:
    params.  (The history stored with the inner circuit is not used by any method.) *)
Fixpoint addpath (ob : anyobj) (pa : portarg) (x : C) (n : nat) : circ (deep n) -> string -> circ (deep n) * res unit :=
  match n return circ (deep n) -> string -> circ (deep n) * res unit with
  | 0%N => fun c path =>
    if split_dot path is Some (nm, sub) then addblock_sub c nm (fun o => (o, Raise AttributeError))
    else addblock nan c path (ob 0%N) pa x
  | n'.+1 => fun c path =>
    if split_dot path is Some (nm, sub) then
      addblock_sub c nm (fun o => match o with
        | inl d => (inl d, Raise AttributeError)
        | inr k => let r := addpath ob pa x (copy_circ (@dupn _ _ _ K nan getpos n') (n_c k)) sub in
                   (inr (NCirc (n_z k) (n_ns k) (n_h k) r.1), r.2)
        end)
    else addblock nan c path (ob n'.+1) pa x
  end.

(** ** specification *)
Definition with_nblk (K' : vcls C F Fl) (N : net K') bs : net K' := Net bs (njoin N) (nterm N) (ndi N) (nde N).

(** the path leads, through blocks that are circuits, to a block *)
Fixpoint knows (n : nat) : net (deep n) -> string -> bool :=
  match n return net (deep n) -> string -> bool with
  | 0%N => fun N path => if split_dot path is Some _ then false else path \in dkeys (nblk N)
  | n'.+1 => fun N path =>
    if split_dot path is Some (nm, sub) then
      match dget (nblk N) nm with Some (_, inr k) => knows (net_hist (n_h k)) sub | _ => false end
    else path \in dkeys (nblk N)
  end.

(** N' is the network N with the object of the block the path leads to replaced; all that
    changes is the object of that block and, on the way to it, the inner circuits, which keep
    their ports and reference impedance *)
Fixpoint replaced (ob : anyobj) (n : nat) : net (deep n) -> string -> net (deep n) -> Prop :=
  match n return net (deep n) -> string -> net (deep n) -> Prop with
  | 0%N => fun N path N' => split_dot path = None /\
      exists ps o, [/\ dget (nblk N) path = Some (ps, o), osize (ob 0%N) = size ps & N' = with_nblk N (dset (nblk N) path (ps, ob 0%N))]
  | n'.+1 => fun N path N' =>
    if split_dot path is Some (nm, sub) then
      exists ps k k', [/\ dget (nblk N) nm = Some (ps, inr k), N' = with_nblk N (dset (nblk N) nm (ps, inr k')),
        n_z k' = n_z k, ports (n_c k') = ports (n_c k) & replaced ob (net_hist (n_h k)) sub (net_hist (n_h k'))]
    else exists ps o, [/\ dget (nblk N) path = Some (ps, o), osize (ob n'.+1) = size ps &
        N' = with_nblk N (dset (nblk N) path (ps, ob n'.+1))]
  end.

(** and the object given has as many ports as that block *)
Fixpoint fits (ob : anyobj) (n : nat) : net (deep n) -> string -> bool :=
  match n return net (deep n) -> string -> bool with
  | 0%N => fun N path => if split_dot path is Some _ then false
                         else if dget (nblk N) path is Some (ps, _) then osize (ob 0%N) == size ps else false
  | n'.+1 => fun N path =>
    if split_dot path is Some (nm, sub) then
      match dget (nblk N) nm with Some (_, inr k) => fits ob (net_hist (n_h k)) sub | _ => false end
    else if dget (nblk N) path is Some (ps, _) then osize (ob n'.+1) == size ps else false
  end.

(** calls on the circuit: addblock of a path, or getS *)
Inductive call := CAdd of string & anyobj & portarg & C | CGet of F & C & Fl.

(** d stands for the network N, now and after the calls cs, as far as these addblock calls
    return and their paths lead to blocks: the network changes as said above and every
    S-matrix returned is that of the network *)
Fixpoint tracks n (z : C) (N : net (deep n)) (d : circ (deep n)) (cs : seq call) : Prop :=
  match cs with
  | [::] => forall f z' fl d' S, get1S f z' [::] fl d = (d', Ok S) ->
      net_S z (if z' == 0 then z else z') N f fl (ports d') S
  | CAdd path ob pa x :: cs' => knows N path -> (forall m, oinv (ob m)) ->
      forall d', addpath ob pa x d path = (d', Ok tt) -> exists N', replaced ob N path N' /\ tracks z N' d' cs'
  | CGet f z' fl :: cs' => tracks z N (get1S f z' [::] fl d).1 cs'
  end.
End AddP.

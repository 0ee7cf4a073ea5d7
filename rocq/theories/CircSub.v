(** Solution with the nodes of the sub-circuits (C50): rfCircuit.py 1458-1613. *)
From mathcomp Require Import all_ssreflect all_algebra.
From mathcomp Require Import zify algebra_tactics.ring.
From Coq Require Import String Ascii.
From Coq Require List.
From Verif Require Import Base MxLib ConvModel ConvSpec ConvProofs ConvArr CircModel CircSpec CircLib CircInv CircTerm CircApp CircConn CircAdd CircDe CircFill CircSolve CircExt CircHist CircGet CircMain CircOrd CircThm CircThm2 CircThm3 CircThm4 CircMaxV CircNest CircFlat SetThm.
Set Implicit Arguments.
Unset Strict Implicit.
Unset Printing Implicit Defensive.
Import Order.TTheory GRing.Theory Num.Theory.
Local Open Scope string_scope.
Local Open Scope ring_scope.
Local Open Scope seq_scope.

Section Model.
Variable C : numClosedFieldType.
Variables F Fl : eqType.
Definition sols := seq (string * (C * C * C * C)).

(** node.split('.',1)[0] and [-1] *)
Definition hd_dot (n : string) : string := if split_dot n is Some (b, _) then b else n.
Definition tl_dot (n : string) : string := if split_dot n is Some (_, r) then r else n.

(** 1609-1610: self.tSol[f'{blkID}.{tnode}'] = tval *)
Definition add_sub (nm : string) (t : sols) (ts : sols) : sols :=
  foldl (fun t nv => dset t (dot nm nv.1) nv.2) t ts.

Section Level.
Variable K K' : vcls C F Fl.
Variable nan : C.
Variable getpos : circ K' -> string -> res C.
Notation S := (sum_cls K (nest_cls nan getpos)).
(** Solution of a circuit one level down *)
Variable rec : F -> seq (string * C) -> C -> option (seq string) -> Fl -> circ K' -> circ K' * res sols.

(** 1569-1610, one turn of the loop over the blocks; only circuits have a method Solution.
    [left] None: all nodes are wanted.  The state: the blocks (whose objects change) and
    self.tSol. *)
Definition sub_step (f : F) (zz : C) (left : option (seq string)) (fl : Fl)
    (st : seq (string * block S) * sols) (nb : string * block S)
  : (seq (string * block S) * sols) * res unit :=
  let sl := omap (fun l => [seq tl_dot n | n <- l & hd_dot n == nb.1]) left in      (* 1576-1580 *)
  match bobj nb.2 with
  | inl _ => (st, Ok tt)
  | inr o =>
    if sl == Some [::] then (st, Ok tt) else                                        (* 1585 *)
    match mapM (fun p => rmap (fun x : C * C * C * C => (p, x.1.2)) (dget_exn st.2 (dot nb.1 p))) (ports (n_c o)) with
    | Raise e => (st, Raise e)                                                      (* 1588-1597 *)
    | Ok Ek =>
      let r := rec f Ek zz sl fl (n_c o) in                                         (* 1606 *)
      let bs := dset st.1 nb.1 (@Block _ _ _ S (bports nb.2) (bloc nb.2)
                  (inr (NCirc (n_z o) (n_ns o) (n_h o) r.1)) (bxpos nb.2)) in
      match r.2 with
      | Raise e => ((bs, st.2), Raise e)
      | Ok ts => ((bs, add_sub nb.1 st.2 ts), Ok tt)
      end
    end
  end.

(** Solution(f, E, Zbase, nodes, flags) *)
Definition Solution_lv (f : F) (E : seq (string * C)) (z' : C) (nodes : option (seq string)) (fl : Fl)
    (c : circ S) : circ S * res sols :=
  let r := Solution1 f E z' fl c in
  match r.2 with
  | Raise e => (r.1, Raise e)
  | Ok t =>
    let left := omap (fun l => [seq n <- l | n \notin dkeys t]) nodes in            (* 1551-1558 *)
    if left == Some [::] then (r.1, Ok t) else                                      (* 1563 *)
    let q := loop (sub_step f (if z' == 0 then zb c else z') left fl) (blocks r.1, t) (blocks r.1) in
    (with_blocks r.1 q.1.1, rmap (fun _ => q.1.2) q.2)
  end.
End Level.

Variable K : vcls C F Fl.
Variable nan : C.
Variable getpos : forall K' : vcls C F Fl, circ K' -> string -> res C.
Notation deep := (deep K nan getpos).

(** circuits nested to depth n *)
Fixpoint Solution (n : nat) : F -> seq (string * C) -> C -> option (seq string) -> Fl ->
    circ (deep n) -> circ (deep n) * res sols :=
  match n return F -> seq (string * C) -> C -> option (seq string) -> Fl ->
    circ (deep n) -> circ (deep n) * res sols with
  | 0 => fun f E z' _ fl c => Solution1 f E z' fl c
  | n'.+1 => @Solution_lv K (deep n') nan (@getpos (deep n')) (@Solution n')
  end.

(** ** specification *)
(** voltages v and currents i at the nodes of a circuit, of its sub-circuits ('block.node'),
    of theirs ('block.block.node'), ...: the laws of the network of each of them hold *)
Fixpoint deep_sat (n : nat) : C -> net (deep n) -> F -> Fl -> asg C -> asg C -> Prop :=
  match n return C -> net (deep n) -> F -> Fl -> asg C -> asg C -> Prop with
  | 0 => fun z N f fl v i => sat z N f fl v i
  | n'.+1 => fun z N f fl v i => sat z N f fl v i /\
      List.Forall (fun b : string * (seq string * (K + nest_cls nan (@getpos (deep n')))) =>
        if b.2.2 is inr o then
          @deep_sat n' (n_z o) (net_hist (n_h o)) f fl (fun q => v (dot b.1 q)) (fun q => i (dot b.1 q))
        else True) (nblk N)
  end.

(** all these nodes *)
Fixpoint deep_nodes (n : nat) : net (deep n) -> seq string :=
  match n return net (deep n) -> seq string with
  | 0 => fun N => nodes N
  | n'.+1 => fun N => nodes N ++
      flatten [seq (if b.2.2 is inr o then [seq dot b.1 q | q <- @deep_nodes n' (net_hist (n_h o))] else [::])
              | b : string * (seq string * (K + nest_cls nan (@getpos (deep n')))) <- nblk N]
  end.

(** circuits are used as blocks under their own port names, at every level *)
Fixpoint own_names (n : nat) : net (deep n) -> Prop :=
  match n return net (deep n) -> Prop with
  | 0 => fun N => True
  | n'.+1 => fun N =>
      List.Forall (fun b : string * (seq string * (K + nest_cls nan (@getpos (deep n')))) =>
        if b.2.2 is inr o then b.2.1 = ports (n_c o) /\ @own_names n' (net_hist (n_h o)) else True) (nblk N)
  end.

(** no sub-circuit's getS(f, Zbase=zz) raises, at no level, whatever getS calls came before *)
Fixpoint subs_return (n : nat) : C -> net (deep n) -> F -> Fl -> Prop :=
  match n return C -> net (deep n) -> F -> Fl -> Prop with
  | 0 => fun zz N f fl => True
  | n'.+1 => fun zz N f fl =>
      List.Forall (fun b : string * (seq string * (K + nest_cls nan (@getpos (deep n')))) =>
        if b.2.2 is inr o then
          (forall o', after_getS (o : nest_cls nan (@getpos (deep n'))) o' -> exists S, (ogetS f zz fl o').2 = Ok S) /\
          @subs_return n' zz (net_hist (n_h o)) f fl
        else True) (nblk N)
  end.
End Model.

(** The S-matrix between internal nodes (C51): rfCircuit.py 1351-1409, and numpy's pinv. *)
From mathcomp Require Import all_ssreflect all_algebra.
From Coq Require Import String Ascii.
From Coq Require List.
From Verif Require Import Base MxLib ConvModel ConvSpec CircModel CircSpec CircHist CircNest CircSub.
Set Implicit Arguments.
Unset Strict Implicit.
Unset Printing Implicit Defensive.
Import Order.TTheory GRing.Theory Num.Theory.
Local Open Scope string_scope.
Local Open Scope ring_scope.
Local Open Scope seq_scope.

Section Pinv.
Variable C : numClosedFieldType.
Definition adj m n (A : 'M[C]_(m, n)) : 'M[C]_(n, m) := (map_mx conjC A)^T.

(** np.linalg.pinv(A): the Moore-Penrose inverse, here from a full rank factorisation
    (see [pinv_penrose]: the four conditions that single it out).  numpy computes it from
    singular values and drops those below 1e-15 times the largest: not modelled. *)
Definition pinv m n (A : 'M[C]_(m, n)) : 'M[C]_(n, m) :=
  let L := col_base A in let R := row_base A in
  adj R *m invmx (R *m adj R) *m invmx (adj L *m L) *m adj L.
End Pinv.

Section Model.
Variable C : numClosedFieldType.
Variables F Fl : eqType.
Variable K : vcls C F Fl.
Variable nan : C.
Variable getpos : forall K' : vcls C F Fl, circ K' -> string -> res C.
Notation deep := (deep K nan getpos).

(** a node, possibly marked with a leading '<': node[0], node[1:] (1376, 1388-1390);
    node[0] of an empty string: IndexError *)
Definition mark (nd : string) : res (bool * string) :=
  match nd with
  | EmptyString => Raise IndexError
  | String a r => Ok (if a == "<"%char then (true, r) else (false, nd))
  end.

(** 1373-1377: one Solution per external port, excited with 1. there and 0. elsewhere *)
Fixpoint unit_sols (n : nat) (f : F) (nds : seq string) (z' : C) (fl : Fl) (ps : seq string)
    (c : circ (deep n)) : circ (deep n) * res (seq (sols C)) :=
  if ps is p :: ps' then
    match mapM (fun nd => rmap snd (mark nd)) nds with
    | Raise e => (c, Raise e)
    | Ok tn =>
      let r := Solution f [seq (q, if q == p then 1 else 0) | q <- ports c] z' (Some tn) fl c in
      match r.2 with
      | Raise e => (r.1, Raise e)
      | Ok t => let q := unit_sols f nds z' fl ps' r.1 in (q.1, rmap (cons t) q.2)
      end
    end
  else (c, Ok [::]).

(** 1385-1399: rows of MA_Es and MB_Es (KeyError for a node that is not in the solution) *)
Definition ab_row (ts : seq (sols C)) (nd : string) : res (seq C * seq C) :=
  do bt <- mark nd;
  do xs <- mapM (fun t => dget_exn t bt.2) ts;
  let A := [seq x.1.2 | x : C * C * C * C <- xs] in let B := [seq x.2 | x : C * C * C * C <- xs] in
  Ok (if bt.1 then (B, A) else (A, B)).

(** Get_internalSmatrix(f, nodes, Zbase); z' = 0: None.  [fl] stands for the default flags {}.
    nodes = []: np.array([]).shape has one entry only, dims[1] raises IndexError (1401-1402). *)
Definition internal_S (n : nat) (f : F) (nds : seq string) (z' : C) (fl : Fl)
    (c : circ (deep n)) : circ (deep n) * res (rows C) :=
  let r := get1S f 0 [::] fl c in                                             (* 1368 *)
  match r.2 with
  | Raise e => (r.1, Raise e)
  | Ok _ =>
    let q := unit_sols f nds z' fl (ports r.1) r.1 in
    (q.1, do ts <- q.2;
          do AB <- mapM (ab_row ts) nds;
          let k := size nds in let m := size ts in
          if k == 0%N then Raise IndexError
          else if k == m then                                                 (* 1402-1403 *)
            do I <- np_inv (mx_of k k (map fst AB)); Ok (rows_of (mx_of k k (map snd AB) *m I))
          else if (k < m)%N then                                              (* 1404-1405 *)
            Ok (rows_of (mx_of k m (map snd AB) *m pinv (mx_of k m (map fst AB))))
          else Raise ValueError)                                              (* 1406-1409 *)
  end.

(** ** specification *)
(** the node that is meant, and the waves on zz that run towards it and away from it: at
    a node marked with '<' their parts are swapped *)
Definition node_of (nd : string) : string :=
  if nd is String a r then (if a == "<"%char then r else nd) else nd.
Definition marked (nd : string) : bool := if nd is String a _ then a == "<"%char else false.
Definition wave_a (zz : C) (v i : asg C) (nd : string) : C :=
  let p := node_of nd in (if marked nd then v p - zz * i p else v p + zz * i p) / 2%:R.
Definition wave_b (zz : C) (v i : asg C) (nd : string) : C :=
  let p := node_of nd in (if marked nd then v p + zz * i p else v p - zz * i p) / 2%:R.

(** S relates the waves at the nodes nds in every solution of the network *)
Definition relates_nodes (K' : vcls C F Fl) (z zz : C) (N : net K') f fl (nds : seq string) (S : rows C) : Prop :=
  forall v i : asg C, sat z N f fl v i -> forall k, (k < size nds)%N ->
    wave_b zz v i (nth "" nds k) =
    \sum_(j < size nds) nth 0 (nth [::] S k) j * wave_a zz v i (nth "" nds j).
End Model.

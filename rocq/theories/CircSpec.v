(** Specification of circuits: what network a history of building calls describes
    and which port voltages and currents it admits.  Independent of the equation
    matrix, the waves and the caches of the model. *)
From mathcomp Require Import all_ssreflect all_algebra.
From Coq Require Import String Ascii.
From Coq Require List.
From Verif Require Import Base ConvModel ConvSpec CircModel.
Set Implicit Arguments.
Unset Strict Implicit.
Unset Printing Implicit Defensive.
Import GRing.Theory Num.Theory.
Local Open Scope ring_scope.
Local Open Scope seq_scope.

Section CircSpec.
Variable C : numClosedFieldType.
Variables F Fl : eqType.

(** voltages and inward currents at the ports 0..n-1 of a multiport *)
Definition vi := nat -> C.

(** the multiport with scattering matrix S (voltage waves on z): b = S a with
    a = (v + z i)/2, b = (v - z i)/2 *)
Definition rel_S (z : C) (n : nat) (S : rows C) (v i : vi) : Prop :=
  forall k, (k < n)%N ->
    (v k - z * i k) / 2%:R =
    \sum_(j < n) nth 0 (nth [::] S k) j * ((v j + z * i j) / 2%:R).

(** ** block objects with a meaning *)
(** [oden o f fl v i]: at frequency f (flags fl) the object admits port voltages
    v and inward currents i (at its osize o ports); [oinv] is a state invariant of the object.  getS
    keeps the meaning, the number and names of the ports, and returns only
    scattering matrices (on the requested impedance) of exactly that meaning. *)
Record vcls := Vcls {
  vk :> ocls C F Fl;
  oinv : vk -> Prop;
  oden : vk -> F -> Fl -> vi -> vi -> Prop;
  oden_ext : forall o f fl (v i v' i' : vi),
    (forall k, (k < osize o)%N -> v k = v' k /\ i k = i' k) -> oden o f fl v i -> oden o f fl v' i';
  oinv_xpos : forall o, oinv o -> forall xs, oxpos o = Some xs -> (osize o <= size xs)%N;
  oget_law : forall o f z fl, oinv o -> z != 0 ->
    let r := ogetS f z fl o in
    [/\ oinv r.1, osize r.1 = osize o, oports r.1 = oports o,
        (forall f' fl' v i, oden r.1 f' fl' v i <-> oden o f' fl' v i) &
        (forall S, r.2 = Ok S -> shape_ok (osize o) S /\
           forall v i, oden o f fl v i <-> rel_S z (osize o) S v i)] }.

Variable K : vcls.

(** the states an object can be in after getS calls (on non-zero impedances) *)
Inductive after_getS (o : K) : K -> Prop :=
  | after_none : after_getS o o
  | after_one o' f z fl : z != 0 -> after_getS o o' -> after_getS o (ogetS f z fl o').1.

(** ** networks *)
Inductive load := LZ of C | LY of C | LRC of C.

Record net := Net {
  nblk  : seq (string * (seq string * K));     (* block, its port names, object *)
  njoin : seq (seq string * option string);    (* joined ports, new port *)
  nterm : seq (string * load);                 (* loads *)
  ndi   : seq (string * string);               (* deembedded port, new inner port *)
  nde   : seq (string * string) }.             (* identified ports *)

Definition net0 : net := Net [::] [::] [::] [::] [::].

Definition news (j : seq (seq string * option string)) : seq string :=
  pmap snd j.

(** all nodes (ports that were ever created) and the ones used up *)
Definition blk_nodes (b : string * (seq string * K)) : seq string :=
  [seq dot b.1 p | p <- b.2.1].
Definition nodes (N : net) : seq string :=
  flatten (map blk_nodes (nblk N)) ++ news (njoin N) ++ map snd (ndi N).
Definition used (N : net) : seq string :=
  flatten (map fst (njoin N)) ++ map fst (nterm N) ++ map fst (ndi N)
  ++ map fst (nde N) ++ map snd (nde N).
(** the free (external) ports *)
Definition free (N : net) (p : string) : bool := (p \in nodes N) && (p \notin used N).

(** ** laws; z is the circuit's reference impedance (used by RC loads only) *)
Definition asg := string -> C.

Definition block_law (f : F) (fl : Fl) (v i : asg) (b : string * (seq string * K)) : Prop :=
  oden b.2.2 f fl (fun k => v (dot b.1 (nth "" b.2.1 k)))
                  (fun k => i (dot b.1 (nth "" b.2.1 k))).

(** Kirchhoff: equal voltages; the currents into the joined ports add up to the
    current entering at the new port (0 if there is none) *)
Definition join_law (v i : asg) (j : seq string * option string) : Prop :=
  {in j.1 & j.1, forall p q, v p = v q} /\
  match j.2 with
  | Some n => {in j.1, forall p, v p = v n} /\ \sum_(p <- j.1) i p = i n
  | None => \sum_(p <- j.1) i p = 0
  end.

(** the load takes the current leaving the port: V = Z (-I), (-I) = Y V, a = R b *)
Definition load_law (z : C) (l : load) (v i : C) : Prop :=
  match l with
  | LZ Z => v = - (Z * i)
  | LY Y => i = - (Y * v)
  | LRC R => v + z * i = R * (v - z * i)
  end.

Definition di_law (v i : asg) (d : string * string) : Prop :=
  v d.1 = v d.2 /\ i d.1 = - i d.2.
Definition de_law (v i : asg) (d : string * string) : Prop :=
  v d.1 = v d.2 /\ i d.1 = i d.2.

Definition sat (z : C) (N : net) (f : F) (fl : Fl) (v i : asg) : Prop :=
  [/\ List.Forall (block_law f fl v i) (nblk N),
      List.Forall (join_law v i) (njoin N),
      List.Forall (fun t => load_law z t.2 (v t.1) (i t.1)) (nterm N),
      List.Forall (di_law v i) (ndi N) & List.Forall (de_law v i) (nde N)].

(** S (voltage waves on z) is the scattering matrix of the network seen from the
    ports ps (zc: the circuit's own impedance, used by RC loads): the port voltages and inward currents it admits are exactly those that extend to a
    solution of all the laws *)
Definition net_S (zc z : C) (N : net) (f : F) (fl : Fl) (ps : seq string) (S : rows C) : Prop :=
  shape_ok (size ps) S /\
  forall v i : vi, rel_S z (size ps) S v i <->
    exists v' i' : asg, sat zc N f fl v' i' /\
      forall j, (j < size ps)%N -> v' (nth "" ps j) = v j /\ i' (nth "" ps j) = i j.

(** the network oscillates although no wave (on z) enters at any free port *)
Definition resonant (z : C) (N : net) (f : F) (fl : Fl) : Prop :=
  exists v i : asg, [/\ sat z N f fl v i, (forall p, free N p -> v p + z * i p = 0) &
    exists2 p, p \in nodes N & (v p != 0) || (i p != 0)].

(** for all incident waves (on z) at the free ports the laws have a solution, and
    only one as far as the nodes are concerned *)
Definition solvable (z : C) (N : net) (f : F) (fl : Fl) : Prop := forall a : asg,
  (exists v i : asg, sat z N f fl v i /\
     forall p, free N p -> (v p + z * i p) / 2%:R = a p) /\
  (forall v i v' i' : asg, sat z N f fl v i -> sat z N f fl v' i' ->
     (forall p, free N p -> (v p + z * i p) / 2%:R = a p) ->
     (forall p, free N p -> (v' p + z * i' p) / 2%:R = a p) ->
     forall p, p \in nodes N -> v p = v' p /\ i p = i' p).

Definition well_posed z N f fl := ~ resonant z N f fl /\ solvable z N f fl.
Definition ill_posed z N f fl := resonant z N f fl /\ ~ solvable z N f fl.

(** an equation row holds for a value w of the waves ws (the unknowns) *)
Definition row_holds (ws : seq string) (r : seq C) (w : string -> C) : Prop :=
  \sum_(j < size ws) nth 0 r j * w (nth "" ws j) = 0.
(** voltage and inward current at a port with forward (inward) and backward waves *)
Definition V_of (w : string -> C) : asg := fun p => w (fwd p) + w (bwd p).
Definition I_of (z : C) (w : string -> C) : asg := fun p => (w (fwd p) - w (bwd p)) / z.

(** ** the network described by a history of calls *)
Inductive op :=
  | OAdd of string & K & portarg & C           (* addblock(name, obj, ports, relpos) *)
  | OConnect of seq string                     (* connect(ports) *)
  | OTerm of string & seq (string * C)         (* terminate(port, kwargs) *)
  | ODeembed of seq (string * string) & seq (string * string)
  | OGetS of F & C & Fl.                       (* getS(f, Zbase, flags=flags) *)

Definition load_of (kw : seq (string * C)) : load :=
  if dget kw "Z" is Some Z then LZ Z else if dget kw "Y" is Some Y then LY Y
  else if dget kw "RC" is Some R then LRC R else LRC 0.

Definition net_step (N : net) (o : op) : net :=
  match o with
  | OAdd name obj pa _ =>
    if dget (nblk N) name is Some (ps, _) then
      Net (dset (nblk N) name (ps, obj)) (njoin N) (nterm N) (ndi N) (nde N)
    else if resolve_ports (osize obj) (oports obj) pa is Ok ps then
      Net (nblk N ++ [:: (name, (ps, obj))]) (njoin N) (nterm N) (ndi N) (nde N)
    else N
  | OConnect ps =>
    let old := [seq p <- ps | p \in nodes N] in
    let new := [seq p <- ps | p \notin nodes N] in
    Net (nblk N) (njoin N ++ [:: (old, if new is p :: _ then Some p else None)])
        (nterm N) (ndi N) (nde N)
  | OTerm p kw => Net (nblk N) (njoin N) (dset (nterm N) p (load_of kw)) (ndi N) (nde N)
  | ODeembed ints exts =>
    Net (nblk N) (njoin N) (nterm N) (ndi N ++ ints) (nde N ++ exts)
  | OGetS _ _ _ => N
  end.

Definition net_of (h : seq op) : net := foldl net_step net0 h.

End CircSpec.

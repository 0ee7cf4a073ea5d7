(** rfGTL: from a description to a circuit (C52), positions (C53): rfGTL.py 103-330, 429-500. *)
From mathcomp Require Import all_ssreflect all_algebra.
From Coq Require Import String Ascii.
From Coq Require List.
From Verif Require Import Base ConvModel ConvSpec CircModel CircSpec CircHist CircMaxV.
Set Implicit Arguments.
Unset Strict Implicit.
Unset Printing Implicit Defensive.
Import GRing.Theory Num.Theory.
Local Open Scope string_scope.
Local Open Scope ring_scope.
Local Open Scope seq_scope.

Section Gtl.
Variable C : numClosedFieldType.
Variables F Fl : eqType.
Variable K : vcls C F Fl.
Variable nan : C.
Notation circ := (circ K).

(** ** the description *)
(** one entry of 'ports' of a block: a str, or a dict with the keywords of terminate *)
Inductive gport := GName of string | GLoad of seq (string * C).
(** one block: its ports; 'xpos' (or 'relpos') if given; the object made of its other
    keywords, or the exception met while evaluating them (107, 133-142) and
    making the object (143-197).  Port names that are neither str nor dict are not
    modelled; 'ports' itself is always given (107). *)
Record gblk := GBlk { gobj : res K; gports : seq gport; gx : option C }.
(** 'GTL': a dict of blocks *)
Definition gtl := seq (string * gblk).

(** 116-118: the name under which the port is added *)
Definition gname (p : gport) : string := if p is GName s then s else "[**]".
Definition gnames (g : gblk) : seq string := map gname (gports g).
(** 114-126: the load of a port of this kind *)
Definition special (p : gport) : option (seq (string * C)) :=
  match p with
  | GLoad kw => Some kw
  | GName s => if s == "[oc]" then Some [:: ("Y", 0)] else if s == "[sc]" then Some [:: ("Z", 0)] else None
  end.
(** [terminated] after the loop: a later one replaces an earlier one *)
Definition last_term (ps : seq gport) : option (string * seq (string * C)) :=
  foldl (fun t p => if special p is Some kw then Some (gname p, kw) else t) None ps.

Definition plist := seq (string * seq string).
(** 127-130 *)
Definition port_add (b : string) (pl : plist) (p : gport) : plist :=
  if special p is Some _ then pl
  else dset pl (gname p) (odflt [::] (dget pl (gname p)) ++ [:: b]).

Definition posns := seq (string * C).
Definition lift (r : circ * res unit) : res circ := if r.2 is Raise e then Raise e else Ok r.1.

(** one turn of 105-205 *)
Definition gtl_block (st : circ * plist * posns) (bg : string * gblk) : res (circ * plist * posns) :=
  let: (c, pl, pos) := st in
  let: (b, g) := bg in
  let ns := gnames g in
  let pl := foldl (port_add b) pl (gports g) in
  do pos <- (if gx g is Some x then
               if ns is n :: _ then Ok (dset pos n x) else Raise IndexError
             else Ok pos);                                                    (* 169-173 *)
  do o <- gobj g;
  do c <- lift (addblock nan c b o (PList ns) (odflt (- 10%:R) (gx g)));      (* 200 *)
  do c <- (if last_term (gports g) is Some t then lift (terminate c (dot b t.1) t.2)
           else Ok c);                                                        (* 201-202 *)
  Ok (c, pl, pos).

(** 204-210 *)
Definition gtl_join (c : circ) (pb : string * seq string) : res circ :=
  if (1 < size pb.2)%N then lift (connect (@getpos_flat C F Fl K) c [seq dot b pb.1 | b <- pb.2])
  else Ok c.
Definition singles (pl : plist) : nat := count (fun pb : string * seq string => (size pb.2 <= 1)%N) pl.

(** 226-235: positions of the blocks at the given ports; all of them are set again
    below, so only what can raise is kept *)
Definition place_first (c : circ) (pl : plist) (pos : posns) : res unit :=
  foldM (fun _ (px : string * C) =>
    if dget pl px.1 is Some bs then
      foldM (fun _ b => if dget (blocks c) b is Some bl then
                          do k <- lindex (bports bl) px.1;
                          if k == 0%N then Ok tt
                          else if oxpos (bobj bl) is Some xs then
                            if (1 < size xs)%N then Ok tt else Raise IndexError
                          else Raise AttributeError
                        else Raise KeyError) tt bs
    else Raise KeyError) tt pos.

Definition in_special (p : string) : bool := p \in [:: "[**]"; "[oc]"; "[sc]"].
(** 250-253: other ports of the block; an inconsistent one is reported only (254-262) *)
Definition spread (p : string) (x0 : C) (ports : seq (string * C)) (pos : posns) : posns :=
  foldl (fun pos p1 => if (p1.1 != p) && ~~ in_special p1.1 && ~~ dhas pos p1.1
                       then dset pos p1.1 (x0 + p1.2) else pos) pos ports.
(** one block, 241-263: Some: its position is set *)
Definition place_block (b : block K) (pos : posns) : res (option (C * posns)) :=
  if oxpos (bobj b) is Some xs then
    let px := zip (bports b) xs in
    Ok (if [seq y <- px | dhas pos y.1] is y :: _ then
          let x0 := odflt 0 (dget pos y.1) - y.2 in Some (x0, spread y.1 x0 px pos)
        else None)
  else Raise AttributeError.
(** the loop over the blocks, 239-263: blocks that are set (with their positions), the
    positions, and whether one was found *)
Fixpoint place_pass (bs : seq (string * block K)) (st : posns * posns) : res (posns * posns * bool) :=
  if bs is (nm, b) :: bs' then
    if dhas st.1 nm then place_pass bs' st else
    do r <- place_block b st.2;
    if r is Some (x0, pos) then
      do q <- place_pass bs' (dset st.1 nm x0, pos); Ok (q.1, true)
    else place_pass bs' st
  else Ok (st, false).
(** 236-263: while found; [fuel] passes at most (the number of blocks + 1 is enough:
    PropsGtlN.C53_ends); None: still looping *)
Fixpoint place_loop (fuel : nat) (bs : seq (string * block K)) (st : posns * posns) : option (res (posns * posns)) :=
  if fuel is n.+1 then
    match place_pass bs st with
    | Raise e => Some (Raise e)
    | Ok (st, true) => place_loop n bs st
    | Ok (st, false) => Some (Ok st)
    end
  else None.
(** tblock['xpos'] = ... *)
Definition set_pos (c : circ) (xs : posns) : circ :=
  with_blocks c [seq (nb.1, Block (bports nb.2) (bloc nb.2) (bobj nb.2) (odflt (bxpos nb.2) (dget xs nb.1)))
                | nb <- blocks c].
Definition place (c : circ) (pl : plist) (pos : posns) : res circ :=
  do _ <- place_first c pl pos;
  match place_loop (size (blocks c)).+1 (blocks c) ([::], pos) with
  | Some (Ok st) => Ok (set_pos c st.1)
  | Some (Raise e) => Raise e
  | None => Raise RuntimeError (* not reached *)
  end.

(** 290-299 *)
Definition gtl_ext (pl : plist) (c : circ) (p : string) : res circ :=
  if dget pl p is Some [:: b] then lift (connect (@getpos_flat C F Fl K) c [:: dot b p; p])
  else Raise ValueError.

(** the constructor from 103 to 311: Zbase z, Portnames ns, the positions rel of 'relpos' (after
    evaluation), the blocks G.  Without a touchstone file ('sNp'). *)
Definition assemble (z : C) (ns : seq string) (rel : posns) (G : gtl) : res circ :=
  if ~~ all (fun px : string * C => px.1 \in ns) rel then Raise ValueError else      (* 104-109 *)
  do st <- foldM gtl_block (new_circ K z ns, [::], rel) G;
  let: (c, pl, pos) := st in
  do c <- foldM gtl_join c pl;
  if singles pl != size ns then Raise ValueError else                         (* 212-215 *)
  do c <- place c pl pos;
  do c <- foldM (gtl_ext pl) c ns;
  if ports c != ns then Raise RuntimeError else Ok c.                         (* 308-311 *)
(** the whole constructor; f0, fl0: 45e6 and the flags {sNp: False} of the call at 329 *)
Definition build (z : C) (ns : seq string) (rel : posns) (G : gtl) (f0 : F) (fl0 : Fl) : res circ :=
  do c <- assemble z ns rel G;
  let r := get1S f0 z [::] fl0 c in
  if r.2 is Raise e then Raise e else Ok r.1.

(** rfGTL.getS, 462-499, of one frequency and without params: the circuit is always solved first (hasattr of
    super() sees no attribute E), with flags {sNp: False}; then the touchstone data,
    if there are some and the flags do not refuse them (wants), or the circuit again *)
Definition gtl_getS (snp : option (F -> C -> Fl -> res (rows C))) (wants : Fl -> bool) (fl0 : Fl)
    (f : F) (z' : C) (fl : Fl) (c : circ) : circ * res (rows C) :=
  let zz := if z' == 0 then zb c else z' in
  let r := get1S f zz [::] fl0 c in
  if r.2 is Raise e then (r.1, Raise e) else
  if snp is Some s then
    if wants fl then (r.1, s f zz fl) else get1S f zz [::] fl r.1
  else get1S f zz [::] fl r.1.

(** ** specification: the network of a description *)
(** the blocks with a port called p (not a terminated one) *)
Definition plain (g : gblk) (p : string) : bool :=
  has (fun q => (gname q == p) && ~~ isSome (special q)) (gports g).
Definition users (G : gtl) (p : string) : seq string := [seq bg.1 | bg <- G & plain bg.2 p].

(** voltages and inward currents v, i at 'block.port' for every port of every block, and u, j at
    the port names: every block does what its object does; a terminated port has its
    load; a name is one node, at which the current from outside, if it is declared,
    is the sum of those into the blocks *)
Definition gtl_law (z : C) (ns : seq string) (G : gtl) (f : F) (fl : Fl) (v i u j : asg C) : Prop :=
  [/\ (forall b g, List.In (b, g) G -> exists2 o, gobj g = Ok o &
         oden o f fl (fun k => v (dot b (nth "" (gnames g) k))) (fun k => i (dot b (nth "" (gnames g) k)))),
      (forall b g p kw, List.In (b, g) G -> List.In p (gports g) -> special p = Some kw ->
         load_law z (load_of kw) (v (dot b (gname p))) (i (dot b (gname p)))) &
      (forall p, (forall b, b \in users G p -> v (dot b p) = u p) /\
         \sum_(b <- users G p) i (dot b p) = (if p \in ns then j p else 0))].

(** with nothing coming in at the declared ports nothing happens in the blocks *)
Definition gtl_quiet (z : C) (ns : seq string) (G : gtl) (f : F) (fl : Fl) : Prop := forall v i u j : asg C,
  gtl_law z ns G f fl v i u j -> (forall p, p \in ns -> u p + z * j p = 0) ->
  forall b g p, List.In (b, g) G -> p \in gnames g -> v (dot b p) = 0 /\ i (dot b p) = 0.
(** the objects return an S-matrix, also after earlier questions *)
Definition gtl_answers (z : C) (G : gtl) (f : F) (fl : Fl) : Prop := forall b g o o' e,
  List.In (b, g) G -> gobj g = Ok o -> after_getS o o' -> oinv o' -> (ogetS f z fl o').2 <> Raise e.

(** a sensible description: a dict has every key once; the ports of a block
    have different names; the objects are good *)
Definition gtl_ok (G : gtl) : Prop :=
  uniq (dkeys G) /\ forall b g, List.In (b, g) G ->
    uniq (gnames g) /\ forall o, gobj g = Ok o -> oinv o.

(** ** specification: positions *)
(** the ports of the blocks with their distances from the position of the block *)
Definition ofsets := seq (string * seq (string * C)).
Definition goffs (G : gtl) : ofsets :=
  [seq (bg.1, if gobj bg.2 is Ok o then zip (gnames bg.2) (odflt [::] (oxpos o)) else [::]) | bg <- G].
(** the given positions: 'relpos' of declared ports, and 'xpos' of blocks (at their first port) *)
Definition given (rel : posns) (G : gtl) : posns :=
  foldl (fun pos bg => if gx bg.2 is Some x then dset pos (head "" (gnames bg.2)) x else pos) rel G.
(** ports and blocks whose position follows from those of the ports ps *)
Inductive plocated (L : ofsets) (ps : seq string) : string -> Prop :=
  | pl_given p : p \in ps -> plocated L ps p
  | pl_block b l p q : List.In (b, l) L -> p \in map fst l -> plocated L ps p ->
      q \in map fst l -> ~~ in_special q -> plocated L ps q.
Definition located L ps (l : seq (string * C)) : Prop := exists2 p, p \in map fst l & plocated L ps p.
(** a layout: a position X of every block and P of every port name *)
Definition layout (L : ofsets) (pos : posns) (X P : string -> C) : Prop :=
  (forall b l p d, List.In (b, l) L -> List.In (p, d) l -> ~~ in_special p -> P p = X b + d) /\
  (forall p x, List.In (p, x) pos -> P p = x).

(** a load terminate accepts at a port of impedance z *)
Definition load_fits (z : C) (kw : seq (string * C)) : Prop :=
  [\/ kw = [::], exists2 Z, kw = [:: ("Z", Z)] & Z + z != 0,
      exists2 Y, kw = [:: ("Y", Y)] & 1 + Y * z != 0 | exists R, kw = [:: ("RC", R)]].
(** a description that can be built: the declared ports are those used by exactly one
    block; blocks have as many names as ports and at most one load *)
Record gtl_fit (z : C) (ns : seq string) (rel : posns) (G : gtl) : Prop := {
  t_ns : [/\ ns <> [::], uniq ns & forall p, p \in ns -> ~~ has_char "."%char p];
  t_rel : uniq (dkeys rel) /\ {subset dkeys rel <= ns};
  t_blk : forall b g, List.In (b, g) G -> ~~ has_char "."%char b /\
    exists o xs, [/\ gobj g = Ok o, osize o = size (gports g) & oxpos o = Some xs];
  t_pos : forall b g, List.In (b, g) G -> gx g <> None ->
    exists p ps, gports g = p :: ps /\ special p = None;
  t_load : forall b g, List.In (b, g) G -> (count (fun p => isSome (special p)) (gports g) <= 1)%N /\
    forall p kw, List.In p (gports g) -> special p = Some kw -> load_fits z kw;
  t_use : forall p, (p \in ns) = (size (users G p) == 1%N) }.
End Gtl.

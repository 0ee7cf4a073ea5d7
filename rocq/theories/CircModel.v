(** Model of src/pyRFtk/rfCircuit.py: building a circuit (addblock, connect,
    terminate, deembed), closing and solving it (extS, getS).

    Conventions.
    - Every method is a function  state -> args -> state * res value : the state
      is returned also when the call raises, because python does not roll back.
    - Numbers are exact elements of a field C (no rounding); np.nan placeholders
      written by addblock are an arbitrary constant [nan] over which everything
      is quantified.
    - A numpy matrix of shape (r, c) is the list of its rows plus the column
      count (needed when r = 0).
    - The objects that can be used as blocks are described by a record [ocls]
      (size, port names, positions, set, getS with possible mutation), so that a
      circuit is again an instance (CircNest.v).
    - constructor keywords ports/xpos/Ss/fs/sNp of rfCircuit are not modelled: a
      new circuit has no ports.  Logging is not modelled.  Keyword [params] of
      addblock is the default {} (so nested getS calls get params={}). *)
From mathcomp Require Import all_ssreflect all_algebra.
From Coq Require Import String Ascii DecimalString.
From Verif Require Import Base ConvModel.
Set Implicit Arguments.
Unset Strict Implicit.
Unset Printing Implicit Defensive.
Import GRing.Theory Num.Theory.
Local Open Scope ring_scope.
Local Open Scope seq_scope.

(** str(n), used by "%d" % n *)
Definition dec (n : nat) : string := NilEmpty.string_of_uint (Nat.to_uint n).

(** pattern % k  for patterns made of literal characters, "%%" and exactly one
    "%d"/"%s"/"%i" (rfCircuit.py 630).  No conversion: TypeError (not all
    arguments converted); two conversions: TypeError (not enough arguments);
    anything else after '%' (widths, floats) is not modelled: ValueError. *)
Fixpoint fmt_go (pat : string) (arg : option string) : res (string * option string) :=
  match pat with
  | EmptyString => Ok (EmptyString, arg)
  | String c pat' =>
    if c == "%"%char then
      match pat' with
      | EmptyString => Raise ValueError
      | String d pat'' =>
        if d == "%"%char then
          do r <- fmt_go pat'' arg; Ok (String "%"%char r.1, r.2)
        else if (d == "d"%char) || (d == "s"%char) || (d == "i"%char) then
          match arg with
          | Some a => do r <- fmt_go pat'' None; Ok (a +s+ r.1, r.2)
          | None => Raise TypeError
          end
        else Raise ValueError
      end
    else do r <- fmt_go pat' arg; Ok (String c r.1, r.2)
  end.

Definition pyfmt (pat : string) (k : nat) : res string :=
  do r <- fmt_go pat (Some (dec k));
  if r.2 is None then Ok r.1 else Raise TypeError.

(** list.index(x): ValueError when absent *)
Definition lindex (T : eqType) (s : seq T) (x : T) : res nat :=
  if x \in s then Ok (seq.index x s) else Raise ValueError.

(** list.pop(k): IndexError when out of range (k >= 0) *)
Definition lpop (T : Type) (s : seq T) (k : nat) : res (seq T) :=
  if (k < size s)%N then Ok (take k s ++ drop k.+1 s) else Raise IndexError.

Definition fwd (p : string) : string := "->" +s+ p.
Definition bwd (p : string) : string := "<-" +s+ p.
Definition dot (b p : string) : string := b +s+ ("." +s+ p).

(** the ports= argument of addblock *)
Inductive portarg :=
  | PNone | PDict of seq (string * string) | PList of seq string | PStr of string | PBad.

(** [ports.pop(_p,_p) for _p in RFobj.ports] : names and what is left of the dict *)
Fixpoint subst_dict (ps : seq string) (d : seq (string * string))
  : seq string * seq (string * string) :=
  match ps with
  | [::] => ([::], d)
  | p :: ps' =>
    let q := if dget d p is Some q then q else p in
    let r := subst_dict ps' (ddel d p) in (q :: r.1, r.2)
  end.

(** rfCircuit.py 596-639 (N = len(RFobj), objports = RFobj.ports if any) *)
Definition resolve_ports (N : nat) (objports : option (seq string)) (pa : portarg)
  : res (seq string) :=
  do r <- (match objports with
           | Some ps =>
             match (match pa with PNone => PDict [::] | _ => pa end) with
             | PDict d =>
               let r := subst_dict ps d in
               if r.2 is [::] then Ok (r.1, PDict [::]) else Raise ValueError
             | pa' => Ok ([::], pa')
             end
           | None => Ok ([::], pa)
           end);
  do oports <- (if r.1 is [::] then
     match r.2 with
     | PNone => mapM (pyfmt "%d") (iota 1 N)
     | PDict _ => Raise TypeError
     | PList l => Ok l
     | PStr s => mapM (pyfmt s) (iota 1 N)
     | PBad => Raise ValueError
     end else Ok r.1);
  if size oports == N then Ok oports else Raise ValueError.

(** the caller's ports argument after the call: a dict is emptied by the pops *)
Definition portarg_after (objports : option (seq string)) (pa : portarg) : portarg :=
  match objports, pa with
  | Some ps, PDict d => PDict (subst_dict ps d).2
  | _, _ => pa
  end.

Section Circ.
Variable C : numClosedFieldType.
Variables F Fl : eqType.        (* frequencies; flags dictionaries *)

Definition rows := seq (seq C).

(** What a circuit uses of a block object: len(obj), obj.ports, obj.xpos (if
    they exist), obj.set(kw...), obj.getS(f, Zbase=..., flags=...).  getS returns
    the new state of the object and the matrix (2-D, as rows). *)
Record ocls := Ocls {
  ocar :> Type;
  osize : ocar -> nat;
  oports : ocar -> option (seq string);
  oxpos : ocar -> option (seq C);
  oprm : Type;
  oset : oprm -> ocar -> ocar * res unit;
  ogetS : F -> C -> Fl -> ocar -> ocar * res rows }.

Variable K : ocls.
Variable nan : C.

(** one entry of self.blocks (665-671) *)
Record block := Block {
  bports : seq string; bloc : nat * nat; bobj : K; bxpos : C }.

(** self.Portnames: a list of its own, or (after extS) the same python list
    object as self.ports *)
Inductive pnames := PGiven of seq string | PAlias.

(** the attributes of an rfCircuit (64-113).  [nc] = M.shape[1]. *)
Record circ := Circ {
  zb : C; ports : seq string; pn : pnames; waves : seq string; eqns : seq string;
  nc : nat; mM : rows; blocks : seq (string * block);
  dC : seq (string * (nat * seq nat)); dT : seq (string * (nat * nat * nat));
  dE : seq (string * nat);
  invM : option rows; cS : option rows; cf : option F; cfl : option Fl;
  xpos : seq C }.

Definition new_circ (z : C) (portnames : seq string) : circ :=
  Circ z [::] (PGiven portnames) [::] [::] 0 [::] [::] [::] [::] [::] None None None None [::].

(** field updates *)
Definition with_cache c iM S f fl := Circ (zb c) (ports c) (pn c) (waves c) (eqns c)
  (nc c) (mM c) (blocks c) (dC c) (dT c) (dE c) iM S f fl (xpos c).
Definition with_ports c ps xs := Circ (zb c) ps (pn c) (waves c) (eqns c)
  (nc c) (mM c) (blocks c) (dC c) (dT c) (dE c) (invM c) (cS c) (cf c) (cfl c) xs.
Definition with_pn c p := Circ (zb c) (ports c) p (waves c) (eqns c)
  (nc c) (mM c) (blocks c) (dC c) (dT c) (dE c) (invM c) (cS c) (cf c) (cfl c) (xpos c).
Definition with_waves c ws := Circ (zb c) (ports c) (pn c) ws (eqns c)
  (nc c) (mM c) (blocks c) (dC c) (dT c) (dE c) (invM c) (cS c) (cf c) (cfl c) (xpos c).
Definition with_M c n m es := Circ (zb c) (ports c) (pn c) (waves c) es
  n m (blocks c) (dC c) (dT c) (dE c) (invM c) (cS c) (cf c) (cfl c) (xpos c).
Definition with_blocks c bs := Circ (zb c) (ports c) (pn c) (waves c) (eqns c)
  (nc c) (mM c) bs (dC c) (dT c) (dE c) (invM c) (cS c) (cf c) (cfl c) (xpos c).
Definition with_dicts c dc dt de := Circ (zb c) (ports c) (pn c) (waves c) (eqns c)
  (nc c) (mM c) (blocks c) dc dt de (invM c) (cS c) (cf c) (cfl c) (xpos c).

(** self.S = None; self.invM = None *)
Definition uncache c := with_cache c None None (cf c) (cfl c).

Definition upd (r : seq C) (j : nat) (x : C) : seq C := set_nth 0 r j x.
Definition upd2 (m : rows) (i j : nat) (x : C) : rows :=
  set_nth [::] m i (upd (nth [::] m i) j x).
Definition zrow (n : nat) : seq C := nseq n 0.
(** np.hstack((M, zeros)) *)
Definition hpad (k : nat) (m : rows) : rows := [seq r ++ zrow k | r <- m].

(** state-passing loops: "for x in xs: step" stopping at an exception *)
Fixpoint loop S A (step : S -> A -> S * res unit) (s : S) (xs : seq A) : S * res unit :=
  if xs is x :: xs' then
    let r := step s x in
    if r.2 is Ok _ then loop step r.1 xs' else r
  else (s, Ok tt).

(** *** addblock, 538-732 *)
Definition smark (k n : nat) : string :=
  if (k == 0)%N then "S[" else if (k == n.-1)%N then "S]" else "S+".

Definition addblock_new c (name : string) (o : K) (pa : portarg) (relpos : C)
  : circ * res unit :=
  let N := osize o in
  match resolve_ports N (oports o) pa with
  | Raise e => (c, Raise e)
  | Ok ops =>
    let c := with_blocks c (dset (blocks c) name (Block ops (size (mM c), nc c) o relpos)) in
    let c := with_waves c (waves c ++ [seq fwd (dot name p) | p <- ops]
                                   ++ [seq bwd (dot name p) | p <- ops]) in   (* 674-675 *)
    let m := hpad (2 * N) (mM c) ++
             [seq zrow (nc c) ++ nseq N nan ++ [seq (if j == k then -1 else 0) | j <- iota 0 N]
                 | k <- iota 0 N] in                                          (* 697-707 *)
    let es := eqns c ++ [seq smark kp.1 (size ops) +s+ " " +s+ dot name kp.2
                           | kp <- zip (iota 0 (size ops)) ops] in
    let c := with_M c (nc c + 2 * N) m es in
    let xs := if oxpos o is Some xs then [seq relpos + px.2 | px <- zip ops xs]
              else [seq relpos | _ <- ops] in                                 (* 715-721 *)
    (with_ports c (ports c ++ [seq dot name p | p <- ops]) (xpos c ++ xs), Ok tt)
  end.

Definition addblock c (name : string) (o : K) (pa : portarg) (relpos : C)
  : circ * res unit :=
  let c := uncache c in                                                       (* 568-569 *)
  if has_char "."%char name then (c, Raise ValueError) (* see addblock_sub *)
  else if dget (blocks c) name is Some b then
    if (osize o != osize (bobj b))%N then                                     (* 607-611 *)
      (c, Raise (if dhas (blocks c) "object" then ValueError else KeyError))
    else (with_blocks c (dset (blocks c) name
            (Block (bports b) (bloc b) o (bxpos b))), Ok tt)                  (* 615 *)
  else addblock_new c name o pa relpos.

(** addblock('name.sub...', ...) 571-601: [f] is subblockobj.addblock(sub, ...) on
    a copy of the block's object; the block's object is replaced on success *)
Definition addblock_sub c (name : string) (f : K -> K * res unit) : circ * res unit :=
  let c := uncache c in
  if dget (blocks c) name is Some b then
    let r := f (bobj b) in
    if r.2 is Raise e then (c, Raise e)
    else (with_blocks c (dset (blocks c) name
            (Block (bports b) (bloc b) r.1 (bxpos b))), Ok tt)
  else (c, Raise ValueError).

(** *** connect, 769-864 *)
(** getpos (738-763) only computes a position; it is an arbitrary function here *)
Variable getpos : circ -> string -> res C.

Definition newports c (ps : seq string) := [seq p <- ps | fwd p \notin waves c].
Definition oldports c (ps : seq string) := [seq p <- ps | fwd p \in waves c].

(** 804-811, at most one new port *)
Definition connect_new c (olds : seq string) (p : string) : circ * res unit :=
  let c := with_waves c (waves c ++ [:: fwd p; bwd p]) in
  let c := with_ports c (ports c ++ [:: p]) (xpos c) in
  match olds with
  | [::] => (c, Raise IndexError)
  | o :: _ => match getpos c o with
              | Ok x => (with_ports c (ports c) (xpos c ++ [:: x]), Ok tt)
              | Raise e => (c, Raise e)
              end
  end.

(** 826-831 *)
Definition consume c (p : string) : circ * res unit :=
  match lindex (ports c) p with
  | Raise e => (c, Raise e)
  | Ok k => match lpop (ports c) k with
    | Raise e => (c, Raise e)
    | Ok ps => match lpop (xpos c) k with
      | Raise e => (with_ports c ps (xpos c), Raise e)
      | Ok xs => (with_ports c ps xs, Ok tt)
      end
    end
  end.

(** ideal N-port junction, 841-843 *)
Definition SJ (N i j : nat) : C := 2%:R / N%:R - (if j == i then 1 else 0).

Definition cmark (p p0 p1 : string) : string :=
  if p == p0 then "C[" else if p == p1 then "C]" else "C+".

(** row i of the junction, 848-862 *)
Definition junction_row (n N i : nat) (iA : nat) (iBs : seq nat) : seq C :=
  foldl (fun r jb => upd r jb.2 (SJ N i jb.1)) (upd (zrow n) iA (-1))
        (zip (iota 0 N) iBs).

Definition connect c (ps : seq string) : circ * res unit :=
  let news := newports c ps in
  let olds := oldports c ps in
  if (1 < size news)%N then (c, Raise ValueError)                             (* 789-792 *)
  else if (if news is p :: _ then has_char "."%char p else false)
  then (c, Raise ValueError)                                                  (* 793-796 *)
  else
  let r := loop (fun c p => connect_new c olds p) c news in
  if r.2 is Raise e then (r.1, Raise e) else
  let c := r.1 in
  match mapM (fun p => lindex (waves c) (if p \in news then bwd p else fwd p)) ps,
        mapM (fun p => lindex (waves c) (if p \in news then fwd p else bwd p)) ps with
  | Ok iAs, Ok iBs =>
    let r := loop consume c [seq p <- ps | p \notin news] in
    if r.2 is Raise e then (r.1, Raise e) else
    let c := r.1 in
    let n := (nc c + 2 * size news)%N in
    let N := size iAs in
    let m := hpad (2 * size news) (mM c) ++
             [seq junction_row n N ia.1 ia.2 iBs | ia <- zip (iota 0 N) iAs] in
    let es := eqns c ++ [seq cmark p (head "" ps) (last "" ps) +s+ " " +s+ p | p <- ps] in
    let c := with_M c n m es in
    let dc := foldl (fun d pa => dset d pa.1 (pa.2, iBs)) (dC c) (zip ps iAs) in
    (uncache (with_dicts c dc (dT c) (dE c)), Ok tt)
  | Raise e, _ => (c, Raise e)
  | _, Raise e => (c, Raise e)
  end.

(** *** terminate, 870-985; [kw] is the kwargs dict *)
Definition rho_of (z : C) (kw : seq (string * C)) : res C :=
  if (1 < size kw)%N then Raise ValueError                                    (* 894-896 *)
  else
  do r <- (if dget kw "Z" is Some Z then
             if Z + z == 0 then Raise ZeroDivisionError
             else Ok ((Z - z) / (Z + z), ddel kw "Z")
           else if dget kw "Y" is Some Y then
             if 1 + Y * z == 0 then Raise ZeroDivisionError
             else Ok ((1 - Y * z) / (1 + Y * z), ddel kw "Y")
           else if dget kw "RC" is Some R then Ok (R, ddel kw "RC")
           else Ok (0, kw));
  if r.2 is [::] then Ok r.1 else Raise ValueError.                           (* 907-909 *)

Definition terminate c (port : string) (kw : seq (string * C)) : circ * res unit :=
  match rho_of (zb c) kw with
  | Raise e => (c, Raise e)
  | Ok rho =>
    if dget (dT c) port is Some (_, iB, e) then                               (* 914-920 *)
      let c := with_M c (nc c) (upd2 (mM c) e iB rho) (eqns c) in
      (with_cache c None (cS c) (cf c) (cfl c), Ok tt)
    else if dget (dE c) port is Some e then                                   (* 922-943 *)
      match lindex (waves c) (fwd port), lindex (waves c) (bwd port) with
      | Ok iA, Ok iB =>
        let c := with_M c (nc c) (upd2 (upd2 (mM c) e iA (-1)) e iB rho)
                   (set_nth "" (eqns c) e ("T: " +s+ port)) in
        let c := with_dicts c (dC c) (dset (dT c) port (iA, iB, e)) (ddel (dE c) port) in
        let r := consume c port in
        if r.2 is Raise e then (r.1, Raise e) else (uncache r.1, Ok tt)
      | _, _ => (c, Raise UnboundLocalError)
      end
    else                                                                      (* 957-981 *)
      let r := consume c port in
      if r.2 is Raise e then
        (r.1, Raise (if e is IndexError then ValueError else e))
      else let c := r.1 in
      let m := mM c ++ [:: zrow (nc c)] in
      let e := size (mM c) in
      match lindex (waves c) (fwd port), lindex (waves c) (bwd port) with
      | Ok iA, Ok iB =>
        let m := upd2 (upd2 m e iA (-1)) e iB rho in
        let c := with_M c (nc c) m (eqns c ++ [:: "T: " +s+ port]) in
        (uncache (with_dicts c (dC c) (dset (dT c) port (iA, iB, e)) (dE c)), Ok tt)
      | _, _ => (with_M c (nc c) m (eqns c), Raise UnboundLocalError)
      end
  end.

(** *** deembed, 386-532 (lists of pairs; a dict is converted to its item list) *)
Definition pair_rows (n : nat) (i1 j1 i2 j2 : nat) : rows :=
  [:: upd (upd (zrow n) i1 1) j1 (-1); upd (upd (zrow n) i2 1) j2 (-1)].

Definition drop_port c (p : string) : circ * res unit :=
  match lindex (ports c) p with
  | Raise e => (c, Raise e)
  | Ok k => match lpop (ports c) k with
    | Ok ps => (with_ports c ps (xpos c), Ok tt)
    | Raise e => (c, Raise e)
    end
  end.

Definition deembed_int c (dpip : string * string) : circ * res unit :=
  let: (dp, ip) := dpip in
  if ip \in ports c then (c, Raise ValueError)                                (* 449-452 *)
  else
  let c := with_waves c (waves c ++ [:: fwd ip; bwd ip]) in
  let c := with_ports c (ports c ++ [:: ip]) (xpos c) in
  if dp \notin ports c then (c, Raise ValueError)                             (* 458-461 *)
  else
  match lindex (waves c) (fwd dp), lindex (waves c) (bwd dp) with
  | Ok iA, Ok iB =>
    let nw := size (waves c) in
    let c := with_M c (nc c) (mM c ++ pair_rows (nc c) iA nw.-1 iB (nw - 2))
               (eqns c ++ [:: "Di " +s+ dp; "Di " +s+ ip]) in
    drop_port c dp
  | _, _ => (c, Raise ValueError)
  end.

Definition deembed_ext c (dpep : string * string) : circ * res unit :=
  let: (dp, ep) := dpep in
  if dp \notin ports c then (c, Raise ValueError)
  else if ep \notin ports c then (c, Raise ValueError)
  else
  match lindex (waves c) (fwd dp), lindex (waves c) (bwd dp),
        lindex (waves c) (fwd ep), lindex (waves c) (bwd ep) with
  | Ok iAd, Ok iBd, Ok iAe, Ok iBe =>
    let c := with_M c (nc c) (mM c ++ pair_rows (nc c) iAd iAe iBd iBe)
               (eqns c ++ [:: "De " +s+ dp; "De " +s+ ep]) in
    let r := drop_port c dp in
    if r.2 is Raise e then r else drop_port r.1 ep
  | _, _, _, _ => (with_M c (nc c) (mM c ++ [:: zrow (nc c); zrow (nc c)]) (eqns c),
                   Raise ValueError)
  end.

Definition deembed c (ints exts : seq (string * string)) : circ * res unit :=
  let c := uncache c in
  let k := (2 * size ints)%N in
  let c := with_M c (nc c + k) (hpad k (mM c)) (eqns c) in                    (* 440-443 *)
  let r := loop deembed_int c ints in
  if r.2 is Raise e then r else loop deembed_ext r.1 exts.

(** *** matrices *)
Definition mx_of m n (A : rows) : 'M[C]_(m, n) := \matrix_(i, j) nth 0 (nth [::] A i) j.
Definition rows_of m n (A : 'M[C]_(m, n)) : rows :=
  [seq [seq A i j | j <- enum 'I_n] | i <- enum 'I_m].

(** np.linalg.inv of an r x c array: LinAlgError unless square and regular *)
Definition inv_rows (n : nat) (A : rows) : res rows :=
  if size A == n then rmap (fun B : 'M_n => rows_of B) (np_inv (mx_of n n A))
  else Raise LinAlgError.

(** A[np.r_[is],:][:,np.r_[js]] *)
Definition sub_rows k (A : rows) (is' js : seq nat) : 'M[C]_k :=
  \matrix_(a, b) nth 0 (nth [::] A (nth 0%N is' a)) (nth 0%N js b).

(** *** extS, 991-1080 *)
Definition add_E c (p : string) : circ * res unit :=
  match lindex (waves c) (fwd p) with
  | Raise e => (with_M c (nc c) (mM c ++ [:: zrow (nc c)]) (eqns c), Raise e)
  | Ok i =>
    let c' := with_M c (nc c) (mM c ++ [:: upd (zrow (nc c)) i 1])
               (eqns c ++ [:: "E: " +s+ p]) in
    (with_dicts c' (dC c) (dT c) (dset (dE c) p (size (mM c))), Ok tt)
  end.

(** 1004-1040: make M square *)
Definition close c : circ * res unit :=
  if (size (mM c) == nc c)%N then (c, Ok tt)
  else
  let c := with_cache c (invM c) None (cf c) (cfl c) in
  let go c := loop add_E c (ports c) in
  match pn c with
  | PAlias => go c   (* the list compared with itself *)
  | PGiven [::] => go (with_pn c PAlias)                                      (* 1031-1032 *)
  | PGiven ns =>
    if (size ns != size (ports c))%N then (c, Raise ValueError)               (* 1014-1019 *)
    else if ~~ all (fun p => p \in ns) (ports c) then (c, Raise ValueError)   (* 1021-1026 *)
    else go (with_pn (with_ports c ns (xpos c)) PAlias)                       (* 1028 *)
  end.

(** self.Portnames as used after line 1045 *)
Definition portnames c : seq string := if pn c is PGiven ns then ns else ports c.

Definition dget_exn (V : Type) (d : seq (string * V)) (p : string) : res V :=
  if dget d p is Some v then Ok v else Raise KeyError.

Definition extS c : circ * res rows :=
  let r := close c in
  if r.2 is Raise e then (r.1, Raise e) else
  let c := r.1 in
  let ps := portnames c in
  match mapM (dget_exn (dE c)) ps, mapM (fun p => lindex (waves c) (fwd p)) ps,
        mapM (fun p => lindex (waves c) (bwd p)) ps with
  | Ok iEs, Ok iAs, Ok iBs =>
    match inv_rows (nc c) (mM c) with                                         (* 1050 *)
    | Raise e => (c, Raise e)
    | Ok iM =>
      let c := with_cache c (Some iM) (cS c) (cf c) (cfl c) in
      let k := size ps in
      if (k == 0)%N then (c, Raise IndexError)   (* np.r_[[]] is a float array *)
      else match np_inv (sub_rows k iM iAs iEs) with                          (* 1052-1054 *)
      | Raise e => (c, Raise e)
      | Ok iQ =>
        let S := rows_of (sub_rows k iM iBs iEs *m iQ) in                     (* 1066-1067 *)
        (with_cache c (Some iM) (Some S) (cf c) (cfl c), Ok S)
      end
    end
  | Raise e, _, _ => (c, Raise e)
  | _, Raise e, _ => (c, Raise e)
  | _, _, Raise e => (c, Raise e)
  end.

(** *** getS, 1249-1345 *)
(** self.M[i1:i1+N,i2:i2+N] = S (1309) *)
Definition put_row (r : seq C) (i2 N : nat) (x : seq C) : seq C :=
  take i2 r ++ x ++ drop (i2 + N) r.
Definition put_block (m : rows) (loc : nat * nat) (N : nat) (S : rows) : rows :=
  take loc.1 m ++ [seq put_row rx.1 loc.2 N rx.2 | rx <- zip (take N (drop loc.1 m)) S]
  ++ drop (loc.1 + N) m.

Definition shape_ok (N : nat) (S : rows) : bool :=
  (size S == N) && all (fun r => size r == N) S.

(** one iteration of 1287-1309; [prm] = params.get(blkID,{}) if given *)
Definition fill1 (f : F) (fl : Fl) (prms : seq (string * oprm K)) c (nb : string * block)
  : circ * res unit :=
  let: (name, b) := nb in
  let N := size (bports b) in
  let rs := if dget prms name is Some p then oset p (bobj b) else (bobj b, Ok tt) in
  let setb c o := with_blocks c (dset (blocks c) name (Block (bports b) (bloc b) o (bxpos b))) in
  match rs.2 with
  | Ok _ | Raise AttributeError =>                                            (* 1296-1299 *)
    let rg := ogetS f (zb c) fl rs.1 in
    let c := setb c rg.1 in
    match rg.2 with
    | Raise e => (c, Raise e)
    | Ok Sm => if shape_ok N Sm then
                (with_M c (nc c) (put_block (mM c) (bloc b) N Sm) (eqns c), Ok tt)
              else (c, Raise ValueError)
    end
  | Raise e => (setb c rs.1, Raise e)
  end.

Definition solve_now (f : F) (fl : Fl) (prms : seq (string * oprm K)) c : circ * res rows :=
  let r := loop (fill1 f fl prms) c (blocks c) in
  if r.2 is Raise e then (r.1, Raise e) else
  let r := extS r.1 in
  if r.2 is Ok Sm then (with_cache r.1 (invM r.1) (Some Sm) (Some f) (Some fl), Ok Sm)
  else r.

(** conversion of the result to another reference impedance, 1320-1321: with the
    default wave types "V", "V" of ConvertGeneral *)
Definition rebase (z' z : C) (S : rows) : res rows :=
  if (z' == 0) || (z' == z) then Ok S
  else do r <- ConvertGeneral (Nd0 z') (Nd2 (mx_of (size S) (size S) S)) (Nd0 z) "V" "V";
       if r is Nd2 _ _ A then Ok (rows_of A) else Raise TypeError.

(** get1S; [Zbase] None is 0 (both falsy) *)
Definition get1S (f : F) (z' : C) (prms : seq (string * oprm K)) (fl : Fl) c : circ * res rows :=
  let r := if (Some f != cf c) || ~~ isSome (cS c) || (Some fl != cfl c)
           then solve_now f fl prms c
           else (c, if cS c is Some Sm then Ok Sm else Raise TypeError) in
  if r.2 is Ok Sm then (r.1, rebase z' (zb r.1) Sm) else r.

(** list of frequencies 1325-1330: one matrix per frequency, state threaded *)
Fixpoint getS_list (fs : seq F) z' prms fl c : circ * res (seq rows) :=
  if fs is f :: fs' then
    let r := get1S f z' prms fl c in
    match r.2 with
    | Raise e => (r.1, Raise e)
    | Ok Sm => let r' := getS_list fs' z' prms fl r.1 in (r'.1, rmap (cons Sm) r'.2)
    end
  else (c, Ok [::]).

(** *** solve 1411-1452, Solution 1458-1613 *)
(** numpy A @ x for a 2-D array and a vector of matching length *)
Definition mat_vec (A : rows) (x : seq C) : seq C :=
  [seq \sum_(j < size x) nth 0 r j * nth 0 x j | r <- A].

(** Es = zeros(M.shape[0]); Es[self.E[p]] = Ek for p, Ek in zip(self.ports, Ei) *)
Definition exc_vec c (Ei : seq C) : res (seq C) :=
  do es <- mapM (fun pE : string * C => rmap (fun e => (e, pE.2)) (dget_exn (dE c) pE.1))
             (zip (ports c) Ei);
  Ok (foldl (fun v eE => upd v eE.1 eE.2) (nseq (size (mM c)) 0) es).

(** node name of a forward wave: w[:2] == '->', w[2:] *)
Definition fwd_node (w : string) : option string :=
  match w with
  | String a (String b n) => if (a == "-"%char) && (b == ">"%char) then Some n else None
  | _ => None
  end.

(** the wave vector self.sol (1431-1450, 1493-1528, 1711-1730); Zbase None is 0.
    Ea is read in the order self.ports has before getS is called.  [always]: maxV
    also calls extS when f != self.f. *)
Definition sol_vec (always : bool) (f : F) (E : seq (string * C)) (z' : C) (fl : Fl) c
  : circ * res (C * seq C) :=
  let zz := if z' == 0 then zb c else z' in
  match mapM (dget_exn E) (ports c) with
  | Raise e => (c, Raise e)
  | Ok Ea =>
    let r := get1S f zz [::] fl c in
    match r.2 with
    | Raise e => (r.1, Raise e)
    | Ok Sm =>
      let c := r.1 in
      if (size Sm != size Ea)%N then (c, Raise ValueError) else
      let Eb := mat_vec Sm Ea in
      let Ei := [seq ((ab.1 + ab.2) + zb c / zz * (ab.1 - ab.2)) / 2%:R | ab <- zip Ea Eb] in
      match exc_vec c Ei with
      | Raise e => (c, Raise e)
      | Ok Es =>
        let r := if ~~ isSome (invM c) || (always && (Some f != cf c)) then extS c
                 else (c, Ok [::]) in
        match r.2 with
        | Raise e => (r.1, Raise e)
        | Ok _ => if invM r.1 is Some iM then (r.1, Ok (zz, mat_vec iM Es))
                  else (r.1, Raise TypeError)
        end
      end
    end
  end.

(** Solution(f, E, Zbase, nodes=[]): the nodes of this level (1530-1541);
    (V, I, Vf, Vr) per node.  self.sol and self.tSol are not kept in the state. *)
Definition Solution1 (f : F) (E : seq (string * C)) (z' : C) (fl : Fl) c
  : circ * res (seq (string * (C * C * C * C))) :=
  let r := sol_vec false f E z' fl c in
  match r.2 with
  | Raise e => (r.1, Raise e)
  | Ok zsol =>
    let c := r.1 in
    let: (zz, sol) := zsol in
    (c, mapM (fun kw : nat * string =>
          do kr <- lindex (waves c) (bwd kw.2);
          let V := nth 0 sol kw.1 + nth 0 sol kr in
          let I := (nth 0 sol kw.1 - nth 0 sol kr) / zb c in
          Ok (kw.2, (V, I, (V + zz * I) / 2%:R, (V - zz * I) / 2%:R)))
        (pmap (fun kw => omap (pair kw.1) (fwd_node kw.2))
              (zip (iota 0 (size (waves c))) (waves c))))
  end.

End Circ.

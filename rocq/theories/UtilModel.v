(** Small modules: maxfun.py, the identifiers of config.py, str_dict.py, scaleVSW of
    plotVSWs.py, findpath.py, getlines.py. *)
From mathcomp Require Import all_ssreflect all_algebra.
From Coq Require Import String Ascii Decimal DecimalString.
From Verif Require Import Base.
Set Implicit Arguments.
Unset Strict Implicit.
Unset Printing Implicit Defensive.
Import GRing.Theory Num.Theory.
Local Open Scope string_scope.
Local Open Scope ring_scope.
Local Open Scope seq_scope.

(** * maxfun(xs, ys), maxfun.py 12-87 (plots and log messages left out); real arithmetic
    instead of floats, xs and ys of equal length *)
Section Maxfun.
Variable F : realFieldType.
(** np.polyfit(three abscissae, three ordinates, deg=2): the coefficients p[0], p[1], p[2] *)
Variable polyfit : F * F * F -> F * F * F -> F * F * F.

(** 24-26: indices where np.diff(np.sign(np.diff(ys))) < 0 *)
Definition idxmaxs (ys : seq F) : seq nat :=
  [seq i <- iota 0 (size ys - 2) |
     Num.sg (ys`_i.+2 - ys`_i.+1) - Num.sg (ys`_i.+1 - ys`_i) < 0].

(** 49-70, one index; when p[0] is 0 the vertex is inf or nan and the test at 62 is false.
    68: both sequences of the zip are xs *)
Definition maxfun_step (xs ys : seq F) (m : F * F) (i : nat) : F * F :=
  let: (p0, p1, p2) := polyfit (xs`_i, xs`_i.+1, xs`_i.+2) (ys`_i, ys`_i.+1, ys`_i.+2) in
  let xy := (- p1 / (2%:R * p0), p2 - p1 ^+ 2 / (4%:R * p0)) in
  if (p0 != 0) && (xs`_i <= xy.1 <= xs`_i.+2) then
    if m.2 < xy.2 then xy else m
  else foldl (fun m x => if m.2 < x then (x, x) else m) (0, 0) (take 3 (drop i xs)).

(** 19, 49, 87 *)
Definition maxfun (xs ys : seq F) : res (F * F) :=
  if (size xs == 0)%N || (size ys == 0)%N then Raise IndexError else
  let m0 := if ys`_0 < last 0 ys then (last 0 xs, last 0 ys) else (xs`_0, ys`_0) in
  Ok (foldl (maxfun_step xs ys) m0 (idxmaxs ys)).
End Maxfun.

(** * identifiers *)

(** f'{n}' *)
Definition decimal (n : nat) : string := NilZero.string_of_uint (Nat.to_uint n).
(** _newID, config.py 187-192; None: the attribute _newID.N does not exist yet *)
Definition newID (st : option nat) : option nat * string :=
  let n := if st is Some n then n.+1 else 0%N in (Some n, decimal n).
(** kwargs.pop('Id', prefix + _newID()): rfBase.py 80, rfRLC.py 70, rfObject.py 98,
    rfTRL.py 186, circuit.py 72, rfGTL.py 42; the default is computed in any case.
    cls: 'circuit', 'rfTRL', 'rfGTL' or the name of the class *)
Definition construct (st : option nat) (cls : string) (Id : option string) : option nat * string :=
  let: (st1, n) := newID st in (st1, if Id is Some s then s else (cls ++ "_" ++ n)%string).
(** the Ids of the objects constructed one after the other *)
Fixpoint constructs (st : option nat) (cs : seq (string * option string)) : seq string :=
  if cs is (p, Id) :: cs' then
    let: (st1, s) := construct st p Id in s :: constructs st1 cs'
  else [::].

(** _newID in threads: _newID.N += 1 reads and writes in separate steps, and the returned
    text reads again.  Per thread: what it will do next and the text it returned. *)
Inductive tstate := TStart | TRead of nat | TWrote | TDone of string.
Definition tstep (N : nat) (t : tstate) : nat * tstate :=
  match t with
  | TStart => (N, TRead N)
  | TRead n => (n.+1, TWrote)
  | TWrote => (N, TDone (decimal N))
  | TDone s => (N, TDone s)
  end.
Fixpoint trun (N : nat) (ts : seq tstate) (sched : seq nat) : nat * seq tstate :=
  if sched is k :: sched' then
    let: (N', t') := tstep N (nth TStart ts k) in trun N' (set_nth TStart ts k t') sched'
  else (N, ts).

(** * str_dict(adict), str_dict.py 3-30 *)
Section StrDict.
Variable F : Type.
(** '%7.4f' % x *)
Variable fmt74 : F -> string.
(** the values met: a dict, a pair (positions, _), a pair whose first element has no
    length, anything else (the text of its type).  Keys: None for one that is not a text. *)
Inductive dv := DDict of seq (option string * dv) | DLine of seq (option F) | DPairBad | DAny of string.
(** the attributes N and s of the function *)
Definition sd_state := (nat * string)%type.
Fixpoint spaces (n : nat) : string := if n is n'.+1 then ("    " ++ spaces n')%string else "".
Definition nl : string := String "010"%char EmptyString.
(** 20-28 *)
Definition sd_leaf (v : dv) : res string :=
  match v with
  | DLine [::] => Raise IndexError                     (* adict[0][0] of an empty sequence *)
  | DLine [:: x] => Ok ("node [" ++ (if x is Some y then fmt74 y else "N/A") ++ " m]," ++ nl)%string
  | DLine (Some x :: l) =>
    if last (Some x) l is Some y then
      Ok ("line [" ++ decimal (size l).+1 ++ " pts, " ++ fmt74 x ++ "m to  " ++ fmt74 y ++ "m]," ++ nl)%string
    else Raise TypeError                               (* format of None *)
  | DLine (None :: _) => Raise TypeError
  | DPairBad => Raise TypeError                        (* len() *)
  | DAny t => Ok ("?? " ++ t ++ "," ++ nl)%string
  | DDict _ => Raise ValueError                        (* not used *)
  end.
(** 14-16: the loop over the items, [call] being str_dict itself *)
Section Loop.
Variable call : sd_state -> dv -> sd_state * res unit.
Fixpoint sd_items (st : sd_state) (l : seq (option string * dv)) : sd_state * res unit :=
  match l with
  | [::] => (st, Ok tt)
  | (None, _) :: _ => (st, Raise TypeError)            (* ' ' + key *)
  | (Some k, x) :: l' =>
    let st1 := (st.1, (st.2 ++ spaces st.1 ++ " " ++ k ++ ": ")%string) in
    match call st1 x with
    | (st2, Raise e) => (st2, Raise e)
    | (st2, Ok _) => sd_items st2 l'
    end
  end.
End Loop.
Fixpoint str_dict1 (st : sd_state) (v : dv) {struct v} : sd_state * res unit :=
  match v with
  | DDict items =>
    match sd_items str_dict1 (st.1.+1, (st.2 ++ "{" ++ nl)%string) items with
    | (st1, Raise e) => (st1, Raise e)
    | (st1, Ok _) => let n := st1.1.-1 in ((n, (st1.2 ++ spaces n ++ "}," ++ nl)%string), Ok tt)
    end
  | _ => match sd_leaf v with
         | Ok s => ((st.1, (st.2 ++ s)%string), Ok tt)
         | Raise e => (st, Raise e)
         end
  end.
(** a call by the user: None when the attributes do not exist yet *)
Definition str_dict (st : option sd_state) (v : dv) : sd_state * res string :=
  let: (st1, r) := str_dict1 (if st is Some s then s else (0%N, ""%string)) v in
  (st1, do _ <- r; Ok st1.2).
End StrDict.

(** * scaleVSW(VSW, scale), plotVSWs.py 206-217 *)
Section Scale.
Variable C : ringType.
(** the values met.  A mutable sequence of voltages is a reference into the heap; positions
    are never looked at.  VNum r: [pos, v], a list (r its address, v in the heap) or a
    tuple (None); VBad: anything else *)
Inductive vsw := VDict of seq (string * vsw) | VLine of nat | VTuple | VNum of option nat | VBad.
(** the heap: address -> voltages *)
Definition vheap := nat -> seq C.
Definition upd (h : vheap) (r : nat) (x : seq C) : vheap := fun a => if a == r then x else h a.
(** val[1][k] *= scale for every k; VTuple: the voltages are in a tuple (not empty);
    a list [pos, v]: VSW[Id][1] *= scale *)
Section Loop.
Variable one : vheap -> vsw -> vheap * res unit.
Fixpoint scale_items (h : vheap) (l : seq (string * vsw)) : vheap * res unit :=
  match l with
  | [::] => (h, Ok tt)
  | (_, x) :: l' => match one h x with (h1, Ok _) => scale_items h1 l' | (h1, Raise e) => (h1, Raise e) end
  end.
End Loop.
Fixpoint scale_one (s : C) (h : vheap) (v : vsw) {struct v} : vheap * res unit :=
  match v with
  | VDict l => scale_items (scale_one s) h l
  | VLine r => (upd h r [seq x * s | x <- h r], Ok tt)
  | VTuple => (h, Raise TypeError)
  | VNum (Some r) => (upd h r [seq x * s | x <- h r], Ok tt)
  | VNum None => (h, Raise TypeError)
  | VBad => (h, Raise ValueError)
  end.
Definition scaleVSW (h : vheap) (items : seq (string * vsw)) (s : C) : vheap * res unit :=
  scale_items (scale_one s) h items.
End Scale.

(** * findpath and existspath, findpath.py 18-138 *)
Section Findpath.
(** the environment and the file system: os.getenv (None when not set), os.path.expanduser,
    os.path.exists, the roots of os.walk in their order, the paths glob finds for a pattern
    in a root (95: '[' in the pattern and the root is escaped), sorted() *)
Variable getenv : string -> option string.
Variable expanduser : string -> string.
Variable path_exists : string -> bool.
Variable walk : string -> seq string.
Variable globf : string -> string -> seq string.
Variable sorted_ : seq string -> seq string.

(** s.split(':') *)
Fixpoint split_on (c : ascii) (s : string) : seq string :=
  if s is String a s' then
    if Ascii.eqb a c then ""%string :: split_on c s'
    else if split_on c s' is w :: ws then String a w :: ws else [:: s]
  else [:: ""%string].

(** a directory or a list of directories (57) *)
Inductive dirs := DirList of seq string | Dir of string.
Definition makelist (d : dirs) : seq string := match d with DirList l => l | Dir s => [:: s] end.
(** 61-77 *)
Definition search_dirs (userdirs : dirs) (envvar : string) (appdirs : dirs) : seq string :=
  let e := if envvar == ""%string then ""%string else odflt ""%string (getenv envvar) in
  (if e == ""%string then [::] else split_on ":"%char e) ++ makelist userdirs ++ makelist appdirs.
(** 90-98: the first root with matches *)
Fixpoint walk_dir (fpattern : string) (roots : seq string) : option string :=
  if roots is r :: roots' then
    let fnames := globf r fpattern in
    if fnames is [::] then walk_dir fpattern roots' else Some (last ""%string (sorted_ fnames))
  else None.
(** 80-100; a name found is never the empty text *)
Fixpoint search (fpattern : string) (missingOK : bool) (ds : seq string) : res string :=
  if ds is d :: ds' then
    let sdir := expanduser d in
    if ~~ path_exists sdir then
      if missingOK then search fpattern missingOK ds' else Raise IOError
    else if walk_dir fpattern (walk sdir) is Some f then Ok f else search fpattern missingOK ds'
  else Raise IOError.                                                          (* 112 *)
Definition findpath fpattern userdirs envvar appdirs missingOK : res string :=
  search fpattern missingOK (search_dirs userdirs envvar appdirs).
(** 133-138 *)
Definition existspath fpattern userdirs envvar appdirs missingOK : res string :=
  match findpath fpattern userdirs envvar appdirs missingOK with
  | Raise IOError => Ok ""%string
  | r => r
  end.
End Findpath.

(** * getlines(src), getlines.py 4-40 *)
Section Getlines.
Definition LF : ascii := "010"%char.
Definition CR : ascii := "013"%char.
(** what a file opened in text mode gives: \r\n and \r read as \n *)
Fixpoint universal (s : string) : string :=
  if s is String a s' then
    if Ascii.eqb a CR then
      if s' is String b s'' then if Ascii.eqb b LF then String LF (universal s'') else String LF (universal s')
      else String LF EmptyString
    else String a (universal s')
  else EmptyString.
(** f.readlines(): the lines with their \n *)
Fixpoint readlines (s : string) : seq string :=
  if s is String a s' then
    if Ascii.eqb a LF then String LF EmptyString :: readlines s'
    else if readlines s' is w :: ws then String a w :: ws else [:: String a EmptyString]
  else [::].
(** aline.replace('\n','') *)
Fixpoint strip_lf (s : string) : string :=
  if s is String a s' then if Ascii.eqb a LF then strip_lf s' else String a (strip_lf s') else EmptyString.
Definition has_lf (s : string) : bool := has (Ascii.eqb LF) (list_ascii_of_string s).

(** files by name; open file objects by number: the text not read yet *)
Variable files : string -> option string.
Definition handles := nat -> string.
Inductive src := SText of string | SFile of nat | SList of seq string.
(** the lines given by getlines(src)() when it is iterated to the end *)
Definition getlines (h : handles) (x : src) : handles * res (seq string) :=
  match x with
  | SText s =>
    if has_lf s then (h, Ok (split_on LF s))                                   (* 26-28, 35 *)
    else if files s is Some t then (h, Ok (map strip_lf (readlines (universal t)))) (* 12-15 *)
    else (h, Raise IOError)
  | SFile k => (fun a => if a == k then ""%string else h a, Ok (map strip_lf (readlines (h k)))) (* 30-32 *)
  | SList _ => (h, Raise AttributeError)
  end.
End Getlines.

(** Model of rfCircuit.set (rfCircuit.py 1086-1243) and of the set methods of the
    block objects (rfBase.py 214-238; rfRLC.py 156-175 has the same effect), on a
    tree of nested circuits.  Of a circuit only its block objects and the state of
    its result cache are kept here; of a device its settable attributes and its
    cache.  rfTRL.set (rfTRL.py 344-364), which forgets its result always, is not
    modelled.  Debug output (evaluating getattr when logging) is not modelled. *)
From mathcomp Require Import all_ssreflect.
From Coq Require Import String Ascii.
From Verif Require Import Base CircMaxV.
Set Implicit Arguments.
Unset Strict Implicit.
Unset Printing Implicit Defensive.
Local Open Scope seq_scope.

(** kw.rsplit('.', 1): None when there is no '.' *)
Fixpoint rsplit_dot (s : string) : option (string * string) :=
  match s with
  | EmptyString => None
  | String a s' =>
    if rsplit_dot s' is Some (x, y) then Some (String a x, y)
    else if a == "."%char then Some (EmptyString, s') else None
  end.

Section SetModel.
Variable V : eqType.                       (* values that are not dicts *)
Variables (ofstr : string -> V).           (* a str used as a value *)

(** values: a dict, or anything else *)
Inductive sval := SNum of V | SDict of seq (string * sval).

(** python's == on values (dicts compared as item lists: the order of the keys is
    taken into account, a simplification) *)
Fixpoint sval_eqb (a b : sval) : bool :=
  match a, b with
  | SNum x, SNum y => x == y
  | SDict d, SDict e =>
    (fix go (d e : seq (string * sval)) : bool := match d, e with
       | [::], [::] => true
       | (k, x) :: d', (l, y) :: e' => [&& k == l, sval_eqb x y & go d' e']
       | _, _ => false end) d e
  | _, _ => false
  end.

(** objects: a device with its settable attributes, something without a set
    method (an array), a circuit with its blocks.  The boolean tells whether a
    result is cached (self.S is not None and self.f is the last frequency). *)
Inductive obj :=
  | Dev of seq (string * sval) & bool
  | Arr
  | Circ of seq (string * obj) & bool.

(** obj.set(path, dict)  or  obj.set(kw = val, ...) *)
Inductive call := CPos of string & sval | CKw of seq (string * sval).

(** rfBase.py 217-237: attributes are set one by one, then the cache is dropped *)
Fixpoint dev_loop (at' : seq (string * sval)) (md : bool) (kws : seq (string * sval))
  : seq (string * sval) * res bool :=
  match kws with
  | [::] => (at', Ok md)
  | (k, v) :: kws' =>
    if dget at' k is Some w then dev_loop (dset at' k v) (md || ~~ sval_eqb w v) kws'
    else (at', Raise ValueError)
  end.

Definition dev_set (at' : seq (string * sval)) (ca : bool) (cl : call) : obj * res bool :=
  match cl with
  | CPos _ _ => (Dev at' ca, Raise TypeError)        (* set() takes no positional argument *)
  | CKw kws => let r := dev_loop at' false kws in
      (Dev r.1 (if r.2 is Ok md then ca && ~~ md else ca), r.2)
  end.

(** 1188-1204: where a keyword points to, and the dict to hand over *)
Definition locate (kw : string) (val : sval) : res (string * string * seq (string * sval)) :=
  do pd <- (match val with
            | SDict d => Ok (kw, d)
            | SNum _ => if rsplit_dot kw is Some (kw', attr) then Ok (kw', [:: (attr, val)])
                        else Raise ValueError
            end);
  Ok (if split_dot pd.1 is Some br then (br, pd.2) else ((pd.1, EmptyString), pd.2)).

(** the loop 1181-1224 over the keywords and the end 1226-1242; [rec] is the set
    method one level down *)
Definition step_set (rec : obj -> call -> obj * res bool)
    (bs : seq (string * obj)) (kw : string) (val : sval) : seq (string * obj) * res bool :=
  match locate kw val with
  | Raise e => (bs, Raise e)
  | Ok (blk, rest, d) =>
    match dget bs blk with
    | None => (bs, Raise KeyError)                                            (* 1205 *)
    | Some Arr => (bs, Raise AttributeError)     (* obj.Id in the handler, 1216-1219 *)
    | Some o =>
      let r := rec o (if rest is EmptyString then CKw d else CPos rest (SDict d)) in
      let bs := dset bs blk r.1 in
      match r.2 with
      | Raise AttributeError => (bs, Raise ValueError)                        (* 1216-1219 *)
      | Raise e => (bs, Raise e)
      | Ok md => if d is [::] then (bs, Raise IndexError) else (bs, Ok md)    (* 1224 *)
      end
    end
  end.

Fixpoint circ_loop (rec : obj -> call -> obj * res bool)
    (bs : seq (string * obj)) (md : bool) (kws : seq (string * sval))
  : seq (string * obj) * res bool :=
  match kws with
  | [::] => (bs, Ok md)
  | (k, v) :: kws' =>
    let r := step_set rec bs k v in
    match r.2 with
    | Raise e => (r.1, Raise e)
    | Ok m => circ_loop rec r.1 (md || m) kws'
    end
  end.

Definition circ_set (rec : obj -> call -> obj * res bool)
    (bs : seq (string * obj)) (ca : bool) (cl : call) : obj * res bool :=
  let kws := match cl with CPos p v => [:: (p, v)] | CKw kws => kws end in
  let r := circ_loop rec bs false kws in
  (Circ r.1 (if r.2 is Ok md then ca && ~~ md else ca), r.2).

(** set on any object; [n] bounds the depth of the nesting *)
Fixpoint setn (n : nat) (o : obj) (cl : call) : obj * res bool :=
  match o with
  | Dev at' ca => dev_set at' ca cl
  | Arr => (Arr, Raise AttributeError)
  | Circ bs ca => if n is n'.+1 then circ_set (setn n') bs ca cl
                  else (o, Raise RecursionError)
  end.

(** nesting depth *)
Fixpoint depth (o : obj) : nat :=
  if o is Circ bs _ then
    (foldr (fun no m => maxn (depth no.2) m) 0 bs).+1 else 0.

Definition set (o : obj) (cl : call) : obj * res bool := setn (depth o) o cl.

(** ** the positional arguments, 1152-1175 *)
Inductive arg := ATup of string & sval | AStr of string | AVal of sval.

(** dict([(k, v)], **kw) *)
Definition dict1 (k : string) (v : sval) (kw : seq (string * sval)) : seq (string * sval) :=
  (k, if dget kw k is Some w then w else v) :: ddel kw k.

(** a tuple of length 2 used as the value of a 'kw', value pair is not modelled *)
Fixpoint unpack (args : seq arg) (kw : seq (string * sval)) : res (seq (string * sval)) :=
  match args with
  | [::] => Ok kw
  | ATup k v :: r => unpack r (dict1 k v kw)
  | AStr s :: AVal v :: r => unpack r (dict1 s v kw)
  | AStr s :: AStr t :: r => unpack r (dict1 s (SNum (ofstr t)) kw)
  | _ => Raise ValueError
  end.

(** circuit.set( *args, **kw) on a circuit *)
Definition set_call (o : obj) (args : seq arg) (kw : seq (string * sval)) : obj * res bool :=
  match unpack args kw with
  | Raise e => (o, Raise e)
  | Ok kws => set o (CKw kws)
  end.

(** ** reading the tree (specification) *)
(** the object at a path of block names *)
Fixpoint at_path (o : obj) (path : seq string) : option obj :=
  match path with
  | [::] => Some o
  | b :: path' => if o is Circ bs _ then obind (at_path^~ path') (dget bs b) else None
  end.

(** attribute attr of the device at a path *)
Definition attr_at (o : obj) (path : seq string) (attr : string) : option sval :=
  if at_path o path is Some (Dev at' _) then dget at' attr else None.

(** whether a result is cached at a path *)
Definition cached_at (o : obj) (path : seq string) : option bool :=
  match at_path o path with
  | Some (Dev _ ca) | Some (Circ _ ca) => Some ca
  | _ => None
  end.

(** 'a.b.c' *)
Fixpoint dotted (path : seq string) : string :=
  match path with
  | [::] => EmptyString
  | [:: b] => b
  | b :: path' => b +s+ ("." +s+ dotted path')
  end.
End SetModel.

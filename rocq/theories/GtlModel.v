(** Model of the resolution of variables in rfGTL, rfGTL.py 72-102. *)
From mathcomp Require Import all_ssreflect.
From Coq Require Import String.
From Verif Require Import Base.
Set Implicit Arguments.
Unset Strict Implicit.
Unset Printing Implicit Defensive.
Local Open Scope string_scope.
Local Open Scope seq_scope.

Section Gtl.
(** python numbers: operators that may raise, and the value as a count (an int, negative
    ones as 0; None for a float), used to repeat a text *)
Variable num : Type.
Inductive op := Add | Sub | Mul | Div | Pow.
Variable binop : op -> num -> num -> res num.
Variable neg : num -> num.
Variable as_count : num -> option nat.

(** the expressions: numbers, names, operators, functions of one argument (those of the
    module's globals such as np.sqrt) *)
Inductive expr := ENum of num | EVar of string | ENeg of expr | EBin of op & expr & expr | ECall of string & expr.
(** python's parser: None for a SyntaxError *)
Variable parse : string -> option expr.
(** the functions of the module's globals: None when there is none of that name *)
Variable fn : string -> option (num -> res num).

(** a variable is bound to a number or to a text *)
Inductive value := VNum of num | VStr of string.
Definition vars := seq (string * value).

Fixpoint repeat_str (n : nat) (s : string) : string := if n is n'.+1 then (s ++ repeat_str n' s)%string else "".
(** operators on values: + of two texts joins them, * of a text and an int repeats it *)
Definition vbin (o : op) (x y : value) : res value :=
  match o, x, y with
  | _, VNum a, VNum b => rmap VNum (binop o a b)
  | Add, VStr s, VStr t => Ok (VStr (s ++ t))
  | Mul, VStr s, VNum a | Mul, VNum a, VStr s =>
    if as_count a is Some n then Ok (VStr (repeat_str n s)) else Raise TypeError
  | _, _, _ => Raise TypeError
  end.
(** eval of a parsed text, names looked up in the variables (98); a global of the same name
    is only seen when there is no variable *)
Fixpoint ev (vs : vars) (e : expr) : res value :=
  match e with
  | ENum a => Ok (VNum a)
  | EVar s => if dget vs s is Some v then Ok v else Raise NameError
  | ENeg a => do x <- ev vs a; if x is VNum n then Ok (VNum (neg n)) else Raise TypeError
  | EBin o a b => do x <- ev vs a; do y <- ev vs b; vbin o x y
  | ECall f a => if fn f is Some g then
      do x <- ev vs a; if x is VNum n then rmap VNum (g n) else Raise TypeError
    else Raise NameError
  end.
(** 96-100: what one pass does with one variable: Some v: found; None: left for later *)
Definition try_eval (vs : vars) (t : string) : res (option value) :=
  if parse t is Some e then
    match ev vs e with
    | Ok v => Ok (Some v)
    | Raise NameError | Raise TypeError => Ok None
    | Raise x => Raise x
    end
  else Ok None.
(** 94-100, the pass: the entries of [found] *)
Fixpoint pass (vs : vars) (l : vars) : res vars :=
  match l with
  | [::] => Ok [::]
  | (x, VNum _) :: l' => pass vs l'
  | (x, VStr t) :: l' =>
    do r <- try_eval vs t; do f <- pass vs l';
    Ok (if r is Some v then (x, v) :: f else f)
  end.
(** 102: self.vars.update(found) *)
Definition update (vs found : vars) : vars :=
  [seq (xv.1, odflt xv.2 (dget found xv.1)) | xv <- vs].
(** 92-102: at most [fuel] passes; None: still looping *)
Fixpoint resolve (fuel : nat) (vs : vars) : option (res vars) :=
  if fuel is n.+1 then
    match pass vs vs with
    | Raise x => Some (Raise x)
    | Ok [::] => Some (Ok vs)
    | Ok found => resolve n (update vs found)
    end
  else None.
(** 72-79: the local variables updated with the global ones, these with the caller's *)
Definition dupd (d e : vars) : vars := foldl (fun d kv => dset d kv.1 kv.2) d e.
Definition all_vars (loc glo caller : vars) : vars := dupd loc (dupd glo caller).
End Gtl.

(** Keywords of the blocks of an rfGTL: names, texts, units, choice of the object.
    rfGTL.py 105-107, 133-197, _remap_ 376-395.  The network made of the objects is in GtlNet.v. *)
From mathcomp Require Import all_ssreflect all_algebra.
From Coq Require Import String.
From Verif Require Import Base CircLib DevModel.
Set Implicit Arguments.
Unset Strict Implicit.
Unset Printing Implicit Defensive.
Import GRing.Theory.
Local Open Scope string_scope.
Local Open Scope ring_scope.
Local Open Scope seq_scope.

Section GtlKw.
Variable C : numClosedFieldType.
(** values of keywords: numbers (exact), texts, lists or tuples of numbers, anything else
    that cannot be multiplied by a float (dicts, None, lists of texts, ...) of some type.
    Arrays are not modelled. *)
Variable P : Type.
Inductive kval := KNum of C | KStr of string | KList of seq C | KObj of P.
Definition kdict := seq (string * kval).
(** eval(val, globals(), self.vars) *)
Variable eval : string -> res kval.

(** _remap_, 376-395: one triple kwPref, kwAlt, mandatory *)
Definition remap1 (d : kdict) (t : string * string * bool) : res kdict :=
  let: (p, a, m) := t in
  if ~~ dhas d p then
    if dget d a is Some v then Ok (dset (ddel d a) p v)
    else if m then Raise ValueError else Ok d
  else if dhas d a then Raise ValueError else Ok d.
Fixpoint remap (d : kdict) (l : seq (string * string * bool)) : res kdict :=
  if l is t :: l' then do d <- remap1 d t; remap d l' else Ok d.

(** 133-142: texts are evaluated *)
Definition subst (d : kdict) : res kdict :=
  mapM (fun kv => do v <- (if kv.2 is KStr s then eval s else Ok kv.2); Ok (kv.1, v)) d.

(** 144-155 *)
Definition conv : seq (string * C) :=
  [:: ("ID", 10%:R ^- 3); ("OD", 10%:R ^- 3); ("CTL", 10%:R ^- 12); ("LTL", 10%:R ^- 9);
      ("rho", 10%:R ^- 6); ("Cs", 10%:R ^- 12); ("Cp", 10%:R ^- 12); ("Ls", 10%:R ^- 9);
      ("Lp", 10%:R ^- 9); ("Larc", 10%:R ^- 9)].
(** 158-161 *)
Definition scale (c : C) (v : kval) : res kval :=
  match v with
  | KNum x => Ok (KNum (x * c))
  | KList l => Ok (KList [seq x * c | x <- l])
  | _ => Raise TypeError
  end.
(** 156-161 *)
Fixpoint convert (d : kdict) (l : seq (string * C)) : res kdict :=
  if l is (k, c) :: l' then
    do d <- (if dget d k is Some v then do v' <- scale c v; Ok (dset d k v') else Ok d);
    convert d l'
  else Ok d.

(** 175-197: the object that is made, with its keywords besides Zbase *)
Inductive kdev := DRlc of kdict | DArc of kval | DTrl of kdict.
Definition rlc_keys := [:: "Ls"; "Cs"; "Rs"; "Lp"; "Cp"; "Rp"].
Definition choose (ctor d : kdict) : res kdev :=
  if has (dhas d) rlc_keys then                                               (* 177 *)
    if dhas d "Zbase" then Raise TypeError else Ok (DRlc d)
  else if (size ctor == 1%N) && dhas ctor "Larc" then                         (* 181: the keywords of the rfGTL call *)
    if dget ctor "Larc" is Some v then Ok (DArc v) else Raise KeyError
  else if dhas d "Zbase" then Raise TypeError else Ok (DTrl d).               (* 188 *)

(** one block of the description: its ports, its position if given, its object; ctor: the
    further keywords of the call of rfGTL *)
Definition prepare (ctor d : kdict) : res (option kval * option kval * kdev) :=
  do d <- remap d [:: ("ports", "Portnames", true)];                          (* 107 *)
  do d <- subst d;
  do d <- convert d conv;
  do d <- remap d [:: ("L", "length", false); ("Z0TL", "Z", false); ("xpos", "relpos", false)]; (* 163-165 *)
  let x := dget d "xpos" in                                                   (* 167-171 *)
  let d := ddel (ddel d "xpos") "plotkws" in                                  (* 173 *)
  do o <- choose ctor d;
  Ok (dget d "ports", x, o).

(** rfRLC.__init__, rfRLC.py 70-84, for numbers: other keywords are ignored *)
Definition num_or A (f : C -> A) (dflt : A) (v : option kval) : res A :=
  match v with
  | None => Ok dflt
  | Some (KNum x) => Ok (f x)
  | Some _ => Raise TypeError                    (* not in the constructor, but in getS *)
  end.
Definition rlc_of (z : C) (d : kdict) : res (rlc C) :=
  do rs <- num_or id 0 (dget d "Rs"); do ls <- num_or id 0 (dget d "Ls");
  do cs <- num_or (@Fin C) (@Inf C) (dget d "Cs");
  do rp <- num_or (@Fin C) (@Inf C) (dget d "Rp"); do lp <- num_or (@Fin C) (@Inf C) (dget d "Lp");
  do cp <- num_or id 0 (dget d "Cp");
  Ok (Rlc rs ls cs rp lp cp z).
End GtlKw.
Arguments KNum {C P}. Arguments KStr {C P}. Arguments KList {C P}. Arguments KObj {C P}.

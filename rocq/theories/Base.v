(** Common vocabulary: python exceptions as values, strings as an eqType,
    a few python list / string / dict operations. *)
From mathcomp Require Import all_ssreflect.
From Coq Require Import String Ascii.

Set Implicit Arguments.
Unset Strict Implicit.
Unset Printing Implicit Defensive.

(** Python exception classes that the modelled code can raise. *)
Inductive exn :=
  | ValueError | TypeError | KeyError | IndexError | AttributeError
  | LinAlgError | UnboundLocalError | IOError | ZeroDivisionError | RecursionError
  | RuntimeError | SystemError | NotImplementedError | NameError.

(** Outcome of a python call: a value or an exception leaving the call. *)
Inductive res (A : Type) := Ok of A | Raise of exn.
Arguments Ok {A} _.
Arguments Raise {A} _.

Definition bind {A B} (x : res A) (f : A -> res B) : res B :=
  match x with Ok a => f a | Raise e => Raise e end.
Definition rmap {A B} (f : A -> B) (x : res A) : res B :=
  match x with Ok a => Ok (f a) | Raise e => Raise e end.
Notation "'do' x <- m ; f" := (bind m (fun x => f))
  (at level 200, x name, m at level 100, f at level 200, right associativity).

Definition is_ok {A} (x : res A) : bool := if x is Ok _ then true else false.

(** [f(x) for x in xs] where f may raise: stops at the first exception. *)
Fixpoint mapM {A B} (f : A -> res B) (xs : seq A) : res (seq B) :=
  if xs is x :: xs' then
    do y <- f x; do ys <- mapM f xs'; Ok (y :: ys)
  else Ok [::].

Lemma mapM_Ok A B (f : A -> res B) xs ys :
  mapM f xs = Ok ys <-> size xs = size ys /\
    forall k x0 y0, k < size xs -> f (nth x0 xs k) = Ok (nth y0 ys k).
Proof.
elim: xs ys => [|x xs IH] ys /=.
  split; first by case=> <-.
  by case=> H _; case: ys H.
split.
  case Ex: (f x) => [y|] //=; case Exs: (mapM f xs) => [zs|] //= [<-].
  have [Hs Hk] := (iffLR (IH zs)) Exs; split; first by rewrite /= Hs.
  by case=> [|k] x0 y0 //= Hlt; apply: Hk.
case: ys => [|y ys] [] //= [Hs] Hk.
rewrite (Hk 0 x y) //=.
have -> : mapM f xs = Ok ys; last by [].
apply/IH; split=> // k x0 y0 Hlt; exact: (Hk k.+1 x0 y0).
Qed.

Lemma mapM_map_Ok A B (f : A -> B) xs : mapM (fun x => Ok (f x)) xs = Ok (map f xs).
Proof. by elim: xs => //= x xs ->. Qed.

(** ** strings *)
Lemma string_eqP : Equality.axiom String.eqb.
Proof. by move=> a b; case: (String.eqb_spec a b) => H; constructor. Qed.
Definition string_eqMixin := EqMixin string_eqP.
Canonical string_eqType := Eval hnf in EqType string string_eqMixin.

Lemma ascii_eqP : Equality.axiom Ascii.eqb.
Proof. by move=> a b; case: (Ascii.eqb_spec a b) => H; constructor. Qed.
Definition ascii_eqMixin := EqMixin ascii_eqP.
Canonical ascii_eqType := Eval hnf in EqType ascii ascii_eqMixin.

Delimit Scope str_scope with str.
Notation "a +s+ b" := (String.append a b) (at level 60, right associativity).
Open Scope string_scope.

Lemma append_inj_l a : injective (String.append a).
Proof. by elim: a => [|c a IH] x y //= [] /IH. Qed.

Lemma append_assoc a b c : ((a +s+ b) +s+ c) = (a +s+ (b +s+ c)).
Proof. by elim: a => //= x a ->. Qed.

(** '.' in s   (single character membership) *)
Fixpoint has_char (c : ascii) (s : string) : bool :=
  if s is String d s' then (c == d) || has_char c s' else false.

(** ** dicts as association lists; first hit counts, insertion keeps order *)
Section Dict.
Variables (K : eqType) (V : Type).
Implicit Types d : seq (K * V).

Fixpoint dget d (k : K) : option V :=
  if d is (k', v) :: d' then if k == k' then Some v else dget d' k else None.

Definition dhas d k : bool := if dget d k is Some _ then true else false.

(** d[k] = v : replaces the value in place or appends a new item *)
Fixpoint dset d (k : K) (v : V) : seq (K * V) :=
  if d is (k', v') :: d' then
    if k == k' then (k', v) :: d' else (k', v') :: dset d' k v
  else [:: (k, v)].

(** d.pop(k) *)
Fixpoint ddel d (k : K) : seq (K * V) :=
  if d is (k', v') :: d' then
    if k == k' then d' else (k', v') :: ddel d' k
  else [::].

Definition dkeys d := map fst d.

Lemma dhasE d k : dhas d k = (k \in dkeys d).
Proof.
rewrite /dhas; elim: d => //= -[k' v'] d IH /=; rewrite in_cons.
by case: eqP => //= _; rewrite -IH.
Qed.

Lemma dget_dset d k v k' : dget (dset d k v) k' = if k' == k then Some v else dget d k'.
Proof.
elim: d => [|[k1 v1] d IH] /=; first by case: eqP.
case: (k =P k1) => [<-|Hne] /=; first by case: eqP.
case: (k' =P k1) => [->|Hne1] //=.
by case: eqP => // E; case: Hne; rewrite E.
Qed.

Lemma dkeys_dset d k v :
  dkeys (dset d k v) = if k \in dkeys d then dkeys d else rcons (dkeys d) k.
Proof.
elim: d => [|[k1 v1] d IH] //=; rewrite in_cons.
case: eqP => [->|_] //=; rewrite IH.
by case: ifP.
Qed.
End Dict.

(** ** list.pop(list.index(x)): removal of the first occurrence *)
Definition lremove (T : eqType) (x : T) (s : seq T) : seq T := rem x s.

Definition isSome A (o : option A) : bool := if o is Some _ then true else false.

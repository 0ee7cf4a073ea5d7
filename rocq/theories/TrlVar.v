(** Model of rfTRL with position dependent line parameters (self.constant is False),
    rfTRL.py 335-600, and the specification of such a line: the telegrapher's equations.
    Not modelled: sNp data (206-243), the Id/xpos bookkeeping.  The resolved parameters
    rjwL(w, x), gjwC(w, x), scipy's odeint and np.ceil are arguments; numbers are exact. *)
From mathcomp Require Import all_ssreflect all_algebra.
From Coq Require Import String.
From Verif Require Import Base ConvModel DevModel TrlModel.
Set Implicit Arguments.
Unset Strict Implicit.
Unset Printing Implicit Defensive.
Import Order.TTheory GRing.Theory Num.Theory.
Local Open Scope ring_scope.

Section TrlVar.
Variable C : numClosedFieldType.
Variable pi : C.
Variables (rjwL gjwC : C -> C -> C).   (* self.rjwL(w, x), self.gjwC(w, x) *)
(** odeint(func, y0, xs, **odeparams): one row of values for each of the xs *)
Variable odeint : (seq C -> C -> seq C) -> seq C -> seq C -> seq (seq C).
Variable ceil : C -> nat.              (* int(np.ceil(.)); a negative result acts as 0 below *)
(** bound on the passes of the while loops 438 and 447; when it is reached the model
    raises: the theorems speak of calls that return *)
Variable fuel : nat.

(** eqnVI, 394-406: VI4 = [V.real, V.imag, I.real, I.imag] *)
Definition eqnVI (w : C) (VI4 : seq C) (x : C) : seq C :=
  let dVC := rjwL w x * (VI4`_2 + 'i * VI4`_3) in
  let dIC := gjwC w x * (VI4`_0 + 'i * VI4`_1) in
  [:: 'Re dVC; 'Im dVC; 'Re dIC; 'Im dIC].

(** wavlen(w, x), 411-422; a division by 0 raises here (numpy: inf, and the nodes get nan) *)
Definition wavlen (w x : C) : res C :=
  let gm := np_sqrt (rjwL w x * gjwC w x) in
  pdiv (2%:R * pi) ('Im gm).

(** self.dx: an int (parts of the wavelength) or a float (a length) *)
Inductive stepping := DInt of C | DFloat of C.

(** while xs[-1] < L: xs.append(step(xs[-1])): the points after x *)
Fixpoint march (n : nat) (L : C) (step : C -> res C) (x : C) : res (seq C) :=
  if x < L then
    if n is n'.+1 then do y <- step x; do ys <- march n' L step y; Ok (y :: ys) else Raise RuntimeError
  else Ok [::].
(** while x <= L: xs.append(x); x -= dx *)
Fixpoint stride (n : nat) (L dx x : C) : res (seq C) :=
  if x <= L then
    if n is n'.+1 then do ys <- stride n' L dx (x - dx); Ok (x :: ys) else Raise RuntimeError
  else Ok [::].

(** the node points, 428-456.  439: wavlen is asked for the frequency f, not for w = 2 pi f *)
Definition nodesV (dx : stepping) (L f : C) : res (seq C) :=
  match dx with
  | DInt d =>                                                                 (* 436-442 *)
      do ys <- march fuel L (fun x => do l <- wavlen f x; do h <- pdiv l d; Ok (x + h)) 0;
      let xs := 0 :: ys in
      mapM (fun x => pdiv (x * L) (last 0 xs)) xs
  | DFloat d =>
      if d < 0 then                                                           (* 445-452 *)
        do xs <- stride fuel L d 0;
        match xs with
        | [::] => Raise IndexError
        | _ => Ok (if last 0 xs < L then rcons xs L else xs)
        end
      else                                                                    (* 454-456 *)
        do q <- pdiv L d;
        Ok (linspace L (maxn 2 (ceil q)))
  end.

(** what is kept of a line: length, impedance, and the results, as in TrlModel.v *)
Record vtrl := VTrl { v_L : C; v_zb : C; v_dx : stepping; v_solved : seq (C * entry C) }.
Definition v_with (o : vtrl) s := VTrl (v_L o) (v_zb o) (v_dx o) s.

(** one column pair of VIt, 486-495 *)
Definition vi_rows (r10 r01 : seq C) : 'M[C]_2 :=
  mx2 (r10`_0 + 'i * r10`_1) (r01`_0 + 'i * r01`_1) (r10`_2 + 'i * r10`_3) (r01`_2 + 'i * r01`_3).

(** the computation of an entry, 428-504; w is the frequency f, the equations have 2 pi f *)
Definition solveV0 (dx : stepping) (L zb f : C) : res (entry C) :=
  let w := 2%:R * pi * f in                                                   (* 385 *)
  do xs0 <- nodesV dx L f;
  let zero := head 0 xs0 == last 0 xs0 in                                     (* 458 *)
  let xs := if zero then [:: head 0 xs0; last 0 xs0] else xs0 in
  let VI := if zero then [:: mx2 1 0 0 1; mx2 1 0 0 1] else
            let sol10 := odeint (eqnVI w) [:: 1; 0; 0; 0] xs0 in              (* 486 *)
            let sol01 := odeint (eqnVI w) [:: 0; 0; 1; 0] xs0 in              (* 490 *)
            [seq vi_rows rr.1 rr.2 | rr <- zip sol10 sol01] in
  do Sm <- s_from_vi1 (last 0 VI) zb;                                         (* 497 *)
  Ok (Entry xs Sm VI [::]).

(** solveVI(f), 426-511 *)
Definition solveV (o : vtrl) (f : C) : vtrl * res (entry C) :=
  if dget (v_solved o) f is Some e then (o, Ok e) else
  match solveV0 (v_dx o) (v_L o) (v_zb o) f with
  | Ok e => (v_with o (dset (v_solved o) f e), Ok e)
  | Raise x => (o, Raise x)
  end.

(** set(kw = val, ...), 344-364: the parameters are not constant, 346; set() forgets results *)
Definition v_set (o : vtrl) (kw : seq (string * C)) : vtrl * res bool :=
  if kw is [::] then (v_with o [::], Ok false) else (o, Raise ValueError).

(** get1S, 542-554 *)
Definition v_get1S (o : vtrl) (Zb : option C) (f : C) : vtrl * res 'M[C]_2 :=
  let: (o1, r) := solveV o f in
  (o1, do e <- r;
       match truthy Zb with
       | Some z => if z != v_zb o then convert1 (const_mx z) (e_S e) (const_mx (v_zb o)) "V" "V"
                   else Ok (e_S e)
       | None => Ok (e_S e)
       end).
(** getS, 528-566, one frequency / a list *)
Definition v_getS (o : vtrl) (f : C) (Zb : option C) (params : seq (string * C)) : vtrl * res 'M[C]_2 :=
  match v_set o params with
  | (o1, Raise x) => (o1, Raise x)
  | (o1, Ok _) => v_get1S o1 Zb f
  end.
Fixpoint v_loop (o : vtrl) (Zb : option C) (fs : seq C) : vtrl * res (seq 'M[C]_2) :=
  if fs is f :: fs' then
    match v_get1S o Zb f with
    | (o1, Raise x) => (o1, Raise x)
    | (o1, Ok Sm) => let: (o2, r) := v_loop o1 Zb fs' in (o2, do l <- r; Ok (Sm :: l))
    end
  else (o, Ok [::]).
Definition v_getSs (o : vtrl) (fs : seq C) (Zb : option C) (params : seq (string * C)) :
    vtrl * res (seq 'M[C]_2) :=
  match v_set o params with
  | (o1, Raise x) => (o1, Raise x)
  | (o1, Ok _) => v_loop o1 Zb fs
  end.

(** VISWs(f, E, Zbase), 572-589; a1, a2 are the waves E[p] of the two ports *)
Definition v_VISWs (o : vtrl) (f a1 a2 : C) (Zb : option C) : vtrl * res (seq C * (seq C * seq C)) :=
  let hit := if dget (v_solved o) f is Some e then
               if Zb is Some z then dget (e_sw e) ([:: a1; a2], z) else None
             else None in
  match hit, dget (v_solved o) f with
  | Some sw, Some e => (o, Ok (e_xs e, sw))
  | _, _ =>
    let z := if truthy Zb is Some z then z else v_zb o in
    let: (o1, r) := v_getS o f (Some z) [::] in
    match r with
    | Raise x => (o1, Raise x)
    | Ok Sm =>
      let b1 := Sm 0 0 * a1 + Sm 0 1 * a2 in
      match pdiv (- (a1 - b1)) z with
      | Raise x => (o1, Raise x)
      | Ok I0 =>
        let: (o2, r2) := solveV o1 f in
        match r2 with
        | Raise x => (o2, Raise x)
        | Ok e =>
          let sw := profile e (a1 + b1) I0 in
          let e' := Entry (e_xs e) (e_S e) (e_VI e) (dset (e_sw e) ([:: a1; a2], z) sw) in
          (v_with o2 (dset (v_solved o2) f e'), Ok (e_xs e', sw))
        end
      end
    end
  end.

(** calls on a line *)
Definition v_do (o : vtrl) (c : trl_call C) : vtrl :=
  match c with
  | CSet kw => (v_set o kw).1
  | CGetS f Zb p => (v_getS o f Zb p).1
  | CGetSs fs Zb p => (v_getSs o fs Zb p).1
  | CVISWs f a1 a2 Zb => (v_VISWs o f a1 a2 Zb).1
  end.
End TrlVar.
Arguments DInt {C}.
Arguments DFloat {C}.

(** * Specification *)
Section VarSpec.
Variable C : numClosedFieldType.
Implicit Types (f g : C -> C).

(** what is used of the differential calculus of complex functions of a position x >= 0:
    [der f f'] says that f' is the derivative of f *)
Record calculus (der : (C -> C) -> (C -> C) -> Prop) : Prop := Calculus {
  der_lin : forall a b f f' g g', der f f' -> der g g' ->
    der (fun x => a * f x + b * g x) (fun x => a * f' x + b * g' x);
  der_mul : forall f f' g g', der f f' -> der g g' ->
    der (fun x => f x * g x) (fun x => f' x * g x + f x * g' x);
  der_conj : forall f f', der f f' -> der (fun x => (f x)^*) (fun x => (f' x)^*);
  der_mono : forall f f' a b, der f f' -> 0 <= a -> a <= b -> (forall x, a <= x <= b -> 0 <= f' x) -> f a <= f b }.

Variable der : (C -> C) -> (C -> C) -> Prop.
(** the telegrapher's equations for x from a to b: series impedance z and shunt admittance y
    per length, V and I the voltage and the current that flows towards smaller x *)
Definition telegraph (z y : C -> C) (a b : C) (V I : C -> C) : Prop :=
  exists V' I', [/\ der V V', der I I' & forall x, a <= x <= b -> V' x = z x * I x /\ I' x = y x * V x].
(** the ends: currents flow into the line *)
Definition var_law (z y : C -> C) (L v1 v2 i1 i2 : C) : Prop :=
  exists V I, telegraph z y 0 L V I /\ [/\ V 0 = v1, V L = v2, I 0 = - i1 & I L = i2].

(** odeint does what it promises: the rows are the values at the xs of real functions with
    the given initial values and derivatives *)
Definition integrates (F : seq C -> C -> seq C) (y0 xs : seq C) (rows : seq (seq C)) : Prop :=
  exists Y : nat -> C -> C,
  [/\ forall k x, head 0 xs <= x <= last 0 xs -> Y k x \is Num.real,
      forall k, (k < size y0)%N -> Y k (head 0 xs) = y0`_k,
      forall k, (k < size y0)%N -> exists2 Y', der (Y k) Y' &
        forall x, head 0 xs <= x <= last 0 xs -> Y' x = (F (mkseq (Y ^~ x) (size y0)) x)`_k
    & rows = [seq mkseq (Y ^~ x) (size y0) | x <- xs]].
End VarSpec.

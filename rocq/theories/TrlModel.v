(** Model of rfTRL (constant line parameters), rfTRL.py.
    Not modelled: sNp data (206-243), position dependent parameters (TrlVar.v), the
    Id/xpos bookkeeping.  The resolved parameters rjwL(w), gjwC(w) and np.exp are
    arguments. *)
From mathcomp Require Import all_ssreflect all_algebra.
From Coq Require Import String.
From Verif Require Import Base ConvModel DevModel.
Set Implicit Arguments.
Unset Strict Implicit.
Unset Printing Implicit Defensive.
Import GRing.Theory Num.Theory.
Local Open Scope ring_scope.

Section TrlModel.
Variable C : numClosedFieldType.
Variable exp : C -> C.                 (* np.exp *)
Variables (rjwL gjwC : C -> C).        (* self.rjwL(w,0), self.gjwC(w,0), as functions of w *)
(** the node points xs, rfTRL.py 417-446, for a length and an angular frequency; what the
    rest of the code needs is that they run from 0 to L *)
Variable nodes : C -> C -> seq C.

(** VIt[:,:,k] at the node x, 448-493: [[U10,U01],[I10,I01]]; [zero] is the special case
    xs[0] == xs[-1] (448-457).  Division by 0 raises here (python complex); numpy
    scalars give nan. *)
Definition vi_at (zero : bool) (w x : C) : res 'M[C]_2 :=
  if zero then Ok (mx2 1 0 0 1) else
  let gm := np_sqrt (rjwL w * gjwC w) in                                      (* 464 *)
  do Zc <- pdiv (rjwL w) gm;                                                  (* 465 *)
  let e := exp (gm * x) in                                                    (* 467 *)
  do e1 <- pdiv 1 e;
  let U10 := 2%:R^-1 * (e + e1) in                                            (* 470 *)
  do I10 <- pdiv (2%:R^-1 * (e - e1)) Zc;
  let U01 := Zc ^+ 2 * I10 in
  Ok (mx2 U10 U01 I10 U10).

(** one entry of self.solved, 489-494; VISWs: key (incident waves, Zbase) *)
Record entry := Entry { e_xs : seq C; e_S : 'M[C]_2; e_VI : seq 'M[C]_2;
                        e_sw : seq ((seq C * C) * (seq C * seq C)) }.
Record trl := Trl { t_L : C; t_zb : C; t_solved : seq (C * entry) }.

(** the computation of an entry, 414-494 *)
Definition solve0 (L zb w : C) : res entry :=
  let xs0 := nodes L w in
  let zero := head 0 xs0 == last 0 xs0 in                                     (* 448 *)
  let xs := if zero then [:: head 0 xs0; last 0 xs0] else xs0 in
  do VI <- mapM (vi_at zero w) xs;
  do Sm <- s_from_vi1 (last 0 VI) zb;                                         (* 487 *)
  Ok (Entry xs Sm VI [::]).

Definition with_solved (o : trl) s := Trl (t_L o) (t_zb o) s.

(** solveVI(f), 370-500 *)
Definition solveVI (o : trl) (w : C) : trl * res entry :=
  if dget (t_solved o) w is Some e then (o, Ok e) else
  match solve0 (t_L o) (t_zb o) w with
  | Ok e => (with_solved o (dset (t_solved o) w e), Ok e)
  | Raise x => (o, Raise x)
  end.
(** solveVI(f, V0, I0), 500-520: np.tensordot with the column (V0, I0) *)
Definition profile (e : entry) (V0 I0 : C) : seq C * seq C :=
  ([seq (M : 'M[C]_2) 0 0 * V0 + M 0 1 * I0 | M <- e_VI e],
   [seq (M : 'M[C]_2) 1 0 * V0 + M 1 1 * I0 | M <- e_VI e]).

(** set(kw = val, ...), 344-364; of the attributes only L and Zbase are modelled.  An
    unknown one raises before self.solved is emptied, after the ones before it are set. *)
Fixpoint set_loop (o : trl) (kw : seq (string * C)) (m : bool) : trl * res bool :=
  match kw with
  | [::] => (with_solved o [::], Ok m)                                        (* 362 *)
  | (k, v) :: kw' =>
    if k == "L"%string then set_loop (Trl v (t_zb o) (t_solved o)) kw' (m || (t_L o != v))
    else if k == "Zbase"%string then set_loop (Trl (t_L o) v (t_solved o)) kw' (m || (t_zb o != v))
    else (o, Raise ValueError)
  end.
Definition trl_set o kw := set_loop o kw false.

(** get1S, 542-554 *)
Definition trl_get1S (o : trl) (Zb : option C) (w : C) : trl * res 'M[C]_2 :=
  let: (o1, r) := solveVI o w in
  (o1, do e <- r;
       match truthy Zb with
       | Some z => if z != t_zb o then convert1 (const_mx z) (e_S e) (const_mx (t_zb o)) "V" "V"
                   else Ok (e_S e)
       | None => Ok (e_S e)
       end).
(** getS, 528-566, one frequency / a list *)
Definition trl_getS (o : trl) (w : C) (Zb : option C) (params : seq (string * C)) : trl * res 'M[C]_2 :=
  match trl_set o params with
  | (o1, Raise x) => (o1, Raise x)
  | (o1, Ok _) => trl_get1S o1 Zb w
  end.
Fixpoint get1S_loop (o : trl) (Zb : option C) (ws : seq C) : trl * res (seq 'M[C]_2) :=
  if ws is w :: ws' then
    match trl_get1S o Zb w with
    | (o1, Raise x) => (o1, Raise x)
    | (o1, Ok Sm) => let: (o2, r) := get1S_loop o1 Zb ws' in (o2, do l <- r; Ok (Sm :: l))
    end
  else (o, Ok [::]).
Definition trl_getSs (o : trl) (ws : seq C) (Zb : option C) (params : seq (string * C)) :
    trl * res (seq 'M[C]_2) :=
  match trl_set o params with
  | (o1, Raise x) => (o1, Raise x)
  | (o1, Ok _) => get1S_loop o1 Zb ws
  end.

(** VISWs(f, E, Zbase), 572-588; a1, a2 are the waves E[p] of the two ports (KeyError if one
    is missing is left out).  The result: the node points, voltages and currents. *)
Definition VISWs (o : trl) (w a1 a2 : C) (Zb : option C) : trl * res (seq C * (seq C * seq C)) :=
  let hit := if dget (t_solved o) w is Some e then
               if Zb is Some z then dget (e_sw e) ([:: a1; a2], z) else None
             else None in
  match hit, dget (t_solved o) w with
  | Some sw, Some e => (o, Ok (e_xs e, sw))
  | _, _ =>
    let z := if truthy Zb is Some z then z else t_zb o in                     (* 580 *)
    let: (o1, r) := trl_getS o w (Some z) [::] in
    match r with
    | Raise x => (o1, Raise x)
    | Ok Sm =>
      let b1 := Sm 0 0 * a1 + Sm 0 1 * a2 in                                  (* 581 *)
      match pdiv (- (a1 - b1)) z with                                         (* 583 *)
      | Raise x => (o1, Raise x)
      | Ok I0 =>
        let: (o2, r2) := solveVI o1 w in
        match r2 with
        | Raise x => (o2, Raise x)
        | Ok e =>
          let sw := profile e (a1 + b1) I0 in                                 (* 585 *)
          let e' := Entry (e_xs e) (e_S e) (e_VI e) (dset (e_sw e) ([:: a1; a2], z) sw) in
          (with_solved o2 (dset (t_solved o2) w e'), Ok (e_xs e', sw))        (* 587-589 *)
        end
      end
    end
  end.

(** calls on a line *)
Inductive trl_call :=
  | CSet of seq (string * C) | CGetS of C & option C & seq (string * C)
  | CGetSs of seq C & option C & seq (string * C) | CVISWs of C & C & C & option C.
Definition trl_do (o : trl) (c : trl_call) : trl :=
  match c with
  | CSet kw => (trl_set o kw).1
  | CGetS w Zb p => (trl_getS o w Zb p).1
  | CGetSs ws Zb p => (trl_getSs o ws Zb p).1
  | CVISWs w a1 a2 Zb => (VISWs o w a1 a2 Zb).1
  end.
(** np.linspace(0, L, n), n >= 2 *)
Definition linspace (L : C) (n : nat) : seq C := [seq L * k%:R / n.-1%:R | k <- iota 0 n].
End TrlModel.

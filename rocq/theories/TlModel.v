(** TLresolver, resolveTLparams.py: the parameters of a transmission line from any subset of
    them.

    Numbers are exact; a division by 0 (inf or nan in numpy) has no meaning here: the
    theorems about values assume non-zero divisors.  np.sqrt is the principal root.
    The printed warnings and texts are left out, but the evaluations made for them are
    modelled because they can raise. *)
From mathcomp Require Import all_ssreflect all_algebra.
From Coq Require Import String.
From Verif Require Import Base ConvModel.
Set Implicit Arguments.
Unset Strict Implicit.
Unset Printing Implicit Defensive.
Import Order.TTheory GRing.Theory Num.Theory.
Local Open Scope string_scope.
Local Open Scope ring_scope.
Local Open Scope seq_scope.

Section Tl.
Variable C : numClosedFieldType.
(** np.log, np.exp, 10**x; np.pi, speed_of_light, mu_0, epsilon_0, eta0/(2 pi) *)
Variables log exp pow10 : C -> C.
Variables pi c0 mu0 e0 eta0coax : C.
(** the argument Zbase, 46 *)
Variable Zbase : C.
Notation sqrt := (@np_sqrt C).

(** * the formulas; [g]: the values self.p(w,x) of the parameters p *)
Definition formula := (string -> res C) -> C -> res C.
Definition f0_ (v : C) : formula := fun _ _ => Ok v.
Definition f1 (a : string) (F : C -> C -> C) : formula := fun g w => do x <- g a; Ok (F w x).
Definition f2 (a b : string) (F : C -> C -> C -> C) : formula :=
  fun g w => do x <- g a; do y <- g b; Ok (F w x y).
Definition f3 (a b c : string) (F : C -> C -> C -> C -> C) : formula :=
  fun g w => do x <- g a; do y <- g b; do z <- g c; Ok (F w x y z).
Definition f4 (a b c d : string) (F : C -> C -> C -> C -> C -> C) : formula :=
  fun g w => do x <- g a; do y <- g b; do z <- g c; do t <- g d; Ok (F w x y z t).

(** 119-127; arguments in the order LTL, CTL, gTL, A *)
Definition rTL_of_A (w L Cc gg A : C) : C :=
  let wL := w * L in let wC := w * Cc in
  let gwC := gg / wC in
  let u := A / sqrt (wL * wC) in
  let u2 := u ^+ 2 in
  let D2 := (gwC ^+ 2 + 1) * (u2 + 1) in
  (- (1 + 2%:R * u2) * gwC + 2%:R * u * sqrt D2) * wL.
(** 129-137; LTL, CTL, rTL, A *)
Definition gTL_of_A (w L Cc rr A : C) : C :=
  let wL := w * L in let wC := w * Cc in
  let rwL := rr / wL in
  let u := A / sqrt (wL * wC) in
  let u2 := u ^+ 2 in
  let D2 := (rwL ^+ 2 + 1) * (u2 + 1) in
  (- (1 + 2%:R * u2) * rwL + 2%:R * u * sqrt D2) * wC.
(** 139-147; LTL, CTL, gTL, rTL *)
Definition A_of (w L Cc gg rr : C) : C :=
  let wL := w * L in let wC := w * Cc in
  let gwC := gg / wC in
  let rwL := rr / wL in
  let d := 1 - rwL * gwC in
  let a2 := d * (sqrt (1 + ((rwL + gwC) / d) ^+ 2) - 1) / 2%:R in
  sqrt (a2 * wL * wC).

(** * the equations, 157-276: name, dependencies, formula *)
Record eqn := Eqn { e_kw : string; e_deps : seq string; e_fun : formula }.
Definition EQNS : seq eqn := [::
  Eqn "murI" [::] (f0_ 1);                                                                 (* 0 *)
  Eqn "murO" [::] (f0_ 1);                                                                 (* 1 *)
  Eqn "rjwL" [:: "rTL"; "LTL"] (f2 "rTL" "LTL" (fun w r L => r + 'i * w * L));             (* 2, 70 *)
  Eqn "gjwC" [:: "gTL"; "CTL"] (f2 "gTL" "CTL" (fun w g c => g + 'i * w * c));             (* 3, 73 *)
  Eqn "LTL" [:: "Z0TL"; "vr"] (f2 "Z0TL" "vr" (fun _ Z v => Z / (c0 * v)));                (* 4, 82 *)
  Eqn "CTL" [:: "Z0TL"; "vr"] (f2 "Z0TL" "vr" (fun _ Z v => 1 / (Z * c0 * v)));            (* 5, 61 *)
  Eqn "LTL" [:: "Z0TL"; "CTL"] (f2 "Z0TL" "CTL" (fun _ Z c => Z ^+ 2 * c));                (* 6, 85 *)
  Eqn "CTL" [:: "Z0TL"; "LTL"] (f2 "LTL" "Z0TL" (fun _ L Z => L / Z ^+ 2));                (* 7, 64 *)
  Eqn "Z0TL" [:: "LTL"; "CTL"] (f2 "LTL" "CTL" (fun _ L c => sqrt (L / c)));               (* 8, 91 *)
  Eqn "vr" [:: "CTL"; "LTL"] (f2 "LTL" "CTL" (fun _ L c => 1 / (c0 * sqrt (L * c))));      (* 9, 103 *)
  Eqn "LTL" [:: "CTL"; "vr"] (f2 "vr" "CTL" (fun _ v c => 1 / ((v * c0) ^+ 2 * c)));       (* 10, 88 *)
  Eqn "CTL" [:: "LTL"; "vr"] (f2 "vr" "LTL" (fun _ v L => 1 / ((v * c0) ^+ 2 * L)));       (* 11, 67 *)
  Eqn "Z0TL" [:: "etar"; "ID"; "OD"]
      (f3 "etar" "OD" "ID" (fun _ e o i => e * eta0coax * log (o / i)));                   (* 12, 94 *)
  Eqn "ID" [:: "etar"; "OD"; "Z0TL"]
      (f3 "OD" "Z0TL" "etar" (fun _ o Z e => o / exp (Z / (eta0coax * e))));               (* 13, 97 *)
  Eqn "OD" [:: "etar"; "ID"; "Z0TL"]
      (f3 "ID" "Z0TL" "etar" (fun _ i Z e => i * exp (Z / (eta0coax * e))));               (* 14, 100 *)
  Eqn "gTL" [:: "ID"; "OD"; "sigma"]
      (f3 "sigma" "OD" "ID" (fun _ s o i => 2%:R * pi * s / log (o / i)));                 (* 15, 79 *)
  Eqn "gTL" [:: "sigma"; "Z0TL"; "etar"]
      (f3 "sigma" "etar" "Z0TL" (fun _ s e Z => 2%:R * pi * s * e * eta0coax / Z));        (* 16, 76 *)
  Eqn "rTL" [:: "rTLI"; "rTLO"] (f2 "rTLI" "rTLO" (fun _ a b => a + b));                   (* 17, 106 *)
  Eqn "rTLI" [:: "rTL"; "rTLO"] (f2 "rTL" "rTLO" (fun _ a b => a - b));                    (* 18, 109 *)
  Eqn "rTLO" [:: "rTL"; "rTLI"] (f2 "rTL" "rTLI" (fun _ a b => a - b));                    (* 19, 115 *)
  Eqn "rTLI" [:: "RsI"; "qTLI"] (f2 "qTLI" "RsI" (fun _ q R => q * R));                    (* 20, 112 *)
  Eqn "rTLO" [:: "RsO"; "qTLO"] (f2 "qTLO" "RsI" (fun _ q R => q * R));                    (* 21, 117-118: RsI *)
  Eqn "qTLI" [:: "ID"] (f1 "ID" (fun _ d => 1 / (pi * d)));                                (* 25 *)
  Eqn "qTLO" [:: "OD"] (f1 "OD" (fun _ d => 1 / (pi * d)));                                (* 26 *)
  Eqn "RsI" [:: "rhoI"; "murI"]
      (f2 "murI" "rhoI" (fun w m r => sqrt (w * mu0 * m * r / 2%:R)));                     (* 27 *)
  Eqn "RsO" [:: "rhoO"; "murO"]
      (f2 "murO" "rhoO" (fun w m r => sqrt (w * mu0 * m * r / 2%:R)));                     (* 28 *)
  Eqn "etar" [:: "mur"; "epsr"] (f2 "mur" "epsr" (fun _ m e => sqrt (m / e)));             (* 29 *)
  Eqn "mur" [:: "etar"; "epsr"] (f2 "etar" "epsr" (fun _ n e => n ^+ 2 * e));              (* 30 *)
  Eqn "epsr" [:: "etar"; "mur"] (f2 "mur" "etar" (fun _ m n => m / n ^+ 2));               (* 31 *)
  Eqn "vr" [:: "mur"; "epsr"] (f2 "mur" "epsr" (fun _ m e => 1 / sqrt (m * e)));           (* 32 *)
  Eqn "mur" [:: "vr"; "epsr"] (f2 "epsr" "vr" (fun _ e v => e / v ^+ 2));                  (* 33 *)
  Eqn "epsr" [:: "vr"; "mur"] (f2 "mur" "vr" (fun _ m v => m / v ^+ 2));                   (* 34 *)
  Eqn "mur" [:: "etar"; "vr"] (f2 "etar" "vr" (fun _ n v => n / v));                       (* 35 *)
  Eqn "vr" [:: "etar"; "mur"] (f2 "etar" "mur" (fun _ n m => n / m));                      (* 36 *)
  Eqn "etar" [:: "mur"; "vr"] (f2 "mur" "vr" (fun _ m v => m * v));                        (* 37 *)
  Eqn "etar" [:: "Z0TL"; "ID"; "OD"]
      (f3 "Z0TL" "OD" "ID" (fun _ Z o i => Z / (eta0coax * log (o / i))));                 (* 38 *)
  Eqn "A" [:: "AdB"] (f1 "AdB" (fun _ a => 1 - pow10 (a / 20%:R)));                        (* 39 *)
  Eqn "rTL" [:: "gTL"; "LTL"; "CTL"; "A"] (f4 "LTL" "CTL" "gTL" "A" rTL_of_A);             (* 53 *)
  Eqn "gTL" [:: "rTL"; "LTL"; "CTL"; "A"] (f4 "LTL" "CTL" "rTL" "A" gTL_of_A);
  Eqn "A" [:: "rTL"; "gTL"; "LTL"; "CTL"] (f4 "LTL" "CTL" "gTL" "rTL" A_of);
  Eqn "sigma" [:: "tand"; "epsr"] (f2 "epsr" "tand" (fun w e t => w * e * e0 * t));        (* 52 *)
  Eqn "mur" [::] (f0_ 1);                                                                  (* 53 *)
  Eqn "epsr" [::] (f0_ 1);                                                                 (* 54 *)
  Eqn "Z0TL" [::] (f0_ Zbase);                                                             (* 55 *)
  Eqn "sigma" [:: "gTL"; "OD"; "ID"]
      (f3 "gTL" "OD" "ID" (fun _ g o i => g * log (o / i) / (2%:R * pi)));                 (* 56 *)
  Eqn "tand" [:: "sigma"; "epsr"] (f2 "sigma" "epsr" (fun w s e => s / (w * e * e0)));     (* 57 *)
  Eqn "Zc" [:: "rjwL"; "gjwC"] (f2 "rjwL" "gjwC" (fun _ z y => sqrt (z / y)));             (* 58, 152 *)
  Eqn "gamma" [:: "rjwL"; "gjwC"] (f2 "gjwC" "rjwL" (fun _ y z => sqrt (y * z)));          (* 59, 149 *)
  Eqn "beta" [:: "LTL"; "CTL"] (f2 "LTL" "CTL" (fun w L c => w * sqrt (L * c)))            (* 60 *)
  ].
(** 29-40: the accepted keywords *)
Definition accepted : seq string := [::
  "OD"; "ID"; "rho"; "rhoO"; "rhoI"; "Rs"; "RsO"; "RsI"; "rTL"; "rTLO"; "rTLI"; "qTL"; "qTLI"; "qTLO";
  "murI"; "murO"; "A"; "AdB"; "gTL"; "sigma"; "tand"; "LTL"; "CTL"; "Z0TL"; "epsr"; "mur"; "vr"; "etar"].

(** * the table of attributes: where a parameter comes from *)
Inductive source := Given of (C -> C -> res C) | Computed of nat.
Definition table := seq (string * source).
Definition eqn0 := Eqn "" [::] (f0_ 0).
(** self.kw(w,x): the formulas look the attributes up when they are called *)
Fixpoint eval (fuel : nat) (tb : table) (w x : C) (kw : string) : res C :=
  if fuel is n.+1 then
    match dget tb kw with
    | None => Raise AttributeError
    | Some (Given f) => f w x
    | Some (Computed k) => e_fun (nth eqn0 EQNS k) (eval n tb w x) w
    end
  else Raise RecursionError.
(** enough for every table the resolver makes (theorem C42_depth) *)
Definition depth : nat := (size EQNS + 40)%N.
Definition value (tb : table) (w x : C) (kw : string) : res C := eval depth tb w x kw.

Definition avail (tb : table) (kws : seq string) : bool := has (fun kw => kw \in dkeys tb) kws.
(** 281-291: the inputs, in the order of the keywords; python keywords are distinct *)
Fixpoint inputs (tb : table) (kws : seq (string * (C -> C -> res C))) : res table :=
  if kws is (kw, f) :: kws' then
    if kw \in accepted then inputs (dset tb kw (Given f)) kws' else Raise ValueError
  else Ok tb.
(** 297-334: missing information *)
Definition zero_fun : source := Given (fun _ _ => Ok 0).
Definition missing (tb : table) : table :=
  let tb :=
    if ~~ avail tb [:: "A"; "AdB"] then
      let tb := if ~~ avail tb [:: "Rs"; "RsI"; "RsO"; "rTL"; "rTLO"; "rTLI"; "rho"; "rhoI"; "rhoO"]
                then dset tb "rTL" zero_fun else tb in
      if ~~ avail tb [:: "sigma"; "tand"; "Am"; "AmdB"] then dset tb "gTL" zero_fun else tb
    else if ~~ avail tb [:: "Ac"; "AcdB"; "Rs"; "RsI"; "RsO"; "rTL"; "rTLO"; "rTLI"; "rho"; "rhoI"; "rhoO";
                            "sigma"; "tand"; "Am"; "AmdB"]
         then dset tb "gTL" zero_fun else tb in
  if dget tb "rho" is Some s then
    if ~~ avail tb [:: "rhoI"; "rhoO"] then dset (dset tb "rhoI" s) "rhoO" s else tb
  else tb.

(** * solveit, 338-386 *)
(** the set of names of an equation: tuple(sorted(depends + (kw,))) *)
Definition sig (e : eqn) : seq string := rcons (e_deps e) (e_kw e).
(** forget, 26-28: pairs of a set of names and a name; the last entry for a set counts *)
Variable forget : seq (seq string * string).
Definition forgotten (e : eqn) : bool :=
  if [seq p <- seq.rev forget | perm_eq p.1 (sig e)] is p :: _ then p.2 == e_kw e else false.
(** f0, 24, 365: the frequency of the consistency checks *)
Variable fcheck : C.
Record sv := Sv { v_tab : table; v_used : seq (seq string) }.
Definition known (tb : table) (d : seq string) : bool := all (fun k => k \in dkeys tb) d.
(** 344-380: the first equation that can be used; the equations before it whose parameter is
    known already are evaluated *)
Fixpoint scan (st : sv) (k : nat) (es : seq eqn) : res (option (nat * eqn)) :=
  if es is e :: es' then
    if has (fun u => perm_eq u (sig e)) (v_used st) || forgotten e then scan st k.+1 es'
    else if (e_kw e \notin dkeys (v_tab st)) && known (v_tab st) (e_deps e) then Ok (Some (k, e))
    else if known (v_tab st) (e_deps e) && (e_deps e != [::]) then
      do _ <- value (v_tab st) fcheck 0 (e_kw e);
      do _ <- e_fun e (value (v_tab st) fcheck 0) fcheck;
      scan st k.+1 es'
    else scan st k.+1 es'
  else Ok None.
Definition use (st : sv) (ke : nat * eqn) : sv :=
  Sv (dset (v_tab st) (e_kw ke.2) (Computed ke.1)) (sig ke.2 :: v_used st).
(** the loop, 343: ends when Zc and gamma are there or nothing can be used; [None]: still
    running after n turns *)
Fixpoint loop (n : nat) (st : sv) : option (res sv) :=
  if avail (v_tab st) [:: "Zc"] && avail (v_tab st) [:: "gamma"] then Some (Ok st)
  else match scan st 0 EQNS with
       | Raise e => Some (Raise e)
       | Ok None => Some (Ok st)
       | Ok (Some ke) => if n is n'.+1 then loop n' (use st ke) else None
       end.
(** TLresolver called with the keywords kws: the table of attributes, or the exception *)
Definition TLresolver (n : nat) (kws : seq (string * (C -> C -> res C))) : option (res table) :=
  match inputs [::] kws with
  | Raise e => Some (Raise e)
  | Ok tb => omap (fun r => do st <- r; Ok (v_tab st)) (loop n (Sv (missing tb) [::]))
  end.
End Tl.

(** Model of the simple devices: rfRLC, rfCoupler, rfArcObj and the part of rfBase
    they use.  Numbers are exact; numpy warnings, nan and overflow are not modelled. *)
From mathcomp Require Import all_ssreflect all_algebra.
From Coq Require Import String.
From Verif Require Import Base ConvModel.
Set Implicit Arguments.
Unset Strict Implicit.
Unset Printing Implicit Defensive.
Import GRing.Theory Num.Theory.
Local Open Scope ring_scope.

Section DevModel.
Variable C : numClosedFieldType.

(** a python number that may be +np.inf *)
Inductive ext := Fin of C | Inf.

(** x / y: python complex division; x / inf = 0 *)
Definition ediv (x : C) (y : ext) : res C :=
  match y with
  | Fin y => if y == 0 then Raise ZeroDivisionError else Ok (x / y)
  | Inf => Ok 0
  end.
Definition pdiv (x y : C) : res C := ediv x (Fin y).

(** rfRLC.__init__, rfRLC.py 54-84: the parameters.  Rs, Ls and Cp are finite. *)
Record rlc := Rlc { Rs : C; Ls : C; Cs : ext; Rp : ext; Lp : ext; Cp : C; rlc_zb : C }.

Definition mx2 (a b c d : C) : 'M[C]_2 :=
  \matrix_(i, j) (if i == 0 then (if j == 0 then a else b) else (if j == 0 then c else d)).

(** np.linalg.inv([[1,1+yp],[-(1+zs),1]]) @ np.array([[1,1-yp],[1-zs,-1]]), 197-202,
    213-218 *)
Definition rlc_mx (zs yp : C) : res 'M[C]_2 :=
  do Ai <- np_inv (mx2 1 (1 + yp) (- (1 + zs)) 1);
  Ok (Ai *m mx2 1 (1 - yp) (1 - zs) (-1)).

(** get1S, rfRLC.py 189-245; w = 2 pi f, z = Zbase.  np.complex (227 and 242-246)
    is taken as complex, as in numpy before 1.24. *)
Definition rlc_get1S (o : rlc) (z w : C) : res 'M[C]_2 :=
  if w != 0 then
    let jw := 'i * w in                                                       (* 193 *)
    do c <- ediv (1 / jw) (Cs o);
    do zs <- pdiv (Rs o + jw * Ls o + c) z;                                   (* 194 *)
    do g <- ediv 1 (Rp o);
    do b <- ediv (1 / jw) (Lp o);
    let yp := (g + b + jw * Cp o) * z in                                      (* 195 *)
    rlc_mx zs yp
  else
    match Cs o, Lp o with
    | Inf, Inf => do yp <- ediv 1 (Rp o); rlc_mx (Rs o) yp                    (* 205-218 *)
    | Inf, Fin _ => do r <- pdiv (Rs o - z) (Rs o + z); Ok (mx2 r 0 0 (-1))   (* 219-227 *)
    | Fin _, Inf =>                                                           (* 229-242 *)
      do r <- (match Rp o with Fin r => pdiv (r - z) (r + z) | Inf => Ok 1 end);
      Ok (mx2 1 0 0 r)
    | Fin _, Fin _ => Ok (mx2 1 0 0 (-1))                                     (* 244-246 *)
    end.

(** getS, 181-255: params replace parameters of the object for good, and are popped
    from the caller's dict; Zbase=None is the object's own *)
Record rlc_params := RlcParams {
  pRs : option C; pLs : option C; pCs : option ext; pRp : option ext; pLp : option ext;
  pCp : option C }.
Definition no_params := RlcParams None None None None None None.
Definition rlc_set (o : rlc) (p : rlc_params) : rlc :=
  let get A (x : option A) d := if x is Some y then y else d in
  Rlc (get _ (pRs p) (Rs o)) (get _ (pLs p) (Ls o)) (get _ (pCs p) (Cs o)) (get _ (pRp p) (Rp o))
      (get _ (pLp p) (Lp o)) (get _ (pCp p) (Cp o)) (rlc_zb o).
(** the object, the caller's params and the result *)
Definition rlc_getS (o : rlc) (w : C) (Zbase : option C) (p : rlc_params) :
    rlc * rlc_params * res 'M[C]_2 :=
  let z := if Zbase is Some z then z else rlc_zb o in
  let o' := rlc_set o p in
  (o', no_params, rlc_get1S o' z w).
Definition rlc_getSs (o : rlc) (ws : seq C) (Zbase : option C) (p : rlc_params) :
    rlc * rlc_params * res (seq 'M[C]_2) :=
  let z := if Zbase is Some z then z else rlc_zb o in
  let o' := rlc_set o p in
  (o', no_params, mapM (rlc_get1S o' z) ws).

(** ** rfBase.getS, rfBase.py 270-287, for an object whose get1S returns n x n
    matrices on the object's own Zbase: a list of frequencies / one frequency *)
Section BaseGetS.
Variables (n : nat) (F : Type) (get1S : F -> res 'M[C]_n) (zb : C).
Definition base_getSs (fs : seq F) (Zbase : option C) : res (seq 'M[C]_n) :=
  do Ss <- mapM get1S fs;                                                     (* 277 *)
  let z := if Zbase is Some z then z else zb in
  if z != zb then
    mapM (fun Sm => convert1 (const_mx z) Sm (const_mx zb) "V" "V") Ss         (* 280 *)
  else Ok Ss.
Definition base_getS (f : F) (Zbase : option C) : res 'M[C]_n :=
  do Ss <- base_getSs [:: f] Zbase;
  if Ss is Sm :: _ then Ok Sm else Raise IndexError.                            (* 283 *)
End BaseGetS.

(** rfBase.get1S, 244-264: the first entry of the table with that frequency *)
Definition tab_get1S n (F : eqType) (tab : seq (F * 'M[C]_n)) (f : F) : res 'M[C]_n :=
  if dget tab f is Some Sm then Ok Sm else Raise ValueError.

(** ** rfCoupler *)
(** np.cos, np.sin; the square root and 20 log10 are abstract as well *)
Record mathlib := Math { m_cos : C -> C; m_sin : C -> C; m_pi : C;
                         m_pow10 : C -> C }. (* 10**x *)
Variable M : mathlib.
Variable c0 : C.      (* speed of light *)

(** kc from the arguments kc and kcdB, rfCoupler.py 92-105; None, 0 and 0.0 are all
    falsy.  The kcdB attribute is not used by getS and not modelled. *)
Definition truthy (x : option C) : option C := if x is Some y then if y == 0 then None else Some y else None.
Definition coupler_kc (kc kcdB : option C) : res C :=
  match truthy kc, truthy kcdB with
  | Some k, None => Ok k
  | Some _, Some _ => Raise ValueError
  | None, Some d => Ok (m_pow10 M (- `|d| / 20%:R))
  | None, None => Ok (np_sqrt (2%:R^-1))
  end.
(** Lc from the arguments Lc and f0Hz, 107-115; None: quarter wave at any frequency *)
Definition coupler_Lc (Lc f0 : option C) : res (option C) :=
  match truthy Lc, truthy f0 with
  | Some L, None => Ok (Some L)
  | Some _, Some _ => Raise ValueError
  | None, Some f => Ok (Some (c0 / (4%:R * f)))
  | None, None => Ok None
  end.
Record coupler := Coupler { cp_kc : C; cp_Lc : option C; cp_zb : C }.
(** __init__, 27-116 (ports: exactly 4, 69-73; sNp not modelled) *)
Definition new_coupler (nports : nat) (kc kcdB Lc f0 : option C) (zb : C) : res coupler :=
  if nports != 4%N then Raise ValueError else
  do k <- coupler_kc kc kcdB; do L <- coupler_Lc Lc f0; Ok (Coupler k L zb).

Definition mx4 (A B : C) : 'M[C]_4 := \matrix_(i, j)
  nth 0 (nth [::] [:: [:: 0; A; B; 0]; [:: A; 0; 0; B]; [:: B; 0; 0; A]; [:: 0; B; A; 0]] i) j.

(** get1S, 146-171.  Division by f = 0 without Lc: ZeroDivisionError; N = 0 gives
    numpy nan/inf there, an exception here (it needs kc^2 = 1 and sin = 0). *)
Definition coupler_get1S (o : coupler) (f : C) : res 'M[C]_4 :=
  do L <- (if cp_Lc o is Some L then Ok L else pdiv c0 (4%:R * f));           (* 151 *)
  let blc := 2%:R * m_pi M * f / c0 * L in
  let cosb := m_cos M blc in let sinb := m_sin M blc in                       (* 152 *)
  let s1k2 := np_sqrt (1 - cp_kc o ^+ 2) in                                   (* 154 *)
  let N := s1k2 * cosb + 'i * sinb in                                         (* 156 *)
  do A <- pdiv s1k2 N;
  do B <- pdiv ('i * cp_kc o * sinb) N;                                       (* 157 *)
  Ok (mx4 A B).

(** ** rfArcObj.get1S, rfArcObj.py 79-84, with a finite Larc (the default +inf gives
    nan).  The result is a number, not a matrix. *)
Definition arc_get1S (Larc zb w : C) : res C :=
  let jwL := 'i * w * Larc in pdiv (jwL - zb) (jwL + zb).
(** rfBase.getS of these numbers: ConvertGeneral gets a 1-D list *)
Definition arc_getSs (Larc zb : C) (ws : seq C) (Zbase : option C) : res (nd C) :=
  do Ss <- mapM (arc_get1S Larc zb) ws;
  let z := if Zbase is Some z then z else zb in
  if z != zb then ConvertGeneral (Nd0 z) (Nd1 Ss) (Nd0 zb) "V" "V" else Ok (Nd1 Ss).
Definition arc_getS (Larc zb w : C) (Zbase : option C) : res C :=
  do r <- arc_getSs Larc zb [:: w] Zbase;
  if r is Nd1 (Sm :: _) then Ok Sm else Raise IndexError.

(** ** maxV *)
(** np.max of a 1-D array for a comparison lt; ValueError for an empty array *)
Definition np_max (lt : rel C) (xs : seq C) : res C :=
  if xs is x :: s then Ok (foldl (fun m y => if lt m y then y else m) x s) else Raise ValueError.
(** numpy orders complex numbers by real part, then imaginary part *)
Definition clt (x y : C) : bool := ('Re x < 'Re y) || ('Re x == 'Re y) && ('Im x < 'Im y).

Section MaxV.
Variable ports : seq string.
Local Notation n := (size ports).
(** Ea/A + S @ Ea/A as a list *)
Definition vports (Sm : 'M[C]_n) (A : seq C) : seq C :=
  let a : 'cV[C]_n := \col_k A`_k in [seq a k 0 + (Sm *m a) k 0 | k <- enum 'I_n].
(** the largest of the values, the first port attaining it, all the values *)
Definition max_where (lt : rel C) (V : seq C) : res (C * string * seq C) :=
  do m <- np_max lt V; Ok (m, nth ""%string ports (seq.index m V), V).

(** rfBase.maxV, rfBase.py 450-492; Zbase=None or 0 is the object's own, [getS] is the
    object's getS at the frequency.  The positions (xpos) only influence the error for a
    wrong xpos argument and are left out, as is the identifier. *)
Definition base_maxV (getS : C -> res 'M[C]_n) (zb : C) (E : seq (string * C)) (Zbase : option C) :
    res (C * string * seq (string * C)) :=
  if ~~ all (fun p => p \in ports) (dkeys E) then Raise ValueError else       (* 459-464 *)
  let z := if truthy Zbase is Some z then z else zb in
  do Sm <- getS z;
  let A := [seq odflt 0 (dget E p) | p <- ports] in                           (* 482 *)
  do r <- max_where (fun x y : C => x < y) [seq `|v| | v <- vports Sm A];
  let: (m, w, V) := r in Ok (m, w, zip ports V).

(** rfRLC.maxV, rfRLC.py 261-275 and rfObject.maxV, rfObject.py 623-634: every port must
    have a value; [abs] = false for rfObject, which takes np.max of complex numbers *)
Definition obj_maxV (abs : bool) (getS : C -> res 'M[C]_n) (zb : C) (E : seq (string * C))
    (Zbase : option C) : res (C * string * seq C) :=
  let z := if Zbase is Some z then z else zb in
  do A <- mapM (fun p => if dget E p is Some v then Ok v else Raise KeyError) ports;
  do Sm <- getS z;
  let V := vports Sm A in
  if abs then max_where (fun x y : C => x < y) [seq `|v| | v <- V] else max_where clt V.
End MaxV.
End DevModel.
Arguments Fin {C} _.
Arguments Inf {C}.

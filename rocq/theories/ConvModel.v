(** Model of the matrix conversion functions of pyRFtk.

    Numbers are exact (no rounding, no nan/inf). [C] is any algebraically closed
    field with conjugation, norm and real part, e.g. mathcomp's [algC]. *)
From mathcomp Require Import all_ssreflect all_algebra.
From Coq Require Import String.
From Verif Require Import Base.
Set Implicit Arguments.
Unset Strict Implicit.
Unset Printing Implicit Defensive.
Import GRing.Theory Num.Theory.
Local Open Scope ring_scope.

Section ConvModel.
Variable C : numClosedFieldType.

(** np.linalg.inv: LinAlgError for a singular matrix (exact arithmetic). *)
Definition np_inv n (A : 'M[C]_n) : res 'M[C]_n :=
  if A \in unitmx then Ok (invmx A) else Raise LinAlgError.

(** numpy arrays by number of dimensions (the argument of np.array(...)); a 3-D
    array is the list of its 2-D slices; [NdHi d] has d+4 dimensions. *)
Inductive nd :=
  | Nd0 of C
  | Nd1 of seq C
  | Nd2 m n of 'M[C]_(m, n)
  | Nd3 m n of seq 'M[C]_(m, n)
  | NdHi of nat.

(** Result of _check_3D_shape_: the pair (L, M3), M3 of shape (_, n, n). *)
Inductive c3d := C3 (L n : nat) of seq 'M[C]_n.

(** cast of an m x n matrix known to be square *)
Definition sq m n (A : 'M[C]_(m, n)) : option 'M[C]_m :=
  match n =P m with
  | ReflectT e => Some (castmx (erefl m, e) A)
  | ReflectF _ => None
  end.

Definition sqs m n (s : seq 'M[C]_(m, n)) : option (seq 'M[C]_m) :=
  match n =P m with
  | ReflectT e => Some (map (castmx (erefl m, e)) s)
  | ReflectF _ => None
  end.

(** _check_3D_shape_.py 9-30.  The error branch (line 28) evaluates
    '...%r' % (M3.shape): M3.shape has 2 or more elements there, so the '%'
    itself fails with TypeError ("not all arguments converted"). *)
Definition check3D (a : nd) : res c3d :=
  match a with
  | Nd0 c => Ok (C3 0 [:: c%:M : 'M_1])                    (* 14-15, L == 0 *)
  | Nd1 s => Ok (C3 1 (map (fun c => c%:M : 'M_1) s))      (* 14-15, L == 1 *)
  | Nd2 m n A =>                                           (* 17-18 *)
      if sq A is Some B then Ok (C3 2 [:: B]) else Raise TypeError
  | Nd3 m n s =>                                           (* 20: L == 3 *)
      if sqs s is Some t then Ok (C3 3 t) else Raise TypeError
  | NdHi _ => Raise TypeError                              (* 28 *)
  end.

(** element [0,0] of a matrix; only used on non-empty matrices *)
Definition e00 n : 'M[C]_n -> C :=
  match n return 'M[C]_n -> C with
  | 0 => fun _ => 0
  | n'.+1 => fun A => A ord0 ord0
  end.

(** S = S[0,0,0] if L == 0 else S[:,0,0] if L == 1 else S[0,:,:] if L==2 else S
    (S_from_Z.py 22, Z_from_S.py 22, Y_from_S.py 22) on S = np.array([...]);
    np.array([]) has one dimension only, hence IndexError for an empty list. *)
Definition unshape n (L : nat) (S : seq 'M[C]_n) : res nd :=
  match L, S with
  | 3, [::] => Ok (Nd1 [::])
  | 3, _ => Ok (Nd3 S)
  | _, [::] => Raise IndexError
  | 0, Sk :: _ => Ok (Nd0 (e00 Sk))
  | 1, _ => Ok (Nd1 (map (@e00 n) S))
  | _, Sk :: _ => Ok (Nd2 Sk)
  end.

(** loop bodies *)
(** S_from_Z.py 19-20 *)
Definition s_from_z1 n (Zb : C) (Z : 'M[C]_n) : res 'M[C]_n :=
  do Zi <- np_inv (Z + Zb%:M); Ok ((Z - Zb%:M) *m Zi).
(** Z_from_S.py 19-20 *)
Definition z_from_s1 n (Zb : C) (S : 'M[C]_n) : res 'M[C]_n :=
  do Si <- np_inv (1%:M - S); Ok ((Zb *: Si) *m (1%:M + S)).
(** Y_from_S.py 19-20 *)
Definition y_from_s1 n (Zb : C) (S : 'M[C]_n) : res 'M[C]_n :=
  do Si <- np_inv (1%:M + S); Ok (Zb^-1 *: (Si *m (1%:M - S))).
(** S_from_Y.py 19-20 *)
Definition s_from_y1 n (Zb : C) (Y : 'M[C]_n) : res 'M[C]_n :=
  do Yi <- np_inv ((Zb^-1)%:M + Y); Ok (((Zb^-1)%:M - Y) *m Yi).

(** the whole functions *)
Definition lift3 (f : forall n, 'M[C]_n -> res 'M[C]_n) (a : nd) : res nd :=
  do c <- check3D a;
  let: C3 L n s := c in
  do S <- mapM (@f n) s; unshape L S.

Definition S_from_Z (Z : nd) (Zb : C) : res nd := lift3 (fun n => @s_from_z1 n Zb) Z.
Definition Z_from_S (S : nd) (Zb : C) : res nd := lift3 (fun n => @z_from_s1 n Zb) S.
Definition Y_from_S (S : nd) (Zb : C) : res nd := lift3 (fun n => @y_from_s1 n Zb) S.

(** S_from_Y.py 10-24 *as if* its [_check_3D_shape_] were the function (see Imports.v for
    what it is really bound to).  S stays a python list (line 20), so the tuple index of
    line 22 raises TypeError for L = 0, 1, 2 *)
Definition S_from_Y_fun (Y : nd) (Zb : C) : res nd :=
  do c <- check3D Y;
  let: C3 L n s := c in
  do S <- mapM (@s_from_y1 n Zb) s;
  if L == 3%N then Ok (Nd3 S) else Raise TypeError.

(** S_from_VI.py 24-38; the argument is an array *)
Definition s_from_vi1 (M : 'M[C]_2) (Z0 : C) : res 'M[C]_2 :=
  let S2 := \matrix_(i < 2, j < 2)
     (if i == 0 then (if j == 0 then 1 else Z0)
      else (if j == 0 then M 0 0 - Z0 * M 1 0 else M 0 1 - Z0 * M 1 1)) in
  let S1 := \matrix_(i < 2, j < 2)
     (if i == 0 then (if j == 0 then 1 else - Z0)
      else (if j == 0 then M 0 0 + Z0 * M 1 0 else M 0 1 + Z0 * M 1 1)) in
  do Si <- np_inv S1; Ok (S2 *m Si).

Definition S_from_VI (M : nd) (Z0 : C) : res nd :=
  match M with
  | Nd2 2 2 A => do S <- s_from_vi1 A Z0; Ok (Nd2 S)
  | _ => Raise ValueError
  end.

(** ** ConvertGeneral.py *)

(** np.sqrt on complex numbers: the root with non-negative real part (and, for
    negative reals, positive imaginary part) *)
Definition np_sqrt (z : C) : C :=
  let s := sqrtC z in if 0 <= 'Re s then s else - s.

(** the 8 coefficient vectors of one frequency, ConvertGeneral.py 87-109 *)
Record q8 N := Q8 {
  QaV : 'rV[C]_N; QaI : 'rV[C]_N; QbV : 'rV[C]_N; QbI : 'rV[C]_N;
  QVa : 'rV[C]_N; QVb : 'rV[C]_N; QIa : 'rV[C]_N; QIb : 'rV[C]_N }.

(** element-wise helpers on rows of (nF,N) arrays *)
Definition vmap N (f : C -> C) (z : 'rV[C]_N) : 'rV[C]_N := \row_j f (z 0 j).

(** ConvertGeneral.py 87-109, one frequency row Zd of the (nF,N) array *)
Definition coeffs1 N (typ : string) (Zd : 'rV[C]_N) : res (q8 N) :=
  if typ == "V"%string then                                        (* 87-92 *)
    let O := vmap (fun _ => 1) Zd in
    let iZd := vmap (fun z => 1 / z) Zd in
    Ok (Q8 (vmap (fun x => x / 2%:R) O) (vmap (fun z => z / 2%:R) Zd)
           (vmap (fun x => x / 2%:R) O) (vmap (fun z => - z / 2%:R) Zd)
           O O iZd (- iZd))
  else if typ == "G"%string then                                   (* 94-99 *)
    let iR z := 1 / np_sqrt ('Re z) in
    Ok (Q8 (vmap (fun z => iR z / 2%:R) Zd) (vmap (fun z => z * iR z / 2%:R) Zd)
           (vmap (fun z => iR z / 2%:R) Zd) (vmap (fun z => - z^* * iR z / 2%:R) Zd)
           (vmap (fun z => z^* * iR z) Zd) (vmap (fun z => z * iR z) Zd)
           (vmap iR Zd) (- vmap iR Zd))
  else if typ == "P"%string then                                   (* 101-106 *)
    let iR z := 1 / np_sqrt z in
    Ok (Q8 (vmap (fun z => iR z / 2%:R) Zd) (vmap (fun z => z * iR z / 2%:R) Zd)
           (vmap (fun z => iR z / 2%:R) Zd) (vmap (fun z => - z * iR z / 2%:R) Zd)
           (vmap (fun z => z * iR z) Zd) (vmap (fun z => z * iR z) Zd)
           (vmap iR Zd) (- vmap iR Zd))
  else Raise ValueError.                                           (* 108-109 *)

(** ConvertGeneral.py 118-125, body of the loop over frequencies *)
Definition conv1 N (q1 q2 : q8 N) (S1 : 'M[C]_N) : res 'M[C]_N :=
  let V := diag_mx (QVa q1) + diag_mx (QVb q1) *m S1 in
  let I := diag_mx (QIa q1) + diag_mx (QIb q1) *m S1 in
  let A2 := diag_mx (QaV q2) *m V + diag_mx (QaI q2) *m I in
  let B2 := diag_mx (QbV q2) *m V + diag_mx (QbI q2) *m I in
  do Ai <- np_inv A2; Ok (B2 *m Ai).

(** the conversion of one matrix at one frequency *)
Definition convert1 N (Z2 : 'rV[C]_N) (S1 : 'M[C]_N) (Z1 : 'rV[C]_N) (t1 t2 : string) :=
  do q1 <- coeffs1 t1 Z1; do q2 <- coeffs1 t2 Z2; conv1 q1 q2 S1.

(** broadcasting of the impedance argument, ConvertGeneral.py 73-84; the result is
    the row of each frequency.  Lines 82-84: '%r' % (shape) is a TypeError
    unless the shape has exactly one element. *)
Definition zrows (nF N : nat) (Z : nd) : res (nat -> 'rV[C]_N) :=
  match Z with
  | Nd0 c => Ok (fun _ => const_mx c)                              (* 75-76 *)
  | Nd1 s => if size s == N then Ok (fun _ => \row_j s`_j)         (* 78-79 *)
             else Raise ValueError                                 (* 81-84 *)
  | Nd2 m n A => if (m == nF) && (n == N)
                 then Ok (fun k => \row_(j < N) 
                     match (insub k : option 'I_m), (insub (j : nat) : option 'I_n) with
                     | Some k', Some j' => A k' j'
                     | _, _ => 0 (* not reached: k < nF = m, j < N = n *)
                     end)
                 else Raise TypeError                              (* 81-84 *)
  | Nd3 _ _ _ => Raise TypeError
  | NdHi _ => Raise TypeError
  end.

(** coeffs(Z, typ): shape check first, then the type (67-111).  The type does
    not depend on the frequency; with nF = 0 the type is still checked. *)
Definition typ_ok (t : string) := t \in [:: "V"; "G"; "P"]%string.
Definition coeffs (nF N : nat) (Z : nd) (typ : string) : res (nat -> 'rV[C]_N) :=
  do zr <- zrows nF N Z; if typ_ok typ then Ok zr else Raise ValueError.

(** ConvertGeneral.py 12-142 *)
Definition ConvertGeneral (Z2 S1 Z1 : nd) (t1 t2 : string) : res nd :=
  do c <- check3D S1;                                             (* 61 *)
  let: C3 L N s := c in
  let nF := size s in
  do z1 <- coeffs nF N Z1 t1;                                     (* 113 *)
  do z2 <- coeffs nF N Z2 t2;                                     (* 114 *)
  do S2 <- mapM (fun k => convert1 (z2 k) (nth 0 s k) (z1 k) t1 t2) (iota 0 nF);
  match L, S2 with
  | 3, [::] => Ok (Nd1 [::])                                      (* np.array([]) *)
  | 3, _ => Ok (Nd3 S2)                                           (* 141-142 *)
  | _, [::] => Raise IndexError
  | 0, Sk :: _ => Ok (Nd0 (e00 Sk))                               (* 129-131 *)
  | 1, Sk :: _ => Ok (Nd1 [:: e00 Sk])                            (* 133-135 *)
  | _, Sk :: _ => Ok (Nd2 Sk)                                     (* 137-139 *)
  end.

End ConvModel.

Arguments Nd0 {C} _.
Arguments Nd1 {C} _.
Arguments Nd2 {C m n} _.
Arguments Nd3 {C m n} _.
Arguments NdHi {C} _.

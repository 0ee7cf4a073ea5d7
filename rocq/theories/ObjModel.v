(** Model of rfObject: a table of S-matrices, rfObject.py.
    Not modelled: __init__ from an array or a touchstone file (only the state they
    leave), copying, pickling, the values of Zcs and Gms (only their shape). *)
From mathcomp Require Import all_ssreflect all_algebra.
From Coq Require Import String.
From Verif Require Import Base ConvModel DevModel.
Set Implicit Arguments.
Unset Strict Implicit.
Unset Printing Implicit Defensive.
Import GRing.Theory Num.Theory.
Local Open Scope ring_scope.
Local Open Scope seq_scope.

Section ObjModel.
Variable C : numClosedFieldType.
Variable F : realFieldType.             (* frequencies *)

(** a square matrix of any size *)
Definition amx := {n : nat & 'M[C]_n}.
Definition AM n (M : 'M[C]_n) : amx := existT _ n M.
Definition adim (A : amx) : nat := projT1 A.

(** A[i,j]; 0 outside *)
Definition mget (A : amx) (i j : nat) : C :=
  let: existT n M := A in
  if insub i is Some i' then if insub j is Some j' then M i' j' else 0 else 0.

(** scipy's interp1d over the table (454-483 and the evaluation 488-498): building it may
    raise, so may evaluating it *)
Variable interp1d : seq F -> seq amx -> res (F -> res amx).
(** ndarray.argsort() of frequencies, of port names *)
Variable argsort : seq F -> seq nat.
Variable argsort_s : seq string -> seq nat.

(** the attributes; o_sh: Ss.shape[-1]; o_zr, o_zc: Zcs.shape (Gms has the same);
    o_cache: interpM and interpA when interpOK *)
Record obj := Obj { o_ports : seq string; o_zb : C; o_fscale : F;
  o_fs : seq F; o_Ss : seq amx; o_sh : nat; o_sorted : bool;
  o_zr : nat; o_zc : nat; o_cache : option (F -> res amx) }.

(** rfObject(ports=ports, Zbase=zb, funit=...), 139-176 *)
Definition new_obj (ports : seq string) (zb : C) (fscale : F) : obj :=
  Obj ports zb fscale [::] [::] (size ports) true 0 (size ports) None.

Definition set_cache o c := Obj (o_ports o) (o_zb o) (o_fscale o) (o_fs o) (o_Ss o) (o_sh o) (o_sorted o) (o_zr o) (o_zc o) c.
Definition set_sorted o b := Obj (o_ports o) (o_zb o) (o_fscale o) (o_fs o) (o_Ss o) (o_sh o) b (o_zr o) (o_zc o) (o_cache o).
Definition set_zr o r := Obj (o_ports o) (o_zb o) (o_fscale o) (o_fs o) (o_Ss o) (o_sh o) (o_sorted o) r (o_zc o) (o_cache o).
Definition set_zc o c := Obj (o_ports o) (o_zb o) (o_fscale o) (o_fs o) (o_Ss o) (o_sh o) (o_sorted o) (o_zr o) c (o_cache o).
Definition set_tab o fs Ss := Obj (o_ports o) (o_zb o) (o_fscale o) fs Ss (o_sh o) (o_sorted o) (o_zr o) (o_zc o) (o_cache o).
Definition set_ports o ps := Obj ps (o_zb o) (o_fscale o) (o_fs o) (o_Ss o) (o_sh o) (o_sorted o) (o_zr o) (o_zc o) (o_cache o).
Definition set_sh o n := Obj (o_ports o) (o_zb o) (o_fscale o) (o_fs o) (o_Ss o) n (o_sorted o) (o_zr o) (o_zc o) (o_cache o).
Definition set_zb o z := Obj (o_ports o) z (o_fscale o) (o_fs o) (o_Ss o) (o_sh o) (o_sorted o) (o_zr o) (o_zc o) (o_cache o).

Definition am0 : amx := AM (0 : 'M_0).
(** iteration, 333-335: what "for f, S in obj" gives *)
Definition items (o : obj) : seq (F * amx) := zip (o_fs o) (o_Ss o).
(** x[idxs] *)
Definition take_idx A (x0 : A) (s : seq A) (idxs : seq nat) : seq A := [seq nth x0 s k | k <- idxs].

(** _sort_fs_, 432-443: Zcs[idxs,:] raises IndexError when Zcs has fewer rows than the
    table; fs and Ss are sorted by then *)
Definition sort_fs (o : obj) : obj * res unit :=
  if o_sorted o then (o, Ok tt) else
  let idxs := argsort (o_fs o) in
  let o1 := set_tab o (take_idx 0 (o_fs o) idxs) (take_idx am0 (o_Ss o) idxs) in
  if (o_zr o < size (o_fs o))%N then (o1, Raise IndexError) else
  (set_sorted (set_zr o1 (size (o_fs o))) true, Ok tt).

(** _interp_(f) for one frequency and insert=False, 449-502 *)
Definition interp_ (o : obj) (f : F) : obj * res amx :=
  match o_cache o with
  | Some g => (o, g f)
  | None =>
    match sort_fs o with
    | (o1, Raise e) => (o1, Raise e)
    | (o1, Ok _) =>
      match interp1d (o_fs o1) (o_Ss o1) with
      | Raise e => (o1, Raise e)
      | Ok g => (set_cache o1 (Some g), g f)
      end
    end
  end.

(** np.where(self.fs == fk)[0], first hit: 535-541 *)
Fixpoint lookup (fs : seq F) (Ss : seq amx) (f : F) : option amx :=
  match fs, Ss with
  | f' :: fs', Sm :: Ss' => if f' == f then Some Sm else lookup fs' Ss' f
  | _, _ => None
  end.
Definition get1S (o : obj) (f : F) : obj * res amx :=
  if lookup (o_fs o) (o_Ss o) f is Some Sm then (o, Ok Sm) else interp_ o f.

(** ConvertGeneral(Z2, S, Z1) with the default wave types 'V' *)
Definition conv (z2 : C) (A : amx) (z1 : C) : res amx :=
  let: existT n M := A in do B <- convert1 (const_mx z2) M (const_mx z1) "V" "V"; Ok (AM B).

(** getS, 523-561, one frequency / a list; fu: FUNITS of the unit given, Zb the Zbase given.
    self.f and self.S are left out; on an empty list Ss[-1] raises IndexError *)
Definition obj_get (o : obj) (Zb : option C) (f : F) : obj * res amx :=
  let z := if Zb is Some z then z else o_zb o in
  let: (o1, r) := get1S o f in
  (o1, do Sm <- r; if z == o_zb o then Ok Sm else conv z Sm (o_zb o)).
Definition obj_getS (o : obj) (f fu : F) (Zb : option C) : obj * res amx :=
  obj_get o Zb (f * fu / o_fscale o).
Fixpoint get_loop (o : obj) (Zb : option C) (fs : seq F) : obj * res (seq amx) :=
  if fs is f :: fs' then
    match obj_get o Zb f with
    | (o1, Raise x) => (o1, Raise x)
    | (o1, Ok Sm) => let: (o2, r) := get_loop o1 Zb fs' in (o2, do l <- r; Ok (Sm :: l))
    end
  else (o, Ok [::]).
Definition obj_getSs (o : obj) (fs : seq F) (fu : F) (Zb : option C) : obj * res (seq amx) :=
  if fs is [::] then (o, Raise IndexError) else
  get_loop o Zb [seq f * fu / o_fscale o | f <- fs].

(** setS(f, S), 567-617.  f: a list, or one number as a list of one.  Portnames: as the
    argument of that name.  [dflt n] are the default names '00', '01', ...  The message of
    the error at 599-602 itself fails with TypeError (len of None or of an int). *)
Variable dflt : nat -> seq string.
Definition obj_setS (o : obj) (f : seq F) (S : nd C) (names : option (seq string)) : obj * res unit :=
  let o := set_cache o None in                                                (* 571 *)
  match check3D S with
  | Raise e => (o, Raise e)
  | Ok (C3 _ n Sm) =>
    if size f != size Sm then (o, Raise ValueError) else                      (* 582 *)
    let named := match names with
      | None => Ok (if o_ports o == [::] then set_ports o (dflt n) else o)    (* 587-590 *)
      | Some ps => if o_ports o == [::] then Ok (set_ports o ps) else Raise ValueError
      end in
    match named with
    | Raise e => (o, Raise e)
    | Ok o =>
      if size (o_ports o) != n then (o, Raise TypeError) else                 (* 598 *)
      let o := if size (o_fs o) == 0%N then set_sh o n else o in              (* 604 *)
      if o_sh o != n then (o, Raise SystemError) else                         (* 608 *)
      let fs := o_fs o ++ f in
      let o := set_tab o fs (o_Ss o ++ [seq AM M | M <- Sm]) in
      if o_sorted o && (size fs == 0%N) then (o, Raise IndexError) else       (* 616: fs[-2] *)
      (set_sorted o (o_sorted o &&
        ((size fs == 1)%N || (nth 0 fs (size fs - 2) < nth 0 fs (size fs - 1)))), Ok tt)
    end
  end.

(** obj[k] = f, S, 346-348, k >= 0; a matrix of another size cannot be stored (numpy
    broadcasting left out) *)
Definition obj_setitem (o : obj) (k : nat) (f : F) (S : amx) : obj * res unit :=
  if (k < size (o_fs o))%N then
    let o1 := set_tab o (set_nth 0 (o_fs o) k f) (o_Ss o) in
    if adim S != o_sh o then (o1, Raise ValueError) else
    (set_tab o1 (o_fs o1) (set_nth am0 (o_Ss o1) k S), Ok tt)
  else (o, Raise IndexError).

(** convert2newZbase, 508-517 *)
Definition convert2newZbase (o : obj) (z : C) : obj * res unit :=
  match mapM (fun A => conv z A (o_zb o)) (o_Ss o) with
  | Ok Ss => (set_zb (set_tab o (o_fs o) Ss) z, Ok tt)
  | Raise e => (o, Raise e)
  end.

(** Ss[:,:,idxs][:,idxs,:] for one slice *)
Definition perm_amx (idxs : seq nat) (A : amx) : amx :=
  AM (\matrix_(i < size idxs, j < size idxs) mget A (nth 0%N idxs i) (nth 0%N idxs j)).

(** sortports(order), 412-426: a list of names, or anything else (the order itself is then
    not used) *)
Definition list_idxs (ports order : seq string) : res (seq nat) :=
  do i1 <- mapM (fun p => if p \in ports then Ok (seq.index p ports) else Raise ValueError) order;
  let idxs := i1 ++ [seq k <- iota 0 (size ports) | k \notin i1] in
  if size idxs != size ports then Raise ValueError else Ok idxs.
Definition obj_sortports (o : obj) (order : option (seq string)) : obj * res unit :=
  match (if order is Some l then list_idxs (o_ports o) l else Ok (argsort_s (o_ports o))) with
  | Raise e => (o, Raise e)
  | Ok idxs =>
    let o := set_ports o (take_idx ""%string (o_ports o) idxs) in             (* 423 *)
    if has (fun k => o_sh o <= k)%N idxs then (o, Raise IndexError) else
    let o := set_sh (set_tab o (o_fs o) (map (perm_amx idxs) (o_Ss o))) (size idxs) in
    if has (fun k => o_zc o <= k)%N idxs then (o, Raise IndexError) else      (* 425-426 *)
    (set_zc o (size idxs), Ok tt)
  end.

(** ** deembed, 689-758 *)
(** the value for a port: (L, Z), or anything else, for which isinstance(v, [int, float])
    raises TypeError (714), also for a dict *)
Inductive dval := DPair of C & C | DOther.
(** rfTRL(L=L, Z0TL=Z, Zbase=zb).getS(f): the constructor may raise as well *)
Variable trlS : C -> C -> C -> F -> res 'M[C]_2.

(** 727-747, one frequency *)
Definition deembed1 (T : 'M[C]_2) (kp : nat) (A : amx) : res amx :=
  let: existT n M := A in
  if insub kp is Some k then
    let qn := 1 - T 0 0 * M k k in
    if qn == 0 then Raise RuntimeError                                        (* 749 *)
    else
      let bk := \row_j (let x := T 1 0 / qn * M k j in
                        if j == k then x * T 0 1 + T 1 1 else x) in           (* 735-736 *)
      let q11 := \row_j (T 0 0 / qn * M k j) in                               (* 738 *)
      let q12 := \col_i (T 0 1 / qn * M i k) in
      let M1 := M + (\col_i M i k) *m q11 in
      Ok (AM (\matrix_(i, j) (if i == k then bk 0 j else
                              if j == k then q12 i 0 else M1 i j)))
  else Raise IndexError.
(** the loop over the frequencies: entries before a failing one keep their new value *)
Fixpoint deembed_tab (trl : F -> res 'M[C]_2) (kp : nat) (fs : seq F) (Ss : seq amx) : seq amx * res unit :=
  match fs, Ss with
  | f :: fs', A :: Ss' =>
    match (do T <- trl f; deembed1 T kp A) with
    | Raise e => (Ss, Raise e)
    | Ok A' => let: (r, x) := deembed_tab trl kp fs' Ss' in (A' :: r, x)
    end
  | _, _ => (Ss, Ok tt)
  end.
(** the loop over the ports; the items found are popped from the caller's dict *)
Fixpoint deembed_ports (o : obj) (ps : seq string) (kp : nat) (d : seq (string * dval)) :
    obj * seq (string * dval) * res unit :=
  if ps is p :: ps' then
    match dget d p with
    | None => deembed_ports o ps' kp.+1 d
    | Some v =>
      let d1 := ddel d p in
      match v with
      | DOther => (o, d1, Raise TypeError)
      | DPair L Z =>
        let: (Ss, r) := deembed_tab (trlS (- L) Z (o_zb o)) kp (o_fs o) (o_Ss o) in
        let o1 := set_tab o (o_fs o) Ss in
        match r with
        | Raise e => (o1, d1, Raise e)
        | Ok _ => deembed_ports o1 ps' kp.+1 d1
        end
      end
    end
  else (o, d, Ok tt).
Definition obj_deembed (o : obj) (d : seq (string * dval)) : obj * seq (string * dval) * res unit :=
  match deembed_ports (set_cache o None) (o_ports o) 0 d with
  | (o1, [::], Ok _) => (o1, [::], Ok tt)
  | (o1, d1, Ok _) => (o1, d1, Raise ValueError)                              (* 752 *)
  | x => x
  end.

(** calls on an rfObject *)
Inductive obj_call :=
  | OSetS of seq F & nd C & option (seq string) | OGetS of F & F & option C
  | OGetSs of seq F & F & option C | OSetItem of nat & F & amx | OConvert of C
  | OSortports of option (seq string) | ODeembed of seq (string * dval).
Definition obj_do (o : obj) (c : obj_call) : obj * bool :=
  match c with
  | OSetS f Sm p => let: (o1, r) := obj_setS o f Sm p in (o1, is_ok r)
  | OGetS f u Zb => let: (o1, r) := obj_getS o f u Zb in (o1, is_ok r)
  | OGetSs f u Zb => let: (o1, r) := obj_getSs o f u Zb in (o1, is_ok r)
  | OSetItem k f Sm => let: (o1, r) := obj_setitem o k f Sm in (o1, is_ok r)
  | OConvert z => let: (o1, r) := convert2newZbase o z in (o1, is_ok r)
  | OSortports l => let: (o1, r) := obj_sortports o l in (o1, is_ok r)
  | ODeembed d => let: (o1, d1, r) := obj_deembed o d in (o1, is_ok r)
  end.
End ObjModel.

(** Specification vocabulary for the conversion functions: port voltages, port
    currents and the waves built from them (ConvertGeneral's documentation and
    Orfanidis for the generalized waves).  Nothing here refers to the model except
    [np_sqrt], the complex square root with non-negative real part, which is
    characterised below. *)
From mathcomp Require Import all_ssreflect all_algebra.
From Coq Require Import String.
From Verif Require Import Base ConvModel.
Set Implicit Arguments.
Unset Strict Implicit.
Unset Printing Implicit Defensive.
Import Order.TTheory GRing.Theory Num.Theory.
Local Open Scope ring_scope.

Section ConvSpec.
Variable C : numClosedFieldType.

(** incident wave of type t at a port with reference impedance z, voltage v, current i *)
Definition wave_a (t : string) (z v i : C) : C :=
  if t == "V"%string then (v + z * i) / 2%:R
  else if t == "P"%string then (v + z * i) / (2%:R * np_sqrt z)
  else (v + z * i) / (2%:R * np_sqrt ('Re z)).

Definition wave_b (t : string) (z v i : C) : C :=
  if t == "V"%string then (v - z * i) / 2%:R
  else if t == "P"%string then (v - z * i) / (2%:R * np_sqrt z)
  else (v - z^* * i) / (2%:R * np_sqrt ('Re z)).

(** impedances for which waves of type t make sense *)
Definition admissible (t : string) (z : C) : bool :=
  if t == "V"%string then z != 0
  else if t == "P"%string then z != 0
  else (t == "G"%string) && (0 < 'Re z).

Definition adm N (t : string) (Z : 'rV[C]_N) := forall k, admissible t (Z 0 k).

(** the multiport with scattering matrix S (waves of type t on Z) admits the port
    voltages v and currents i *)
Definition relates N (t : string) (Z : 'rV[C]_N) (S : 'M[C]_N) (v i : 'cV[C]_N) : Prop :=
  forall k, wave_b t (Z 0 k) (v k 0) (i k 0)
            = \sum_j S k j * wave_a t (Z 0 j) (v j 0) (i j 0).

(** real power absorbed by the ports: Re(sum v_k conj i_k) *)
Definition power N (v i : 'cV[C]_N) : C := \sum_k 'Re (v k 0 * (i k 0)^*).

Definition symmetric N (S : 'M[C]_N) := S^T = S.
(** S^* ^T S = 1 *)
Definition unitary N (S : 'M[C]_N) := (map_mx conjC S)^T *m S = 1%:M.
Definition norm2 N (x : 'cV[C]_N) : C := \sum_k `|x k 0| ^+ 2.
(** no wave vector comes out stronger than it goes in *)
Definition passive N (S : 'M[C]_N) := forall a : 'cV[C]_N, norm2 (S *m a) <= norm2 a.

(** impedance/type combinations for which reciprocity reads S^T = S *)
Definition recip_ok N (t : string) (Z : 'rV[C]_N) : Prop :=
  adm t Z /\ (t <> "V"%string \/ exists z, forall k, Z 0 k = z).

(** impedance/type combinations for which |a|^2 - |b|^2 is proportional to the power *)
Definition power_ok N (t : string) (Z : 'rV[C]_N) : Prop :=
  [\/ t = "G"%string /\ (forall k, 0 < 'Re (Z 0 k)),
      t = "P"%string /\ (forall k, 0 < Z 0 k)
    | t = "V"%string /\ (exists z, 0 < z /\ forall k, Z 0 k = z)].

(** ** shapes *)
(** numpy's .shape *)
Definition nd_shape (a : nd C) : seq nat :=
  match a with
  | Nd0 _ => [::]
  | Nd1 s => [:: size s]
  | Nd2 m n _ => [:: m; n]
  | Nd3 m n s => [:: size s; m; n]
  | NdHi d => nseq (d + 4) 1%N (* only the number of dimensions is modelled *)
  end.

(** shapes the conversion functions are documented to accept *)
Definition good_shape (sh : seq nat) : bool :=
  match sh with
  | [::] => true | [:: _] => true
  | [:: m; n] => m == n
  | [:: _; m; n] => m == n
  | _ => false
  end.

(** ** S, Z, Y of one multiport *)
(** the matrices X with (V - Zb I) = X (V + Zb I) for every V = Z I *)
Definition isS n (Zb : C) (Z X : 'M[C]_n) :=
  forall i : 'cV[C]_n, let v := Z *m i in v - Zb *: i = X *m (v + Zb *: i).

(** the matrices X with V = X I for all waves a, b = S a *)
Definition isZ n (Zb : C) (S X : 'M[C]_n) :=
  forall a : 'cV[C]_n, let b := S *m a in a + b = X *m (Zb^-1 *: (a - b)).

(** admittance *)
Definition isY n (Zb : C) (S X : 'M[C]_n) :=
  forall a : 'cV[C]_n, let b := S *m a in Zb^-1 *: (a - b) = X *m (a + b).

(** ** two-ports given by a voltage/current transfer matrix *)
Definition col2 (x y : C) : 'cV[C]_2 := \col_k (if k == 0 then x else y).

(** S is the scattering matrix (voltage waves on Z0) of the two-port with transfer matrix M:
    port 1 has voltage v1 and inward current -i1, port 2 voltage v2, inward current i2 *)
Definition isSVI (M : 'M[C]_2) (Z0 : C) (S : 'M[C]_2) : Prop :=
  forall v1 i1 : C,
    let v2 := M 0 0 * v1 + M 0 1 * i1 in
    let i2 := M 1 0 * v1 + M 1 1 * i1 in
    relates "V" (const_mx Z0) S (col2 v1 v2) (col2 (- i1) i2).

End ConvSpec.

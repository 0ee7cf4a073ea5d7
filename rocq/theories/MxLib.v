(** Small linear algebra library: column kernels, quotients B A^-1. *)
From mathcomp Require Import all_ssreflect all_algebra.
Set Implicit Arguments.
Unset Strict Implicit.
Unset Printing Implicit Defensive.
Import GRing.Theory Num.Theory.
Local Open Scope ring_scope.

Section MxLib.
Variable F : fieldType.

Lemma unitmx_kerP n (A : 'M[F]_n) :
  reflect (forall x : 'cV_n, A *m x = 0 -> x = 0) (A \in unitmx).
Proof.
apply: (iffP idP) => [Hu x Hx|Hk].
  by rewrite -(mulKmx Hu x) Hx mulmx0.
rewrite -unitmx_tr -row_free_unit -kermx_eq0.
apply/eqP/row_matrixP => i; rewrite row0.
have H := Hk (row i (kermx A^T))^T.
apply: trmx_inj; rewrite trmx0; apply: H.
by rewrite -[X in X *m _]trmxK -trmx_mul -row_mul mulmx_ker row0 trmx0.
Qed.

Lemma notunit_ker n (A : 'M[F]_n) : A \notin unitmx ->
  exists2 x : 'cV_n, A *m x = 0 & x != 0.
Proof.
rewrite -unitmx_tr -row_free_unit -kermx_eq0 => /rowV0Pn [v Hv Hv0].
exists v^T; last by rewrite -(inj_eq (@trmx_inj _ _ _)) trmxK trmx0.
by apply: trmx_inj; rewrite trmx_mul trmxK (sub_kermxP Hv) trmx0.
Qed.

(** two matrices acting alike on every column vector are equal *)
Lemma mx_extP m n (A B : 'M[F]_(m, n)) :
  (forall x : 'cV_n, A *m x = B *m x) <-> A = B.
Proof.
split=> [H|-> //]; apply/matrixP => i j.
have := congr1 (fun M : 'cV_m => M i 0) (H (delta_mx j 0)).
by rewrite -!colE !mxE.
Qed.

(** The quotient B A^-1: unique solution of X A = B, and it exists only if A is
    invertible when A and B have no common kernel. *)
Lemma ratio_unit n m (A : 'M[F]_n) (B X : 'M[F]_(m, n)) :
  (forall x : 'cV_n, A *m x = 0 -> B *m x = 0 -> x = 0) ->
  B = X *m A -> A \in unitmx.
Proof.
move=> Hk HB; apply/unitmx_kerP => x Hx; apply: Hk => //.
by rewrite HB -mulmxA Hx mulmx0.
Qed.

Lemma ratio_uniq n m (A : 'M[F]_n) (B X : 'M[F]_(m, n)) :
  A \in unitmx -> (B = X *m A) <-> (X = B *m invmx A).
Proof. by move=> Hu; split=> ->; rewrite ?mulmxK ?mulmxKV. Qed.

Lemma cV_extP n (x y : 'cV[F]_n) : (forall k, x k 0 = y k 0) <-> x = y.
Proof.
split=> [H|->//]; by apply/matrixP => i j; rewrite (ord1 j).
Qed.

Lemma mulmx_cVE m n (A : 'M[F]_(m, n)) (x : 'cV_n) i :
  (A *m x) i 0 = \sum_j A i j * x j 0.
Proof. by rewrite mxE. Qed.

Lemma diag_mulE n (d : 'rV[F]_n) m (A : 'M[F]_(n, m)) i j :
  (diag_mx d *m A) i j = d 0 i * A i j.
Proof. by rewrite mul_diag_mx mxE. Qed.

Lemma addmxE m n (A B : 'M[F]_(m, n)) i j : (A + B) i j = A i j + B i j.
Proof. by rewrite mxE. Qed.

End MxLib.

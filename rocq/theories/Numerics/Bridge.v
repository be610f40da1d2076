(** Bridge.v -- finite sums and real matrices of the specifications as mathcomp
    sums and matrices. *)
From Coq Require Import Reals.
From mathcomp Require Import all_ssreflect all_algebra.
From Verif.Numerics Require Import RStruct.
From Verif.Spec Require Import GraphSpec.

Set Implicit Arguments.
Unset Strict Implicit.
Unset Printing Implicit Defensive.

Import GRing.Theory.
Local Open Scope ring_scope.

Lemma sumnE n (f : nat -> R) : sumn n f = \sum_(i < n) f i.
Proof. by elim: n => [|n IH]; rewrite ?big_ord0 ?big_ord_recr //= IH. Qed.

(** The leading n x n block of an index function. *)
Definition toM m n (A : nat -> nat -> R) : 'M[R]_(m, n) := \matrix_(i, j) A i j.
Definition toV n (x : nat -> R) : 'rV[R]_n := \row_i x i.
(** Back to an index function. *)
Definition ofV n (v : 'rV[R]_n) (i : nat) : R :=
  if (insub i : option (ordinal n)) is Some o then v 0 o else 0.

Lemma toV_ofV n (v : 'rV[R]_n) : toV n (ofV v) = v.
Proof. by apply/rowP => i; rewrite mxE /ofV valK. Qed.

Definition ofM m n (A : 'M[R]_(m, n)) (i j : nat) : R :=
  if (insub i : option (ordinal m)) is Some o then ofV (row o A) j else 0.
Lemma ofME m n (A : 'M[R]_(m, n)) (i : 'I_m) (j : 'I_n) : ofM A i j = A i j.
Proof. by rewrite /ofM /ofV !valK mxE. Qed.
Lemma toM_ofM m n (A : 'M[R]_(m, n)) : toM m n (ofM A) = A.
Proof. by apply/matrixP => i j; rewrite mxE ofME. Qed.

Lemma bilinE n (A : nat -> nat -> R) x y :
  bilin n A x y = (toV n x *m toM n n A *m (toV n y)^T) 0 0.
Proof.
transitivity (\sum_(i < n) \sum_(j < n) x i * A i j * y j).
  by rewrite /bilin sumnE; apply: eq_bigr => i _; rewrite sumnE.
rewrite mxE exchange_big /=; apply: eq_bigr => j _.
rewrite !mxE big_distrl /=; apply: eq_bigr => i _.
by rewrite !mxE.
Qed.

(** A matrix whose quadratic form vanishes only at zero is invertible. *)
Lemma definite_unit n (A : 'M[R]_n) :
  (forall v : 'rV_n, (v *m A *m v^T) 0 0 = 0 -> v = 0) -> A \in unitmx.
Proof.
move=> H; rewrite unitmxE unitfE; apply/negP => /det0P [v vn0 vA].
by move/eqP: vn0; apply; apply: H; rewrite vA mul0mx mxE.
Qed.

(** A matrix with a non-zero null vector is not. *)
Lemma null_not_unit n (A : 'M[R]_n) (v : 'cV[R]_n) : v != 0 -> A *m v = 0 -> A \notin unitmx.
Proof.
move=> vn0 Av; apply/negP => uA; move/eqP: vn0; apply.
by rewrite -(mulKmx uA v) Av mulmx0.
Qed.

(** EigGradSpec.v -- losses that depend on levels, their gradients in the
    convention of PyTorch, and the response of an eigenvector. *)
From Coq Require Import Reals ZArith.
From Verif.Model Require Import Base Edge Elements LCWB.
From Verif.Spec Require Import ThermalSpec.
From mathcomp Require Import all_ssreflect all_algebra.
From mathcomp Require Import complex.
From Verif.Numerics Require Import RStruct.
From Verif.Model Require Import Op Diag CircuitSM.
From Verif.Spec Require Import GradSpec PerturbSpec RateGradSpec.

Set Implicit Arguments.
Unset Strict Implicit.
Unset Printing Implicit Defensive.
Import GRing.Theory.
Local Open Scope ring_scope.
Local Open Scope complex_scope.

(** A real function of eigenvalues and eigenvectors: level, then entry. *)
Definition loss_fun : Type := (nat -> R) -> (nat -> nat -> C) -> R.

(** It depends on the first [M] levels of [N] entries only. *)
Definition looks_at (M N : nat) (loss : loss_fun) : Prop := forall w w' v v',
  (forall k, (k < M)%N -> w k = w' k) -> (forall k i, (k < M)%N -> (i < N)%N -> v k i = v' k i) ->
  loss w v = loss w' v'.
(** The phase of each vector does not matter. *)
Definition phase_free (M : nat) (loss : loss_fun) : Prop := forall w v (z : nat -> C),
  (forall k, (k < M)%N -> (z k)^* * z k = 1) -> loss w (fun k i => z k * v k i) = loss w v.
(** The loss may also depend on the parameter itself.  [gdir], [gval], [gvec] are its
    gradients at (t0, w0, v0), by the parameter, the eigenvalues and the eigenvectors:
    for an entry a + i b the gradient is dL/da + i dL/db, hence along every curve the
    slope of the loss is [gdir] plus the sum of Re (slope * conj gradient). *)
Definition gradients (M N : nat) (loss : R -> loss_fun) (t0 : R) (w0 : nat -> R) (v0 : nat -> nat -> C)
    (gdir : R) (gval : nat -> C) (gvec : nat -> nat -> C) : Prop :=
  forall (w : nat -> R -> R) (v : nat -> R -> nat -> C) (dw : nat -> R) (dv : nat -> nat -> C),
    (forall k, (k < M)%N -> w k t0 = w0 k) ->
    (forall k i, (k < M)%N -> (i < N)%N -> v k t0 i = v0 k i) ->
    (forall k, (k < M)%N -> has_derivative (w k) t0 (dw k)) ->
    (forall k i, (k < M)%N -> (i < N)%N -> cderiv (fun t => v k t i) t0 (dv k i)) ->
    has_derivative (fun t => loss t (fun k => w k t) (fun k => v k t)) t0
      (gdir + \sum_(k < M) complex.Re ((dw k)%:C * (gval k)^* + \sum_(i < N) dv k i * (gvec k i)^*)).

(** First-order change of eigenvector [m] when the Hamiltonian changes by [P],
    summed over [K] levels, [eps] added to the denominators. *)
Definition vec_response (N K : nat) (vec : nat -> nat -> C) (fr : nat -> R) (eps : R)
    (P : nat -> nat -> C) (m i : nat) : C :=
  \sum_(k < K | (k : nat) != m) sandwich N (vec k) P (vec m) / (fr m - fr k + eps)%:C * vec k i.
(** The loss of results. *)
Definition loss_of (loss : loss_fun) (e : eigres) : R :=
  loss (fun k => nth 0 (e_freqs e) k) (fun k => nth (fun=> 0) (e_vecs e) k).
(** The stored level [m], value and vector, follows a normalised differentiable
    branch up to phases. *)
Definition followed (N : nat) (h : R -> nat -> nat -> C) (t0 : R) (e : R -> eigres) (m : nat) : Prop :=
  exists v w dv dw, [/\ branch N h t0 v w dv dw, near t0 (fun t => dot N (v t) (v t) = 1),
    near t0 (fun t => up_to_phase N (e t) m (v t)) & near t0 (fun t => w t = nth 0 (e_freqs (e t)) m)].
(** What is missing when the response is summed over [K] of [N] levels with [eps]
    added to the denominators, and not at all from level [top] on. *)
Definition vec_missing (N K : nat) (top : Z) (vec : nat -> nat -> C) (fr : nat -> R) (eps : R)
    (P : nat -> nat -> C) (m i : nat) : C :=
  vec_response N N vec fr 0 P m i -
  (if Z.ltb (Z.of_nat m) top then vec_response N K vec fr eps P m i else 0).

(** LineSpec.v -- integrals along the coordinate of one mode: over a turn for a
    periodic coordinate, over the real line otherwise. *)
From Coq Require Import Reals.
From Coquelicot Require Import Coquelicot.
Open Scope R_scope.

Definition line (periodic : bool) (f : R -> R) (I : R) : Prop :=
  if periodic then is_RInt f 0 (2 * PI) I
  else is_RInt_gen f (Rbar_locally m_infty) (Rbar_locally p_infty) I.

(** PhysSpec.v -- physical units: Cooper pair in coulombs, flux quantum in webers. *)
From Coq Require Import Reals.
From Verif.Model Require Import Base Units.
Open Scope R_scope.

Definition cooper_pair : R := 2 * 1.6021766e-19.
(** phase in radians of one unit of the normalised flux operator *)
Definition radians_per_flux : R := 2 * PI / 2.067833e-15 * sqrt 1.0545718e-34.
(** webers of a phase *)
Definition webers (phi : R) : R := 2.067833e-15 / (2 * PI) * phi.
Definition energy (L f : R) : R := f * f / (2 * L).
Definition halved (x : R) : R := x / 2.
Definition quarter_turn : R := PI / 2.

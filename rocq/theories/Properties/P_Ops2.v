(** P_Ops2.v -- the units and phases of the circuit operators: C33, C34, C35 and
    C51 pinned to physical quantities. *)
From Coq Require Import Reals ZArith Lia Lra.
From Verif.Model Require Import Base Units Edge Accuracy HamConst.
From Verif.Spec Require Import PhysSpec.
From Verif.Proofs Require Import HamConstProofs.
From mathcomp Require Import all_ssreflect all_algebra.
From mathcomp Require Import complex.
From mathcomp Require Import ring.
From Verif.Numerics Require Import RStruct Bridge.
From Verif.Model Require Import Op Transform Ham.
From Verif.Spec Require Import OpSpec.
From Verif.Proofs Require Import TransProofs OpProofs HamProofs HamProofs2.

Set Implicit Arguments.
Unset Strict Implicit.
Unset Printing Implicit Defensive.
Import GRing.Theory.
Local Open Scope ring_scope.
Local Open Scope complex_scope.

(** ** C33 *)
(** In coulombs the charge operator of a charge mode is 2e (n - n_g). *)
Theorem C33_cooper_pairs h i : (i < hn h)%N -> hcharge h i ->
  acts_on (hn h) (hm h) i (fun k l =>
    if k == l then (cooper_pair * (charge_at (hm h i) k - h_ng h i))%:C else 0)
    (oscale (sqrt hbar)%:C (opQ h i)).
Proof.
move=> hi hc; have [d H] := one_acts hi (dimQ h); rewrite opQE; split=> // x y Lx Ly.
rewrite [LHS]/= H //; case: ifP => _; last by rewrite mulr0.
rewrite /charge_op_isolated hc.
change ((sqrt hbar)%:C * (charge_unit%:C * ((if x i == y i then (charge_at (hm h i) (x i))%:C else 0)
     - (h_ng h i)%:C * (if x i == y i then 1 else 0))) =
     if x i == y i then (cooper_pair * (charge_at (hm h i) (x i) - h_ng h i))%:C else 0).
case: eqP => _; last by rewrite mulr0 subr0 !mulr0.
by rewrite mulr1 -cRB -!cRM; congr (_%:C); exact: charge_unit_coulomb.
Qed.
Print Assumptions C33_cooper_pairs.

(** ** C34 *)
(** [qt.displace(m, a)] is a function E of the generator a a+ - a* a.  On a
    harmonic mode with more than one state the junction exponential is E of
    i w (2 pi/Phi0) times the flux operator in webers, its root E of half that. *)
Theorem C34_displacement disp E h i j :
  (forall A B, eqop A B -> eqop (E A) (E B)) ->
  (forall m a, eqop (disp m a) (E (osub (oscale a (create m)) (oscale a^* (destroy m))))) ->
  ~~ hcharge h j -> hm h j != 1%N ->
  Rlt 0 (t_cI (h_st h) j j) -> Rlt 0 (t_lT (h_st h) j j) ->
  let phase := (t_wT (h_st h) i j * radians_per_flux)%:C in
  eqop (exp_iso disp h i j) (E (oscale ('i * phase) (flux_op_isolated h j))) /\
  eqop (root_iso disp h i j) (E (oscale ('i * (phase / 2%:R)) (flux_op_isolated h j))).
Proof.
move=> HE HD hc m1 c0 l0 phase.
have gen (z : C) : z^* = z ->
  eqop (osub (oscale ('i * (z * (hphi_zp h j * t_wT (h_st h) i j)%:C)) (create (hm h j)))
             (oscale ('i * (z * (hphi_zp h j * t_wT (h_st h) i j)%:C))^* (destroy (hm h j))))
       (oscale ('i * (z * phase)) (flux_op_isolated h j)).
  move=> zr; rewrite /flux_op_isolated (negbTE hc) (negbTE m1); split=> // a b _ _ /=.
  rewrite !cjM cji cjR zr /hphi_zp phi_zp_flux //.
  set X := (if _ then _ else _); set Y := (if _ then _ else _).
  rewrite /phase -/(himp h j) !cRM; move: (X^*) (Y) (radians_per_flux%:C) (f_zp _)%:C (t_wT _ _ _)%:C.
  by move: ('i : C) => I x y r f w; ring.
rewrite /exp_iso /root_iso /alpha (negbTE hc) (negbTE m1); split.
  apply: eqop_trans (HD _ _) (HE _ _ _).
  by have := gen 1 cj1; rewrite !mul1r.
apply: eqop_trans (HD _ _) (HE _ _ _).
have := gen (2%:R^-1) half_conj.
by rewrite ![2%:R^-1 * _]mulrC -mulrA.
Qed.
Print Assumptions C34_displacement.

(** ** C35 *)
(** The phase factors: e^{i0} = 1, e^{i(x+y)} = e^{ix} e^{iy}, e^{i pi/2} = i. *)
Theorem C35_phase x y : [/\ expi R0 = 1, expi (x + y) = expi x * expi y, expi quarter_turn = 'i &
  expi (halved x) * expi (halved x) = expi x].
Proof.
have add u v : expi (u + v) = expi u * expi v.
  rewrite /expi; apply/eqP; rewrite eq_complex /=; apply/andP; split; apply/eqP.
    exact: cos_plus.
  by rewrite [RHS]addrC; exact: sin_plus.
split.
- by rewrite /expi cos_0 sin_0.
- exact: add.
- by rewrite /expi cos_PI2 sin_PI2.
- by rewrite -add; congr expi; exact: (halfR_add x).
Qed.
Print Assumptions C35_phase.

(** The inductive bias: in joules it is the mixed term of (flux + phi0)^2 / 2L,
    flux the operator in webers and phi0 the external flux phi in units of
    Phi0/2pi. *)
Theorem C35_flux_bias (L phi x : R) : L <> R0 ->
  let f := sqrt hbar * x in
  hbar * (ind_coef L phi * x) = energy L (f + webers phi) - energy L f - energy L (webers phi).
Proof. exact: ind_coef_square. Qed.
Print Assumptions C35_flux_bias.

(** The stored sine operators: sin X with e^{iX} the operator entering the
    cosine, sin(X/2) with the root taken at half the external flux. *)
Theorem C35_sines disp h phi w a b :
  ent (jj_sin (jj_exp disp h phi w)) a b =
    (2%:R * 'i)^-1 * (expi phi * ent (opExp disp h w) a b - (expi phi * ent (opExp disp h w) b a)^*) /\
  exists z, z * z = expi phi /\ z = expi (halved phi) /\ ent (jj_sin (jj_root disp h phi w)) a b =
    (2%:R * 'i)^-1 * (z * ent (opRoot disp h w) a b - (z * ent (opRoot disp h w) b a)^*).
Proof.
by split=> //; exists (expi (halfR phi)); have [_ _ _ ->] := C35_phase phi phi.
Qed.
Print Assumptions C35_sines.

(** ** C51 *)
(** The capacitive coefficients K solve C K = R; the inductive ones are S. *)
Theorem C51_matrices h K : let n0 := t_n0 (h_st h) in
  (coupling_mat h Capacitive = Ok K ->
     toM n0 n0 (h_C h) *m toM n0 n0 K = toM n0 n0 (t_R (h_st h))) /\
  (coupling_mat h Inductive_ = Ok K -> K = t_S (h_st h)).
Proof.
move=> n0; split; last by case=> <-.
rewrite /coupling_mat /inv; case: ifP => // u [<-].
by rewrite toM_mmul toM_ofM mulmxA mulmxV // mul1mx.
Qed.
Print Assumptions C51_matrices.

(** Half a flux quantum through a 1 H inductor, one unit of flux in the mode:
    the bias energy is flux times current. *)
Example C35_flux_case : hbar * (ind_coef R1 PI * R1) =
  energy R1 (sqrt hbar * R1 + webers PI) - energy R1 (sqrt hbar * R1) - energy R1 (webers PI).
Proof. by apply: C35_flux_bias; exact: R1_neq_R0. Qed.

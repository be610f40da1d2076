(** P_Phase.v -- property C59: phase representation of the eigenvectors. *)
From Coq Require Import Reals ZArith Lia Lra.
From Coquelicot Require Derive.
From Verif.Model Require Import Base Units Trunc Accuracy HamConst PhaseConst.
From Verif.Spec Require Import HermiteSpec LineSpec.
From Verif.Numerics Require Import HermiteFn.
From Verif.Proofs Require Import PhaseProofs LineProofs PhaseNorm.
Open Scope R_scope.

(** Below level 250, and wherever SciPy's answer is not finite, the factor of a
    harmonic mode is the normalised oscillator function of the flux phi Phi0 with length
    x0, provided the polynomials the libraries return are the Hermite polynomials. *)
Theorem C59_factor L n cI lT phi : lib_ok L -> 0 < cI -> 0 < lT ->
  (n < 250)%nat \/ l_hyperu L (- (1 / 2) * INR n) (- (1 / 2)) ((phi * Phi0 / len0 cI lT) ^ 2) = None ->
  harm_factor L n (len0 cI lT) phi = chi (Phi0 / len0 cI lT) n phi.
Proof. intros; apply harm_factor_chi; auto using len0_pos. Qed.
Print Assumptions C59_factor.

(** These functions are orthonormal over the real line. *)
Theorem C59_orthonormal cI lT m n : 0 < cI -> 0 < lT ->
  line false (fun x => chi (Phi0 / len0 cI lT) m x * chi (Phi0 / len0 cI lT) n x) (if Nat.eqb m n then 1 else 0).
Proof. intros. apply chi_line, Rdiv_lt_0_compat; [apply Phi0_pos|apply len0_pos; auto]. Qed.
Print Assumptions C59_orthonormal.

(** They solve the equation of the mode,
    -hbar^2 cI/2 d^2/dPhi^2 + lT/2 Phi^2 = hbar sqrt(cI lT) (n + 1/2) with Phi = phi Phi0. *)
Theorem C59_oscillator cI lT n x : 0 < cI -> 0 < lT ->
  - (hbar * hbar * cI / 2) * (Derive.Derive (Derive.Derive (chi (Phi0 / len0 cI lT) n)) x / (Phi0 * Phi0)) +
  lT / 2 * ((x * Phi0) * (x * Phi0)) * chi (Phi0 / len0 cI lT) n x =
  hbar * sqrt (cI * lT) * (INR n + 1 / 2) * chi (Phi0 / len0 cI lT) n x.
Proof. apply energy_chi. Qed.
Print Assumptions C59_oscillator.

(** At phase 0 an even level from 250 on is given the value 0 whenever hyperu is finite
    there; the oscillator function is not 0. *)
Theorem C59_refuted L k cI lT u : 0 < cI -> 0 < lT -> (125 <= k)%nat ->
  l_hyperu L (- (1 / 2) * INR (2 * k)) (- (1 / 2)) ((0 * Phi0 / len0 cI lT) ^ 2) = Some u ->
  harm_factor L (2 * k) (len0 cI lT) 0 = 0 /\ chi (Phi0 / len0 cI lT) (2 * k) 0 <> 0.
Proof.
  intros H K N E. split.
  - destruct (harm_factor_large L (2 * k) (len0 cI lT) 0 u) as (a & _ & ->); [lia|exact E|].
    replace (sgn 0) with 0 by (unfold sgn; destruct (Rlt_dec 0 0); lra). rewrite pow_i by lia. ring.
  - unfold chi. rewrite Rmult_0_r. intros Z. apply Rmult_integral in Z. destruct Z as [Z|Z].
    + assert (P : 0 < sqrt (Phi0 / len0 cI lT)).
      { apply sqrt_lt_R0, Rdiv_lt_0_compat; [apply Phi0_pos|apply len0_pos; auto]. } lra.
    + rewrite hfunE in Z. assert (N1 := nrm_pos (2 * k)). assert (X := exp_pos (- (0 * 0) / 2)).
      apply Rmult_integral in Z. destruct Z as [Z|Z]; [|assert (Q := Rinv_0_lt_compat _ N1); lra].
      apply Rmult_integral in Z. destruct Z as [Z|Z]; [exact (Hp_even0 k Z)|lra].
Qed.
Print Assumptions C59_refuted.

(** Whatever finite values hyperu returns, no level from 250 on is the oscillator
    function: the code's sign is sign(phi)^n, the oscillator function changes sign. *)
Theorem C59_large_refuted L n cI lT : 0 < cI -> 0 < lT -> (250 <= n)%nat ->
  (forall phi, l_hyperu L (- (1 / 2) * INR n) (- (1 / 2)) ((phi * Phi0 / len0 cI lT) ^ 2) <> None) ->
  exists phi, harm_factor L n (len0 cI lT) phi <> chi (Phi0 / len0 cI lT) n phi.
Proof.
  intros H K N F.
  apply (chi_sign_change (Phi0 / len0 cI lT) n (fun phi => harm_factor L n (len0 cI lT) phi)); [|lia|].
  - apply Rdiv_lt_0_compat; [apply Phi0_pos|apply len0_pos; auto].
  - intros x. specialize (F x).
    destruct (l_hyperu L (- (1 / 2) * INR n) (- (1 / 2)) ((x * Phi0 / len0 cI lT) ^ 2)) as [u|] eqn:E; [|congruence].
    apply (harm_factor_large L n (len0 cI lT) x u N E).
Qed.
Print Assumptions C59_large_refuted.

(** The coordinate of a harmonic mode is the flux in flux quanta: the phase operator
    phi_zp (a + a^dagger) multiplies by 2 pi phi, not by phi. *)
Theorem C59_axis_refuted cI lT n x : 0 < cI -> 0 < lT ->
  let psi k := chi (Phi0 / len0 cI lT) k x in
  let phase := phi_zp cI lT * (sqrt (INR (S n)) * psi (S n) + match n with O => 0 | S k => sqrt (INR n) * psi k end) in
  phase = 2 * PI * x * psi n /\ (x <> 0 -> psi n <> 0 -> phase <> x * psi n).
Proof.
  intros H K psi phase.
  assert (E : phase = 2 * PI * x * psi n).
  { unfold phase, psi. rewrite <- (phase_chi cI lT n x H K). destruct n; reflexivity. }
  split; [exact E|]. intros X P Q. rewrite E in Q.
  assert (T : (2 * PI - 1) * (x * psi n) = 0) by lra.
  apply Rmult_integral in T. destruct T as [T|T].
  - assert (B := PI_RGT_0). assert (B2 := PI2_1). lra.
  - apply Rmult_integral in T. tauto.
Qed.
Print Assumptions C59_axis_refuted.

From mathcomp Require Import all_ssreflect all_algebra.
From mathcomp Require Import complex.
From Verif.Numerics Require Import RStruct.
From Verif.Model Require Import Transform Op Ham Diag PhaseCoord.
From Verif.Spec Require Import PhaseSpec.
From Verif.Proofs Require Import OpProofs PhaseArray PhaseMulti.

Set Implicit Arguments.
Unset Strict Implicit.
Unset Printing Implicit Defensive.
Import GRing.Theory.
Local Open Scope ring_scope.
Local Open Scope complex_scope.

(** The array: one axis per grid, axes of size 1 removed, the first two axes that are left
    exchanged; its entries are the sums over the tensor basis of the amplitudes times
    oscillator functions (harmonic modes) and plane waves e^{i phi n} (charge modes). *)
Theorem C59_array L charge cI lT ms (evecs : seq cvec) k kk grid :
  lib_ok L -> all (fun a => 0 < a)%N ms -> (0 < size ms)%N ->
  (forall a, (a < size ms)%N -> charge a = false ->
     (nth 0%N ms a <= 250)%N /\ Rlt 0 (cI a) /\ Rlt 0 (lT a)) ->
  py_index (size evecs) k = Some kk -> (size ms <= size grid)%N ->
  let sizes := [seq size g | g <- grid] in
  exists A,
    eig_phase_coord L (size ms) [seq Z.of_nat a | a <- ms] charge cI lT evecs (Some k) grid = Ok A /\
    a_shape A = flip [seq d <- sizes | d != 1%N] /\
    forall ix, inside sizes ix ->
      a_at A (flip (kept sizes ix)) =
      wave (levels charge (fun a => Rdiv Phi0 (len0 (cI a) (lT a))) (fun _ n => INR n)) ms
           (nth (fun=> 0) evecs kk) (fun a => nth 0%R (nth [::] grid a) (nth 0%N ix a)).
Proof.
move=> lok pos ms0 hms kOk sg sizes.
have [A [EA [SA VA]]] := @phase_array L charge cI lT grid ms evecs k kk pos ms0 kOk sg.
exists A; split; first exact: EA; split; first exact: SA.
move=> ix ins; rewrite VA //; rewrite /wave big_seq [RHS]big_seq; apply: eq_bigr => d dT.
congr (_ * _); apply: eq_bigr => a _; rewrite /code_basis /levels /mesh_at.
case E: (charge a).
  by rewrite /charge_factor /plane charge_normE -INR_IZR_INZ.
have [a250 [c0 l0]] := hms a (ltn_ord a) E.
rewrite C59_factor //; left; apply/ltP; apply: leq_trans a250.
exact: nth_tuples dT (ltn_ord a).
Qed.
Print Assumptions C59_array.

(** Errors: nothing diagonalised, an index that is not an int, an index out of range, a
    grid with fewer axes than modes. *)
Theorem C59_errors L charge cI lT ms (evecs : seq cvec) k grid :
  all (fun a => 0 < a)%N ms -> (0 < size ms)%N ->
  let run := fun e k g => eig_phase_coord L (size ms) [seq Z.of_nat a | a <- ms] charge cI lT e k g in
  run [::] k grid = Err CircuitStateError /\
  (evecs <> [::] -> run evecs None grid = Err ValueError) /\
  (evecs <> [::] -> forall z, py_index (size evecs) z = None -> run evecs (Some z) grid = Err IndexError) /\
  (forall z kk, py_index (size evecs) z = Some kk -> (size grid < size ms)%N ->
     run evecs (Some z) grid = Err IndexError).
Proof.
move=> pos ms0 run; split; first by [].
split; first by rewrite /run /eig_phase_coord; case: (evecs).
split; last by move=> z kk; apply: phase_short.
move=> e0 z zn; rewrite /run /eig_phase_coord.
have -> : (size evecs == 0%N) = false by case: (evecs) e0.
rewrite size_map (gtn_eqF ms0) -/(Zs ms) dimZ_Zs -place_iota.
have := tuples_neq0 pos; have := @modes_of ms _ pos.
case: (tuples ms) => [|d l] // H2 _ /=.
rewrite (H2 d (mem_head _ _)) /= /py_get (_ : Datatypes.length evecs = size evecs) // zn /=.
by rewrite basis_err.
Qed.
Print Assumptions C59_errors.

(** The squared modulus integrates to the squared norm of the eigenvector, the
    coordinates of charge modes running over a turn and the others over the line. *)
Theorem C59_normalised charge cI lT ms (v : cvec) :
  (forall a, (a < size ms)%N -> charge a = false -> Rlt 0 (cI a) /\ Rlt 0 (lT a)) ->
  let Psi := fun l => wave (levels charge (fun a => Rdiv Phi0 (len0 (cI a) (lT a))) (fun _ n => INR n))
                           ms v (nth 0%R l) in
  multi [seq charge a | a <- iota 0 (size ms)] (fun l => Psi l * (Psi l)^*)
        (\sum_(i < (\prod_(b <- ms) b)%N) v i * (v i)^*).
Proof.
move=> H Psi.
have K := @wave_norm charge (fun a => Rdiv Phi0 (len0 (cI a) (lT a))) (fun _ n => Z.of_nat n) ms v _ _.
apply: multi_ext (K _ _); last by move=> _ i j; apply: Nat2Z.inj.
  move=> l _; rewrite /Psi; congr (_ * _^*).
    by apply: eq_bigr => d _; congr (_ * _); apply: eq_bigr => a _; rewrite /levels INR_IZR_INZ.
  by apply: eq_bigr => d _; congr (_ * _); apply: eq_bigr => a _; rewrite /levels INR_IZR_INZ.
move=> a al ca; have [c0 l0] := H a al ca; exact: Rdiv_lt_0_compat Phi0_pos (len0_pos _ _ c0 l0).
Qed.
Print Assumptions C59_normalised.

(** In this representation the flux operator of a harmonic mode (over sqrt hbar) multiplies
    by the flux phi Phi0, and the charge operator is -i hbar d/dPhi, on all levels but the
    last. *)
Theorem C59_operators h i n x : hcharge h i = false ->
  let cI := t_cI (h_st h) i i in let lT := t_lT (h_st h) i i in
  Rlt 0 cI -> Rlt 0 lT -> (n.+1 < hm h i)%N ->
  let psi := chi (Rdiv Phi0 (len0 cI lT)) in
  \sum_(k < hm h i) ent (flux_op_isolated h i) k n * (psi k x)%:C =
    (Rmult (Rdiv (Rmult x Phi0) (sqrt hbar)) (psi n x))%:C /\
  \sum_(k < hm h i) ent (charge_op_isolated h i) k n * (psi k x)%:C =
    - 'i * (Rmult (Rdiv (sqrt hbar) Phi0) (Derive.Derive (psi n) x))%:C.
Proof. by move=> harm cI lT c0 l0 nM psi; split; [apply: flux_rep|apply: charge_rep]. Qed.
Print Assumptions C59_operators.

(** Charge modes: level n of m is the charge n - (m-1)/2, but the code uses e^{i phi n};
    the result is the wave function times e^{i phi (m-1)/2} for every charge mode.  The
    density is right. *)
Theorem C59_charge_phase charge (c : nat -> R) ms (v : cvec) phi :
  let code := wave (levels charge c (fun _ n => INR n)) ms v phi in
  let true_ := wave (levels charge c (fun a n => charge_at (nth 0%N ms a) n)) ms v phi in
  code = (\prod_(a < size ms) (if charge a then expi (Rmult (phi a) (offset (nth 0%N ms a))) else 1)) * true_ /\
  code * code^* = true_ * true_^*.
Proof. by move=> code true_; split; [exact: wave_shift|exact: wave_density]. Qed.
Print Assumptions C59_charge_phase.

Theorem C59_charge_refuted : exists ms (v : cvec) phi,
  wave (levels xpredT (fun=> 1%R) (fun _ n => INR n)) ms v phi <>
  wave (levels xpredT (fun=> 1%R) (fun a n => charge_at (nth 0%N ms a) n)) ms v phi.
Proof.
exists [:: 3%N], (fun i => if i == 0%N then 1 else 0), (fun=> PI).
have W q : wave (levels xpredT (fun=> 1%R) q) [:: 3%N] (fun i => if i == 0%N then 1 else 0) (fun=> PI) = plane (q 0%N 0%N) PI.
  rewrite /wave /tuples /= !big_cons big_nil /place /= !big_nil !big_ord_recl !big_ord0 /=.
  by rewrite mul1r !mul0r !addr0 mulr1.
rewrite !W /plane => /(f_equal (@complex.Re _)); rewrite /= !mul0r !subr0 charge_at30.
exact: plane_differs.
Qed.
Print Assumptions C59_charge_refuted.

(** A two-mode circuit with a harmonic mode of 2 and a charge mode of 3 levels, in the
    state "first excited, middle charge level" on a grid of 2 x 3 points: an array of shape
    (3, 2) with one product in every entry. *)
Example C59_case (x1 x2 p1 p2 p3 : R) :
  let L := mkS (fun n x => Some (He n x)) (fun _ _ _ => None) Hp in
  let one := fun=> 1%R in
  let c := Rdiv Phi0 (len0 1%R 1%R) in
  exists A,
    eig_phase_coord L 2 [:: Z.of_nat 2; Z.of_nat 3] (fun a => a == 1%N) one one
      [:: (fun=> 0); (fun i => if i == 4%N then 1 else 0)] (Some (Zneg xH)) [:: [:: x1; x2]; [:: p1; p2; p3]] = Ok A /\
    a_shape A = [:: 3; 2]%N /\
    a_at A [:: 0; 1]%N = (chi c 1 x2)%:C * plane (INR 1) p1 /\
    a_at A [:: 2; 0]%N = (chi c 1 x1)%:C * plane (INR 1) p3.
Proof.
move=> L one c.
have lok : lib_ok L by split=> // n x; right.
have hms a : (a < 2)%N -> (a == 1%N) = false -> (nth 0%N [:: 2; 3]%N a <= 250)%N /\ Rlt 0 (one a) /\ Rlt 0 (one a).
  by move=> _ _; split; [case: a => [|[|[|]]]|split; exact: Rlt_0_1].
have [A [EA [SA VA]]] := @C59_array L (fun a => a == 1%N) one one [:: 2; 3]%N
  [:: (fun=> 0); (fun i => if i == 4%N then 1 else 0)] (Zneg xH) 1%N [:: [:: x1; x2]; [:: p1; p2; p3]]
  lok isT isT hms erefl isT.
have W q : wave (levels (fun a => a == 1%N) (fun=> c) (fun _ n => INR n)) [:: 2; 3]%N
   (fun i => if i == 4%N then 1 else 0) q = (chi c 1 (q 0%N))%:C * plane (INR 1) (q 1%N).
  have P a b : place [:: 2; 3]%N [:: a; b] = (a * 3 + b)%N by rewrite /place /= !big_cons !big_nil !muln1 addn0.
  rewrite /wave (_ : tuples _ = [:: [:: 0; 0]; [:: 0; 1]; [:: 0; 2]; [:: 1; 0]; [:: 1; 1]; [:: 1; 2]]%N) //.
  rewrite !big_cons big_nil !P !big_ord_recl !big_ord0 /=.
  by rewrite !mul0r !addr0 !add0r mul1r mulr1 /levels /=.
exists A; split; first exact: EA; split; first exact: SA.
by split; [have := VA [:: 1; 0]%N isT|have := VA [:: 0; 2]%N isT] => /= ->; rewrite W.
Qed.

(** RateGradProofs.v -- [partial_squared_omega]. *)
From Coq Require Import Reals ZArith String Lra.
From Verif.Spec Require Import ThermalSpec.
From Verif.Proofs Require Import ThermalProofs.
Lemma arrange a b c d : Rplus (Rmult 2 (Rplus a (Ropp b))) (Rplus c (Ropp d)) =
  Rplus (Rplus c (Rmult 2 a)) (Ropp (Rplus d (Rmult 2 b))).
Proof. lra. Qed.
From Verif.Model Require Import Base Units Noise Edge Elements LCWB HamConst PartialConst Thermal RateConst.
From mathcomp Require Import all_ssreflect all_algebra.
From mathcomp Require Import complex.
From Verif.Numerics Require Import RStruct Bridge.
From Verif.Model Require Import Transform Op Ham Diag CircuitSM Partial DecRate TorchRates.
From Verif.Spec Require Import OpSpec GradSpec PerturbSpec DecSpec RateGradSpec.
From Verif.Proofs Require Import OpProofs CDeriv PerturbProofs PerturbProofs2 SecondOrder.
From Verif.Properties Require Import P_Perturb.

Set Implicit Arguments.
Unset Strict Implicit.
Unset Printing Implicit Defensive.
Import GRing.Theory.
Local Open Scope ring_scope.
Local Open Scope complex_scope.

(** <v|P|v>, the number 0 as operator giving 0 *)
Lemma inner_entry N P u v : sized N P ->
  (match P with None => 0 | Some A => inner u A v end) = dot N u (apply_to N (opt_entry P) v).
Proof.
case: P => [A <-|_] //=.
by rewrite /dot big1 // => i _; rewrite /apply_to big1 ?mulr0 // => j _; rewrite mul0r.
Qed.

Lemma squaredE s x c P P2 m n eps g : partial_squared_omega s x c P P2 m n eps = Ok g ->
  exists vm vn dm dn, [/\ evec x m = Ok vm, evec x n = Ok vn, get_partial_vec s x c m eps = Ok dm,
    get_partial_vec s x c n eps = Ok dn &
    forall N, sized N P -> sized N P2 -> g =
      Rmult 2 (complex.Re (dot N dm (apply_to N (opt_entry P) vm) - dot N dn (apply_to N (opt_entry P) vn))) +
      complex.Re (dot N vm (apply_to N (opt_entry P2) vm) - dot N vn (apply_to N (opt_entry P2) vn))].
Proof.
rewrite /partial_squared_omega /evecs_at; case: ifP => // _.
case: (evec x m) => [vm|//]; cbn [bind]; case: (get_partial_vec s x c m eps) => [dm|//]; cbn [bind].
case: (evec x n) => [vn|//]; cbn [bind]; case: (get_partial_vec s x c n eps) => [dn|//]; cbn [bind] => -[<-].
exists vm, vn, dm, dn; split=> // N SP SP2; rewrite -!inner_entry //.
case: P {SP} => [A|]; case: P2 {SP2} => [A2|] //; rewrite !subrr; congr (_ + _); exact/esym/mulr0.
Qed.

Section Level.
Variables (s : store) (x : circ) (c : LCWB.comp) (A : op).
Let vs := e_vecs (x_eig x).
Let fs := e_freqs (x_eig x).
Let vec n := nth (fun=> 0) vs n.
Let fr n := nth 0 fs n.
Let N := dim A.
Hypothesis grad : partial_H s x c None = Ok (Some A).
Hypothesis sizes : size fs = size vs.
Hypothesis onb : orthonormal N vs.

Let ev n : (n < size vs)%N -> evec x (Z.of_nat n) = Ok (vec n).
Proof. exact: py_nthE. Qed.

Lemma Re_div (z : C) (r : R) : complex.Re (z / r%:C) = complex.Re z / r.
Proof. by rewrite -fmorphV /=; case: z => a b /=; rewrite mulr0 subr0. Qed.

Lemma squared_term G m dm eps : hermitian N G -> (m < size vs)%N ->
  get_partial_vec s x c (Z.of_nat m) eps = Ok dm ->
  Rmult 2 (complex.Re (dot N dm (apply_to N G (vec m)))) =
  \sum_(k < size vs | (k : nat) != m)
    Rmult 2 (complex.Re (sandwich N (vec m) G (vec k) * sandwich N (vec k) (ent A) (vec m))) / (fr m - fr k + eps).
Proof.
move=> hG hm E.
have X := @vec_expansion s x c A eps grad sizes m dm hm E; rewrite -/vs -/fs in X.
rewrite dotC ReJ (@dot_ext _ _ dm _ (fun i _ => X i)) dot_sumr.
rewrite -[X in Rmult _ X]/(complex.Re _) (big_morph _ ReD erefl).
rewrite -[LHS]/(2%R * _ : R) mulr_sumr; apply: eq_bigr => k km.
rewrite -/vec -/N dotZr -[RHS]mulrA; congr (_ * _).
rewrite !sandwichE mulrAC Re_div; congr (complex.Re _ / _).
by rewrite mulrC; congr (_ * _); rewrite dotC (dot_herm (vec k) (vec m) hG) conjcK.
Qed.

Lemma squared_formula P P2 m n eps g : sized N P -> sized N P2 -> hermitian N (opt_entry P) ->
  (m < size vs)%N -> (n < size vs)%N ->
  partial_squared_omega s x c P P2 (Z.of_nat m) (Z.of_nat n) eps = Ok g ->
  g = second_order N (size vs) vec fr eps (opt_entry P) (opt_entry P2) (ent A) m -
      second_order N (size vs) vec fr eps (opt_entry P) (opt_entry P2) (ent A) n.
Proof.
move=> S1 S2 hP hm hn /squaredE [vm [vn [dm [dn [E1 E2 E3 E4 /(_ N S1 S2) ->]]]]].
move: E1 E2; rewrite !ev // => -[<-] [<-].
rewrite /second_order !sandwichE -(squared_term hP hm E3) -(squared_term hP hn E4) !ReD !ReN.
exact: arrange.
Qed.

(** Derivative of the expectation value along a branch. *)
Section True.
Variables (h : R -> nat -> nat -> C) (t0 : R) (v : R -> nat -> C) (w : R -> R) (dv : nat -> C) (dw : R) (m : nat).
Hypothesis B : branch N h t0 v w dv dw.
Hypothesis D : forall i j, (i < N)%N -> (j < N)%N -> cderiv (fun t => h t i j) t0 (ent A i j).
Hypothesis Hh : hermitian N (h t0).
Hypothesis pairs : forall n, (n < size vs)%N -> eigen N (h t0) (fr n) (vec n).
Hypothesis full : size vs = N.
Hypothesis hm : (m < size vs)%N.
Hypothesis through : forall i, (i < N)%N -> v t0 i = vec m i.
Hypothesis at_freq : w t0 = fr m.

Lemma code_vec dm : get_partial_vec s x c (Z.of_nat m) 0 = Ok dm ->
  forall i, (i < N)%N -> dm i = dv i - dot N (v t0) dv * v t0 i.
Proof.
move=> E i hi.
have nz n (hn : (n < size vs)%N) nm := proj1 (C49_defined 0 grad sizes hm) (ex_intro _ _ E) n hn nm.
rewrite (resolution dm onb full hi) [X in X - _](resolution dv onb full hi).
rewrite (bigD1 (Ordinal hm)) //= [in RHS](bigD1 (Ordinal hm)) //= -/(vec m).
have -> : dot N (vec m) dm = 0 by apply: (C49_orthogonal grad sizes onb hm E).
rewrite mul0r add0r -(dot_extl dv through) through // -/(vec m) addrAC subrr add0r.
apply: eq_bigr => n nm; congr (_ * _).
have nm' : (n : nat) != m by apply: contraNneq nm => e; apply/eqP/val_inj.
have /mulIf : (fr m - fr n)%:C != 0.
  have := nz n (ltn_ord n) nm'; rewrite addr0 => nz'.
  by apply/eqP => E0; apply: nz'; apply: (congr1 (@complex.Re _) E0).
apply.
have := @C49_coefficients s x c A 0 grad sizes onb m dm hm E n (ltn_ord n) nm'.
rewrite addr0 -/(vec n) -/(vec m) => ->.
rewrite divfK; last first.
  have := nz n (ltn_ord n) nm'; rewrite addr0 => nz'.
  by apply/eqP => E0; apply: nz'; apply: (congr1 (@complex.Re _) E0).
have := branch_dot B D Hh (pairs (ltn_ord n)); rewrite at_freq -/(vec n).
rewrite (dot_ext _ (fun i (hi : (i < N)%N) => apply_ext (ent A) i through)) -/N.
rewrite (dot_ext _ through) onb // (negbTE nm') mulr0 add0r => ->.
by rewrite rmorphB /= mulrC.
Qed.

Lemma branch_slope G G2 dm : (forall i j, (i < N)%N -> (j < N)%N -> cderiv (fun t => G t i j) t0 (G2 i j)) ->
  hermitian N (G t0) -> near t0 (fun t => dot N (v t) (v t) = 1) ->
  get_partial_vec s x c (Z.of_nat m) 0 = Ok dm ->
  has_derivative (fun t => complex.Re (dot N (v t) (apply_to N (G t) (v t)))) t0
    (Rmult 2 (complex.Re (dot N dm (apply_to N (G t0) (vec m)))) +
     complex.Re (dot N (vec m) (apply_to N G2 (vec m)))).
Proof.
move=> HG hG nrm E.
have := expect_slope HG (br_vec B) hG nrm (code_vec E).
rewrite (dot_ext dm (fun i (hi : (i < N)%N) => apply_ext (G t0) i through)).
by rewrite (dot_ext2 through (fun i (hi : (i < N)%N) => apply_ext G2 i through)).
Qed.
End True.
End Level.

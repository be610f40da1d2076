(** C49 and C65: gradients of eigenvectors and eigenfrequencies. *)
From Coq Require Import Reals ZArith String Lia.
From Verif.Model Require Import Base Units Elements Edge LCWB HamConst PartialConst.
From Verif.Spec Require Import ThermalSpec.
From mathcomp Require Import all_ssreflect all_algebra.
From mathcomp Require Import complex.
From Verif.Numerics Require Import RStruct Bridge.
From Verif.Model Require Import Transform Op Ham Diag CircuitSM Partial.
From Verif.Spec Require Import OpSpec SessionSpec GradSpec PerturbSpec.
From Verif.Proofs Require Import HamProofs HamProofs2 HamProofs6 CDeriv SMProofs SMProofs3 MemProofs GradProofs.
From Verif.Proofs Require Import PerturbProofs PerturbProofs2.
From Verif.Properties Require Import P_Gradient.

Set Implicit Arguments.
Unset Strict Implicit.
Unset Printing Implicit Defensive.
Import GRing.Theory.
Local Open Scope ring_scope.
Local Open Scope complex_scope.

(** Stored results: frequencies and as many orthonormal vectors of the size of
    the gradient operator [A]. *)
Section Vec.
Variables (s : store) (x : circ) (c : LCWB.comp) (A : op) (eps : R).
Let vs := e_vecs (x_eig x).
Let fs := e_freqs (x_eig x).
Let vec n := nth (fun=> 0) vs n.
Let fr n := nth 0 fs n.
Let N := dim A.
Hypothesis grad : partial_H s x c None = Ok (Some A).
Hypothesis sizes : size fs = size vs.
Hypothesis onb : orthonormal N vs.

Let ev n : (n < size vs)%N -> evec x (Z.of_nat n) = Ok (vec n).
Proof. exact: py_nthE. Qed.
Let ef n : (n < size vs)%N -> efreq x (Z.of_nat n) = Ok (fr n).
Proof. by rewrite -sizes; apply: py_nthE. Qed.

(** It is defined exactly when no denominator vanishes. *)
Theorem C49_defined m : (m < size vs)%N ->
  (exists dv, get_partial_vec s x c (Z.of_nat m) eps = Ok dv) <->
  (forall n, (n < size vs)%N -> n != m -> fr m - fr n + eps <> 0).
Proof.
move=> hm; split.
  move=> [dv E]; have [w [Ew H _]] := partial_vecE E (ev hm) grad.
  move: Ew; rewrite ef // => -[Ew] n hn nm; apply/eqP; rewrite Ew.
  by have [|_ H1] := H n hn; first by rewrite /skip; apply/negP => /Z.eqb_eq /Nat2Z.inj E1; case/eqP: nm.
move=> H; rewrite /get_partial_vec -/vs.
have -> : (size vs == 0%N) = false by case: (size vs) hm.
rewrite ev // grad ef //; cbn [bind]; apply: vec_fold_ok => n; rewrite mem_iota add0n => hn sn.
rewrite -/fs sizes; split=> //; apply/eqP/H => //.
by apply/negP => /eqP E; move: sn; rewrite /skip E Z.eqb_refl.
Qed.

Section Result.
Variables (m : nat) (dv : cvec).
Hypothesis hm : (m < size vs)%N.
Hypothesis result : get_partial_vec s x c (Z.of_nat m) eps = Ok dv.

Lemma vec_expansion i : dv i = \sum_(n < size vs | (n : nat) != m)
  dot N (vec n) (apply_to N (ent A) (vec m)) / (fr m - fr n + eps)%:C * vec n i.
Proof.
have [w [Ew _ ->]] := partial_vecE result (ev hm) grad; move: Ew; rewrite ef // => -[->].
apply: eq_bigl => n; rewrite /skip; congr (~~ _); apply/idP/eqP => [/Z.eqb_eq /Nat2Z.inj //|->].
by rewrite Z.eqb_refl.
Qed.

Lemma vec_coef n : (n < size vs)%N -> n != m ->
  dot N (vec n) dv = dot N (vec n) (apply_to N (ent A) (vec m)) / (fr m - fr n + eps)%:C.
Proof.
move=> hn nm.
rewrite (@dot_ext _ _ dv (fun i => \sum_(k < size vs | (k : nat) != m)
    (dot N (vec k) (apply_to N (ent A) (vec m)) / (fr m - fr k + eps)%:C) * vec k i)); last by move=> i _; apply: vec_expansion.
rewrite dot_sumr (bigD1 (Ordinal hn)) //= dotZr onb // eqxx mulr1 big1 ?addr0 // => k /andP [_ kn].
rewrite dotZr onb //; case: eqP => [E|]; last by rewrite mulr0.
by case/eqP: kn; apply: val_inj.
Qed.

Lemma vec_own : dot N (vec m) dv = 0.
Proof.
rewrite (@dot_ext _ _ dv (fun i => \sum_(k < size vs | (k : nat) != m)
    (dot N (vec k) (apply_to N (ent A) (vec m)) / (fr m - fr k + eps)%:C) * vec k i)); last by move=> i _; apply: vec_expansion.
rewrite dot_sumr big1 // => k km; rewrite dotZr onb //.
by rewrite eq_sym (negbTE km) mulr0.
Qed.

(** Orthogonal to the eigenvector, with the first-order coefficients on the
    others, and nothing outside their span. *)
Theorem C49_orthogonal : dot N (vec m) dv = 0.
Proof. exact: vec_own. Qed.
Theorem C49_coefficients n : (n < size vs)%N -> n != m ->
  dot N (vec n) dv = dot N (vec n) (apply_to N (ent A) (vec m)) / (fr m - fr n + eps)%:C.
Proof. exact: vec_coef. Qed.
Theorem C49_span u : (forall n, (n < size vs)%N -> dot N u (vec n) = 0) -> dot N u dv = 0.
Proof.
move=> H; rewrite (@dot_ext _ _ dv (fun i => \sum_(k < size vs | (k : nat) != m)
    (dot N (vec k) (apply_to N (ent A) (vec m)) / (fr m - fr k + eps)%:C) * vec k i)); last by move=> i _; apply: vec_expansion.
by rewrite dot_sumr big1 // => k km; rewrite dotZr H // mulr0.
Qed.

(** The true derivative, for any family of Hermitian matrices whose derivative
    is [A] and any differentiable eigenpair passing through this one. *)
Section True_derivative.
Variables (h : R -> nat -> nat -> C) (t0 : R) (v : R -> nat -> C) (w : R -> R) (dv' : nat -> C) (dw : R).
Hypothesis B : branch N h t0 v w dv' dw.
Hypothesis D : forall i j, (i < N)%N -> (j < N)%N -> cderiv (fun t => h t i j) t0 (ent A i j).
Hypothesis Hh : hermitian N (h t0).
Hypothesis pairs : forall n, (n < size vs)%N -> eigen N (h t0) (fr n) (vec n).
Hypothesis through : v t0 = vec m.
Hypothesis at_freq : w t0 = fr m.

(** Each coefficient is the true one up to the factor Delta / (Delta + epsilon). *)
Theorem C49_epsilon n : (n < size vs)%N -> n != m ->
  dot N (vec n) dv * (fr m - fr n + eps)%:C = dot N (vec n) dv' * (fr m - fr n)%:C.
Proof.
move=> hn nm; have nz := proj1 (C49_defined hm) (ex_intro _ _ result) n hn nm.
rewrite vec_coef // divfK; last first.
  by apply/eqP => E; apply: nz; apply: (congr1 (@complex.Re _) E).
have := branch_dot B D Hh (pairs hn); rewrite through at_freq onb // (negbTE nm) mulr0 add0r => ->.
by rewrite rmorphB /= mulrC.
Qed.

(** With epsilon = 0, all eigenvectors at hand and the phase of the branch fixed,
    it is the derivative. *)
Theorem C49_exact : eps = 0 -> size vs = N -> dot N (vec m) dv' = 0 ->
  forall i, (i < N)%N -> dv i = dv' i.
Proof.
move=> e0 full phase i hi; rewrite (resolution dv onb full hi) (resolution dv' onb full hi).
apply: eq_bigr => n _; congr (_ * _); case: (eqVneq (n : nat) m) => [->|nm].
  by rewrite -/(vec m) vec_own phase.
have nz := proj1 (C49_defined hm) (ex_intro _ _ result) n (ltn_ord n) nm; rewrite e0 addr0 in nz.
have /mulIf : (fr m - fr n)%:C != 0.
  by apply/eqP => E; apply: nz; apply: (congr1 (@complex.Re _) E).
by apply; have := C49_epsilon (ltn_ord n) nm; rewrite e0 addr0.
Qed.
End True_derivative.
End Result.

(** With a negative index, which Python accepts, the eigenvector itself is not
    left out: the result has the component slope / epsilon along it. *)
Theorem C49_negative_refuted m dv : (m < size vs)%N ->
  get_partial_vec s x c (Z.sub (Z.of_nat m) (Z.of_nat (size vs))) eps = Ok dv ->
  dot N (vec m) dv = dot N (vec m) (apply_to N (ent A) (vec m)) / eps%:C.
Proof.
move=> hm; set z := Z.sub _ _; have Hm : (m < size vs)%coq_nat by apply/ltP.
have zi (T : Type) (x0 : T) l : size l = size vs -> py_nth x0 l z = Ok (nth x0 l m).
  move=> El; rewrite /py_nth /np_row /py_index El /z.
  have -> : Z.leb 0 (Z.sub (Z.of_nat m) (Z.of_nat (size vs))) = false by apply/Z.leb_gt; lia.
  have -> : Z.add (Z.sub (Z.of_nat m) (Z.of_nat (size vs))) (Z.of_nat (size vs)) = Z.of_nat m by lia.
  by rewrite Zle_imp_le_bool ?Nat2Z.id //; apply: Zle_0_nat.
move=> E; have [w [Ew _ H]] := partial_vecE E (zi _ _ _ erefl) grad.
have {Ew} Ew : fr m = w by move: Ew; rewrite /efreq zi // => -[].
have sk n : skip z n by rewrite /skip /z; apply/negP => /Z.eqb_eq; lia.
rewrite (@dot_ext _ _ dv (fun i => \sum_(k < size vs | skip z k)
    (dot N (vec k) (apply_to N (ent A) (vec m)) / (fr m - fr k + eps)%:C) * vec k i)); last by move=> i _; rewrite H Ew.
rewrite dot_sumr (bigD1 (Ordinal hm)) //= dotZr onb // eqxx mulr1 subrr add0r big1 ?addr0 // => k /andP [_ kn].
rewrite dotZr onb //; case: eqP => [E1|]; last by rewrite mulr0.
by case/eqP: kn; apply: val_inj.
Qed.
End Vec.
Print Assumptions C49_defined.
Print Assumptions C49_orthogonal.
Print Assumptions C49_coefficients.
Print Assumptions C49_span.
Print Assumptions C49_epsilon.
Print Assumptions C49_exact.
Print Assumptions C49_negative_refuted.

(** ** C65 *)
Lemma branch_at N h t0 v w dv dw : branch N h t0 v w dv dw -> eigen N (h t0) (w t0) (v t0).
Proof.
by move=> /br_eigen [d [d0 H]]; apply: H; rewrite /Rminus Rplus_opp_r Rabs_R0.
Qed.

Lemma slope_dot N h P t0 v w dv dw : branch N h t0 v w dv dw ->
  (forall i j, (i < N)%N -> (j < N)%N -> cderiv (fun t => h t i j) t0 (P i j)) ->
  hermitian N (h t0) -> dot N (v t0) (v t0) = 1 ->
  dot N (v t0) (apply_to N P (v t0)) = dw%:C.
Proof.
move=> B D Hh n1; have := branch_dot B D Hh (branch_at B).
by rewrite n1 mulr1 subrr mul0r addr0.
Qed.

Section Omega.
Variables (s : store) (x : circ) (c : LCWB.comp) (b : option nat) (A : op).
Let N := dim A.
Hypothesis grad : partial_H s x c b = Ok (Some A).
Variables (h : R -> nat -> nat -> C) (t0 : R).
Hypothesis D : forall i j, (i < N)%N -> (j < N)%N -> cderiv (fun t => h t i j) t0 (ent A i j).
Hypothesis Hh : hermitian N (h t0).
Variables (v v0 : R -> nat -> C) (w w0 : R -> R) (dv dv0 : nat -> C) (dw dw0 : R).
Hypothesis B : branch N h t0 v w dv dw.
Hypothesis B0 : branch N h t0 v0 w0 dv0 dw0.
Hypothesis n1 : dot N (v t0) (v t0) = 1.
Hypothesis n0 : dot N (v0 t0) (v0 t0) = 1.

(** The reported slope is the derivative of the eigenvalue. *)
Theorem C65_absolute m : size (e_vecs (x_eig x)) <> 0%N -> evec x m = Ok (v t0) ->
  get_partial_omega s x c m false b = Ok dw.
Proof.
move=> /eqP/negbTE S E; rewrite /get_partial_omega S E grad; cbn [bind inner0].
by rewrite innerE (slope_dot B D).
Qed.
(** Relative to the ground state. *)
Theorem C65_relative m : size (e_vecs (x_eig x)) <> 0%N -> evec x m = Ok (v t0) -> evec x Z0 = Ok (v0 t0) ->
  get_partial_omega s x c m true b = Ok (dw - dw0).
Proof.
move=> /eqP/negbTE S E E0; rewrite /get_partial_omega S E grad; cbn [bind inner0]; rewrite E0; cbn [bind].
by rewrite !innerE (slope_dot B D) // (slope_dot B0 D) // -rmorphB.
Qed.
Theorem C65_difference m n : evec x m = Ok (v t0) -> evec x n = Ok (v0 t0) ->
  partial_omega_mn s x c m n b = Ok (dw - dw0).
Proof.
move=> E E0; rewrite /partial_omega_mn E E0 grad; cbn [bind inner0].
by rewrite !innerE (slope_dot B D) // (slope_dot B0 D) // -rmorphB.
Qed.
End Omega.
Print Assumptions C65_absolute.
Print Assumptions C65_relative.
Print Assumptions C65_difference.

(** ** The Hamiltonian of a circuit after any history of calls *)
Section Session.
Variables (disp : nat -> C -> op) (optim : bool) (o : oracle) (s0 : store) (lobj : nat -> lrec) (fd : string).
Variables (d : seq (edge * seq nat)) (x0 : circ) (u : ustate) (cs : seq call) (tr : seq (world * res unit)).
Hypothesis dims : forall m a, dim (disp m a) = m.
Hypothesis built_ok : construct optim o s0 lobj fd d = Some (Ok x0).
Hypothesis session : run disp optim (mkW s0 u x0) cs = Some tr.
Hypothesis updates : updates_ok optim (mkW s0 u x0) cs tr.
Let s := w_s (final (mkW s0 u x0) tr).
Let x := w_x (final (mkW s0 u x0) tr).
Variables (eigs : eigs_fun) (argsort : seq C -> seq nat) (k : option Z) (x1 : circ) (r : seq R * seq cvec) (H0 : op).
Hypothesis diagonalised : diag_sm eigs argsort u k s x = (x1, Ok r).
Hypothesis formed : (hamil s x).2 = Ok H0.
Variable c : LCWB.comp.
Hypothesis kind : match c with CLoop l => l \in c_loops (x_c x) | CEl el => ekind s el = KJJ end.

Let R1 : regular disp s x.
Proof. by apply: (session_regular built_ok session updates); exists H0. Qed.

Let N := dim H0.
Let grads A : partial_H s x1 c None = Ok (Some A) -> dim A = N.
Proof.
rewrite (C48_after_diag diagonalised).
have -> : N = total (hof x).
  by have [E _] := hamilE s (rg_good R1); move: formed; rewrite E => /(hamiltonian_ok dims) [].
move: kind; case: (c) => [el|l] Ek; [exact: (jj_dim dims R1 Ek) | exact: (loop_dim dims R1)].
Qed.

Let deriv A i j : partial_H s x1 c None = Ok (Some A) ->
  cderiv (fun t => ham_family s x c t i j) (comp_value s c) (ent A i j).
Proof.
rewrite (C48_after_diag diagonalised).
move: kind; case: (c) => [el|l] Ek EA.
  have [P [EP HP]] := C48_junction built_ok session updates formed Ek; rewrite -/s -/x in EP HP.
  rewrite EP in EA; case: EA HP => -> HP.
  apply: (@cd_ext (fun v => ent H0 i j + (v - evalue s el)%:C * ent A i j)).
    by move=> v; have [X [EX HX]] := HP v; rewrite /ham_family EX /= HX.
  rewrite -[X in cderiv _ _ X]add0r; apply: cd_add; first exact: cd_const.
  rewrite -[X in cderiv _ _ X]mul1r; apply: cd_scaler; apply: (@cd_real (fun v => v - evalue s el) _ 1).
  apply: hd_ext (hd_affine 0 (evalue s el) 1 _) => v.
  by rewrite (Rmult_1_r (Rminus v _)) Rplus_0_l.
have [_ [P [EP HP]]] := C48_loop built_ok session updates formed Ek; rewrite -/s -/x in EP HP.
by rewrite EP in EA; case: EA HP => -> HP; apply: HP.
Qed.

Let fam_herm t : hermitian N (ham_family s x c t).
Proof.
have Nt : N = total (hof x).
  by have [E _] := hamilE s (rg_good R1); move: formed; rewrite E => /(hamiltonian_ok dims) [].
move=> i j hi hj; rewrite /ham_family.
set s' := match c with CLoop l => with_flux s l t | CEl el => with_value s el t end.
have [A EA] : exists A, (hamil s' x).2 = Ok A by exact: (@hamil_ok disp s s' x (rg_good R1) (ex_intro _ H0 formed)).
rewrite EA /=; have [E _] := hamilE s' (rg_good R1); move: EA; rewrite E.
by move=> /(hamiltonian_ok dims) [dA [_ hA]]; apply: hA; rewrite dA -Nt.
Qed.

Section Branches.
Variables (v v0 : R -> nat -> C) (w w0 : R -> R) (dv dv0 : nat -> C) (dw dw0 : R).
Let t0 := comp_value s c.
Hypothesis B : branch N (ham_family s x c) t0 v w dv dw.
Hypothesis B0 : branch N (ham_family s x c) t0 v0 w0 dv0 dw0.
Hypothesis n1 : dot N (v t0) (v t0) = 1.
Hypothesis n0 : dot N (v0 t0) (v0 t0) = 1.

(** For every loop and junction, the reported slope is the derivative of the
    eigenfrequency of the circuit's Hamiltonian. *)
Theorem C65_session m sub q : evec x1 m = Ok (v t0) -> evec x1 Z0 = Ok (v0 t0) ->
  get_partial_omega s x1 c m sub None = Ok q -> q = if sub then dw - dw0 else dw.
Proof.
move=> E E0 H.
have S : size (e_vecs (x_eig x1)) <> 0%N by move: H; rewrite /get_partial_omega; case: eqP.
have [A EA] : exists A, partial_H s x1 c None = Ok (Some A).
  move: H; rewrite /get_partial_omega; case: ifP => // _; rewrite E; cbn [bind].
  by case: partial_H => [[A|]|] //; exists A.
have dA := grads EA.
have D i j : (i < dim A)%N -> (j < dim A)%N -> cderiv (fun t => ham_family s x c t i j) t0 (ent A i j).
  by move=> _ _; apply: deriv.
have Hh : hermitian (dim A) (ham_family s x c t0) by rewrite dA; apply: fam_herm.
move: B B0 n1 n0; rewrite -dA => B' B0' n1' n0'; move: H; case: sub.
  by rewrite (C65_relative EA D Hh B' B0' n1' n0' S E E0) => -[].
by rewrite (C65_absolute EA D Hh B' n1' S E) => -[].
Qed.

(** The reported eigenvector derivative agrees with that of the branch on every
    other computed state up to the factor Delta / (Delta + epsilon). *)
Theorem C49_session m dvm eps : let vs := e_vecs (x_eig x1) in let fr n := nth 0 (e_freqs (x_eig x1)) n in
  let vec n := nth (fun=> 0) vs n in
  size (e_freqs (x_eig x1)) = size vs -> orthonormal N vs -> (1 < size vs)%N -> (m < size vs)%N ->
  (forall n, (n < size vs)%N -> eigen N (ham_family s x c t0) (fr n) (vec n)) ->
  v t0 = vec m -> w t0 = fr m -> get_partial_vec s x1 c (Z.of_nat m) eps = Ok dvm ->
  dot N (vec m) dvm = 0 /\ forall n, (n < size vs)%N -> n != m ->
    dot N (vec n) dvm * (fr m - fr n + eps)%:C = dot N (vec n) dv * (fr m - fr n)%:C.
Proof.
move=> vs fr vec S O S1 hm pairs Ev Ew H.
have [A EA] : exists A, partial_H s x1 c None = Ok (Some A).
  move: H; rewrite /get_partial_vec; case: ifP => // _; rewrite /evec py_nthE //; cbn [bind].
  case: partial_H => [[A|]|] //; first by exists A.
  rewrite /efreq py_nthE ?S //; cbn [bind] => /vec_fold [a [_ H1 _]]; exfalso.
  have [n [hs hn]] : exists n, (n < size vs)%N /\ skip (Z.of_nat m) n.
    exists (if m == 0%N then 1 else 0)%N; rewrite /skip.
    case: (eqVneq m 0%N) => [->|m0]; split=> //; first exact: leq_ltn_trans S1.
    by apply/negP => /Z.eqb_eq E; case/eqP: m0; apply: Nat2Z.inj.
  by have [|//] := H1 n _ hn; rewrite mem_iota.
have dA := grads EA; move: B O pairs; rewrite -dA => B' O pairs.
have D i j : (i < dim A)%N -> (j < dim A)%N -> cderiv (fun t => ham_family s x c t i j) t0 (ent A i j).
  by move=> _ _; apply: deriv.
have Hh : hermitian (dim A) (ham_family s x c t0) by rewrite dA; apply: fam_herm.
split; first exact: (C49_orthogonal EA S O hm H).
by move=> n hn nm; apply: (C49_epsilon EA S O hm H B' D Hh pairs Ev Ew hn nm).
Qed.
End Branches.
End Session.
Print Assumptions C65_session.
Print Assumptions C49_session.

(** Case: the eigenvector of a rotating two-level Hamiltonian.  Its derivative at
    angle 0 is half of the other state, which is what C49 gives for levels 1, -1. *)
Definition rot_h (t : R) (i j : nat) : C :=
  (match i, j with
   | O, O => cos t | S O, S O => - cos t | O, S O => sin t | S O, O => sin t | _, _ => 0 end)%:C.
Definition rot_v (t : R) (i : nat) : C := (match i with O => hcos t | _ => hsin t end)%:C.
Definition rot_P (i j : nat) : C := if i == j then 0 else 1.
Definition rot_dv (i : nat) : C := if i == 0%N then 0 else onehalf%:C.
Example C49_rotating :
  [/\ branch 2 rot_h 0 rot_v (fun=> 1) rot_dv 0, hermitian 2 (rot_h 0),
      forall i j, (i < 2)%N -> (j < 2)%N -> cderiv (fun t => rot_h t i j) 0 (rot_P i j),
      eigen 2 (rot_h 0) (-1) (fun i => if i == 1%N then 1 else 0) &
      dot 2 (fun i => if i == 1%N then 1 else 0) (apply_to 2 rot_P (rot_v 0)) / (1 - (-1))%:C = rot_dv 1].
Proof.
split.
- split=> [|i|]; last exact: hd_const.
  + exists R1; split=> [|t _]; first exact: Rlt_0_1.
    move=> [|[|//]] _; rewrite /apply_to 2!big_ord_recl big_ord0 addr0 /= -!rmorphM -rmorphD /=.
      by congr (_%:C); apply: rot1.
    by congr (_%:C); apply: rot2.
  + case: i => [|[|//]] _; apply: cd_real; [exact: hd_hcos0 | exact: hd_hsin0].
- by move=> [|[|//]] [|[|//]] _ _ /=; rewrite oppr0.
- move=> [|[|//]] [|[|//]] _ _; apply: cd_real; [exact: hd_cos0 | exact: hd_sin0 | exact: hd_sin0 | exact: hd_mcos0].
- move=> [|[|//]] _; rewrite /apply_to 2!big_ord_recl big_ord0 addr0 /= ?mulr0 ?mulr1 ?add0r.
    by congr (_%:C); apply: sin_0.
  by rewrite -[rot_h 0 1 (bump 0 0)]/((- cos 0)%:C) cos_0.
- rewrite /dot 2!big_ord_recl big_ord0 /apply_to 2!big_ord_recl big_ord0.
  rewrite [X in _ + (_ * X + _)]big_ord_recl [X in _ + (_ * (_ + X) + _)]big_ord_recl big_ord0.
  rewrite /= /rot_P /rot_v /= hcos0 hsin0 oppr0 -[Complex 0 0]/(0 : C) -[Complex 1 0]/(1 : C).
  rewrite !mul0r !mul1r !addr0 add0r opprK /rot_dv /=.
  rewrite -fmorphV /= -rmorphM /=; congr (_%:C); rewrite -RinvE.
  by rewrite /onehalf /Rdiv.
Qed.

(** EigGradProofs.v -- the slope of a loss along the levels of a Hamiltonian. *)
From Coq Require Import Reals ZArith String Lra.
From Verif.Spec Require Import ThermalSpec.
From Verif.Proofs Require Import ThermalProofs CDeriv.
From Verif.Model Require Import Base Edge Elements LCWB.
From mathcomp Require Import all_ssreflect all_algebra.
From mathcomp Require Import complex.
From Verif.Numerics Require Import RStruct Bridge.
From Verif.Model Require Import Op Ham Diag CircuitSM.
From Verif.Spec Require Import GradSpec PerturbSpec RateGradSpec EigGradSpec.
From Verif.Proofs Require Import PerturbProofs PerturbProofs2 SecondOrder PhaseMulti.
From Verif.Properties Require Import P_Perturb.

Set Implicit Arguments.
Unset Strict Implicit.
Unset Printing Implicit Defensive.
Import GRing.Theory.
Local Open Scope ring_scope.
Local Open Scope complex_scope.

Lemma pick_all (T : Type) (y0 : T) (Q : nat -> T -> Prop) M : (forall k, (k < M)%N -> exists y, Q k y) ->
  exists f, forall k, (k < M)%N -> Q k (f k).
Proof.
elim: M => [|M IH] H; first by exists (fun=> y0).
have [|f Hf] := IH; first by move=> k hk; apply: H; apply: ltnW.
have [y Hy] := H M (ltnSn M); exists (fun k => if k == M then y else f k) => k hk.
by case: (eqVneq k M) => [->//|kM]; apply: Hf; rewrite ltn_neqAle kM -ltnS.
Qed.
Lemma near_all t0 (Q : nat -> R -> Prop) M : (forall k, (k < M)%N -> near t0 (Q k)) ->
  near t0 (fun t => forall k, (k < M)%N -> Q k t).
Proof.
elim: M => [|M IH] H; first by exists 1; split; [exact: Rlt_0_1|].
have := near_and (IH (fun k hk => H k (ltnW hk))) (H M (ltnSn M)); apply: near_mono => t [H1 H2] k hk.
by case: (eqVneq k M) => [->//|kM]; apply: H1; rewrite ltn_neqAle kM -ltnS.
Qed.

Section Response.
Variables (N : nat) (h : R -> nat -> nat -> C) (t0 : R) (P : nat -> nat -> C) (full : eigres) (m : nat).
Variables (v : R -> nat -> C) (w : R -> R) (dv : nat -> C) (dw : R).
Hypothesis D : forall i j, (i < N)%N -> (j < N)%N -> cderiv (fun t => h t i j) t0 (P i j).
Hypothesis Hh : hermitian N (h t0).
Hypothesis all_levels : complete N (h t0) full.
Hypothesis simple : simple_level N full m.
Hypothesis hm : (m < N)%N.
Let vec k := nth (fun=> 0) (e_vecs full) k.
Let fr k := nth 0 (e_freqs full) k.
Hypothesis B : branch N h t0 v w dv dw.
Hypothesis through : forall i, (i < N)%N -> v t0 i = vec m i.
Hypothesis at_freq : w t0 = fr m.

(** A branch moves along the first-order response, and along itself. *)
Lemma branch_response i : (i < N)%N ->
  dv i = vec_response N N vec fr 0 P m i + dot N (vec m) dv * vec m i.
Proof.
move=> hi; have [_ _ sv onb pairs] := all_levels.
rewrite (resolution dv onb sv hi) sv (bigD1 (Ordinal hm)) //= addrC; congr (_ + _).
apply: eq_big => [k|k km]; first by rewrite -val_eqE.
have km' : (k : nat) != m by rewrite -val_eqE in km.
congr (_ * _); have nz : (fr m - fr k + 0)%:C != 0.
  rewrite addr0; apply/eqP => E0; apply: (simple (ltn_ord k) km').
  by apply/eqP; rewrite -subr_eq0; apply/eqP; apply: (congr1 (@complex.Re _) E0).
apply: (mulIf nz); rewrite divfK // sandwichE.
have := branch_dot B D Hh (pairs k (ltn_ord k)); rewrite at_freq.
rewrite (dot_ext _ (fun i (hi : (i < N)%N) => apply_ext P i through)) -/(vec k).
rewrite (dot_ext _ through) onb ?sv // (negbTE km') mulr0 add0r => ->.
by rewrite addr0 rmorphB /= mulrC.
Qed.
End Response.

Section Loss.
Variables (N M K : nat) (h : R -> nat -> nat -> C) (t0 : R) (P : nat -> nat -> C) (e : R -> eigres) (full : eigres).
Hypothesis D : forall i j, (i < N)%N -> (j < N)%N -> cderiv (fun t => h t i j) t0 (P i j).
Hypothesis Hh : hermitian N (h t0).
Hypothesis all_levels : complete N (h t0) full.
Hypothesis stored : e t0 = first_levels K full.
Hypothesis MK : (M <= K)%N.
Hypothesis KN : (K <= N)%N.
Hypothesis fol : forall k, (k < M)%N -> followed N h t0 e k.
Hypothesis simple : forall k, (k < M)%N -> simple_level N full k.
Let vec k := nth (fun=> 0) (e_vecs full) k.
Let fr k := nth 0 (e_freqs full) k.
Variables (loss : R -> loss_fun) (gdir : R) (gval : nat -> C) (gvec : nat -> nat -> C).
Hypothesis looks : forall t, looks_at M N (loss t).
Hypothesis free : forall t, phase_free M (loss t).
Hypothesis grads : gradients M N loss t0 fr vec gdir gval gvec.

Let vecE k : (k < M)%N -> nth (fun=> 0) (e_vecs (e t0)) k = vec k.
Proof. by move=> hk; rewrite stored /= nth_take // (leq_trans hk). Qed.
Let frE k : (k < M)%N -> nth 0 (e_freqs (e t0)) k = fr k.
Proof. by move=> hk; rewrite stored /= nth_take // (leq_trans hk). Qed.

(** The gradient has no component along a change of phases. *)
Lemma phase_flat (al : nat -> R) : \sum_(k < M) complex.Re (\sum_(i < N) 'i * (al k)%:C * vec k i * (gvec k i)^*) = 0.
Proof.
pose g t := loss t (fun k => fr k) (fun k i => expi (al k * (t - t0)) * vec k i).
have H : has_derivative g t0
   (gdir + \sum_(k < M) complex.Re (0%:C * (gval k)^* + \sum_(i < N) 'i * (al k)%:C * vec k i * (gvec k i)^*)).
  have L k : has_derivative (fun t => al k * (t - t0)) t0 (al k).
    apply: hd_eq (hd_scal _ _ _ _ (hd_add _ _ _ _ _ (hd_id t0) (hd_const (- t0) t0))) _.
    by rewrite [Rplus _ _]Rplus_0_r; exact: Rmult_1_r.
  have E0 k : expi (al k * (t0 - t0)) = 1 by rewrite [Rminus _ _]Rminus_eq_0 [Rmult _ _]Rmult_0_r /expi cos_0 sin_0.
  apply: (@grads (fun k _ => fr k) (fun k t i => expi (al k * (t - t0)) * vec k i) (fun=> 0)
           (fun k i => 'i * (al k)%:C * vec k i)) => //.
  - by move=> k i _ _; rewrite E0 mul1r.
  - by move=> k _; exact: hd_const.
  - move=> k i _ _; apply: cd_scaler; apply: cd_eq (cd_expi (L k)) _; by rewrite E0 mulr1.
have H0 : has_derivative g t0
   (gdir + \sum_(k < M) complex.Re (0%:C * (gval k)^* + \sum_(i < N) 0 * (gvec k i)^*)).
  apply: hd_ext (@grads (fun k _ => fr k) (fun k _ => vec k) (fun=> 0) (fun _ _ => 0) _ _ _ _) => //.
  - by move=> t; rewrite /g free // => k _; rewrite mulrC; exact: expi_norm.
  - by move=> k _; exact: hd_const.
  - by move=> k i _ _; exact: cd_const.
have := Rplus_eq_reg_l _ _ _ (has_derivative_unique _ _ _ _ H H0).
rewrite [X in _ = X]big1; last by move=> k _; rewrite mul0r add0r big1 // => i _; rewrite mul0r.
by move=> E; rewrite -[RHS]E; apply: eq_bigr => k _; rewrite mul0r add0r.
Qed.

Lemma loss_slope : has_derivative (fun t => loss_of (loss t) (e t)) t0
  (gdir + \sum_(k < M) complex.Re ((complex.Re (sandwich N (vec k) P (vec k)))%:C * (gval k)^* +
     \sum_(i < N) vec_response N N vec fr 0 P k i * (gvec k i)^*)).
Proof.
pose Q k (y : (R -> nat -> C) * (R -> R) * (nat -> C) * R) :=
  [/\ branch N h t0 y.1.1.1 y.1.1.2 y.1.2 y.2, near t0 (fun t => dot N (y.1.1.1 t) (y.1.1.1 t) = 1),
  near t0 (fun t => up_to_phase N (e t) k (y.1.1.1 t)) & near t0 (fun t => y.1.1.2 t = nth 0 (e_freqs (e t)) k)].
have [f Hf] : exists f, forall k, (k < M)%N -> Q k (f k).
  apply: (@pick_all _ (fun=> fun=> 0, fun=> 0, fun=> 0, 0)) => k /fol [v [w [dv [dw H]]]].
  by exists (v, w, dv, dw).
pose v k := (f k).1.1.1; pose w k := (f k).1.1.2; pose dv k := (f k).1.2; pose dw k := (f k).2.
have F k : (k < M)%N -> [/\ branch N h t0 (v k) (w k) (dv k) (dw k), near t0 (fun t => dot N (v k t) (v k t) = 1),
    near t0 (fun t => up_to_phase N (e t) k (v k t)) & near t0 (fun t => w k t = nth 0 (e_freqs (e t)) k)].
  exact: Hf.
have [z Hz] : exists z : nat -> C, forall k, (k < M)%N -> (z k)^* * z k = 1 /\
    forall i, (i < N)%N -> vec k i = z k * v k t0 i.
  apply: (@pick_all _ 0 (fun k z => z^* * z = 1 /\ forall i, (i < N)%N -> vec k i = z * v k t0 i)) => k hk.
  have [_ _ /near_at [_ [z [z1 Ez]]] _] := F k hk.
  by exists z; split=> // i hi; rewrite -vecE // Ez.
have B k : (k < M)%N -> branch N h t0 (fun t i => z k * v k t i) (w k) (fun i => z k * dv k i) (dw k).
  move=> hk; have [[[d [d0 H1]] H2 H3] _ _ _] := F k hk; split=> //.
    by exists d; split=> // t /H1 H i hi; rewrite applyZ H // mulrCA.
  by move=> i hi; apply: cd_scale; apply: H2.
have n1 k : (k < M)%N -> near t0 (fun t => dot N (fun i => z k * v k t i) (fun i => z k * v k t i) = 1).
  move=> hk; have [_ nrm _ _] := F k hk; have [z1 _] := Hz k hk.
  by apply: near_mono nrm => t; rewrite dotZl dotZr mulrA z1 mul1r.
have wE k : (k < M)%N -> w k t0 = fr k by move=> hk; have [_ _ _ /near_at ->] := F k hk; apply: frE.
(* the loss along the branches *)
have S := grads (w := w) (v := fun k t i => z k * v k t i) (dw := dw) (dv := fun k i => z k * dv k i) wE
  (fun k i hk hi => esym (proj2 (Hz k hk) i hi)) (fun k hk => br_val (B k hk)) (fun k i hk hi => br_vec (B k hk) hi).
have [r [r0 Hr]] : near t0 (fun t => forall k, (k < M)%N -> up_to_phase N (e t) k (v k t) /\ w k t = nth 0 (e_freqs (e t)) k).
  by apply: near_all => k /F [_ _ h1 h2]; exact: near_and.
apply: hd_eq (hd_near _ _ _ _ _ r0 _ S) _.
  move=> t /Hr H; rewrite /loss_of.
  have [y Hy] : exists y : nat -> C, forall k, (k < M)%N -> (y k)^* * y k = 1 /\
      forall i, (i < N)%N -> nth (fun=> 0) (e_vecs (e t)) k i = y k * v k t i.
    apply: (@pick_all _ 0 (fun k y => y^* * y = 1 /\ forall i, (i < N)%N ->
      nth (fun=> 0) (e_vecs (e t)) k i = y * v k t i)) => k /H [[_ [y Y]] _].
    by exists y.
  rewrite [RHS](@looks t _ (fun k => w k t) _ (fun k i => y k * v k t i)); first last.
  - by move=> k i hk hi; exact: (proj2 (Hy k hk)).
  - by move=> k /H [_ <-].
  rewrite [RHS]free; last by move=> k /Hy [].
  by rewrite (@free t _ _ z) // => k /Hz [].
have slope k (hk : (k < M)%N) : dw k = complex.Re (sandwich N (vec k) P (vec k)).
  have [_ Ez] := Hz k hk; have E i (hi : (i < N)%N) : z k * v k t0 i = vec k i by rewrite Ez.
  rewrite sandwichE -(dot_ext2 E (fun i (hi : (i < N)%N) => apply_ext P i E)).
  by rewrite (slope_dot (B k hk) D) //; exact: (near_at (n1 k hk)).
pose al k := complex.Im (dot N (vec k) (fun i => z k * dv k i)).
have along k (hk : (k < M)%N) : dot N (vec k) (fun i => z k * dv k i) = 'i * (al k)%:C.
  have [_ Ez] := Hz k hk; have E i (hi : (i < N)%N) : vec k i = z k * v k t0 i by rewrite Ez.
  have R0 := norm_slope (br_vec (B k hk)) (n1 k hk).
  have : complex.Re (dot N (vec k) (fun i => z k * dv k i)) = 0 by rewrite (dot_extl _ E).
  by rewrite /al; case: (dot _ _ _) => a b /= ->; simpc.
congr (_ + _); transitivity (\sum_(k < M) complex.Re ((complex.Re (sandwich N (vec k) P (vec k)))%:C * (gval k)^* +
     \sum_(i < N) vec_response N N vec fr 0 P k i * (gvec k i)^*) +
   \sum_(k < M) complex.Re (\sum_(i < N) 'i * (al k)%:C * vec k i * (gvec k i)^*)); last by rewrite phase_flat addr0.
rewrite -big_split /=; apply: eq_bigr => k _; rewrite -ReD -addrA -big_split /= slope //.
congr (complex.Re (_ + _)); apply: eq_bigr => i _; rewrite -mulrDl; congr (_ * _).
have hk := ltn_ord k; have [_ Ez] := Hz k hk.
rewrite -along //; apply: (branch_response D Hh all_levels (simple hk) _ (B k hk)) => //.
- exact: leq_trans hk (leq_trans MK KN).
- by move=> j hj; rewrite -Ez.
- exact: wE.
Qed.
End Loss.

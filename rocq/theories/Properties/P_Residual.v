(** P_Residual.v -- C108: what diag returns when the eigensolver answers only up to a residual. *)
From Coq Require Import Reals ZArith Lra String FunctionalExtensionality.
From Verif.Model Require Import Base Units Settings Edge Elements LCWB Accuracy HamConst.
Lemma square_root_le (m e : R) : (0 <= e -> m * m <= e * e -> m <= e)%R.
Proof. intros e0 h. destruct (Rle_or_lt m e); auto. assert (e * e < m * m)%R by (apply Rmult_le_0_lt_compat; lra). lra. Qed.
Lemma from_below (a b e : R) : (Rabs (a - b) <= e -> a <= b + e)%R.
Proof. intros. assert (a - b <= e)%R by (eapply Rle_trans; [apply RRle_abs|auto]). lra. Qed.
Lemma move_right (a b e : R) : (a - b <= e -> a <= b + e)%R. Proof. lra. Qed.
Lemma jensen_le (s m e : R) : (0 <= s - m * m - (m * m - m * m * 1) -> s <= e -> m * m <= e)%R. Proof. lra. Qed.
Lemma square_apart (g x : R) : (0 <= g -> g <= Rabs x -> g * g <= x * x)%R.
Proof.
  intros g0 h. assert (g * g <= Rabs x * Rabs x)%R by (apply Rmult_le_compat; lra).
  rewrite <- Rabs_mult, Rabs_right in H by (apply Rle_ge; apply Rle_0_sqr). exact H.
Qed.
Lemma tenth : (0 <= / 10)%R. Proof. lra. Qed.
Lemma tenth_off : (0 + (1 - 11 / 10) * (1 - 11 / 10) <= / 10 * / 10)%R. Proof. lra. Qed.

From mathcomp Require Import all_ssreflect all_algebra.
From mathcomp Require Import complex ring.
From Verif.Numerics Require Import RStruct Bridge.
From Verif.Model Require Import Op Transform Ham Diag CircuitSM.
From Verif.Spec Require Import OpSpec EigSpec SessionSpec PerturbSpec LevelsSpec LowestSpec FanSpec ResidualSpec.
From Verif.Proofs Require Import OpProofs HamProofs HamProofs2 MinMaxProofs OrderProofs FanProofs ResidualProofs.
From Verif.Proofs Require Import SMProofs SMProofs2 SMProofs3.
From Verif.Properties Require Import P_Diag.

Set Implicit Arguments.
Unset Strict Implicit.
Unset Printing Implicit Defensive.
Import GRing.Theory.
Local Open Scope ring_scope.
Local Open Scope complex_scope.

(** A vector that solves the eigenvalue equation up to a residual: an exact energy is within the
    residual of the real part of its value. *)
Theorem C108_near A E z u eps : Rle 0 eps -> energies A E -> near_pair eps A z u ->
  exists2 k, (k < dim A)%N & Rle (Rabs (Rminus (E k) (complex.Re z))) eps.
Proof. move=> e0 [v L] N; exact: near_level L _ e0 N. Qed.
Print Assumptions C108_near.

Lemma spread_ring (a b c : R) : a * (b * b) - c * (a * b) - (c * (a * b) - c * c * a) = a * ((b - c) * (b - c)).
Proof. ring. Qed.
(** Its expectation value is within the residual, too. *)
Lemma expect_near A E (f : R) u eps : Rle 0 eps -> energies A E -> weight (dim A) u = 1 ->
  near_pair eps A f%:C u -> Rle (expect A u) (Rplus f eps).
Proof.
move=> e0 [v L] w1 [_ r]; rewrite w1 Rmult_1_r (residual_levels _ _ L) in r; rewrite (weight_levels u L) in w1.
rewrite (expect_levels u L); apply: move_right; apply: square_root_le => //.
set p := fun i => nrm (PerturbSpec.dot (dim A) (v i) u) in w1 *; set m := Rminus _ _.
have mE : m = \sum_(i < dim A) p i * (E i - f).
  rewrite /m RminusE; transitivity (\sum_(i < dim A) p i * E i - f * \sum_(i < dim A) p i); first by rewrite w1 mulr1.
  by rewrite mulr_sumr -sumrB; apply: eq_bigr => i _; rewrite mulrBr [f * _]mulrC.
have r' : Rle (\sum_(i < dim A) p i * ((E i - f) * (E i - f))) (Rmult eps eps).
  apply: Rle_trans r; apply: Req_le; apply: eq_bigr => i _; rewrite shift_nrm ReR (_ : complex.Im _%:C = 0) //.
  by rewrite Rmult_0_l Rplus_0_r mulrC.
apply: jensen_le r'; rewrite [Rmult m m]RmultE.
have -> : Rminus (Rminus (\sum_(i < dim A) p i * ((E i - f) * (E i - f))) (m * m)) (Rminus (m * m) (Rmult (m * m) 1)) =
  \sum_(i < dim A) p i * ((E i - f - m) * (E i - f - m)).
  rewrite Rmult_1_r !RminusE.
  transitivity (\sum_(i < dim A) p i * ((E i - f) * (E i - f)) - (m * \sum_(i < dim A) p i * (E i - f)) -
     (m * (\sum_(i < dim A) p i * (E i - f)) - m * m * \sum_(i < dim A) p i)).
    by rewrite w1 -mE mulr1.
  by rewrite !mulr_sumr -!sumrB; apply: eq_bigr => i _; exact: spread_ring.
apply/RleP; apply: Num.Theory.sumr_ge0 => i _; apply: Num.Theory.mulr_ge0; first exact: nrm_ge0.
by rewrite -expr2 Num.Theory.sqr_ge0.
Qed.

Section Solver.
Variables (eigs : eigs_fun) (argsort : seq C -> seq nat) (A : op) (k : Z) (r : eigres) (E : nat -> R) (eps : R).
Hypothesis eps0 : Rle 0 eps.
Hypothesis order : sorts argsort.
Hypothesis solver : near_solver eps eigs A k.
Hypothesis HE : energies A E.
Hypothesis ran : diag_np eigs argsort A k = Ok r.

(** Every pair diag keeps, with its real value, has the residual of the solver's answer, and an
    exact energy is within it. *)
Theorem C108_diag i : (i < size (e_freqs r))%N ->
  near_pair eps A (nth 0 (e_freqs r) i)%:C (nth (fun=> 0) (e_vecs r) i) /\
  exists2 j, (j < dim A)%N & Rle (Rabs (Rminus (E j) (nth 0 (e_freqs r) i))) eps.
Proof.
have [lam [V [ncv [El [_ [_ [p [Hp [s1 [s2 Hn]]]]]]]]]] := C40_pairing order ran.
rewrite s1 => hi; have [-> Hv] := Hn i hi.
have hp : (nth 0%N p i < size lam)%N.
  have : nth 0%N p i \in iota 0 (size lam).
    by rewrite -(perm_mem Hp) mem_nth // (perm_size Hp) size_iota.
  by rewrite mem_iota add0n.
have -> : nth (fun=> 0) (e_vecs r) i = fun x => V x (nth 0%N p i) by apply: functional_extensionality.
have N := solver El hp; split; first exact: near_real HE N.
exact: C108_near eps0 HE N.
Qed.

(** No returned value is more than the residual under the lowest energy. *)
Theorem C108_bottom i : (i < size (e_freqs r))%N -> Rle (E 0%N) (Rplus (nth 0 (e_freqs r) i) eps).
Proof.
move=> hi; have [_ [j hj n]] := C108_diag hi; apply: Rle_trans _ (@from_below _ _ _ n); have [v [As _ _]] := HE.
by apply: As; rewrite leq0n hj.
Qed.

(** If the vectors are orthonormal, the returned values add up to at least the sum of as many
    lowest energies, less the residual for each. *)
Theorem C108_sum (n := size (e_freqs r)) : (n <= dim A)%N ->
  orthonormal (dim A) n (fun i => nth (fun=> 0) (e_vecs r) i) ->
  Rle (lowest_sum n E) (Rplus (\sum_(i < n) nth 0 (e_freqs r) i) (Rmult (INR n) eps)).
Proof.
move=> nN U; have F := fan_few HE U nN; apply: Rle_trans (_ : Rle _ (\sum_(i < n) Rplus (nth 0 (e_freqs r) i) eps)) _.
  apply: Rle_trans (_ : Rle _ (\sum_(i < n) expect A (nth (fun=> 0) (e_vecs r) i))) _; first exact/RleP.
  apply/RleP; apply: Num.Theory.ler_sum => i _; apply/RleP.
  have [N _] := C108_diag (ltn_ord i : (i < size (e_freqs r))%N).
  by apply: expect_near eps0 HE _ N; rewrite /weight U // eqxx.
apply: Req_le; rewrite RplusE RmultE big_split /= sumr_const card_ord; congr (_ + _).
elim: (n) => [|m IH]; first by rewrite mul0r.
by rewrite S_INR RplusE mulrDl mul1r mulrSr IH.
Qed.

(** If every other energy is at least [g] away from a returned value, the part of its vector
    outside the exact eigenstate has squared length at most (eps / g)^2 of the whole. *)
Theorem C108_state v j0 g i (u := nth (fun=> 0) (e_vecs r) i) : levels_of A E v -> Rle 0 g ->
  (i < size (e_freqs r))%N -> (j0 < dim A)%N ->
  (forall j, (j < dim A)%N -> j != j0 -> Rle g (Rabs (Rminus (E j) (nth 0 (e_freqs r) i)))) ->
  Rle (Rmult (Rmult g g) (Rminus (weight (dim A) u) (nrm (PerturbSpec.dot (dim A) (v j0) u))))
      (Rmult (Rmult eps eps) (weight (dim A) u)).
Proof.
move=> L g0 hi hj far; have [[_ n] _] := C108_diag hi; apply: Rle_trans n.
rewrite (residual_levels _ _ L) (weight_levels _ L) -/u !RmultE RminusE; apply/RleP.
rewrite (bigD1 (Ordinal hj)) //= [X in _ <= X](bigD1 (Ordinal hj)) //= addrAC subrr add0r mulr_sumr.
rewrite -[X in X <= _]add0r; apply: Num.Theory.ler_add.
  by apply: Num.Theory.mulr_ge0; exact: nrm_ge0.
apply: Num.Theory.ler_sum => j nj; apply: Num.Theory.ler_wpmul2r; first exact: nrm_ge0.
rewrite shift_nrm ReR (_ : complex.Im _%:C = 0) // Rmult_0_l Rplus_0_r; apply/RleP; apply: (@square_apart) => //.
exact: far.
Qed.
End Solver.
Print Assumptions C108_state.
Print Assumptions C108_diag.
Print Assumptions C108_bottom.
Print Assumptions C108_sum.

(** The frequencies diag returns for a circuit, in the frequency unit. *)
Theorem C108_returned disp h val loops B ks eigs argsort u A (k : Z) old r fr ve eps :
  (forall m a, dim (disp m a) = m) -> hamiltonian disp h val loops B ks = Ok A -> Rle 0 eps -> sorts argsort ->
  near_solver eps eigs A k -> get_unit_freq u <> 0 ->
  diag eigs argsort u true (Ok A) (Some k) old = (r, Ok (fr, ve)) -> exists2 E, energies A E &
  forall i, (i < size fr)%N ->
    exists2 j, (j < dim A)%N & Rle (Rabs (Rminus (E j) (Rmult (nth 0 fr i) (unit_rad u)))) eps.
Proof.
move=> D EA e0 order S uz dg; have [_ hA] := hamiltonian_ok D EA; have [E HE] := energies_exist hA; exists E => // i hi.
have [_ [_ [sz back]]] := C41_returned dg.
have [x|//] := back i hi; have ran : diag_np eigs argsort A k = Ok r.
  by move: dg; rewrite /diag /=; case: diag_np => [r'|e] // -[<- _ _].
rewrite sz in hi; have [_ [j hj n]] := C108_diag e0 order S HE ran hi; exists j => //.
by move: x; rewrite /unit_rad -RmultE => ->.
Qed.
Print Assumptions C108_returned.

(** Diagonalising after any session. *)
Section Session.
Variables (disp : nat -> C -> op) (optim : bool) (o : oracle) (s0 : store) (lobj : nat -> lrec) (fd : string).
Variables (d : seq (edge * seq nat)) (x0 : circ) (u : ustate) (cs : seq call) (tr : seq (world * res unit)).
Hypothesis dims : forall m a, dim (disp m a) = m.
Hypothesis built_ok : construct optim o s0 lobj fd d = Some (Ok x0).
Hypothesis session : run disp optim (mkW s0 u x0) cs = Some tr.
Hypothesis updates : updates_ok optim (mkW s0 u x0) cs tr.
Let x := w_x (final (mkW s0 u x0) tr).

Theorem C108_session s u' eigs argsort k x1 fr ve eps : Rle 0 eps -> sorts argsort ->
  (forall A, (hamil s x).2 = Ok A -> near_solver eps eigs A k) -> get_unit_freq u' <> 0 ->
  diag_sm eigs argsort u' (Some k) s x = (x1, Ok (fr, ve)) ->
  exists A E, [/\ (hamil s x).2 = Ok A, energies A E & forall i, (i < size fr)%N ->
    exists2 j, (j < dim A)%N & Rle (Rabs (Rminus (E j) (Rmult (nth 0 fr i) (unit_rad u')))) eps].
Proof.
have G : good disp x.
  exact: good_run (good_construct disp built_ok : good disp (w_x (mkW s0 u x0))) session updates.
move=> e0 order S uz; rewrite /diag_sm; case: ifP => // _.
have [eH _] := hamilE s G; case EH: (hamil s x) => [x2 H] /=; rewrite EH /= in eH S.
case: H eH S EH => [A|e] eH S EH; last by rewrite /diag.
case dg: diag => [r b] [_ eb]; rewrite eb in dg.
have [E HE near] := C108_returned dims (esym eH) e0 order (S A erefl) uz dg.
by exists A, E.
Qed.
End Session.
Print Assumptions C108_session.

(** Case: H = diag(2, 1) and a solver that answers 11/10 with the second basis vector: one tenth
    off, so an energy is within one tenth of the returned value. *)
Definition rough : eigs_fun := fun _ _ _ => EigsOk [:: (Rdiv 11 10)%:C] (fun i _ => if i == 1%N then 1 else 0).
Example C108_case : near_solver (Rinv 10) rough case_H 1 /\ exists r E, [/\ diag_np rough argsort0 case_H 1 = Ok r,
  e_freqs r = [:: Rdiv 11 10], energies case_H E & exists2 j, (j < 2)%N & Rle (Rabs (Rminus (E j) (Rdiv 11 10))) (Rinv 10)].
Proof.
have S : near_solver (Rinv 10) rough case_H 1.
  have w : weight (dim case_H) (fun x => if x == 1%N then 1 else 0 : C) = R1.
    rewrite /weight Re_sum big_ord_recl big_ord1 !nrmE !ReR -[X in nrm X + _]/0 nrm0 -[X in nrm X]/1.
    have n1 : nrm 1 = 1 by apply: complexI; rewrite -nrmE cj1 mulr1.
    by rewrite n1 add0r.
  move=> ncv lam V [<- <-] [|i] // _; split; first by rewrite [weight _ _]w; exact: Rlt_0_1.
  have e0 : residual case_H (Rdiv 11 10)%:C (fun x => if x == 1%N then 1 else 0) 0%N = 0.
    by rewrite /residual big_ord_recl big_ord1 /= mulr0 mul0r addr0 mulr0 subr0.
  have e1 : residual case_H (Rdiv 11 10)%:C (fun x => if x == 1%N then 1 else 0) 1%N = (Rminus 1 (Rdiv 11 10))%:C.
    by rewrite /residual big_ord_recl big_ord1 /= mulr0 add0r !mulr1 -cR1 -cRB.
  rewrite -[residual _ _ _]/(residual case_H (Rdiv 11 10)%:C (fun x => if x == 1%N then 1 else 0)).
  rewrite -[X in Rmult _ X]/(weight (dim case_H) (fun x => if x == 1%N then 1 else 0 : C)) w.
  rewrite Rmult_1_r /weight Re_sum big_ord_recl big_ord1 e0 e1 !nrmE !ReR nrm0.
  have nr (x : R) : nrm x%:C = Rmult x x by apply: complexI; rewrite -nrmE -[_^*]/(conjc _) conjc_real -cRM.
  rewrite nr; exact: tenth_off.
split=> //; have h : herm case_H.
  split=> // i j hi hj; rewrite /= eq_sym; case: eqP => [->|_]; last by rewrite cj0.
  by case: eqP => _; rewrite ?cj1 // rmorph_nat.
have [E HE] := energies_exist h; eexists; exists E; split=> //.
have [|_ [j hj n]] := C108_diag (i := 0%N) (argsort := argsort0) tenth argsort0_sorts S HE erefl; first by [].
by exists j.
Qed.

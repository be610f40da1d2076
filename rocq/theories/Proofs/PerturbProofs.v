(** PerturbProofs.v -- first-order perturbation theory. *)
From Coq Require Import Reals Lra.
From Verif.Spec Require Import ThermalSpec.
From Verif.Proofs Require Import ThermalProofs.
Open Scope R_scope.

(** Derivatives are local. *)
Lemma hd_near f g t d r : 0 < r -> (forall u, Rabs (u - t) < r -> f u = g u) ->
  has_derivative f t d -> has_derivative g t d.
Proof.
  intros Hr H D eps He. destruct (D eps He) as [delta [Hd P]]. exists (Rmin delta r).
  split; [apply Rmin_glb_lt; assumption|]. intros h Hh Hl.
  assert (Rabs h < delta) by (eapply Rlt_le_trans; [exact Hl | apply Rmin_l]).
  assert (Rabs h < r) by (eapply Rlt_le_trans; [exact Hl | apply Rmin_r]).
  rewrite <- !H; [apply P; assumption | |].
  - replace (t - t) with 0 by ring. rewrite Rabs_R0. exact Hr.
  - replace (t + h - t) with h by ring. assumption.
Qed.

(** A rotation by half an angle. *)
Definition hcos (t : R) : R := cos (t / 2).
Definition hsin (t : R) : R := sin (t / 2).
Lemma rot1 t : cos t * hcos t + sin t * hsin t = 1 * hcos t.
Proof. unfold hcos, hsin. rewrite <- cos_minus, Rmult_1_l. f_equal. field. Qed.
Lemma rot2 t : sin t * hcos t + - cos t * hsin t = 1 * hsin t.
Proof.
  unfold hcos, hsin. replace (sin t * cos (t / 2) + - cos t * sin (t / 2)) with
    (sin t * cos (t / 2) - cos t * sin (t / 2)) by ring.
  rewrite <- sin_minus, Rmult_1_l. f_equal. field.
Qed.
Lemma hd_half t : has_derivative (fun t => t / 2) t (1 / 2).
Proof. apply has_derivative_iff. unfold Rdiv. replace (1 * / 2) with (1 * / 2 + t * 0) by ring.
  apply (derivable_pt_lim_mult (fun t => t) (fun _ => / 2)); [apply derivable_pt_lim_id | apply derivable_pt_lim_const].
Qed.
Lemma hd_hcos0 : has_derivative hcos 0 0.
Proof.
  apply has_derivative_iff. unfold hcos. replace 0 with (- sin (0 / 2) * (1 / 2)) at 2
    by (replace (0 / 2) with 0 by field; rewrite sin_0; ring).
  apply (derivable_pt_lim_comp (fun t => t / 2) cos);
    [apply has_derivative_iff, hd_half | apply derivable_pt_lim_cos].
Qed.
Definition onehalf : R := 1 / 2.
Lemma hd_hsin0 : has_derivative hsin 0 onehalf.
Proof.
  unfold onehalf. apply has_derivative_iff. unfold hsin. replace (1 / 2) with (cos (0 / 2) * (1 / 2))
    by (replace (0 / 2) with 0 by field; rewrite cos_0; ring).
  apply (derivable_pt_lim_comp (fun t => t / 2) sin);
    [apply has_derivative_iff, hd_half | apply derivable_pt_lim_sin].
Qed.
Lemma hd_cos0 : has_derivative cos 0 0.
Proof. apply has_derivative_iff. replace 0 with (- sin 0) at 2 by (rewrite sin_0; ring). apply derivable_pt_lim_cos. Qed.
Lemma hd_mcos0 : has_derivative (fun t => - cos t) 0 0.
Proof.
  apply has_derivative_iff. replace 0 with (- - sin 0) at 2 by (rewrite sin_0; ring).
  apply (derivable_pt_lim_opp cos), derivable_pt_lim_cos.
Qed.
Lemma hd_sin0 : has_derivative sin 0 1.
Proof. apply has_derivative_iff. rewrite <- cos_0. apply derivable_pt_lim_sin. Qed.
Lemma hsin0 : hsin 0 = 0. Proof. unfold hsin. replace (0 / 2) with 0 by field. apply sin_0. Qed.
Lemma hcos0 : hcos 0 = 1. Proof. unfold hcos. replace (0 / 2) with 0 by field. apply cos_0. Qed.

From Verif.Model Require Import Base Units Edge Elements LCWB HamConst PartialConst.
From mathcomp Require Import all_ssreflect all_algebra.
From mathcomp Require Import complex.
From Verif.Numerics Require Import RStruct Bridge.
From Verif.Model Require Import Transform Op Ham Diag CircuitSM Partial.
From Verif.Spec Require Import GradSpec PerturbSpec.
From Verif.Proofs Require Import OpProofs CDeriv.

Set Implicit Arguments.
Unset Strict Implicit.
Unset Printing Implicit Defensive.
Import GRing.Theory.
Local Open Scope ring_scope.
Local Open Scope complex_scope.

Lemma cd_near f g t z r : Rlt R0 r -> (forall u, Rlt (Rabs (Rminus u t)) r -> f u = g u) ->
  cderiv f t z -> cderiv g t z.
Proof. by move=> Hr H [D1 D2]; split; [apply: (hd_near _ _ _ _ _ Hr) D1 | apply: (hd_near _ _ _ _ _ Hr) D2] => u /H ->. Qed.

(** ** Inner products *)
Lemma dotC N v w : dot N w v = (dot N v w)^*.
Proof. by rewrite /dot rmorph_sum; apply: eq_bigr => i _; rewrite rmorphM /= conjcK mulrC. Qed.
Lemma dotDr N v w w' : dot N v (fun i => w i + w' i) = dot N v w + dot N v w'.
Proof. by rewrite /dot -big_split; apply: eq_bigr => i _; rewrite mulrDr. Qed.
Lemma dotZr N v w c : dot N v (fun i => c * w i) = c * dot N v w.
Proof. by rewrite /dot mulr_sumr; apply: eq_bigr => i _; rewrite mulrCA. Qed.
Lemma dot0r N v : dot N v (fun=> 0) = 0.
Proof. by rewrite /dot big1 // => i _; rewrite mulr0. Qed.
Lemma dot_ext N v w w' : (forall i, (i < N)%N -> w i = w' i) -> dot N v w = dot N v w'.
Proof. by move=> H; apply: eq_bigr => i _; rewrite H. Qed.
Lemma dot_sumr N v (K : Type) (r : seq K) (p : pred K) (F : K -> nat -> C) :
  dot N v (fun i => \sum_(k <- r | p k) F k i) = \sum_(k <- r | p k) dot N v (F k).
Proof. by rewrite /dot exchange_big; apply: eq_bigr => i _; rewrite mulr_sumr. Qed.

Lemma dot_herm N h u v : hermitian N h -> dot N u (apply_to N h v) = (dot N v (apply_to N h u))^*.
Proof.
move=> H; rewrite /dot /apply_to rmorph_sum /=.
under eq_bigr do rewrite mulr_sumr; rewrite exchange_big; apply: eq_bigr => j _.
rewrite rmorphM rmorph_sum /= conjcK mulr_sumr; apply: eq_bigr => i _.
by rewrite rmorphM /= -H // mulrCA mulrA mulrC.
Qed.

Lemma innerE v A w : inner v A w = dot (dim A) v (apply_to (dim A) (ent A) w).
Proof. by []. Qed.

(** The eigenvalue equation differentiated. *)
Section Branch.
Variables (N : nat) (h : R -> nat -> nat -> C) (P : nat -> nat -> C) (t0 : R).
Variables (v : R -> nat -> C) (w : R -> R) (dv : nat -> C) (dw : R).
Hypothesis B : branch N h t0 v w dv dw.
Hypothesis D : forall i j, (i < N)%N -> (j < N)%N -> cderiv (fun t => h t i j) t0 (P i j).

Lemma branch_row i : (i < N)%N ->
  apply_to N P (v t0) i + apply_to N (h t0) dv i = dw%:C * v t0 i + (w t0)%:C * dv i.
Proof.
move=> hi; have [delta [d0 E]] := br_eigen B.
have L : cderiv (fun t => apply_to N (h t) (v t) i) t0 (apply_to N P (v t0) i + apply_to N (h t0) dv i).
  rewrite /apply_to -big_split; apply: cd_sum_ord => j.
  by apply: cd_mul; [apply: D | apply: (br_vec B)].
apply: cd_unique L _; apply: (cd_near d0 (f := fun t => (w t)%:C * v t i)).
  by move=> u hu; rewrite E.
by apply: cd_mul; [apply: cd_real (br_val B) | apply: (br_vec B)].
Qed.

Lemma branch_dot u nu : hermitian N (h t0) -> eigen N (h t0) nu u ->
  dot N u (apply_to N P (v t0)) = dw%:C * dot N u (v t0) + ((w t0)%:C - nu%:C) * dot N u dv.
Proof.
move=> Hh Eu.
have : dot N u (fun i => apply_to N P (v t0) i + apply_to N (h t0) dv i) =
       dot N u (fun i => dw%:C * v t0 i + (w t0)%:C * dv i) by apply: dot_ext => i; apply: branch_row.
rewrite !dotDr !dotZr (dot_herm _ _ Hh).
have -> : dot N dv (apply_to N (h t0) u) = nu%:C * dot N dv u.
  by rewrite -dotZr; apply: dot_ext => i hi; rewrite Eu.
rewrite rmorphM /= -dotC oppr0 => H.
by apply: (addIr (nu%:C * dot N u dv)); rewrite H -addrA -mulrDl subrK.
Qed.
End Branch.

(** ** Completeness *)
Lemma resolution N (vs : seq (nat -> C)) f a : orthonormal N vs -> size vs = N -> (a < N)%N ->
  f a = \sum_(j < size vs) dot N (nth (fun=> 0) vs j) f * nth (fun=> 0) vs j a.
Proof.
move=> O S ha; move: O; rewrite /orthonormal S => O.
pose V : 'M[C]_N := \matrix_(i, j) (nth (fun=> 0) vs i j)^*.
pose W : 'M[C]_N := \matrix_(i, j) nth (fun=> 0) vs j i.
have VW : V *m W = 1%:M.
  apply/matrixP => i j; rewrite !mxE; under eq_bigr do rewrite !mxE.
  by have := O i j (ltn_ord i) (ltn_ord j); rewrite /dot => ->; rewrite -val_eqE /=; case: (_ == _).
have WV := mulmx1C VW.
have := congr1 (fun M : 'M[C]_N => (M *m (\col_(k < N) f k)) (Ordinal ha) ord0) WV.
rewrite mul1mx -mulmxA mxE => /esym; rewrite [X in X = _]mxE /= => ->; apply: eq_bigr => j _.
rewrite !mxE mulrC; congr (_ * _); rewrite /dot; apply: eq_bigr => k _; by rewrite !mxE.
Qed.

(** ** The loop of get_partial_vec *)
Definition skip (m : Z) (n : nat) : bool := ~~ Z.eqb (Z.of_nat n) m.
Definition pert_coef (x : circ) (A : op) (v : cvec) (w eps : R) (n : nat) : C :=
  inner (nth (fun=> 0) (e_vecs (x_eig x)) n) A v / (w - nth 0 (e_freqs (x_eig x)) n + eps)%:C.

Lemma py_nthE (T : Type) (x0 : T) l n : (n < size l)%N -> py_nth x0 l (Z.of_nat n) = Ok (nth x0 l n).
Proof.
move=> /ltP H; rewrite /py_nth /np_row /py_index Zle_imp_le_bool; last exact: Zle_0_nat.
by rewrite (proj2 (Z.ltb_lt _ _)) ?Nat2Z.id //; apply: inj_lt.
Qed.
Lemma py_nth_out (T : Type) (x0 : T) l n : (size l <= n)%N -> py_nth x0 l (Z.of_nat n) = Err IndexError.
Proof.
move=> /leP H; rewrite /py_nth /np_row /py_index Zle_imp_le_bool; last exact: Zle_0_nat.
by rewrite (proj2 (Z.ltb_ge _ _)) //; apply: inj_le.
Qed.

Lemma vec_fold x P v w eps m l : forall a r, foldl (vec_term x P v w eps m) a l = Ok r ->
  exists a0, [/\ a = Ok a0,
    (forall n, n \in l -> skip m n -> [/\ P <> None, (n < size (e_freqs (x_eig x)))%N &
        w - nth 0 (e_freqs (x_eig x)) n + eps != 0]) &
    forall A, P = Some A -> forall i, r i = a0 i +
      \sum_(n <- l | skip m n) pert_coef x A v w eps n * nth (fun=> 0) (e_vecs (x_eig x)) n i].
Proof.
elim: l => [|n l IH] a r /=.
  by move=> ->; exists r; split=> // A _ i; rewrite big_nil addr0.
move=> /IH [a1 []]; rewrite /vec_term -/(skip m n).
case Em: (Z.eqb _ _).
  move=> Ea H1 H2; exists a1; split=> //.
    by move=> k; rewrite inE => /orP [/eqP ->|/H1 //]; rewrite /skip Em.
  by move=> A EA i; rewrite big_cons /skip Em /=; apply: H2.
case: a => [a|//]; cbn [bind]; rewrite /efreq.
case: (ltnP n (size (e_freqs (x_eig x)))) => hn; last by rewrite py_nth_out.
rewrite py_nthE //; cbn [bind]; case EP: P => [A|//]; cbn [inner0 bind].
case: eqP => // nz [<-] H1 H2; exists a; split=> //.
  move=> k; rewrite inE => /orP [/eqP -> _|/H1 //]; split=> //; exact/eqP.
move=> A' [<-] i; rewrite big_cons /skip Em /= (H2 A) // /pert_coef -addrA; congr (_ + (_ + _)).
by rewrite mulrAC.
Qed.

Lemma vec_fold_ok x A v w eps m l a :
  (forall n, n \in l -> skip m n -> (n < size (e_freqs (x_eig x)))%N /\
        w - nth 0 (e_freqs (x_eig x)) n + eps != 0) ->
  exists r, foldl (vec_term x (Some A) v w eps m) (Ok a) l = Ok r.
Proof.
elim: l a => [|n l IH] a H /=; first by exists a.
rewrite {2}/vec_term; case Em: (Z.eqb _ _).
  by apply: IH => k hk; apply: H; rewrite inE hk orbT.
have [||hn nz] := H n; [by rewrite inE eqxx | by rewrite /skip Em |].
cbn [bind]; rewrite /efreq py_nthE //; cbn [bind inner0]; rewrite (negbTE nz).
by apply: IH => k hk; apply: H; rewrite inE hk orbT.
Qed.

Lemma partial_vecE s x c m eps dv v A : get_partial_vec s x c m eps = Ok dv ->
  evec x m = Ok v -> partial_H s x c None = Ok (Some A) ->
  exists w, [/\ efreq x m = Ok w,
    (forall n, (n < size (e_vecs (x_eig x)))%N -> skip m n -> (n < size (e_freqs (x_eig x)))%N /\
        w - nth 0 (e_freqs (x_eig x)) n + eps != 0) &
    forall i, dv i = \sum_(n < size (e_vecs (x_eig x)) | skip m n)
       pert_coef x A v w eps n * nth (fun=> 0) (e_vecs (x_eig x)) n i].
Proof.
rewrite /get_partial_vec; case: ifP => // _ + Ev EA; rewrite Ev EA; cbn [bind].
case: (efreq x m) => [w|//]; cbn [bind] => /vec_fold [a0 [[<-] H1 H2]]; exists w; split=> //.
  by move=> n hn sn; have [|_ ? ?] := H1 n _ sn; first by rewrite mem_iota.
by move=> i; rewrite (H2 A) // add0r -(big_mkord (skip m) (fun n => pert_coef x A v w eps n * nth (fun=> 0) (e_vecs (x_eig x)) n i)) /index_iota subn0.
Qed.

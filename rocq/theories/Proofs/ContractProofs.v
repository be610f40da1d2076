(** ContractProofs.v -- operators that make no vector longer, and the energies of
    circuits that differ in the junctions. *)
From Coq Require Import Reals ZArith Lia Lra.
From Verif.Model Require Import Base Units Edge Accuracy HamConst.
Lemma sin_abs x : Rle (Rabs (sin x)) (Rabs x).
Proof.
  assert (P : forall y, Rlt 0 y -> Rle (Rabs (sin y)) y).
  { intros y Hy. destruct (Rle_dec y 1) as [H1|H1].
    - rewrite Rabs_pos_eq; [left; apply sin_lt_x; exact Hy|].
      apply sin_ge_0; [lra|]. pose proof PI2_1. lra.
    - pose proof (SIN_bound y). unfold Rabs; destruct (Rcase_abs (sin y)); lra. }
  destruct (Rtotal_order x 0) as [H|[H|H]].
  - rewrite (Rabs_left x H). replace (sin x) with (Ropp (sin (Ropp x))) by (rewrite sin_neg; ring).
    rewrite Rabs_Ropp. apply P. lra.
  - subst. rewrite sin_0. lra.
  - rewrite (Rabs_pos_eq x) by lra. apply P; exact H.
Qed.
Lemma phase_diff a b p p' : Rminus (Rminus (Rmult (cos p') a) (Rmult (sin p') b)) (Rminus (Rmult (cos p) a) (Rmult (sin p) b)) =
  Rmult (Rmult 2 (sin ((p' - p) / 2))) (Rminus (Rmult (cos ((p' + p) / 2 + PI / 2)) a) (Rmult (sin ((p' + p) / 2 + PI / 2)) b)).
Proof.
  rewrite cos_plus, sin_plus, cos_PI2, sin_PI2.
  pose proof (form2 p' p) as H2. pose proof (form4 p' p) as H4.
  replace (Rminus (Rminus (Rmult (cos p') a) (Rmult (sin p') b)) (Rminus (Rmult (cos p) a) (Rmult (sin p) b)))
    with (Rminus (Rmult (cos p' - cos p) a) (Rmult (sin p' - sin p) b)) by ring.
  rewrite H2, H4. ring.
Qed.
Lemma junction_bound a b W p p' J J' : (forall t, Rle (Rminus (Rmult (cos t) a) (Rmult (sin t) b)) W) ->
  Rle (Rabs (Rminus (Rmult J' (Rminus (Rmult (cos p') a) (Rmult (sin p') b))) (Rmult J (Rminus (Rmult (cos p) a) (Rmult (sin p) b)))))
      (Rmult (Rplus (Rabs (Rminus J J')) (Rmult (Rabs J) (Rabs (Rminus p p')))) W).
Proof.
  intros H.
  assert (B : forall t, Rle (Rabs (Rminus (Rmult (cos t) a) (Rmult (sin t) b))) W).
  { intros t. apply Rabs_le. split; [|apply H]. pose proof (H (t + PI)%R) as K.
    rewrite neg_cos, neg_sin in K. lra. }
  assert (W0 : Rle 0 W) by (eapply Rle_trans; [apply Rabs_pos|apply (B 0%R)]).
  replace (Rminus (Rmult J' (Rminus (Rmult (cos p') a) (Rmult (sin p') b))) (Rmult J (Rminus (Rmult (cos p) a) (Rmult (sin p) b))))
    with (Rplus (Rmult (J' - J) (Rminus (Rmult (cos p') a) (Rmult (sin p') b)))
      (Rmult J (Rminus (Rminus (Rmult (cos p') a) (Rmult (sin p') b)) (Rminus (Rmult (cos p) a) (Rmult (sin p) b))))) by ring.
  eapply Rle_trans; [apply Rabs_triang|]. rewrite Rmult_plus_distr_r. apply Rplus_le_compat.
  - rewrite Rabs_mult, (Rabs_minus_sym J J'). apply Rmult_le_compat_l; [apply Rabs_pos|apply B].
  - rewrite Rabs_mult, Rmult_assoc. apply Rmult_le_compat_l; [apply Rabs_pos|].
    rewrite phase_diff, Rabs_mult. apply Rmult_le_compat; try apply Rabs_pos; [|apply B].
    rewrite Rabs_mult, (Rabs_pos_eq 2) by lra. pose proof (sin_abs ((p' - p) / 2)) as S.
    replace (Rabs (p - p')) with (Rmult 2 (Rabs ((p' - p) / 2))); [lra|].
    unfold Rdiv. rewrite Rabs_mult, (Rabs_pos_eq (/ 2)) by lra. rewrite (Rabs_minus_sym p p'). field.
Qed.
Lemma shift_le x x' b0 d : Rle (Rminus x x') d -> Rle (Rminus b0 x') (Rplus (Rminus b0 x) d).
Proof. lra. Qed.
Lemma junction_le a b W p p' J J' : (forall t, Rle (Rminus (Rmult (cos t) a) (Rmult (sin t) b)) W) ->
  Rle (Rminus (Rmult J (Rminus (Rmult (cos p) a) (Rmult (sin p) b))) (Rmult J' (Rminus (Rmult (cos p') a) (Rmult (sin p') b))))
      (Rmult (Rplus (Rabs (Rminus J J')) (Rmult (Rabs J) (Rabs (Rminus p p')))) W).
Proof.
  intros H. eapply Rle_trans; [|apply (junction_bound a b W p p' J J' H)]. rewrite Rabs_minus_sym. apply Rle_abs.
Qed.
Lemma junction_le' a b W p p' J J' : (forall t, Rle (Rminus (Rmult (cos t) a) (Rmult (sin t) b)) W) ->
  Rle (Rminus (Rmult J' (Rminus (Rmult (cos p') a) (Rmult (sin p') b))) (Rmult J (Rminus (Rmult (cos p) a) (Rmult (sin p) b))))
      (Rmult (Rplus (Rabs (Rminus J J')) (Rmult (Rabs J) (Rabs (Rminus p p')))) W).
Proof. intros H. eapply Rle_trans; [|apply (junction_bound a b W p p' J J' H)]. apply Rle_abs. Qed.
Lemma sub_sq a b c d : Rplus (Rmult (Rplus a (Ropp c)) (Rplus a (Ropp c))) (Rmult (Rplus b (Ropp d)) (Rplus b (Ropp d))) =
  Rplus (Rplus (Rplus (Rmult a a) (Rmult b b)) (Rplus (Rmult c c) (Rmult d d)))
    (Ropp (Rplus (Rplus (Rmult a c) (Ropp (Rmult (Ropp b) d))) (Rplus (Rmult a c) (Ropp (Rmult (Ropp b) d))))).
Proof. ring. Qed.
Lemma turn_sq t c d : Rplus (Rmult (Rplus (Rmult (cos t) c) (Ropp (Rmult (sin t) d))) (Rplus (Rmult (cos t) c) (Ropp (Rmult (sin t) d))))
    (Rmult (Rplus (Rmult (cos t) d) (Rmult (sin t) c)) (Rplus (Rmult (cos t) d) (Rmult (sin t) c))) =
  Rplus (Rmult c c) (Rmult d d).
Proof.
  pose proof (sin2_cos2 t) as E. unfold Rsqr in E.
  replace (Rplus (Rmult c c) (Rmult d d)) with (Rmult (Rplus (Rmult (sin t) (sin t)) (Rmult (cos t) (cos t))) (Rplus (Rmult c c) (Rmult d d)))
    by (rewrite E; ring).
  ring.
Qed.
From mathcomp Require Import all_ssreflect all_algebra.
From mathcomp Require Import complex ring.
From Verif.Numerics Require Import RStruct Bridge.
From Verif.Model Require Import Op Transform Ham.
From Verif.Spec Require Import OpSpec HalfSpec PerturbSpec LevelsSpec.
From Verif.Proofs Require Import OpProofs HamProofs HamProofs2 HamProofs5 HamProofs6 HalfProofs MinMaxProofs.

Set Implicit Arguments.
Unset Strict Implicit.
Unset Printing Implicit Defensive.
Import GRing.Theory Order.TTheory.
Local Open Scope ring_scope.
Local Open Scope complex_scope.

Definition contraction (A : op) : Prop :=
  forall u, weight (dim A) (apply_to (dim A) (ent A) u) <= weight (dim A) u.

Lemma weightE n u : weight n u = \sum_(i < n) nrm (u i).
Proof. by rewrite /weight (eq_bigr (fun i : 'I_n => (nrm (u i))%:C)) => [|i _]; rewrite ?Rsum_C ?nrmE. Qed.

Lemma weight_eq n u w : (forall i, (i < n)%N -> u i = w i) -> weight n u = weight n w.
Proof. by move=> H; rewrite !weightE; apply: eq_bigr => i _; rewrite H. Qed.

Lemma mix4 (x y z t : C) : x * y * (z * t) = y * t * (x * z). Proof. by ring. Qed.
(** A^* A diagonal with entries between 0 and 1. *)
Lemma gram_contraction A (f : nat -> R) : (forall i, (i < dim A)%N -> f i <= 1) ->
  eqop (omul (oadj A) A) (odiag (dim A) (fun k => (f k)%:C)) -> contraction A.
Proof.
move=> f1 [_ G] u; rewrite [X in _ <= X]weightE; set N := dim A.
have -> : weight N (apply_to N (ent A) u) = \sum_(j < N) f j * nrm (u j).
  rewrite /weight /apply_to.
  have -> : (\sum_(i < N) (\sum_(j < N) ent A i j * u j)^* * \sum_(j < N) ent A i j * u j) = (\sum_(j < N) f j * nrm (u j))%:C.
    transitivity (\sum_(j < N) \sum_(k < N) (u j)^* * u k * ent (omul (oadj A) A) j k).
      rewrite (eq_bigr (fun i : 'I_N => \sum_(j < N) \sum_(k < N) ((ent A i j)^* * (u j)^* * (ent A i k * u k)))); last first.
        move=> i _; rewrite cj_sum big_distrl; apply: eq_bigr => j _; rewrite big_distrr /=; apply: eq_bigr => k _; by rewrite cjM.
      rewrite exchange_big; apply: eq_bigr => j _; rewrite exchange_big; apply: eq_bigr => k _.
      rewrite big_distrr /=; apply: eq_bigr => i _; exact: mix4.
    rewrite rmorph_sum; apply: eq_bigr => j _; rewrite (bigD1 j) //= [X in _ + X]big1 ?addr0.
      have := G j j; rewrite /= eqxx => -> //; rewrite cRM -nrmE; exact: mulrC.
    move=> k ne; have := G j k; rewrite /= => -> //; rewrite eq_sym -val_eqE /= in ne; by rewrite (negbTE ne) mulr0.
  by [].
apply: Num.Theory.ler_sum => j _; rewrite -[X in _ <= X]mul1r; apply: Num.Theory.ler_wpmul2r; [exact: nrm_ge0|exact: f1].
Qed.

Lemma unitary_contraction A : unitary A -> contraction A.
Proof.
by move=> [_ U]; apply: (gram_contraction (f := fun=> 1)).
Qed.

Lemma shift_contraction m w : contraction (d_op_isolated m w).
Proof.
apply: (gram_contraction (f := fun k => if Rlt_dec w 0 then (if k == 0%N then 0 else 1)
                     else if Rlt_dec 0 w then (if k.+1 == m then 0 else 1) else 1)).
  by move=> i _; do ?[case: (Rlt_dec _ _) => ?]; do ?case: ifP => _; rewrite ?Num.Theory.ler01.
apply: eqop_trans (d_isometry m w) _; split=> [|i j _ _]; rewrite /= ?d_dim //.
by do ?[case: (Rlt_dec _ _) => ?]; cbn [is_left]; do ?case: ifP => _; rewrite ?cR0 ?cR1.
Qed.

Lemma weight_prod a b w : weight (a * b) w = \sum_(x < a) \sum_(y < b) nrm (w (x * b + y)%N).
Proof.
rewrite /weight.
have -> : (\sum_(i < a * b) (w i)^* * w i) = \sum_(x < a) \sum_(y < b) (nrm (w (x * b + y)%N))%:C.
  rewrite -(sum_divmod a b (fun x y => (nrm (w (x * b + y)%N))%:C)); apply: eq_bigr => i _.
  by rewrite -divn_eq nrmE.
rewrite (eq_bigr (fun x : 'I_a => (\sum_(y < b) nrm (w (x * b + y)%N))%:C)); last by move=> x _; rewrite rmorph_sum.
by rewrite -rmorph_sum.
Qed.

Lemma kron_contraction A B : contraction A -> contraction B -> contraction (kron A B).
Proof.
move=> cA cB u; rewrite [dim _]/=; set a := dim A; set b := dim B.
pose g x' y := apply_to b (ent B) (fun y' => u (x' * b + y')%N) y.
have E x y : (y < b)%N -> apply_to (a * b) (ent (kron A B)) u (x * b + y)%N = apply_to a (ent A) (fun x' => g x' y) x.
  move=> hy; have b0 : (0 < b)%N by apply: leq_ltn_trans hy.
  rewrite {1}/apply_to (eq_bigr (fun k : 'I_(a * b) => (fun x' y' => ent A x x' * ent B y y' * u (x' * b + y')%N) (k %/ b)%N (k %% b)%N)); last first.
    by move=> k _; rewrite /= -/b divnMDl // modnMDl divn_small // modn_small // addn0 -divn_eq.
  rewrite (sum_divmod a b (fun x' y' => ent A x x' * ent B y y' * u (x' * b + y')%N)); apply: eq_bigr => x' _; rewrite /g /apply_to big_distrr /=.
  by apply: eq_bigr => y' _; rewrite mulrA.
rewrite !weight_prod exchange_big.
apply: (@le_trans _ _ (\sum_(y < b) weight a (fun x' => g x' y))).
  apply: Num.Theory.ler_sum => y _; have := cA (fun x' => g x' y); rewrite -/a => le; apply: le_trans le.
  by rewrite weightE; apply: Num.Theory.ler_sum => x _; rewrite E.
rewrite (eq_bigr (fun y : 'I_b => \sum_(x < a) nrm (g x y))); last by move=> y _; rewrite weightE.
rewrite exchange_big; apply: Num.Theory.ler_sum => x _.
by have := cB (fun y' => u (x * b + y')%N); rewrite !weightE.
Qed.

Lemma eye_contraction m : contraction (oeye m).
Proof.
apply: (gram_contraction (f := fun=> 1)) => //.
by apply: eqop_trans (omulA1 (A := oadj (oeye m)) erefl) _; split=> //= i j _ _; rewrite cR1 eq_sym; case: eqP; rewrite ?cj1 ?cj0.
Qed.
Lemma T_contraction F n : (forall k, (k < n)%N -> contraction (F k)) -> contraction (T F n).
Proof.
case: n => [_|n].
  by rewrite T0; apply: eye_contraction.
elim: n => [|n IH] H; first by rewrite T1; apply: H.
by rewrite TS; apply: kron_contraction; [apply: IH => k hk; apply: H; apply: ltnW|apply: H].
Qed.

Section Junctions.
Variables (disp : nat -> C -> op) (h : hin).
Hypothesis unit : forall m a, unitary (disp m a).
Hypothesis dims : forall m a, dim (disp m a) = m.

Lemma exp_contraction w : contraction (opExp disp h w).
Proof.
rewrite opExpE; apply: T_contraction => k _; rewrite /exp_iso; case: ifP => _; first exact: shift_contraction.
by case: ifP => _; [exact: eye_contraction|exact: unitary_contraction].
Qed.

(** <u| e^{it} D |u> *)
Lemma nrm_sub (x y : C) : nrm (x - y) = nrm x + nrm y - (complex.Re (x^* * y) + complex.Re (x^* * y)).
Proof. case: x y => [a b] [c d]; exact: (sub_sq a b c d). Qed.
Lemma nrm_phase t (y : C) : nrm (expi t * y) = nrm y.
Proof.
by case: y => [c d]; exact: (turn_sq t c d).
Qed.
Let N := total h.
Definition mean (w : nat) (u : nat -> C) : C := \sum_(i < N) (u i)^* * \sum_(j < N) ent (opExp disp h w) i j * u j.
Lemma phase_weight w (u : nat -> C) t : complex.Re (expi t * mean w u) <= weight N u.
Proof.
set z := mean w u; have dN : dim (opExp disp h w) = N by exact: exp_dim.
pose v := apply_to N (ent (opExp disp h w)) u.
have c : weight N v <= weight N u by have := @exp_contraction w u; rewrite dN.
have : 0 <= weight N (fun i => u i - expi t * v i).
  by rewrite weightE; apply: Num.Theory.sumr_ge0 => i _; exact: nrm_ge0.
have -> : weight N (fun i => u i - expi t * v i) = weight N u + weight N v - (complex.Re (expi t * z) + complex.Re (expi t * z)).
  rewrite !weightE (eq_bigr (fun i : 'I_N => nrm (u i) + nrm (v i) - (complex.Re ((u i)^* * (expi t * v i)) + complex.Re ((u i)^* * (expi t * v i))))); last first.
    by move=> i _; rewrite nrm_sub nrm_phase.
  rewrite sumrB !big_split /=; congr (_ - (_ + _)).
    rewrite -raddf_sum; congr complex.Re; rewrite /z /mean big_distrr /=; apply: eq_bigr => i _; by rewrite mulrCA.
  rewrite -raddf_sum; congr complex.Re; rewrite /z /mean big_distrr /=; apply: eq_bigr => i _; by rewrite mulrCA.
rewrite Num.Theory.subr_ge0 => le1; have {}le1 := le_trans le1 (Num.Theory.ler_add (lexx (weight N u)) c).
case: (leP (complex.Re (expi t * z)) (weight N u)) => // lt.
by have := lt_le_trans (Num.Theory.ltr_add lt lt) le1; rewrite ltxx.
Qed.

Definition quad (u : nat -> C) (K : nat -> nat -> C) : C := \sum_(i < N) (u i)^* * \sum_(j < N) K i j * u j.
Lemma quad_eq u K K' : (forall i j, (i < N)%N -> (j < N)%N -> K i j = K' i j) -> quad u K = quad u K'.
Proof. by move=> H; apply: eq_bigr => i _; congr (_ * _); apply: eq_bigr => j _; rewrite H. Qed.
Lemma quadD u K K' : quad u (fun i j => K i j + K' i j) = quad u K + quad u K'.
Proof.
rewrite /quad -big_split; apply: eq_bigr => i _; rewrite /= -mulrDr; congr (_ * _); rewrite -big_split.
by apply: eq_bigr => j _; rewrite /= mulrDl.
Qed.
Lemma quadZ u c K : quad u (fun i j => c * K i j) = c * quad u K.
Proof.
rewrite /quad big_distrr; apply: eq_bigr => i _; rewrite /= mulrCA; congr (_ * _); rewrite big_distrr.
by apply: eq_bigr => j _; rewrite /= mulrA.
Qed.
Lemma quad0 u : quad u (fun _ _ => 0) = 0.
Proof. by apply: big1 => i _; rewrite big1 ?mulr0 // => j _; rewrite mul0r. Qed.
Lemma quad_sum u (I : Type) (l : seq I) (K : I -> nat -> nat -> C) :
  quad u (fun i j => \sum_(k <- l) K k i j) = \sum_(k <- l) quad u (K k).
Proof.
elim: l => [|k l IH]; first by rewrite big_nil -[RHS](quad0 u); apply: quad_eq => i j _ _; rewrite big_nil.
by rewrite big_cons -IH -quadD; apply: quad_eq => i j _ _; rewrite big_cons.
Qed.
Lemma quad_adj u K : quad u (fun i j => (K j i)^*) = (quad u K)^*.
Proof.
rewrite /quad cj_sum (eq_bigr (fun i : 'I_N => \sum_(j < N) (K j i)^* * ((u i)^* * u j))); last first.
  by move=> i _; rewrite big_distrr; apply: eq_bigr => j _; rewrite /= mulrCA.
rewrite exchange_big; apply: eq_bigr => j _; rewrite cjM cjK cj_sum big_distrr; apply: eq_bigr => i _ /=.
by rewrite cjM mulrA mulrC.
Qed.
Lemma quad_jj u phi w : quad u (jjent disp h phi w) = (complex.Re (expi phi * mean w u))%:C.
Proof.
rewrite /jjent quadZ (quadD u (fun i j => expi phi * ent (opExp disp h w) i j) (fun i j => (expi phi * ent (opExp disp h w) j i)^*)).
rewrite (quad_adj u (fun i j => expi phi * ent (opExp disp h w) i j)) quadZ -/(mean w u).
move: (expi phi * _) => z.
have -> : z + z^* = 2%:R * (complex.Re z)%:C.
  rewrite mulr_natl mulr2n; case: z => a b; apply/eqP; rewrite eq_complex /=; apply/andP; split; apply/eqP => //.
  by rewrite addrN addr0.
by rewrite mulrA mulVf ?mul1r // Num.Theory.pnatr_eq0.
Qed.

Variables (ks : keys) (B : arr).
Definition base (val : nat -> R) (loops : seq R) (u : nat -> C) : C :=
  quad u (fun a b => oent (LC_hamil h) a b + \sum_(k <- k_ind ks) (ind_coef (val k.1.2) (ext_flux loops B k.2))%:C * cpl h k.1.1 a b).
Lemma expectE val loops A u : hamiltonian disp h val loops B ks = Ok A ->
  expect A u = complex.Re (base val loops u) - \sum_(k <- k_jj ks) val k.1.1.2 * complex.Re (expi (ext_flux loops B k.1.2) * mean k.2 u).
Proof.
move=> EA; have [dA _] := hamiltonian_ok dims EA.
rewrite /expect dA -/N -/(quad u (ent A)).
have -> : quad u (ent A) = base val loops u + (-1) * \sum_(k <- k_jj ks) (val k.1.1.2 * complex.Re (expi (ext_flux loops B k.1.2) * mean k.2 u))%:C.
  rewrite (@quad_eq u (ent A) (fun a b => (oent (LC_hamil h) a b + \sum_(k <- k_ind ks) (ind_coef (val k.1.2) (ext_flux loops B k.2))%:C * cpl h k.1.1 a b)
     + (-1) * \sum_(k <- k_jj ks) (val k.1.1.2)%:C * jjent disp h (ext_flux loops B k.1.2) k.2 a b)); last first.
    by move=> i j _ _; rewrite (hamiltonian_entry _ _ EA) mulN1r.
  rewrite quadD quadZ; congr (_ + _ * _); rewrite quad_sum; apply: eq_bigr => k _.
  by rewrite quadZ quad_jj cRM.
by rewrite Rsum_C mulN1r raddfB.
Qed.

(** Two sets of values that agree on the inductors. *)
Lemma level_step (D : edge * nat * nat * nat -> R) val val' loops loops' A A' E E' k :
  (forall i, List.In i (k_ind ks) -> val' i.1.2 = val i.1.2 /\ ext_flux loops' B i.2 = ext_flux loops B i.2) ->
  (forall j (u : nat -> C), val j.1.1.2 * complex.Re (expi (ext_flux loops B j.1.2) * mean j.2 u) -
      val' j.1.1.2 * complex.Re (expi (ext_flux loops' B j.1.2) * mean j.2 u) <= D j * weight N u) ->
  hamiltonian disp h val loops B ks = Ok A -> hamiltonian disp h val' loops' B ks = Ok A' ->
  energies A E -> energies A' E' -> (k < dim A)%N -> Rle (E' k) (E k + \sum_(j <- k_jj ks) D j).
Proof.
move=> same bnd EA EA' HE HE' hk; have [dA _] := hamiltonian_ok dims EA; have [dA' _] := hamiltonian_ok dims EA'.
pose J (a b : nat) : C := if a == b then 1 else 0.
have JE (u : nat -> C) a : (a < N)%N -> apply_to N J u a = u a.
  move=> ha; rewrite /apply_to (bigD1 (Ordinal ha)) //= /J eqxx mul1r [X in _ + X]big1 ?addr0 // => b.
  by rewrite eq_sym -val_eqE /= => /negbTE ->; rewrite mul0r.
apply: (minmax (J := J) HE HE'); rewrite ?dA ?dA' -/N //; try by rewrite /N -dA.
  by move=> u; apply: weight_eq => i hi; rewrite JE.
move=> u; rewrite (_ : expect A' _ = expect A' u); last first.
  rewrite /expect dA' -/N; congr complex.Re; apply: eq_bigr => i _; rewrite JE //; congr (_ * _).
  by apply: eq_bigr => j _; rewrite JE.
rewrite (expectE u EA) (expectE u EA').
have -> : base val' loops' u = base val loops u.
  apply: quad_eq => a b _ _; congr (_ + _); apply: sum_in => i hi; by have [-> ->] := same i hi.
move: (complex.Re (base _ _ _)) => b0.
suff : \sum_(j <- k_jj ks) (val j.1.1.2 * complex.Re (expi (ext_flux loops B j.1.2) * mean j.2 u) -
         val' j.1.1.2 * complex.Re (expi (ext_flux loops' B j.1.2) * mean j.2 u)) <=
  (\sum_(j <- k_jj ks) D j) * weight N u.
  by rewrite sumrB => /RleP; exact: shift_le.
by rewrite big_distrl; apply: Num.Theory.ler_sum => j _ /=; exact: bnd.
Qed.
Lemma level_shift val val' loops loops' A A' E E' k :
  (forall i, List.In i (k_ind ks) -> val' i.1.2 = val i.1.2 /\ ext_flux loops' B i.2 = ext_flux loops B i.2) ->
  hamiltonian disp h val loops B ks = Ok A -> hamiltonian disp h val' loops' B ks = Ok A' ->
  energies A E -> energies A' E' -> (k < dim A)%N ->
  let d := \sum_(j <- k_jj ks) (Rabs (Rminus (val j.1.1.2) (val' j.1.1.2)) +
     Rabs (val j.1.1.2) * Rabs (Rminus (ext_flux loops B j.1.2) (ext_flux loops' B j.1.2))) in
  Rle (E' k) (E k + d) /\ Rle (E k) (E' k + d).
Proof.
move=> same EA EA' HE HE' hk d; split.
  apply: (level_step same _ EA EA' HE HE' hk) => j u; apply/RleP; have pw t := elimT (RleP _ _) (phase_weight j.2 u t).
  move: (mean j.2 u) pw => [a b] pw; exact: (junction_le a b (weight N u) _ _ _ _ pw).
have hk' : (k < dim A')%N by have [dA _] := hamiltonian_ok dims EA; have [dA' _] := hamiltonian_ok dims EA'; rewrite dA' -dA.
apply: (level_step _ _ EA' EA HE' HE hk') => [i /same [-> ->] //|j u].
apply/RleP; have pw t := elimT (RleP _ _) (phase_weight j.2 u t).
move: (mean j.2 u) pw => [a b] pw; exact: (junction_le' a b (weight N u) _ _ _ _ pw).
Qed.
End Junctions.

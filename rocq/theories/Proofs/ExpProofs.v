(** ExpProofs.v -- the exponential of an anti-Hermitian matrix. *)
From Coq Require Import Reals ZArith Lia Lra Factorial.
Lemma cv_half (u : nat -> R) l f : Un_cv u l -> (forall N n, (2 * N <= n)%nat -> (N <= f n)%nat) -> Un_cv (fun n => u (f n)) l.
Proof.
  intros H F eps He. destruct (H eps He) as [N HN]. exists (2 * N)%nat. intros n Hn. apply HN. apply F. exact Hn.
Qed.
Definition rc (x : R) (q : nat) : R := match q with O => 0%R | S q' => sum_f_R0 (fun j => Rmult (cos_n j) (pow (Rsqr x) j)) q' end.
Definition rs (x : R) (q : nat) : R := match q with O => 0%R | S q' => Rmult x (sum_f_R0 (fun j => Rmult (sin_n j) (pow (Rsqr x) j)) q') end.
Lemma rcS x q : rc x (S q) = Rplus (rc x q) (Rmult (cos_n q) (pow (Rsqr x) q)).
Proof. destruct q; simpl; ring. Qed.
Lemma rsS x q : rs x (S q) = Rplus (rs x q) (Rmult x (Rmult (sin_n q) (pow (Rsqr x) q))).
Proof. destruct q; simpl; ring. Qed.
Lemma rc_cv x : Un_cv (rc x) (cos x).
Proof.
  unfold cos. destruct (exist_cos (Rsqr x)) as [a Ha]. intros eps He. destruct (Ha eps He) as [N HN].
  exists (S N). intros n Hn. destruct n as [|n]; [lia|]. simpl rc. apply HN. lia.
Qed.
Lemma rs_cv x : Un_cv (rs x) (sin x).
Proof.
  unfold sin. destruct (exist_sin (Rsqr x)) as [a Ha].
  assert (H : Un_cv (fun n => Rmult x (sum_f_R0 (fun j => Rmult (sin_n j) (pow (Rsqr x) j)) n)) (Rmult x a)).
  { apply (CV_mult (fun _ => x)); [|exact Ha]. intros eps He. exists O. intros n _. unfold R_dist.
    rewrite Rminus_eq_0, Rabs_R0. exact He. }
  intros eps He. destruct (H eps He) as [N HN]. exists (S N). intros n Hn. destruct n as [|n]; [lia|]. simpl rs. apply HN. lia.
Qed.
Lemma cos_nE q x : Rmult (cos_n q) (pow (Rsqr x) q) = Rmult (Rinv (INR (fact (2 * q)))) (pow (Ropp (Rmult x x)) q).
Proof.
  unfold cos_n, Rsqr. replace (Ropp (Rmult x x)) with (Rmult (IZR (-1)) (Rmult x x)) by ring.
  rewrite (Rpow_mult_distr (IZR (-1))). unfold Rdiv. ring.
Qed.
Lemma sin_nE q x : Rmult x (Rmult (sin_n q) (pow (Rsqr x) q)) = Rmult (Rinv (INR (fact (2 * q + 1)))) (Rmult x (pow (Ropp (Rmult x x)) q)).
Proof.
  unfold sin_n, Rsqr. replace (Ropp (Rmult x x)) with (Rmult (IZR (-1)) (Rmult x x)) by ring.
  rewrite (Rpow_mult_distr (IZR (-1))). unfold Rdiv. ring.
Qed.
Lemma cv_const c : Un_cv (fun _ => c) c.
Proof. intros eps He. exists O. intros n _. unfold R_dist. rewrite Rminus_eq_0, Rabs_R0. exact He. Qed.
Lemma cv_ext (u v : nat -> R) l : (forall n, u n = v n) -> Un_cv u l -> Un_cv v l.
Proof. intros E H eps He. destruct (H eps He) as [N HN]. exists N. intros n Hn. rewrite <- E. apply HN, Hn. Qed.
Lemma cv_sum u v a b : Un_cv u a -> Un_cv v b -> Un_cv (fun n => Rplus (u n) (v n)) (Rplus a b).
Proof. apply CV_plus. Qed.
Lemma cv_re u v a b c d : Un_cv u a -> Un_cv v b -> Un_cv (fun n => Rplus (Rmult (u n) c) (Ropp (Rmult (v n) d))) (Rplus (Rmult a c) (Ropp (Rmult b d))).
Proof.
  intros H1 H2. apply (CV_minus (fun n => Rmult (u n) c) (fun n => Rmult (v n) d)).
  - apply (CV_mult u (fun _ => c)); [exact H1|apply cv_const].
  - apply (CV_mult v (fun _ => d)); [exact H2|apply cv_const].
Qed.
Lemma cv_im u v a b c d : Un_cv u a -> Un_cv v b -> Un_cv (fun n => Rplus (Rmult (u n) d) (Rmult (v n) c)) (Rplus (Rmult a d) (Rmult b c)).
Proof.
  intros H1 H2. apply (CV_plus (fun n => Rmult (u n) d) (fun n => Rmult (v n) c)).
  - apply (CV_mult u (fun _ => d)); [exact H1|apply cv_const].
  - apply (CV_mult v (fun _ => c)); [exact H2|apply cv_const].
Qed.
From Verif.Model Require Import Base Units Edge Accuracy HamConst.
From mathcomp Require Import all_ssreflect all_algebra.
From mathcomp Require Import complex ring zify.
From Verif.Numerics Require Import RStruct Bridge Spectral.
From Verif.Model Require Import Op Transform Ham.
From Verif.Spec Require Import OpSpec HalfSpec PerturbSpec LevelsSpec SymmetrySpec.
From Verif.Proofs Require Import OpProofs HamProofs HalfProofs MinMaxProofs SymmetryProofs SymmetryProofs4 PhaseMulti.

Set Implicit Arguments.
Unset Strict Implicit.
Unset Printing Implicit Defensive.
Import GRing.Theory Order.TTheory.
Local Open Scope ring_scope.
Local Open Scope complex_scope.

Lemma i_sq : 'i * 'i = -1 :> C.
Proof. by apply/eqP; rewrite eq_complex /= !mulr0 !mul0r !mulr1 sub0r addr0 oppr0 !eqxx. Qed.
Lemma factE k : k`! = fact k.
Proof. by elim: k => // k IH; rewrite factS IH. Qed.

(** Partial sums of e^{ix}. *)
Definition cpart (x : R) (n : nat) : C := \sum_(p < n) ((INR p`!)^-1)%:C * ('i * x%:C) ^+ p.
Lemma ix2 (x : R) q : ('i * x%:C : C) ^+ (2 * q) = ((- (x * x)) ^+ q)%:C.
Proof.
rewrite exprM; have -> : ('i * x%:C : C) ^+ 2 = (- (x * x))%:C.
    by rewrite expr2 mulrACA i_sq mulN1r cRN cRM.
by rewrite -rmorphX.
Qed.
Lemma powE (x : R) q : pow x q = x ^+ q.
Proof. by elim: q => // q IH; rewrite exprS -IH. Qed.
Lemma fact_inv k : Rinv (INR (fact k)) = (INR (fact k))^-1.
Proof. by rewrite RinvE //; apply/eqP; exact: INR_fact_neq_0. Qed.
Lemma cpartS x n : cpart x n.+1 = cpart x n + ((INR n`!)^-1)%:C * ('i * x%:C) ^+ n.
Proof. by rewrite /cpart big_ord_recr. Qed.
Lemma cR_add (a b c : R) : (a +i* b : C) + c%:C = (a + c) +i* b.
Proof. by apply/eqP; rewrite eq_complex /= addr0 !eqxx. Qed.
Lemma iR_add (a b c : R) : (a +i* b : C) + 'i * c%:C = a +i* (b + c).
Proof. by apply/eqP; rewrite eq_complex /= !mul0r !mul1r subr0 !addr0 ?add0r !eqxx. Qed.
Lemma cpart_even x q : cpart x (2 * q) = rc x q +i* rs x q.
Proof.
elim: q => [|q IH]; first by rewrite /cpart big_ord0.
rewrite (_ : (2 * q.+1 = (2 * q).+2)%N); last by lia.
rewrite !cpartS IH exprS ix2 !factE rcS rsS cos_nE sin_nE.
have -> : (2 * q + 1)%coq_nat = (2 * q).+1 by lia.
rewrite !powE !fact_inv !RplusE !RmultE !RoppE.
set c1 := (INR _)^-1; set c2 := (INR _)^-1.
rewrite -cRM cR_add mulrA [_ * ('i * _)]mulrCA -!mulrA -!cRM iR_add.
by [].
Qed.
Lemma cpart_odd x q : cpart x (2 * q).+1 = rc x q.+1 +i* rs x q.
Proof.
by rewrite cpartS cpart_even ix2 factE rcS cos_nE !powE !fact_inv !RplusE !RmultE !RoppE -cRM cR_add.
Qed.
Lemma cpart_cv x : climit (cpart x) (expi x).
Proof.
have E : forall n, cpart x n = rc x (uphalf n) +i* rs x (half n).
    move=> n; rewrite -{1}(odd_double_half n) uphalf_half; case: (odd n) => /=.
      by rewrite -mul2n add1n cpart_odd.
    by rewrite -mul2n !add0n cpart_even.
apply: (climit_ext (u := fun n => rc x (uphalf n) +i* rs x (half n))) => [n|]; first by rewrite E.
split.
  apply: (@cv_half (rc x) (cos x) uphalf); first exact: rc_cv.
  by move=> N n h; lia.
apply: (@cv_half (rs x) (sin x) half); first exact: rs_cv.
by move=> N n h; lia.
Qed.
Lemma climit_add u v y z : climit u y -> climit v z -> climit (fun n => u n + v n) (y + z).
Proof.
case: y z => a b [c d] [h1 h2] [h3 h4]; split.
  refine (@cv_ext _ _ _ _ (cv_sum _ _ _ _ h1 h3)) => n; by case: (u n) (v n) => ? ? [? ?].
refine (@cv_ext _ _ _ _ (cv_sum _ _ _ _ h2 h4)) => n; by case: (u n) (v n) => ? ? [? ?].
Qed.
Lemma climit_mulr u y (z : C) : climit u y -> climit (fun n => u n * z) (y * z).
Proof.
case: y z => a b [c d] [h1 h2]; split.
  refine (@cv_ext _ _ _ _ (cv_re _ _ _ _ c d h1 h2)) => n; by case: (u n) => ? ?.
refine (@cv_ext _ _ _ _ (cv_im _ _ _ _ c d h1 h2)) => n; by case: (u n) => ? ?.
Qed.
Lemma climit_0 : climit (fun _ => 0) 0.
Proof. by split; exact: cv_const. Qed.
Lemma climit_sum N (u : 'I_N -> nat -> C) (y : 'I_N -> C) : (forall k, climit (u k) (y k)) ->
  climit (fun n => \sum_k u k n) (\sum_k y k).
Proof.
elim: N u y => [|N IH] u y H.
  by rewrite big_ord0; apply: (climit_ext _ climit_0) => n; rewrite big_ord0.
rewrite big_ord_recl; apply: (climit_ext (u := fun n => u ord0 n + \sum_k u (lift ord0 k) n)) => [n|].
  by rewrite big_ord_recl.
by apply: climit_add => //; apply: IH.
Qed.

Lemma mix1 (a q w x : C) : a * (q * (w * x)) = a * w * (q * x). Proof. by ring. Qed.
Lemma mix2 (e w q x : C) : e * w * (q * x) = e * q * (w * x). Proof. by ring. Qed.
Lemma mix3 (i s g w : C) : s * i * (- i * g * w) = - (i * i) * (s * g * w). Proof. by ring. Qed.
Lemma mix5 (i s e w : C) : s * i * (e * w) = i * (s * e) * w. Proof. by ring. Qed.
(** The exponential of an anti-Hermitian matrix, from its eigenvectors. *)
Section Exp.
Variables (m : nat) (A : op) (E : nat -> R) (v : nat -> nat -> C).
Hypothesis dA : dim A = m.
Hypothesis eig : forall k a, (k < m)%N -> (a < m)%N -> \sum_(b < m) ent A a b * v k b = 'i * (E k)%:C * v k a.
Hypothesis orth : forall i j, (i < m)%N -> (j < m)%N -> \sum_(a < m) (v i a)^* * v j a = if i == j then 1 else 0.

Lemma complete2 a b : (a < m)%N -> (b < m)%N -> \sum_(k < m) v k a * (v k b)^* = if a == b then 1 else 0.
Proof.
move=> ha hb; have := @complete m v (fun c => if c == b then 1 else 0) a orth ha => /= ->.
apply: eq_bigr => k _; rewrite /dot (bigD1 (Ordinal hb)) //= eqxx mulr1 big1 ?addr0 1?mulrC // => i.
by rewrite -val_eqE /= => /negPf ->; rewrite mulr0.
Qed.
Lemma pow_spec p a b : (a < m)%N -> (b < m)%N ->
  ent (opow A p) a b = \sum_(k < m) ('i * (E k)%:C) ^+ p * (v k a * (v k b)^*).
Proof.
elim: p a b => [|p IH] a b ha hb.
  rewrite e_diag -(complete2 ha hb).
  by apply: eq_bigr => k _; rewrite expr0 mul1r.
rewrite (_ : opow A p.+1 = omul A (opow A p)) // e_mul dA.
under eq_bigr do rewrite IH // mulr_sumr.
rewrite exchange_big /=; apply: eq_bigr => k _.
transitivity ((\sum_(c < m) ent A a c * v k c) * (('i * (E k)%:C) ^+ p * (v k b)^*)).
  by rewrite mulr_suml; apply: eq_bigr => c _; exact: mix1.
by rewrite eig // exprS; exact: mix2.
Qed.
Lemma exp_spec a b : (a < m)%N -> (b < m)%N ->
  climit (fun n => partial_exp A n a b) (\sum_(k < m) expi (E k) * (v k a * (v k b)^*)).
Proof.
move=> ha hb; apply: (climit_ext (u := fun n => \sum_(k < m) cpart (E k) n * (v k a * (v k b)^*))) => [n|].
  rewrite /partial_exp /cpart; under eq_bigr do rewrite mulr_suml.
  rewrite exchange_big /=; apply: eq_bigr => p _; rewrite pow_spec // mulr_sumr.
  by apply: eq_bigr => k _; rewrite [RHS]mulrA.
by apply: climit_sum => k; apply: climit_mulr; exact: cpart_cv.
Qed.
End Exp.

(** The generator of a displacement has purely imaginary eigenvalues. *)
Lemma gen_anti m a i j : - (ent (gen m a) j i)^* = ent (gen m a) i j.
Proof.
rewrite /gen !e_sub !e_scale /create !e_adj !(cjM, cjB, cjK, cjN) !(ladder_real _ _ _).1.
by rewrite opprB.
Qed.
Lemma gen_scale m a (s : R) i j : ent (gen m (s%:C * a)) i j = s%:C * ent (gen m a) i j.
Proof. by rewrite /gen !e_sub !e_scale cjM cjR mulrBr !mulrA. Qed.
Lemma gen_line m (a : C) : exists (E : nat -> R) (v : nat -> nat -> C),
  (forall i j, (i < m)%N -> (j < m)%N -> \sum_(b < m) (v i b)^* * v j b = if i == j then 1 else 0) /\
  forall (s : R) i j, (i < m)%N -> (j < m)%N ->
  climit (fun n => partial_exp (gen m (s%:C * a)) n i j) (\sum_(k < m) expi (s * E k) * (v k i * (v k j)^*)).
Proof.
have H : forall i j, (i < m)%N -> (j < m)%N -> - 'i * ent (gen m a) i j = conjc (- 'i * ent (gen m a) j i).
  by move=> i j _ _; rewrite cjM cjN iconj opprK -gen_anti mulNr mulrN opprK.
have [E [v [_ eig orth]]] := spectral (h := fun i j => - 'i * ent (gen m a) i j) H.
exists E, v; split=> // s i j hi hj.
apply: (@exp_spec m (gen m (s%:C * a)) (fun k => s * E k) v) => // k b hk hb.
have := eig k b hk hb => e.
under eq_bigr do rewrite gen_scale.
have -> : \sum_(i0 < m) s%:C * ent (gen m a) b i0 * v k i0 = s%:C * 'i * \sum_(i0 < m) - 'i * ent (gen m a) b i0 * v k i0.
  rewrite mulr_sumr; apply: eq_bigr => c _.
  by rewrite mix3 i_sq opprK mul1r.
by rewrite e cRM; exact: mix5.
Qed.

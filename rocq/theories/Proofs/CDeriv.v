(** CDeriv.v -- derivatives of complex-valued functions of a real parameter. *)
From Coq Require Import Reals Lra.
From Verif.Spec Require Import ThermalSpec.
From Verif.Proofs Require Import ThermalProofs.
Open Scope R_scope.

Lemma hd_ext f g t d : (forall u, f u = g u) -> has_derivative f t d -> has_derivative g t d.
Proof.
  intros H D eps He. destruct (D eps He) as [delta [Hd P]]. exists delta. split; [exact Hd|].
  intros h Hh Hl. rewrite <- !H. apply P; assumption.
Qed.
Lemma hd_const c t : has_derivative (fun _ => c) t 0.
Proof. apply has_derivative_iff, derivable_pt_lim_const. Qed.
Lemma hd_add f g t d e : has_derivative f t d -> has_derivative g t e ->
  has_derivative (fun u => f u + g u) t (d + e).
Proof. rewrite !has_derivative_iff. apply derivable_pt_lim_plus. Qed.
Lemma hd_opp f t d : has_derivative f t d -> has_derivative (fun u => - f u) t (- d).
Proof. rewrite !has_derivative_iff. apply derivable_pt_lim_opp. Qed.
Lemma hd_mul f g t d e : has_derivative f t d -> has_derivative g t e ->
  has_derivative (fun u => f u * g u) t (d * g t + f t * e).
Proof. rewrite !has_derivative_iff. apply derivable_pt_lim_mult. Qed.
Lemma hd_scal c f t d : has_derivative f t d -> has_derivative (fun u => c * f u) t (c * d).
Proof. rewrite !has_derivative_iff. intros H. apply (derivable_pt_lim_scal f c t d H). Qed.
Lemma hd_id t : has_derivative (fun u => u) t 1.
Proof. apply has_derivative_iff, derivable_pt_lim_id. Qed.
Lemma hd_eq f t d e : has_derivative f t d -> d = e -> has_derivative f t e.
Proof. intros H <-. exact H. Qed.
Lemma hd_affine a b c t : has_derivative (fun u => a + (u - b) * c) t c.
Proof.
  eapply hd_eq.
  - apply (hd_add (fun _ => a) (fun u => (u - b) * c)); [apply hd_const|].
    apply (hd_mul (fun u => u - b) (fun _ => c)); [|apply hd_const].
    apply (hd_add (fun u => u) (fun _ => - b)); [apply hd_id | apply hd_const].
  - ring.
Qed.
Lemma hd_cos f t d : has_derivative f t d -> has_derivative (fun u => cos (f u)) t (- (sin (f t) * d)).
Proof.
  rewrite !has_derivative_iff. intros H. replace (- (sin (f t) * d)) with (- sin (f t) * d) by ring.
  apply (derivable_pt_lim_comp f cos); [exact H | apply derivable_pt_lim_cos].
Qed.
Lemma hd_sin f t d : has_derivative f t d -> has_derivative (fun u => sin (f u)) t (cos (f t) * d).
Proof.
  rewrite !has_derivative_iff. intros H.
  apply (derivable_pt_lim_comp f sin); [exact H | apply derivable_pt_lim_sin].
Qed.
Lemma hd_inv f t d : has_derivative f t d -> f t <> 0 ->
  has_derivative (fun u => / f u) t (- d / (f t * f t)).
Proof.
  rewrite !has_derivative_iff. intros H N.
  pose proof (derivable_pt_lim_div (fun _ => 1) f t 0 d (derivable_pt_lim_const 1 t) H N) as D.
  replace (- d / (f t * f t)) with ((0 * f t - d * 1) / Rsqr (f t)) by (unfold Rsqr; field; exact N).
  apply has_derivative_iff in D. apply has_derivative_iff.
  eapply hd_ext; [|exact D]. intros u. unfold div_fct, Rdiv. apply Rmult_1_l.
Qed.
Ltac rring := ring.
From mathcomp Require Import all_ssreflect all_algebra.
From mathcomp Require Import complex ring.
From Verif.Numerics Require Import RStruct Bridge.
From Verif.Model Require Import Op.
From Verif.Spec Require Import GradSpec.
From Verif.Proofs Require Import OpProofs.

Set Implicit Arguments.
Unset Strict Implicit.
Unset Printing Implicit Defensive.
Import GRing.Theory.
Local Open Scope ring_scope.
Local Open Scope complex_scope.

Lemma ReD (a b : C) : complex.Re (a + b) = complex.Re a + complex.Re b. Proof. by case: a; case: b. Qed.
Lemma ImD (a b : C) : complex.Im (a + b) = complex.Im a + complex.Im b. Proof. by case: a; case: b. Qed.
Lemma ReN (a : C) : complex.Re (- a) = - complex.Re a. Proof. by case: a. Qed.
Lemma ImN (a : C) : complex.Im (- a) = - complex.Im a. Proof. by case: a. Qed.
Lemma ReM (a b : C) : complex.Re (a * b) = complex.Re a * complex.Re b + - (complex.Im a * complex.Im b).
Proof. by case: a; case: b. Qed.
Lemma ImM (a b : C) : complex.Im (a * b) = complex.Re a * complex.Im b + complex.Im a * complex.Re b.
Proof. by case: a; case: b. Qed.
Lemma ReJ (a : C) : complex.Re a^* = complex.Re a. Proof. by case: a. Qed.
Lemma ImJ (a : C) : complex.Im a^* = - complex.Im a. Proof. by case: a. Qed.

Lemma cd_ext f g t z : (forall u, f u = g u) -> cderiv f t z -> cderiv g t z.
Proof. by move=> H [D1 D2]; split; [apply: hd_ext D1 | apply: hd_ext D2] => u; rewrite H. Qed.
Lemma cd_eq f t z z' : cderiv f t z -> z = z' -> cderiv f t z'.
Proof. by move=> H <-. Qed.
Lemma cd_const c t : cderiv (fun=> c) t 0.
Proof. by split; apply: hd_const. Qed.
Lemma cd_add f g t z w : cderiv f t z -> cderiv g t w -> cderiv (fun u => f u + g u) t (z + w).
Proof.
move=> [F1 F2] [G1 G2]; split; rewrite ?ReD ?ImD.
  by apply: hd_ext (hd_add _ _ _ _ _ F1 G1) => u; rewrite ReD.
by apply: hd_ext (hd_add _ _ _ _ _ F2 G2) => u; rewrite ImD.
Qed.
Lemma cd_opp f t z : cderiv f t z -> cderiv (fun u => - f u) t (- z).
Proof.
move=> [F1 F2]; split; rewrite ?ReN ?ImN.
  by apply: hd_ext (hd_opp _ _ _ F1) => u; rewrite ReN.
by apply: hd_ext (hd_opp _ _ _ F2) => u; rewrite ImN.
Qed.
Lemma cd_conj f t z : cderiv f t z -> cderiv (fun u => (f u)^*) t z^*.
Proof.
move=> [F1 F2]; split; rewrite ?ReJ ?ImJ.
  by apply: hd_ext F1 => u; rewrite ReJ.
by apply: hd_ext (hd_opp _ _ _ F2) => u; rewrite ImJ.
Qed.
Lemma cd_mul f g t z w : cderiv f t z -> cderiv g t w ->
  cderiv (fun u => f u * g u) t (z * g t + f t * w).
Proof.
move=> [F1 F2] [G1 G2]; split.
  apply: hd_eq.
    by apply: hd_ext (hd_add _ _ _ _ _ (hd_mul _ _ _ _ _ F1 G1) (hd_opp _ _ _ (hd_mul _ _ _ _ _ F2 G2))) => u; rewrite ReM.
  by rewrite ReD !ReM; case: z w (f t) (g t) {F1 F2 G1 G2} => [z1 z2] [w1 w2] [f1 f2] [g1 g2] /=; rewrite -?RplusE -?RmultE -?RoppE; rring.
apply: hd_eq.
  by apply: hd_ext (hd_add _ _ _ _ _ (hd_mul _ _ _ _ _ F1 G2) (hd_mul _ _ _ _ _ F2 G1)) => u; rewrite ImM.
by rewrite ImD !ImM; case: z w (f t) (g t) {F1 F2 G1 G2} => [z1 z2] [w1 w2] [f1 f2] [g1 g2] /=; rewrite -?RplusE -?RmultE -?RoppE; rring.
Qed.
Lemma cd_scale c f t z : cderiv f t z -> cderiv (fun u => c * f u) t (c * z).
Proof. by move=> F; apply: cd_eq (cd_mul (cd_const c t) F) _; rewrite mul0r add0r. Qed.
Lemma cd_scaler c f t z : cderiv f t z -> cderiv (fun u => f u * c) t (z * c).
Proof. by move=> F; apply: cd_eq (cd_mul F (cd_const c t)) _; rewrite mulr0 addr0. Qed.
Lemma cd_real f t d : has_derivative f t d -> cderiv (fun u => (f u)%:C) t d%:C.
Proof. by move=> F; split=> //=; apply: hd_const. Qed.
Lemma cd_sum (K : Type) (r : seq K) (P : pred K) (F : K -> R -> C) (G : K -> C) t :
  (forall k, List.In k r -> P k -> cderiv (F k) t (G k)) ->
  cderiv (fun u => \sum_(k <- r | P k) F k u) t (\sum_(k <- r | P k) G k).
Proof.
elim: r => [|k r IH] H.
  by rewrite big_nil; apply: cd_ext (cd_const 0 t) => u; rewrite big_nil.
have IH' := IH (fun j hj => H j (or_intror hj)).
rewrite big_cons; case Pk: (P k); last by apply: cd_ext IH' => u; rewrite big_cons Pk.
by apply: cd_ext (cd_add (H k (or_introl erefl) Pk) IH') => u; rewrite big_cons Pk.
Qed.
Lemma cd_sum_ord n (F : 'I_n -> R -> C) (G : 'I_n -> C) t :
  (forall k, cderiv (F k) t (G k)) -> cderiv (fun u => \sum_k F k u) t (\sum_k G k).
Proof. by move=> H; apply: cd_sum => k _ _; apply: H. Qed.
Lemma cd_expi f t d : has_derivative f t d -> cderiv (fun u => expi (f u)) t ('i * d%:C * expi (f t)).
Proof.
have -> : 'i * d%:C = 0 +i* d by simpc.
move=> F; split=> /=.
  by apply: hd_eq; [apply: hd_cos F|]; rewrite mul0r sub0r; congr (- _); apply: Rmult_comm.
by apply: hd_eq; [apply: hd_sin F|]; rewrite mul0r add0r; apply: Rmult_comm.
Qed.
Lemma cd_unique f t z z' : cderiv f t z -> cderiv f t z' -> z = z'.
Proof.
move=> [F1 F2] [G1 G2]; apply/eqP; rewrite eq_complex.
by rewrite (has_derivative_unique _ _ _ _ F1 G1) (has_derivative_unique _ _ _ _ F2 G2) !eqxx.
Qed.

(** HermiteFn.v -- ladder equations, differential equation and orthonormality of the
    Hermite functions. *)
From Coq Require Import Reals Lra Lia.
From Coquelicot Require Import Coquelicot.
From Verif.Numerics Require Import Gauss.
From Verif.Spec Require Import HermiteSpec.
Open Scope R_scope.

Lemma nat2_ind (P : nat -> Prop) : P 0%nat -> P 1%nat -> (forall n, P n -> P (S n) -> P (S (S n))) -> forall n, P n.
Proof. intros H0 H1 H2 n. enough (P n /\ P (S n)) by tauto. induction n; intuition auto. Qed.

Lemma HpS n x : Hp (S (S n)) x = 2 * x * Hp (S n) x - 2 * INR (S n) * Hp n x.
Proof. reflexivity. Qed.
Lemma Hp1 x : Hp 1 x = 2 * x. Proof. reflexivity. Qed.
Lemma Hp0 x : Hp 0 x = 1. Proof. reflexivity. Qed.
Lemma HeS n x : He (S (S n)) x = x * He (S n) x - INR (S n) * He n x.
Proof. reflexivity. Qed.

Lemma s2 : sqrt 2 * sqrt 2 = 2. Proof. apply sqrt_sqrt; lra. Qed.
Lemma s2_pos : 0 < sqrt 2. Proof. apply sqrt_lt_R0; lra. Qed.

(** He_n(sqrt 2 x) sqrt(2)^n = H_n(x). *)
Lemma He_Hp n x : He n (sqrt 2 * x) * sqrt 2 ^ n = Hp n x.
Proof.
  revert n. apply nat2_ind.
  - simpl; ring.
  - simpl. replace (sqrt 2 * x * (sqrt 2 * 1)) with (sqrt 2 * sqrt 2 * x) by ring. rewrite s2; ring.
  - intros n I0 I1. rewrite HpS, HeS, <- I0, <- I1.
    cbn [pow]. generalize (He (S n) (sqrt 2 * x)), (He n (sqrt 2 * x)), (sqrt 2 ^ n), (INR (S n)). intros a b c d.
    replace ((sqrt 2 * x * a - d * b) * (sqrt 2 * (sqrt 2 * c)))
      with (sqrt 2 * sqrt 2 * (x * a * (sqrt 2 * c)) - sqrt 2 * sqrt 2 * d * b * c) by ring.
    rewrite s2. ring.
Qed.

Lemma Hp_der n (x : R) : is_derive (Hp n) x (2 * x * Hp n x - Hp (S n) x) /\
  is_derive (Hp (S n)) x (2 * INR (S n) * Hp n x).
Proof.
  induction n as [|n [I1 I2]].
  - split.
    + apply (is_derive_ext (fun _ => 1)); [reflexivity|]. rewrite Hp0, Hp1.
      replace (2 * x * 1 - 2 * x) with 0 by ring. auto_derive; auto.
    + apply (is_derive_ext (fun x => 2 * x)); [reflexivity|]. rewrite Hp0. simpl. auto_derive; auto; ring.
  - split.
    + rewrite HpS. replace (2 * x * Hp (S n) x - (2 * x * Hp (S n) x - 2 * INR (S n) * Hp n x))
        with (2 * INR (S n) * Hp n x) by ring. exact I2.
    + apply (is_derive_ext (fun x => 2 * x * Hp (S n) x - 2 * INR (S n) * Hp n x)); [reflexivity|].
      evar_last.
      * apply (is_derive_minus (fun x => 2 * x * Hp (S n) x) (fun x => 2 * INR (S n) * Hp n x)).
        -- apply (is_derive_mult (fun x => 2 * x) (Hp (S n)) x 2); [auto_derive; auto; ring|exact I2|].
           intros; apply Rmult_comm.
        -- apply (is_derive_scal (Hp n) x (2 * INR (S n))). exact I1.
      * unfold minus, plus, opp, mult; simpl plus. simpl mult. cbn -[Hp INR]. rewrite (S_INR (S n)). ring.
Qed.

(** ** Normalisation *)
Definition nrm (n : nat) : R := sqrt (sqrt PI * 2 ^ n * INR (fact n)).
Lemma nrm_pos n : 0 < nrm n.
Proof.
  apply sqrt_lt_R0. repeat apply Rmult_lt_0_compat; [apply sqrt_lt_R0, PI_RGT_0|apply pow_lt; lra|].
  apply INR_fact_lt_0.
Qed.
Lemma nrmS n : nrm (S n) = sqrt (2 * INR (S n)) * nrm n.
Proof.
  unfold nrm. rewrite <- sqrt_mult_alt.
  - f_equal. rewrite fact_simpl, mult_INR. cbn [pow]. ring.
  - assert (P := pos_INR (S n)). lra.
Qed.
Definition rt (n : nat) : R := sqrt (2 * INR (S n)).
Lemma rt_pos n : 0 < rt n.
Proof. apply sqrt_lt_R0. assert (P := lt_0_INR (S n) (Nat.lt_0_succ n)). lra. Qed.
Lemma rt2 n : rt n * rt n = 2 * INR (S n).
Proof. apply sqrt_sqrt. assert (P := pos_INR (S n)). lra. Qed.
Lemma hfunE n x : hfun n x = Hp n x * exp (- (x * x) / 2) / nrm n.
Proof. reflexivity. Qed.

(** h_n' = x h_n - sqrt(2(n+1)) h_{n+1},  h_{n+1}' = sqrt(2(n+1)) h_n - x h_{n+1}. *)
Lemma gauss_der (x : R) : is_derive (fun x => exp (- (x * x) / 2)) x (- x * exp (- (x * x) / 2)).
Proof. auto_derive; auto. unfold Rdiv. set (u := exp _). lra. Qed.
Lemma hfun_der_gen n d (x : R) : is_derive (Hp n) x d ->
  is_derive (hfun n) x ((d - x * Hp n x) * exp (- (x * x) / 2) / nrm n).
Proof.
  intros D. apply (is_derive_ext (fun x => / nrm n * (Hp n x * exp (- (x * x) / 2)))).
  { intros t. rewrite hfunE. unfold Rdiv. apply Rmult_comm. }
  evar_last.
  - apply (is_derive_scal (fun x => Hp n x * exp (- (x * x) / 2)) x (/ nrm n)).
    apply (is_derive_mult (Hp n) (fun x => exp (- (x * x) / 2)) x); [exact D|apply gauss_der|].
    intros; apply Rmult_comm.
  - unfold plus, mult; cbn -[Hp]. unfold Rdiv. ring.
Qed.
Lemma hfun_up n (x : R) : is_derive (hfun n) x (x * hfun n x - rt n * hfun (S n) x).
Proof.
  evar_last; [apply (hfun_der_gen n _ x (proj1 (Hp_der n x)))|].
  rewrite !hfunE, nrmS. fold (rt n). field. split; apply Rgt_not_eq; [apply nrm_pos|apply rt_pos].
Qed.
Lemma hfun_down n (x : R) : is_derive (hfun (S n)) x (rt n * hfun n x - x * hfun (S n) x).
Proof.
  evar_last; [apply (hfun_der_gen (S n) _ x (proj2 (Hp_der n x)))|].
  rewrite !hfunE, nrmS. fold (rt n). rewrite <- rt2. field. split; apply Rgt_not_eq; [apply nrm_pos|apply rt_pos].
Qed.

(** sqrt 2 x h_n = sqrt(n+1) h_{n+1} + sqrt n h_{n-1}, twice. *)
Lemma hfun_x0 (x : R) : 2 * x * hfun 0 x = rt 0 * hfun 1 x.
Proof.
  assert (E := is_derive_unique _ _ _ (hfun_up 0 x)).
  assert (D : is_derive (Hp 0) x 0).
  { apply (is_derive_ext (fun _ => 1)); [reflexivity|]. auto_derive; auto. }
  assert (E' := is_derive_unique _ _ _ (hfun_der_gen 0 0 x D)).
  rewrite E in E'. rewrite (hfunE 0) in *. rewrite Hp0 in *. unfold Rdiv in *. nra.
Qed.
Lemma hfun_xS n (x : R) : 2 * x * hfun (S n) x = rt (S n) * hfun (S (S n)) x + rt n * hfun n x.
Proof.
  assert (E := is_derive_unique _ _ _ (hfun_up (S n) x)).
  assert (E' := is_derive_unique _ _ _ (hfun_down n x)). rewrite E in E'. lra.
Qed.

(** Harmonic oscillator. *)
Lemma hfun_ode n (x : R) : is_derive (Derive (hfun n)) x ((x * x - (2 * INR n + 1)) * hfun n x).
Proof.
  apply (is_derive_ext (fun x => x * hfun n x - rt n * hfun (S n) x)).
  { intros t; symmetry; apply is_derive_unique, hfun_up. }
  evar_last.
  - apply (is_derive_minus (fun x => x * hfun n x) (fun x => rt n * hfun (S n) x)).
    + apply (is_derive_mult (fun x => x) (hfun n) x 1); [auto_derive; auto|apply hfun_up|intros; apply Rmult_comm].
    + apply (is_derive_scal (hfun (S n)) x (rt n)). apply hfun_down.
  - unfold minus, plus, opp, mult; cbn -[hfun INR].
    assert (R := rt2 n). rewrite S_INR in R.
    replace (1 * hfun n x + x * (x * hfun n x - rt n * hfun (S n) x) + - (rt n * (rt n * hfun n x - x * hfun (S n) x)))
      with ((1 + x * x) * hfun n x - rt n * rt n * hfun n x) by ring. rewrite R. ring.
Qed.

(** ** Decay *)
Definition fast (f : R -> R) : Prop := forall k, exists C, forall x, Rabs (x ^ k * f x) <= C.

Lemma fast_x f : fast f -> fast (fun x => x * f x).
Proof.
  intros H k. destruct (H (S k)) as [C HC]. exists C. intros x.
  replace (x ^ k * (x * f x)) with (x ^ S k * f x) by (cbn [pow]; ring). apply HC.
Qed.
Lemma fast_scal c f : fast f -> fast (fun x => c * f x).
Proof.
  intros H k. destruct (H k) as [C HC]. exists (Rabs c * C). intros x.
  replace (x ^ k * (c * f x)) with (c * (x ^ k * f x)) by ring. rewrite Rabs_mult.
  apply Rmult_le_compat_l; [apply Rabs_pos|apply HC].
Qed.
Lemma fast_plus f g : fast f -> fast g -> fast (fun x => f x + g x).
Proof.
  intros Hf Hg k. destruct (Hf k) as [C HC], (Hg k) as [D HD]. exists (C + D). intros x.
  rewrite Rmult_plus_distr_l. eapply Rle_trans; [apply Rabs_triang|]. apply Rplus_le_compat; auto.
Qed.
Lemma fast_mult f g : fast f -> fast g -> fast (fun x => f x * g x).
Proof.
  intros Hf Hg k. destruct (Hf k) as [C HC], (Hg 0%nat) as [D HD]. exists (C * D). intros x.
  replace (x ^ k * (f x * g x)) with ((x ^ k * f x) * (x ^ 0 * g x)) by (simpl; ring). rewrite Rabs_mult.
  apply Rmult_le_compat; auto; apply Rabs_pos.
Qed.
Lemma fast_ext f g : (forall x, f x = g x) -> fast f -> fast g.
Proof. intros E H k. destruct (H k) as [C HC]. exists C. intros x. rewrite <- E. apply HC. Qed.

Lemma fast_gauss : fast (fun x => exp (- (x * x) / 2)).
Proof.
  intros [|k].
  - exists 1. intros x. simpl. rewrite Rmult_1_l, Rabs_pos_eq by (apply Rlt_le, exp_pos).
    rewrite <- exp_0. assert (Q := Rle_0_sqr x). unfold Rsqr in Q.
    destruct (Req_dec (x * x) 0) as [Z|Z]; [rewrite Z; right; f_equal; lra|]. apply Rlt_le, exp_increasing. lra.
  - exists (INR (S k) ^ S k). intros x.
    assert (K : 0 < INR (S k)) by (apply lt_0_INR; lia). assert (K1 : 1 <= INR (S k)) by (apply (le_INR 1); lia).
    replace (- (x * x) / 2) with (INR (S k) * (- (x * x) / (2 * INR (S k)))) by (field; lra).
    assert (E : forall y n, exp (INR n * y) = exp y ^ n).
    { intros y; induction n as [|n IH]; [simpl; rewrite Rmult_0_l; apply exp_0|].
      rewrite S_INR, Rmult_plus_distr_r, exp_plus, IH, Rmult_1_l. cbn [pow]. ring. }
    rewrite E, <- Rpow_mult_distr, <- RPow_abs. apply pow_incr. split; [apply Rabs_pos|].
    rewrite Rabs_mult, (Rabs_pos_eq (exp _)) by (apply Rlt_le, exp_pos).
    replace (- (x * x) / (2 * INR (S k))) with (- (x * x / (2 * INR (S k)))) by (field; lra). rewrite exp_Ropp.
    set (y := x * x / (2 * INR (S k))).
    assert (Y : 1 + y <= exp y).
    { destruct (Req_dec y 0) as [->|]; [rewrite exp_0; lra|]. apply Rlt_le, exp_ineq1; auto. }
    apply Rle_div_l; [apply exp_pos|].
    apply Rle_trans with (INR (S k) * (1 + y)); [|apply Rmult_le_compat_l; lra].
    unfold y. replace (INR (S k) * (1 + x * x / (2 * INR (S k)))) with (INR (S k) + x * x / 2) by (field; lra).
    assert (A : x * x = Rabs x * Rabs x) by (rewrite <- Rabs_mult, Rabs_pos_eq; [ring|apply Rle_0_sqr]). rewrite A.
    assert (0 <= (Rabs x - 1) * (Rabs x - 1)) by apply Rle_0_sqr. lra.
Qed.

Lemma hfun_fast n : fast (hfun n).
Proof.
  assert (F : forall n, fast (fun x => Hp n x * exp (- (x * x) / 2))).
  { apply nat2_ind.
    - apply fast_ext with (2 := fast_gauss). intros x. rewrite Hp0. ring.
    - apply fast_ext with (2 := fast_scal 2 _ (fast_x _ fast_gauss)). intros x. rewrite Hp1. ring.
    - intros m I0 I1. apply fast_ext with (2 := fast_plus _ _ (fast_scal 2 _ (fast_x _ I1)) (fast_scal (- 2 * INR (S m)) _ I0)).
      intros x. rewrite HpS. ring. }
  apply fast_ext with (2 := fast_scal (/ nrm n) _ (F n)). intros x. rewrite hfunE. unfold Rdiv. ring.
Qed.

Lemma fast_lim f : fast f -> is_lim f p_infty 0 /\ is_lim f m_infty 0.
Proof.
  intros H. destruct (H 1%nat) as [C HC].
  assert (B : forall x, 0 < Rabs x -> - (C * / Rabs x) <= f x <= C * / Rabs x).
  { intros x Hx. apply Rabs_le_between. specialize (HC x). rewrite Rabs_mult, pow_1 in HC.
    apply (Rmult_le_reg_l (Rabs x)); auto. replace (Rabs x * (C * / Rabs x)) with C by (field; lra). exact HC. }
  assert (L : is_lim (fun x => C * / x) p_infty 0).
  { replace (Finite 0) with (Rbar_mult C (Rbar_inv p_infty)) by (simpl; f_equal; ring).
    apply (is_lim_scal_l Rinv C p_infty). apply is_lim_Rinv_p || idtac.
    apply (is_lim_inv (fun x => x) p_infty p_infty); [apply is_lim_id|discriminate]. }
  assert (Lm : is_lim (fun x => C * / x) m_infty 0).
  { replace (Finite 0) with (Rbar_mult C (Rbar_inv m_infty)) by (simpl; f_equal; ring).
    apply (is_lim_scal_l Rinv C m_infty).
    apply (is_lim_inv (fun x => x) m_infty m_infty); [apply is_lim_id|discriminate]. }
  assert (O : forall l g, is_lim g l 0 -> is_lim (fun x => - g x) l 0).
  { intros l g Hg. replace (Finite 0) with (Rbar_opp 0) by (simpl; f_equal; ring). apply is_lim_opp, Hg. }
  split.
  - apply is_lim_le_le_loc with (f := fun x => - (C * / x)) (g := fun x => C * / x); auto.
    exists 0. intros x Hx. assert (Q : Rabs x = x) by (apply Rabs_pos_eq; lra).
    specialize (B x). rewrite Q in B. apply B; lra.
  - apply is_lim_le_le_loc with (f := fun x => - - (C * / x)) (g := fun x => - (C * / x)); auto.
    exists 0. intros x Hx. assert (Q : Rabs x = - x) by (apply Rabs_left; auto).
    specialize (B x). rewrite Q in B. assert (I : / - x = - / x) by (field; lra). rewrite I in B.
    specialize (B ltac:(lra)). lra.
Qed.

(** ** Orthonormality *)
Lemma over_line_fast F f : (forall x : R, is_derive F x (f x)) -> fast F -> over_line f 0.
Proof.
  intros D H. destruct (fast_lim F H) as [P M]. exists F, 0, 0. split; [exact D|]. split; [exact P|].
  split; [exact M|]. ring.
Qed.

Lemma hder_fast n : fast (Derive (hfun n)).
Proof.
  apply fast_ext with (fun x => x * hfun n x + - rt n * hfun (S n) x).
  - intros x. rewrite (is_derive_unique _ _ _ (hfun_up n x)). ring.
  - apply fast_plus; [apply fast_x, hfun_fast|apply fast_scal, hfun_fast].
Qed.
Lemma hfun_derivable n (x : R) : is_derive (hfun n) x (Derive (hfun n) x).
Proof. rewrite (is_derive_unique _ _ _ (hfun_up n x)). apply hfun_up. Qed.

Lemma hfun_ortho m n : m <> n -> over_line (fun x => hfun m x * hfun n x) 0.
Proof.
  intros N. set (c := / (2 * (INR n - INR m))).
  assert (NZ : INR n - INR m <> 0) by (intros E; apply N, INR_eq; lra).
  apply (over_line_fast (fun x => c * (Derive (hfun m) x * hfun n x + -1 * (hfun m x * Derive (hfun n) x)))).
  - intros x. evar_last.
    + apply (is_derive_scal (fun x => Derive (hfun m) x * hfun n x + -1 * (hfun m x * Derive (hfun n) x)) x c).
      apply (is_derive_plus (fun x => Derive (hfun m) x * hfun n x) (fun x => -1 * (hfun m x * Derive (hfun n) x))).
      * apply (is_derive_mult (Derive (hfun m)) (hfun n) x); [apply hfun_ode|apply hfun_derivable|intros; apply Rmult_comm].
      * apply (is_derive_scal (fun x => hfun m x * Derive (hfun n) x) x (-1)).
        apply (is_derive_mult (hfun m) (Derive (hfun n)) x); [apply hfun_derivable|apply hfun_ode|intros; apply Rmult_comm].
    + unfold plus, mult; cbn -[hfun INR Derive]. unfold c. field. lra.
  - apply fast_scal, fast_plus; [|apply fast_scal]; apply fast_mult; auto using hfun_fast, hder_fast.
Qed.

Lemma hfun_norm n : over_line (fun x => hfun n x * hfun n x) 1.
Proof.
  induction n as [|n IH].
  - assert (SP : 0 < sqrt PI) by apply sqrt_lt_R0, PI_RGT_0.
    replace 1 with (/ sqrt PI * sqrt PI) by (field; lra).
    apply over_line_ext with (fun x => / sqrt PI * bell x); [|apply over_line_scal, gauss_integral].
    intros x. rewrite hfunE, Hp0. unfold nrm, bell. cbn [pow fact INR]. rewrite !Rmult_1_r.
    replace (1 * exp (- (x * x) / 2) / sqrt (sqrt PI) * (1 * exp (- (x * x) / 2) / sqrt (sqrt PI)))
      with (exp (- (x * x) / 2) * exp (- (x * x) / 2) * / (sqrt (sqrt PI) * sqrt (sqrt PI)))
      by (field; apply Rgt_not_eq, sqrt_lt_R0, SP).
    rewrite <- exp_plus, sqrt_sqrt by lra. rewrite Rmult_comm. f_equal. f_equal. field.
  - assert (R := rt_pos n).
    assert (Z : over_line (fun x => hfun (S n) x * hfun (S n) x + -1 * (hfun n x * hfun n x)) 0).
    { apply (over_line_fast (fun x => - / rt n * (hfun n x * hfun (S n) x))).
      - intros x. evar_last.
        + apply (is_derive_scal (fun x => hfun n x * hfun (S n) x) x (- / rt n)).
          apply (is_derive_mult (hfun n) (hfun (S n)) x); [apply hfun_up|apply hfun_down|intros; apply Rmult_comm].
        + unfold plus, mult; cbn -[hfun INR Derive]. field. lra.
      - apply fast_scal, fast_mult; apply hfun_fast. }
    replace 1 with (0 + 1) by ring.
    apply over_line_ext with (fun x => (hfun (S n) x * hfun (S n) x + -1 * (hfun n x * hfun n x)) + hfun n x * hfun n x).
    { intros x. ring. }
    apply over_line_plus; assumption.
Qed.

Theorem hfun_orthonormal m n :
  over_line (fun x => hfun m x * hfun n x) (if Nat.eqb m n then 1 else 0).
Proof.
  destruct (Nat.eqb_spec m n) as [->|N]; [apply hfun_norm|apply hfun_ortho; exact N].
Qed.

(** H_{2k}(0) is not zero. *)
Lemma Hp_even0 k : Hp (2 * k) 0 <> 0.
Proof.
  induction k as [|k IH]; [rewrite Hp0; lra|].
  replace (2 * S k)%nat with (S (S (2 * k))) by lia. rewrite HpS.
  assert (P : 0 < INR (S (2 * k))) by (apply lt_0_INR; lia). intros E. apply IH.
  assert (E' : 2 * INR (S (2 * k)) * Hp (2 * k) 0 = 0) by lra.
  destruct (Rmult_integral _ _ E'); [lra|assumption].
Qed.

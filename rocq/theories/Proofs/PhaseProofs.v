(** PhaseProofs.v -- the factors of harmonic modes against the oscillator functions. *)
From Coq Require Import Reals Lra Lia.
From Coquelicot Require Import Coquelicot.
From Verif.Numerics Require Import Gauss HermiteFn.
From Verif.Spec Require Import HermiteSpec.
From Verif.Model Require Import Base Units Accuracy HamConst PhaseConst.
Open Scope R_scope.

Lemma Phi0_pos : 0 < Phi0. Proof. unfold Phi0; lra. Qed.
Lemma hbar_pos : 0 < hbar. Proof. unfold hbar; lra. Qed.
Lemma len0_pos cI lT : 0 < cI -> 0 < lT -> 0 < len0 cI lT.
Proof.
  intros H K. apply sqrt_lt_R0, Rmult_lt_0_compat; [exact hbar_pos|]. apply sqrt_lt_R0, Rdiv_lt_0_compat; auto.
Qed.

Lemma exp_half_ln a : 0 < a -> exp (1 / 2 * ln a) = sqrt a.
Proof.
  intros H. replace (1 / 2 * ln a) with (/ 2 * ln a) by field. change (Rpower a (/ 2) = sqrt a). now apply Rpower_sqrt.
Qed.
Lemma exp_sum_ln n : exp (sum_ln n) = INR (fact n).
Proof.
  induction n as [|n IH]; [apply exp_0|].
  change (sum_ln (S n)) with (sum_ln n + ln (INR (S n))). rewrite exp_plus, IH, exp_ln by (apply lt_0_INR; lia).
  rewrite fact_simpl, mult_INR. ring.
Qed.
Lemma exp_coeff n x0 : 0 < x0 ->
  exp (coeff_log n x0) = sqrt (Phi0 / x0) / (sqrt (sqrt PI) * sqrt (INR (fact n))).
Proof.
  intros H. assert (P := PI_RGT_0). assert (SP : 0 < sqrt PI) by now apply sqrt_lt_R0.
  assert (F := INR_fact_lt_0 n).
  unfold coeff_log.
  replace (- (1 / 4) * ln PI - 1 / 2 * sum_ln n - 1 / 2 * ln x0 + 1 / 2 * ln Phi0)
    with (- (1 / 2 * (1 / 2 * ln PI)) + - (1 / 2 * sum_ln n) + - (1 / 2 * ln x0) + 1 / 2 * ln Phi0) by field.
  rewrite !exp_plus, !exp_Ropp, (exp_half_ln x0 H), (exp_half_ln Phi0 Phi0_pos).
  replace (1 / 2 * ln PI) with (ln (sqrt PI)) by (rewrite <- exp_half_ln by exact P; apply ln_exp).
  rewrite (exp_half_ln (sqrt PI) SP).
  rewrite <- (ln_exp (sum_ln n)), exp_sum_ln, (exp_half_ln _ F), sqrt_div_alt by exact H.
  field. repeat split; apply Rgt_not_eq, sqrt_lt_R0; auto.
Qed.
Lemma sgn_abs t : sgn t * Rabs t = t.
Proof.
  unfold sgn. destruct (Rlt_dec t 0) as [N|N]; [rewrite Rabs_left by auto; ring|].
  destruct (Rlt_dec 0 t) as [Q|Q]; [rewrite Rabs_pos_eq by lra; ring|]. replace t with 0 by lra. ring.
Qed.
Lemma sgn_exp_ln t : t <> 0 -> sgn t * exp (ln (Rabs t)) = t.
Proof. intros H. rewrite exp_ln by now apply Rabs_pos_lt. apply sgn_abs. Qed.
Lemma sqrt_pow2n n : sqrt (2 ^ n) = sqrt 2 ^ n.
Proof.
  induction n as [|n IH]; [apply sqrt_1|]. cbn [pow]. rewrite sqrt_mult_alt by lra. rewrite IH. reflexivity.
Qed.

Lemma chi_factor n x0 phi : 0 < x0 ->
  He n (sqrt 2 * (phi * Phi0 / x0)) * exp (coeff_log n x0 + - (phi * Phi0 / x0) ^ 2 / 2) = chi (Phi0 / x0) n phi.
Proof.
  intros H. rewrite exp_plus, exp_coeff by exact H. unfold chi.
  replace (Phi0 / x0 * phi) with (phi * Phi0 / x0) by (field; lra). set (y := phi * Phi0 / x0).
  unfold hfun. rewrite <- He_Hp.
  replace (- y ^ 2 / 2) with (- (y * y) / 2) by (simpl; field).
  assert (F := INR_fact_lt_0 n). assert (SP : 0 < sqrt PI) by apply sqrt_lt_R0, PI_RGT_0.
  assert (P2 : 0 < 2 ^ n) by (apply pow_lt; lra).
  rewrite (sqrt_mult_alt (sqrt PI * 2 ^ n)) by (apply Rlt_le, Rmult_lt_0_compat; assumption).
  rewrite (sqrt_mult_alt (sqrt PI)), sqrt_pow2n by lra.
  assert (0 < sqrt 2 ^ n) by (apply pow_lt, s2_pos).
  field. repeat split; apply Rgt_not_eq; auto; apply sqrt_lt_R0; auto.
Qed.

Definition lib_ok (L : slib) : Prop :=
  (forall n x, l_he L n x = None \/ l_he L n x = Some (He n x)) /\ (forall n x, l_mph L n x = Hp n x).

Lemma harm_factor_chi L n x0 phi : lib_ok L -> 0 < x0 ->
  (n < 250)%nat \/ l_hyperu L (- (1 / 2) * INR n) (- (1 / 2)) ((phi * Phi0 / x0) ^ 2) = None ->
  harm_factor L n x0 phi = chi (Phi0 / x0) n phi.
Proof.
  intros [LH LM] H N. rewrite <- (chi_factor n x0 phi H).
  assert (Main : forall t, t = He n (sqrt 2 * (phi * Phi0 / x0)) ->
    (let (s, l) := if Req_EM_T t 0 then (0, 0) else (sgn t, ln (Rabs t)) in
     s * exp (coeff_log n x0 + - (phi * Phi0 / x0) ^ 2 / 2 + l)) =
    t * exp (coeff_log n x0 + - (phi * Phi0 / x0) ^ 2 / 2)).
  { intros t _. destruct (Req_EM_T t 0) as [->|Z]; [ring|].
    rewrite (exp_plus _ (ln (Rabs t))). rewrite <- (sgn_exp_ln t Z) at 3. ring. }
  assert (Fall : (let (s, l) := let h := l_mph L n (phi * Phi0 / x0) in
                    if Req_EM_T h 0 then (0, 0) else (sgn h, ln (Rabs h) - INR n / 2 * ln 2) in
     s * exp (coeff_log n x0 + - (phi * Phi0 / x0) ^ 2 / 2 + l)) =
    He n (sqrt 2 * (phi * Phi0 / x0)) * exp (coeff_log n x0 + - (phi * Phi0 / x0) ^ 2 / 2)).
  { rewrite LM. cbv zeta. set (y := phi * Phi0 / x0). assert (E := He_Hp n y).
    assert (P : 0 < sqrt 2 ^ n) by (apply pow_lt, s2_pos).
    destruct (Req_EM_T (Hp n y) 0) as [Z|Z].
    - rewrite Z in E. destruct (Rmult_integral _ _ E) as [->|]; [ring|lra].
    - rewrite (exp_plus _ (ln (Rabs (Hp n y)) - _)). unfold Rminus. rewrite (exp_plus (ln _)), exp_Ropp.
      replace (INR n / 2 * ln 2) with (INR n * ln (sqrt 2)).
      + change (exp (INR n * ln (sqrt 2))) with (Rpower (sqrt 2) (INR n)). rewrite Rpower_pow by exact s2_pos.
        set (a := exp (coeff_log n x0 + - y ^ 2 / 2)).
        replace (sgn (Hp n y) * (a * (exp (ln (Rabs (Hp n y))) * / sqrt 2 ^ n)))
          with (sgn (Hp n y) * exp (ln (Rabs (Hp n y))) * (a * / sqrt 2 ^ n)) by ring.
        rewrite (sgn_exp_ln _ Z), <- E. field. lra.
      + rewrite <- (exp_half_ln 2) by lra. rewrite ln_exp. field. }
  unfold harm_factor, herm_parts, scipy_parts.
  destruct (Nat.ltb n 250) eqn:B.
  - replace (sqrt 2 * phi * Phi0 / x0) with (sqrt 2 * (phi * Phi0 / x0)) by (field; lra).
    destruct (LH n (sqrt 2 * (phi * Phi0 / x0))) as [-> | ->].
    + apply Fall.
    + apply Main. reflexivity.
  - destruct N as [N|N]; [apply Nat.ltb_ge in B; lia|]. rewrite N. apply Fall.
Qed.

(** From level 250 on the sign of the factor does not oscillate. *)
Lemma harm_factor_large L n x0 phi u : (250 <= n)%nat ->
  l_hyperu L (- (1 / 2) * INR n) (- (1 / 2)) ((phi * Phi0 / x0) ^ 2) = Some u ->
  exists a, 0 <= a /\ harm_factor L n x0 phi = sgn phi ^ n * a.
Proof.
  intros N E. unfold harm_factor, herm_parts, scipy_parts.
  replace (Nat.ltb n 250) with false by (symmetry; apply Nat.ltb_ge; lia). rewrite E.
  destruct (Req_EM_T u 0) as [Z|Z].
  - exists 0. split; [lra|ring].
  - eexists. split; [|reflexivity]. apply Rlt_le, exp_pos.
Qed.

(** ** Orthonormality of the oscillator functions *)
Lemma chi_orthonormal c m n : 0 < c ->
  over_line (fun x => chi c m x * chi c n x) (if Nat.eqb m n then 1 else 0).
Proof.
  intros H. eapply over_line_ext; [|apply (over_line_scale _ _ c H (hfun_orthonormal m n))].
  intros x. unfold chi. cbv beta.
  replace (sqrt c * hfun m (c * x) * (sqrt c * hfun n (c * x))) with (sqrt c * sqrt c * (hfun m (c * x) * hfun n (c * x))) by ring.
  rewrite sqrt_sqrt by lra. reflexivity.
Qed.

Lemma lin_der c (x : R) : is_derive (fun x => c * x) x c.
Proof. auto_derive; auto. ring. Qed.
Lemma chi_der_gen c n d (x : R) : is_derive (hfun n) (c * x) d -> is_derive (chi c n) x (sqrt c * (c * d)).
Proof.
  intros D. apply (is_derive_scal (fun x => hfun n (c * x)) x (sqrt c)).
  evar_last; [apply (is_derive_comp (hfun n) (fun x => c * x) x d c); [exact D|apply lin_der]|reflexivity].
Qed.
Lemma chi_der c n (x : R) : is_derive (chi c n) x (Derive (chi c n) x).
Proof. assert (D := chi_der_gen c n _ x (hfun_up n (c * x))). rewrite (is_derive_unique _ _ _ D). exact D. Qed.
Lemma chi_cont c n (x : R) : continuous (chi c n) x.
Proof. apply (ex_derive_continuous (chi c n)). eexists. apply chi_der. Qed.

Lemma chi_integral c m n : 0 < c ->
  is_RInt_gen (fun x => chi c m x * chi c n x) (Rbar_locally m_infty) (Rbar_locally p_infty)
              (if Nat.eqb m n then 1 else 0).
Proof.
  intros H. apply over_line_gen; [|apply chi_orthonormal; exact H].
  intros x. apply (continuous_mult (chi c m) (chi c n)); apply chi_cont.
Qed.

(** ** Position and derivative *)
(** sqrt(n) h_{n-1}, nothing for n = 0. *)
Definition lower (c : R) (n : nat) (x : R) : R :=
  match n with O => 0 | S k => sqrt (INR (S k)) * chi c k x end.
Lemma rtE n : rt n = sqrt 2 * sqrt (INR (S n)).
Proof. unfold rt. apply sqrt_mult_alt. lra. Qed.
Lemma chi_pos c n x : sqrt 2 * (c * x) * chi c n x = sqrt (INR (S n)) * chi c (S n) x + lower c n x.
Proof.
  unfold lower. apply (Rmult_eq_reg_l (sqrt 2)); [|assert (P := s2_pos); lra].
  replace (sqrt 2 * (sqrt 2 * (c * x) * chi c n x)) with (sqrt 2 * sqrt 2 * (c * x) * chi c n x) by ring. rewrite s2.
  unfold chi. destruct n as [|n].
  - assert (E := hfun_x0 (c * x)). rewrite rtE in E.
    replace (2 * (c * x) * (sqrt c * hfun 0 (c * x))) with (sqrt c * (2 * (c * x) * hfun 0 (c * x))) by ring.
    rewrite E. ring.
  - assert (E := hfun_xS n (c * x)). rewrite (rtE n), (rtE (S n)) in E.
    replace (2 * (c * x) * (sqrt c * hfun (S n) (c * x))) with (sqrt c * (2 * (c * x) * hfun (S n) (c * x))) by ring.
    rewrite E. ring.
Qed.
Lemma chi_deriv c n (x : R) :
  sqrt 2 * Derive (chi c n) x = c * (lower c n x - sqrt (INR (S n)) * chi c (S n) x).
Proof.
  destruct n as [|n].
  - rewrite (is_derive_unique _ _ _ (chi_der_gen c 0 _ x (hfun_up 0 (c * x)))).
    assert (E := hfun_x0 (c * x)). rewrite (rtE 0) in E |- *. cbv iota beta delta [lower]. unfold chi.
    apply (Rmult_eq_reg_l (sqrt 2)); [|assert (P := s2_pos); lra].
    replace (sqrt 2 * (sqrt 2 * (sqrt c * (c * (c * x * hfun 0 (c * x) - sqrt 2 * sqrt (INR 1) * hfun 1 (c * x))))))
      with (sqrt 2 * sqrt 2 * (sqrt c * (c * (c * x * hfun 0 (c * x) - sqrt 2 * sqrt (INR 1) * hfun 1 (c * x))))) by ring.
    rewrite s2. replace (c * x * hfun 0 (c * x)) with (/ 2 * (2 * (c * x) * hfun 0 (c * x))) by field. rewrite E. field.
  - rewrite (is_derive_unique _ _ _ (chi_der_gen c (S n) _ x (hfun_down n (c * x)))).
    assert (E := hfun_xS n (c * x)). rewrite (rtE n), (rtE (S n)) in E. rewrite (rtE n). cbv iota beta delta [lower]. unfold chi.
    apply (Rmult_eq_reg_l (sqrt 2)); [|assert (P := s2_pos); lra].
    replace (sqrt 2 * (sqrt 2 * (sqrt c * (c * (sqrt 2 * sqrt (INR (S n)) * hfun n (c * x) - c * x * hfun (S n) (c * x))))))
      with (sqrt 2 * sqrt 2 * (sqrt c * (c * (sqrt 2 * sqrt (INR (S n)) * hfun n (c * x) - c * x * hfun (S n) (c * x))))) by ring.
    rewrite s2. replace (c * x * hfun (S n) (c * x)) with (/ 2 * (2 * (c * x) * hfun (S n) (c * x))) by field. rewrite E. field.
Qed.

(** The oscillator equation. *)
Lemma chi_ode c n (x : R) :
  is_derive (Derive (chi c n)) x (c * c * ((c * x) * (c * x) - (2 * INR n + 1)) * chi c n x).
Proof.
  apply (is_derive_ext (fun x => sqrt c * (c * Derive (hfun n) (c * x)))).
  { intros t. symmetry. apply is_derive_unique, chi_der_gen, hfun_derivable. }
  evar_last.
  - apply (is_derive_scal (fun x => c * Derive (hfun n) (c * x)) x (sqrt c)).
    apply (is_derive_scal (fun x => Derive (hfun n) (c * x)) x c).
    apply (is_derive_comp (Derive (hfun n)) (fun x => c * x) x ((c * x * (c * x) - (2 * INR n + 1)) * hfun n (c * x)) c); [apply hfun_ode|apply lin_der].
  - unfold scal; cbn -[hfun INR]. unfold mult; cbn -[hfun INR]. unfold chi. ring.
Qed.

(** ** A nonnegative function with zero integral vanishes *)
Lemma over_line_nonneg f : (forall x, 0 <= f x) -> over_line f 0 -> forall x, f x = 0.
Proof.
  intros P (F & A & B & D & LA & LB & E) x. assert (AB : A = B) by lra. subst B.
  assert (M : forall a b, a <= b -> F a <= F b).
  { intros a b L. destruct (Req_dec a b) as [->|Ne]; [lra|].
    destruct (MVT_gen F a b f) as (c & _ & Q); [intros; apply D| |].
    - intros y _. apply continuity_pt_filterlim. apply (ex_derive_continuous F). eexists; apply D.
    - assert (S := P c). nra. }
  assert (U : forall y, F y <= A).
  { intros y. assert (L := is_lim_le_loc (fun _ => F y) F p_infty (F y) A).
    apply L; [|apply is_lim_const|exact LA]. exists y. intros z Hz. apply M. apply Rlt_le, Hz. }
  assert (V : forall y, A <= F y).
  { intros y. assert (L := is_lim_le_loc F (fun _ => F y) m_infty A (F y)).
    apply L; [|exact LB|apply is_lim_const]. exists y. intros z Hz. apply M. apply Rlt_le, Hz. }
  assert (K : is_derive F x 0).
  { apply (is_derive_ext (fun _ => A)); [intros t; apply Rle_antisym; auto|]. apply (is_derive_const A x). }
  rewrite <- (is_derive_unique _ _ _ (D x)). apply is_derive_unique. exact K.
Qed.

Lemma hfun_vanish n : (forall x, 0 < x -> hfun n x = 0) -> False.
Proof.
  induction n as [|n IH]; intros H.
  - specialize (H 1 ltac:(lra)). rewrite hfunE, Hp0 in H. assert (N := nrm_pos 0). assert (X := exp_pos (- (1 * 1) / 2)).
    apply Rmult_integral in H. destruct H as [H|H]; [lra|]. assert (Q := Rinv_0_lt_compat _ N). lra.
  - apply IH. intros x Hx.
    assert (D0 : is_derive (hfun (S n)) x 0).
    { apply (is_derive_ext_loc (fun _ => 0)); [|apply (is_derive_const 0 x)].
      exists (mkposreal x Hx). intros y Hy. symmetry. apply H.
      unfold ball in Hy; simpl in Hy. unfold AbsRing_ball, minus, plus, opp, abs in Hy; simpl in Hy.
      apply Rabs_def2 in Hy. lra. }
    assert (E := is_derive_unique _ _ _ (hfun_down n x)). rewrite (is_derive_unique _ _ _ D0), (H x Hx) in E.
    assert (Q : rt n * hfun n x = 0) by lra. destruct (Rmult_integral _ _ Q); [|assumption].
    assert (P := rt_pos n). lra.
Qed.

(** No function with the sign of x^n is the n-th oscillator function, n >= 2. *)
Lemma chi_sign_change c n g : 0 < c -> (2 <= n)%nat -> (forall x, exists a, 0 <= a /\ g x = sgn x ^ n * a) ->
  exists x, g x <> chi c n x.
Proof.
  intros Hc N G.
  destruct (Coq.Logic.Classical_Pred_Type.not_all_ex_not _ (fun x => g x = chi c n x)) as [x Hx]; [|exists x; exact Hx].
  intros E.
  set (p := if Nat.even n then 0%nat else 1%nat).
  assert (Np : p <> n) by (unfold p; destruct (Nat.even n); lia).
  assert (SC : 0 < sqrt c) by now apply sqrt_lt_R0.
  assert (S0 : sgn 0 = 0) by (unfold sgn; destruct (Rlt_dec 0 0); lra).
  assert (Sp : forall x, 0 < x -> sgn x = 1) by (intros x Hx; unfold sgn; destruct (Rlt_dec x 0); [lra|]; destruct (Rlt_dec 0 x); lra).
  assert (Sn : forall x, x < 0 -> sgn x = -1) by (intros x Hx; unfold sgn; destruct (Rlt_dec x 0); lra).
  assert (Pw : forall x, x <> 0 -> sgn x ^ n = if Nat.even n then 1 else sgn x).
  { intros x Hx. destruct (Rlt_dec x 0) as [L|L]; [rewrite (Sn x L)|rewrite (Sp x ltac:(lra)), pow1; now destruct (Nat.even n)].
    destruct (Nat.even n) eqn:Ev.
    - apply Nat.even_spec in Ev. destruct Ev as [k ->]. apply pow_1_even.
    - assert (O : Nat.odd n = true) by (rewrite <- Nat.negb_even, Ev; reflexivity).
      apply Nat.odd_spec in O. destruct O as [k ->]. replace (2 * k + 1)%nat with (S (2 * k)) by lia. apply pow_1_odd. }
  (* the p-th function has the sign of x^n *)
  assert (Qp : forall x, exists b, 0 <= b /\ (0 < x -> 0 < b) /\ chi c p x = (if Nat.even n then 1 else sgn x) * b).
  { intros x. unfold p, chi. destruct (Nat.even n).
    - assert (0 < hfun 0 (c * x)).
      { rewrite hfunE, Hp0. apply Rdiv_lt_0_compat; [|apply nrm_pos]. rewrite Rmult_1_l. apply exp_pos. }
      exists (sqrt c * hfun 0 (c * x)). assert (0 < sqrt c * hfun 0 (c * x)) by now apply Rmult_lt_0_compat.
      repeat split; auto; lra.
    - assert (K : 0 < exp (- (c * x * (c * x)) / 2) / nrm 1) by (apply Rdiv_lt_0_compat; [apply exp_pos|apply nrm_pos]).
      exists (sqrt c * (2 * c * Rabs x) * (exp (- (c * x * (c * x)) / 2) / nrm 1)).
      assert (A := Rabs_pos x). split; [|split].
      + apply Rmult_le_pos; [|lra]. apply Rmult_le_pos; [lra|]. apply Rmult_le_pos; lra.
      + intros Hx. apply Rmult_lt_0_compat; [|exact K]. apply Rmult_lt_0_compat; [lra|].
        apply Rmult_lt_0_compat; [lra|]. apply Rabs_pos_lt; lra.
      + rewrite hfunE, Hp1. unfold Rdiv. rewrite <- (sgn_abs x) at 1. ring. }
  assert (Z : forall x, chi c p x * chi c n x = 0).
  { apply over_line_nonneg.
    - intros x. rewrite <- E. destruct (G x) as (a & Ha & ->). destruct (Qp x) as (b & Hb & _ & ->).
      destruct (Req_dec x 0) as [->|Nx].
      + rewrite S0. destruct n; [lia|]. rewrite pow_i by lia. lra.
      + rewrite (Pw x Nx). destruct (Nat.even n); [replace (1 * b * (1 * a)) with (b * a) by ring; now apply Rmult_le_pos|].
        replace (sgn x * b * (sgn x * a)) with ((sgn x * sgn x) * (b * a)) by ring.
        apply Rmult_le_pos; [apply Rle_0_sqr|now apply Rmult_le_pos].
    - assert (Q := chi_orthonormal c p n Hc). replace (Nat.eqb p n) with false in Q; [exact Q|].
      symmetry. now apply Nat.eqb_neq. }
  apply (hfun_vanish n). intros y Hy.
  assert (Hx : 0 < y / c) by now apply Rdiv_lt_0_compat.
  specialize (Z (y / c)). destruct (Qp (y / c)) as (b & _ & Hb & Eb). specialize (Hb Hx). rewrite Eb, (Sp _ Hx) in Z.
  unfold chi in Z. replace (c * (y / c)) with y in Z by (field; lra).
  destruct (Rmult_integral _ _ Z) as [Q|Q]; [destruct (Nat.even n); lra|].
  destruct (Rmult_integral _ _ Q); [lra|assumption].
Qed.

Lemma charge_normE : charge_norm = pnorm.
Proof. unfold charge_norm, pnorm. field. apply Rgt_not_eq, sqrt_lt_R0. assert (P := PI_RGT_0). lra. Qed.

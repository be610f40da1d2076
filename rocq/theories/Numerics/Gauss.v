(** Gauss.v -- integrals over the real line of functions with a primitive, and the
    integral of exp(-x^2). *)
From Coq Require Import Reals Lra Lia.
From Coquelicot Require Import Coquelicot.
Open Scope R_scope.

(** [f] has a primitive with limits at both ends, [I] apart. *)
Definition over_line (f : R -> R) (I : R) : Prop :=
  exists F A B, (forall x, is_derive F x (f x)) /\ is_lim F p_infty (Finite A) /\
    is_lim F m_infty (Finite B) /\ I = A - B.

Lemma over_line_gen f I : (forall x, continuous f x) -> over_line f I ->
  is_RInt_gen f (Rbar_locally m_infty) (Rbar_locally p_infty) I.
Proof.
  intros C (F & A & B & D & LA & LB & ->).
  apply is_RInt_gen_ext with (f := Derive F).
  - apply filter_forall. intros ab x _. apply is_derive_unique, D.
  - apply is_RInt_gen_Derive.
    + apply filter_forall. intros ab x _. exists (f x); apply D.
    + apply filter_forall. intros ab x _. apply continuous_ext with f; [|apply C].
      intros y; symmetry; apply is_derive_unique, D.
    + exact LB.
    + exact LA.
Qed.

Lemma over_line_ext f g I : (forall x, f x = g x) -> over_line f I -> over_line g I.
Proof.
  intros H (F & A & B & D & LA & LB & E). exists F, A, B. split; [|split; [|split]]; auto.
  intros x; rewrite <- H; apply D.
Qed.

Lemma over_line_zero f F : (forall x, is_derive F x (f x)) -> is_lim F p_infty (Finite 0) ->
  is_lim F m_infty (Finite 0) -> over_line f 0.
Proof. intros D LA LB. exists F, 0, 0. split; [|split; [|split]]; auto. lra. Qed.

Lemma over_line_scal f I c : over_line f I -> over_line (fun x => c * f x) (c * I).
Proof.
  intros (F & A & B & D & LA & LB & ->). exists (fun x => c * F x), (c * A), (c * B).
  split; [|split; [apply (is_lim_scal_l F c p_infty (Finite A) LA)|split;
    [apply (is_lim_scal_l F c m_infty (Finite B) LB)|ring]]].
  intros x. apply (is_derive_scal F x c). apply D.
Qed.

Lemma over_line_plus f g I J : over_line f I -> over_line g J -> over_line (fun x => f x + g x) (I + J).
Proof.
  intros (F & A & B & D & LA & LB & ->) (F' & A' & B' & D' & LA' & LB' & ->).
  exists (fun x => F x + F' x), (A + A'), (B + B').
  split; [|split; [apply is_lim_plus'; auto|split; [apply is_lim_plus'; auto|ring]]].
  intros x. apply (is_derive_plus F F' x (f x) (g x)); auto.
Qed.

(** Change of scale. *)
Lemma lim_scale F c A : 0 < c -> is_lim F p_infty (Finite A) -> is_lim (fun x => F (c * x)) p_infty (Finite A).
Proof.
  intros Hc L. apply is_lim_comp with (l := p_infty); auto.
  - assert (K := is_lim_scal_l (fun x => x) c p_infty p_infty (is_lim_id _)).
    replace (Rbar_mult c p_infty) with p_infty in K; auto.
    unfold Rbar_mult, Rbar_mult'. destruct (Rle_dec 0 c) as [|]; [|lra].
    destruct (Rle_lt_or_eq_dec 0 c r); [reflexivity|lra].
  - exists 0. intros; discriminate.
Qed.
Lemma lim_scale_m F c A : 0 < c -> is_lim F m_infty (Finite A) -> is_lim (fun x => F (c * x)) m_infty (Finite A).
Proof.
  intros Hc L. apply is_lim_comp with (l := m_infty); auto.
  - assert (K := is_lim_scal_l (fun x => x) c m_infty m_infty (is_lim_id _)).
    replace (Rbar_mult c m_infty) with m_infty in K; auto.
    unfold Rbar_mult, Rbar_mult'. destruct (Rle_dec 0 c) as [|]; [|lra].
    destruct (Rle_lt_or_eq_dec 0 c r); [reflexivity|lra].
  - exists 0. intros; discriminate.
Qed.
Lemma over_line_scale f I c : 0 < c -> over_line f I -> over_line (fun x => c * f (c * x)) I.
Proof.
  intros Hc (F & A & B & D & LA & LB & ->). exists (fun x => F (c * x)), A, B.
  split; [|split; [apply lim_scale; auto|split; [apply lim_scale_m; auto|ring]]].
  intros x. apply (is_derive_comp F (fun x => c * x) x (f (c * x)) c); [apply D|].
  auto_derive; auto. ring.
Qed.

(** ** exp(-x^2) *)
Definition bell (x : R) : R := exp (- (x * x)).
Lemma bell_cont (x : R) : continuous bell x.
Proof. apply (ex_derive_continuous bell x). unfold bell. auto_derive. auto. Qed.
Definition G (t : R) : R := RInt bell 0 t.
Lemma bell_int a b : ex_RInt bell a b.
Proof. apply (ex_RInt_continuous bell). intros; apply bell_cont. Qed.
Lemma G_der (t : R) : is_derive G t (bell t).
Proof.
  apply (is_derive_RInt bell G 0 t); [|apply bell_cont].
  apply filter_forall. intros b. exact (RInt_correct bell 0 b (bell_int 0 b)).
Qed.

Definition slice (t x : R) : R := exp (- (t * t) * (1 + x * x)) / (1 + x * x).
Definition H (t : R) : R := RInt (slice t) 0 1.
Lemma sq1 x : 1 + x * x <> 0.
Proof. assert (0 <= x * x) by (apply Rle_0_sqr). lra. Qed.
Lemma slice_der (t x : R) : is_derive (fun u => slice u x) t (- 2 * t * exp (- (t * t) * (1 + x * x))).
Proof. unfold slice. auto_derive; [auto|]. field. apply sq1. Qed.
Lemma slice_cont (t x : R) : continuous (slice t) x.
Proof. apply (ex_derive_continuous (slice t) x). unfold slice. auto_derive. apply sq1. Qed.
Lemma slice_int t a b : ex_RInt (slice t) a b.
Proof. apply (ex_RInt_continuous (slice t)). intros; apply slice_cont. Qed.

Lemma H_der (t : R) : is_derive H t (- 2 * bell t * G t).
Proof.
  replace (- 2 * bell t * G t) with (RInt (fun x => Derive (fun u => slice u x) t) 0 1).
  - apply (is_derive_RInt_param slice 0 1 t).
    + apply filter_forall. intros y x _. exists (- 2 * y * exp (- (y * y) * (1 + x * x))). apply slice_der.
    + intros x _. apply continuity_2d_pt_ext with (f := fun u v => (- 2 * u) * exp (- (u * u) * (1 + v * v))).
      { intros u v. symmetry. apply is_derive_unique, slice_der. }
      apply continuity_2d_pt_mult.
      * apply continuity_2d_pt_mult; [apply continuity_2d_pt_const|apply continuity_2d_pt_id1].
      * apply continuity_1d_2d_pt_comp with (f := exp) (g := fun u v => - (u * u) * (1 + v * v)).
        -- apply derivable_continuous_pt, derivable_pt_exp.
        -- apply continuity_2d_pt_mult.
           ++ apply continuity_2d_pt_opp, continuity_2d_pt_mult; apply continuity_2d_pt_id1.
           ++ apply continuity_2d_pt_plus; [apply continuity_2d_pt_const|].
              apply continuity_2d_pt_mult; apply continuity_2d_pt_id2.
    + apply filter_forall. intros y. apply slice_int.
  - unfold G. transitivity (RInt (fun x => (- 2 * bell t) * (t * bell (t * x + 0))) 0 1).
    + apply RInt_ext. intros x _. apply (eq_trans (is_derive_unique _ _ _ (slice_der t x))). unfold bell.
      replace (- (t * t) * (1 + x * x)) with (- (t * t) + - ((t * x + 0) * (t * x + 0))) by ring.
      rewrite exp_plus. ring.
    + assert (K := RInt_comp_lin bell t 0 0 1 (bell_int _ _)).
      replace (t * 0 + 0) with 0 in K by ring. replace (t * 1 + 0) with t in K by ring. rewrite <- K.
      apply (RInt_scal (fun x => t * bell (t * x + 0)) 0 1 (- 2 * bell t)).
      apply (ex_RInt_comp_lin bell t 0 0 1). apply bell_int.
Qed.

Lemma G_H t : G t * G t + H t = PI / 4.
Proof.
  assert (C : G t * G t + H t = G 0 * G 0 + H 0).
  { assert (D : forall x, is_derive (fun x => G x * G x + H x) x 0).
    { intros x. replace 0 with (bell x * G x + G x * bell x + - 2 * bell x * G x) by ring.
      apply (is_derive_plus (fun x => G x * G x) H x); [|apply H_der].
      apply (is_derive_mult G G x); try apply G_der. intros; apply Rmult_comm. }
    destruct (Req_dec t 0) as [->|NE]; auto.
    destruct (MVT_gen (fun x => G x * G x + H x) 0 t (fun _ => 0)) as (c & _ & E).
    - intros x _. apply D.
    - intros x _. apply continuity_pt_filterlim. apply (ex_derive_continuous (fun x => G x * G x + H x)).
      exists 0; apply D.
    - lra. }
  rewrite C. unfold G. rewrite RInt_point. change (zero : R) with 0.
  unfold H. rewrite (RInt_ext _ (fun x => / (1 + x ^ 2))).
  - assert (K : is_RInt (fun x => / (1 + x ^ 2)) 0 1 (minus (atan 1) (atan 0))).
    { apply (is_RInt_derive atan).
      - intros x _. rewrite <- (Rsqr_pow2 x). apply is_derive_atan.
      - intros x _. apply (ex_derive_continuous (fun x => / (1 + x ^ 2)) x). auto_derive. 
        replace (x * (x * 1)) with (x * x) by ring. apply sq1. }
    rewrite (is_RInt_unique _ _ _ _ K). rewrite atan_1, atan_0. unfold minus, plus, opp; simpl. lra.
  - intros x _. unfold slice. replace (- (0 * 0) * (1 + x * x)) with 0 by ring. rewrite exp_0.
    unfold Rdiv. rewrite Rmult_1_l. f_equal. ring.
Qed.

Lemma H_bound t : 0 <= H t <= bell t.
Proof.
  assert (P : forall x, 0 < 1 + x * x) by (intros x; assert (0 <= x * x) by apply Rle_0_sqr; lra).
  split.
  - apply RInt_ge_0; [lra|apply slice_int|]. intros x _. unfold slice.
    apply Rlt_le, Rdiv_lt_0_compat; [apply exp_pos|apply P].
  - replace (bell t) with (RInt (fun _ => bell t) 0 1) by (rewrite RInt_const; unfold scal; simpl; unfold mult; simpl; ring).
    apply RInt_le; [lra|apply slice_int|apply ex_RInt_const|]. intros x Hx. unfold slice, bell.
    apply Rle_div_l; [apply P|]. replace (- (t * t) * (1 + x * x)) with (- (t * t) + - (t * t * (x * x))) by ring.
    rewrite exp_plus. assert (0 <= t * t) by apply Rle_0_sqr. assert (0 <= x * x) by apply Rle_0_sqr.
    assert (E : exp (- (t * t * (x * x))) <= 1).
    { rewrite <- exp_0. destruct (Req_dec (t * t * (x * x)) 0) as [Z|Z].
      - rewrite Z, Ropp_0. lra.
      - apply Rlt_le, exp_increasing. assert (0 <= t * t * (x * x)) by (apply Rmult_le_pos; auto). lra. }
    assert (Q := exp_pos (- (t * t))). nra.
Qed.

Lemma bell_lim : is_lim bell p_infty 0.
Proof.
  apply is_lim_le_le_loc with (f := fun _ => 0) (g := fun x => exp (- x)).
  - exists 1. intros x Hx. split; [apply Rlt_le, exp_pos|]. unfold bell.
    destruct (Req_dec (x * x) x) as [->|]; [lra|]. apply Rlt_le, exp_increasing. nra.
  - apply is_lim_const.
  - apply is_lim_comp with (l := m_infty).
    + apply is_lim_exp_m.
    + apply (is_lim_opp (fun x => x) p_infty p_infty). apply is_lim_id.
    + exists 0. intros; discriminate.
Qed.
Lemma bell_even x : bell (- x) = bell x.
Proof. unfold bell. f_equal. ring. Qed.

Lemma G_pos t : 0 <= t -> 0 <= G t.
Proof.
  intros Ht. apply RInt_ge_0; auto; [apply bell_int|]. intros; apply Rlt_le, exp_pos.
Qed.
Lemma G_odd t : G (- t) = - G t.
Proof.
  unfold G. assert (K := RInt_comp_lin bell (-1) 0 0 t (bell_int _ _)).
  replace (-1 * 0 + 0) with 0 in K by ring. replace (-1 * t + 0) with (- t) in K by ring. rewrite <- K.
  rewrite (RInt_ext _ (fun x => opp (bell x))).
  - rewrite (RInt_opp bell); [reflexivity|apply bell_int].
  - intros x _. unfold scal, opp; simpl. unfold mult; simpl.
    replace (-1 * x + 0) with (- x) by ring. rewrite bell_even. ring.
Qed.

Lemma G_lim : is_lim G p_infty (sqrt PI / 2).
Proof.
  assert (E : forall t, 0 <= t -> G t = sqrt (PI / 4 - H t)).
  { intros t Ht. rewrite <- (G_H t). replace (G t * G t + H t - H t) with (Rsqr (G t)) by (unfold Rsqr; ring).
    symmetry. apply sqrt_Rsqr, G_pos; auto. }
  apply is_lim_ext_loc with (f := fun t => sqrt (PI / 4 - H t)).
  - exists 0. intros t Ht. symmetry. apply E. lra.
  - replace (sqrt PI / 2) with (sqrt (PI / 4 - 0)).
    + assert (P := PI_RGT_0).
      apply (is_lim_comp_continuous (fun t => PI / 4 - H t) sqrt p_infty (PI / 4 - 0)).
      * apply is_lim_minus'; [apply is_lim_const|].
        apply is_lim_le_le_loc with (f := fun _ => 0) (g := bell); [|apply is_lim_const|apply bell_lim].
        exists 0. intros t _. apply H_bound.
      * apply continuity_pt_filterlim, continuity_pt_sqrt. lra.
    + rewrite Rminus_0_r. rewrite sqrt_div_alt by lra. f_equal.
      replace 4 with (2 * 2) by ring. apply sqrt_square. lra.
Qed.

(** The integral of exp(-x^2) over the line. *)
Theorem gauss_integral : over_line bell (sqrt PI).
Proof.
  exists G, (sqrt PI / 2), (- (sqrt PI / 2)). split; [apply G_der|split; [apply G_lim|split; [|lra]]].
  apply is_lim_ext with (f := fun t => - G (- t)).
  - intros t. rewrite G_odd. ring.
  - apply (is_lim_opp (fun t => G (- t)) m_infty (sqrt PI / 2)).
    apply is_lim_comp with (l := p_infty).
    + apply G_lim.
    + apply (is_lim_opp (fun x => x) m_infty m_infty). apply is_lim_id.
    + exists 0. intros; discriminate.
Qed.

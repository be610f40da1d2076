(** GradCalc.v -- rules for the gradients of losses. *)
From Coq Require Import Reals ZArith String Lra.
From Verif.Spec Require Import ThermalSpec.
From Verif.Proofs Require Import ThermalProofs CDeriv.
From Verif.Model Require Import Base Units Noise Thermal Edge Elements LCWB RateConst.
Open Scope R_scope.

Lemma hd_comp f g t d e : has_derivative g t d -> has_derivative f (g t) e ->
  has_derivative (fun u => f (g u)) t (e * d).
Proof.
  rewrite !has_derivative_iff. intros H1 H2. exact (derivable_pt_lim_comp g f t d e H1 H2).
Qed.
Lemma hd_cont f t d eps : has_derivative f t d -> 0 < eps ->
  exists delta, 0 < delta /\ forall u, Rabs (u - t) < delta -> Rabs (f u - f t) < eps.
Proof.
  rewrite has_derivative_iff. intros H He.
  assert (C : continuity_pt f t) by (apply derivable_continuous_pt; exists d; exact H).
  destruct (C eps He) as [delta [Hd Hu]]. exists delta. split; [exact Hd|].
  intros u Hut. destruct (Req_dec u t) as [->|N]; [rewrite Rminus_diag_eq, Rabs_R0; auto|].
  apply Hu. split; [split; [exact I|auto]|exact Hut].
Qed.
Lemma hd_abs_diff f g t d e : has_derivative f t d -> has_derivative g t e -> f t <> g t ->
  has_derivative (fun u => abs_diff (f u) (g u)) t (sign (f t - g t) * (d - e)).
Proof.
  intros H1 H2 N. unfold abs_diff.
  apply (hd_comp Rabs (fun u => f u - g u) t (d - e) (sign (f t - g t))).
  - pose proof (hd_add _ _ _ _ _ H1 (hd_opp _ _ _ H2)) as H. exact H.
  - apply has_derivative_iff, abs_derivative. lra.
Qed.
Lemma hd_exp f t d : has_derivative f t d -> has_derivative (fun u => exp (f u)) t (exp (f t) * d).
Proof.
  intros H. apply hd_comp; [exact H|]. apply has_derivative_iff, derivable_pt_lim_exp.
Qed.
(** The thermal weight as a function of frequency. *)
Lemma thermal_smooth E total m n w : 0 < w -> T E = 0 \/ 0 < T E /\ thermal_ratio w (T E) <> 709 ->
  exists f d r, 0 < r /\ has_derivative f w d /\
    forall u, Rabs (u - w) < r -> option_map (temp_factor total m n) (thermal E u) = Some (f u).
Proof.
  intros Hw HT.
  assert (pos : forall u, Rabs (u - w) < w -> 0 < u) by (intros u Hu; apply Rabs_def2 in Hu; lra).
  destruct HT as [HT|[HT H7]].
  { exists (fun _ => temp_factor total m n (2, 0)), 0, w. split; [exact Hw|]. split; [apply hd_const|].
    intros u Hu. apply pos in Hu. unfold thermal. destruct (Req_EM_T (T E) 0); [|contradiction].
    destruct (Rlt_dec 0 u); [reflexivity|contradiction]. }
  assert (HTn : T E <> 0) by lra.
  pose proof kB_pos as Kb. pose proof hbar_pos as Hb.
  set (k := hbar / (k_B * T E)).
  assert (ratio : forall u, thermal_ratio u (T E) = k * u).
  { intros u. rewrite <- ratioE. unfold k. field. split; [exact HTn|apply Rgt_not_eq, Kb]. }
  assert (kpos : 0 < k).
  { apply Rmult_lt_0_compat; [exact Hb|]. apply Rinv_0_lt_compat, Rmult_lt_0_compat; auto. }
  rewrite ratio in H7.
  assert (close : forall u, Rabs (u - w) < Rabs (k * w - 709) / k -> (k * w < 709 -> k * u < 709) /\ (709 < k * w -> 709 < k * u)).
  { intros u Hu. apply (Rmult_lt_compat_l k) in Hu; [|exact kpos].
    replace (k * (Rabs (k * w - 709) / k)) with (Rabs (k * w - 709)) in Hu by (field; lra).
    rewrite <- (Rabs_pos_eq k) in Hu at 1 by lra. rewrite <- Rabs_mult in Hu.
    replace (k * (u - w)) with (k * u - k * w) in Hu by ring.
    split; intros Hk.
    - rewrite (Rabs_left (k * w - 709)) in Hu by lra. apply Rabs_def2 in Hu. lra.
    - rewrite (Rabs_right (k * w - 709)) in Hu by lra. apply Rabs_def2 in Hu. lra. }
  assert (rpos : 0 < Rabs (k * w - 709) / k).
  { apply Rmult_lt_0_compat; [apply Rabs_pos_lt; lra|apply Rinv_0_lt_compat, kpos]. }
  destruct (Rtotal_order (k * w) 709) as [Hlt|[Heq|Hgt]]; [|contradiction|].
  - set (dn := fun u => 2 * exp (k * u) * / (exp (k * u) - 1)).
    assert (D : exists d, has_derivative dn w d).
    { pose proof (hd_exp _ _ _ (hd_scal k _ _ _ (hd_id w))) as H1. eexists. unfold dn.
      apply hd_mul; [apply hd_scal, H1|].
      apply hd_inv; [apply hd_add; [exact H1|apply (hd_const (-1))]|].
      apply exp_neq1, Rgt_not_eq, Rmult_lt_0_compat; auto. }
    destruct D as [d1 D].
    assert (D2 : exists d, has_derivative (fun u => dn u * exp (- (k * u))) w d).
    { eexists. apply hd_mul; [exact D|]. apply hd_exp, hd_opp, hd_scal, hd_id. }
    destruct D2 as [d2 D2]. set (up := fun u => dn u * exp (- (k * u))) in D2.
    exists (fun u => temp_factor total m n (dn u, up u)).
    assert (De : exists d, has_derivative (fun u => temp_factor total m n (dn u, up u)) w d).
    { unfold temp_factor. cbn [fst snd]. destruct total; [eexists; apply hd_add; [exact D|exact D2]|].
      destruct (Z.ltb n m); eexists; [exact D|exact D2]. }
    destruct De as [d De]. exists d, (Rmin w (Rabs (k * w - 709) / k)). split; [apply Rmin_glb_lt; auto|].
    split; [exact De|]. intros u Hu.
    assert (u0 : 0 < u) by (apply pos; apply Rlt_le_trans with (1 := Hu), Rmin_l).
    assert (u7 : k * u < 709) by (apply close; [apply Rlt_le_trans with (1 := Hu), Rmin_r|exact Hlt]).
    unfold thermal. destruct (Req_EM_T (T E) 0); [contradiction|].
    rewrite ratioE, ratio. destruct (Rlt_dec 709 (k * u)); [lra|].
    assert (nz : k * u <> 0) by (apply Rgt_not_eq, Rmult_lt_0_compat; auto).
    destruct (Req_EM_T (k * u) 0); [contradiction|]. cbn [option_map].
    rewrite (down_exp _ nz). reflexivity.
  - exists (fun _ => temp_factor total m n (2, 0)), 0, (Rabs (k * w - 709) / k). split; [exact rpos|].
    split; [apply hd_const|]. intros u Hu. rewrite thermal_cold; [reflexivity| |exact HTn].
    rewrite ratio. apply close; auto.
Qed.
Lemma hd_mul_id f t d : has_derivative f t d -> has_derivative (fun u => f u * u) t (d * t + f t * 1).
Proof. intros H. apply hd_mul; [exact H|apply hd_id]. Qed.
Close Scope R_scope.

From mathcomp Require Import all_ssreflect all_algebra.
From mathcomp Require Import complex ring.
From Verif.Numerics Require Import RStruct Bridge.
From Verif.Model Require Import Op Ham Diag CircuitSM Partial DecRate.
From Verif.Spec Require Import GradSpec PerturbSpec RateGradSpec EigGradSpec.
From Verif.Proofs Require Import OpProofs PerturbProofs PerturbProofs2 SecondOrder.

Set Implicit Arguments.
Unset Strict Implicit.
Unset Printing Implicit Defensive.
Import GRing.Theory.
Local Open Scope ring_scope.
Local Open Scope complex_scope.

Section Rules.
Variables (M N : nat) (t0 : R) (w0 : nat -> R) (v0 : nat -> nat -> C).

Definition here (F : R -> loss_fun) : Prop := forall w v, (forall k, (k < M)%N -> w k = w0 k) ->
  (forall k i, (k < M)%N -> (i < N)%N -> v k i = v0 k i) -> F t0 w v = F t0 w0 v0.
(** There are gradients, none for the levels from [M] on. *)
Definition has_grads (F : R -> loss_fun) : Prop := here F /\ exists gd gv gw,
  [/\ gradients M N F t0 w0 v0 gd gv gw, forall k, (M <= k)%N -> gv k = 0 &
      forall k i, (M <= k)%N -> gw k i = 0].

Lemma hg_near (F G : R -> loss_fun) : here G -> (forall (w : nat -> R -> R) (v : nat -> R -> nat -> C) dw,
    (forall k, (k < M)%N -> w k t0 = w0 k) -> (forall k, (k < M)%N -> has_derivative (w k) t0 (dw k)) ->
    near t0 (fun t => F t (fun k => w k t) (fun k => v k t) = G t (fun k => w k t) (fun k => v k t))) ->
  has_grads F -> has_grads G.
Proof.
move=> hG H [_ [gd [gv [gw [D h1 h2]]]]]; split=> //; exists gd, gv, gw; split=> // w v dw dv e1 e2 d1 d2.
have [r [r0 Hr]] := H w v dw e1 d1.
by apply: (hd_near _ _ _ _ _ r0 _ (D w v dw dv e1 e2 d1 d2)) => t /Hr.
Qed.

Lemma hg_time f d : has_derivative f t0 d -> has_grads (fun t _ _ => f t).
Proof.
move=> D; split=> //; exists d, (fun=> 0), (fun _ _ => 0); split=> // w v dw dv _ _ _ _.
apply: hd_eq D _; rewrite big1 => [|k _]; first by rewrite [RHS]Rplus_0_r.
by cbv beta; rewrite conjc0 mulr0 add0r big1 // => i _; rewrite mulr0.
Qed.

Lemma Re_sum n (f : 'I_n -> C) : complex.Re (\sum_i f i) = \sum_i complex.Re (f i).
Proof. exact: (big_morph _ ReD erefl). Qed.
Lemma Re_scale (a : R) (z : C) : complex.Re (a%:C * z) = a * complex.Re z.
Proof. by rewrite ReM /= mul0r oppr0 addr0. Qed.

(** The slope, as a form linear in the gradients. *)
Definition form (gd : R) (gv : nat -> C) (gw : nat -> nat -> C) (dw : nat -> R) (dv : nat -> nat -> C) : R :=
  gd + \sum_(k < M) complex.Re ((dw k)%:C * (gv k)^* + \sum_(i < N) dv k i * (gw k i)^*).
Lemma form_add gd gv gw gd' gv' gw' dw dv :
  form (gd + gd') (fun k => gv k + gv' k) (fun k i => gw k i + gw' k i) dw dv =
  form gd gv gw dw dv + form gd' gv' gw' dw dv.
Proof.
rewrite /form addrACA -big_split /=; congr (_ + _); apply: eq_bigr => k _.
rewrite -ReD addrACA rmorphD mulrDr -big_split /=; congr (complex.Re (_ + _)).
by apply: eq_bigr => i _; rewrite rmorphD mulrDr.
Qed.
Lemma form_scale (a : R) gd gv gw dw dv :
  form (a * gd) (fun k => a%:C * gv k) (fun k i => a%:C * gw k i) dw dv = a * form gd gv gw dw dv.
Proof.
rewrite /form mulrDr; congr (_ + _); rewrite mulr_sumr; apply: eq_bigr => k _.
rewrite -Re_scale mulrDr mulr_sumr cjM cjR mulrCA; congr (complex.Re (_ + _)).
by apply: eq_bigr => i _; rewrite cjM cjR mulrCA.
Qed.

Lemma hg_add F G : has_grads F -> has_grads G -> has_grads (fun t w v => F t w v + G t w v).
Proof.
move=> [hF [gd [gv [gw [D h1 h2]]]]] [hG [gd' [gv' [gw' [D' h1' h2']]]]].
split; first by move=> w v e1 e2; rewrite hF // hG.
exists (gd + gd'), (fun k => gv k + gv' k), (fun k i => gw k i + gw' k i); split.
- move=> w v dw dv e1 e2 d1 d2.
  apply: hd_eq (hd_add _ _ _ _ _ (D w v dw dv e1 e2 d1 d2) (D' w v dw dv e1 e2 d1 d2)) _.
  exact: (esym (form_add gd gv gw gd' gv' gw' dw dv)).
- by move=> k hk; rewrite h1 // h1' // addr0.
- by move=> k i hk; rewrite h2 // h2' // addr0.
Qed.

Lemma hg_mul F G : has_grads F -> has_grads G -> has_grads (fun t w v => F t w v * G t w v).
Proof.
move=> [hF [gd [gv [gw [D h1 h2]]]]] [hG [gd' [gv' [gw' [D' h1' h2']]]]].
split; first by move=> w v e1 e2; rewrite hF // hG.
set a := G t0 w0 v0; set b := F t0 w0 v0.
exists (a * gd + b * gd'), (fun k => a%:C * gv k + b%:C * gv' k),
  (fun k i => a%:C * gw k i + b%:C * gw' k i); split.
- move=> w v dw dv e1 e2 d1 d2.
  apply: hd_eq (hd_mul _ _ _ _ _ (D w v dw dv e1 e2 d1 d2) (D' w v dw dv e1 e2 d1 d2)) _.
  have S := form_add (a * gd) (fun k => a%:C * gv k) (fun k i => a%:C * gw k i)
    (b * gd') (fun k => b%:C * gv' k) (fun k i => b%:C * gw' k i) dw dv.
  rewrite !form_scale in S; apply: etrans (esym S).
  rewrite (hF (w ^~ t0) (v ^~ t0)) // (hG (w ^~ t0) (v ^~ t0)) // -/a -/b [a * _]mulrC.
  by [].
- by move=> k hk; rewrite h1 // h1' // !mulr0 addr0.
- by move=> k i hk; rewrite h2 // h2' // !mulr0 addr0.
Qed.

Lemma hg_sum (K : Type) (l : seq K) (F : K -> R -> loss_fun) : (forall k, List.In k l -> has_grads (F k)) ->
  has_grads (fun t w v => \sum_(k <- l) F k t w v).
Proof.
elim: l => [|k l IH] H.
  have [_ [gd [gv [gw [D h1 h2]]]]] := hg_time (hd_const 0 t0).
  split; first by move=> w v _ _; rewrite !big_nil.
  exists gd, gv, gw; split=> // w v dw dv e1 e2 d1 d2.
  by apply: hd_ext (D w v dw dv e1 e2 d1 d2) => t; rewrite big_nil.
have [h [gd [gv [gw [D h1 h2]]]]] := hg_add (H k (or_introl erefl)) (IH (fun j hj => H j (or_intror hj))).
split; first by move=> w v e1 e2; rewrite !big_cons h.
exists gd, gv, gw; split=> // w v dw dv e1 e2 d1 d2.
by apply: hd_ext (D w v dw dv e1 e2 d1 d2) => t; rewrite big_cons.
Qed.

Variables (m n : nat).
Hypothesis hm : (m < M)%N.
Hypothesis hn : (n < M)%N.

(** A function of the frequency difference. *)
Lemma hg_freq f d : w0 n <> w0 m -> has_derivative f (abs_diff (w0 n) (w0 m)) d ->
  has_grads (fun _ w _ => f (abs_diff (w n) (w m))).
Proof.
move=> N0 D; split; first by move=> w v e _; rewrite !e.
pose a := d * Thermal.sign (w0 n - w0 m).
exists 0, (fun k => (a * ((k == n)%:R - (k == m)%:R))%:C), (fun _ _ => 0); split=> //; last first.
  by move=> k hk; rewrite !gtn_eqF ?subrr ?mulr0 // (leq_trans _ hk).
move=> w v dw dv e1 _ d1 _.
have Nw : w n t0 <> w m t0 by rewrite !e1.
have D1 := hd_abs_diff _ _ _ _ _ (d1 n hn) (d1 m hm) Nw.
have D2 : has_derivative f (abs_diff (w n t0) (w m t0)) d by rewrite !e1.
apply: hd_eq (hd_comp _ _ _ _ _ D1 D2) _.
rewrite [RHS]Rplus_0_l !e1 //.
have S (x : nat -> R) j : (j < M)%N -> \sum_(k < M) x k * ((k : nat) == j)%:R = x j.
  move=> hj; rewrite (bigD1 (Ordinal hj)) //= eqxx mulr1 big1 ?addr0 // => k /negbTE kj.
  by move: kj; rewrite -val_eqE /= => ->; rewrite mulr0.
transitivity (\sum_(k < M) (a * (dw k * ((k : nat) == n)%:R) - a * (dw k * ((k : nat) == m)%:R))).
  rewrite sumrB -!mulr_sumr !S // -mulrBr /a -mulrA; congr (_ * _).
apply: eq_bigr => k _; rewrite big1 => [|i _]; last by cbv beta; rewrite conjc0 mulr0.
by rewrite addr0 cjR -rmorphM /= mulrBr mulrBr ![_ * (a * _)]mulrCA.
Qed.

Lemma hd_abs2 (f : R -> C) t z : cderiv f t z -> has_derivative (fun u => abs2 (f u)) t (complex.Re (2%:R * (f t)^* * z)).
Proof.
move=> [D1 D2]; apply: hd_eq (hd_add _ _ _ _ _ (hd_mul _ _ _ _ _ D1 D1) (hd_mul _ _ _ _ _ D2 D2)) _.
rewrite !ReM /=; case: (f t) z {D1 D2} => a b [a' b'] /=; rewrite !RplusE !RmultE; ring.
Qed.
Lemma Re_conj (a b : C) : complex.Re (a^* * b) = complex.Re (a * b^*).
Proof. by case: a b => [a1 a2] [b1 b2] /=; rewrite !mulNr !mulrN. Qed.

(** A squared matrix element. *)
Lemma hg_abs2 (A : R -> nat -> nat -> C) A' : m != n ->
  (forall i j, (i < N)%N -> (j < N)%N -> cderiv (fun t => A t i j) t0 (A' i j)) ->
  has_grads (fun t _ v => abs2 (dot N (v m) (apply_to N (A t) (v n)))).
Proof.
move=> mn DA; have loc v : (forall k i, (k < M)%N -> (i < N)%N -> v k i = v0 k i) ->
    dot N (v m) (apply_to N (A t0) (v n)) = dot N (v0 m) (apply_to N (A t0) (v0 n)).
  move=> e; apply: dot_ext2 => i hi; first exact: e.
  by apply: apply_ext => j hj; exact: e.
split; first by move=> w v _ e; rewrite loc.
set a := apply_to N (A t0) (v0 n); set z := dot N (v0 m) a.
pose b i := \sum_(j < N) (A t0 j i)^* * v0 m j.
exists (complex.Re (2%:R * z^* * dot N (v0 m) (apply_to N A' (v0 n)))), (fun=> 0),
  (fun k i => if k == m then 2%:R * z^* * a i else if k == n then 2%:R * z * b i else 0); split=> //; last first.
  by move=> k i hk; rewrite !gtn_eqF // (leq_trans _ hk).
move=> w v dw dv _ e2 _ d2.
have D1 := cd_dot (fun i hi => d2 m i hm hi) (fun i hi => cd_apply hi DA (fun j hj => d2 n j hn hj)).
apply: hd_eq (hd_abs2 D1) _; cbv beta; rewrite (loc (v ^~ t0)) // -/a -/z {D1}.
have ex k i (hk : (k < M)%N) (hi : (i < N)%N) : v k t0 i = v0 k i by exact: e2.
have -> : dot N (dv m) (apply_to N (A t0) (v n t0)) = dot N (dv m) a.
  by apply: dot_ext => i hi; apply: apply_ext => j hj; exact: ex.
have -> : dot N (v m t0) (fun i => apply_to N A' (v n t0) i + apply_to N (A t0) (dv n) i) =
          dot N (v0 m) (apply_to N A' (v0 n)) + dot N (v0 m) (apply_to N (A t0) (dv n)).
  rewrite /dot -big_split /=; apply: eq_bigr => i _; rewrite ex // -mulrDr; congr (_ * (_ + _)).
  by apply: apply_ext => j hj; exact: ex.
rewrite addrCA mulrDr ReD; congr (_ + _).
have nm : n != m by rewrite eq_sym.
rewrite (bigD1 (Ordinal hm)) // (bigD1 (Ordinal hn)) // [X in _ = _ + (_ + X)]big1 => [|k /andP [km kn]]; last first.
  have /negbTE -> : (k : nat) != m := km; have /negbTE -> : (k : nat) != n := kn.
  by rewrite conjc0 mulr0 add0r big1 // => i _; rewrite mulr0.
cbn [nat_of_ord]; rewrite !eqxx (negbTE nm) conjc0 !mulr0 !add0r addr0 mulrDr ReD; congr (_ + _).
- rewrite /dot mulr_sumr !Re_sum; apply: eq_bigr => i _.
  by rewrite mulrCA Re_conj.
- congr (complex.Re _); rewrite /dot mulr_sumr.
  transitivity (\sum_(i < N) \sum_(j < N) 2%:R * z^* * ((v0 m i)^* * (A t0 i j * dv n j))).
    by apply: eq_bigr => i _; rewrite /apply_to !mulr_sumr.
  have bE j : (b j)^* = \sum_(i < N) A t0 i j * (v0 m i)^*.
    by rewrite /b rmorph_sum; apply: eq_bigr => i _; rewrite rmorphM /= conjcK.
  have c2 : (2%:R : C)^* = 2%:R by exact: conjc_nat.
  rewrite exchange_big /=; apply: eq_bigr => j _; rewrite !cjM bE c2 !mulr_sumr.
  apply: eq_bigr => i _; move: (z^*) => y; ring.
Qed.
End Rules.

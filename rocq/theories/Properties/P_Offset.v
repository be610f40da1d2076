(** P_Offset.v -- C103: the ground energy between two gate charges. *)
From Coq Require Import Reals ZArith Lia Lra String.
From Verif.Model Require Import Base Units Settings Edge Elements LCWB Accuracy HamConst.
From Verif.Spec Require Import ThermalSpec.
From Verif.Proofs Require Import HamConstProofs ThermalProofs OffsetGround.
Lemma bow_unit c w : (c / 2 * (charge_unit * charge_unit * w) = c * Rsqr (2 * e_charge) / (2 * hbar) * w)%R.
Proof. rewrite (unit_square hbar_pos). unfold Rsqr. field. generalize hbar_pos; lra. Qed.
Lemma under a0 a1 e0 e1 e g t : (0 <= t -> t <= 1 -> e0 <= a0 -> e1 <= a1 -> e = (1 - t) * a0 + t * a1 - g ->
  (1 - t) * e0 + t * e1 - g <= e)%R.
Proof.
  intros t0 t1 l0 l1 ->. apply Rplus_le_compat_r, Rplus_le_compat; apply Rmult_le_compat_l; lra.
Qed.
Lemma middle (e0 e1 e w : R) : ((1 - / 2) * e0 + / 2 * e1 - w * (/ 2 * (1 - / 2) * ((1 - 0) * (1 - 0))) <= e -> (e0 + e1) / 2 - w / 4 <= e)%R.
Proof. intros. lra. Qed.
Lemma half_in : (0 <= / 2)%R /\ (/ 2 <= 1)%R. Proof. lra. Qed.
Lemma half_way : ((1 - / 2) * 0 + / 2 * 1 = / 2)%R. Proof. lra. Qed.
Lemma case_unit : (1 * Rsqr (2 * e_charge) / (2 * hbar) / 4 = Rsqr e_charge / (2 * hbar))%R.
Proof. unfold Rsqr. field. generalize hbar_pos; lra. Qed.

From mathcomp Require Import all_ssreflect all_algebra.
From mathcomp Require Import complex ring.
From Verif.Numerics Require Import RStruct Bridge.
From Verif.Model Require Import Op Transform Ham Diag CircuitSM.
From Verif.Spec Require Import OpSpec SessionSpec GradSpec PerturbSpec LevelsSpec LowestSpec OrderSpec.
From Verif.Proofs Require Import OpProofs HamProofs HamProofs2 HamProofs6 MinMaxProofs OrderProofs SumProofs.
From Verif.Proofs Require Import SMProofs SMProofs2 SMProofs3 MemProofs GradProofs NgProofs.
From Verif.Properties Require Import P_Gradient P_Ng P_Order P_Strong.

Set Implicit Arguments.
Unset Strict Implicit.
Unset Printing Implicit Defensive.
Import GRing.Theory.
Local Open Scope ring_scope.
Local Open Scope complex_scope.

(** The energy of a charge of 2e on the inverse capacitance [c], in rad/s, times [w]. *)
Definition bow (c w : R) : R := Rmult (Rdiv (Rmult c (Rsqr (Rmult 2 e_charge))) (Rmult 2 hbar)) w.
Definition mean (t a b : R) : R := Rplus (Rmult (Rminus 1 t) a) (Rmult t b).
Definition spread2 (t a b : R) : R := Rmult (Rmult t (Rminus 1 t)) (Rmult (Rminus b a) (Rminus b a)).

Section Mean.
Variables (disp : nat -> C -> op) (h : hin) (i : nat) (val : nat -> R) (loops : seq R) (B : arr) (ks : keys).
Variables (p q t : R) (A0 A1 A : op).
Hypothesis disp_dim : forall m a, dim (disp m a) = m.
Hypothesis hi : (i < hn h)%N.
Hypothesis ch : hcharge h i.
Hypothesis E0 : hamiltonian disp (h_at h i p) val loops B ks = Ok A0.
Hypothesis E1 : hamiltonian disp (h_at h i q) val loops B ks = Ok A1.
Hypothesis EM : hamiltonian disp (h_at h i (mean t p q)) val loops B ks = Ok A.

Let N := total h.
Let d0 : dim A0 = N. Proof. by have [] := hamiltonian_ok disp_dim E0. Qed.
Let d1 : dim A1 = N. Proof. by have [] := hamiltonian_ok disp_dim E1. Qed.
Let dM : dim A = N. Proof. by have [] := hamiltonian_ok disp_dim EM. Qed.
Let gap : R := bow (t_cI (h_st h) i i) (spread2 t p q).

Let entry a b : (a < N)%N -> (b < N)%N ->
  ent A a b = (Rminus 1 t)%:C * ent A0 a b + t%:C * ent A1 a b - gap%:C * (if a == b then 1 else 0).
Proof.
move=> ha hb; rewrite (ham_mean hi ch E0 E1 EM ha hb); congr (_ - _ * _).
by rewrite -cRM /gap /bow -bow_unit.
Qed.

Let expect_mean v : weight N v = 1 -> expect A v = Rminus (mean t (expect A0 v) (expect A1 v)) gap.
Proof.
move=> w1; have X : \sum_(a < N) (v a)^* * (\sum_(b < N) ent A a b * v b) =
   (Rminus 1 t)%:C * (\sum_(a < N) (v a)^* * (\sum_(b < N) ent A0 a b * v b)) +
   t%:C * (\sum_(a < N) (v a)^* * (\sum_(b < N) ent A1 a b * v b)) - gap%:C * (\sum_(a < N) (v a)^* * v a).
  rewrite !mulr_sumr -big_split -sumrB /=; apply: eq_bigr => a _.
  have -> : \sum_(b < N) ent A a b * v b = (Rminus 1 t)%:C * (\sum_(b < N) ent A0 a b * v b) +
      t%:C * (\sum_(b < N) ent A1 a b * v b) - gap%:C * v a.
    have <- : \sum_(b < N) (if (a : nat) == b then v b else 0) = v a by exact: sum_delta.
    rewrite !mulr_sumr -big_split -sumrB /=; apply: eq_bigr => b _; rewrite entry //.
    by rewrite !mulrBl mulrDl !mulrA; congr (_ - _); case: eqP => _; rewrite ?mulr1 ?mulr0 ?mul0r.
  move: (\sum_(b < N) _) (\sum_(b < N) _) ((v a)^*) (v a) (gap%:C) (t%:C) ((Rminus 1 t)%:C) => *; ring.
rewrite /expect dM d0 d1 X /mean RminusE RplusE !RmultE.
have m (x y : C) : complex.Re (x - y) = complex.Re x - complex.Re y by case: x; case: y.
by rewrite m Re_add !Re_scale [complex.Re (\sum_(a < N) (v a)^* * v a)](_ : _ = 1) ?mulr1.
Qed.

(** The ground energy at the mean of two gate charges is at least the mean of the ground
    energies less the charging energy of the distance. *)
Theorem C103_ground F0 F1 F : (0 < N)%N -> Rle 0 t -> Rle t 1 ->
  energies A0 F0 -> energies A1 F1 -> energies A F ->
  Rle (Rminus (mean t (F0 0%N) (F1 0%N)) gap) (F 0%N).
Proof.
move=> n0 t0 t1 H0 H1 [v L]; have nM : (0 < dim A)%N by rewrite dM.
have [e w] := ground_expect L nM; rewrite dM in w; rewrite -e.
have := ground_below (v 0%N) (ltac:(by rewrite d0) : (0 < dim A0)%N) H0; rewrite d0 w Rmult_1_r => l0.
have := ground_below (v 0%N) (ltac:(by rewrite d1) : (0 < dim A1)%N) H1; rewrite d1 w Rmult_1_r => l1.
have k := expect_mean w; have := @under (expect A0 (v 0%N)) (expect A1 (v 0%N)) (F0 0%N) (F1 0%N) (expect A (v 0%N)) gap t t0 t1 l0 l1 k; exact.
Qed.

(** The sum of all the energies follows the parabola exactly. *)
Theorem C103_sum F0 F1 F : energies A0 F0 -> energies A1 F1 -> energies A F ->
  \sum_(k < N) F k = Rminus (mean t (\sum_(k < N) F0 k) (\sum_(k < N) F1 k)) (Rmult (INR N) gap).
Proof.
move=> H0 H1 H; apply: complexI.
have := energy_sum H0; have := energy_sum H1; have := energy_sum H; rewrite d0 d1 dM => S S1 S0.
rewrite S /mean (cRB (Rplus _ _)) cRD (cRM (Rminus 1 t)) (cRM t) (cRM (INR N)) S0 S1 !mulr_sumr -big_split /=.
have -> : (INR N)%:C * gap%:C = \sum_(a < N) gap%:C.
  rewrite sumr_const card_ord -mulr_natl; congr (_ * _).
  elim: (N) => [|k IH] //; rewrite S_INR (cRD (INR k) R1) IH -[k.+1]addn1 natrD; by [].
by rewrite -sumrB; apply: eq_bigr => a _; rewrite entry // eqxx mulr1.
Qed.
End Mean.
Print Assumptions C103_ground.
Print Assumptions C103_sum.

Section Session.
Variables (disp : nat -> C -> op) (optim : bool) (o : oracle) (s0 : store) (lobj : nat -> lrec) (fd : string).
Variables (d : seq (edge * seq nat)) (x0 : circ) (u : ustate) (cs : seq call) (tr : seq (world * res unit)).
Hypothesis dims : forall m a, dim (disp m a) = m.
Hypothesis built_ok : construct optim o s0 lobj fd d = Some (Ok x0).
Hypothesis session : run disp optim (mkW s0 u x0) cs = Some tr.
Hypothesis updates : updates_ok optim (mkW s0 u x0) cs tr.
Let x := w_x (final (mkW s0 u x0) tr).
Variables (s : store) (i : nat).
Hypothesis hi : (i < x_n x)%N.
Hypothesis ch : is_charge (x_st x) i.
Let H (g : R) : res op := (hamil s (set_offset (mode_of i) g x).1).2.

(** After any session: the offset of one charge mode set to two values and to their mean. *)
Theorem C103_session p q t A0 A1 A F0 F1 F : Rle 0 t -> Rle t 1 -> (0 < dim A)%N ->
  H p = Ok A0 -> H q = Ok A1 -> H (mean t p q) = Ok A -> energies A0 F0 -> energies A1 F1 -> energies A F ->
  Rle (Rminus (mean t (F0 0%N) (F1 0%N)) (bow (t_cI (x_st x) i i) (spread2 t p q))) (F 0%N).
Proof.
have G : good disp x.
  exact: good_run (good_construct disp built_ok : good disp (w_x (mkW s0 u x0))) session updates.
have Ei : island_of (mode_of i) x = Some i.
  by rewrite /island_of /mode_of; have [-> ->] := mode_label i; rewrite /= (g_charge G hi ch).
have f g : H g = hamiltonian disp (h_at (hof x) i g) (evalue s) (loop_vals s x) (x_B x)
    (mkKeys (c_keys_ind (x_c x)) (c_keys_jj (x_c x))).
  rewrite /H; have [-> _] := hamilE s (good_set_offset (mode_of i) g G).
  rewrite /ham_of (hof_offset g Ei) /loop_vals; by have [-> ->] := offset_keeps (mode_of i) g x.
rewrite !f => t0 t1 n0 E0 E1 EM; have [dA _] := hamiltonian_ok dims EM; rewrite dA in n0.
move=> H0 H1 HM; have := C103_ground dims (hi : (i < hn (hof x))%N) ch E0 E1 EM (n0 : (0 < total (hof x))%N) t0 t1 H0 H1 HM; exact.
Qed.
End Session.
Print Assumptions C103_session.

(** Case: the three-state mode with a junction on both sides of a loop, between the offsets
    0 and 1: the ground energy at 1/2 is at most e^2/2 (in rad/s) under the mean of the two. *)
Example C103_case disp : (forall m a, dim (disp m a) = m) ->
  let H g := (hamil squid_store (set_offset (mode_of 0) g (squid disp)).1).2 in
  exists A0 A1 A F0 F1 F, [/\ H R0 = Ok A0, H R1 = Ok A1 & H (Rinv 2) = Ok A] /\
    [/\ energies A0 F0, energies A1 F1 & energies A F] /\
    Rle (Rminus (Rdiv (Rplus (F0 0%N) (F1 0%N)) 2) (Rdiv (Rsqr e_charge) (Rmult 2 hbar))) (F 0%N).
Proof.
move=> D H; have Rg := squid_regular disp; have G := rg_good Rg.
have ch : is_charge (x_st (squid disp)) 0%N by rewrite /is_charge /=.
have Ei : island_of (mode_of 0) (squid disp) = Some 0%N by [].
have f g : H g = hamiltonian disp (h_at (hof (squid disp)) 0 g) (evalue squid_store) (loop_vals squid_store (squid disp)) (x_B (squid disp))
    (mkKeys (c_keys_ind (x_c (squid disp))) (c_keys_jj (x_c (squid disp)))).
  rewrite /H; have [-> _] := hamilE squid_store (good_set_offset (mode_of 0) g G).
  rewrite /ham_of (hof_offset g Ei) /loop_vals; by have [-> ->] := offset_keeps (mode_of 0) g (squid disp).
have ok g : exists A F, H g = Ok A /\ energies A F.
  have [A EA] : exists A, H g = Ok A by exact: (hamil_at g G Ei (rg_ham Rg)).
  exists A.
  have := EA; rewrite f => /(hamiltonian_ok D) [_ hA]; have [F HF] := energies_exist hA.
  by exists F; split; [rewrite -f; exact: EA|exact: HF].
have [A0 [F0 [E0 H0]]] := ok R0; have [A1 [F1 [E1 H1]]] := ok R1; have [A [F [EM HM]]] := ok (Rinv 2).
exists A0, A1, A, F0, F1, F; split=> //; split=> //.
rewrite f in E0; rewrite f in E1; rewrite -half_way f in EM.
have [a b] := half_in.
have n0 : (0 < total (hof (squid disp)))%N by rewrite /total big_ord1.
have := C103_ground D (h := hof (squid disp)) (i := 0%N) isT ch E0 E1 EM n0 a b H0 H1 HM.
rewrite /bow /mean /spread2 -[t_cI _ _ _]/R1 => /middle; by rewrite case_unit.
Qed.

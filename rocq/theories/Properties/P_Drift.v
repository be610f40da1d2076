(** P_Drift.v -- C107: how far all the energies move with a gate charge. *)
From Coq Require Import Reals ZArith Lia Lra String.
From Verif.Model Require Import Base Units Settings Edge Elements LCWB Accuracy HamConst.
From Verif.Spec Require Import ThermalSpec CircuitSpec.
From Verif.Proofs Require Import HamConstProofs ThermalProofs OffsetGround.
Lemma step_up a0 a1 e w d g t : (0 <= t -> a1 - a0 <= d * w -> e = (1 - t) * a0 + t * a1 - g * w -> e <= a0 + (t * d - g) * w)%R.
Proof. intros t0 h ->. assert (t * (a1 - a0) <= t * (d * w))%R by (apply Rmult_le_compat_l; lra). lra. Qed.
Lemma step_down a0 a1 e w d g t : (0 <= t -> d * w <= a1 - a0 -> e = (1 - t) * a0 + t * a1 - g * w -> a0 <= e + (g - t * d) * w)%R.
Proof. intros t0 h ->. assert (t * (d * w) <= t * (a1 - a0))%R by (apply Rmult_le_compat_l; lra). lra. Qed.
Lemma both_ways e f d d' g t : (f <= e + (t * d' - g) -> e <= f + (g - t * d) -> t * d - g <= f - e <= t * d' - g)%R.
Proof. intros; lra. Qed.
(** The charging energy of charge [n], |n| <= M, at two gate charges. *)
Lemma square_drift p q n M : (Rabs n <= M -> Rabs (Rsqr (n - q) - Rsqr (n - p)) <= Rabs (q - p) * (2 * M + Rabs (p + q)))%R.
Proof.
  intros h. replace (Rsqr (n - q) - Rsqr (n - p))%R with ((q - p) * (p + q - 2 * n))%R by (unfold Rsqr; ring).
  rewrite Rabs_mult. apply Rmult_le_compat_l; [apply Rabs_pos|].
  unfold Rminus at 1. eapply Rle_trans; [apply Rabs_triang|]. rewrite Rabs_Ropp, Rabs_mult.
  rewrite (Rabs_right 2) by lra. lra.
Qed.
Lemma centre_bound (a m : R) : (0 <= a -> a <= m - 1 -> Rabs (a - (m - 1) / 2) <= (m - 1) / 2)%R.
Proof. intros; apply Rabs_le; lra. Qed.
Lemma twice_half (m x : R) : (2 * ((m - 1) / 2) + x = m - 1 + x)%R. Proof. lra. Qed.
Lemma abs_of e f x : (e <= f + x -> f <= e + x -> Rabs (e - f) <= x)%R.
Proof. intros; apply Rabs_le; lra. Qed.
Lemma abs_le_right x y : (Rabs x <= y -> x <= y)%R. Proof. intros; eapply Rle_trans; [apply RRle_abs|auto]. Qed.
Lemma scaled (u x y b : R) : (0 <= u -> Rabs (x - y) <= b -> Rabs (u * x - u * y) <= u * b)%R.
Proof. intros u0 h. rewrite <- Rmult_minus_distr_l, Rabs_mult, (Rabs_right u) by lra. apply Rmult_le_compat_l; auto. Qed.
Lemma unit_pos c : (0 < c -> 0 <= Rsqr (2 * e_charge) / (2 * c) / hbar)%R.
Proof.
  intros. unfold Rdiv. apply Rmult_le_pos; [apply Rmult_le_pos; [apply Rle_0_sqr|]|]; left; apply Rinv_0_lt_compat; [lra|exact hbar_pos].
Qed.
Lemma swap_abs (p q b : R) : (Rabs (q - p) * (b + Rabs (p + q)) = Rabs (p - q) * (b + Rabs (q + p)))%R.
Proof. rewrite Rabs_minus_sym, (Rplus_comm p q). reflexivity. Qed.
Lemma order_unit (u x h : R) : (u * x / h = u / h * x)%R. Proof. unfold Rdiv; ring. Qed.

Lemma case_reach (x h : R) : (x / (2 * 1) / h * (Rabs (/ 2 - 0) * (2 + 1 - 1 + Rabs (0 + / 2))) = 5 / 4 * (x / (2 * h)))%R.
Proof. rewrite Rminus_0_r, Rplus_0_l, Rabs_right by lra. unfold Rdiv. rewrite !Rinv_mult. generalize (Rinv h); intro y. field. Qed.

From mathcomp Require Import all_ssreflect all_algebra.
From mathcomp Require Import complex ring zify.
From Verif.Numerics Require Import RStruct Bridge.
From Verif.Model Require Import Op Transform Ham Diag CircuitSM.
From Verif.Spec Require Import OpSpec SymmetrySpec OneNodeSpec SessionSpec GradSpec PerturbSpec LevelsSpec LowestSpec OrderSpec FanSpec.
From Verif.Proofs Require Import OpProofs HamProofs HamProofs2 HamProofs6 MinMaxProofs ExpProofs2 OrderProofs SumProofs.
From Verif.Proofs Require Import SMProofs SMProofs2 SMProofs3 MemProofs GradProofs NgProofs.
From Verif.Properties Require Import P_Gradient P_Ng P_OneNode P_Order P_Strong P_Offset P_Bias.

Set Implicit Arguments.
Unset Strict Implicit.
Unset Printing Implicit Defensive.
Import GRing.Theory.
Local Open Scope ring_scope.
Local Open Scope complex_scope.

(** Expectation values that rise by at most [x] raise every energy by at most [x]. *)
Lemma expect_drift A A' E E' x k : dim A' = dim A ->
  (forall u, Rle (expect A' u) (Rplus (expect A u) (Rmult x (weight (dim A) u)))) ->
  energies A E -> energies A' E' -> (k < dim A)%N -> Rle (E' k) (Rplus (E k) x).
Proof.
move=> dA bl HE HE' hk; pose J (i j : nat) : C := if i == j then 1 else 0.
have JE u a : (a < dim A)%N -> apply_to (dim A) J u a = u a.
  move=> ha; rewrite /apply_to (bigD1 (Ordinal ha)) //= /J eqxx mul1r big1 ?addr0 // => b ne.
  by rewrite ifF ?mul0r //; apply/negbTE; rewrite eq_sym -(inj_eq val_inj) in ne.
apply: (minmax (J := J) HE HE') => // [u|u|]; last by rewrite dA.
  by rewrite /weight dA; congr complex.Re; apply: eq_bigr => a _; rewrite JE.
apply: Rle_trans (bl u); apply: Req_le; rewrite /expect dA; congr complex.Re.
by apply: eq_bigr => a _; rewrite JE //; congr (_ * _); apply: eq_bigr => b _; rewrite JE.
Qed.

Section Step.
Variables (disp : nat -> C -> op) (h : hin) (i : nat) (val : nat -> R) (loops : seq R) (B : arr) (ks : keys).
Variables (p q t : R) (A0 A1 A : op).
Hypothesis disp_dim : forall m a, dim (disp m a) = m.
Hypothesis hi : (i < hn h)%N.
Hypothesis ch : hcharge h i.
Hypothesis E0 : hamiltonian disp (h_at h i p) val loops B ks = Ok A0.
Hypothesis E1 : hamiltonian disp (h_at h i q) val loops B ks = Ok A1.
Hypothesis EM : hamiltonian disp (h_at h i (mix t p q)) val loops B ks = Ok A.
Let N := total h.
Let d0 : dim A0 = N. Proof. by have [] := hamiltonian_ok disp_dim E0. Qed.
Let d1 : dim A1 = N. Proof. by have [] := hamiltonian_ok disp_dim E1. Qed.
Let dM : dim A = N. Proof. by have [] := hamiltonian_ok disp_dim EM. Qed.
Let gap : R := bow (t_cI (h_st h) i i) (spread2 t p q).

Let entry a b : (a < N)%N -> (b < N)%N ->
  ent A a b = (Rminus 1 t)%:C * ent A0 a b + t%:C * ent A1 a b - gap%:C * (if a == b then 1 else 0).
Proof.
move=> ha hb; rewrite (ham_mean hi ch E0 E1 EM ha hb); congr (_ - _ * _).
by rewrite -cRM /gap /bow -bow_unit.
Qed.
Let expect_step v : expect A v = Rminus (Rplus (Rmult (Rminus 1 t) (expect A0 v)) (Rmult t (expect A1 v))) (Rmult gap (weight N v)).
Proof.
have X : \sum_(a < N) (v a)^* * (\sum_(b < N) ent A a b * v b) =
   (Rminus 1 t)%:C * (\sum_(a < N) (v a)^* * (\sum_(b < N) ent A0 a b * v b)) +
   t%:C * (\sum_(a < N) (v a)^* * (\sum_(b < N) ent A1 a b * v b)) - gap%:C * (\sum_(a < N) (v a)^* * v a).
  rewrite !mulr_sumr -big_split -sumrB /=; apply: eq_bigr => a _.
  have -> : \sum_(b < N) ent A a b * v b = (Rminus 1 t)%:C * (\sum_(b < N) ent A0 a b * v b) +
      t%:C * (\sum_(b < N) ent A1 a b * v b) - gap%:C * v a.
    have <- : \sum_(b < N) (if (a : nat) == b then v b else 0) = v a by exact: sum_delta.
    rewrite !mulr_sumr -big_split -sumrB /=; apply: eq_bigr => b _; rewrite entry //.
    by rewrite !mulrBl mulrDl !mulrA; congr (_ - _); case: eqP => _; rewrite ?mulr1 ?mulr0 ?mul0r.
  move: (\sum_(b < N) _) (\sum_(b < N) _) ((v a)^*) (v a) (gap%:C) (t%:C) ((Rminus 1 t)%:C) => *; ring.
rewrite /expect /weight dM d0 d1 X RminusE RplusE !RmultE.
have m (x y : C) : complex.Re (x - y) = complex.Re x - complex.Re y by case: x; case: y.
by rewrite m Re_add !Re_scale.
Qed.

(** If the step from gate charge [p] to [q] changes the energy of every state by between [lo]
    and [up], it bounds every level at every further gate charge p + t (q - p), t >= 0. *)
Theorem C107_step F0 F k (lo up : R) : Rle 0 t ->
  (forall v, Rle (Rmult lo (weight N v)) (Rminus (expect A1 v) (expect A0 v)) /\
             Rle (Rminus (expect A1 v) (expect A0 v)) (Rmult up (weight N v))) ->
  energies A0 F0 -> energies A F -> (k < N)%N ->
  Rle (Rminus (Rmult t lo) gap) (Rminus (F k) (F0 k)) /\ Rle (Rminus (F k) (F0 k)) (Rminus (Rmult t up) gap).
Proof.
move=> t0 st H0 H hk; apply: both_ways.
  apply: (expect_drift (A := A0) (A' := A) _ _ H0 H); rewrite ?d0 ?dM // => v.
  exact: (@step_up _ _ _ _ _ _ _ t0 (st v).2 (expect_step v)).
apply: (expect_drift (A := A) (A' := A0) _ _ H H0); rewrite ?d0 ?dM // => v.
exact: (@step_down _ _ _ _ _ _ _ t0 (st v).1 (expect_step v)).
Qed.
End Step.
Print Assumptions C107_step.

(** One island with junctions: no level moves further than (2e)^2/2C (in rad/s) times
    |ng' - ng| (m - 1 + |ng + ng'|), whatever its junctions and the flux. *)
Section Island.
Variables (m : nat) (c p q : R) (jjs : seq (R * R)) (A A' : op).
Hypothesis c0 : Rlt 0 c.
Hypothesis dA : dim A = m.
Hypothesis dA' : dim A' = m.
Hypothesis EA : forall a b, (a < m)%N -> (b < m)%N -> ent A a b = island c p jjs m a b.
Hypothesis EA' : forall a b, (a < m)%N -> (b < m)%N -> ent A' a b = island c q jjs m a b.
Definition reach : R := Rmult (Rdiv (Rdiv (Rsqr (Rmult 2 e_charge)) (Rmult 2 c)) hbar)
  (Rmult (Rabs (Rminus q p)) (Rplus (Rminus (INR m) 1) (Rabs (Rplus p q)))).

Lemma charging_drift a : (a < m)%N ->
  Rle (Rabs (Rminus (charging c q (Rminus (INR a) (centre m))) (charging c p (Rminus (INR a) (centre m))))) reach.
Proof.
move=> ha.
have ce z n : charging c z n = Rmult (Rdiv (Rdiv (Rsqr (Rmult 2 e_charge)) (Rmult 2 c)) hbar) (Rsqr (Rminus n z)) by exact: order_unit.
rewrite !ce /reach; apply: scaled; first exact: unit_pos.
rewrite -twice_half; apply: square_drift; apply: centre_bound; first exact: pos_INR.
have := le_INR a.+1 m ltac:(by apply/leP); rewrite S_INR; lra.
Qed.
Lemma island_expect u : Rle (expect A' u) (Rplus (expect A u) (Rmult reach (weight m u))).
Proof.
pose g a := Rminus (charging c q (Rminus (INR a) (centre m))) (charging c p (Rminus (INR a) (centre m))).
have e : expect A' u = Rplus (expect A u) (\sum_(a < m) g a * nrm (u a)).
  rewrite /expect dA dA' RplusE.
  have -> : \sum_(a < m) g a * nrm (u a) = complex.Re (\sum_(a < m) (g a)%:C * ((u a)^* * u a)).
    by rewrite Re_sum; apply: eq_bigr => a _; rewrite Re_scale nrmE.
  rewrite -Re_add -big_split /=; congr complex.Re; apply: eq_bigr => a _.
  have -> : \sum_(b < m) ent A' a b * u b = \sum_(b < m) ent A a b * u b + (g a)%:C * u a.
    have <- : \sum_(b < m) (if (a : nat) == b then (g b)%:C * u b else 0) = (g a)%:C * u a.
      exact: (sum_delta (fun b => (g b)%:C * u b) (ltn_ord a)).
    rewrite -big_split /=; apply: eq_bigr => b _; rewrite EA // EA' // /island.
    case: eqP => [<-|_]; last by rewrite addr0.
    by rewrite -mulrDl /g cRB; congr (_ * _); rewrite addrAC; congr (_ - _); rewrite addrC subrK.
  by rewrite mulrDr; congr (_ + _); rewrite mulrCA.
rewrite e; apply: Rplus_le_compat_l.
have -> : weight m u = \sum_(a < m) nrm (u a) by rewrite /weight Re_sum; apply: eq_bigr => a _; rewrite nrmE.
rewrite RmultE mulr_sumr; apply/RleP; apply: Num.Theory.ler_sum => a _; apply: Num.Theory.ler_wpmul2r; first exact: nrm_ge0.
by apply/RleP; apply: abs_le_right; exact: charging_drift.
Qed.
End Island.

Theorem C107_island m c p q jjs A A' E E' k : Rlt 0 c -> dim A = m -> dim A' = m ->
  (forall a b, (a < m)%N -> (b < m)%N -> ent A a b = island c p jjs m a b) ->
  (forall a b, (a < m)%N -> (b < m)%N -> ent A' a b = island c q jjs m a b) ->
  energies A E -> energies A' E' -> (k < m)%N -> Rle (Rabs (Rminus (E' k) (E k))) (reach m c p q).
Proof.
move=> c0 dA dA' EA EA' HE HE' hk; apply: abs_of.
  by apply: (expect_drift _ _ HE HE'); rewrite ?dA ?dA' // => u; exact: island_expect EA EA' u.
rewrite (_ : reach m c p q = reach m c q p); last by rewrite /reach swap_abs.
by apply: (expect_drift _ _ HE' HE); rewrite ?dA ?dA' // => u; exact: island_expect EA' EA u.
Qed.
Print Assumptions C107_island.

(** For the circuit of one node that is built from its elements. *)
Theorem C107_built optim s fd lobj els c st0 st croot lroot X U D0 eigL tries fuel sv order draw disp m ng ng' loops B A A' E E' k :
  exponential disp -> Rlt 0 (edge_cap s els) ->
  constructed optim s fd lobj els c st0 st croot lroot X U D0 eigL tries fuel sv order draw ->
  List.existsb (is_jj s) els -> List.existsb (is_ind s) els = false ->
  one_ham optim s c st disp m ng loops B = Ok A -> one_ham optim s c st disp m ng' loops B = Ok A' ->
  energies A E -> energies A' E' -> (k < m)%N ->
  Rle (Rabs (Rminus (E' k) (E k))) (reach m (edge_cap s els) (ng 0%N) (ng' 0%N)).
Proof.
move=> ex c0 K jj ni H H' HE HE' hk.
have [_ [Z]] := C90_island m ng loops B ex K jj ni; rewrite H => -[<-] [dA EA].
have [_ [Z']] := C90_island m ng' loops B ex K jj ni; rewrite H' => -[<-] [dA' EA'].
exact: (C107_island c0 dA dA' EA EA' HE HE' hk).
Qed.
Print Assumptions C107_built.

(** After any session, with the offset of one charge mode set. *)
Section Session.
Variables (disp : nat -> C -> op) (optim : bool) (o : oracle) (s0 : store) (lobj : nat -> lrec) (fd : string).
Variables (d : seq (edge * seq nat)) (x0 : circ) (u : ustate) (cs : seq call) (tr : seq (world * res unit)).
Hypothesis dims : forall m a, dim (disp m a) = m.
Hypothesis built_ok : construct optim o s0 lobj fd d = Some (Ok x0).
Hypothesis session : run disp optim (mkW s0 u x0) cs = Some tr.
Hypothesis updates : updates_ok optim (mkW s0 u x0) cs tr.
Let x := w_x (final (mkW s0 u x0) tr).
Variables (s : store) (i : nat).
Hypothesis hi : (i < x_n x)%N.
Hypothesis ch : is_charge (x_st x) i.
Let H (g : R) : res op := (hamil s (set_offset (mode_of i) g x).1).2.

Theorem C107_session p q t A0 A1 A F0 F k (lo up : R) : Rle 0 t ->
  H p = Ok A0 -> H q = Ok A1 -> H (mix t p q) = Ok A ->
  (forall v, Rle (Rmult lo (weight (dim A) v)) (Rminus (expect A1 v) (expect A0 v)) /\
             Rle (Rminus (expect A1 v) (expect A0 v)) (Rmult up (weight (dim A) v))) ->
  energies A0 F0 -> energies A F -> (k < dim A)%N ->
  let g := bow (t_cI (x_st x) i i) (spread2 t p q) in
  Rle (Rminus (Rmult t lo) g) (Rminus (F k) (F0 k)) /\ Rle (Rminus (F k) (F0 k)) (Rminus (Rmult t up) g).
Proof.
have G : good disp x.
  exact: good_run (good_construct disp built_ok : good disp (w_x (mkW s0 u x0))) session updates.
have Ei : island_of (mode_of i) x = Some i.
  by rewrite /island_of /mode_of; have [-> ->] := mode_label i; rewrite /= (g_charge G hi ch).
have f g : H g = hamiltonian disp (h_at (hof x) i g) (evalue s) (loop_vals s x) (x_B x)
    (mkKeys (c_keys_ind (x_c x)) (c_keys_jj (x_c x))).
  rewrite /H; have [-> _] := hamilE s (good_set_offset (mode_of i) g G).
  rewrite /ham_of (hof_offset g Ei) /loop_vals; by have [-> ->] := offset_keeps (mode_of i) g x.
rewrite !f => t0 E0 E1 EM; have [dA _] := hamiltonian_ok dims EM; rewrite dA => st H0 HM hk g.
exact: (C107_step dims (hi : (i < hn (hof x))%N) ch E0 E1 EM t0 st H0 HM hk).
Qed.
End Session.
Print Assumptions C107_session.

(** Case: one junction and a capacitance of 1 F at node 1, three charge states: from gate
    charge 0 to 1/2 no level moves by more than 5/4 (2e)^2/2C. *)
Example C107_case disp (draw : nat -> nat -> seq vec) B : exponential disp -> exists c st,
  let H z := one_ham false one_s c st disp 3 (fun=> z) [::] B in
  exists A A' E E', [/\ H R0 = Ok A, H (Rinv 2) = Ok A', energies A E, energies A' E' &
    forall k, (k < 3)%N -> Rle (Rabs (Rminus (E' k) (E k))) (Rmult (Rdiv 5 4) (Rdiv (Rsqr (Rmult 2 e_charge)) (Rmult 2 hbar)))].
Proof.
move=> ex; have [c [st0 [st [K _]]]] := C90_island_case draw (fun=> R0) B ex; exists c, st => H.
have D := exp_disp_dims ex; have cv : edge_cap one_s [:: 0%N] = R1 by rewrite /edge_cap /= /cap_of /=; exact: Rplus_0_r.
have ok z : exists2 A, H z = Ok A & exists E, energies A E.
  have [_ [A EA _]] := C90_island 3 (fun=> z) [::] B ex K isT erefl; exists A => //.
  have [_ hA] := hamiltonian_ok D EA; exact: energies_exist hA.
have [A EA [E HE]] := ok R0; have [A' EA' [E' HE']] := ok (Rinv 2).
exists A, A', E, E'; split=> // k hk.
have c0 : Rlt 0 (edge_cap one_s [:: 0%N]) by rewrite cv; exact: Rlt_0_1.
have := C107_built ex c0 K isT erefl EA EA' HE HE' hk; rewrite /reach cv.
have -> : INR 3 = Rplus 2 1 by rewrite /=; lra.
by rewrite case_reach.
Qed.

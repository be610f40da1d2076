(** ChargeRule.v -- commutators of the Hamiltonian with the charge of an island. *)
From Coq Require Import Reals ZArith Lia Lra Psatz.
From Verif.Model Require Import Base Units Edge Accuracy HamConst.
From mathcomp Require Import all_ssreflect all_algebra.
From mathcomp Require Import complex ring zify.
From Verif.Numerics Require Import RStruct Bridge.
From Verif.Model Require Import FluxDist Op Transform Ham.
From Verif.Spec Require Import OpSpec LevelsSpec LinearSpec PerturbSpec RuleSpec.
From Verif.Proofs Require Import OpProofs HamProofs HamProofs2 HamProofs3 HamProofs4 HamProofs5 HamProofs6 PartsProofs ChargeShiftProofs LinearProofs.
From Verif.Proofs Require Import GradProofs MinMaxProofs OrderProofs.

Set Implicit Arguments.
Unset Strict Implicit.
Unset Printing Implicit Defensive.
Import GRing.Theory.
Local Open Scope ring_scope.
Local Open Scope complex_scope.

Definition pair_charge : R := Rdiv (Rmult 2 e_charge) (sqrt hbar).

Section Island.
Variables (disp : nat -> C -> op) (h : hin) (i : nat).
Hypothesis disp_dim : forall m a, dim (disp m a) = m.
Hypothesis hi : (i < hn h)%N.
Hypothesis ch : hcharge h i.
Let n := hn h.
Let N := total h.
Let pos d := posn (hm h) d n.
Definition held a : R := complex.Re (ent (opQ h i) a a).

Lemma held_pos d : legal (hm h) d n -> held (pos d) = cooper (hm h) (h_ng h) d i.
Proof. by move=> Ld; rewrite /held Q_entry // eqxx. Qed.
Lemma held_diff d d' : legal (hm h) d n -> legal (hm h) d' n ->
  held (pos d) - held (pos d') = pair_charge * (Rminus (INR (d i)) (INR (d' i))).
Proof.
move=> Ld Ld'; rewrite !held_pos // /cooper -/pair_charge; move: pair_charge => c.
by rewrite -RminusE -RmultE; move: (INR (d i)) (INR (d' i)) (INR (hm h i)) (h_ng h i) => x y z t; lra.
Qed.
Lemma Q_held a b : (a < N)%N -> (b < N)%N -> ent (opQ h i) a b = if a == b then (held a)%:C else 0.
Proof.
move=> ha hb; have [d [Ld Ea]] := posn_surj ha; have [d' [Ld' Eb]] := posn_surj hb.
by rewrite -Ea -Eb Q_entry // held_pos.
Qed.

(** Operators that keep the charge of the island. *)
Definition keeps (M : nat -> nat -> C) : Prop := forall d d', legal (hm h) d n -> legal (hm h) d' n -> d i != d' i -> M (pos d) (pos d') = 0.
Lemma keeps_one X j : (j < n)%N -> (forall k, dim (X k) = hm h k) ->
  (forall k l, k != l -> ent (X i) k l = 0) -> keeps (ent (T (one_fam h X j) n)).
Proof.
move=> hj dX dg d d' Ld Ld' ne; have [_ ->] := one_acts hj dX => //.
case: (eqVneq j i) => [->|nj]; first by case: ifP => // _; exact: dg.
case: ifP => // /forallP /(_ (Ordinal hi)) /= /orP [/eqP e|/eqP e]; first by rewrite e eqxx in nj.
by rewrite e eqxx in ne.
Qed.
Lemma keepsQ j : (j < n)%N -> keeps (ent (opQ h j)).
Proof. by move=> hj; rewrite opQE; apply: keeps_one => // [k|k l ne]; [exact: dimQ|rewrite Qdiag // (negbTE ne)]. Qed.
Lemma keepsPhi j : (j < n)%N -> keeps (ent (opPhi h j)).
Proof.
move=> hj; rewrite opPhiE; apply: keeps_one => // [k|k l ne]; first exact: dimF.
by rewrite /flux_op_isolated ch /= (negbTE ne).
Qed.
Lemma keepsN j : (j < n)%N -> keeps (ent (opN h j)).
Proof.
move=> hj; rewrite opNE; apply: keeps_one => // [k|k l ne]; first exact: dimN.
by rewrite /num_op_isolated ch /= (negbTE ne).
Qed.
Lemma keepsQQ j k : (j < n)%N -> (k < n)%N -> keeps (fun a b => prodQ h a b j k).
Proof.
move=> hj hk d d' Ld Ld' ne; rewrite /prodQ /= dim_opQ big1 // => c _.
have [e [Le <-]] := posn_surj (ltn_ord c); case: (eqVneq (d i) (e i)) => [de|nde].
  by rewrite [X in _ * X](keepsQ hk) ?mulr0 // -de.
by rewrite [X in X * _](keepsQ hj) ?mul0r.
Qed.
Lemma keepsLC : keeps (oent (LC_hamil h)).
Proof.
move=> d d' Ld Ld' ne; have la : (pos d < total h)%N := posn_lt Ld; have lb : (pos d' < total h)%N := posn_lt Ld'.
rewrite HamProofs4.LC_entry // /half_sum big1 ?add0r => [|j _]; last first.
  by apply: big1 => k _; rewrite [prodQ _ _ _ _ _](keepsQQ (ltn_ord j) (ltn_ord k) Ld Ld' ne) mulr0.
by apply: big1 => j _; rewrite [ent _ _ _](keepsN (ltn_ord j) Ld Ld' ne) [prodQ _ _ _ _ _](keepsQQ (ltn_ord j) (ltn_ord j) Ld Ld' ne) !mulr0 subr0.
Qed.
Lemma keepsC e : keeps (cpl h e).
Proof.
move=> d d' Ld Ld' ne; rewrite cpl_entry; case: coupling_coef => // k; rewrite big_seq big1 // => j.
by rewrite mem_iota add0n => /andP [_ hj]; rewrite [ent _ _ _](keepsPhi hj Ld Ld' ne) mulr0.
Qed.
Lemma keeps_comm M a b : keeps M -> (a < N)%N -> (b < N)%N -> (held a - held b)%:C * M a b = 0.
Proof.
move=> k ha hb; have [d [Ld Ea]] := posn_surj ha; have [d' [Ld' Eb]] := posn_surj hb.
rewrite -Ea -Eb; case: (eqVneq (d i) (d' i)) => [e|ne]; last by rewrite (k _ _ Ld Ld' ne) mulr0.
by rewrite held_diff // e Rminus_diag_eq // mulr0 cR0 mul0r.
Qed.

(** The exponential of a junction moves [moved] pairs. *)
Lemma exp_comm w a b : (a < N)%N -> (b < N)%N ->
  (held a - held b)%:C * ent (opExp disp h w) a b = (pair_charge * moved (t_wT (h_st h) w i))%:C * ent (opExp disp h w) a b.
Proof.
move=> ha hb; have [d [Ld Ea]] := posn_surj ha; have [d' [Ld' Eb]] := posn_surj hb; rewrite -Ea -Eb held_diff //.
rewrite -[opExp _ _ _]/(T (exp_iso disp h w) n) (T_ent (dims := hm h)) //; last first.
  by move=> k hk; exact: iso_dim.
rewrite (bigD1 (Ordinal hi)) //=.
have EE : exp_iso disp h w i = d_op_isolated (hm h i) (t_wT (h_st h) w i) by rewrite /exp_iso ch.
rewrite EE d_entry.
rewrite /moved; set P := \prod_(_ < _ | _) _.
have z (x y : C) : 0 = y -> x * (y * P) = 0 by move=> <-; rewrite mul0r mulr0.
case: ifP => _; last (case: ifP => _); (case: eqP => [->|_]; last by rewrite !z); congr (_%:C * _); congr (_ * _).
- by rewrite S_INR; lra.
- by rewrite S_INR -[RHS]/R1; lra.
by apply: Rminus_diag_eq.
Qed.

(** ** The junctions *)
Lemma i_half2 : 'i * (2%:R * 'i)^-1 = (2%:R : C)^-1.
Proof. by rewrite invfM mulrCA mulfV ?i_neq0 // mulr1. Qed.
Lemma sin_E p w a b : 'i * sinent disp h p w a b = 2%:R^-1 * (expi p * ent (opExp disp h w) a b - (expi p * ent (opExp disp h w) b a)^*).
Proof.
rewrite -i_half2 -mulrA; congr ('i * _); rewrite /sinent /jj_sin /jj_exp /oscale /osub /oadj /=.
Qed.
Lemma exp_comm' w a b : (a < N)%N -> (b < N)%N ->
  (held a - held b)%:C * (ent (opExp disp h w) b a)^* = - ((pair_charge * moved (t_wT (h_st h) w i))%:C * (ent (opExp disp h w) b a)^*).
Proof.
move=> ha hb; have := congr1 (fun z : C => - z^*) (exp_comm w hb ha); rewrite !cjM !cjR => <-.
by rewrite -mulNr; congr (_ * _); rewrite -cRN opprB.
Qed.
Let g w : C := (pair_charge * moved (t_wT (h_st h) w i))%:C.
Lemma cos_comm p w a b : (a < N)%N -> (b < N)%N ->
  (held a - held b)%:C * jjent disp h p w a b = g w * ('i * sinent disp h p w a b).
Proof.
move=> ha hb; have e1 := exp_comm w ha hb; have e2 := exp_comm' w ha hb; rewrite sin_E /jjent !cjM -/(g w) in e1 e2 *.
move: e1 e2; move: (held a - held b)%:C (g w) (ent (opExp disp h w) a b) ((ent (opExp disp h w) b a)^*) (expi p) ((expi p)^*) (2%:R^-1 : C).
move=> f G X Y e e' t e1 e2; rewrite mulrCA [RHS]mulrCA; congr (t * _); rewrite mulrDr mulrBr.
by rewrite [f * (e * X)]mulrCA [f * (e' * Y)]mulrCA e1 e2; ring.
Qed.
Lemma sin_comm p w a b : (a < N)%N -> (b < N)%N ->
  (held a - held b)%:C * ('i * sinent disp h p w a b) = g w * jjent disp h p w a b.
Proof.
move=> ha hb; have e1 := exp_comm w ha hb; have e2 := exp_comm' w ha hb; rewrite sin_E /jjent !cjM -/(g w) in e1 e2 *.
move: e1 e2; move: (held a - held b)%:C (g w) (ent (opExp disp h w) a b) ((ent (opExp disp h w) b a)^*) (expi p) ((expi p)^*) (2%:R^-1 : C).
move=> f G X Y e e' t e1 e2; rewrite mulrCA [RHS]mulrCA; congr (t * _); rewrite mulrBr.
by rewrite [f * (e * X)]mulrCA [f * (e' * Y)]mulrCA e1 e2; ring.
Qed.

(** ** The Hamiltonian *)
Variables (val : nat -> R) (loops : seq R) (B : arr) (ks : keys) (A : op).
Hypothesis EA : hamiltonian disp h val loops B ks = Ok A.
Let ph (k : edge * nat * nat * nat) := ext_flux loops B k.1.2.

Lemma ham_comm a b : (a < N)%N -> (b < N)%N ->
  (held a - held b)%:C * ent A a b = - \sum_(k <- k_jj ks) (val k.1.1.2)%:C * (g k.2 * ('i * sinent disp h (ph k) k.2 a b)).
Proof.
move=> ha hb; rewrite (hamiltonian_entry _ _ EA) mulrBr mulrDr (keeps_comm keepsLC ha hb) add0r.
rewrite (_ : _ * (\sum_(k <- k_ind ks) _) = 0) ?sub0r; last first.
  by rewrite mulr_sumr big1 // => k _; rewrite mulrCA (keeps_comm (@keepsC _) ha hb) mulr0.
by congr (- _); rewrite mulr_sumr; apply: eq_bigr => k _; rewrite mulrCA cos_comm.
Qed.
Lemma ham_comm2 a b : (a < N)%N -> (b < N)%N ->
  (held a - held b)%:C * ((held a - held b)%:C * ent A a b) = - \sum_(k <- k_jj ks) (val k.1.1.2)%:C * (g k.2 * (g k.2 * jjent disp h (ph k) k.2 a b)).
Proof.
move=> ha hb; rewrite ham_comm // mulrN mulr_sumr; congr (- _); apply: eq_bigr => k _.
by rewrite mulrCA; congr (_ * _); rewrite mulrCA sin_comm.
Qed.

Let dA : dim A = N. Proof. by have [] := hamiltonian_ok disp_dim EA. Qed.
Let herm_ent a b : (a < N)%N -> (b < N)%N -> ent A a b = (ent A b a)^*.
Proof. by move=> ha hb; have [_ [_ H]] := hamiltonian_ok disp_dim EA; rewrite H ?dA. Qed.

Section State.
Variables (E : nat -> R) (v : nat -> nat -> C) (k : nat).
Hypothesis L : levels_of A E v.
Hypothesis hk : (k < dim A)%N.
Let x := v k.
Let two (M : nat -> nat -> C) : C := \sum_(a < N) \sum_(b < N) (x a)^* * (M a b * x b).

Lemma row a : (a < N)%N -> \sum_(b < N) ent A a b * x b = (E k)%:C * x a.
Proof. by have [_ EV _] := L; rewrite -dA => ha; exact: EV. Qed.
Lemma col b : (b < N)%N -> \sum_(a < N) (x a)^* * ent A a b = (E k)%:C * (x b)^*.
Proof.
move=> hb; have := congr1 conjc (row hb); rewrite rmorph_sum -[conjc (_ * _)]/((_ * _)^*) cjM cjR => <-.
by apply: eq_bigr => a _; rewrite -[RHS]/((ent A b a * x a)^*) cjM mulrC -herm_ent.
Qed.
Lemma two_left (f : nat -> C) : two (fun a b => f a * ent A a b) = (E k)%:C * \sum_(a < N) f a * ((x a)^* * x a).
Proof.
rewrite /two mulr_sumr; apply: eq_bigr => a _; rewrite -mulr_sumr.
rewrite (eq_bigr (fun b : 'I_N => f a * (ent A a b * x b))); last by move=> b _; rewrite mulrA.
by rewrite -mulr_sumr row //; move: ((x a)^*) (x a) (f a) (E k)%:C => ? ? ? ?; ring.
Qed.
Lemma two_right (f : nat -> C) : two (fun a b => f b * ent A a b) = (E k)%:C * \sum_(a < N) f a * ((x a)^* * x a).
Proof.
rewrite /two exchange_big mulr_sumr; apply: eq_bigr => b _ /=.
rewrite (eq_bigr (fun a : 'I_N => (f b * x b) * ((x a)^* * ent A a b))); last first.
  by move=> a _; move: ((x a)^*) (x b) (f b) (ent A a b) => ? ? ? ?; ring.
by rewrite -mulr_sumr col //; move: ((x b)^*) (x b) (f b) (E k)%:C => ? ? ? ?; ring.
Qed.
Lemma two_add M M' : two (fun a b => M a b + M' a b) = two M + two M'.
Proof.
rewrite /two -big_split; apply: eq_bigr => a _; rewrite -big_split; apply: eq_bigr => b _ /=.
by rewrite mulrDl mulrDr.
Qed.
Lemma two_eq M M' : (forall a b, (a < N)%N -> (b < N)%N -> M a b = M' a b) -> two M = two M'.
Proof. by move=> H; apply: eq_bigr => a _; apply: eq_bigr => b _; rewrite H. Qed.
Lemma two_scale (z : C) M : two (fun a b => z * M a b) = z * two M.
Proof. by rewrite /two mulr_sumr; apply: eq_bigr => a _; rewrite mulr_sumr; apply: eq_bigr => b _; rewrite -mulrA mulrCA. Qed.
Lemma two_sum (I : Type) (l : seq I) (M : I -> nat -> nat -> C) : two (fun a b => \sum_(j <- l) M j a b) = \sum_(j <- l) two (M j).
Proof.
elim: l => [|j l IH].
  by rewrite big_nil /two big1 // => a _; rewrite big1 // => b _; rewrite big_nil mul0r mulr0.
rewrite big_cons -IH -two_add; apply: two_eq => a b _ _; by rewrite big_cons.
Qed.

(** The currents into the island cancel. *)
Lemma currents : \sum_(j <- k_jj ks) (val j.1.1.2)%:C * (g j.2 * ('i * two (sinent disp h (ph j) j.2))) = 0.
Proof.
have Z : two (fun a b => (held a - held b)%:C * ent A a b) = 0.
  rewrite (two_eq (M' := fun a b => (held a)%:C * ent A a b + (-1) * ((held b)%:C * ent A a b))); last first.
    by move=> a b _ _; rewrite cRB mulN1r mulrBl.
  by rewrite two_add two_scale two_left two_right mulN1r subrr.
move: Z; rewrite (two_eq ham_comm).
rewrite (two_eq (M' := fun a b => (-1) * \sum_(j <- k_jj ks) (val j.1.1.2)%:C * (g j.2 * ('i * sinent disp h (ph j) j.2 a b)))); last by move=> *; rewrite mulN1r.
rewrite two_scale two_sum mulN1r => /eqP; rewrite oppr_eq0 => /eqP Z.
by rewrite -[RHS]Z; apply: eq_bigr => j _; rewrite !two_scale.
Qed.

Lemma double : two (fun a b => (held a - held b)%:C * ((held a - held b)%:C * ent A a b)) =
  - \sum_(j <- k_jj ks) (val j.1.1.2)%:C * (g j.2 * (g j.2 * two (jjent disp h (ph j) j.2))).
Proof.
rewrite (two_eq ham_comm2).
rewrite (two_eq (M' := fun a b => (-1) * \sum_(j <- k_jj ks) (val j.1.1.2)%:C * (g j.2 * (g j.2 * jjent disp h (ph j) j.2 a b)))); last by move=> *; rewrite mulN1r.
by rewrite two_scale two_sum mulN1r; congr (- _); apply: eq_bigr => j _; rewrite !two_scale.
Qed.

Lemma elementQ j : element (opQ h i) (v j) x = PerturbSpec.dot N (v j) (fun a => (held a)%:C * x a).
Proof.
rewrite /element dim_opQ; apply: eq_bigr => a _; congr (_ * _).
rewrite (bigD1 a) //= big1 ?addr0 => [|b ne]; first by rewrite Q_held // eqxx.
by rewrite Q_held // eq_sym ifF ?mul0r //; apply/negbTE.
Qed.

Lemma transitions : 2%:R * (\sum_(j < N) (E j - E k) * nrm (element (opQ h i) (v j) x))%:C =
  \sum_(j <- k_jj ks) (val j.1.1.2)%:C * (g j.2 * (g j.2 * two (jjent disp h (ph j) j.2))).
Proof.
have [_ EV ON] := L; rewrite dA in EV ON.
pose f a := (held a)%:C; pose y a := f a * x a; pose c j := PerturbSpec.dot N (v j) y.
have X a : (a < N)%N -> y a = \sum_(j < N) c j * v j a by move=> ha; exact: (complete y ON ha).
have [W Q] := combination EV ON X.
have fc a : (f a)^* = f a by rewrite /f cjR.
have -> : (\sum_(j < N) (E j - E k) * nrm (element (opQ h i) (v j) x))%:C =
   two (fun a b => f a * (f b * ent A a b)) - (E k)%:C * \sum_(a < N) (f a * f a) * ((x a)^* * x a).
  have -> : \sum_(j < N) (E j - E k) * nrm (element (opQ h i) (v j) x) = \sum_(j < N) nrm (c j) * E j - E k * \sum_(j < N) nrm (c j).
    by rewrite mulr_sumr -sumrB; apply: eq_bigr => j _; rewrite elementQ -/(c j) mulrBl [E j * _]mulrC.
  rewrite cRB cRM -W -Q; congr (_ - _ * _).
    rewrite /two; apply: eq_bigr => a _; rewrite mulr_sumr; apply: eq_bigr => b _.
    by rewrite /y cjM fc; move: (f a) (f b) ((x a)^*) (x b) (ent A a b) => ? ? ? ? ?; ring.
  by apply: eq_bigr => a _; rewrite /y cjM fc mulrACA.
apply: oppr_inj; rewrite -double.
rewrite [RHS](two_eq (M' := fun a b => (f a * f a) * ent A a b + ((f b * f b) * ent A a b + (- 2%:R) * (f a * (f b * ent A a b))))); last first.
  by move=> a b _ _; rewrite cRB -/(f a) -/(f b); move: (f a) (f b) (ent A a b) => ? ? ?; ring.
rewrite [RHS]two_add [X in _ = _ + X]two_add two_scale (two_left (fun a => f a * f a)) (two_right (fun a => f a * f a)).
by move: (two _) ((E k)%:C * _) => ? ?; ring.
Qed.
End State.
End Island.

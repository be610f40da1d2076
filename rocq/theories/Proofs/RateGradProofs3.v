(** RateGradProofs3.v -- derivatives of the dephasing rates. *)
From Coq Require Import Reals ZArith String Lra.
From Verif.Spec Require Import ThermalSpec.
From Verif.Proofs Require Import ThermalProofs CDeriv.
From Verif.Model Require Import Base Units Noise Edge Elements LCWB HamConst PartialConst Thermal RateConst.
Open Scope R_scope.

(** One term of a dephasing rate. *)
Lemma term_derivative sl A t p2 dA k : has_derivative sl t p2 -> has_derivative A t dA ->
  (0 < A t /\ sl t <> 0) \/ ((forall u, A u = 0) /\ dA = 0) ->
  has_derivative (fun u => Rabs (sl u * A u) * k) t (sign (sl t) * k * (dA * sl t + A t * p2)).
Proof.
  intros H1 H2 [[HA Hs]|[HA Hd]].
  - pose proof (rate_derivative sl A t p2 dA k H1 H2) as H.
    rewrite sign_mult, (proj1 (ThermalProofs.sign_spec (A t)) HA), Rmult_1_r in H.
    replace (dA * sl t + A t * p2) with (p2 * A t + sl t * dA) by ring.
    apply H. apply Rmult_integral_contrapositive_currified; lra.
  - apply (hd_ext (fun _ => 0)).
    + intros u. rewrite HA, Rmult_0_r, Rabs_R0. ring.
    + eapply hd_eq; [apply hd_const|]. rewrite HA, Hd. ring.
Qed.
Lemma term_rule (sl A : R -> R) t0 dA K p2 r : has_derivative sl t0 (p2 + r) -> has_derivative A t0 dA ->
  (0 < A t0 /\ sl t0 <> 0) \/ ((forall u, A u = 0) /\ dA = 0) ->
  has_derivative (fun t => Rabs (sl t * A t) * K) t0
    (sign (sl t0) * K * (dA * sl t0 + A t0 * p2) + sign (sl t0) * K * (A t0 * r)).
Proof.
  intros H1 H2 Hc. eapply hd_eq; [exact (term_derivative _ _ _ _ _ K H1 H2 Hc)|]. ring.
Qed.
Lemma hd_line a b c t : has_derivative (fun u => a * (b + (u - c))) t a.
Proof.
  apply (hd_ext (fun u => a * b + (u - c) * a)); [intros u; ring|]. apply hd_affine.
Qed.
Lemma shuffle4 a b c d : 2 * a + b + - (2 * c + d) = 2 * (a + - c) + (b + - d).
Proof. ring. Qed.
Close Scope R_scope.

From mathcomp Require Import all_ssreflect all_algebra.
From mathcomp Require Import complex.
From Verif.Numerics Require Import RStruct Bridge.
From Verif.Model Require Import Transform Op Ham Diag CircuitSM Partial DecRate TorchRates.
From Verif.Spec Require Import OpSpec GradSpec PerturbSpec DecSpec RateGradSpec.
From Verif.Proofs Require Import OpProofs HamProofs HamProofs2 SMProofs MemProofs GradProofs PerturbProofs PerturbProofs2
  SecondOrder RateGradProofs RateGradProofs2 DecProofs DecProofs2 DecProofs3.

Set Implicit Arguments.
Unset Strict Implicit.
Unset Printing Implicit Defensive.
Import GRing.Theory.
Local Open Scope ring_scope.
Local Open Scope complex_scope.

Lemma hd_sum (T : Type) (l : seq T) (F : T -> R -> R) (D : T -> R) t :
  (forall k, List.In k l -> has_derivative (F k) t (D k)) ->
  has_derivative (fun u => \sum_(k <- l) F k u) t (\sum_(k <- l) D k).
Proof.
elim: l => [|k l IH] H.
  by rewrite big_nil; apply: hd_ext (hd_const 0 t) => u; rewrite big_nil.
rewrite big_cons; apply: hd_ext (hd_add _ _ _ _ _ (H k (or_introl erefl)) (IH (fun j hj => H j (or_intror hj)))).
by move=> u; rewrite big_cons.
Qed.

Lemma braket_dot N v P w : dim P = N -> braket v P w = dot N v (apply_to N (ent P) w).
Proof. by move=> <-; rewrite -sandwichE. Qed.

Lemma some_opE r i j : ent (some_op r) i j = grad_entry r i j.
Proof. by case: r => [[P|]|]. Qed.

(** A sum of terms is differentiated term by term; [r] is the difference from the
    reported derivative. *)
Lemma sum_rule (K : Type) (f : R -> K -> res (option R)) (d : K -> res (option R)) (r : K -> R) ks t0 rate g :
  near t0 (fun t => foldl (rate_add (f t)) (Ok (Some 0)) ks = Ok (Some (rate t))) ->
  foldl (rate_add d) (Ok (Some 0)) ks = Ok (Some g) ->
  (forall k, List.In k ks -> near t0 (fun t => f t k = Ok (Some (rate_val (f t k)))) ->
     d k = Ok (Some (rate_val (d k))) -> has_derivative (fun t => rate_val (f t k)) t0 (rate_val (d k) + r k)) ->
  has_derivative rate t0 (g + \sum_(k <- ks) r k).
Proof.
move=> Hf /fold_val [Hd ->] H.
have [rd [r0 Hr]] := Hf.
apply: (hd_near (fun t => \sum_(k <- ks) rate_val (f t k)) _ _ _ _ r0).
  by move=> t /Hr /fold_val [_ ->]; rewrite add0r.
rewrite add0r; apply: hd_eq (@hd_sum _ ks (fun k t => rate_val (f t k)) (fun k => rate_val (d k) + r k) t0 _) _; last first.
  by rewrite big_split.
move=> k hk; apply: H => //; last exact: Hd.
by apply: near_mono Hf => t /fold_val [H' _]; apply: H'.
Qed.

Section Follow.
Variables (disp : nat -> C -> op) (s : store) (x : circ) (c : LCWB.comp).
Hypothesis dims : forall m a, dim (disp m a) = m.
Hypothesis Rg : regular disp s x.
Hypothesis kind : match c with CLoop l => l \in c_loops (x_c x) | CEl el => ekind s el = KJJ end.
Variables (e : R -> eigres) (m n : nat).
Let N := total (hof x).
Let t0 := comp_value s c.
Let h := ham_family s x c.
Let xt := at_value s x c e.
Let vec k t := nth (fun=> 0) (e_vecs (e t)) k.
Hypothesis all_levels : complete N (h t0) (e t0).

Lemma one_slope k G G2 A dk : (k < N)%N -> tracked N h t0 e k ->
  partial_H s (xt t0) c None = Ok (Some A) -> get_partial_vec s (xt t0) c (Z.of_nat k) 0 = Ok dk ->
  (forall i j, (i < N)%N -> (j < N)%N -> cderiv (fun t => G t i j) t0 (G2 i j)) -> hermitian N (G t0) ->
  has_derivative (fun t => complex.Re (dot N (vec k t) (apply_to N (G t) (vec k t)))) t0
    (Rmult 2 (complex.Re (dot N dk (apply_to N (G t0) (vec k t0)))) +
     complex.Re (dot N (vec k t0) (apply_to N G2 (vec k t0)))).
Proof.
move=> hk [v [w [dv [dw [B nrm ph Ew]]]]] EA Ek HG hG.
have [N1 sf sv onb pairs] := all_levels.
have EA' : reported_grad s x c None = Ok (Some A).
  by move: EA; rewrite /xt /at_value /t0 changed_same.
have dA : dim A = N.
  move: kind; case: (c) EA' => [el|l] EA' Ek'; first by have /ok_sized := jj_ok dims Rg Ek' EA'.
  by have /ok_sized := loop_ok dims Rg EA'.
have [_ [z [z1 Ez]]] := near_at ph.
pose v' t i := z * v t i.
have B' : branch N h t0 v' w (fun i => z * dv i) dw.
  case: B => [[d [d0 H1]] H2 H3]; split=> //.
    by exists d; split=> // t /H1 H i hi; rewrite applyZ H // mulrCA.
  by move=> i hi; apply: cd_scale; apply: H2.
have nrm' : near t0 (fun t => dot N (v' t) (v' t) = 1).
  apply: near_mono nrm => t; by rewrite dotZl dotZr mulrA z1 mul1r.
have thr i : (i < N)%N -> v' t0 i = vec k t0 i by move=> hi; rewrite /vec Ez.
have [r [r0 Hr]] := ph.
apply: (hd_near (fun t => complex.Re (dot N (v' t) (apply_to N (G t) (v' t)))) _ _ _ _ r0).
  move=> t /Hr [_ [z' [z1' Ez']]]; rewrite (expect_phase (G t) z1 (fun i _ => erefl (v' t i))).
  by rewrite (expect_phase (G t) z1' Ez').
have D : forall i j, (i < dim A)%N -> (j < dim A)%N -> cderiv (fun t => h t i j) t0 (ent A i j).
  by move=> i j _ _; exact: (fam_deriv Rg kind i j EA').
have Hh : hermitian (dim A) (h t0) by rewrite dA; exact: (fam_hermitian dims c Rg t0).
move: B' thr HG hG nrm' onb pairs; rewrite -dA => B' thr HG hG nrm' onb pairs.
apply: (@branch_slope s (xt t0) c A EA _ onb h t0 v' w _ dw k B' D Hh _ _ _ thr Ew G G2 dk HG hG nrm' Ek) => //.
- by rewrite /= sf sv.
- by move=> i; rewrite /= sv -dA; apply: pairs.
- by rewrite /= sv dA.
- by rewrite /= sv.
Qed.

Hypothesis track_m : tracked N h t0 e m.
Hypothesis track_n : tracked N h t0 e n.
Hypothesis hm : (m < N)%N.
Hypothesis hn : (n < N)%N.

Lemma get_vec_grad k dk : (k < N)%N -> get_partial_vec s (xt t0) c (Z.of_nat k) 0 = Ok dk ->
  exists A, partial_H s (xt t0) c None = Ok (Some A).
Proof.
have [N1 sf sv onb pairs] := all_levels; move=> hk.
rewrite /get_partial_vec /= sv; case: eqP => // _; rewrite /evec py_nthE ?sv //; cbn [bind].
case: partial_H => [[A|]|] //; first by exists A.
rewrite /efreq py_nthE ?sf //; cbn [bind] => /vec_fold [a [_ H1 _]]; exfalso.
have [j [hs hj]] : exists j, (j < N)%N /\ skip (Z.of_nat k) j.
  exists (if k == 0%N then 1 else 0)%N; rewrite /skip.
  case: (eqVneq k 0%N) => [->|m0]; split=> //; first exact: leq_ltn_trans N1.
  by apply/negP => /Z.eqb_eq E; case/eqP: m0; apply: Nat2Z.inj.
have hj' : j \in iota 0 N by rewrite mem_iota.
by have [] := H1 j hj' hj.
Qed.

Lemma pair_slope P P2 g : near t0 (fun t => dim (P t) = N) -> sized N P2 ->
  (forall i j, (i < N)%N -> (j < N)%N -> cderiv (fun t => ent (P t) i j) t0 (opt_entry P2 i j)) ->
  hermitian N (ent (P t0)) ->
  partial_squared_omega s (xt t0) c (Some (P t0)) P2 (Z.of_nat m) (Z.of_nat n) 0 = Ok g ->
  has_derivative (fun t => slope (vec m t) (vec n t) (P t)) t0 g.
Proof.
move=> dP s2 HP hP /squaredE [vm [vn [dm [dn [E1 E2 E3 E4 /(_ N) ->]]]]] //; last exact: near_at dP.
have [A EA] := get_vec_grad hm E3.
have [N1 sf sv _ _] := all_levels.
move: E1 E2; rewrite /evec !py_nthE ?sv // => -[<-] [<-].
have D1 := one_slope hm track_m EA E3 HP hP; have D2 := one_slope hn track_n EA E4 HP hP.
have [r [r0 Hr]] := dP.
apply: (hd_near (fun t => complex.Re (dot N (vec m t) (apply_to N (ent (P t)) (vec m t))) +
   - complex.Re (dot N (vec n t) (apply_to N (ent (P t)) (vec n t)))) _ _ _ _ r0).
  by move=> t /Hr dt; rewrite /slope !(braket_dot _ _ dt) ReD ReN.
apply: hd_eq (hd_add _ _ _ _ _ D1 (hd_opp _ _ _ D2)) _; rewrite !ReD !ReN.
set a := complex.Re _; set b := complex.Re _; set a' := complex.Re _; set b' := complex.Re _.
exact: shuffle4.
Qed.

Lemma evec_near k : tracked N h t0 e k -> near t0 (fun t => evec (xt t) (Z.of_nat k) = Ok (vec k t)).
Proof.
move=> [v [w [dv [dw [_ _ ph _]]]]]; apply: near_mono ph => t [hk _].
by rewrite /evec py_nthE.
Qed.

End Follow.

(** Stored results [e] with [K] levels and a rule for the derivative of the
    difference of slopes of the levels [m] and [n], [corr] being what the reported
    second derivative leaves out. *)
Record slopes_follow (s : store) (x : circ) (c : LCWB.comp) (e : R -> eigres) (m n : nat) (eps : R)
    (corr : op -> option op -> R) : Prop := mkFollow {
  sf_vecs : near (comp_value s c) (fun t =>
    (m < size (e_vecs (e t)))%N /\ (n < size (e_vecs (e t)))%N);
  sf_slope : forall (G : R -> res (option op)) P0 P2 p2,
    near (comp_value s c) (fun t => exists P, G t = Ok (Some P)) ->
    (forall t P, G t = Ok P -> okacc (total (hof x)) P) -> okacc (total (hof x)) P2 ->
    (forall i j, cderiv (fun t => grad_entry (G t) i j) (comp_value s c) (opt_entry P2 i j)) ->
    G (comp_value s c) = Ok (Some P0) ->
    partial_squared_omega s (at_value s x c e (comp_value s c)) c (Some P0) P2 (Z.of_nat m) (Z.of_nat n) eps = Ok p2 ->
    has_derivative (fun t => slope (nth (fun=> 0) (e_vecs (e t)) m) (nth (fun=> 0) (e_vecs (e t)) n) (some_op (G t)))
      (comp_value s c) (p2 + corr P0 P2) }.

Section Complete.
Variables (disp : nat -> C -> op) (s : store) (x : circ) (c : LCWB.comp).
Hypothesis dims : forall m a, dim (disp m a) = m.
Hypothesis Rg : regular disp s x.
Hypothesis kind : match c with CLoop l => l \in c_loops (x_c x) | CEl el => ekind s el = KJJ end.
Variables (e : R -> eigres) (m n : nat).
Let N := total (hof x).
Let t0 := comp_value s c.
Let h := ham_family s x c.
Hypothesis track_m : tracked N h t0 e m.
Hypothesis track_n : tracked N h t0 e n.
Hypothesis hm : (m < N)%N.
Hypothesis hn : (n < N)%N.

Lemma tracked_size k : tracked N h t0 e k -> near t0 (fun t => (k < size (e_vecs (e t)))%N).
Proof. by move=> [v [w [dv [dw [_ _ ph _]]]]]; apply: near_mono ph => t []. Qed.

Lemma follow_complete : complete N (h t0) (e t0) -> slopes_follow s x c e m n 0 (fun _ _ => 0).
Proof.
move=> al; split; first exact: near_and (tracked_size track_m) (tracked_size track_n).
move=> G P0 P2 p2 HG ok ok2 D EG Ep; apply: (hd_eq _ _ p2); last exact: (esym (addr0 p2)).
have okP t P : G t = Ok (Some P) -> dim P = N by move=> /ok [].
have EP : some_op (G (comp_value s c)) = P0 by rewrite EG.
apply: (@pair_slope disp s x c dims Rg kind e m n al track_m track_n hm hn (fun t => some_op (G t)) P2).
- by apply: near_mono HG => t [P EP']; rewrite EP' /=; apply: okP EP'.
- exact: ok_sized ok2.
- move=> i j _ _; apply: cd_ext (D i j) => t; by rewrite some_opE.
- rewrite EP; exact: ok_herm (ok _ _ EG).
- by rewrite EP.
Qed.
End Complete.

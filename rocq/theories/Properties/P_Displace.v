(** P_Displace.v -- C83: the displacement operators of the harmonic modes. *)
From Coq Require Import Reals ZArith String Lia Lra.
From Verif.Model Require Import Base Units Settings Edge Elements LCWB Accuracy HamConst.
From Verif.Spec Require Import PhysSpec.
From Verif.Proofs Require Import HamConstProofs.
From mathcomp Require Import all_ssreflect all_algebra.
From mathcomp Require Import complex ring.
From Verif.Numerics Require Import RStruct Bridge.
From Verif.Model Require Import Op Transform Ham Diag CircuitSM.
From Verif.Spec Require Import OpSpec HalfSpec SessionSpec LevelsSpec SymmetrySpec.
From Verif.Proofs Require Import OpProofs HamProofs HamProofs5 HamProofs6 HalfProofs SymmetryProofs SymmetryProofs4 ExpProofs ExpProofs2.
From Verif.Properties Require Import P_Ops P_Operators P_Lipschitz.

Set Implicit Arguments.
Unset Strict Implicit.
Unset Printing Implicit Defensive.
Import GRing.Theory Order.TTheory.
Local Open Scope ring_scope.
Local Open Scope complex_scope.

(** qt.displace(m, a) is the matrix exponential of a a+ - a* a.  The series converges
    for all m and a, and the limit is unique. *)
Theorem C83_exists : exists disp, exponential disp.
Proof. exact: exponential_exists. Qed.
Print Assumptions C83_exists.

Theorem C83_unique disp disp' m a : exponential disp -> exponential disp' -> eqop (disp m a) (disp' m a).
Proof.
move=> H H'; have [d h] := H m a; have [d' h'] := H' m a; split=> [|i j]; rewrite ?d // => hi hj.
exact: climit_unique (h i j hi hj) (h' i j hi hj).
Qed.
Print Assumptions C83_unique.

(** The displacement operators are unitary, the one for minus the amplitude is the
    inverse, and along a line of amplitudes they multiply. *)
Theorem C83_group disp m a (s t : R) : exponential disp ->
  [/\ eqop (disp m 0) (oeye m), eqop (oadj (disp m a)) (disp m (- a)), unitary (disp m a) &
      eqop (omul (disp m (s%:C * a)) (disp m (t%:C * a))) (disp m ((s + t)%:C * a))].
Proof. by move=> H; split; [exact: disp_zero|exact: disp_adj|exact: disp_unitary|exact: line_mul]. Qed.
Print Assumptions C83_group.

(** The half amplitude used for sin(X/2). *)
Theorem C83_half disp m a : exponential disp -> square_root (disp m (a / 2%:R)) (disp m a).
Proof. by move=> H; exact: disp_root. Qed.
Print Assumptions C83_half.

(** The phase across a junction on the harmonic modes, from the flux operators of the
    modes; the shifts of the charge modes. *)
Definition phase_op (h : hin) (w : nat) : op := Op (\prod_(k < hn h) hm h k)%N (fun a b =>
  \sum_(j < hn h) if hcharge h j then 0 else (radians_per_flux * t_wT (h_st h) w j)%:C * ent (opPhi h j) a b).
Definition charge_shift (h : hin) (w : nat) : op :=
  otensor [seq (if hcharge h j then d_op_isolated (hm h j) (t_wT (h_st h) w j) else oeye (hm h j)) | j <- iota 0 (hn h)].

Section Junction.
Variables (disp : nat -> C -> op) (h : hin) (w : nat).
Hypothesis ex : exponential disp.
Hypothesis pos : forall j, (j < hn h)%N -> ~~ hcharge h j -> Rlt R0 (t_cI (h_st h) j j) /\ Rlt R0 (t_lT (h_st h) j j).
Let G j := if hcharge h j then ozero (hm h j) else oscale ('i * (radians_per_flux * t_wT (h_st h) w j)%:C) (flux_op_isolated h j).
Let D j := if hcharge h j then oeye (hm h j) else exp_iso disp h w j.
Let dG j : dim (G j) = hm h j.
Proof. by rewrite /G; case: ifP => // _; rewrite /= dimF. Qed.
Let pairs j : (j < hn h)%N -> epair (G j) (D j).
Proof.
move=> hj; rewrite /G /D; case: ifP => [_|/negbT c]; first exact: epair_zero.
rewrite /exp_iso (negbTE c) /flux_op_isolated (negbTE c); case: ifP => [_|_].
  apply: (epair_eqop _ (eqop_refl _) (epair_zero 1)).
  by split=> // a b _ _ /=; rewrite mulr0.
have [p1 p2] := pos hj c.
apply: (epair_eqop _ (eqop_refl _) (disp_epair ex (hm h j) (alpha h w j))).
split=> // a b _ _; rewrite /alpha genE /= /hphi_zp phi_zp_flux //.
rewrite mulrA; congr (_ * _); last by rewrite addrC; congr (_ + _); case: (_ == _); rewrite ?cjR ?conjc0.
by rewrite -[RHS]mulrA -cRM; congr (_ * _); congr (_ %:C); rewrite RmultE mulrAC.
Qed.

(** e^{i phase} of a junction: the shift of the charges times the matrix exponential
    of i times the phase on the harmonic modes. *)
Theorem C83_junction : exists X : op, eqop (opExp disp h w) (omul (charge_shift h w) X) /\
  forall a b, (a < dim (phase_op h w))%N -> (b < dim (phase_op h w))%N ->
  climit (fun n => partial_exp (oscale 'i (phase_op h w)) n a b) (ent X a b).
Proof.
exists (T D (hn h)); split.
  rewrite opExpE; apply: eqop_sym; apply: eqop_trans (T_mul _) _ => [k hk|].
    rewrite /D /exp_iso; case: ifP => _; first by rewrite d_dim.
    by case: eqP => [->|_] //=; rewrite (exp_disp_dims ex).
  apply: T_eq => k hk; rewrite /D /exp_iso; case: ifP => c; first by apply: omulA1; rewrite d_dim.
  by apply: omul1; case: eqP => [->|_] //=; rewrite (exp_disp_dims ex).
move=> a b ha hb; apply: (epair_exp (G := oscale 'i (phase_op h w))) => //.
apply: (epair_eqop _ (eqop_refl _) (epair_T pairs)).
split=> [|i j]; first by apply: eq_bigr => k _; exact: dG.
rewrite {1 2}/tsum [dim _]/= (eq_bigr (fun k : 'I_(hn h) => hm h k)) => [hi hj|k _]; last exact: dG.
rewrite /= mulr_sumr; apply: eq_bigr => k _.
have [d [Hd <-]] := posn_surj hi; have [d' [Hd' <-]] := posn_surj hj.
rewrite (T_ent (dims := hm h)) //; last by move=> l _; rewrite dim_single.
case: ifP => c.
  by rewrite mulr0 (bigD1 k) //= /single eqxx /G c /= mul0r.
rewrite opPhiE (T_ent (dims := hm h)) //; last by move=> l _; rewrite /one_fam; case: ifP => // _; rewrite dimF.
rewrite (bigD1 k) //= [in RHS](bigD1 k) //= /single /one_fam eqxx {1}/G c /= !mulrA; congr (_ * _).
by apply: eq_bigr => l; rewrite -val_eqE /= => /negPf ->; rewrite dG.
Qed.
End Junction.
Print Assumptions C83_junction.

(** In a session with displacement operators that are matrix exponentials: the sine
    and the cosine in memory satisfy 2 sin(X/2)^2 = 1 - cos X, and the energies obey
    the bound of C82. *)
Section Session.
Variables (disp : nat -> C -> op) (optim : bool) (o : oracle) (s0 : store) (lobj : nat -> lrec) (fd : string).
Variables (d : seq (edge * seq nat)) (x0 : circ) (u : ustate) (cs : seq call) (tr : seq (world * res unit)).
Hypothesis ex : exponential disp.
Hypothesis built_ok : construct optim o s0 lobj fd d = Some (Ok x0).
Hypothesis session : run disp optim (mkW s0 u x0) cs = Some tr.
Hypothesis updates : updates_ok optim (mkW s0 u x0) cs tr.
Let s := w_s (final (mkW s0 u x0) tr).
Let x := w_x (final (mkW s0 u x0) tr).

Theorem C83_half_angle x1 H e el b w : hamil s x = (x1, Ok H) -> List.In (e, el, b, w) (c_keys_jj (x_c x)) ->
  (forall j, (j < x_n x)%N -> is_charge (x_st x) j -> t_wT (x_st x) w j = 0) ->
  exists Cs Sn, [/\ M_cos (x_mem x1) el b = Some Cs, M_half (x_mem x1) el b = Some Sn & half_angle Cs Sn].
Proof.
move=> EH K W; have U m a : unitary (disp m a) by exact: disp_unitary.
have S m a : square_root (disp m (a / 2%:R)) (disp m a) by exact: disp_root.
exact: (C71_half_angle built_ok session updates EH K U S W).
Qed.

Theorem C83_energies s' x1 x2 A A' E E' :
  let flux s b := ext_flux [seq lvalue s l | l <- c_loops (x_c x)] (x_B x) b in
  hamil s x = (x1, Ok A) -> hamil s' x = (x2, Ok A') ->
  (forall i, List.In i (c_keys_ind (x_c x)) -> evalue s' i.1.2 = evalue s i.1.2 /\ flux s' i.2 = flux s i.2) ->
  energies A E -> energies A' E' -> forall k, (k < dim A)%N ->
  Rle (Rabs (Rminus (E k) (E' k))) (\sum_(j <- c_keys_jj (x_c x)) (Rabs (Rminus (evalue s j.1.1.2) (evalue s' j.1.1.2)) +
     Rabs (evalue s j.1.1.2) * Rabs (Rminus (flux s j.1.2) (flux s' j.1.2)))).
Proof.
move=> flux E1 E2 same HE HE' k hk; have U m a : unitary (disp m a) by exact: disp_unitary.
exact: (C82_session (exp_disp_dims ex) U built_ok session updates E1 E2 same HE HE' hk).
Qed.
End Session.
Print Assumptions C83_half_angle.
Print Assumptions C83_energies.

(** Two levels: the displacement by [i r] rotates them by the angle [r]. *)
Example C83_case disp r : exponential disp -> let D := disp 2%N ('i * r%:C) in
  [/\ ent D 0%N 0%N = (cos r)%:C, ent D 0%N 1%N = 'i * (sin r)%:C, ent D 1%N 0%N = 'i * (sin r)%:C & ent D 1%N 1%N = (cos r)%:C].
Proof.
move=> H D; have [q qq] : exists q : R, q * q = 2%:R^-1.
  exists (Num.sqrt 2%:R^-1); rewrite -expr2 Num.Theory.sqr_sqrtr // Num.Theory.invr_ge0; exact: Num.Theory.ler0n.
have qqC : q%:C * q%:C = 2%:R^-1 :> C by rewrite -cRM qq fmorphV rmorph_nat.
have n2 : 2%:R != 0 :> C by rewrite Num.Theory.pnatr_eq0.
have hh : 2%:R^-1 + 2%:R^-1 = 1 :> C by rewrite -[X in X + _]mul1r -[X in _ + X]mul1r -mulrDl mulfV.
pose v (k a : nat) : C := if (k == 1%N) && (a == 1%N) then - q%:C else q%:C.
pose E (k : nat) : R := if k == 0%N then r else - r.
have s1 : (sqrt (INR 1))%:C = 1 :> C by rewrite sqrt_1.
have g a b : (a < 2)%N -> (b < 2)%N -> ent (gen 2 ('i * r%:C)) a b = if a == b then 0 else 'i * r%:C.
  move=> ha hb; rewrite genE.
  case: a ha => [|[|a]] // _; case: b hb => [|[|b]] // _; rewrite [ent _ _ _]/= [X in _ + X]/= ?s1 ?addr0 ?add0r ?mulr0 ?mulr1 //.
have eig k a : (k < 2)%N -> (a < 2)%N -> \sum_(b < 2) ent (gen 2 ('i * r%:C)) a b * v k b = 'i * (E k)%:C * v k a.
  move=> hk ha; rewrite (eq_bigr (fun b : 'I_2 => (if a == b then 0 else 'i * r%:C) * v k b)) => [|b _]; last by rewrite g.
  rewrite !big_ord_recr big_ord0 /= /v /E add0r.
  by case: k hk => [|[|k]] // _; case: a ha => [|[|a]] // _; rewrite /= mul0r ?add0r ?addr0 ?cRN ?mulrN ?mulNr ?opprK.
have vr k a : (v k a)^* = v k a by rewrite /v; case: (_ && _); rewrite ?cjN cjR.
have orth i j : (i < 2)%N -> (j < 2)%N -> \sum_(a < 2) (v i a)^* * v j a = if i == j then 1 else 0.
  move=> hi hj; rewrite (eq_bigr (fun a : 'I_2 => v i a * v j a)) => [|a _]; last by rewrite vr.
  rewrite !big_ord_recr big_ord0 /= /v add0r.
  by case: i hi => [|[|i]] // _; case: j hj => [|[|j]] // _; rewrite /= ?mulrN ?mulNr ?opprK qqC ?subrr.
have V a b : (a < 2)%N -> (b < 2)%N -> ent D a b = \sum_(k < 2) expi (E k) * (v k a * v k b).
  move=> ha hb; rewrite (eq_bigr (fun k : 'I_2 => expi (E k) * (v k a * (v k b)^*))) => [|k _]; last by rewrite vr.
  have [_ h] := H 2%N ('i * r%:C).
  by apply: climit_unique (h a b ha hb) _; apply: (exp_spec (A := gen 2 ('i * r%:C))).
have e1 : expi r + expi (- r) = 2%:R * (cos r)%:C.
  rewrite /expi cos_neg sin_neg RoppE mulr2n mulrDl mul1r; apply/eqP; rewrite eq_complex /= subrr addr0 !eqxx //.
have e2 : expi r - expi (- r) = 2%:R * ('i * (sin r)%:C).
  rewrite /expi cos_neg sin_neg RoppE mulr2n mulrDl mul1r; apply/eqP; rewrite eq_complex /=.
  by rewrite opprK subrr !(mul0r, mulr0, mul1r, addr0, add0r, subr0, oppr0) !eqxx.
split; rewrite V // !big_ord_recr big_ord0 /= /v /E /= add0r ?mulrNN ?mulrN ?mulNr ?opprK qqC.
- by rewrite -mulrDl e1 mulrAC mulfV // mul1r.
- by rewrite ?mulrN -mulrBl e2 mulrAC mulfV // mul1r.
- by rewrite ?mulrN -mulrBl e2 mulrAC mulfV // mul1r.
- by rewrite -mulrDl e1 mulrAC mulfV // mul1r.
Qed.

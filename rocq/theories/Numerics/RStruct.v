(** RStruct.v -- the real numbers of Coq's standard library as a mathcomp real
    closed field, so that mathcomp matrices and complex numbers can be used over
    them.  Only standard-library axioms are used (classical reals, functional
    extensionality, constructive indefinite description for the choice type). *)
From Coq Require Import Reals Lra ClassicalEpsilon FunctionalExtensionality.
From mathcomp Require Import all_ssreflect ssralg ssrnum poly.

Set Implicit Arguments.
Unset Strict Implicit.
Unset Printing Implicit Defensive.

Local Open Scope R_scope.

Definition eqr (x y : R) : bool := if Req_EM_T x y then true else false.
Lemma eqrP : Equality.axiom eqr.
Proof. by move=> x y; rewrite /eqr; case: Req_EM_T => H; constructor. Qed.
Canonical R_eqMixin := EqMixin eqrP.
Canonical R_eqType := Eval hnf in EqType R R_eqMixin.

Definition pickR (P : pred R) (n : nat) : option R :=
  match excluded_middle_informative (exists x, P x) with
  | left h => Some (proj1_sig (constructive_indefinite_description (fun x => P x) h))
  | right _ => None
  end.
Lemma pickR_some P n x : pickR P n = Some x -> P x.
Proof.
rewrite /pickR; case: excluded_middle_informative => // h [<-].
by case: constructive_indefinite_description.
Qed.
Lemma pickR_ex (P : pred R) : (exists x, P x) -> exists n, pickR P n.
Proof. by move=> h; exists 0%N; rewrite /pickR; case: excluded_middle_informative. Qed.
Lemma pickR_ext (P Q : pred R) : P =1 Q -> pickR P =1 pickR Q.
Proof. by move=> /functional_extensionality ->. Qed.
Definition R_choiceMixin : choiceMixin R := Choice.Mixin pickR_some pickR_ex pickR_ext.
Canonical R_choiceType := Eval hnf in ChoiceType R R_choiceMixin.

Lemma RplusA : associative Rplus. Proof. by move=> *; rewrite Rplus_assoc. Qed.
Lemma RmultA : associative Rmult. Proof. by move=> *; rewrite Rmult_assoc. Qed.
Lemma RmultDl : left_distributive Rmult Rplus.
Proof. by move=> *; rewrite Rmult_plus_distr_r. Qed.
Lemma RmultDr : right_distributive Rmult Rplus.
Proof. by move=> *; rewrite Rmult_plus_distr_l. Qed.
Lemma R1_neq_0 : R1 != R0. Proof. by apply/eqP; exact R1_neq_R0. Qed.

Definition R_zmodMixin := ZmodMixin RplusA Rplus_comm Rplus_0_l Rplus_opp_l.
Canonical R_zmodType := Eval hnf in ZmodType R R_zmodMixin.
Definition R_ringMixin := RingMixin RmultA Rmult_1_l Rmult_1_r RmultDl RmultDr R1_neq_0.
Canonical R_ringType := Eval hnf in RingType R R_ringMixin.
Canonical R_comRingType := Eval hnf in ComRingType R Rmult_comm.

Definition Rinvx (r : R) : R := if r == R0 then r else / r.
Definition unit_R (r : R) : bool := r != R0.
Lemma RmultRinvx : {in unit_R, left_inverse R1 Rinvx Rmult}.
Proof.
move=> r; rewrite -topredE /unit_R /Rinvx /= => /negbTE Hr; rewrite Hr.
by apply: Rinv_l; move/eqP: Hr.
Qed.
Lemma RinvxRmult : {in unit_R, right_inverse R1 Rinvx Rmult}.
Proof. by move=> r Hr; rewrite Rmult_comm RmultRinvx. Qed.
Lemma intro_unit_R x y : (y * x = R1) /\ (x * y = R1) -> unit_R x.
Proof.
move=> [yx _]; apply/eqP => x0; move: yx; rewrite x0 Rmult_0_r => /esym.
exact: R1_neq_R0.
Qed.
Lemma Rinvx_out : {in predC unit_R, Rinvx =1 id}.
Proof. by move=> x; rewrite -topredE /= /unit_R negbK /Rinvx => ->. Qed.
Definition R_unitRingMixin := UnitRingMixin RmultRinvx RinvxRmult intro_unit_R Rinvx_out.
Canonical R_unitRingType := Eval hnf in UnitRingType R R_unitRingMixin.
Canonical R_comUnitRingType := Eval hnf in [comUnitRingType of R].
Lemma R_idomainMixin x y : x * y = R0 -> (x == R0) || (y == R0).
Proof. by move=> /Rmult_integral [->|->]; rewrite eqxx ?orbT. Qed.
Canonical R_idomainType := Eval hnf in IdomainType R R_idomainMixin.
Lemma R_fieldMixin : GRing.Field.mixin_of [unitRingType of R].
Proof. by []. Qed.
Definition R_fieldIdomainMixin := FieldIdomainMixin R_fieldMixin.
Canonical R_fieldType := FieldType R R_fieldMixin.

Definition Rleb (x y : R) : bool := if Rle_dec x y then true else false.
Definition Rltb (x y : R) : bool := if Rlt_dec x y then true else false.
Lemma RlebP x y : reflect (x <= y) (Rleb x y).
Proof. by rewrite /Rleb; case: Rle_dec => H; constructor. Qed.
Lemma RltbP x y : reflect (x < y) (Rltb x y).
Proof. by rewrite /Rltb; case: Rlt_dec => H; constructor. Qed.

Lemma Rleb0_add x y : Rleb 0 x -> Rleb 0 y -> Rleb 0 (x + y).
Proof. by move=> /RlebP Hx /RlebP Hy; apply/RlebP; lra. Qed.
Lemma Rleb0_mul x y : Rleb 0 x -> Rleb 0 y -> Rleb 0 (x * y).
Proof. by move=> /RlebP Hx /RlebP Hy; apply/RlebP; apply: Rmult_le_pos. Qed.
Lemma Rleb0_anti x : Rleb 0 x -> Rleb x 0 -> x = 0.
Proof. by move=> /RlebP Hx /RlebP Hy; lra. Qed.
Lemma Rsub_ge0 x y : Rleb 0 (y + - x) = Rleb x y.
Proof. by apply/idP/idP => /RlebP H; apply/RlebP; lra. Qed.
Lemma Rleb0_total x : Rleb 0 x || Rleb x 0.
Proof. by case: (Rle_or_lt 0 x) => H; apply/orP; [left|right]; apply/RlebP; lra. Qed.
Lemma RnormN x : Rabs (- x) = Rabs x. Proof. exact: Rabs_Ropp. Qed.
Lemma Rge0_norm x : Rleb 0 x -> Rabs x = x.
Proof. by move=> /RlebP H; apply: Rabs_pos_eq. Qed.
Lemma Rltb_def x y : Rltb x y = (y != x) && Rleb x y.
Proof.
apply/idP/idP.
- move=> /RltbP H; apply/andP; split; [apply/eqP; lra|apply/RlebP; lra].
- move=> /andP [/eqP H1 /RlebP H2]; apply/RltbP; lra.
Qed.
Definition R_realMixin : realLeMixin [idomainType of R] :=
  RealLeMixin Rleb0_add Rleb0_mul Rleb0_anti Rsub_ge0 Rleb0_total RnormN Rge0_norm Rltb_def.
Canonical R_porderType := POrderType ring_display R R_realMixin.
Canonical R_latticeType := LatticeType R R_realMixin.
Canonical R_distrLatticeType := DistrLatticeType R R_realMixin.
Canonical R_orderType := OrderType R R_realMixin.
Canonical R_numDomainType := NumDomainType R R_realMixin.
Canonical R_normedZmodType := NormedZmodType R R R_realMixin.
Canonical R_realDomainType := [realDomainType of R].
Canonical R_numFieldType := [numFieldType of R].
Canonical R_realFieldType := [realFieldType of R].

(** Reading mathcomp notations back as standard-library ones. *)

Section Bridge.
Import GRing.Theory Num.Theory.
Lemma RplusE (x y : R) : Rplus x y = GRing.add x y. Proof. by []. Qed.
Lemma RmultE (x y : R) : Rmult x y = GRing.mul x y. Proof. by []. Qed.
Lemma RoppE (x : R) : Ropp x = GRing.opp x. Proof. by []. Qed.
Lemma RminusE (x y : R) : Rminus x y = (GRing.add x (GRing.opp y)). Proof. by []. Qed.
Lemma R0E : R0 = 0%R :> R. Proof. by []. Qed.
Lemma RinvE (x : R) : Rinv x = GRing.inv x.
Proof.
rewrite /GRing.inv /= /Rinvx; case: eqP => // ->.
exact: Rinv_0.
Qed.
Lemma RleP (x y : R) : reflect (Rle x y) (Order.le x y). Proof. exact: RlebP. Qed.
Lemma RltP (x y : R) : reflect (Rlt x y) (Order.lt x y). Proof. exact: RltbP. Qed.
End Bridge.

Section RealClosed.
Import GRing.Theory Num.Theory.

Lemma horner_continuous (p : {poly R}) : continuity (fun x => p.[x]%R).
Proof.
elim/poly_ind: p => [|p c IH].
- have -> : (fun x => (0 : {poly R}).[x]%R) = (fun _ => R0).
    by apply: functional_extensionality => x; rewrite horner0.
  by apply: continuity_const => x y.
- have -> : (fun x => (p * 'X + c%:P)%R.[x]%R) = (fun x => p.[x]%R * x + c).
    by apply: functional_extensionality => x; rewrite hornerMXaddC.
  apply: (continuity_plus (fun x => p.[x]%R * x) (fun _ => c)); last first.
    by apply: continuity_const => x y.
  apply: (continuity_mult (fun x => p.[x]%R) (fun x => x)) => //.
  by apply: derivable_continuous; apply: derivable_id.
Qed.

Lemma R_real_closed : Num.real_closed_axiom [numDomainType of R].
Proof.
move=> p a b /RleP ab /andP [/RleP pa /RleP pb].
have Hs : p.[a]%R * p.[b]%R <= 0 by rewrite -R0E in pa pb; nra.
have [z [[Hz1 Hz2] Hz3]] := IVT_cor _ _ _ (horner_continuous p) ab Hs.
exists z; first by apply/andP; split; apply/RleP.
by apply/eqP.
Qed.
Canonical R_rcfType := RcfType R R_real_closed.
End RealClosed.

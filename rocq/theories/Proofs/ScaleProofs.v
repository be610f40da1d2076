(** ScaleProofs.v -- the Hamiltonian of the rescaled circuit. *)
From Coq Require Import Reals ZArith Lia Lra FunctionalExtensionality.
From Verif.Model Require Import Base Units Edge Accuracy HamConst.
Lemma imp_scale x c l : Rlt 0 x -> impedance (x * c) (x * l) = impedance c l.
Proof.
  intros H. unfold impedance. f_equal. unfold Rdiv. destruct (Req_dec l 0) as [->|n].
  - rewrite Rmult_0_r. unfold Rdiv. rewrite Rinv_0. ring.
  - field. split; lra.
Qed.
Lemma coef_scale x L p : Rlt 0 x -> ind_coef (Rdiv L x) p = Rmult x (ind_coef L p).
Proof.
  intros H. unfold ind_coef. assert (/ (L / x) = x * / L)%R as ->.
  { unfold Rdiv. rewrite Rinv_mult, Rinv_inv. ring. }
  unfold Rdiv. ring.
Qed.
Lemma half_scale x c : halfR (Rmult x c) = Rmult x (halfR c).
Proof. unfold halfR, Rdiv. ring. Qed.
From mathcomp Require Import all_ssreflect all_algebra.
From mathcomp Require Import complex ring.
From Verif.Numerics Require Import RStruct Bridge.
From Verif.Model Require Import Op Transform Ham.
From Verif.Spec Require Import OpSpec LevelsSpec ScaleSpec.
From Verif.Proofs Require Import OpProofs HamProofs HamProofs2 HamProofs5 HamProofs6.

Set Implicit Arguments.
Unset Strict Implicit.
Unset Printing Implicit Defensive.
Import GRing.Theory.
Local Open Scope ring_scope.
Local Open Scope complex_scope.

Section Scale.
Variables (x : R) (h : hin).
Hypothesis x0 : Rlt R0 x.
Let h' := rescale x h.
Let xn : x != 0. Proof. by apply/eqP => e; move: x0; rewrite e; exact: Rlt_irrefl. Qed.

Lemma r_charge i : hcharge h' i = hcharge h i.
Proof. by rewrite /hcharge /is_charge /= mulf_eq0 (negbTE xn). Qed.
Lemma r_imp i : himp h' i = himp h i.
Proof. exact: imp_scale. Qed.
Lemma r_zp i : hphi_zp h' i = hphi_zp h i.
Proof. by rewrite /hphi_zp /phi_zp -/(himp h i) -/(himp h' i) r_imp. Qed.
Lemma r_Q : charge_op_isolated h' = charge_op_isolated h.
Proof. by apply: functional_extensionality => i; rewrite /charge_op_isolated r_charge r_imp. Qed.
Lemma r_F : flux_op_isolated h' = flux_op_isolated h.
Proof. by apply: functional_extensionality => i; rewrite /flux_op_isolated r_charge r_imp. Qed.
Lemma r_N : num_op_isolated h' = num_op_isolated h.
Proof. by apply: functional_extensionality => i; rewrite /num_op_isolated r_charge. Qed.
Lemma r_row i : mem_row h' i = mem_row h i.
Proof. by rewrite /mem_row /mem_step r_Q r_F r_N. Qed.
Lemma r_exp disp : opExp disp h' = opExp disp h.
Proof.
apply: functional_extensionality => w; rewrite /opExp; congr otensor; apply: eq_map => j.
by rewrite /exp_iso r_charge /alpha r_zp.
Qed.

Definition times (a a' : option op) : Prop := isSome a' = isSome a /\ forall i j, oent a' i j = x%:C * oent a i j.
Lemma times_add a a' A A' : times a a' -> (forall i j, ent A' i j = x%:C * ent A i j) -> times (acc_add a A) (acc_add a' A').
Proof. by move=> [_ H] HA; split=> [|i j]; [case: a a' {H} => [?|] [?|]|rewrite !oent_add H HA mulrDr]. Qed.
Lemma times_LC : times (LC_hamil h) (LC_hamil h').
Proof.
rewrite /LC_hamil -/h' [hn h']/(hn h).
have inner i l a a' : times a a' -> times (foldl (LC_term h i) a l) (foldl (LC_term h' i) a' l).
  elim: l a a' => [//|j l IH] a a' H /=; apply: IH; rewrite /LC_term r_charge.
  case: ifP => _.
    case: ifP => _; apply: times_add => // b c /=; last by rewrite /opN r_row cRM mulrA.
    by rewrite /opQQ r_row /quad_cI eqxx /= half_scale cRM mulrA.
  rewrite /= mulf_eq0 (negbTE xn) /=; case: ifP => // _; apply: times_add => // b c /=.
  by rewrite /opQQ r_row /quad_cI; case: ifP => _ /=; rewrite ?half_scale cRM mulrA.
have outer l a a' : times a a' -> times (foldl (fun acc i => foldl (LC_term h i) acc (iota 0 (hn h - i))) a l)
  (foldl (fun acc i => foldl (LC_term h' i) acc (iota 0 (hn h - i))) a' l).
  by elim: l a a' => [//|i l IH] a a' H /=; apply: IH; apply: inner.
by apply: outer; split=> // i j; rewrite mulr0.
Qed.
Lemma r_coupling e : coupling_op h' (Some Inductive_) e = coupling_op h (Some Inductive_) e.
Proof.
have P : opPhi h' = opPhi h by apply: functional_extensionality => i; rewrite /opPhi r_row.
by rewrite /coupling_op /= P.
Qed.

Lemma ham_scale disp val val' loops B ks A : rescaled_values x ks val val' ->
  hamiltonian disp h val loops B ks = Ok A ->
  exists2 A', hamiltonian disp h' val' loops B ks = Ok A' & forall i j, ent A' i j = x%:C * ent A i j.
Proof.
move=> [vi vj] EA; have [_ TL] := times_LC.
have [A' EA'] : exists A', hamiltonian disp h' val' loops B ks = Ok A'.
  have Hi : forall u v, same_shape u v ->
     same_shape (foldl (ind_term h val loops B) u (k_ind ks)) (foldl (ind_term h' val' loops B) v (k_ind ks)).
    elim: (k_ind ks) => [//|[[e el] b] s IH] u v Huv; cbn [foldl]; apply: IH.
    case: u v Huv => [a|u] [b'|v] // Hab; cbn [ind_term].
    by rewrite r_coupling; case: (coupling_op h (Some Inductive_) e).
  have Hj : forall a b, isSome a = isSome b ->
     isSome (foldl (jj_term disp h val loops B) a (k_jj ks)) = isSome (foldl (jj_term disp h' val' loops B) b (k_jj ks)).
    by elim: (k_jj ks) => [//|[[[e el] b] w] s IH] u v Huv; cbn [foldl]; apply: IH.
  have [sL _] := times_LC.
  move: EA; rewrite /hamiltonian -/h' [h_m h']/(h_m h); case: ifP => // _; rewrite /ind_hamil.
  have := Hi (Ok None) (Ok None) erefl; case: foldl => [a|//]; case: foldl => [b|//] /= /Hj.
  case: foldl => [u|]; case: foldl => [v|] //= _; move: sL; case: LC_hamil => [?|]; case: LC_hamil => [?|] //=; by eexists.
exists A' => // i j; rewrite (hamiltonian_entry _ _ EA) (hamiltonian_entry _ _ EA') TL mulrBr mulrDr; congr (_ + _ - _).
  by rewrite mulr_sumr; apply: sum_in => k hk; rewrite vi // coef_scale // cRM mulrA /cpl r_coupling.
by rewrite mulr_sumr; apply: sum_in => k hk; rewrite vj // cRM mulrA /jjent r_exp.
Qed.
End Scale.

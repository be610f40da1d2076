(** P_Relax.v -- C72: gradients of the relaxation rates. *)
From Coq Require Import Reals ZArith String Lra Lia.
From Verif.Model Require Import Base Units Settings Noise Edge Elements LCWB HamConst Thermal RateConst.
From Verif.Spec Require Import ThermalSpec UnitHistory.
From Verif.Proofs Require Import ThermalProofs CDeriv UnitsProofs PerturbProofs.
Definition rot_r (t : R) : R := (hcos t * (hcos t + - hsin t) + hsin t * - (hsin t + hcos t))%R.
Lemma rot_slope : has_derivative (fun t => rot_r t * rot_r t)%R 0 (-2).
Proof.
  assert (D := hd_add _ _ _ _ _ (hd_mul _ _ _ _ _ hd_hcos0 (hd_add _ _ _ _ _ hd_hcos0 (hd_opp _ _ _ hd_hsin0)))
    (hd_mul _ _ _ _ _ hd_hsin0 (hd_opp _ _ _ (hd_add _ _ _ _ _ hd_hsin0 hd_hcos0)))).
  assert (D2 := hd_mul _ _ _ _ _ D D). eapply hd_eq; [exact D2|].
  cbv beta. rewrite hcos0, hsin0. unfold onehalf. field.
Qed.
From mathcomp Require Import all_ssreflect all_algebra.
From mathcomp Require Import complex ring.
From Verif.Numerics Require Import RStruct Bridge.
From Verif.Model Require Import Transform Op Ham Diag CircuitSM Copy Partial DecRate TorchDiag.
From Verif.Spec Require Import OpSpec SessionSpec CopySpec GradSpec PerturbSpec DecSpec RateGradSpec EigGradSpec RelaxSpec.
From Verif.Proofs Require Import OpProofs HamProofs HamProofs2 SMProofs MemProofs GradProofs PerturbProofs PerturbProofs2
  SecondOrder RateGradProofs RateGradProofs2 RateGradProofs3 HamProofs6 SMProofs2 CopyProofs CopyProofs3 CopyProofs4 SessionCase
  EigGradProofs EigGradProofs2 EigGradProofs3 EigGradProofs4 GradCalc RelaxProofs RelaxProofs2.
From Verif.Properties Require Import P_Perturb P_RateGrad P_TorchDiag.

Set Implicit Arguments.
Unset Strict Implicit.
Unset Printing Implicit Defensive.
Import GRing.Theory.
Local Open Scope ring_scope.
Local Open Scope complex_scope.

Section Session.
Variables (disp : nat -> C -> op) (o : oracle) (s0 : store) (lobj : nat -> lrec) (fd : string).
Variables (d : seq (edge * seq nat)) (x0 : circ) (u : ustate) (cs : seq call) (tr : seq (world * res unit)).
Hypothesis dims : forall m a, dim (disp m a) = m.
Hypothesis built_ok : construct true o s0 lobj fd d = Some (Ok x0).
Hypothesis session : run disp true (mkW s0 u x0) cs = Some tr.
Hypothesis updates : updates_ok true (mkW s0 u x0) cs tr.
Variables (eigs : eigs_fun) (argsort : seq C -> seq nat) (units : seq unit_call) (maxg : option Z) (k : Z).
Variables (hp hp' : heap) (ob ob' : cobj) (ctx : ectx) (out : seq R * seq cvec).
Let s := hp_s hp.
Let x := ob_x ob.
Hypothesis now : w_s (final (mkW s0 u x0) tr) = s /\ w_x (final (mkW s0 u x0) tr) = x.
Hypothesis diag : diag_torch eigs argsort (unit_run units ustate_init) maxg (Some k) hp ob = (hp', ob', Ok (ctx, out)).
Variable H0 : op.
Hypothesis formed : (hamil s x).2 = Ok H0.
Let N := dim H0.
Let R1 : regular disp s x.
Proof.
case: now => <- <-; apply: (session_regular built_ok session updates); exists H0.
by case: now => -> ->.
Qed.
Let dN : N = HamProofs.total (hof x).
Proof. by have [EH _] := hamilE s (rg_good R1); move: formed; rewrite EH => /(hamiltonian_ok dims) []. Qed.

(** The component of entry [j], a loop or a junction. *)
Variables (j : nat) (c : LCWB.comp).
Hypothesis entry : (j < size (c_params (x_c x)))%N /\ nth c [seq p.1 | p <- c_params (x_c x)] j = c.
Hypothesis kind : match c with CLoop l => l \in c_loops (x_c x) | CEl el => ekind s el = KJJ end.
Let t0 := comp_value s c.
Let h := ham_family s x c.

(** The results as a function of the value of the component; at its value those of
    this diag, the first [K] of all levels. *)
Variables (e : R -> eigres) (full : eigres) (M : nat).
Let K := Z.to_nat k.
Let top := if maxg is Some z then z else k.
Hypothesis results_now : e t0 = x_eig (ob_x ob').
Hypothesis stored : e t0 = first_levels K full.
Hypothesis all_levels : complete N (h t0) full.
Hypothesis MK : (M <= K)%N.
Hypothesis KN : (K <= N)%N.
Hypothesis fol : forall k, (k < M)%N -> followed N h t0 e k.
Hypothesis simple : forall k, (k < M)%N -> simple_level N full k.
Let vec k := nth (fun=> 0) (e_vecs full) k.
Let fr k := nth 0 (e_freqs full) k.

(** The rate between two of the first [M] levels, reported at the values of the
    component near its own. *)
Variables (E : env) (q : quality) (dt : dec_type) (m n : nat) (total : bool) (rate : R -> R).
Hypothesis Ht : thermal_type (Some dt).
Hypothesis hm : (m < M)%N.
Hypothesis hn : (n < M)%N.
Hypothesis mn : m != n.
Hypothesis reported : near t0 (fun t =>
  dec_rate E (changed s c t) q (at_value s x c e t) (Some dt) (Z.of_nat m) (Z.of_nat n) total = Ok (Some (rate t))).
Let loss := rate_loss E q s x c dt m n total M.

(** The rate, as a function of the component and the levels, is differentiable. *)
Theorem C72_differentiable : smooth_thermal (Noise.T E) (abs_diff (fr n) (fr m)) ->
  smooth s q (Noise.T E) (abs_diff (fr n) (fr m)) dt ->
  exists gdir gval gvec, [/\ gradients M N loss t0 fr vec gdir gval gvec,
    forall k, (M <= k)%N -> gval k = 0 & forall k i, (M <= k)%N -> gvec k i = 0].
Proof.
move=> sT sQ; have fmn : fr n <> fr m.
  by apply: (simple hn) => //; exact: leq_trans hm (leq_trans MK KN).
have rep : rate_at E q s x c dt m n total t0 (results M fr vec) = Ok (Some (rate t0)).
  rewrite -(rate_results Ht hm hn (near_at reported)); congr rate_at; congr mkE.
    by apply/eq_in_map => i; rewrite mem_iota add0n => hi; rewrite stored /= nth_take // (leq_trans hi).
  by apply/eq_in_map => i; rewrite mem_iota add0n => hi; rewrite stored /= nth_take // (leq_trans hi).
by have [_] := rate_grads dims R1 Ht hm hn fmn sT sQ rep; rewrite -dN.
Qed.

(** What PyTorch hands to backward, [gval] and [gvec], and accumulates without it,
    [gdir]. *)
Variables (gdir : R) (gval : nat -> C) (gvec : nat -> nat -> C) (eps : R) (gs : seq R).
Hypothesis grads : gradients M N loss t0 fr vec gdir gval gvec.
Hypothesis gval0 : forall k, (M <= k)%N -> gval k = 0.
Hypothesis gvec0 : forall k i, (M <= k)%N -> gvec k i = 0.
Hypothesis backward : eigen_backward (hp_s hp') ctx eps N gval gvec = Ok gs.

Let looks t : looks_at M N (loss t).
Proof. by rewrite dN; apply: (rate_looks E q c dims R1 total Ht hm hn). Qed.
Let free t : phase_free M (loss t) := rate_free E q s x c total Ht hm hn t.
Let value : near t0 (fun t => loss_of (loss t) (e t) = rate t).
Proof.
apply: near_mono reported => t rep.
by rewrite /loss_of /loss /rate_loss (rate_results Ht hm hn rep).
Qed.

(** The derivative of the rate is the accumulated gradient plus the response of the
    eigenvectors that backward leaves out. *)
Theorem C72_gradient : exists A, partial_H s (ob_x ob') c None = Ok (Some A) /\
  has_derivative rate t0
    (gdir + nth 0 gs j + \sum_(m < M) complex.Re (\sum_(i < N) vec_missing N K top vec fr eps (ent A) m i * (gvec m i)^*)).
Proof.
have [A [EA D]] := C70_gradient dims built_ok session updates now diag formed entry kind results_now stored
  all_levels MK KN fol simple looks free grads gval0 gvec0 backward.
exists A; split=> //; have [r [r0 Hr]] := value; exact: hd_near r0 Hr D.
Qed.

(** With all levels and nothing added to the denominators, and eigenvectors up to
    the last level used, it is the accumulated gradient. *)
Theorem C72_complete : K = N -> eps = 0 -> Z.le (Z.of_nat M) top ->
  has_derivative rate t0 (gdir + nth 0 gs j).
Proof.
move=> EK e0 hM; have [r [r0 Hr]] := value; apply: hd_near r0 Hr _.
exact: (C70_complete dims built_ok session updates now diag formed entry kind results_now stored
  all_levels MK KN fol simple looks free grads gval0 gvec0 backward EK e0 hM).
Qed.
End Session.
Print Assumptions C72_differentiable.
Print Assumptions C72_gradient.
Print Assumptions C72_complete.

(** Cases.  Constant quality factors are smooth, and so is the thermal weight at
    zero temperature. *)
Definition flat_quality (Q : R) : quality :=
  mkQual (fun=> Some (fun=> Q)) (fun _ _ _ => Some Q) (fun _ _ _ => Some Q) (fun=> 0) (fun=> 0).
Example C72_flat s Q om dt : Q <> 0 -> thermal_type (Some dt) -> (forall el, evalue s el <> 0) ->
  smooth s (flat_quality Q) 0 om dt /\ smooth_thermal 0 om.
Proof.
move=> Q0 Ht Hv; split; last by left.
have nr (P : Prop) (p : P) : near om (fun=> P) by exists 1; split; [exact: Rlt_0_1|].
case: dt Ht => // _.
- by move=> el _ [<-]; split=> //; exists 0; exact: hd_const.
- by move=> el; right; split=> //; exists (fun=> Q), 0; split=> //; [exact: (nr _ erefl)|exact: hd_const].
- by move=> el; right; exists (fun=> Q), 0; split; [exact: (nr _ erefl)|exact: hd_const].
Qed.

(** The rotating two-level Hamiltonian and the operator sz + sx: the squared matrix
    element between its levels is 1 - sin 2t.  Its slope at 0 comes from the response
    of the eigenvectors alone. *)
Definition rot_A (i j : nat) : C := if (i == 1%N) && (j == 1%N) then -1 else 1.
Definition rot_rate : loss_fun := fun _ v => abs2 (dot 2 (v 0%N) (apply_to 2 rot_A (v 1%N))).
Example C72_rotating :
  let vec k := nth (fun=> 0) (e_vecs (rot_e 0)) k in let fr k := nth 0 (e_freqs (rot_e 0)) k in
  has_derivative (fun t => loss_of rot_rate (rot_e t)) 0 (Ropp (IZR 2)) /\
  exists gdir gval gvec, gradients 2 2 (fun=> rot_rate) 0 fr vec gdir gval gvec.
Proof.
move=> vec fr; split; last first.
  have [_ [gd [gv [gw [H _ _]]]]] := hg_abs2 (M := 2) (m := 0%N) (n := 1%N) (A := fun=> rot_A) fr vec isT isT isT (N := 2)
    (fun i j _ _ => cd_const (rot_A i j) 0).
  by exists gd, gv, gw.
apply: hd_ext rot_slope => t; rewrite /loss_of /rot_rate.
have -> : dot 2 (nth (fun=> 0) (e_vecs (rot_e t)) 0) (apply_to 2 rot_A (nth (fun=> 0) (e_vecs (rot_e t)) 1)) = (rot_r t)%:C.
  rewrite dot2 /apply_to !big_ord_recl !big_ord0 -[nth _ _ 0]/(rot_v t) -[nth _ _ 1]/(rot_u t) -[lift ord0 ord0 : nat]/1%N /rot_v /rot_u.
  rewrite -[rot_A 0 0]/(1 : C) -[rot_A 0 1]/(1 : C) -[rot_A 1 0]/(1 : C) -[rot_A 1 1]/(-1 : C) !conjc_real.
  rewrite /rot_r !RplusE !RmultE !RoppE !(rmorphD, rmorphM, rmorphN) /=; ring.
have I0 : complex.Im (rot_r t)%:C = GRing.zero _ by [].
by rewrite /abs2 I0 RplusE !RmultE mul0r addr0.
Qed.

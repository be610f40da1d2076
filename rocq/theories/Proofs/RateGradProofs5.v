(** RateGradProofs5.v -- the slopes of levels when only some levels were computed. *)
From Coq Require Import Reals ZArith String Lra.
From Verif.Spec Require Import ThermalSpec.
From Verif.Proofs Require Import ThermalProofs CDeriv.
Lemma regroup a b a' b' : Rplus (Rplus a (Ropp b)) 0 = Rplus (Rplus a' (Ropp b')) (Rplus (Rplus a (Ropp a')) (Ropp (Rplus b (Ropp b')))).
Proof. lra. Qed.
From Verif.Model Require Import Base Units Noise Edge Elements LCWB HamConst PartialConst Thermal RateConst.
From mathcomp Require Import all_ssreflect all_algebra.
From mathcomp Require Import complex.
From Verif.Numerics Require Import RStruct Bridge.
From Verif.Model Require Import Transform Op Ham Diag CircuitSM Partial DecRate TorchRates.
From Verif.Spec Require Import OpSpec GradSpec PerturbSpec DecSpec RateGradSpec.
From Verif.Proofs Require Import OpProofs HamProofs HamProofs2 SMProofs MemProofs GradProofs PerturbProofs PerturbProofs2
  SecondOrder RateGradProofs RateGradProofs2 RateGradProofs3 DecProofs DecProofs2 DecProofs3.
From Verif.Properties Require Import P_Perturb.

Set Implicit Arguments.
Unset Strict Implicit.
Unset Printing Implicit Defensive.
Import GRing.Theory.
Local Open Scope ring_scope.
Local Open Scope complex_scope.

Lemma vec_grad_some s x c k eps dk : size (e_freqs (x_eig x)) = size (e_vecs (x_eig x)) ->
  (1 < size (e_vecs (x_eig x)))%N -> (k < size (e_vecs (x_eig x)))%N ->
  get_partial_vec s x c (Z.of_nat k) eps = Ok dk -> exists A, partial_H s x c None = Ok (Some A).
Proof.
move=> S S1 hk; rewrite /get_partial_vec; case: ifP => // _; rewrite /evec py_nthE //; cbn [bind].
case: partial_H => [[A|]|] //; first by exists A.
rewrite /efreq py_nthE ?S //; cbn [bind] => /vec_fold [a [_ H1 _]]; exfalso.
have [j [hs hj]] : exists j, (j < size (e_vecs (x_eig x)))%N /\ skip (Z.of_nat k) j.
  exists (if k == 0%N then 1 else 0)%N; rewrite /skip.
  case: (eqVneq k 0%N) => [->|m0]; split=> //; first exact: leq_ltn_trans S1.
  by apply/negP => /Z.eqb_eq E; case/eqP: m0; apply: Nat2Z.inj.
have hj' : j \in iota 0 (size (e_vecs (x_eig x))) by rewrite mem_iota.
by have [] := H1 j hj' hj.
Qed.

Section Some.
Variables (disp : nat -> C -> op) (s : store) (x : circ) (c : LCWB.comp).
Hypothesis dims : forall m a, dim (disp m a) = m.
Hypothesis Rg : regular disp s x.
Hypothesis kind : match c with CLoop l => l \in c_loops (x_c x) | CEl el => ekind s el = KJJ end.
Variables (e : R -> eigres) (full : eigres) (K m n : nat) (eps : R).
Let N := total (hof x).
Let t0 := comp_value s c.
Let h := ham_family s x c.
Hypothesis all_levels : complete N (h t0) full.
Hypothesis stored : e t0 = first_levels K full.
Hypothesis K1 : (1 < K)%N.
Hypothesis KN : (K <= N)%N.
Hypothesis track_m : tracked N h t0 e m.
Hypothesis track_n : tracked N h t0 e n.
Hypothesis hm : (m < K)%N.
Hypothesis hn : (n < K)%N.
Hypothesis simple_m : simple_level N full m.
Hypothesis simple_n : simple_level N full n.
Let vec k := nth (fun=> 0) (e_vecs full) k.
Let fr k := nth 0 (e_freqs full) k.
Let A := some_op (partial_H s (at_value s x c e t0) c None).

Let e' t := if Req_EM_T t t0 then full else e t.
Let e't0 : e' t0 = full. Proof. by rewrite /e'; case: Req_EM_T. Qed.
Let e'vec k t : (k < K)%N -> nth (fun=> 0) (e_vecs (e' t)) k = nth (fun=> 0) (e_vecs (e t)) k.
Proof. by move=> hk; rewrite /e'; case: Req_EM_T => [E|] //=; rewrite E stored /= nth_take. Qed.
Let size_full : size (e_vecs full) = N. Proof. by case: all_levels. Qed.
Let fsize_full : size (e_freqs full) = N. Proof. by case: all_levels. Qed.

Let track' k : (k < K)%N -> tracked N h t0 e k -> tracked N h t0 e' k.
Proof.
move=> hk [v [w [dv [dw [B nrm ph Ew]]]]]; exists v, w, dv, dw; split=> //.
  apply: near_mono ph => t [hk' [z [z1 Ez]]]; split.
    by rewrite /e'; case: Req_EM_T => [E|E] //=; rewrite size_full; apply: leq_trans hk KN.
  by exists z; split=> // i hi; rewrite e'vec // Ez.
by rewrite Ew e't0 stored /= nth_take.
Qed.

Let same c' b : partial_H s (at_value s x c e' t0) c' b = partial_H s (at_value s x c e t0) c' b.
Proof. by []. Qed.

Lemma follow_first : slopes_follow s x c e m n eps (fun P0 P2 =>
  left_out N K vec fr eps (ent P0) (opt_entry P2) (ent A) m - left_out N K vec fr eps (ent P0) (opt_entry P2) (ent A) n).
Proof.
have szK : size (take K (e_vecs full)) = K by rewrite size_take size_full; move: KN; rewrite leq_eqVlt => /orP [/eqP ->|->] //; rewrite ltnn.
have szK' : size (take K (e_freqs full)) = K by rewrite size_take fsize_full; move: KN; rewrite leq_eqVlt => /orP [/eqP ->|->] //; rewrite ltnn.
split.
  exact: near_and (tracked_size track_m) (tracked_size track_n).
move=> G P0 P2 p2 HG ok ok2 D EG Ep.
have [_ _ _ onb pairs] := all_levels.
have [vm [vn [dm [dn [_ _ E3 E4 _]]]]] := squaredE Ep.
have EA : partial_H s (at_value s x c e t0) c None = Ok (Some A).
  have := vec_grad_some _ _ _ E3; rewrite /= stored /= szK szK' => /(_ erefl K1 hm) [X EX].
  by rewrite /A EX.
have dA : dim A = N.
  have EA' : reported_grad s x c None = Ok (Some A) by rewrite -EA /at_value /t0 changed_same.
  move: kind; case: (c) EA' => [el|l] EA' Ek; first by have /ok_sized := jj_ok dims Rg Ek EA'.
  by have /ok_sized := loop_ok dims Rg EA'.
have onbK : orthonormal (dim A) (take K (e_vecs full)).
  rewrite dA => i j; rewrite szK => hi hj; rewrite !nth_take //; apply: onb; rewrite size_full; exact: leq_trans KN.
have onbN : orthonormal (dim A) (e_vecs full) by rewrite dA.
have hP : hermitian (dim A) (opt_entry (Some P0)) by rewrite dA; apply: ok_herm (ok _ _ EG).
have sP : sized (dim A) (Some P0) by rewrite dA; apply: ok_sized (ok _ _ EG).
have sP2 : sized (dim A) P2 by rewrite dA; apply: ok_sized.
have V k : (k < K)%N -> nth (fun=> 0) (take K (e_vecs full)) k = vec k by move=> hk; rewrite nth_take.
have F k : (k < K)%N -> nth 0 (take K (e_freqs full)) k = fr k by move=> hk; rewrite nth_take.
have so k : (k < K)%N ->
  second_order (dim A) K (fun k => nth (fun=> 0) (take K (e_vecs full)) k) (fun k => nth 0 (take K (e_freqs full)) k) eps
    (opt_entry (Some P0)) (opt_entry P2) (ent A) k =
  second_order (dim A) K vec fr eps (opt_entry (Some P0)) (opt_entry P2) (ent A) k.
  move=> hk; rewrite /second_order V // F //; congr (_ + _); apply: eq_bigr => j _.
  by rewrite V ?F.
have p2E : p2 = second_order (dim A) K vec fr eps (opt_entry (Some P0)) (opt_entry P2) (ent A) m -
                second_order (dim A) K vec fr eps (opt_entry (Some P0)) (opt_entry P2) (ent A) n.
  have S := @squared_formula s (at_value s x c e t0) c A EA.
  rewrite -!so //; move: S; rewrite /= stored /= szK szK' => S.
  by apply: S Ep.
have defd k : (k < K)%N -> simple_level N full k ->
  exists dk, get_partial_vec s (at_value s x c e' t0) c (Z.of_nat k) 0 = Ok dk.
  move=> hk Sk; have C := @C49_defined s (at_value s x c e' t0) c A 0 EA; move: C; rewrite /= e't0 size_full fsize_full.
  move=> /(_ erefl k (leq_trans hk KN)) [_]; apply=> j hj jk; rewrite addr0 => E0.
  by apply: (Sk j hj jk); apply/eqP; rewrite -subr_eq0; apply/eqP.
have [dm' Edm] := defd m hm simple_m; have [dn' Edn] := defd n hn simple_n.
have [p2' Ep'] : exists p2', partial_squared_omega s (at_value s x c e' t0) c (Some P0) P2 (Z.of_nat m) (Z.of_nat n) 0 = Ok p2'.
  rewrite /partial_squared_omega /evecs_at Edm Edn /= e't0 size_full /evec /= e't0.
  rewrite (_ : (N == 0)%N = false); last by case: (N) (leq_trans hm KN).
  by rewrite !py_nthE ?size_full ?(leq_trans _ KN) //=; eexists.
have p2E' : p2' = second_order (dim A) N vec fr 0 (opt_entry (Some P0)) (opt_entry P2) (ent A) m -
                second_order (dim A) N vec fr 0 (opt_entry (Some P0)) (opt_entry P2) (ent A) n.
  have S := @squared_formula s (at_value s x c e' t0) c A EA; move: S; rewrite /= e't0 size_full fsize_full => S.
  by apply: S Ep'; rewrite ?(leq_trans _ KN).
have al' : complete N (h t0) (e' t0) by rewrite e't0.
have := follow_complete dims Rg kind (track' hm track_m) (track' hn track_n) (leq_trans hm KN) (leq_trans hn KN) al'.
move=> /sf_slope /(_ G P0 P2 p2' HG ok ok2 D EG Ep') Dr.
apply: hd_eq (hd_ext _ _ _ _ _ Dr) _ => [t|]; first by rewrite !e'vec.
rewrite /left_out p2E p2E' -dA.
set a := second_order _ _ _ _ _ _ _ _ _; set b := second_order _ _ _ _ _ _ _ _ _.
set a' := second_order _ _ _ _ _ _ _ _ _; set b' := second_order _ _ _ _ _ _ _ _ _.
exact: regroup.
Qed.
End Some.

(** EigGradProofs2.v -- EigenSolver.backward. *)
From Coq Require Import Reals ZArith String Lra.
From Verif.Spec Require Import ThermalSpec.
From Verif.Proofs Require Import ThermalProofs CDeriv.
From Verif.Model Require Import Base Units Edge Elements LCWB HamConst.
From mathcomp Require Import all_ssreflect all_algebra.
From mathcomp Require Import complex.
From Verif.Numerics Require Import RStruct Bridge.
From Verif.Model Require Import Transform Op Ham Diag CircuitSM Copy Partial TorchDiag.
From Verif.Spec Require Import OpSpec GradSpec PerturbSpec RateGradSpec EigGradSpec.
From Verif.Proofs Require Import OpProofs HamProofs HamProofs2 SMProofs MemProofs GradProofs PerturbProofs
  PerturbProofs2 SecondOrder RateGradProofs RateGradProofs2 RateGradProofs3 RateGradProofs5 EigGradProofs.
From Verif.Properties Require Import P_Perturb.

Set Implicit Arguments.
Unset Strict Implicit.
Unset Printing Implicit Defensive.
Import GRing.Theory.
Local Open Scope ring_scope.
Local Open Scope complex_scope.

Section Form.
Variables (s : store) (ctx : ectx) (eps : R) (len : nat) (gval : nat -> C) (gvec : nat -> nat -> C).
Notation level := (level_grad s ctx eps len gval gvec).
Notation levels := (levels_grad s ctx eps len gval gvec).

Lemma levels_sum c ks a : levels c ks = Ok a ->
  exists f : nat -> C, (forall k, k \in ks -> level c k = Ok (f k)) /\ a = \sum_(k <- ks) f k.
Proof.
elim: ks a => [|k ks IH] a /=; first by case=> <-; exists (fun=> 0); rewrite big_nil.
case E: (level c k) => [b|] //; cbn [bind]; case E': (levels c ks) => [b'|] //; cbn [bind] => -[<-].
have [f [Hf ->]] := IH _ E'.
exists (fun j => if j == k then b else f j); split.
  by move=> j; rewrite inE; case: (eqVneq j k) => [->//|_] /= /Hf.
rewrite big_cons eqxx; congr (_ + _); apply: eq_big_seq => j hj.
by case: (eqVneq j k) => [jk|//]; have := Hf _ hj; rewrite jk E => -[].
Qed.

Lemma params_entry cs gs : params_grad s ctx eps len gval gvec cs = Ok gs ->
  size gs = size cs /\ forall j c0, (j < size cs)%N ->
    exists a, levels (nth c0 cs j) (iota 0 (ec_n ctx)) = Ok a /\ nth 0 gs j = complex.Re a.
Proof.
elim: cs gs => [|c cs IH] gs /=; first by case=> <-.
case E: (levels_grad _ _ _ _ _ _ _ _) => [a|] //; cbn [bind]; case E': (params_grad _ _ _ _ _ _ _) => [r|] //; cbn [bind].
case=> <-; have [S H] := IH _ E'; split=> [|[|j] c0 hj]; first by rewrite /= S.
- by exists a.
- exact: H.
Qed.

(** One level over orthonormal results. *)
Variable c : LCWB.comp.
Let vs := e_vecs (x_eig (ec_x ctx)).
Let fs := e_freqs (x_eig (ec_x ctx)).
Let vec k := nth (fun=> 0) vs k.
Let fr k := nth 0 fs k.
Hypothesis sizes : size fs = size vs.

Lemma level_form k b : (k < size vs)%N -> level c k = Ok b ->
  exists A, partial_H s (ec_x ctx) c None = Ok (Some A) /\
    b = (complex.Re (sandwich (dim A) (vec k) (ent A) (vec k)))%:C * (gval k)^* +
        (if Z.ltb (Z.of_nat k) (ec_max ctx)
         then \sum_(i < len) vec_response (dim A) (size vs) vec fr eps (ent A) k i * (gvec k i)^* else 0).
Proof.
move=> hk; rewrite /level_grad {1}/get_partial_omega; case: ifP => // _.
rewrite /evec py_nthE // -/(vec k); cbn [bind]; case EA: partial_H => [[A|]|] //; cbn [bind inner0].
rewrite innerE -sandwichE => Eb; exists A; split=> //; move: Eb; case: ifP => _; last by case=> <-; rewrite addr0.
case Ev: get_partial_vec => [v|] //; cbn [bind] => -[<-]; congr (_ + _); apply: eq_bigr => i _; congr (_ * _).
rewrite (vec_expansion EA sizes hk Ev); apply: eq_bigr => j _.
by rewrite sandwichE.
Qed.
End Form.

Section Main.
Variables (disp : nat -> C -> op) (s : store) (x : circ) (c : LCWB.comp).
Hypothesis dims : forall m a, dim (disp m a) = m.
Hypothesis Rg : regular disp s x.
Hypothesis kind : match c with CLoop l => l \in c_loops (x_c x) | CEl el => ekind s el = KJJ end.
Variables (e : R -> eigres) (full : eigres) (M K : nat) (top : Z) (eps : R).
Let N := total (hof x).
Let t0 := comp_value s c.
Let h := ham_family s x c.
Hypothesis all_levels : complete N (h t0) full.
Hypothesis stored : e t0 = first_levels K full.
Hypothesis K0 : (0 < K)%N.
Hypothesis MK : (M <= K)%N.
Hypothesis KN : (K <= N)%N.
Hypothesis fol : forall k, (k < M)%N -> followed N h t0 e k.
Hypothesis simple : forall k, (k < M)%N -> simple_level N full k.
Let vec k := nth (fun=> 0) (e_vecs full) k.
Let fr k := nth 0 (e_freqs full) k.
Variables (loss : R -> loss_fun) (gdir : R) (gval : nat -> C) (gvec : nat -> nat -> C).
Hypothesis looks : forall t, looks_at M N (loss t).
Hypothesis free : forall t, phase_free M (loss t).
Hypothesis grads : gradients M N loss t0 fr vec gdir gval gvec.
Hypothesis gval0 : forall k, (M <= k)%N -> gval k = 0.
Hypothesis gvec0 : forall k i, (M <= k)%N -> gvec k i = 0.
Let ctx := mkCtx (at_value s x c e t0) K top.

Lemma backward_slope a : levels_grad s ctx eps N gval gvec c (iota 0 K) = Ok a ->
  exists A, partial_H s (at_value s x c e t0) c None = Ok (Some A) /\
  has_derivative (fun t => loss_of (loss t) (e t)) t0
    (gdir + complex.Re a + \sum_(k < M) complex.Re (\sum_(i < N) vec_missing N K top vec fr eps (ent A) k i * (gvec k i)^*)).
Proof.
have [_ sf sv onb pairs] := all_levels.
have szK : size (take K (e_vecs full)) = K by rewrite size_take sv; move: KN; rewrite leq_eqVlt => /orP [/eqP ->|->] //; rewrite ltnn.
have szK' : size (take K (e_freqs full)) = K by rewrite size_take sf; move: KN; rewrite leq_eqVlt => /orP [/eqP ->|->] //; rewrite ltnn.
move=> /levels_sum [f [Hf ->]].
have Lf k : (k < K)%N -> exists A, partial_H s (at_value s x c e t0) c None = Ok (Some A) /\
    f k = (complex.Re (sandwich (dim A) (vec k) (ent A) (vec k)))%:C * (gval k)^* +
        (if Z.ltb (Z.of_nat k) top
         then \sum_(i < N) vec_response (dim A) K vec fr eps (ent A) k i * (gvec k i)^* else 0).
  move=> hk; have hk' : k \in iota 0 K by rewrite mem_iota.
  have := @level_form s ctx eps N gval gvec c _ k (f k) _ (Hf k hk'); rewrite /= stored /= szK szK'.
  move=> /(_ erefl hk) [A [EA ->]]; exists A; split=> //; congr (_ + _).
    by rewrite nth_take.
  case: ifP => // _; apply: eq_bigr => i _; congr (_ * _); rewrite /vec_response.
  by apply: eq_bigr => j _; rewrite !nth_take.
have [A [EA _]] := Lf 0%N K0; exists A; split=> //.
have EA' : reported_grad s x c None = Ok (Some A) by rewrite -EA /at_value /t0 changed_same.
have dA : dim A = N.
  move: kind; case: (c) EA' => [el|l] EA' Ek; first by have /ok_sized := jj_ok dims Rg Ek EA'.
  by have /ok_sized := loop_ok dims Rg EA'.
have D i j : (i < N)%N -> (j < N)%N -> cderiv (fun t => h t i j) t0 (ent A i j).
  by move=> _ _; exact: (fam_deriv Rg kind i j EA').
have Hh : hermitian N (h t0) by exact: (fam_hermitian dims c Rg t0).
have fE k : (k < K)%N -> f k = (complex.Re (sandwich N (vec k) (ent A) (vec k)))%:C * (gval k)^* +
        (if Z.ltb (Z.of_nat k) top
         then \sum_(i < N) vec_response N K vec fr eps (ent A) k i * (gvec k i)^* else 0).
  by move=> /Lf [A' [EA2 ->]]; move: EA2; rewrite EA => -[<-]; rewrite dA.
apply: hd_eq (loss_slope D Hh all_levels stored MK KN fol simple looks free grads) _.
have -> : iota 0 K = index_iota 0 K by rewrite /index_iota subn0.
rewrite big_mkord (big_morph _ ReD erefl) [RHS]Rplus_assoc; congr Rplus.
transitivity (\sum_(k < M) complex.Re (f k) +
  \sum_(k < M) complex.Re (\sum_(i < N) vec_missing N K top vec fr eps (ent A) k i * (gvec k i)^*)); last first.
  congr (_ + _); rewrite (big_ord_widen K (fun k => complex.Re (f k)) MK) big_mkcond /=.
  apply: eq_bigr => k _; case: ifP => // /negbT; rewrite -leqNgt => hk.
  rewrite fE // gval0 // conjc0 mulr0 add0r; case: ifP => // _.
  by rewrite big1 // => i _; rewrite gvec0 // conjc0 mulr0.
rewrite -big_split /=; apply: eq_bigr => k _; rewrite -ReD fE ?(leq_trans _ MK) // -addrA; congr (complex.Re (_ + _)).
case E: (Z.ltb _ _).
  by rewrite -big_split /=; apply: eq_bigr => i _; rewrite -mulrDl /vec_missing E addrC subrK.
by rewrite add0r; apply: eq_bigr => i _; rewrite /vec_missing E subr0.
Qed.
End Main.

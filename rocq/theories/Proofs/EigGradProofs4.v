(** EigGradProofs4.v -- what a diagonalisation in the PyTorch engine returns, and
    the gradients computed from its context. *)
From Coq Require Import Reals ZArith String.
From Verif.Model Require Import Base Units Elements Edge LCWB HamConst.
From Verif.Proofs Require Import HamConstProofs.
Lemma unit_there_and_back u x : get_unit_freq u <> 0%R ->
  Rmult (Rmult (Rmult (in_unit u x) 2) PI) (get_unit_freq u) = x.
Proof. intros H. rewrite <- (in_unit_back u x H) at 2. ring. Qed.
From mathcomp Require Import all_ssreflect all_algebra.
From mathcomp Require Import complex.
From Verif.Numerics Require Import RStruct Bridge.
From Verif.Model Require Import Transform Op Ham Diag CircuitSM Copy Partial TorchDiag.
From Verif.Spec Require Import CopySpec.
From Verif.Proofs Require Import CopyProofs CopyProofs2 CopyProofs3 CopyProofs4 EigGradProofs3.

Set Implicit Arguments.
Unset Strict Implicit.
Unset Printing Implicit Defensive.
Import GRing.Theory.
Local Open Scope ring_scope.
Local Open Scope complex_scope.

Lemma hamil_mem s x : exists M, (hamil s x).1 = put_mem x M (x_LC x).
Proof.
rewrite /hamil; case: ifP => _; first by exists (x_mem x); case: x.
case: (foldl (ind_step _ _ _) _ _) => M r; case: (foldl (jj_step _ _ _) _ _) => M' r'.
by exists M'.
Qed.
Lemma hamil_c s x : x_c (hamil s x).1 = x_c x.
Proof. by have [M ->] := hamil_mem s x. Qed.

Lemma times_back u r : get_unit_freq u <> 0%R ->
  mkE [seq times_unit u (in_unit u w) | w <- e_freqs r] (e_vecs r) = r.
Proof.
move=> nz; case: r => f v /=; congr mkE; rewrite -[RHS]map_id; apply: eq_map => w.
exact: unit_there_and_back.
Qed.

Definition top_of (maxg : option Z) (k : Z) : Z := if maxg is Some z then z else k.

Section Forward.
Variables (eigs : eigs_fun) (argsort : seq C -> seq nat) (u : ustate) (maxg : option Z).
Hypothesis nz : get_unit_freq u <> 0%R.

(** The steps of a diagonalisation that reached safecopy. *)
Lemma diag_torchE k hp ob H r :
  size (x_m (ob_x ob)) <> 0%N -> ob_mem ob -> ob_LC ob -> (hamil (hp_s hp) (ob_x ob)).2 = Ok H ->
  diag_np eigs argsort H k = Ok r ->
  let ob2 := mkOb (put_eig (hamil (hp_s hp) (ob_x ob)).1 r) true true (ob_descr ob) (ob_full ob) in
  diag_torch eigs argsort u maxg (Some k) hp ob =
    if (size (e_freqs r) == 0%N) || (size (e_vecs r) == 0%N) then (hp, ob2, Err RuntimeError)
    else match safecopy true false hp ob2 with
         | Err z => (hp, ob2, Err z)
         | Ok (hp', copy) =>
             if can_cat (size (e_freqs r)) (size (e_vecs r)) (dim H)
             then (hp', ob2, Ok (mkCtx (put_eig (ob_x copy) r) (Z.to_nat k) (top_of maxg k),
                                 ([seq in_unit u w | w <- e_freqs r], e_vecs r)))
             else (hp', ob2, Err RuntimeError)
         end.
Proof.
move=> m0 hm hl EH ED; rewrite /diag_torch; case: eqP => [//|_].
rewrite /eigen_forward /ob_hamil hm hl; case: eqP => [//|_].
case E: hamil => [x1 rh] /=; rewrite E /= in EH; rewrite EH ED /ob_eig /= times_back //.
case: ifP => // _; case: safecopy => [[hp' copy]|//]; case: ifP => // _.
Qed.

Lemma diag_torchP k hp ob hp' ob' ctx out : diag_torch eigs argsort u maxg (Some k) hp ob = (hp', ob', Ok (ctx, out)) ->
  exists H r copy, let ob2 := mkOb (put_eig (hamil (hp_s hp) (ob_x ob)).1 r) true true (ob_descr ob) (ob_full ob) in
  [/\ [/\ size (x_m (ob_x ob)) <> 0%N, ob_mem ob, ob_LC ob, (hamil (hp_s hp) (ob_x ob)).2 = Ok H &
          diag_np eigs argsort H k = Ok r],
      safecopy true false hp ob2 = Ok (hp', copy), can_cat (size (e_freqs r)) (size (e_vecs r)) (dim H),
      ob' = ob2 &
      ctx = mkCtx (put_eig (ob_x copy) r) (Z.to_nat k) (top_of maxg k) /\
      out = ([seq in_unit u w | w <- e_freqs r], e_vecs r)].
Proof.
move=> E; have [m0 hm hl] : [/\ size (x_m (ob_x ob)) <> 0%N, ob_mem ob & ob_LC ob].
  move: E; rewrite /diag_torch; case: eqP => [//|m0]; rewrite /eigen_forward /ob_hamil; case: eqP => [//|_].
  case: (ob_mem ob); last by case: c_keys_ind => [|? ?] //; case: coupling_coef.
  by case: (ob_LC ob); last by case: hamil => [y [z|z]].
have [H [r [EH ED]]] : exists H r, (hamil (hp_s hp) (ob_x ob)).2 = Ok H /\ diag_np eigs argsort H k = Ok r.
  move: E; rewrite /diag_torch; case: eqP => [//|_]; rewrite /eigen_forward /ob_hamil hm hl; case: eqP => [//|_].
  by case: hamil => y [H|z] //; case ED: diag_np => [r|z] // _; exists H, r.
move: E; rewrite (diag_torchE m0 hm hl EH ED); case: ifP => // _.
case ES: safecopy => [[hp2 copy]|//]; case: ifP => // cc [<- <- <- <-].
by exists H, r, copy; split.
Qed.
End Forward.

Section CopyGrad.
Variables (hp : heap) (ob : cobj) (hp' : heap) (copy : cobj) (r : eigres) (n : nat) (top : Z).
Hypothesis E : safecopy true false hp ob = Ok (hp', copy).

Lemma params_map s s' ctx ctx' eps len gval gvec cs cs' (g : LCWB.comp -> LCWB.comp) :
  ec_n ctx' = ec_n ctx -> cs' = [seq g c | c <- cs] ->
  (forall c ks, List.In c cs -> levels_grad s' ctx' eps len gval gvec (g c) ks = levels_grad s ctx eps len gval gvec c ks) ->
  params_grad s' ctx' eps len gval gvec cs' = params_grad s ctx eps len gval gvec cs.
Proof.
move=> En -> H; elim: cs H => [//|c cs IH] H /=; rewrite En H; last by left.
by rewrite IH // => c' ks hc; apply: H; right.
Qed.

(** Backward on the copy is backward on the circuit. *)
Lemma copy_backward eps len gval gvec : uniq (c_loops (x_c (ob_x ob))) ->
  eigen_backward (hp_s hp') (mkCtx (put_eig (ob_x copy) r) n top) eps len gval gvec =
  eigen_backward (hp_s hp) (mkCtx (put_eig (ob_x ob) r) n top) eps len gval gvec.
Proof.
move=> uL; set x := ob_x ob; set hp1 := safe_heap hp x.
have [ok Es _ Ec _] := torch_ok E; rewrite -/x -/hp1 in ok Es Ec.
have Ex : ob_x copy = deep_circ (hp_e hp1) (hp_l hp1) (put_eig (safe_circ hp x) (mkE [::] [::])).
  move: E; rewrite /safecopy /= -/x ok /=; case: ifP => // _; case: ifP => // _ [_ <-] //.
rewrite /eigen_backward /= Ec Es.
apply: (params_map (g := fun c => ren (addn^~ (hp_e hp1)) (addn^~ (hp_l hp1))
                            (ren (repl0 (hp_e hp) (placed x)) (repl0 (hp_l hp) (c_loops (x_c x))) c))) => //.
  by rewrite /= -!map_comp; apply: eq_map => -[[i|i] p].
move=> c ks hc; apply: levels_same => //=.
have cin : comp_in hp x c.
  move: ok hc; rewrite /lookups_ok => /andP [/andP [/andP [_ ok] _] _]; move: ok.
  elim: (c_params _) => [//|p ps IH] /= /andP [hp0 /IH H] [<-//|/H //].
rewrite -[RHS]/(partial_H (hp_s hp) x c None).
rewrite -(carry_H (safe_carries ok) None (safe_carries_comp ok uL cin)).
have Ey : put_eig (ob_x copy) r = deep_circ (hp_e hp1) (hp_l hp1) (put_eig (safe_circ hp x) r) by rewrite Ex.
rewrite Ey.
have D : carries (hp_s hp1) (safe_circ hp x) (deep_store hp1) (deep_circ (hp_e hp1) (hp_l hp1) (put_eig (safe_circ hp x) r))
           (addn^~ (hp_e hp1)) (addn^~ (hp_l hp1)) by apply: deep_carries => //; split.
by apply: (carry_H D None); apply: deep_carries_comp.
Qed.
End CopyGrad.

(** What later happens to the objects that were there before does not matter. *)
Lemma isolated_backward e l s s' ctx eps len gval gvec : apart e l s (ec_x ctx) ->
  (forall i, (e <= i)%N -> ekind s' i = ekind s i /\ evalue s' i = evalue s i) ->
  (forall j, (l <= j)%N -> lvalue s' j = lvalue s j) ->
  eigen_backward s' ctx eps len gval gvec = eigen_backward s ctx eps len gval gvec.
Proof.
move=> [aE aL aP aI aJ] hE hL.
apply: (params_map (g := id)) => //; first by rewrite map_id.
move=> c ks hc; apply: levels_same => //.
have C : carries s (ec_x ctx) s' (ec_x ctx) id id.
  split=> //.
  - by rewrite -[LHS]map_id; apply: eq_map => -[[]].
  - by rewrite -[LHS]map_id; apply: eq_map => -[[[]]].
  - by move=> k /aI /hE [_ ->].
  - by move=> k /aJ /hE [_ ->].
  - rewrite /loop_values; apply/eq_in_map => j hj; apply: hL; apply: aL; by left.
have R : ren id id c = c by case: (c).
have := carry_H C None (c := c); rewrite R; apply.
by have := aP c hc; case: (c) => [i /hE [E1 E2]|//].
Qed.

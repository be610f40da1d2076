(** RateGradProofs2.v -- the operators behind the dephasing rates and their
    derivatives with respect to loops and junctions. *)
From Coq Require Import Reals ZArith String FunctionalExtensionality.
From Verif.Spec Require Import ThermalSpec.
From Verif.Model Require Import Base Units Noise Edge Elements LCWB HamConst PartialConst Thermal RateConst.
From mathcomp Require Import all_ssreflect all_algebra.
From mathcomp Require Import complex.
From Verif.Numerics Require Import RStruct Bridge.
From Verif.Model Require Import Transform Op Ham Diag CircuitSM Partial DecRate TorchRates.
From Verif.Spec Require Import OpSpec GradSpec PerturbSpec DecSpec RateGradSpec.
From Verif.Proofs Require Import OpProofs HamProofs HamProofs2 HamProofs3 HamProofs4 HamProofs6 CDeriv SMProofs MemProofs
  GradProofs NgProofs PerturbProofs PerturbProofs2 SecondOrder.

Set Implicit Arguments.
Unset Strict Implicit.
Unset Printing Implicit Defensive.
Import GRing.Theory.
Local Open Scope ring_scope.
Local Open Scope complex_scope.

Lemma ok_sized N P : okacc N P -> sized N P.
Proof. by case: P => [A|] //= []. Qed.
Lemma ok_herm N P : okacc N P -> hermitian N (opt_entry P).
Proof.
case: P => [A|] /=; first by case=> <- [_ H] i j hi hj; apply: H.
by move=> _ i j _ _; rewrite conjc0.
Qed.
Lemma racc_ok N (K : Type) (f : K -> res op) ks : (forall k A, List.In k ks -> f k = Ok A -> dim A = N /\ herm A) ->
  forall acc P, (forall Q, acc = Ok Q -> okacc N Q) -> foldl (racc f) acc ks = Ok P -> okacc N P.
Proof.
elim: ks => [|k ks IH] H acc P Ha /=; first exact: Ha.
apply: IH => [j A hj|Q]; first by apply: H; right.
rewrite /racc; case: acc Ha => [A|//] Ha; case E: (f k) => [X|//] [<-].
have [dX hX] := H k X (or_introl erefl) E; exact: ok_add (Ha A erefl) dX hX.
Qed.

Lemma changed_kind s c t : ekind (changed s c t) = ekind s. Proof. by case: c. Qed.
Lemma changed_same s c : changed s c (comp_value s c) = s.
Proof.
case: s c => k v r l cp lo lv lr ll [el|lp]; rewrite /changed /with_flux /with_value /=; congr mkStore.
  by apply: functional_extensionality => j; case: Nat.eqb_spec => [->|].
by apply: functional_extensionality => j; case: Nat.eqb_spec => [->|].
Qed.

Section Ops.
Variables (disp : nat -> C -> op) (x : circ).
Hypothesis dims : forall m a, dim (disp m a) = m.
Let N := total (hof x).

Lemma loop_ok s l P : regular disp s x -> reported_grad s x (CLoop l) None = Ok P -> okacc N P.
Proof.
move=> R; have [M [E F]] := filledP R; rewrite /reported_grad E /partial_H.
case: loop_index => [j|//]; apply: racc_ok => [[[[e el] b] w] A hk|Q].
  have [_ EM _] := fl_jj F hk; rewrite -[x_mem _]/M /fetch EM => -[<-] /=.
  by split; [apply: exp_dim | apply: herm_scale; apply: herm_sin].
apply: racc_ok => [[[e el] b] A hk|Q' [<-] //].
have [X EA EM] := fl_ind F hk; rewrite -[x_mem _]/M /fetch EM => -[<-] /=.
by have [_ [_ _ d h _]] := couplingP EA; split=> //; apply: herm_scale.
Qed.

Lemma jj_ok s el b0 P : regular disp s x -> ekind s el = KJJ ->
  reported_grad s x (CEl el) b0 = Ok P -> okacc N P.
Proof.
move=> R Ek; have [M [E F]] := filledP R; rewrite /reported_grad E /partial_H Ek.
apply: racc_ok => [[[[e el'] b] w] A|Q [<-] //].
move=> /filter_In [hk /andP [/eqP /= Ee _]]; rewrite Ee in hk.
have [EM _ _] := fl_jj F hk; rewrite /fetch EM => -[<-] /=.
by split; [apply: exp_dim | apply: (@herm_scale (-1)); apply: herm_cos].
Qed.

Lemma phi2_ok s l c P : regular disp s x -> match c with CLoop _ => True | CEl el => ekind s el = KJJ end ->
  partial_squared_H_phi s (hamil s x).1 l c = Ok P -> okacc N P.
Proof.
move=> R Ek; have [M [E F]] := filledP R; rewrite E /partial_squared_H_phi.
case: c Ek => [el|l2] Ek.
  rewrite Ek; case: loop_index => [j|//]; rewrite /B_indices Ek racc_map; apply: racc_ok => [[[[e el'] b] w] A|Q [<-] //].
  move=> /filter_In [hk /eqP /= Ee]; rewrite Ee in hk.
  have [_ EM _] := fl_jj F hk; rewrite /fetch /= EM => -[<-] /=.
  by split; [apply: exp_dim | apply: herm_scale; apply: herm_sin].
case: loop_index => [j|//]; case: loop_index => [j2|//]; apply: racc_ok => [[[[e el] b] w] A hk|Q [<-] //].
have [EM _ _] := fl_jj F hk; rewrite /fetch /= EM => -[<-] /=.
by split; [apply: exp_dim | apply: herm_scale; apply: herm_cos].
Qed.

Lemma EJ2_ok s c P e el b w : regular disp s x -> List.In (e, el, b, w) (c_keys_jj (x_c x)) ->
  partial_squared_H_EJ (hamil s x).1 el b c = Ok P -> okacc N P.
Proof.
move=> R hk; have [M [E F]] := filledP R; rewrite E /partial_squared_H_EJ.
case: c => [el'|l]; first by case=> <-.
case: loop_index => [j|//]; have [_ EM _] := fl_jj F hk; rewrite /fetch /= EM /= => -[<-] /=.
by split; [apply: exp_dim | apply: herm_scale; apply: herm_sin].
Qed.

Lemma ng_ok s i P : regular disp s x -> partial_H_ng (hamil s x).1 i = Ok P -> okacc N P.
Proof.
move=> R; have G := rg_good R; have [E0 [M [E1 [[SQ _ _ _] _]]]] := hamilE s G.
rewrite E1 /partial_H_ng -[x_st _]/(x_st x) -[x_n _]/(x_n x); case: ifP => // _.
apply: racc_ok => [j A hj|Q [<-] //]; rewrite -[x_mem _]/M SQ.
have F : fresh_ops disp x.
  by case: (g_ops G) => // m0; have [H] := rg_ham R; rewrite E0 /ham_of /hamiltonian /= m0.
rewrite (fo_Q F) -map_comp (nth_map 0%N) ?size_iota; last by have /inP := hj; rewrite mem_iota.
case=> <- /=; split; first by rewrite dim_opQ.
by apply: herm_scale; rewrite opQE; apply: herm_one => k; apply: herm_Qiso.
Qed.
Lemma ng_const s s' i : regular disp s x -> partial_H_ng (hamil s' x).1 i = partial_H_ng (hamil s x).1 i.
Proof.
move=> R; have G := rg_good R.
have [_ [M [E1 [[SQ _ _ _] _]]]] := hamilE s G; have [_ [M' [E1' [[SQ' _ _ _] _]]]] := hamilE s' G.
by rewrite E1 E1' /partial_H_ng; cbn [x_mem put_mem x_st x_n]; rewrite SQ SQ'.
Qed.

(** *** The Hamiltonian as a function of a loop or junction *)
Variables (s : store) (c : LCWB.comp).
Hypothesis Rg : regular disp s x.
Hypothesis kind : match c with CLoop l => l \in c_loops (x_c x) | CEl el => ekind s el = KJJ end.
Let t0 := comp_value s c.
Let Rt t : regular disp (changed s c t) x.
Proof. by apply: regular_store Rg _; apply: changed_kind. Qed.

Lemma fam_hermitian t : hermitian N (ham_family s x c t).
Proof.
move=> i j hi hj; rewrite /ham_family -/(changed s c t); have [A EA] := rg_ham (Rt t); rewrite EA /=.
have [E _] := hamilE (changed s c t) (rg_good Rg); move: EA; rewrite E.
by move=> /(hamiltonian_ok dims) [dA [_ hA]]; apply: hA; rewrite dA.
Qed.

Lemma cd_line (z a : C) (r r0 : R) : cderiv (fun v : R => z + (v - r0)%:C * a) r a.
Proof.
rewrite -[X in cderiv _ _ X]add0r; apply: cd_add; first exact: cd_const.
rewrite -[X in cderiv _ _ X]mul1r; apply: cd_scaler; apply: (@cd_real (fun v => v - r0) _ 1).
apply: hd_ext (hd_affine 0 r0 1 _) => v.
by rewrite (Rmult_1_r (Rminus v _)) Rplus_0_l.
Qed.

Lemma fam_deriv P i j : reported_grad s x c None = Ok P ->
  cderiv (fun t => ham_family s x c t i j) t0 (opt_entry P i j).
Proof.
rewrite /t0; move: kind; case: (c) => [el|l] Ek EP.
  have [Q EQ HQ] := jj_gradP None Rg Ek; rewrite EP in EQ; case: EQ => EQ; subst Q; rewrite HQ.
  apply: (@cd_ext (fun v => ham_entry disp s x i j + (v - evalue s el)%:C * jj_grad disp s x el None i j)).
    move=> v; rewrite /ham_family -(@jj_affine disp s x el v) // (ham_entryE (disp := disp)) //.
    exact: regular_store Rg _.
  exact: cd_line.
have [Q EQ HQ] := loop_gradP Rg Ek; rewrite EP in EQ; case: EQ => EQ; subst Q; rewrite HQ.
exact: loop_derivative.
Qed.

(** the loop gradient *)
Lemma flux_deriv l P2 i j : l \in c_loops (x_c x) -> partial_squared_H_phi s (hamil s x).1 l c = Ok P2 ->
  cderiv (fun t => grad_entry (reported_grad (changed s c t) x (CLoop l) None) i j) t0 (opt_entry P2 i j).
Proof.
rewrite /t0; move: kind; case: (c) => [el|l2] Ek hl EP.
  have [P EP' HP] := loop_jjP Rg hl Ek; rewrite EP in EP'; case: EP' => EP'; subst P.
  apply: (@cd_ext (fun v => loop_grad disp s x l i j + (v - evalue s el)%:C * opt_entry P2 i j)); last exact: cd_line.
  move=> v; have Rv : regular disp (with_value s el v) x by apply: regular_store Rg _.
  by have [Q -> HQ] := loop_gradP Rv hl; rewrite /= HQ HP loop_jj_affine.
have [P EP' HP] := loop2_gradP Rg hl Ek; rewrite EP in EP'; case: EP' => EP'; subst P.
by rewrite HP; apply: loop2_derivative.
Qed.

(** one junction *)
Lemma cc_deriv e el b w P2 i j : List.In (e, el, b, w) (c_keys_jj (x_c x)) ->
  partial_squared_H_EJ (hamil s x).1 el b c = Ok P2 ->
  cderiv (fun t => grad_entry (reported_grad (changed s c t) x (CEl el) (Some b)) i j) t0 (opt_entry P2 i j).
Proof.
rewrite /t0; move: kind; case: (c) => [el'|l2] Ek hk EP.
  have [M [E F]] := filledP Rg; move: EP; rewrite E /partial_squared_H_EJ => -[<-]; rewrite -[opt_entry None i j]/(0 : C).
  apply: (@cd_ext (fun v => jj_grad disp s x el (Some b) i j)); last exact: cd_const.
  move=> v; have Rv : regular disp (with_value s el' v) x by apply: regular_store Rg _.
  by have [|Q -> HQ] := jj_gradP (Some b) Rv (el := el); [apply: (rg_jj Rg hk) | rewrite /= HQ].
have [P EP' HP] := EJP Rg Ek hk; rewrite EP in EP'; case: EP' => EP'; subst P.
by rewrite HP; apply: EJ_derivative hk.
Qed.
End Ops.

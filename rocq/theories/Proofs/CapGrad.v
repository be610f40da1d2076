(** CapGrad.v -- derivatives of the circuit's energies with respect to capacitances
    and inductances. *)
From Coq Require Import Reals ZArith String Lra List.
From Verif.Model Require Import Base Units Elements Edge LCWB HamConst PartialConst.
From Verif.Spec Require Import GraphSpec CircuitSpec ThermalSpec.
From Verif.Proofs Require Import LCWBProofs BookProofs SensProofs ThermalProofs CDeriv.
From Verif.Proofs Require SymProofs.
Open Scope R_scope.

(** Stores whose elements agree. *)
Definition same_elements (s s' : store) : Prop :=
  ekind s' = ekind s /\ evalue s' = evalue s /\ ecap s' = ecap s.

Lemma same_edge_cap s s' els : same_elements s s' -> edge_cap s' els = edge_cap s els.
Proof. intros (E1 & E2 & E3). unfold edge_cap. apply suml_ext. intros el _. unfold cap_of. rewrite E1, E2, E3. reflexivity. Qed.
Lemma same_edge_invind s s' els : same_elements s s' -> edge_invind s' els = edge_invind s els.
Proof. intros (E1 & E2 & E3). unfold edge_invind. apply suml_ext. intros el _. unfold invind_of. rewrite E1, E2. reflexivity. Qed.
Lemma same_pm_coef optim s s' x el : same_elements s s' -> pm_coef optim s' x el = pm_coef optim s x el.
Proof. intros (E1 & E2 & E3). unfold pm_coef, inductive_el. rewrite E1, E2, E3. reflexivity. Qed.

Lemma get_ok optim s fd n lobj d c : get_LCWB optim s fd n lobj d = Ok c ->
  forall s' lobj', (forall e els, In (e, els) d -> bad_ind s' els -> bad_ind s els) ->
  exists c', get_LCWB optim s' fd n lobj' d = Ok c'.
Proof.
  intros H s' lobj' Hb. apply get_LCWB_run in H as [Hn H].
  assert (G := proj1 (run_edges_ok_iff optim s fd n d (cst0 lobj)) (ex_intro _ c H)).
  assert (E : exists c', run_edges optim s' fd n (cst0 lobj') d = Ok c').
  { apply run_edges_ok_iff. intros e els Hin. destruct (G e els Hin) as (G1 & G2 & G3).
    repeat split; auto. intros B. apply G3. apply (Hb e els Hin B). }
  destruct E as (c' & E). exists c'. unfold get_LCWB.
  destruct (Z.ltb_spec n 0) as [L|_]; [exfalso; apply (Z.lt_irrefl n); eapply Z.lt_le_trans; eauto | exact E].
Qed.

Lemma upd_same s el v s' : same_elements s s' -> ekind (upd_value s el v) = ekind s'.
Proof. intros (E1 & _). simpl. auto. Qed.

(** The capacitance matrix is affine in a capacitance. *)
Lemma cap_line optim s' s fd n lobj lobj' d el c :
  get_LCWB optim s' fd n lobj d = Ok c -> same_elements s s' -> ekind s el = KCap ->
  (forall e', inductive_el s e' = true -> ekind s (ecap s e') = KCap) ->
  (optim = true \/
   forall e els e', In (e, els) d -> In e' els -> inductive_el s e' = true -> ecap s e' <> el) ->
  forall v, exists cv, get_LCWB optim (upd_value s el v) fd n lobj' d = Ok cv /\
    forall i j, c_C cv i j = c_C c i j + (v - evalue s el) * pm_val (c_pm c el) i j.
Proof.
  intros H Sm Kx Hcap Hm v.
  destruct (get_ok _ _ _ _ _ _ _ H (upd_value s el v) lobj') as [cv Hv].
  { intros e els _ (e' & Hin & K & Z). exists e'. destruct Sm as (E1 & E2 & E3). simpl in K, Z.
    rewrite E1, E2. destruct (Nat.eqb_spec e' el) as [->|_]; [congruence|auto]. }
  exists cv; split; [exact Hv|]. intros i j.
  apply get_LCWB_run in H as [_ H], Hv as [_ Hv].
  pose proof (run_edges_mats _ _ _ _ _ _ _ Hv) as (HCv & _).
  pose proof (run_edges_mats _ _ _ _ _ _ _ H) as (HC & _).
  destruct (run_edges_pm optim s' fd n el d _ _ H) as [HP _]. simpl in HCv, HC, HP.
  rewrite HCv, HC, HP, !Rplus_0_l, <- suml_scal, <- suml_plus. apply suml_ext.
  intros [e els] Hin; simpl. rewrite (same_edge_cap s s') by exact Sm.
  rewrite (suml_ext els (pm_coef optim s' el) (pm_coef optim s el)) by (intros; apply same_pm_coef; exact Sm).
  assert (E : suml els (pm_coef optim s el) = suml els (pm_coef true s el)).
  { destruct optim; auto. destruct Hm as [?|Hm]; [discriminate|]. eapply pm_coef_numpy; eauto. }
  rewrite E.
  assert (E0 : edge_cap s els = edge_cap (upd_value s el (evalue s el)) els).
  { symmetry. apply same_edge_cap. repeat split; simpl. 
    apply FunctionalExtensionality.functional_extensionality. intros k.
    destruct (Nat.eqb_spec k el) as [->|]; reflexivity. }
  rewrite E0. rewrite (edge_cap_upd s el v), (edge_cap_upd s el (evalue s el)) by auto. ring.
Qed.

(** The susceptance matrix as a function of an inductance. *)
Lemma ind_line optim s' s fd n lobj lobj' d el c :
  get_LCWB optim s' fd n lobj d = Ok c -> same_elements s s' -> ekind s el = KInd ->
  (forall e', inductive_el s e' = true -> ekind s (ecap s e') = KCap) -> evalue s el <> 0 ->
  (exists r, 0 < r /\ forall v, Rabs (v - evalue s el) < r ->
     exists cv, get_LCWB optim (upd_value s el v) fd n lobj' d = Ok cv) /\
  (forall i j, has_derivative (fun v => match get_LCWB optim (upd_value s el v) fd n lobj' d with
                                   | Ok cv => c_L cv i j | Err _ => 0 end) (evalue s el)
     (- pm_val (c_pm c el) i j)).
Proof.
  intros H Sm Kx Hcap Hnz.
  assert (Ok0 : exists c0, get_LCWB optim s fd n lobj' d = Ok c0).
  { apply (get_ok _ _ _ _ _ _ _ H). intros e els _ (e' & Hin & K & Z). exists e'.
    destruct Sm as (E1 & E2 & E3). rewrite E1, E2. auto. }
  destruct Ok0 as [c0 H0].
  assert (EP : forall i j, pm_val (c_pm c el) i j = pm_val (c_pm c0 el) i j).
  { intros i j. apply get_LCWB_run in H as [_ H], H0 as [_ H0].
    destruct (run_edges_pm optim s' fd n el d _ _ H) as [HP _].
    destruct (run_edges_pm optim s fd n el d _ _ H0) as [HP0 _]. simpl in HP, HP0.
    rewrite HP, HP0. f_equal. apply suml_ext. intros [e els] _. simpl. f_equal.
    apply suml_ext. intros k _. apply same_pm_coef. exact Sm. }
  split.
  - exists (Rabs (evalue s el)). split; [apply Rabs_pos_lt; exact Hnz|]. intros v Hv.
    apply (get_ok _ _ _ _ _ _ _ H0). intros e els _ (e' & Hin & K & Z). exists e'. simpl in K, Z.
    destruct (Nat.eqb_spec e' el) as [->|_]; [|auto]. subst v. exfalso.
    rewrite Rminus_0_l, Rabs_Ropp in Hv. lra.
  - intros i j. rewrite EP. apply has_derivative_iff.
    exact (ind_sensitivity optim s fd n lobj' d el c0 H0 Kx Hcap Hnz i j).
Qed.

Lemma pm_sym optim s fd n lobj d c el : get_LCWB optim s fd (Z.of_nat n) lobj d = Ok c ->
  forall i j, (i < n)%nat -> (j < n)%nat -> pm_val (c_pm c el) i j = pm_val (c_pm c el) j i.
Proof.
  intros H i j Hi Hj. apply get_LCWB_run in H as [_ H].
  destruct (run_edges_pm optim s fd _ el d _ _ H) as [HP _]. simpl in HP. rewrite !HP. f_equal.
  apply suml_ext. intros ee _. f_equal. unfold mrep.
  destruct (matrix_rep (Z.of_nat n) (fst ee)) eqn:E; auto.
  rewrite (SymProofs.matrix_rep_sym _ _ _ E i j) by auto. reflexivity.
Qed.

Lemma hd_ind_coef L phi : L <> 0 -> has_derivative (fun v => ind_coef v phi) L (- d_ind_coef L phi).
Proof.
  intros H. unfold ind_coef.
  apply hd_ext with (f := fun v => (phi * (Phi0 / 2 / PI) / sqrt hbar) * / v).
  - intros v. unfold Rdiv. ring.
  - eapply hd_eq; [apply hd_scal; apply (hd_inv (fun u => u) L 1); [apply hd_id | exact H]|].
    unfold d_ind_coef, Rdiv. replace (/ L ^ 2) with (/ (L * L)) by (f_equal; ring). ring.
Qed.
Lemma ng_coef_opp A c f : (- A * f + c * 0 = - (A * f))%R.
Proof. ring. Qed.

From mathcomp Require Import all_ssreflect all_algebra.
From mathcomp Require Import complex.
From Verif.Numerics Require Import RStruct Bridge.
From Verif.Model Require Import FluxDist Transform Op Ham Diag CircuitSM Partial.
From Verif.Spec Require Import OpSpec SessionSpec GradSpec CapGradSpec.
From Verif.Proofs Require Import TransProofs OpProofs HamProofs HamProofs2 HamProofs3 HamProofs6 SMProofs SMProofs2 SMProofs3 MemProofs
  GradProofs PerturbProofs MatDeriv.

Set Implicit Arguments.
Unset Strict Implicit.
Unset Printing Implicit Defensive.
Import GRing.Theory.
Local Open Scope ring_scope.
Local Open Scope complex_scope.

(** ** The forms read from memory *)
Lemma racc_ok (K : Type) (f : K -> res op) (F : K -> op) ks : forall acc,
  (forall k, List.In k ks -> f k = Ok (F k)) ->
  foldl (racc f) (Ok acc) ks = Ok (foldl (fun acc k => acc_add acc (F k)) acc ks).
Proof.
elim: ks => //= k ks IH acc H; rewrite (H k); last by left.
by apply: IH => k' hk; apply: H; right.
Qed.
Lemma In_mem (ks : seq nat) k : List.In k ks -> k \in ks.
Proof. by elim: ks => //= k' ks IH [->|/IH h]; rewrite inE ?eqxx // h orbT. Qed.

Lemma quad_QP disp x A : fresh_ops disp x -> quad_Q x A = Ok (quadratic_Q (hof x) A).
Proof.
move=> F; rewrite /quad_Q /quadratic_Q -[hn (hof x)]/(x_n x).
have HQ i j : (i < x_n x)%N -> (j < x_n x - i)%N ->
   nth None [seq Some o | o <- nth [::] (M_QQ (x_mem x)) i] j = Some (opQQ (hof x) i j).
  move=> hi hj; rewrite (fo_QQ F) (nth_map 0%N) ?size_iota // nth_iota // add0n.
  by rewrite (nth_map (ozero 0)) // /mem_row row_prefix //= size_map size_iota.
have sub : forall i, i \in iota 0 (x_n x) -> (i < x_n x)%N by move=> i; rewrite mem_iota.
set f := (X in foldl X (Ok None)); set g := (X in Ok (foldl X None _)).
suff gen ks acc : (forall i, i \in ks -> (i < x_n x)%N) -> foldl f (Ok acc) ks = Ok (foldl g acc ks) by apply: gen.
elim: ks acc => //= i ks IH acc {}sub; rewrite {2}/f {2}/g.
rewrite (racc_ok (F := fun j => oscale (if j == 0%N then halfR (A i (i + j)%N) else A i (i + j)%N)%:C (opQQ (hof x) i j))).
  by apply: IH => k hk; apply: sub; rewrite inE hk orbT.
move=> j /In_mem; rewrite mem_iota => /andP [_ hj].
by rewrite HQ //; apply: sub; rewrite inE eqxx.
Qed.

Lemma foldl_in (T : Type) (f g : T -> nat -> T) ks : forall acc,
  (forall acc j, j \in ks -> f acc j = g acc j) -> foldl f acc ks = foldl g acc ks.
Proof.
elim: ks => //= k ks IH acc H; rewrite H ?inE ?eqxx //; apply: IH => a j hj; apply: H.
by rewrite inE hj orbT.
Qed.
Lemma quad_phiP disp x A : fresh_ops disp x -> quad_phi x A = Ok (quadratic_phi (hof x) A).
Proof.
move=> F; rewrite /quad_phi (fo_phi F) size_map size_iota ltnn; congr Ok; rewrite /quadratic_phi -[hn (hof x)]/(x_n x).
have HQ i : (i < x_n x)%N -> nth (ozero 0) [seq opPhi (hof x) i | i <- iota 0 (x_n x)] i = opPhi (hof x) i.
  by move=> hi; rewrite (nth_map 0%N) ?size_iota // nth_iota.
have sub : forall i, i \in iota 0 (x_n x) -> (i < x_n x)%N by move=> i; rewrite mem_iota.
apply: foldl_in => acc i /sub hi; apply: foldl_in => acc' j /sub hj.
by rewrite (HQ i hi) (HQ j hj).
Qed.

Lemma two_nz : (2%:R : C) != 0. Proof. by rewrite Num.Theory.pnatr_eq0. Qed.

Lemma half_form n A X a b : (forall i j, (i < n)%N -> (j < n)%N -> A i j = A j i) ->
  (forall i j, (i < n)%N -> (j < n)%N -> ent (omul (X i) (X j)) a b = ent (omul (X j) (X i)) a b) ->
  half_sum n A (fun i j => ent (omul (X i) (X j)) a b) = quad_form n A X a b.
Proof. by move=> SA SX; rewrite /quad_form -(half_sumE SA SX) mulrA mulVf ?mul1r // two_nz. Qed.

Lemma charge_form h A a b : (forall i j, (i < hn h)%N -> (j < hn h)%N -> A i j = A j i) ->
  (a < total h)%N -> (b < total h)%N -> oent (quadratic_Q h A) a b = quad_form (hn h) A (opQ h) a b.
Proof.
by move=> SA ha hb; rewrite quadratic_QE half_sum_QQ // half_form // => i j _ _; apply: prodQ_sym.
Qed.
Lemma flux_form h A a b : (forall i j, (i < hn h)%N -> (j < hn h)%N -> A i j = A j i) ->
  (a < total h)%N -> (b < total h)%N -> oent (quadratic_phi h A) a b = quad_form (hn h) A (opPhi h) a b.
Proof.
move=> SA ha hb; rewrite quadratic_phiE half_form // => i j _ _; have [->//|ne] := eqVneq i j.
by have [_ H] := opPhi_commute h ne; apply: H; rewrite /= dim_opPhi.
Qed.

(** The form is linear in the coefficients. *)
Lemma cd_form n (F : R -> arr) (D : arr) X a b t :
  (forall i j, (i < n)%N -> (j < n)%N -> has_derivative (fun u => F u i j) t (D i j)) ->
  cderiv (fun u => quad_form n (F u) X a b) t (quad_form n D X a b).
Proof.
move=> H; apply: cd_scale; apply: cd_sum_ord => i; apply: cd_sum_ord => j; apply: cd_scaler; apply: cd_real.
exact: H.
Qed.

Lemma hd_sandwich n (U V : 'M[R]_n) (F : R -> 'M[R]_n) (D : 'M[R]_n) t :
  (forall i j, has_derivative (fun u => F u i j) t (D i j)) ->
  forall i j, has_derivative (fun u => (U *m F u *m V) i j) t ((U *m D *m V) i j).
Proof.
move=> H i j; rewrite mxE; apply: (hd_ext (fun u => \sum_k (U *m F u) i k * V k j)) => [u|]; first by rewrite mxE.
apply: hd_sum => k.
have D1 : has_derivative (fun u => (U *m F u) i k) t ((U *m D) i k).
  rewrite mxE; apply: (hd_ext (fun u => \sum_l U i l * F u l k)) => [u|]; first by rewrite mxE.
  apply: hd_sum => l; apply: hd_scal; exact: H.
apply: hd_eq (hd_mul _ _ _ _ _ D1 (hd_const _ _)) _.
by change ((U *m D) i k * V k j + (U *m F t) i k * (0 : R) = (U *m D) i k * V k j); rewrite mulr0 addr0.
Qed.

(** ** Circuits whose matrices are those of the present values *)
Record synced (optim : bool) (s : store) (x : circ) : Prop := mkSy {
  sy_lcwb : exists s' lobj, same_elements s s' /\
    get_LCWB optim s' (x_fd x) (Z.of_nat (t_n0 (x_st x))) lobj (x_dict x) = Ok (x_c x);
  sy_C : x_C x = c_C (x_c x);
  sy_unit : toM (t_n0 (x_st x)) (t_n0 (x_st x)) (x_C x) \in unitmx;
  sy_cI : let n := t_n0 (x_st x) in t_n (x_st x) = n ->
    toM n n (t_cI (x_st x)) = (toM n n (t_R (x_st x)))^T *m invmx (toM n n (x_C x)) *m toM n n (t_R (x_st x)) }.

Section Caps.
Variables (disp : nat -> C -> op) (optim : bool) (s : store) (x : circ).
Hypothesis Sy : synced optim s x.
Hypothesis G : good disp x.
Hypothesis Rg : regular disp s x.
Hypothesis full : t_n (x_st x) = t_n0 (x_st x).
Hypothesis caps : forall e, ekind s e <> KCap -> ekind s (ecap s e) = KCap.
Let n0 := t_n0 (x_st x).
Let F : fresh_ops disp x.
Proof.
by case: (g_ops G) => // m0; have [H] := rg_ham Rg; have [-> _] := hamilE s G; rewrite /ham_of /hamiltonian /= m0.
Qed.

Let inductive_capP e : inductive_el s e = true -> ekind s (ecap s e) = KCap.
Proof. by rewrite /inductive_el => H; apply: caps => E; rewrite E in H. Qed.

Let fresh_after : exists M, [/\ (hamil s x).1 = put_mem x M (x_LC x), fresh_ops disp (put_mem x M (x_LC x)) & filled disp s x M].
Proof.
have [M [EM [[SQ SQQ Sphi SN] [SE SR]]]] := (hamilE s G).2.
have [M' [EM' Fl]] := filledP Rg.
have E : M' = M by have := congr1 x_mem (etrans (esym EM') EM).
exists M; split=> //; last by rewrite -E.
by case: F => E1 E2 E3 E4 E5 E6 E7 E8; split=> //=; rewrite ?SQ ?SQQ ?Sphi ?SN ?SE ?SR.
Qed.

(** *** Capacitors *)
Section Cap.
Variable el : nat.
Hypothesis kel : ekind s el = KCap.
Hypothesis own : optim = true \/
  forall e els e', List.In (e, els) (x_dict x) -> List.In e' els -> ekind s e' <> KCap -> ecap s e' <> el.
Hypothesis pl : placed optim s (x_dict x) el.

Lemma placed_pm : exists P, c_pm (x_c x) el = Some P.
Proof.
have [s' [lobj [[E1 [E2 E3]] H]]] := sy_lcwb Sy.
have : c_pm (x_c x) el <> None.
  apply: (pm_entries _ _ _ _ _ _ _ _ H).2; have [e [els [e' [h1 [h2 h3]]]]] := pl.
  exists e, els, e'; rewrite /inductive_el E1 E3; do 2!split=> //; case: h3 => [|[o [k c]]]; first by left.
  by right; split=> //; split=> //; case: (ekind s e') k.
by case: c_pm => // P _; exists P.
Qed.

Lemma C_line : exists2 P, c_pm (x_c x) el = Some P &
  (forall v, C_at optim s x el v = toM n0 n0 (x_C x) + (v - evalue s el) *: toM n0 n0 P) /\
  (forall i j, (i < n0)%N -> (j < n0)%N -> P i j = P j i).
Proof.
have [P EP] := placed_pm; exists P => //; have [s' [lobj [Se H]]] := sy_lcwb Sy; split.
  move=> v; have Hm : optim = true \/ (forall e els e', List.In (e, els) (x_dict x) -> List.In e' els ->
      inductive_el s e' = true -> ecap s e' <> el).
    case: own => [|h]; [by left|right] => e els e' h1 h2 h3; apply: (h e els e' h1 h2).
    by move=> k; rewrite /inductive_el k in h3.
  have [cv [Ev Hv]] := cap_line _ _ _ _ _ _ (c_lobj (x_c x)) _ _ _ H Se kel inductive_capP Hm v.
  rewrite /C_at /mats_at -[with_value s el v]/(upd_value s el v) Ev.
  by apply/matrixP => i j; rewrite !mxE /= Hv EP (sy_C Sy).
by move=> i j /ltP hi /ltP hj; have := pm_sym _ _ _ _ _ _ _ el H i j hi hj; rewrite EP.
Qed.

Lemma C_sym : (toM n0 n0 (x_C x))^T = toM n0 n0 (x_C x).
Proof.
have [s' [lobj [_ H]]] := sy_lcwb Sy; apply/matrixP => i j; rewrite !mxE (sy_C Sy).
by have [] := SymProofs.C_symmetric _ _ _ _ _ _ _ H j i (elimT ltP (ltn_ord j)) (elimT ltP (ltn_ord i)).
Qed.

Lemma charge_coef_slope P : c_pm (x_c x) el = Some P ->
  (forall v, C_at optim s x el v = toM n0 n0 (x_C x) + (v - evalue s el) *: toM n0 n0 P) ->
  forall i j, (i < n0)%N -> (j < n0)%N ->
  let Rm := toM n0 n0 (t_R (x_st x)) in let Ci := invmx (toM n0 n0 (x_C x)) in
  has_derivative (fun v => charge_coef (C_at optim s x el v) i j) (evalue s el)
    (ofM (- (Rm^T *m (Ci *m toM n0 n0 P *m Ci) *m Rm)) i j).
Proof.
move=> EP EC i j hi hj Rm Ci; rewrite (ofME _ (Ordinal hi) (Ordinal hj)).
apply: (hd_ext (fun v => (Rm^T *m invmx (C_at optim s x el v) *m Rm) (Ordinal hi) (Ordinal hj))).
  by move=> v; rewrite /charge_coef (ofME _ (Ordinal hi) (Ordinal hj)).
have Et : C_at optim s x el (evalue s el) = toM n0 n0 (x_C x) by rewrite EC subrr scale0r addr0.
have -> : - (Rm^T *m (Ci *m toM n0 n0 P *m Ci) *m Rm) = Rm^T *m - (Ci *m toM n0 n0 P *m Ci) *m Rm.
  by rewrite mulmxN mulNmx.
apply: hd_sandwich => k l; rewrite /Ci -Et; apply: inv_derivative.
  move=> k' l'; apply: (hd_ext (fun v => Rplus (x_C x k' l') (Rmult (Rminus v (evalue s el)) (P k' l')))).
    by move=> v; rewrite EC !mxE.
  rewrite mxE; exact: hd_affine.
by rewrite Et; apply: sy_unit Sy.
Qed.

Lemma cap_gradP : exists2 P, reported_grad s x (CEl el) None = Ok P &
  forall a b, (a < total (hof x))%N -> (b < total (hof x))%N ->
    cderiv (fun v => charge_energy optim s x el v a b) (evalue s el) (opt_entry P a b).
Proof.
have [P EP [EC SP]] := C_line; have [M [EM FM _]] := fresh_after.
have [ci Eci] := inv_unit (sy_unit Sy); have [_ Hci] := invP Eci.
rewrite /reported_grad EM /partial_H kel /= Eci EP /cap_grad /= Eci (quad_QP _ FM).
set A := (X in quadratic_Q _ X); eexists; first by reflexivity.
pose Rm := toM n0 n0 (t_R (x_st x)); pose Ci := invmx (toM n0 n0 (x_C x)).
have HA i j : (i < n0)%N -> (j < n0)%N -> A i j = ofM (- (Rm^T *m (Ci *m toM n0 n0 P *m Ci) *m Rm)) i j.
  move=> hi hj; rewrite (ofME _ (Ordinal hi) (Ordinal hj)) mxE /A.
  rewrite -[mmul _ _ _ i j](mxE matrix_key (fun i j : 'I_n0 => mmul n0 _ _ i j) (Ordinal hi) (Ordinal hj)).
  congr (- _); rewrite -[\matrix[_]_(_, _) _]/(toM n0 n0 (mmul _ _ _)) !toM_mmul toM_tr Hci -/Rm -/Ci.
  by rewrite !mulmxA.
have SA i j : (i < hn (hof x))%N -> (j < hn (hof x))%N -> A i j = A j i.
  rewrite -[hn (hof x)]/(t_n (x_st x)) full => hi hj; rewrite !HA //.
  rewrite (ofME _ (Ordinal hi) (Ordinal hj)) (ofME _ (Ordinal hj) (Ordinal hi)).
  set B := - _; have SB : B^T = B; last by rewrite -{1}SB mxE.
  rewrite /B linearN /= !trmx_mul trmxK trmx_inv C_sym.
  have -> : (toM n0 n0 P)^T = toM n0 n0 P by apply/matrixP => k l; rewrite !mxE SP.
  by rewrite !mulmxA.
move=> a b ha hb; rewrite -[opt_entry _ a b]/(oent _ a b) charge_form //.
apply: cd_form => i j; rewrite /x_n full => hi hj; rewrite HA //.
exact: charge_coef_slope.
Qed.

(** *** The operator of a gate charge *)
Lemma ng_slope_true i a b P : c_pm (x_c x) el = Some P ->
  (forall v, C_at optim s x el v = toM n0 n0 (x_C x) + (v - evalue s el) *: toM n0 n0 P) -> (i < n0)%N ->
  let Rm := toM n0 n0 (t_R (x_st x)) in let Ci := invmx (toM n0 n0 (x_C x)) in
  cderiv (fun v => ng_operator optim s x el i v a b) (evalue s el)
    (- \sum_(j < x_n x) (ng_coef (ofM (Rm^T *m (Ci *m toM n0 n0 P *m Ci) *m Rm) i j))%:C * ent (opQ (hof x) j) a b).
Proof.
move=> EP EC hi Rm Ci; rewrite -sumrN; apply: cd_sum_ord => j; rewrite -mulNr; apply: cd_scaler.
have hj : ((j : nat) < n0)%N by rewrite /n0 -full.
have H : has_derivative _ _ (ofM (- (Rm^T *m (Ci *m toM n0 n0 P *m Ci) *m Rm)) i j) := charge_coef_slope EP EC hi hj.
rewrite (ofME _ (Ordinal hi) (Ordinal hj)) mxE in H.
rewrite -rmorphN; apply: cd_real; rewrite (ofME _ (Ordinal hi) (Ordinal hj)).
apply: hd_eq; first by apply: hd_mul H (hd_const _ _).
exact: ng_coef_opp.
Qed.

Lemma ng_reported i : is_charge (x_st x) i -> (i < n0)%N ->
  exists2 P, c_pm (x_c x) el = Some P & exists2 A, partial_squared_H_ng s x i (CEl el) = Ok A &
  let Ci := invmx (toM n0 n0 (x_C x)) in
  forall a b, opt_entry A a b =
    - \sum_(j < x_n x) (ng_coef (ofM (Ci *m toM n0 n0 P *m Ci) i j))%:C * ent (opQ (hof x) j) a b.
Proof.
move=> ch hi; have [P EP _] := C_line; exists P => //.
have [ci Eci] := inv_unit (sy_unit Sy); have [_ Hci] := invP Eci.
rewrite /partial_squared_H_ng ch kel /= Eci EP.
set f := (X in racc X).
have [j hj|A EA HA] := @racc_sum nat f (fun j => oscale (ng_coef (mmul n0 (mmul n0 ci P) ci i j))%:C (opQ (hof x) j))
   (iota 0 (x_n x)) None.
  rewrite /f (fo_Q F) -map_comp (nth_map 0%N) ?size_iota; last by move/In_mem: hj; rewrite mem_iota.
  by rewrite nth_iota //; move/In_mem: hj; rewrite mem_iota.
rewrite EA; exists (oneg A) => // a b.
have -> : opt_entry (oneg A) a b = - oent A a b by case: (A) => [B|] /=; rewrite ?mulN1r ?oppr0.
rewrite HA [oent None a b]/= add0r sum_iota; congr (- _); apply: eq_bigr => j _; congr (_%:C * _).
have hj : ((j : nat) < n0)%N by rewrite /n0 -full.
rewrite (ofME _ (Ordinal hi) (Ordinal hj)) -[X in ng_coef X](mxE matrix_key (fun i j : 'I_n0 => mmul n0 _ _ i j) (Ordinal hi) (Ordinal hj)).
by rewrite -[\matrix[_]_(_, _) _]/(toM n0 n0 (mmul _ _ _)) !toM_mmul Hci.
Qed.
End Cap.

(** *** Inductors *)
Section Ind.
Variable el : nat.
Hypothesis kel : ekind s el = KInd.
Hypothesis nz : evalue s el <> 0.
Hypothesis pl : exists e els, List.In (e, els) (x_dict x) /\ List.In el els.

Lemma ind_gradP : exists2 P, reported_grad s x (CEl el) None = Ok P &
  (exists r, Rlt 0 r /\ forall v, Rlt (Rabs (Rminus v (evalue s el))) r -> exists p, mats_at optim s x el v = Ok p) /\
  forall a b, (a < total (hof x))%N -> (b < total (hof x))%N ->
    cderiv (fun v => flux_energy optim s x el v a b) (evalue s el) (opt_entry P a b).
Proof.
have [s' [lobj [[E1 [E2 E3]] H]]] := sy_lcwb Sy.
have [P EP] : exists P, c_pm (x_c x) el = Some P.
  have : c_pm (x_c x) el <> None.
    apply: (pm_entries _ _ _ _ _ _ _ _ H).2; have [e [els [h1 h2]]] := pl.
    by exists e, els, el; do 2!split=> //; left; rewrite E1 kel.
  by case: c_pm => // P _; exists P.
have SP i j : (i < n0)%N -> (j < n0)%N -> P i j = P j i.
  by move=> /ltP hi /ltP hj; have := pm_sym _ _ _ _ _ _ _ el H i j hi hj; rewrite EP.
have Se : same_elements s s' by [].
have [[r [r0 Hr]] HL] := ind_line _ _ _ _ _ _ (c_lobj (x_c x)) _ _ _ H Se kel inductive_capP nz.
have [M [EM FM Fl]] := fresh_after.
have kF k : List.In k [seq k <- c_keys_ind (x_c x) | k.1.2 == el] -> List.In k (c_keys_ind (x_c x)) /\ k.1.2 = el.
  by move=> /filter_In [h /eqP].
pose A := ind_grad x P.
pose D := fun i j => - P i j.
pose Sm := toM n0 n0 (t_S (x_st x)).
have HA i j : (i < n0)%N -> (j < n0)%N -> A i j = ofM (Sm^T *m toM n0 n0 D *m Sm) i j.
  move=> hi hj; rewrite (ofME _ (Ordinal hi) (Ordinal hj)) /A /ind_grad.
  rewrite -[mmul _ _ _ i j](mxE matrix_key (fun i j : 'I_n0 => mmul n0 _ _ i j) (Ordinal hi) (Ordinal hj)).
  rewrite -[\matrix[_]_(_, _) _]/(toM n0 n0 (mmul _ _ _)) !toM_mmul toM_tr -/Sm.
  have -> : toM n0 n0 D = - toM n0 n0 P by apply/matrixP => k l; rewrite !mxE.
  by rewrite mulmxN mulNmx [in RHS]mxE.
have SA i j : (i < hn (hof x))%N -> (j < hn (hof x))%N -> A i j = A j i.
  rewrite -[hn (hof x)]/(t_n (x_st x)) full => hi hj; rewrite !HA //.
  rewrite (ofME _ (Ordinal hi) (Ordinal hj)) (ofME _ (Ordinal hj) (Ordinal hi)).
  set B := _ *m _; have SB : B^T = B; last by rewrite -{1}SB mxE.
  rewrite /B !trmx_mul trmxK.
  have -> : (toM n0 n0 D)^T = toM n0 n0 D by apply/matrixP => k l; rewrite !mxE /D SP.
  by rewrite !mulmxA.
have EG : quad_phi (put_mem x M (x_LC x)) A = Ok (quadratic_phi (hof x) A) := quad_phiP A FM.
rewrite /reported_grad EM /partial_H kel /= EP -/A EG.
set f := (X in racc X).
have [k hk|B EB HB] := @racc_sum _ f (fun k => oscale (- d_ind_coef (evalue s el) (ext_flux (loop_vals s x) (x_B x) k.2))%:C
     (if coupling_op (hof x) (Some Inductive_) k.1.1 is Ok A then A else ozero 0))
   [seq k <- c_keys_ind (x_c x) | k.1.2 == el] (quadratic_phi (hof x) A).
  have [hk1 hk2] := kF _ hk; case: k hk hk1 hk2 => [[e el'] b] hk hk1 hk2; rewrite [el']hk2 in hk1.
  by have [C0 EC EM'] := fl_ind Fl hk1; rewrite /f /fetch EM'; cbn [fst snd rscale]; rewrite EC.
exists B => //; split.
  exists r; split=> // v /Hr [cv Ev]; rewrite /mats_at -[with_value s el v]/(upd_value s el v) Ev; by eexists.
move=> a b ha hb; rewrite -[opt_entry B a b]/(oent B a b) HB /flux_energy flux_form //; apply: cd_add.
  apply: cd_form => i j; rewrite /x_n full => hi hj; rewrite HA //.
  rewrite (ofME _ (Ordinal hi) (Ordinal hj)).
  apply: (hd_ext (fun v => (Sm^T *m L_at optim s x el v *m Sm) (Ordinal hi) (Ordinal hj))).
    by move=> v; rewrite /flux_coef (ofME _ (Ordinal hi) (Ordinal hj)).
  apply: hd_sandwich => k l; have := HL k l; rewrite mxE EP; apply: hd_ext => v.
  rewrite /L_at /mats_at -[with_value s el v]/(upd_value s el v).
  by case: get_LCWB => [cv|e]; rewrite !mxE.
rewrite big_filter.
have -> : \sum_(k <- c_keys_ind (x_c x) | k.1.2 == el) ent (oscale (- d_ind_coef (evalue s el) (ext_flux (loop_vals s x) (x_B x) k.2))%:C
     (if coupling_op (hof x) (Some Inductive_) k.1.1 is Ok A then A else ozero 0)) a b =
  \sum_(k <- c_keys_ind (x_c x)) ((if k.1.2 == el then - d_ind_coef (evalue s el) (ext_flux (loop_vals s x) (x_B x) k.2) else 0)%:C
     * res_entry (coupling_op (hof x) (Some Inductive_) k.1.1) a b).
  rewrite big_mkcond; apply: eq_bigr => k _; case: eqP => _; last by rewrite cR0 mul0r.
  by case: (coupling_op _ _ _) => [C0|e]; cbn [ent oscale res_entry]; rewrite // mulr0.
apply: cd_sum => k _ _; apply: cd_scaler; apply: cd_real.
rewrite -[[seq lvalue s l | l <- _]]/(loop_vals s x); cbn [evalue with_value].
case: eqP => [E|/eqP ne].
  have -> : Nat.eqb k.1.2 el by apply/Nat.eqb_spec.
  exact: hd_ind_coef.
have -> : Nat.eqb k.1.2 el = false by apply/Nat.eqb_neq/eqP.
exact: hd_const.
Qed.
End Ind.
End Caps.

(** ** Sessions *)
Section Session.
Variables (disp : nat -> C -> op) (optim : bool).

Lemma synced_mats s x x' : synced optim s x -> x_fd x' = x_fd x -> x_st x' = x_st x -> x_dict x' = x_dict x ->
  x_c x' = x_c x -> x_C x' = x_C x -> synced optim s x'.
Proof. by case=> H1 H2 H3 H4 E1 E2 E3 E4 E5; split; rewrite ?E1 ?E2 ?E3 ?E4 ?E5. Qed.

Lemma built_unit o s fd d n lobj c B st : built optim o s fd d n lobj c B st -> toM n n (c_C c) \in unitmx.
Proof. by case=> st0 [_ _ Ei _]; move: Ei; rewrite /t_init; case E: inv => [ci|] // _; have [] := invP E. Qed.

Lemma built_cI o s fd d n lobj c B st : built optim o s fd d n lobj c B st ->
  toM n n (t_cI st) = (toM n n (t_R st))^T *m invmx (toM n n (c_C c)) *m toM n n (t_R st).
Proof.
case=> st0 [_ _ Ei /transform_runE Et]; have [H1 H2 H3 _ _] := canonical_init Ei.
by have [] := transform_frame Et (And3 H1 H2 H3).
Qed.

Lemma synced_construct o s lobj fd d x : construct optim o s lobj fd d = Some (Ok x) -> synced optim s x.
Proof.
move=> /constructP [n [c [B [st [Hb [_ ->]]]]]]; have [E0 _ _] := built_size Hb.
have E : t_n0 (finish_modes optim st) = n.
  by rewrite /finish_modes; case: ifP => // _; have [idx [_ _ _ [_ _ _ _ [_ [-> _]]]]] := TransProofs6.removal st.
split=> //=; rewrite E; last 2 first.
- exact: built_unit Hb.
- have [_ E1 _] := built_size Hb; rewrite -E1 => /finish_id ->; rewrite E1; exact: built_cI Hb.
by case: Hb => st0 [Ec _ _ _]; exists s, lobj.
Qed.

Lemma synced_update o s x x' : update disp optim o s x = Some (x', None) -> synced optim s x'.
Proof.
move=> /update_okP [c [B [st [Hb [_ ->]]]]]; have [E0 _ _] := built_size Hb.
split=> //=; rewrite E0; last 2 first.
- exact: built_unit Hb.
- by move=> _; exact: built_cI Hb.
by case: Hb => st0 [Ec _ _ _]; exists s, (c_lobj (x_c x)).
Qed.

Lemma synced_step (b : bool) w c w1 r : (b -> synced optim (w_s w) (w_x w)) -> step disp optim w c = Some (w1, r) ->
  ~~ update_failed optim w c r -> sync_step optim b c r -> synced optim (w_s w1) (w_x w1).
Proof.
case: w => s u x; case: c => [nums|m a|m a|c p|u'|vs o|o| |eigs argsort k|rd] /= Hb.
- rewrite /set_trunc; case: nums => [l|]; [case: ifP => _; [|case: mem_err => [e|]]|] => -[<- _] _ /Hb H //=;
  exact: synced_mats H _ _ _ _ _.
- rewrite /set_offset; case: island_of => [i|]; last by case=> <- _ _ /Hb.
  by case: ifP => _; [|case: mem_err => [e|]] => -[<- _] _ /Hb H; exact: synced_mats H _ _ _ _ _.
- by rewrite /set_charge_noise; case: island_of => [i|] -[<- _] _ /Hb H; [exact: synced_mats H _ _ _ _ _|].
- by case: c => [el|l] // [<- _] _ /Hb [[s' [lobj [[E1 [E2 E3]] H]]] H2 H3 H4]; split=> //=; exists s', lobj.
- by case=> <- _ _ /Hb.
- rewrite /set_params; case Eo: (~~ optim).
    by case=> <- <- _ /=; rewrite andbT => /Hb.
  move: Eo => /negbFE Eo; have := assignE [seq q.1 | q <- c_params (x_c x)] vs s.
  case: assign => s1 e /= ->; rewrite size_map; case: ifP => Hle; last by case=> <- <- _ /=; rewrite andbF.
  case EU: CircuitSM.update => [[x1 [e1|]]|] // [<- <-] /=; first by rewrite andbF.
  by move=> _ _; apply: synced_update EU.
- case EU: CircuitSM.update => [[x1 [e1|]]|] // [<- <-] //= _ _; exact: synced_update EU.
- rewrite /hamil; case: ifP => _; [|case: foldl => M h] => -[<- _] _ /Hb H //; exact: synced_mats H _ _ _ _ _.
- rewrite /diag_sm; case: ifP => _; first by case=> <- _ _ /Hb.
  case: k => [k|]; last by case=> <- _ _ /Hb.
  rewrite /hamil; case: ifP => _; [|case: foldl => M h]; case: diag => e h' -[<- _] _ /Hb H;
  exact: synced_mats H _ _ _ _ _.
- by case=> <- _ _ /Hb.
Qed.

Lemma synced_session cs : forall (b : bool) w tr, (b -> synced optim (w_s w) (w_x w)) ->
  run disp optim w cs = Some tr -> updates_ok optim w cs tr -> in_sync optim b cs tr ->
  synced optim (w_s (final w tr)) (w_x (final w tr)).
Proof.
elim: cs => [|c cs IH] b w tr Hb; first by case=> <- _ /Hb.
move=> /run_cons [w1 [r [tr' [Es Er ->]]]] /andP [Hu Hus] /= Hs.
rewrite /final /=; apply: (IH (sync_step optim b c r) w1 tr' _ Er Hus Hs) => h.
exact: synced_step Hb Es Hu h.
Qed.
End Session.

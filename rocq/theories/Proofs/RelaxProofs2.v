(** RelaxProofs2.v -- the relaxation rates have gradients. *)
From Coq Require Import Reals ZArith String Lra.
From Verif.Spec Require Import ThermalSpec.
From Verif.Proofs Require Import ThermalProofs CDeriv.
From Verif.Model Require Import Base Units Noise Edge Elements LCWB HamConst PartialConst Thermal RateConst.
From mathcomp Require Import all_ssreflect all_algebra.
From mathcomp Require Import complex ring.
From Verif.Numerics Require Import RStruct Bridge.
From Verif.Model Require Import Transform Op Ham Diag CircuitSM Partial DecRate.
From Verif.Spec Require Import OpSpec GradSpec PerturbSpec DecSpec RateGradSpec EigGradSpec RelaxSpec.
From Verif.Proofs Require Import OpProofs HamProofs HamProofs2 SMProofs MemProofs GradProofs PerturbProofs PerturbProofs2
  SecondOrder RateGradProofs RateGradProofs2 RateGradProofs3 RateGradProofs4 DecProofs DecProofs2 DecProofs3 GradCalc EigGradProofs HalfProofs RelaxProofs.

Set Implicit Arguments.
Unset Strict Implicit.
Unset Printing Implicit Defensive.
Import GRing.Theory.
Local Open Scope ring_scope.
Local Open Scope complex_scope.


Section Two.
Variables (m n : nat) (t0 om0 : R).
(** Near the value and the transition frequency. *)
Definition near2 (P : R -> (nat -> R) -> (nat -> nat -> C) -> Prop) : Prop :=
  exists r, Rlt 0 r /\ forall t w v, Rlt (Rabs (Rminus t t0)) r ->
    Rlt (Rabs (Rminus (abs_diff (w n) (w m)) om0)) r -> P t w v.
Lemma near2_mono (P Q : R -> (nat -> R) -> (nat -> nat -> C) -> Prop) : (forall t w v, P t w v -> Q t w v) -> near2 P -> near2 Q.
Proof. by move=> PQ [r [r0 H]]; exists r; split=> // t w v h1 h2; apply: PQ; apply: H. Qed.
Lemma near2_and P Q : near2 P -> near2 Q -> near2 (fun t w v => P t w v /\ Q t w v).
Proof.
move=> [r [r0 H]] [q [q0 K]]; exists (Rmin r q); split; first exact: Rmin_glb_lt.
by move=> t w v h1 h2; split; [apply: H|apply: K]; apply: Rlt_le_trans; eauto; first [exact: Rmin_l|exact: Rmin_r].
Qed.
Lemma near2_time Q : near t0 Q -> near2 (fun t _ _ => Q t).
Proof. by move=> [r [r0 H]]; exists r; split=> // t w v h1 _; apply: H. Qed.
Lemma near2_freq Q : near om0 Q -> near2 (fun _ w _ => Q (abs_diff (w n) (w m))).
Proof. by move=> [r [r0 H]]; exists r; split=> // t w v _ h1; apply: H. Qed.
Lemma near2_all (P : R -> (nat -> R) -> (nat -> nat -> C) -> Prop) : (forall t w v, P t w v) -> near2 P.
Proof. by move=> H; exists 1; split; [exact: Rlt_0_1|]. Qed.
End Two.

Section Fold.
Variables (M N m n : nat) (t0 : R) (w0 : nat -> R) (v0 : nat -> nat -> C).
Let om0 := abs_diff (w0 n) (w0 m).
Let hg := has_grads M N t0 w0 v0.
Definition good_term (f : R -> (nat -> R) -> (nat -> nat -> C) -> res (option R)) : Prop :=
  exists F, hg F /\ near2 m n t0 om0 (fun t w v => f t w v = Ok (Some (F t w v))).
Lemma good_zero f : near2 m n t0 om0 (fun t w v => f t w v = Ok (Some 0)) -> good_term f.
Proof. by move=> H; exists (fun _ _ _ => 0); split=> //; exact: (hg_time _ _ _ _ (hd_const 0 t0)). Qed.
Lemma good_fold (K : Type) (l : seq K) (f : K -> R -> (nat -> R) -> (nat -> nat -> C) -> res (option R)) :
  (forall k, List.In k l -> good_term (f k)) ->
  exists F, hg F /\ near2 m n t0 om0 (fun t w v => forall a,
    foldl (rate_add (fun k => f k t w v)) (Ok (Some a)) l = Ok (Some (a + F t w v))).
Proof.
elim: l => [|k l IH] H.
  exists (fun _ _ _ => 0); split; first exact: (hg_time _ _ _ _ (hd_const 0 t0)).
  by apply: near2_all => t w v a; rewrite addr0.
have [F [gF nF]] := H k (or_introl erefl).
have [G [gG nG]] := IH (fun j hj => H j (or_intror hj)).
exists (fun t w v => F t w v + G t w v); split; first exact: hg_add.
apply: near2_mono (near2_and nF nG) => t w v [h1 h2] a; cbn [foldl].
have -> : rate_add (fun k => f k t w v) (Ok (Some a)) k = Ok (Some (a + F t w v)) by rewrite /rate_add; cbn [bind]; rewrite h1.
by rewrite h2 addrA.
Qed.
End Fold.

Section Grads.
Variables (disp : nat -> C -> op) (E : env) (q : quality) (s : store) (x : circ) (c : LCWB.comp).
Hypothesis dims : forall m a, dim (disp m a) = m.
Hypothesis Rg : regular disp s x.
Variables (dt : dec_type) (m n : nat) (total : bool) (M : nat).
Hypothesis Ht : thermal_type (Some dt).
Hypothesis hm : (m < M)%N.
Hypothesis hn : (n < M)%N.
Variables (w0 : nat -> R) (v0 : nat -> nat -> C).
Hypothesis wmn : w0 n <> w0 m.
Let N := HamProofs.total (hof x).
Let t0 := comp_value s c.
Let om0 := abs_diff (w0 n) (w0 m).
Hypothesis Hth : smooth_thermal (Noise.T E) om0.
Hypothesis Hsm : smooth s q (Noise.T E) om0 dt.
Variable r : R.
Hypothesis rep : rate_at E q s x c dt m n total t0 (results M w0 v0) = Ok (Some r).
Let loss := rate_loss E q s x c dt m n total M.
Let Rt t : regular disp (changed s c t) x.
Proof. by apply: regular_store Rg _; apply: changed_kind. Qed.
Let mn : m != n.
Proof. by apply/eqP => Emn; apply: wmn; rewrite Emn. Qed.
Let tS (w : nat -> R) := omap (temp_factor total (Z.of_nat m) (Z.of_nat n)) (thermal E (abs_diff (w n) (w m))).
Let om (w : nat -> R) := abs_diff (w n) (w m).

Lemma rate_atE t w v : rate_at E q s x c dt m n total t (results M w v) =
  let X := put_eig (hamil (changed s c t) x).1 (results M w v) in
  match dt with
  | DCap => foldl (rate_add (cap_term (changed s c t) q X (tS w) (om w) (Z.of_nat m) (Z.of_nat n))) (Ok (Some 0)) (placements x)
  | DInd => foldl (rate_add (fun k => ind_rate (changed s c t) q (Noise.T E) (tS w) (om w) (v m) (v n) (k.1.2, flux_op x k.1.1)))
              (Ok (Some 0)) (c_keys_ind (x_c x))
  | DQp => foldl (rate_add (fun k => qp_rate (changed s c t) q (Noise.T E) (tS w) (om w) (v m) (v n) (k.1.1.2, half_op disp (changed s c t) x k)))
              (Ok (Some 0)) (c_keys_jj (x_c x))
  | _ => Ok None
  end.
Proof.
have [/negbTE f0 _ [a1 a2 a3 a4]] := reads_results (hamil (changed s c t) x).1 w v hm hn.
have [h1 _ h2 _ h3] := mems (Rt t).
rewrite /rate_at /dec_rate -[x_eig (put_eig _ _)]/(results M w v) f0 a1 a2 a3 a4; cbn [bind]; rewrite -/(om w) -/(tS w).
have FM (K L : Type) (g : K -> L) (f : L -> res (option R)) l : forall a,
    foldl (rate_add f) a [seq g k | k <- l] = foldl (rate_add (fun k => f (g k))) a l.
  by elim: l => //= k l IH a; rewrite IH.
case: dt Ht => // _.
- by rewrite -[placements (put_eig _ _)]/(placements (hamil (changed s c t) x).1) h1.
- by rewrite -[ind_mem (put_eig _ _)]/(ind_mem (hamil (changed s c t) x).1) h2 FM.
- by rewrite -[half_mem (put_eig _ _)]/(half_mem (hamil (changed s c t) x).1) h3 FM.
Qed.

(** The thermal weight, the values and the matrix elements. *)
Lemma weight_near : exists f d, has_derivative f om0 d /\ near2 m n t0 om0 (fun _ w _ => tS w = Some (f (om w))).
Proof.
have p : Rlt R0 om0 by apply: Rabs_pos_lt => /Rminus_diag_uniq /wmn.
have [f [d [e [e0 [D H]]]]] := thermal_smooth E total (Z.of_nat m) (Z.of_nat n) _ p Hth.
exists f, d; split=> //; apply: (@near2_freq m n t0 om0 (fun u => omap (temp_factor total (Z.of_nat m) (Z.of_nat n)) (thermal E u) = Some (f u))); exists e; split=> // u /H; exact.
Qed.
Lemma value_deriv el : exists d, has_derivative (fun t => evalue (changed s c t) el) t0 d.
Proof.
eexists; apply: hd_ext (amp_deriv 1 s c el) => u; by rewrite Rmult_1_l.
Qed.
Lemma value_here el : evalue (changed s c t0) el = evalue s el.
Proof. by rewrite changed_same. Qed.
Lemma hg_inner (A : R -> op) A' : (forall t, dim (A t) = N) ->
  (forall i j, cderiv (fun t => ent (A t) i j) t0 (A' i j)) ->
  has_grads M N t0 w0 v0 (fun t _ v => abs2 (inner (v m) (A t) (v n))).
Proof.
move=> dA D; have H := hg_abs2 (A := fun t => ent (A t)) w0 v0 hm hn mn (N := N) (fun i j _ _ => D i j).
have e t v : abs2 (inner (v m) (A t) (v n)) = abs2 (dot N (v m) (apply_to N (ent (A t)) (v n))).
  by rewrite PerturbProofs.innerE dA.
apply: (hg_near _ _ H); first by case: H => H _ w v ew ev; rewrite !e; exact: (H w v ew ev).
move=> w v dw _ _; exists 1; split; [exact: Rlt_0_1|move=> t _; by rewrite -(e t (fun k => v k t))].
Qed.

Let good := good_term M N m n t0 w0 v0.
Let near' := near2 m n t0 om0.
Lemma cap_good k : dt = DCap -> List.In k (placements x) ->
  good (fun t w v => cap_term (changed s c t) q (put_eig (hamil (changed s c t) x).1 (results M w v)) (tS w) (om w)
    (Z.of_nat m) (Z.of_nat n) k).
Proof.
move=> Edt hk; have Hsm' := Hsm; rewrite Edt in Hsm'.
have := rep; rewrite rate_atE Edt => /fold_val [/(_ k hk) Hr _].
have Ec t : cap_of_el (changed s c t) k.2 = cap_of_el s k.2 by rewrite /cap_of_el changed_kind; case: (c).
case EQ: (q_cap q (cap_of_el s k.2)) => [Q|]; last first.
  by apply: good_zero; apply: near2_all => t w v; rewrite /cap_term Ec EQ.
have ME t w v : matrix_elements (put_eig (hamil (changed s c t) x).1 (results M w v)) (Some Capacitive) k.1 (Z.of_nat m) (Z.of_nat n) =
    bind (coupling_op (hof x) (Some Capacitive) k.1) (fun A => Ok (inner (v m) A (v n))).
  have [_ /negbTE f0 [_ _ a3 a4]] := reads_results (hamil (changed s c t) x).1 w v hm hn.
  have [_ h1 _ _ _] := mems (Rt t).
  rewrite /matrix_elements -[x_eig (put_eig _ _)]/(results M w v) f0 a3 a4; cbn [bind].
  by rewrite -[coupling_cap (put_eig _ _) _]/(coupling_cap (hamil (changed s c t) x).1 k.1) h1.
case EA: (coupling_op (hof x) (Some Capacitive) k.1) => [A|e]; last first.
  by move: Hr; rewrite /cap_term Ec EQ ME EA.
have dA : dim A = N by have [_ [_ _ d _ _]] := couplingP EA.
have [f [df [Df nf]]] := weight_near; have [Q0 [dQ DQ]] := Hsm' _ _ EQ.
have [dv Dv] := value_deriv (cap_of_el s k.2).
exists (fun t w v => f (om w) * evalue (changed s c t) (cap_of_el s k.2) * Rinv (Q (om w)) * abs2 (inner (v m) A (v n))).
split.
  apply: hg_mul; last by apply: (hg_inner (A := fun=> A)) (fun=> dA) (fun _ _ => cd_const _ _).
  apply: hg_mul; last exact: (hg_freq N t0 v0 hm hn (f := fun u => Rinv (Q u)) wmn (hd_inv _ _ _ DQ Q0)).
  apply: hg_mul; first exact: (hg_freq N t0 v0 hm hn wmn Df).
  exact: hg_time Dv.
have nQ := near2_freq m n t0 (near_neq0 DQ Q0).
apply: near2_mono (near2_and nf nQ) => t w v [-> hQ]; rewrite /cap_term Ec EQ ME EA; cbn [bind with_factor].
by rewrite /fdiv; case: eqP => // _; rewrite RinvE.
Qed.
Lemma ind_good k : dt = DInd -> List.In k (c_keys_ind (x_c x)) ->
  good (fun t w v => ind_rate (changed s c t) q (Noise.T E) (tS w) (om w) (v m) (v n) (k.1.2, flux_op x k.1.1)).
Proof.
move=> Edt hk; have Hsm' := Hsm; rewrite Edt in Hsm'.
case: (Hsm' k.1.2) => [nN|[v0' [Q [dQ [nQ DQ Q0]]]]].
  by apply: good_zero; apply: near2_mono (near2_freq m n t0 nN) => t w v h; rewrite /ind_rate h.
have [_ _ _ h3 _] := mems Rg.
have dA : dim (flux_op x k.1.1) = N by have /couplingP [_ [_ _ d _ _]] := h3 k hk.
have [f [df [Df nf]]] := weight_near; have [dv Dv] := value_deriv k.1.2.
have v0'' : evalue (changed s c t0) k.1.2 <> 0 by rewrite value_here.
exists (fun t w v => f (om w) * Rinv (Q (om w)) * Rinv (evalue (changed s c t) k.1.2) * abs2 (inner (v m) (flux_op x k.1.1) (v n))).
split.
  apply: hg_mul; last by apply: (hg_inner (A := fun=> flux_op x k.1.1)) (fun=> dA) (fun _ _ => cd_const _ _).
  apply: hg_mul; last exact: (hg_time M N w0 v0 (hd_inv _ _ _ Dv v0'')).
  apply: hg_mul; first exact: (hg_freq N t0 v0 hm hn wmn Df).
  exact: (hg_freq N t0 v0 hm hn (f := fun u => Rinv (Q u)) wmn (hd_inv _ _ _ DQ Q0)).
have n0 := near2_freq m n t0 (near_neq0 DQ Q0).
have n1 := near2_time m n om0 (near_neq0 Dv v0'').
have n2 := near2_freq m n t0 nQ.
apply: near2_mono (near2_and (near2_and nf n2) (near2_and n0 n1)) => t w v [[-> hQ] [hQ0 hv]].
rewrite /ind_rate hQ; cbn [with_factor fst snd].
rewrite {1}/fdiv; case: eqP => // _; cbn [with_factor].
by rewrite /fdiv; case: eqP => // _; rewrite !RinvE.
Qed.

Lemma qp_good k : dt = DQp -> List.In k (c_keys_jj (x_c x)) ->
  good (fun t w v => qp_rate (changed s c t) q (Noise.T E) (tS w) (om w) (v m) (v n) (k.1.1.2, half_op disp (changed s c t) x k)).
Proof.
move=> Edt hk; have Hsm' := Hsm; rewrite Edt in Hsm'.
case: (Hsm' k.1.1.2) => [nN|[Y [dY [nY DY]]]].
  by apply: good_zero; apply: near2_mono (near2_freq m n t0 nN) => t w v h; rewrite /qp_rate h.
have dA t : dim (half_op disp (changed s c t) x k) = N.
  apply: (ops_dim dims (Rt t) (dt := DQp)); exists k.1.1.2.
  have [_ _ _ _ ->] := mems (Rt t); exact: (List.in_map (fun k => (k.1.1.2, half_op disp (changed s c t) x k))).
have [A' DA] := half_deriv disp s c k (rg_uniq Rg).
have [f [df [Df nf]]] := weight_near; have [dv Dv] := value_deriv k.1.1.2.
exists (fun t w v => f (om w) * Y (om w) * om w * evalue (changed s c t) k.1.1.2 * hbar *
  abs2 (inner (v m) (half_op disp (changed s c t) x k) (v n))).
split.
  apply: hg_mul; last exact: hg_inner dA DA.
  apply: hg_mul; last exact: (hg_time M N w0 v0 (hd_const hbar t0)).
  apply: hg_mul; last exact: (hg_time M N w0 v0 Dv).
  apply: hg_mul; last exact: (hg_freq N t0 v0 hm hn wmn (hd_id _)).
  apply: hg_mul; first exact: (hg_freq N t0 v0 hm hn wmn Df).
  exact: (hg_freq N t0 v0 hm hn wmn DY).
apply: near2_mono (near2_and nf (near2_freq m n t0 nY)) => t w v [-> hY].
by rewrite /qp_rate hY.
Qed.

(** The reported rate has gradients. *)
Lemma rate_grads : has_grads M N t0 w0 v0 loss.
Proof.
have hl : here M N t0 w0 v0 loss by move=> w v e1 e2; apply: (rate_looks E q c dims Rg total Ht hm hn).
have [F [gF nF]] : exists F, has_grads M N t0 w0 v0 F /\ near' (fun t w v => loss t w v = F t w v).
  have D : [\/ dt = DCap, dt = DInd | dt = DQp] by case: (dt) Ht => // _; constructor.
  case: D => Edt.
  - have [F [gF nF]] := good_fold (fun k => cap_good Edt (k := k)).
    exists F; split=> //; apply: near2_mono nF => t w v /(_ 0) h; rewrite add0r in h; rewrite /loss /rate_loss rate_atE Edt; exact: (congr1 rate_number h).
  - have [F [gF nF]] := good_fold (fun k => ind_good Edt (k := k)).
    exists F; split=> //; apply: near2_mono nF => t w v /(_ 0) h; rewrite add0r in h; rewrite /loss /rate_loss rate_atE Edt; exact: (congr1 rate_number h).
  - have [F [gF nF]] := good_fold (fun k => qp_good Edt (k := k)).
    exists F; split=> //; apply: near2_mono nF => t w v /(_ 0) h; rewrite add0r in h; rewrite /loss /rate_loss rate_atE Edt; exact: (congr1 rate_number h).
apply: (hg_near hl _ gF) => w v dw e1 d1; case: nF => e [e0 H].
have Dom := hd_abs_diff _ _ _ _ _ (d1 n hn) (d1 m hm).
have ne : w n t0 <> w m t0 by rewrite !e1.
have [de [de0 Hd]] := hd_cont _ _ _ _ (Dom ne) e0; rewrite !e1 // in Hd.
exists (Rmin e de); split; first exact: Rmin_glb_lt.
move=> t ht; symmetry; apply: H; first exact: Rlt_le_trans ht (Rmin_l _ _).
by apply: Hd; exact: Rlt_le_trans ht (Rmin_r _ _).
Qed.
End Grads.

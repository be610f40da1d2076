(** SystemCase2.v -- two coupled circuits: the two capacitors of SystemCase, with
    its three lowest states, and a single capacitor with its ground state. *)
From Coq Require Import Reals ZArith String Lra Lia.
From Verif.Model Require Import Base Units Settings Elements Edge LCWB Rounding Accuracy HamConst Trunc PartialConst.
From Verif.Spec Require Import GraphSpec CircuitSpec ThermalSpec.
From Verif.Proofs Require Import EdgeProofs LCWBProofs.

Lemma charge3 : charge_at 3 0 = (-1)%R /\ charge_at 3 1 = R0 /\ charge_at 3 2 = R1.
Proof. unfold charge_at; simpl; lra. Qed.
Lemma half_sq (x : R) : (x * -1 * (x * -1) = x * x /\ x * 0 * (x * 0) = 0)%R. Proof. lra. Qed.
Lemma half1 : halfR R1 = (/ 2)%R. Proof. unfold halfR; lra. Qed.
Lemma unit_pos : (0 < charge_unit)%R.
Proof.
unfold charge_unit; apply Rmult_lt_0_compat; [unfold e_charge; lra|].
apply Rinv_0_lt_compat, sqrt_lt_R0; unfold hbar; lra.
Qed.

Lemma unit_init : get_unit_freq ustate_init <> 0%R. Proof. unfold get_unit_freq; simpl; lra. Qed.

From mathcomp Require Import all_ssreflect all_algebra.
From mathcomp Require Import complex.
From mathcomp Require Import ring.
From Verif.Numerics Require Import RStruct Bridge.
From Verif.Model Require Import FluxDist Transform Op Ham Diag CircuitSM Partial System.
From Verif.Spec Require Import OpSpec EigSpec PerturbSpec TransSpec SessionSpec SystemSpec.
From Verif.Proofs Require Import OpProofs HamProofs HamProofs2 HamProofs3 HamProofs4 HamProofs6 SMProofs SMProofs3 SystemProofs SystemProofs2.
From Verif.Proofs Require Import SessionCase CapCase SystemCase.
From Verif.Properties Require Import P_Diag.

Set Implicit Arguments.
Unset Strict Implicit.
Unset Printing Implicit Defensive.
Import GRing.Theory.
Local Open Scope ring_scope.
Local Open Scope complex_scope.

(** ** Diagonal operators *)
Definition is_diag (N : nat) (A : op) (f : nat -> R) : Prop :=
  dim A = N /\ forall a b, (a < N)%N -> (b < N)%N -> ent A a b = if a == b then (f a)%:C else 0.

Lemma diag_mul N A B f g : is_diag N A f -> is_diag N B g -> is_diag N (omul A B) (fun a => f a * g a).
Proof.
move=> [dA HA] [dB HB]; split=> //= a b ha hb; rewrite dA (bigD1 (Ordinal ha)) //= big1 ?addr0; last first.
  by move=> k ne; rewrite HA // ifN ?mul0r // eq_sym; exact: ne.
by rewrite HA // eqxx HB //; case: eqP => [->|_]; rewrite ?mulr0 // cRM.
Qed.

Lemma diag_inner N A f v w : is_diag N A f ->
  inner (fun i => (v i)%:C) A (fun i => (w i)%:C) = (\sum_(i < N) v i * f i * w i)%:C.
Proof.
move=> [dA HA]; rewrite /inner dA rmorph_sum; apply: eq_bigr => i _; rewrite cjR.
rewrite (bigD1 i) //= big1 ?addr0; last by move=> k ne; rewrite HA // ifN ?mul0r // eq_sym; exact: ne.
by rewrite HA // eqxx -!cRM mulrA.
Qed.

Lemma diag_eigen N A f v z i : is_diag N A f -> (i < N)%N -> f i * v i = z * v i ->
  \sum_(j < dim A) ent A i j * (v j)%:C = z%:C * (v i)%:C.
Proof.
move=> [dA HA] hi E; rewrite dA (bigD1 (Ordinal hi)) //= big1 ?addr0; last first.
  by move=> k ne; rewrite HA // ifN ?mul0r // eq_sym; exact: ne.
by rewrite HA // eqxx -!cRM E.
Qed.

(** ** Charges of the two-capacitor circuit *)
Definition q_of (i a : nat) : R_ringType := charge_unit * charge_at 3 (if i == 0%N then a %/ 3 else a %% 3)%N.

Lemma iso_diag h i : (i < hn h)%N -> hm h i = 3%N -> hcharge h i -> h_ng h i = 0 ->
  is_diag 3 (charge_op_isolated h i) (fun k => charge_unit * charge_at 3 k).
Proof.
move=> hi m3 ch ng; rewrite /charge_op_isolated ch m3; split=> // a b ha hb.
cbn [ent oscale osub qcharge oeye odiag]; rewrite ng cR0 mul0r subr0.
by case: eqP => _; rewrite ?mulr0 // cRM.
Qed.

Lemma two_charges h i : hn h = 2%N -> hm h 0 = 3%N -> hm h 1 = 3%N -> hcharge h 0 -> hcharge h 1 ->
  h_ng h 0%N = 0 -> h_ng h 1%N = 0 -> (i < 2)%N -> is_diag 9 (opQ h i) (q_of i).
Proof.
move=> n2 m0 m1 c0 c1 g0 g1 hi; rewrite opQE n2 TS T1.
have [|d0 H0] := iso_diag _ m0 c0 g0; first by rewrite n2.
have [|d1 H1] := iso_diag _ m1 c1 g1; first by rewrite n2.
have E a b : (a == b) = (a %/ 3 == b %/ 3)%N && (a %% 3 == b %% 3)%N.
  apply/eqP/andP => [->|[/eqP e1 /eqP e2]] //; by rewrite (divn_eq a 3) (divn_eq b 3) e1 e2.
case: i hi => [|[|//]] _; rewrite /one_fam /=; split.
- by rewrite /= d0 m1.
- move=> a b ha hb; cbn [ent kron oeye odiag dim]; rewrite m1 H0 ?ltn_divLR // (E a b).
  by rewrite /q_of /=; case: (a %/ 3 == b %/ 3)%N; case: (a %% 3 == b %% 3)%N; rewrite /= ?mulr1 ?mulr0 ?mul0r.
- by rewrite /= d1 m0.
- move=> a b ha hb; cbn [ent kron oeye odiag dim]; rewrite d1 H1 ?ltn_mod // (E a b).
  by rewrite /q_of /=; case: (a %/ 3 == b %/ 3)%N; case: (a %% 3 == b %% 3)%N; rewrite /= ?mul1r ?mulr0 ?mul0r.
Qed.

Lemma half_sum2 A X : half_sum 2 A X =
  (halfR (A 0%N 0%N))%:C * X 0%N 0%N + (A 0%N 1%N)%:C * X 0%N 1%N + (halfR (A 1%N 1%N))%:C * X 1%N 1%N.
Proof.
rewrite /half_sum big_ord_recr big_ord1 big_mkcond big_ord_recr big_ord1 /=; congr (_ + _).
by rewrite big_mkcond big_ord_recr big_ord1 /= add0r.
Qed.

Lemma two_ham h A : hn h = 2%N -> hm h 0 = 3%N -> hm h 1 = 3%N -> hcharge h 0 -> hcharge h 1 ->
  h_ng h 0%N = 0 -> h_ng h 1%N = 0 -> toM 2 2 (t_cI (h_st h)) = 1%:M ->
  LC_hamil h = Some A -> is_diag 9 A (fun a => (q_of 0 a * q_of 0 a + q_of 1 a * q_of 1 a) * halfR 1).
Proof.
move=> n2 m0 m1 c0 c1 g0 g1 cI EA; have tot : total h = 9%N by rewrite /total n2 big_ord_recr big_ord1 /= m0 m1.
have D0 := two_charges n2 m0 m1 c0 c1 g0 g1 (isT : (0 < 2)%N).
have D1 := two_charges n2 m0 m1 c0 c1 g0 g1 (isT : (1 < 2)%N).
have cE i j : (i < 2)%N -> (j < 2)%N -> t_cI (h_st h) i j = if i == j then 1 else 0.
  move=> hi hj; have /matrixP /(_ (Ordinal hi) (Ordinal hj)) := cI; rewrite !mxE -(inj_eq val_inj) /= => ->.
  by case: eqP.
split; first by have := LC_ok h; rewrite EA tot => -[].
move=> a b ha hb; have EE := LC_entry (h := h) (a := a) (b := b); rewrite tot EA /= in EE.
rewrite EE // n2 [X in _ + X]big1 ?addr0; last by case=> [[|[|i]] hi] //=; rewrite -/(hcharge _ _) ?c0 ?c1.
rewrite half_sum2 !cE //= cR0.
rewrite mul0r addr0 /prodQ; have [_ ->] := diag_mul D0 D0 => //; have [_ ->] := diag_mul D1 D1 => //.
by case: eqP => _; rewrite ?mulr0 ?addr0 // -!cRM -cRD mulrDl ![_ * halfR 1]mulrC.
Qed.

(** ** The three lowest states: e_4, and two orthonormal vectors of the next level *)
Definition tw_t : R_ringType := 25%:R^-1.
Lemma tw_tE : 25%:R * tw_t = 1. Proof. by rewrite mulfV // Num.Theory.pnatr_eq0. Qed.
Definition tw_v (k i : nat) : R_ringType :=
  nth 0 (nth [::] [:: [:: 0; 0; 0; 0; 1; 0; 0; 0; 0];
                      [:: 0; 0; 0; 0; 0; 20%:R * tw_t; 0; 15%:R * tw_t; 0];
                      [:: 0; 20%:R * tw_t; 0; 0; 0; - (9%:R * tw_t); 0; 12%:R * tw_t; 0]] k) i.
Definition tw_E : R_ringType := charge_unit * charge_unit * halfR 1.
Definition tw_eigs : eigs_fun := fun _ _ _ => EigsOk [:: 0; tw_E%:C; tw_E%:C] (fun i k => (tw_v k i)%:C).

Lemma q_values : 
  [seq q_of 0 a | a <- iota 0 9] = [seq charge_unit * x | x <- [:: -1; -1; -1; 0; 0; 0; 1; 1; 1]] /\
  [seq q_of 1 a | a <- iota 0 9] = [seq charge_unit * x | x <- [:: -1; 0; 1; -1; 0; 1; -1; 0; 1]].
Proof.
have [c0 [c1 c2]] := charge3; rewrite /q_of /= c0 c1 c2.
by [].
Qed.

Lemma q_at i a : (a < 9)%N -> q_of i a = charge_unit * nth 0 (if i == 0%N then [:: -1; -1; -1; 0; 0; 0; 1; 1; 1]
  else [:: -1; 0; 1; -1; 0; 1; -1; 0; 1]) a.
Proof.
move=> ha; have [q0 q1] := q_values.
have E l (f : nat -> R) : [seq f a | a <- iota 0 9] = [seq charge_unit * x | x <- l] -> size l = 9%N ->
    f a = charge_unit * nth 0 l a.
  move=> El sl; have := congr1 (fun l => nth 0 l a) El.
  by rewrite (nth_map 0%N) ?size_iota // nth_iota // (nth_map 0) ?sl.
by case: i => [|i]; [exact: (E _ (q_of 0))|exact: (E _ (q_of i.+1))].
Qed.

(** The charges between the three states. *)
Definition tw_Q (i : nat) (k l : nat) : R_ringType := \sum_(a < 9) tw_v k a * q_of i a * tw_v l a.
Lemma tw_QE :
  [/\ tw_Q 0 1 1 = charge_unit * (225%:R * (tw_t * tw_t)), tw_Q 0 1 2 = charge_unit * (180%:R * (tw_t * tw_t)) &
      tw_Q 0 2 2 = charge_unit * (- 256%:R * (tw_t * tw_t))] /\
  [/\ tw_Q 1 1 1 = charge_unit * (400%:R * (tw_t * tw_t)), tw_Q 1 1 2 = charge_unit * (- 180%:R * (tw_t * tw_t)) &
      tw_Q 1 2 2 = charge_unit * (81%:R * (tw_t * tw_t))].
Proof.
by split; split; rewrite /tw_Q !big_ord_recr big_ord0 !q_at //= /tw_v /=; move: tw_t charge_unit => t c; ring.
Qed.
Lemma tw_Q0 i k l : (i < 2)%N -> (k < 3)%N -> (l < 3)%N -> (k == 0%N) || (l == 0%N) -> tw_Q i k l = 0.
Proof.
by case: i => [|[|//]] _; case: k => [|[|[|//]]] _; case: l => [|[|[|//]]] _ //= _;
  rewrite /tw_Q !big_ord_recr big_ord0 !q_at //= /tw_v /=; move: tw_t charge_unit => t c; ring.
Qed.
Lemma tw_ortho k l : (k < 3)%N -> (l < 3)%N -> \sum_(a < 9) tw_v k a * tw_v l a = if k == l then 1 else 0.
Proof.
have E := tw_tE.
case: k => [|[|[|//]]] _; case: l => [|[|[|//]]] _ //=; rewrite !big_ord_recr big_ord0 /= /tw_v /=; move: tw_t E => t E; try ring.
- by transitivity ((25%:R * t) ^+ 2); [ring|rewrite E expr1n].
- by transitivity ((25%:R * t) ^+ 2); [ring|rewrite E expr1n].
Qed.

Lemma tw_noncommuting :
  tw_Q 0 1 1 * tw_Q 1 1 2 + tw_Q 0 1 2 * tw_Q 1 2 2 <> tw_Q 1 1 1 * tw_Q 0 1 2 + tw_Q 1 1 2 * tw_Q 0 2 2.
Proof.
have [[-> -> ->] [-> -> ->]] := tw_QE => /eqP; rewrite -subr_eq0; set a := (_ - _).
have t0 : tw_t == 0 = false.
  by apply/negbTE/eqP => E; have := tw_tE; rewrite E mulr0 => /eqP; rewrite eq_sym oner_eq0.
have c0 : charge_unit <> 0 by move=> E; have := unit_pos; rewrite E => /Rlt_irrefl.
rewrite {}/a; move: tw_t t0 charge_unit c0 => t t0 c c0; set a := (_ - _).
have -> : a = - (180%:R * 800%:R * (c * (t * t)) ^+ 2) by rewrite /a; ring.
by rewrite oppr_eq0 mulf_eq0 expf_eq0 !mulf_eq0 !Num.Theory.pnatr_eq0 /= t0 !orbF => /eqP.
Qed.

Lemma tw_E_pos : Rlt 0 tw_E.
Proof.
apply: Rmult_lt_0_compat; first by apply: Rmult_lt_0_compat; exact: unit_pos.
by rewrite half1; apply: Rinv_0_lt_compat; exact: Rlt_0_2.
Qed.
Lemma tw_argsort : argsort0 [:: 0; tw_E%:C; tw_E%:C] = [:: 0; 1; 2]%N.
Proof.
rewrite /argsort0 -[iota 0 _]/[:: 0; 1; 2]%N; apply: sorted_sort; first by move=> a b c; exact: cleb_trans.
by rewrite /= cleb_refl !andbT; apply/clebP; left; exact: tw_E_pos.
Qed.

(** No inductors and no junctions: the Hamiltonian is its LC part. *)
Lemma cap_ham disp s x : good disp x -> x_m x <> [::] -> (0 < x_n x)%N ->
  c_keys_ind (x_c x) = [::] -> c_keys_jj (x_c x) = [::] ->
  exists2 A, LC_hamil (hof x) = Some A & (hamil s x).2 = Ok A.
Proof.
move=> G m0 n0 ki kj; have [-> _] := hamilE s G.
have := LC_some (h := hof x) n0; case E: LC_hamil => [A|//] _; exists A => //.
rewrite /ham_of /hamiltonian -[h_m _]/(x_m x); case: eqP => [/size0nil //|_].
by rewrite /ind_hamil ki kj /= E.
Qed.

Lemma diag_ok disp eigs u s x A lam V k : good disp x -> x_m x <> [::] -> (hamil s x).2 = Ok A -> 
  eigs A k None = EigsOk lam V ->
  exists y r, [/\ diag_sm eigs argsort0 u (Some k) s x = (y, Ok r), x_eig y = sort_eigs argsort0 lam V,
    x_st y = x_st x, x_C y = x_C x & hof y = hof x /\ x_m y = x_m x].
Proof.
move=> G m0 EH Ee; rewrite /diag_sm; case: eqP => [/size0nil //|_].
have [_ [M [HM _]]] := hamilE s G; case: (hamil s x) EH HM => xh H /= -> -> /=.
by rewrite /diag /= /diag_np Ee; eexists; eexists; split; first by reflexivity.
Qed.


(** P_Symbolic.v -- C57: the Hamiltonian printed by description(). *)
From Coq Require Import Reals ZArith String Lra.
From Verif.Model Require Import Base Units Edge Elements LCWB Rounding Accuracy HamConst Symbolic.
Lemma EC_joule u c a b : Rlt 0 (get_unit_freq u) -> Rlt 0 hbar ->
  Rmult (Rmult (Rmult (Rmult 2 PI) (Rmult hbar (get_unit_freq u))) (hz_EC u c)) (Rmult a b) =
  Rmult c (Rmult (Rmult (Rmult 2 e_charge) a) (Rmult (Rmult 2 e_charge) b)).
Proof.
intros H K; unfold hz_EC; generalize dependent hbar; intros h K. assert (P := PI_RGT_0).
generalize dependent (get_unit_freq u); intros f H. field. repeat split; apply Rgt_not_eq; auto.
Qed.
Lemma half_ne0 : Rdiv 1 2 <> IZR 0. Proof. lra. Qed.
From Verif.Numerics Require Import Bridge.
From Verif.Proofs Require Import SymbolicProofs SymbolicProofs2.
From mathcomp Require Import all_ssreflect all_algebra.
From mathcomp Require Import complex.
From Verif.Numerics Require Import RStruct.
From Verif.Model Require Import Transform Op Ham CircuitSM.
From Verif.Spec Require Import GraphSpec NetSpec TransSpec OpSpec SymbolicSpec.
From Verif.Proofs Require Import OpProofs HamProofs HamProofs2 HamProofs3 HamProofs6.

Set Implicit Arguments.
Unset Strict Implicit.
Unset Printing Implicit Defensive.
Import GRing.Theory.
Local Open Scope ring_scope.
Local Open Scope complex_scope.

(** The printed expression, with the printed values of its symbols, is the
    Hamiltonian over h in units of the chosen frequency (coefficients of junctions
    and inductors rounded as printed) plus, for every two different charge modes,
    EC_ij (n_i - ng_i) (n_i - n_j). *)
Theorem C57_meaning disp u h val loops B ks k e A x y :
  (forall m a, dim (disp m a) = m) -> normal h ks k -> (0 < hn h)%N ->
  let D := descrip_vars u h val loops B ks in
  let v := reading_of disp D (hm h) 1 in
  construct_hamiltonian (t_n0 (h_st h)) D ks = Ok e ->
  hamiltonian disp (rounded h) val loops (roundedB B) ks = Ok A ->
  (x < v_dim v)%N -> (y < v_dim v)%N ->
  meaning v e x y = (in_unit u 1)%:C * ent A x y + (if x == y then cross_excess v k (hn h) x else 0).
Proof.
move=> dd nf n0 D v Ee EA hx hy.
by rewrite (printed_meaning dd nf 1 Ee EA) // subrr cR0 mul0r addr0 excessE.
Qed.
Print Assumptions C57_meaning.

(** With at most one charge mode the printed Hamiltonian is right. *)
Theorem C57_one_charge disp u h val loops B ks k e A x y :
  (forall m a, dim (disp m a) = m) -> normal h ks k -> (0 < hn h)%N -> (hn h <= k.+1)%N ->
  let D := descrip_vars u h val loops B ks in
  let v := reading_of disp D (hm h) 1 in
  construct_hamiltonian (t_n0 (h_st h)) D ks = Ok e ->
  hamiltonian disp (rounded h) val loops (roundedB B) ks = Ok A ->
  (x < v_dim v)%N -> (y < v_dim v)%N -> meaning v e x y = (in_unit u 1)%:C * ent A x y.
Proof.
move=> dd nf n0 hk D v Ee EA hx hy; rewrite (C57_meaning dd nf n0 Ee EA) //.
rewrite [cross_excess _ _ _ _]big1; first by rewrite if_same addr0.
move=> i ki; apply: big1 => j ij; have := ltn_ord j; rewrite ltnNge.
by rewrite (leq_trans hk) // (leq_ltn_trans ki).
Qed.
Print Assumptions C57_one_charge.

(** It is right exactly when no two charge modes are coupled by capacitance. *)
Theorem C57_iff disp u h val loops B ks k e A :
  (forall m a, dim (disp m a) = m) -> normal h ks k -> (0 < hn h)%N ->
  Rlt 0 (get_unit_freq u) ->
  (forall i, (i < hn h)%N -> (0 < hm h i)%N) -> (forall i, (k <= i < hn h)%N -> (1 < hm h i)%N) ->
  let D := descrip_vars u h val loops B ks in
  let v := reading_of disp D (hm h) 1 in
  construct_hamiltonian (t_n0 (h_st h)) D ks = Ok e ->
  hamiltonian disp (rounded h) val loops (roundedB B) ks = Ok A ->
  (forall x y, (x < v_dim v)%N -> (y < v_dim v)%N -> meaning v e x y = (in_unit u 1)%:C * ent A x y) <->
  (forall i j, (k <= i)%N -> (i < j < hn h)%N -> t_cI (h_st h) i j = 0).
Proof.
move=> dd nf n0 Hu m0 m1 D v Ee EA; split=> H.
  move=> i j ki /andP[ij hj]; apply: (EC_zero u _ Hu).
  have hi : (i < hn h)%N by apply: ltn_trans hj.
  apply: (@excess_cross u h k i j ki) => //; rewrite ?ij ?m1 ?ki ?hi ?hj // ?(leq_trans ki (ltnW ij)) //.
  move=> x hx; have := H x x hx hx; rewrite (C57_meaning dd nf n0 Ee EA) // eqxx excessE //.
  by rewrite -[X in _ = X]addr0 => /addrI.
move=> x y hx hy; rewrite (C57_meaning dd nf n0 Ee EA) // excessE //.
rewrite [excess _ _ _ _]big1; first by rewrite if_same addr0.
move=> i ki; apply: big1 => j ij; rewrite H ?ij ?ltn_ord //.
by rewrite [hz_EC u 0](EC_zero0 u) cR0 mul0r.
Qed.
Print Assumptions C57_iff.

(** Coefficients with few digits: the Hamiltonian itself. *)
Theorem C57_exact disp u h val loops B ks k e A x y :
  (forall m a, dim (disp m a) = m) -> normal h ks k -> (0 < hn h)%N ->
  (forall i j, np_round 3 (t_S (h_st h) i j) = t_S (h_st h) i j) ->
  (forall i j, np_round 6 (t_wT (h_st h) i j) = t_wT (h_st h) i j) ->
  (forall i j, np_round 2 (B i j) = B i j) ->
  let D := descrip_vars u h val loops B ks in
  let v := reading_of disp D (hm h) 1 in
  construct_hamiltonian (t_n0 (h_st h)) D ks = Ok e -> hamiltonian disp h val loops B ks = Ok A ->
  (x < v_dim v)%N -> (y < v_dim v)%N ->
  meaning v e x y = (in_unit u 1)%:C * ent A x y + (if x == y then cross_excess v k (hn h) x else 0).
Proof.
move=> dd nf n0 HS HW HB D v Ee; rewrite -{1}(rounded_same HS HW) -{1}(roundedB_same HB).
exact: C57_meaning.
Qed.
Print Assumptions C57_exact.

(** Otherwise a printed coefficient is off by at most half a unit of its last digit. *)
Theorem C57_rounding d x : 
  Rle (Rabs (Rminus (np_round d x) x)) (Rdiv (Rdiv (IZR 1) (IZR 2)) (pow (IZR 10) d)).
Proof. exact: np_round_near. Qed.
Print Assumptions C57_rounding.

(** Below the Hamiltonian omega_i / (2 pi) is printed next to the bare energies.
    Taken at its word (omega_i is 2 pi times that number) the printed Hamiltonian
    is wrong for every circuit with a harmonic mode. *)
Theorem C57_angular_refuted disp u h val loops B ks k e A :
  (forall m a, dim (disp m a) = m) -> normal h ks k -> (0 < k)%N ->
  Rlt 0 (get_unit_freq u) -> (forall i, (i < hn h)%N -> (0 < hm h i)%N) -> (1 < hm h 0)%N ->
  let D := descrip_vars u h val loops B ks in
  let v := reading_of disp D (hm h) twoPI in
  construct_hamiltonian (t_n0 (h_st h)) D ks = Ok e ->
  hamiltonian disp (rounded h) val loops (roundedB B) ks = Ok A ->
  ~ (forall x y, (x < v_dim v)%N -> (y < v_dim v)%N -> meaning v e x y = (in_unit u 1)%:C * ent A x y).
Proof.
move=> dd nf k0 Hu m0 m1 D v Ee EA H.
have n0 : (0 < hn h)%N by apply: leq_trans k0 (nf_le nf).
apply: (@omega_reading u h ks k nf twoPI k0 m0 m1 _ Hu) => [E|x hx].
  by apply: twoPI_ne1; rewrite -/twoPI -[Rminus _ _]/(twoPI - 1) E subrr.
have := H x x hx hx; rewrite (printed_meaning dd nf twoPI Ee EA n0 hx hx) eqxx -addrA.
by rewrite -[X in _ = X]addr0 => /addrI.
Qed.
Print Assumptions C57_angular_refuted.

(** The modes of a transformed circuit from which no mode is removed are normal. *)
Theorem C57_modes n m kj (C L W : arr) st0 croot lroot X U D0 eigL tries fuel sv order draw st ind jun mm ng Cm ks k :
  t_init n m kj C L W = Ok st0 ->
  root_of (toM n n C) (toM n n croot) -> root_of (toM n n L) (toM n n lroot) ->
  svd_of (toM n n lroot *m invmx (toM n n croot)) (toM n n X) (toM n n U) (toV n D0) ->
  transform_hamil croot D0 U eigL tries fuel sv order draw st0 = Some (Ok st) ->
  sing_locs n D0 eigL = iota (n - k) k -> (k <= n)%N ->
  (forall i, i \in sing_locs n D0 eigL -> D0 i = 0) ->
  network n m ind jun L W ->
  (forall q, List.In q (k_ind ks) -> List.In q.1.1 ind /\ proper n q.1.1) ->
  (forall q, List.In q (k_jj ks) -> (q.2 < m)%N) ->
  normal (mkH st mm ng Cm) ks (n - k).
Proof. exact: normal_of. Qed.
Print Assumptions C57_modes.

(** description() needs an entry of charge_islands for every charge mode. *)
Theorem C57_islands u s x k i : (k <= x_n x)%N ->
  (forall j, (j < x_n x)%N -> (t_om (x_st x) j == 0) = (k <= j)%N) ->
  (k <= i < x_n x)%N -> isl x i = None -> printed u s x = Err KeyError.
Proof.
move=> kn H /andP[ki ni] E; rewrite /printed /descrip_vars; cbn [dv_har dv_n].
rewrite (@count_first _ k) //; last by move=> j hj; rewrite H // ltnNge.
rewrite ifF //; apply/negbTE/allPn; exists i; last by rewrite E.
by rewrite mem_iota ki subnKC.
Qed.
Print Assumptions C57_islands.

(** C36: the printed energies E_C, in joule, add up over the pairs i <= j to the
    charge energy of every charge state [x] (numbers of Cooper pairs). *)
Theorem C36_description u h val loops B ks (x : nat -> R) : Rlt 0 (get_unit_freq u) ->
  (forall i j, (i < hn h)%N -> (j < hn h)%N -> t_cI (h_st h) i j = t_cI (h_st h) j i) ->
  let D := descrip_vars u h val loops B ks in
  let joule e := Rmult (Rmult (Rmult 2 PI) (Rmult hbar (get_unit_freq u))) e in
  let Q i := Rmult (Rmult 2 e_charge) (x i) in
  2%:R * (\sum_(i < hn h) \sum_(j < hn h | (i <= j)%N) joule (dv_EC D i j) * (x i * x j)) =
  \sum_(i < hn h) \sum_(j < hn h) t_cI (h_st h) i j * (Q i * Q j).
Proof.
move=> Hu S D joule Q.
have E : 2%:R * half_sum (hn h) (t_cI (h_st h)) (fun i j => (Q i * Q j)%:C) =
    \sum_(i < hn h) \sum_(j < hn h) (t_cI (h_st h) i j)%:C * (Q i * Q j)%:C.
  by apply: half_sumE => // i j _ _; rewrite mulrC.
have inj (a b : R) : a%:C = b%:C -> a = b by case.
apply: inj.
transitivity (2%:R * half_sum (hn h) (t_cI (h_st h)) (fun i j => (Q i * Q j)%:C)).
  rewrite rmorphM rmorph_nat rmorph_sum; congr (_ * _); apply: eq_bigr => i _.
  rewrite rmorph_sum; apply: eq_bigr => j _.
  transitivity ((quad_cI h i j)%:C * (Q i * Q j)%:C); last by rewrite /quad_cI; case: ifP.
  rewrite -cRM; congr (_%:C); exact (@EC_joule u (quad_cI h i j) (x i) (x j) Hu hbar_gt).
rewrite E rmorph_sum; apply: eq_bigr => i _; rewrite rmorph_sum; apply: eq_bigr => j _.
by rewrite -cRM.
Qed.
Print Assumptions C36_description.

(** Two charge modes joined by a capacitance, three charges each. *)
Definition two_isl : hin :=
  mkH (mkT 2 2 0 0 (fun _ _ => 0) eye eye (fun i j => if i == j then 1 else halfR 1)
           (fun _ _ => 0) (fun _ _ => 0) (fun=> 0)) [:: 3; 3]%N (fun=> 0) eye.
Lemma two_isl_normal : normal two_isl (mkKeys [::] [::]) 0.
Proof.
split=> // i _; exact: (eqxx (0 : R_ringType)).
Qed.
Theorem C57_refuted disp u : (forall m a, dim (disp m a) = m) -> Rlt 0 (get_unit_freq u) ->
  let ks := mkKeys [::] [::] in
  let D := descrip_vars u two_isl (fun=> 0) [::] (fun _ _ => 0) ks in
  exists e A, [/\ construct_hamiltonian 2 D ks = Ok e,
    hamiltonian disp two_isl (fun=> 0) [::] (fun _ _ => 0) ks = Ok A &
    ~ (forall x y, (x < 9)%N -> (y < 9)%N ->
        meaning (reading_of disp D (hm two_isl) 1) e x y = (in_unit u 1)%:C * ent A x y)].
Proof.
move=> dd Hu ks D.
have [A EA] : exists A, hamiltonian disp two_isl (fun=> 0) [::] (fun _ _ => 0) ks = Ok A.
  by apply: hamiltonian_total.
have zr d : np_round d 0 = 0 by exact: (np_round_z d Z0).
have Er : rounded two_isl = two_isl.
  apply: rounded_same => i j; last by rewrite zr.
  rewrite -[t_S _ i j]/(eye i j) /eye; case: eqP => _; [exact: (np_round_z 3 (Zpos xH))|exact: zr].
have EB : roundedB (fun _ _ => 0) = (fun _ _ => 0) by apply: roundedB_same => i j; apply: zr.
have [e Ee] : exists e, construct_hamiltonian 2 D ks = Ok e by eexists; reflexivity.
exists e, A; split=> // H.
have m1 i : (i < hn two_isl)%N -> (1 < hm two_isl i)%N by case: i => [|[|i]].
have EA' : hamiltonian disp (rounded two_isl) (fun=> 0) [::] (roundedB (fun _ _ => 0)) ks = Ok A.
  by rewrite Er EB.
have m1' i : (0 <= i < hn two_isl)%N -> (1 < hm two_isl i)%N by apply: m1.
have m0 i : (i < hn two_isl)%N -> (0 < hm two_isl i)%N by move=> /m1/ltnW.
have [J _] := C57_iff dd two_isl_normal isT Hu m0 m1' Ee EA'.
have HH : halfR 1 = 0.
  apply: (J _ 0%N 1%N isT isT) => x y hx hy; apply: H.
    by move: hx; rewrite -[v_dim _]/(\prod_(k < 2) hm two_isl k)%N !big_ord_recl big_ord0.
  by move: hy; rewrite -[v_dim _]/(\prod_(k < 2) hm two_isl k)%N !big_ord_recl big_ord0.
apply: half_ne0; exact: HH.
Qed.
Print Assumptions C57_refuted.

(** One junction in a loop with flux [f] and one charge mode. *)
Definition squid : hin :=
  mkH (mkT 1 1 1 0 (fun _ _ => 1) eye eye (fun _ _ => 1) (fun _ _ => 0) (fun _ _ => 1) (fun=> 0))
      [:: 5]%N (fun=> halfR 1) eye.
Definition squid_ks : keys := mkKeys [::] [:: ((Z0, Zpos xH), 0, 0, 0)%N].
Lemma np1 d : np_round d 1 = 1. Proof. exact: (np_round_z d (Zpos xH)). Qed.
Example C57_case disp u EJ f x y : (forall m a, dim (disp m a) = m) -> (x < 5)%N -> (y < 5)%N ->
  let D := descrip_vars u squid (fun=> EJ) [:: f] (fun _ _ => 1) squid_ks in
  exists A, hamiltonian disp squid (fun=> EJ) [:: f] (fun _ _ => 1) squid_ks = Ok A /\
    construct_hamiltonian 1 D squid_ks = Ok (EAdd
      (EMul (EMul (EEC 1 1) (EAdd (EN 1) (ENeg (ENg 1)))) (EAdd (EN 1) (ENeg (ENg 1))))
      (EAdd (EMul (ENeg (EEJ 1)) (ECos (EAdd (EAdd (EMul (ENum 1) (EPhi 1)) (ENum 0))
                                             (EAdd (EMul (ENum 1) (EPhiE 1)) (ENum 0))))) (ENum 0))) /\
    (forall e, construct_hamiltonian 1 D squid_ks = Ok e ->
       meaning (reading_of disp D (hm squid) 1) e x y = (in_unit u 1)%:C * ent A x y).
Proof.
move=> dd hx hy D.
have [A EA] : exists A, hamiltonian disp squid (fun=> EJ) [:: f] (fun _ _ => 1) squid_ks = Ok A.
  by apply: hamiltonian_total.
have NF : normal squid squid_ks 0.
  split=> //; first by move=> i _; exact: (eqxx (0 : R_ringType)).
  by move=> q j _ _; rewrite /unit_w; right; right.
exists A; split=> //; split.
  rewrite /construct_hamiltonian; cbn [k_ind k_jj squid_ks].
  rewrite -[ind_terms _ _ _]/(Ok [::] : res (seq expr)).
  have -> : har_terms D = [::] by rewrite /har_terms (_ : dv_har D = 0%N) //= /D /= eqxx.
  rewrite /charge_terms (_ : dv_har D = 0%N); last by rewrite /D /= eqxx.
  do 2 f_equal.
  rewrite /esum /= /edot /=; by rewrite !np1.
move=> e Ee.
have Er : rounded squid = squid.
  apply: rounded_same => i j; last exact: np1.
  rewrite -[t_S _ i j]/(eye i j) /eye; case: eqP => _; [exact: np1|exact: (np_round_z 3 Z0)].
have EB : roundedB (fun _ _ => 1) = (fun _ _ => 1) by apply: roundedB_same => i j; apply: np1.
have d5 : (\prod_(k < 1) hm squid k = 5)%N by rewrite big_ord_recl big_ord0.
have EA' : hamiltonian disp (rounded squid) (fun=> EJ) [:: f] (roundedB (fun _ _ => 1)) squid_ks = Ok A.
  by rewrite Er EB.
have K := @C57_one_charge disp u squid (fun=> EJ) [:: f] (fun _ _ => 1) squid_ks 0 e A x y dd NF isT isT Ee EA'.
by apply: K; rewrite -[v_dim _]/(\prod_(k < 1) hm squid k)%N d5.
Qed.

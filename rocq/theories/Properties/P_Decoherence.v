(** C61: decoherence rates. *)
From Coq Require Import Reals ZArith String Lra Lia.
From Verif.Model Require Import Base Units Noise Edge Elements LCWB HamConst PartialConst Thermal RateConst.
From Verif.Spec Require Import ThermalSpec.
From Verif.Proofs Require Import ThermalProofs.

(** Temperature 1 K and the frequency at which the occupation number is 1/2. *)
Definition case_env : env := mkEnv 1 1 1 1.
Definition case_omega : R := (ln 3 * (1.38e-23 * 1) / 1.0545718e-34)%R.
Lemma case_ratio : thermal_ratio case_omega 1 = ln 3.
Proof. unfold thermal_ratio, case_omega. field. lra. Qed.
Lemma case_pos : (0 < case_omega)%R.
Proof.
  assert (0 < ln 3)%R by (rewrite <- ln_1; apply ln_increasing; lra).
  unfold case_omega. apply Rmult_lt_0_compat; [apply Rmult_lt_0_compat; lra | lra].
Qed.
Lemma case_thermal : thermal case_env case_omega = Some (3, 1)%R.
Proof.
  pose proof case_pos as P. rewrite thermalE; unfold case_env; cbn [T].
  - unfold emission, absorption, occupation. rewrite case_ratio, exp_ln by lra. do 2 f_equal; lra.
  - lra.
  - rewrite case_ratio. assert (1 + 2 < exp 2)%R by (apply exp_ineq1; lra).
    assert (ln 3 < ln (exp 2))%R by (apply ln_increasing; lra). rewrite ln_exp in *. lra.
  - lra.
Qed.
Definition case_store : store :=
  mkStore (fun _ => KInd) (fun _ => 4%R) (fun _ => false) (fun _ => true) (fun _ => 0%nat) (fun _ => nil)
          (fun _ => 0%R) (fun _ => false) (fun _ => true).
Lemma case_omega_abs : abs_diff case_omega 0 = case_omega.
Proof. unfold abs_diff. rewrite Rminus_0_r. apply Rabs_pos_eq. pose proof case_pos; lra. Qed.
Lemma case_values t z : (z = 3 -> t / 2 / 4 * (z * z + 0 * 0) = t * 9 / 8)%R.
Proof. intros ->. field. Qed.
Lemma case_nums : (3 * 9 / 8 = 27 / 8 /\ 1 * 9 / 8 = 9 / 8 /\ (3 + 1) * 9 / 8 = 9 / 2)%R.
Proof. lra. Qed.
Lemma two_four : (2 <> 0 /\ 4 <> 0)%R. Proof. lra. Qed.

From mathcomp Require Import all_ssreflect all_algebra.
From mathcomp Require Import complex.
From Verif.Numerics Require Import RStruct Bridge.
From Verif.Model Require Import Transform Op Ham Diag CircuitSM Partial DecRate.
From Verif.Spec Require Import OpSpec SessionSpec DecSpec.
From Verif.Proofs Require Import SMProofs SMProofs3 DecProofs DecProofs2 MemProofs DecProofs3.

Set Implicit Arguments.
Unset Strict Implicit.
Unset Printing Implicit Defensive.
Import GRing.Theory.
Local Open Scope ring_scope.
Local Open Scope complex_scope.

(** In every state a session can reach, whatever calls failed: same outcome for
    both orders of the states. *)
Theorem C61_symmetric disp optim o s0 lobj fd d x0 u cs tr :
  construct optim o s0 lobj fd d = Some (Ok x0) -> run disp optim (mkW s0 u x0) cs = Some tr ->
  forall E s q dt m n, let x := w_x (final (mkW s0 u x0) tr) in
  dec_rate E s q x dt m n true = dec_rate E s q x dt n m true.
Proof.
move=> E0 Er E s q dt m n x; apply: dec_symm; apply: herm_run Er; exact: herm_construct E0.
Qed.
Print Assumptions C61_symmetric.

(** Capacitive, inductive and quasiparticle loss: the sum of both directions. *)
Theorem C61_sum disp optim o s0 lobj fd d x0 u cs tr :
  construct optim o s0 lobj fd d = Some (Ok x0) -> run disp optim (mkW s0 u x0) cs = Some tr ->
  forall E s q dt m n, let x := w_x (final (mkW s0 u x0) tr) in
  thermal_type dt -> m <> n ->
  dec_rate E s q x dt m n true = both_rates (dec_rate E s q x dt m n false) (dec_rate E s q x dt n m false).
Proof.
move=> E0 Er E s q dt m n x Ht Hmn; apply: dec_sum => //; apply: herm_run Er; exact: herm_construct E0.
Qed.
Print Assumptions C61_sum.

(** The dephasing rates ignore the direction, so there the sum is twice the
    total. *)
Theorem C61_sum_refuted disp optim o s0 lobj fd d x0 u cs tr :
  construct optim o s0 lobj fd d = Some (Ok x0) -> run disp optim (mkW s0 u x0) cs = Some tr ->
  forall E s q dt m n, let x := w_x (final (mkW s0 u x0) tr) in
  ~~ thermal_type dt -> forall r, dec_rate E s q x dt m n true = Ok (Some r) ->
  both_rates (dec_rate E s q x dt m n false) (dec_rate E s q x dt n m false) = Ok (Some (r + r)) /\
  (r <> 0 -> dec_rate E s q x dt m n true <>
     both_rates (dec_rate E s q x dt m n false) (dec_rate E s q x dt n m false)).
Proof.
move=> E0 Er E s q dt m n x Ht r Hr.
have D m' n' : dec_rate E s q x dt m' n' false = dec_rate E s q x dt m' n' true.
  by rewrite /dec_rate; case: dt Ht {Hr} => [[]|].
rewrite !D -(C61_symmetric E0 Er E s q dt m n) -/x Hr /=; split=> // N [].
by move=> Q; apply: N; apply: (addrI r); rewrite addr0 -Q.
Qed.
Print Assumptions C61_sum_refuted.

(** Positive temperature, positive values and quality factors. *)
Theorem C61_nonneg E s q x dt m n total r : positive s q -> Rlt 0 (Noise.T E) ->
  dec_rate E s q x dt m n total = Ok (Some r) -> Rle 0 r.
Proof. exact: dec_ge0. Qed.
Print Assumptions C61_nonneg.

(** *** Values *)
Lemma levels_size x m n w1 w2 v w : levels x m n w1 w2 v w -> size (e_vecs (x_eig x)) <> 0%N.
Proof.
case=> _ _ + _; rewrite /evec /py_nth /np_row /py_index => + S; rewrite S.
case: Z.leb_spec => H0; first by case: Z.ltb_spec => // H1; exfalso; rewrite /= in H1; lia.
by case: Z.leb_spec => // H1; exfalso; rewrite /= in H1; lia.
Qed.

Lemma diag_put eigs argsort u k s x x1 r : diag_sm eigs argsort u k s x = (x1, Ok r) ->
  exists xh H ev, hamil s x = (xh, Ok H) /\ x1 = put_eig xh ev.
Proof.
rewrite /diag_sm; case: ifP => // _; case: k => [k|] //; case: hamil => xh H.
case Ed: diag => [e r'] [<- Er]; rewrite Er in Ed; case: H Ed => [H|z]; last by rewrite /diag.
by move=> _; exists xh, H, e.
Qed.

(** The rate of the state after a diagonalisation is the golden-rule expression:
    thermal weight times the sum, over the capacitors, of C/Q times the squared
    matrix element of the charge operator between the nodes. *)
Section Value.
Variables (disp : nat -> C -> op) (optim : bool) (o : oracle) (s0 : store) (lobj : nat -> lrec) (fd : string).
Variables (d : seq (edge * seq nat)) (x0 : circ) (u : ustate) (cs : seq call) (tr : seq (world * res unit)).
Hypothesis built_ok : construct optim o s0 lobj fd d = Some (Ok x0).
Hypothesis session : run disp optim (mkW s0 u x0) cs = Some tr.
Hypothesis updates : updates_ok optim (mkW s0 u x0) cs tr.
Let wf := final (mkW s0 u x0) tr.
Let xf := w_x wf.
Variables (eigs : eigs_fun) (argsort : seq C -> seq nat) (uu : ustate) (kk : option Z).
Variables (x : circ) (dr : seq R * seq cvec).
Hypothesis diagonalised : diag_sm eigs argsort uu kk (w_s wf) xf = (x, Ok dr).
Variables (E : env) (s : store) (q : quality) (m n : Z) (total : bool) (w1 w2 : R) (v w : cvec) (r : R).
Hypothesis HT : Rlt 0 (Noise.T E).
Hypothesis states : levels x m n w1 w2 v w.

Lemma final_good : good disp xf.
Proof. exact: good_run (good_construct disp built_ok : good disp (w_x (mkW s0 u x0))) session updates. Qed.
Lemma final_keys : keys_ok (x_c xf).
Proof. by apply: booked_keys; apply: booked_run session updates; apply: booked_construct built_ok. Qed.

Theorem C61_capacitive : dec_rate E s q x (Some DCap) m n total = Ok (Some r) -> w1 <> w2 ->
  Rle (thermal_ratio (Rabs (w2 - w1)) (Noise.T E)) (IZR 709) ->
  exists A : edge -> op,
    (forall e c, List.In (e, c) (capacitors s xf) -> q_cap q c <> None ->
       coupling_op (hof xf) (Some Capacitive) e = Ok (A e)) /\
    r = weight total m n (Rabs (w2 - w1)) (Noise.T E) *
        \sum_(k <- capacitors s xf)
          (if q_cap q k.2 is Some Q
           then evalue s k.2 / Q (Rabs (w2 - w1)) * modulus2 (braket v (A k.1) w) else 0).
Proof.
move=> Hr Nw Hcut; have [xh [H [ev [Hh Ex]]]] := diag_put diagonalised.
have [M [Eh FL S F]] := hamil_filled final_good final_keys Hh.
have Fx : fresh_ops disp x.
  rewrite Ex Eh; case: S => [[e1 e2 e3 e4] [e5 e6]].
  by case: F => F1 F2 F3 F4 F5 F6 F7 F8; split=> //=; rewrite ?e1 ?e2 ?e3 ?e4 ?e5 ?e6.
have := cap_value HT Fx Hr states (levels_size states) Nw Hcut.
by rewrite Ex Eh.
Qed.

(** Inductors: 1/(QL) times the squared matrix element of the flux across. *)
Theorem C61_inductive : dec_rate E s q x (Some DInd) m n total = Ok (Some r) -> w1 <> w2 ->
  Rle (thermal_ratio (Rabs (w2 - w1)) (Noise.T E)) (IZR 709) ->
  exists A : edge -> op,
    (forall k, List.In k (c_keys_ind (x_c xf)) -> coupling_op (hof xf) (Some Inductive_) k.1.1 = Ok (A k.1.1)) /\
    r = weight total m n (Rabs (w2 - w1)) (Noise.T E) *
        \sum_(k <- c_keys_ind (x_c xf))
          (if q_ind q k.1.2 (Rabs (w2 - w1)) (Noise.T E) is Some Q
           then (Q * evalue s k.1.2)^-1 * modulus2 (braket v (A k.1.1) w) else 0).
Proof.
move=> Hr Nw Hcut; have [xh [H [ev [Hh Ex]]]] := diag_put diagonalised.
move: Hr states; rewrite Ex => Hr St.
exact: (ind_value HT final_good final_keys Hh Hr St (levels_size St) Nw Hcut).
Qed.

(** Junctions: Y w E_J hbar times the squared matrix element of sin(phi/2), with
    the external flux at the time of the diagonalisation. *)
Theorem C61_quasiparticle : dec_rate E s q x (Some DQp) m n total = Ok (Some r) -> w1 <> w2 ->
  Rle (thermal_ratio (Rabs (w2 - w1)) (Noise.T E)) (IZR 709) ->
  r = weight total m n (Rabs (w2 - w1)) (Noise.T E) *
      \sum_(k <- c_keys_jj (x_c xf))
        (if q_jj q k.1.1.2 (Rabs (w2 - w1)) (Noise.T E) is Some Y
         then Y * Rabs (w2 - w1) * evalue s k.1.1.2 * Units.hbar *
              modulus2 (braket v (jj_sin (jj_root disp (hof xf)
                (ext_flux [seq lvalue (w_s wf) l | l <- c_loops (x_c xf)] (x_B xf) k.1.2) k.2)) w)
         else 0).
Proof.
move=> Hr Nw Hcut; have [xh [H [ev [Hh Ex]]]] := diag_put diagonalised.
move: Hr states; rewrite Ex => Hr St.
exact: (qp_value HT final_good final_keys Hh Hr St (levels_size St) Nw Hcut).
Qed.
End Value.
Print Assumptions C61_capacitive.
Print Assumptions C61_inductive.
Print Assumptions C61_quasiparticle.

(** *** Dephasing: common factor times the sum over the noise sources of amplitude
    times difference of the slopes of the two levels. *)
Theorem C61_flux E s q x m n total w1 w2 v w r K : low_frequency E K ->
  dec_rate E s q x (Some DFlux) m n total = Ok (Some r) -> levels x m n w1 w2 v w ->
  exists P : nat -> op,
    (forall l, List.In l (c_loops (x_c x)) -> partial_H s x (CLoop l) None = Ok (Some (P l))) /\
    r = \sum_(l <- c_loops (x_c x)) Rabs (slope v w (P l) * a_loop q l) * K.
Proof. exact: flux_value. Qed.
Print Assumptions C61_flux.

Theorem C61_critical_current E s q x m n total w1 w2 v w r K : low_frequency E K ->
  dec_rate E s q x (Some DCC) m n total = Ok (Some r) -> levels x m n w1 w2 v w ->
  exists P : nat * nat -> op,
    (forall k, List.In k (cos_mem x) -> partial_H s x (CEl k.1) (Some k.2) = Ok (Some (P k))) /\
    r = \sum_(k <- cos_mem x) Rabs (slope v w (P k) * (a_jj q k.1 * evalue s k.1)) * K.
Proof. exact: cc_value. Qed.
Print Assumptions C61_critical_current.

Theorem C61_charge E s q x m n total w1 w2 v w r K : low_frequency E K ->
  dec_rate E s q x (Some DCharge) m n total = Ok (Some r) -> levels x m n w1 w2 v w ->
  exists (P : nat -> op) (A : nat -> R),
    (forall i, (i < x_n x)%N -> is_charge (x_st x) i ->
       partial_H_ng x i = Ok (Some (P i)) /\ exists ng, isl x i = Some (ng, A i)) /\
    r = \sum_(i <- iota 0 (x_n x) | is_charge (x_st x) i)
          Rabs (sqrt (modulus2 (braket v (P i) v - braket w (P i) w)) * charge_amp (A i)) * K.
Proof. exact: charge_value. Qed.
Print Assumptions C61_charge.

(** *** The direction is taken from the indices as written, so the last state
    addressed as -1 counts as the lower one: the rate from the highest level down
    to the ground state comes out as that of the way up. *)
Lemma last_index k : (0 < k)%N -> py_index k (Zneg xH) = py_index k (Z.sub (Z.of_nat k) (Zpos xH)).
Proof.
move=> /ltP k0; rewrite /py_index; cbn [Z.leb Z.compare].
by (repeat case: Z.leb_spec => ?); (repeat case: Z.ltb_spec => ?) => //; try (exfalso; lia); congr (Some (Z.to_nat _)); lia.
Qed.

Theorem C61_direction_refuted E s q x dt k w1 w2 r : thermal_type dt -> Rlt 0 (Noise.T E) ->
  size (e_freqs (x_eig x)) = k -> size (e_vecs (x_eig x)) = k -> (1 < k)%N ->
  let last := Z.sub (Z.of_nat k) (Zpos xH) in
  efreq x last = Ok w1 -> efreq x Z0 = Ok w2 -> w1 <> w2 ->
  Rle (thermal_ratio (Rabs (w2 - w1)) (Noise.T E)) (IZR 709) ->
  dec_rate E s q x dt last Z0 false = Ok (Some r) ->
  dec_rate E s q x dt (Zneg xH) Z0 false = Ok (Some (exp (- thermal_ratio (Rabs (w2 - w1)) (Noise.T E)) * r)).
Proof.
move=> Ht HT Hf Hv k1 last E1 E2 Nw Hcut Hr.
have k0 : (0 < k)%N by apply: ltnW.
have F : efreq x (Zneg xH) = efreq x last by rewrite /efreq /py_nth /np_row Hf last_index.
have V : evec x (Zneg xH) = evec x last by rewrite /evec /py_nth /np_row Hv last_index.
have Hs : size (e_freqs (x_eig x)) <> 0%N by rewrite Hf => Q; rewrite Q in k0.
have U : unit_rate E s q x dt (Zneg xH) Z0 = unit_rate E s q x dt last Z0.
  rewrite /unit_rate F V; case: (efreq x last) => [a|] //; cbn [bind]; case: (efreq x Z0) => [b|] //; cbn [bind].
  case: (evec x last) => [v|] //; cbn [bind]; case: (evec x Z0) => [w|] //; cbn [bind].
  case: dt Ht {Hr} => [[]|] // _; apply: fold_rate => i _.
  by rewrite /cap_term /matrix_elements V.
have No := abs_diff_neq0 Nw.
have HT' : Noise.T E <> 0 by apply: Rgt_not_eq.
have Eth := thermalE E (abs_diff w2 w1) HT' Hcut No.
have Hl : Z.ltb Z0 last by apply/Z.ltb_lt; rewrite /last; move/ltP: k1 => k1; lia.
move: Hr; rewrite (dec_unit s q _ Ht Hs E1 E2 Eth).
rewrite (dec_unit s q _ Ht Hs (etrans F E1) E2 Eth) U; case: unit_rate => [[y|]|] //= [<-].
do 2 congr (_ _); rewrite mulrA; congr (_ * _); rewrite /temp_factor Hl /=.
have N : thermal_ratio (abs_diff w2 w1) (Noise.T E) <> 0 by move=> /(proj1 (ratio_zero _ _ HT')).
rewrite -[Rabs _]/(abs_diff w2 w1) /emission /absorption /occupation exp_Ropp.
move: (exp_neq1 _ N) (exp_pos (thermal_ratio (abs_diff w2 w1) (Noise.T E))).
move: (exp _) => z z1 z0; rewrite -RmultE; field; split; lra.
Qed.
Print Assumptions C61_direction_refuted.

(** Two levels, one inductor of 4 H and quality factor 2 whose flux has matrix
    element 3, occupation number 1/2: 27/8 down, 9/8 up, 9/2 together. *)
Definition case_flux : op := Op 2 (fun i j => if i == j then 0 else (IZR 3)%:C).
Definition case_state (x : circ) : circ :=
  put_eig (put_mem x (mkM [::] [::] [::] [::] [::] [::] (fun _ _ => None) (fun _ _ => None) (fun _ _ => None)
                          (fun _ _ => Some case_flux)) None)
          (mkE [:: 0; case_omega] [:: (fun i => (i == 0%N)%:R); (fun i => (i == 1%N)%:R)]).
Definition case_quality : quality :=
  mkQual (fun=> None) (fun _ _ _ => Some (IZR 2)) (fun _ _ _ => None) (fun=> 0) (fun=> 0).
Example C61_case x : c_keys_ind (x_c x) = [:: ((Z0, Zpos xH), 1%N, 0%N)] ->
  let rate m n total := dec_rate case_env case_store case_quality (case_state x) (Some DInd) m n total in
  [/\ rate (Zpos xH) Z0 false = Ok (Some (Rdiv (IZR 27) (IZR 8))),
      rate Z0 (Zpos xH) false = Ok (Some (Rdiv (IZR 9) (IZR 8))),
      rate Z0 (Zpos xH) true = Ok (Some (Rdiv (IZR 9) (IZR 2))) &
      rate (Zpos xH) Z0 true = Ok (Some (Rdiv (IZR 9) (IZR 2)))].
Proof.
move=> Hk rate.
have H (m n : bool) total : m != n -> rate (Z.b2z m) (Z.b2z n) total =
    Ok (Some (Rdiv (Rmult (temp_factor total (Z.b2z m) (Z.b2z n) (IZR 3, IZR 1)) (IZR 9)) (IZR 8))).
  move=> mn; rewrite /rate /dec_rate; set xs := case_state x.
  have Ef (b : bool) : efreq xs (Z.b2z b) = Ok (if b then case_omega else 0) by case: b.
  have Ev (b : bool) : evec xs (Z.b2z b) = Ok (fun i => (i == (b : nat))%:R) by case: b.
  rewrite !Ef !Ev; cbn [bind].
  have -> : abs_diff (if n then case_omega else 0) (if m then case_omega else 0) = case_omega.
    by case: m n mn => -[] // _; [rewrite /abs_diff Rabs_minus_sym|]; apply: case_omega_abs.
  rewrite case_thermal /ind_mem Hk /=.
  have [/eqP/negbTE n2 /eqP/negbTE n4] := two_four.
  rewrite /ind_rate /with_factor /fdiv /= n2 n4 /= add0r; congr (Ok (Some _)).
  set z := inner _ _ _; have -> : z = (IZR 3)%:C.
    rewrite /z /inner /= !big_ord_recl !big_ord0 /=.
    rewrite !rmorph_nat.
    by case: m n mn {z} => -[] // _; rewrite /= ?mulr0n ?mulr1n ?mul0r ?mulr0 ?mul1r ?mulr1 ?add0r ?addr0.
  by rewrite -!RinvE ?n2 ?n4 //; exact: (case_values (temp_factor _ _ _ _) _ erefl).
have [n1 [n2 n3]] := case_nums; split; [rewrite -n1 | rewrite -n2 | rewrite -n3 | rewrite -n3].
- exact: (H true false).
- exact: (H false true).
- exact: (H false true).
exact: (H true false).
Qed.

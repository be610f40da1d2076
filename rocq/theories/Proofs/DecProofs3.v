(** DecProofs3.v -- the values of the decoherence rates. *)
From Coq Require Import Reals ZArith Lra.
From Verif.Model Require Import Base Units Noise Edge Elements LCWB HamConst PartialConst Thermal RateConst.
From Verif.Spec Require Import ThermalSpec.
From Verif.Proofs Require Import ThermalProofs.
From mathcomp Require Import all_ssreflect all_algebra.
From mathcomp Require Import complex.
From Verif.Numerics Require Import RStruct Bridge.
From Verif.Model Require Import Transform Op Ham Diag CircuitSM Partial DecRate.
From Verif.Spec Require Import OpSpec DecSpec.
From Verif.Proofs Require Import SMProofs DecProofs DecProofs2 MemProofs.

Set Implicit Arguments.
Unset Strict Implicit.
Unset Printing Implicit Defensive.
Import GRing.Theory.
Local Open Scope ring_scope.
Local Open Scope complex_scope.

Definition rate_val (r : res (option R)) : R := if r is Ok (Some y) then y else 0.

Lemma fold_val K (f : K -> res (option R)) l : forall a r,
  foldl (rate_add f) (Ok (Some a)) l = Ok (Some r) ->
  (forall k, List.In k l -> f k = Ok (Some (rate_val (f k)))) /\ r = a + \sum_(k <- l) rate_val (f k).
Proof.
elim: l => [|k l IH] a r /=; first by case=> ->; rewrite big_nil addr0.
rewrite /rate_add; cbn [bind]; case Ek: (f k) => [[y|]|e]; cbn [bind].
- move=> /IH [H1 H2]; split=> [j [<-|/H1 //]|]; first by rewrite Ek.
  by rewrite big_cons Ek H2 addrA.
- have KE e l' : foldl (rate_add f) (Err e) l' = Err e by elim: l'.
  have K0 l' : foldl (rate_add f) (Ok None) l' = Ok (Some r) -> False.
    by elim: l' => [|j l' IH'] //=; rewrite /rate_add /=; case: (f j) => [t|e] //=; rewrite KE.
  by move/K0.
- by have -> : foldl (rate_add f) (Err e) l = Err e by elim: l {IH}.
Qed.

Lemma eq_big_In (T : Type) (l : seq T) (F G : T -> R) : (forall k, List.In k l -> F k = G k) ->
  \sum_(k <- l) F k = \sum_(k <- l) G k.
Proof.
elim: l => [|k l IH] H; first by rewrite !big_nil.
by rewrite !big_cons H ?IH //; [move=> j hj; apply: H; right | left].
Qed.

Lemma coupling_capE disp x e : fresh_ops disp x -> coupling_cap x e = coupling_op (hof x) (Some Capacitive) e.
Proof.
move=> F; rewrite /coupling_cap /coupling_op; case: coupling_coef => // k.
rewrite (fo_Q F) size_map size_iota ltnn.
have K l : forall acc, {subset l <= iota 0 (x_n x)} ->
   foldl (fun acc i => acc_add acc (oscale (k i)%:C
     (nth (ozero 0) [seq opQ (hof x) i0 | i0 <- iota 0 (x_n x)] i))) acc l =
   foldl (fun acc i => acc_add acc (oscale (k i)%:C (mode_op (hof x) Capacitive i))) acc l.
  elim: l => [|i l IH] acc Hl //=.
  rewrite nth_ops; last by have := Hl i (mem_head _ _); rewrite mem_iota.
  by apply: IH => j Hj; apply: Hl; rewrite inE Hj orbT.
by rewrite K.
Qed.

(** The states and frequencies a rate is about. *)
Definition levels (x : circ) (m n : Z) (w1 w2 : R) (v w : cvec) : Prop :=
  [/\ efreq x m = Ok w1, efreq x n = Ok w2, evec x m = Ok v & evec x n = Ok w].

Lemma temp_weight E total m n omega : Rlt 0 (Noise.T E) -> omega <> 0 ->
  Rle (thermal_ratio omega (Noise.T E)) (IZR 709) ->
  exists du, thermal E omega = Some du /\ temp_factor total m n du = weight total m n omega (Noise.T E).
Proof.
move=> HT No Hr; rewrite (thermalE E omega _ Hr No); last exact: Rgt_not_eq.
by eexists; split; first by reflexivity.
Qed.

Lemma abs_diff_neq0 a b : a <> b -> abs_diff b a <> 0.
Proof. by move=> N; apply: Rabs_no_R0 => H; apply: N; apply/esym; apply: Rminus_diag_uniq. Qed.

Section Value.
Variables (disp : nat -> C -> op) (E : env) (s : store) (q : quality).
Hypothesis HT : Rlt 0 (Noise.T E).

Lemma rate_start x dt m n total r : dec_rate E s q x dt m n total = Ok (Some r) ->
  exists w1 w2 v w, levels x m n w1 w2 v w.
Proof.
rewrite /dec_rate; case: ifP => // _.
case E1: (efreq x m) => [w1|] //; case E2: (efreq x n) => [w2|] //; cbn [bind].
by case E3: (evec x m) => [v|] //; case E4: (evec x n) => [w|] //; cbn [bind]; exists w1, w2, v, w.
Qed.

Lemma rateE x dt m n total w1 w2 v w r : dec_rate E s q x dt m n total = Ok (Some r) ->
  levels x m n w1 w2 v w -> size (e_vecs (x_eig x)) <> 0%N -> thermal_type dt -> w1 <> w2 ->
  Rle (thermal_ratio (abs_diff w2 w1) (Noise.T E)) (IZR 709) ->
  exists y, r = weight total m n (abs_diff w2 w1) (Noise.T E) * y /\ unit_rate E s q x dt m n = Ok (Some y).
Proof.
move=> Hr [E1 E2 E3 E4] Hv Ht Nw Hcut.
have Hs : size (e_freqs (x_eig x)) <> 0%N by move: (Hr); rewrite /dec_rate; case: eqP.
have [du [Eth Ew]] := temp_weight total m n HT (abs_diff_neq0 Nw) Hcut.
move: Hr; rewrite (dec_unit s q _ Ht Hs E1 E2 Eth) Ew; case: unit_rate => [[y|]|e] //= [<-].
by exists y.
Qed.

Lemma cap_value x m n total w1 w2 v w r : fresh_ops disp x ->
  dec_rate E s q x (Some DCap) m n total = Ok (Some r) ->
  levels x m n w1 w2 v w -> size (e_vecs (x_eig x)) <> 0%N -> w1 <> w2 ->
  Rle (thermal_ratio (abs_diff w2 w1) (Noise.T E)) (IZR 709) ->
  exists A : edge -> op,
    (forall e c, List.In (e, c) (capacitors s x) -> q_cap q c <> None ->
       coupling_op (hof x) (Some Capacitive) e = Ok (A e)) /\
    r = weight total m n (abs_diff w2 w1) (Noise.T E) *
        \sum_(k <- capacitors s x)
          (if q_cap q k.2 is Some Q
           then evalue s k.2 / Q (abs_diff w2 w1) * modulus2 (braket v (A k.1) w) else 0).
Proof.
move=> F Hr HL Hv Nw Hcut; have [y [-> ]] := rateE Hr HL Hv isT Nw Hcut.
case: HL => E1 E2 E3 E4; rewrite /unit_rate E1 E2 E3 E4; cbn [bind] => /fold_val [H1 ->].
pose A e := if coupling_op (hof x) (Some Capacitive) e is Ok X then X else ozero 0.
have HA k Q : List.In k (placements x) -> q_cap q (cap_of_el s k.2) = Some Q ->
    [/\ coupling_op (hof x) (Some Capacitive) k.1 = Ok (A k.1),
        Q (abs_diff w2 w1) <> 0 & rate_val (cap_term s q x (Some 1) (abs_diff w2 w1) m n k) =
        evalue s (cap_of_el s k.2) / Q (abs_diff w2 w1) * modulus2 (braket v (A k.1) w)].
  move=> Hk EQ; have := H1 _ Hk; rewrite /cap_term EQ /matrix_elements.
  case: ifP => [/eqP //|_]; rewrite E3 E4; cbn [bind]; rewrite (coupling_capE _ F) /A.
  case Ec: coupling_op => [X|z] //; cbn [bind with_factor]; rewrite /fdiv; case: ifP => //= /eqP NQ _.
  split=> //; rewrite innerE abs2E; congr (_ / _ * _); exact: mul1r.
have EP : capacitors s x = [seq (k.1, cap_of_el s k.2) | k <- placements x].
  rewrite /capacitors /placements map_flatten -map_comp; congr flatten; apply: eq_map => ee /=.
  by rewrite -map_comp; apply: eq_map.
exists A; split.
- move=> e c; rewrite EP => Hc; have [k Hk [-> ->]] := In_map Hc; case EQ: q_cap => [Q|] // _.
  by have [] := HA _ _ Hk EQ.
- rewrite add0r EP big_map /=; congr (_ * _); apply: eq_big_In => k Hk.
  case EQ: q_cap => [Q|]; first by have [_ _ ->] := HA _ _ Hk EQ.
  by rewrite /cap_term EQ.
Qed.

(** In a circuit whose Hamiltonian was formed last with the values [s0]. *)
Lemma ind_value x0 x1 H s0 ev m n total w1 w2 v w r : let x := put_eig x1 ev in
  good disp x0 -> keys_ok (x_c x0) -> hamil s0 x0 = (x1, Ok H) ->
  dec_rate E s q x (Some DInd) m n total = Ok (Some r) ->
  levels x m n w1 w2 v w -> size (e_vecs (x_eig x)) <> 0%N -> w1 <> w2 ->
  Rle (thermal_ratio (abs_diff w2 w1) (Noise.T E)) (IZR 709) ->
  exists A : edge -> op,
    (forall k, List.In k (c_keys_ind (x_c x0)) -> coupling_op (hof x0) (Some Inductive_) k.1.1 = Ok (A k.1.1)) /\
    r = weight total m n (abs_diff w2 w1) (Noise.T E) *
        \sum_(k <- c_keys_ind (x_c x0))
          (if q_ind q k.1.2 (abs_diff w2 w1) (Noise.T E) is Some Q
           then (Q * evalue s k.1.2)^-1 * modulus2 (braket v (A k.1.1) w) else 0).
Proof.
move=> x G Hk Hh Hr HL Hv Nw Hcut; have [M [E0 FL S F]] := hamil_filled G Hk Hh.
have [y [-> ]] := rateE Hr HL Hv isT Nw Hcut.
case: HL => E1 E2 E3 E4; rewrite /unit_rate E1 E2 E3 E4; cbn [bind] => /fold_val [H1 ->].
pose A e := if coupling_op (hof x0) (Some Inductive_) e is Ok X then X else ozero 0.
have EM : ind_mem x = [seq (k.1.2, A k.1.1) | k <- c_keys_ind (x_c x0)].
  rewrite /ind_mem /x E0 -[x_mem _]/M -[x_c (put_eig _ _)]/(x_c x0).
  have : forall k, List.In k (c_keys_ind (x_c x0)) -> M_ind M k.1.2 k.2 = Some (A k.1.1).
    by move=> [[e el] b] Hin; have [X EX ->] := fl_ind FL Hin; rewrite /A EX.
  elim: (c_keys_ind (x_c x0)) => //= k l IH Hl; rewrite Hl; last by left.
  by rewrite /= IH // => j hj; apply: Hl; right.
exists A; split.
- by move=> [[e el] b] Hin; have [X EX _] := fl_ind FL Hin; rewrite /A EX.
- rewrite add0r EM big_map; congr (_ * _); apply: eq_big_In => k Hin.
  have := H1 (k.1.2, A k.1.1); rewrite EM => /(_ _) H2; move: (H2 (In_mem_map _ Hin)).
  rewrite /ind_rate /=; case: q_ind => [Q|] //; rewrite /fdiv; case: ifP => //= _; case: ifP => //= _ _.
  by rewrite div1r innerE abs2E invfM.
Qed.

Lemma qp_value x0 x1 H s0 ev m n total w1 w2 v w r : let x := put_eig x1 ev in
  good disp x0 -> keys_ok (x_c x0) -> hamil s0 x0 = (x1, Ok H) ->
  dec_rate E s q x (Some DQp) m n total = Ok (Some r) ->
  levels x m n w1 w2 v w -> size (e_vecs (x_eig x)) <> 0%N -> w1 <> w2 ->
  Rle (thermal_ratio (abs_diff w2 w1) (Noise.T E)) (IZR 709) ->
  r = weight total m n (abs_diff w2 w1) (Noise.T E) *
      \sum_(k <- c_keys_jj (x_c x0))
        (if q_jj q k.1.1.2 (abs_diff w2 w1) (Noise.T E) is Some Y
         then Y * abs_diff w2 w1 * evalue s k.1.1.2 * Units.hbar *
              modulus2 (braket v (jj_sin (jj_root disp (hof x0) (ext_flux (loop_vals s0 x0) (x_B x0) k.1.2) k.2)) w)
         else 0).
Proof.
move=> x G Hk Hh Hr HL Hv Nw Hcut; have [M [E0 FL S F]] := hamil_filled G Hk Hh.
have [y [-> ]] := rateE Hr HL Hv isT Nw Hcut.
case: HL => E1 E2 E3 E4; rewrite /unit_rate E1 E2 E3 E4; cbn [bind] => /fold_val [H1 ->].
pose A (k : edge * nat * nat * nat) :=
  jj_sin (jj_root disp (hof x0) (ext_flux (loop_vals s0 x0) (x_B x0) k.1.2) k.2).
have EM : half_mem x = [seq (k.1.1.2, A k) | k <- c_keys_jj (x_c x0)].
  rewrite /half_mem /x E0 -[x_mem _]/M -[x_c (put_eig _ _)]/(x_c x0).
  have : forall k, List.In k (c_keys_jj (x_c x0)) -> M_half M k.1.1.2 k.1.2 = Some (A k).
    by move=> [[[e el] b] u] Hin; have [_ _ ->] := fl_jj FL Hin.
  elim: (c_keys_jj (x_c x0)) => //= k l IH Hl; rewrite Hl; last by left.
  by rewrite /= IH // => j hj; apply: Hl; right.
rewrite add0r EM big_map; congr (_ * _); apply: eq_big_In => k Hin.
rewrite /qp_rate /=; case: q_jj => [Y|] //=.
by rewrite /qp_factor innerE abs2E -!RmultE Rmult_1_l.
Qed.

(** *** Dephasing *)
Lemma dephasing_low K A p : low_frequency E K -> dephasing E A p = Some (Rabs (p * A) * K).
Proof. by case=> H ->; rewrite /dephasing (log_factorP E H). Qed.

Lemma omega_mn_value x c m n b v w p : evec x m = Ok v -> evec x n = Ok w ->
  partial_omega_mn s x c m n b = Ok p -> exists P, partial_H s x c b = Ok (Some P) /\ p = slope v w P.
Proof.
move=> E1 E2; rewrite /partial_omega_mn E1 E2; cbn [bind]; case: partial_H => [[P|]|z] //; cbn [bind inner0].
by case=> <-; exists P; split=> //; rewrite !innerE.
Qed.

Definition some_op (r : res (option op)) : op := if r is Ok (Some P) then P else ozero 0.

Lemma flux_value x m n total w1 w2 v w r K : low_frequency E K ->
  dec_rate E s q x (Some DFlux) m n total = Ok (Some r) -> levels x m n w1 w2 v w ->
  exists P : nat -> op,
    (forall l, List.In l (c_loops (x_c x)) -> partial_H s x (CLoop l) None = Ok (Some (P l))) /\
    r = \sum_(l <- c_loops (x_c x)) Rabs (slope v w (P l) * a_loop q l) * K.
Proof.
move=> HK + [E1 E2 E3 E4]; rewrite /dec_rate; case: ifP => // _; rewrite E1 E2 E3 E4; cbn [bind].
move=> /fold_val [H1 ->]; exists (fun l => some_op (partial_H s x (CLoop l) None)).
have HP l : List.In l (c_loops (x_c x)) -> exists P, partial_H s x (CLoop l) None = Ok (Some P) /\
    rate_val (flux_rate E s q x m n l) = Rabs (slope v w P * a_loop q l) * K.
  move=> Hl; have := H1 _ Hl; rewrite /flux_rate; case Ep: partial_omega_mn => [p|z] //; cbn [bind] => _.
  by have [P [EP ->]] := omega_mn_value E3 E4 Ep; exists P; rewrite (dephasing_low _ _ HK).
split=> [l Hl|]; first by have [P [-> _]] := HP _ Hl.
by rewrite add0r; apply: eq_big_In => l Hl; have [P [-> ->]] := HP _ Hl.
Qed.

Lemma cc_value x m n total w1 w2 v w r K : low_frequency E K ->
  dec_rate E s q x (Some DCC) m n total = Ok (Some r) -> levels x m n w1 w2 v w ->
  exists P : nat * nat -> op,
    (forall k, List.In k (cos_mem x) -> partial_H s x (CEl k.1) (Some k.2) = Ok (Some (P k))) /\
    r = \sum_(k <- cos_mem x) Rabs (slope v w (P k) * (a_jj q k.1 * evalue s k.1)) * K.
Proof.
move=> HK + [E1 E2 E3 E4]; rewrite /dec_rate; case: ifP => // _; rewrite E1 E2 E3 E4; cbn [bind].
move=> /fold_val [H1 ->]; exists (fun k => some_op (partial_H s x (CEl k.1) (Some k.2))).
have HP l : List.In l (cos_mem x) -> exists P, partial_H s x (CEl l.1) (Some l.2) = Ok (Some P) /\
    rate_val (cc_rate E s q x m n l) = Rabs (slope v w P * (a_jj q l.1 * evalue s l.1)) * K.
  move=> Hl; have := H1 _ Hl; rewrite /cc_rate; case Ep: partial_omega_mn => [p|z] //; cbn [bind] => _.
  by have [P [EP ->]] := omega_mn_value E3 E4 Ep; exists P; rewrite (dephasing_low _ _ HK).
split=> [l Hl|]; first by have [P [-> _]] := HP _ Hl.
by rewrite add0r; apply: eq_big_In => l Hl; have [P [-> ->]] := HP _ Hl.
Qed.

Lemma charge_value x m n total w1 w2 v w r K : low_frequency E K ->
  dec_rate E s q x (Some DCharge) m n total = Ok (Some r) -> levels x m n w1 w2 v w ->
  exists (P : nat -> op) (A : nat -> R),
    (forall i, (i < x_n x)%N -> is_charge (x_st x) i ->
       partial_H_ng x i = Ok (Some (P i)) /\ exists ng, isl x i = Some (ng, A i)) /\
    r = \sum_(i <- iota 0 (x_n x) | is_charge (x_st x) i)
          Rabs (sqrt (modulus2 (braket v (P i) v - braket w (P i) w)) * charge_amp (A i)) * K.
Proof.
move=> HK + [E1 E2 E3 E4]; rewrite /dec_rate; case: ifP => // _; rewrite E1 E2 E3 E4; cbn [bind].
move=> /fold_val [H1 ->]; exists (fun i => some_op (partial_H_ng x i)), (fun i => if isl x i is Some p then p.2 else 0).
have HP i : List.In i (iota 0 (x_n x)) -> is_charge (x_st x) i -> exists P p,
    [/\ partial_H_ng x i = Ok (Some P), isl x i = Some p &
    rate_val (charge_rate E x v w i) =
      Rabs (sqrt (modulus2 (braket v P v - braket w P w)) * charge_amp p.2) * K].
  move=> Hi ch; have := H1 _ Hi; rewrite /charge_rate ch /=.
  case EP: partial_H_ng => [[P|]|z] //; cbn [bind inner0]; case Ei: isl => [p|] // _; exists P, p.
  by split=> //; rewrite (dephasing_low _ _ HK) /cabs abs2E !innerE.
split=> [i Hi ch|].
  have Hin : List.In i (iota 0 (x_n x)) by have <- : nth 0%N (iota 0 (x_n x)) i = i; [rewrite nth_iota | apply: In_nth; rewrite size_iota].
  by have [P [[ng A] [-> -> _]]] := HP _ Hin ch; split=> //; exists ng.
rewrite add0r [in RHS]big_mkcond /=; apply: eq_big_In => i Hi; case ch: is_charge.
  by have [P [p [-> -> ->]]] := HP _ Hi ch.
by rewrite /charge_rate ch.
Qed.
End Value.

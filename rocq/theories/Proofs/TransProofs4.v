(** TransProofs4.v -- the result of all coordinate transformations. *)
From Coq Require Import Reals ZArith Lra FunctionalExtensionality.
From Verif.Model Require Import Base Units Edge LCWB Rounding Accuracy.
From mathcomp Require Import all_ssreflect all_algebra.
From Verif.Numerics Require Import RStruct Bridge.
From Verif.Model Require Import FluxDist Transform.
From Verif.Spec Require Import TransSpec.
From Verif.Proofs Require Import AccProofs TransProofs TransProofs1 TransProofs2 TransProofs3.

Set Implicit Arguments.
Unset Strict Implicit.
Unset Printing Implicit Defensive.
Import GRing.Theory.
Local Open Scope ring_scope.

Lemma nf1_normal n k D st : nf1 n k D st -> normal_form n k D (t_om st) (t_cI st) (t_lT st).
Proof.
move=> [Hk _ HD Hc [HlT [HlTp [HcI [Hsq Hom]]]]].
have lt_n i : (i < n - k)%N -> (i < n)%N by move=> Hi; apply: leq_trans Hi (leq_subr _ _).
split=> //; split.
- move=> i Hi; have Hin := lt_n _ Hi.
  do 5?split; rewrite ?Hsq //; try by [apply: HD | apply: Hc | apply: HlTp].
    by rewrite Hom // Hi.
  move=> j Hj /eqP ji; rewrite !HcI ?Hi ?orbT // 1?eq_sym //.
  rewrite (HlT i j) // (HlT j i) // (negbTE ji) eq_sym (negbTE ji); by [].
- move=> i /andP [H1 Hi]; have H : (i < n - k)%N = false by rewrite ltnNge H1.
  split; first by rewrite Hom // H.
  by split; [apply: Hc | move=> j Hj; rewrite HlT // H andbF].
Qed.

(** Everything that holds of the attributes after the three transformations. *)
Section Whole.
Variables (n m kj : nat) (C L W : arr) (st0 : tst).
Variables (croot lroot X U : arr) (D0 eigL : vec).
Hypothesis EI : t_init n m kj C L W = Ok st0.
Hypothesis HC : root_of (toM n n C) (toM n n croot).
Hypothesis HL : root_of (toM n n L) (toM n n lroot).
Hypothesis HA : svd_of (toM n n lroot *m invmx (toM n n croot)) (toM n n X) (toM n n U) (toV n D0).

(** couplings of the junctions before rounding *)
Definition WS (st : tst) : arr := mmul n W (t_S st).

Lemma frame0 : frame n C st0.
Proof. by have [H1 H2 H3 _ _] := canonical_init EI. Qed.

Lemma trans1_all st s r : trans1 croot D0 U eigL st0 = Ok (st, (s, r)) ->
  exists k, [/\ sing_locs n D0 eigL = iota (n - k) k, nf1 n k D0 (set_omega st),
     frame n C (set_omega st), toM n n croot \in unitmx &
     (t_m st = m /\ t_njwi st = kj /\ t_W st = W) /\
     (m != 0%N -> forall i j, (j < n)%N -> t_wT st i j = WS st i j) /\
     ((forall i, i \in sing_locs n D0 eigL -> D0 i = 0) ->
        toM n n (t_lT st) = (toM n n (t_S st))^T *m toM n n L *m toM n n (t_S st))].
Proof.
move=> E1; have [k [Ek Hn]] := nf1_trans1 EI HC HL HA E1; exists k.
have [_ _ HlT HLs [_ [[En En0 Em Ekj EW] [ES [_ EwT]]]]] := trans1_diag EI HC HL HA E1.
split=> //.
- by have := trans1_frame E1 frame0; case.
- move: E1; rewrite /trans1; case Ei: inv => [cri|//] _.
  have E0 : t_n st0 = n by case: frame0 => [[]].
  by rewrite E0 in Ei; have [] := invP Ei.
- split=> //; split.
    move=> /negbTE m0 i j Hj; rewrite EwT m0 /WS ES; apply: eq_bigr => l _; congr (_ * _).
    rewrite /mmul (bigD1 l) //= big1 ?addr0; last first.
      by move=> p; rewrite -(inj_eq val_inj) /= eq_sym /eye => /negbTE ->; rewrite mul0r.
    by rewrite /eye eqxx mul1r.
  move=> Hz; rewrite ES toM_mmul toM_eye mul1mx HLs; apply/matrixP => i j; rewrite !mxE.
  rewrite HlT // -(inj_eq val_inj) /=; case: eqP => [Eij|_] /=; last by rewrite mulr0n.
  rewrite mulr1n; case: (boolP (_ \in _)) => // Hin.
  by rewrite (Hz _ Hin) expr0n /= mul0r.
Qed.

Definition lT_exact (st : tst) : Prop :=
  toM n n (t_lT st) = (toM n n (t_S st))^T *m toM n n L *m toM n n (t_S st).
Lemma lT_exact_apply st s r : t_n st = n -> lT_exact st -> lT_exact (apply_tr s r st).
Proof.
by rewrite /lT_exact => En E; rewrite /= En !toM_mmul toM_tr E trmx_mul !mulmxA.
Qed.

Definition val01 (x : R) : Prop := x = 0 \/ x = 1 \/ x = - 1.

Lemma mmulA (A B D : arr) i j : mmul n (mmul n A B) D i j = mmul n A (mmul n B D) i j.
Proof.
rewrite /mmul; under eq_bigr do rewrite big_distrl /=.
rewrite exchange_big /=; apply: eq_bigr => l _; rewrite big_distrr /=.
by apply: eq_bigr => p _; rewrite mulrA.
Qed.

Lemma round01_val01 x : (Rabs (round01 x) == 0) || (Rabs (round01 x) == 1) -> val01 (round01 x).
Proof.
case: (round01_cases x) => [[_ ->]|[[_ ->]|[[_ ->]|[H1 [H2 [H3 ->]]]]]].
- by left. - by right; left. - by right; right.
- case/orP => /eqP E; exfalso.
  + by move: H1; rewrite E => H1; have [Hp _] := acc_gs_small; apply: (Rlt_irrefl 0); apply: Rlt_le_trans Hp H1.
  + have [Hp _] := acc_gs_small; move: E H2 H3; rewrite /Rabs; case: Rcase_abs => Hx E.
    * have E' : Ropp x = R1 by exact: E.
      have -> : x = Ropp R1 by lra.
      move=> _; rewrite Rplus_opp_l; case: Rcase_abs => H H'; lra.
    * have -> : x = R1 by exact: E.
      rewrite Rminus_diag_eq //; case: Rcase_abs => H H'; lra.
Qed.

(** after the second transformation (only done if there are junctions) *)
Lemma trans2_all k st tries fuel sv order S1 draw st' s r : m != 0%N ->
  nf1 n k D0 st -> frame n C st -> toM n n croot \in unitmx ->
  t_m st = m -> t_njwi st = kj -> t_W st = W ->
  (forall i j, (j < n)%N -> t_wT st i j = WS st i j) ->
  trans2 tries fuel sv order S1 draw 0 st = Some (Ok (st', (s, r))) ->
  [/\ nf1 n k D0 st', frame n C st', t_m st' = m /\ t_njwi st' = kj /\ t_W st' = W,
      (forall i j, (j < n)%N -> t_wT st' i j =
         if (j < n - k)%N then WS st' i j
         else round01 (if kj == 0%N then 0 else WS st' i j)) /\
      (forall i j, (i < m)%N -> (n - k <= j < n)%N -> val01 (t_wT st' i j)) &
      lT_exact st -> lT_exact st'].
Proof.
move=> m0 Hn Hf uC Em Ekj EW Ew E2.
have [_ [En En0] _ _ _] := Hn.
have [Ds Hgs Est'] := trans2P E2.
have B := trans2_blocky E2.
have Ecm : size (charge_modes st) = k by rewrite (nf1_charge_modes Hn) size_iota.
rewrite En Ecm in B; rewrite En in Ds.
have Hf' : frame n C (apply_tr s r st) by apply: frame_apply.
have Hn' : nf1 n k D0 (apply_tr s r st).
  apply: nf1_apply2 => // i /andP [_ Hi]; exact: (cI_pos HC uC Hf' Hi).
have EwT i j : (j < n)%N -> mmul n (t_wT st) s i j = WS (apply_tr s r st) i j.
  move=> Hj; rewrite /WS /= En -mmulA; apply: mmul_eql => l Hl; exact: Ew.
have ch j : (j < n)%N -> is_charge st j = ~~ (j < n - k)%N by move=> Hj; apply: nf1_charge Hn Hj.
have ErwT i j : (j < n)%N -> t_wT st' i j =
    if (j < n - k)%N then WS st' i j else round01 (if kj == 0%N then 0 else WS st' i j).
  move=> Hj; rewrite Est' /= Em (negbTE m0) /round_zero_one /= -[is_charge _ j]/(is_charge st j) ch //.
  by rewrite Ekj En EwT // /WS /=; case: (j < n - k)%N.
split=> //.
- by rewrite Est'.
- by rewrite Est'.
- by rewrite Est'.
- split=> // i j Hi /andP [Hj1 Hj].
  have H : (j < n - k)%N = false by rewrite ltnNge Hj1.
  rewrite ErwT // H; apply: round01_val01.
  move: Hgs; rewrite /gs_successful En Em => /allP /(_ j); rewrite mem_iota Hj => /(_ isT).
  rewrite ch // H /= => /allP /(_ i); rewrite mem_iota Hi => /(_ isT).
  by rewrite /round_zero_one ch // H /= Ekj EwT // Est'.
- by move=> HlT; rewrite Est'; apply: (lT_exact_apply s r En HlT).
Qed.

(** phase zero-point coupling of junction i to mode j *)
Definition zp (st : tst) (i j : nat) : R :=
  Rabs (phi_zp (t_cI st j j) (t_lT st j j) * WS st i j).

Lemma trans3_all k st st' s r : m != 0%N -> nf1 n k D0 st -> frame n C st -> t_m st = m ->
  (forall i j, (j < n - k)%N -> t_wT st i j = WS st i j) ->
  trans3 st = Ok (st', (s, r)) ->
  [/\ (forall i j, (j < n)%N -> WS st' i j = WS st i j * (scale3 st j).2),
      (forall i j, (n - k <= j < n)%N -> t_wT st' i j = t_wT st i j /\ WS st' i j = WS st i j),
      (forall i j, (j < n - k)%N ->
         t_wT st' i j = if Rltb (zp st' i j) acc_har then 0 else WS st' i j),
      (forall j, (j < n - k)%N -> (exists i, (i < m)%N /\ Rlt acc_har (zp st' i j)) ->
         (forall i, (i < m)%N -> Rle (Rabs (t_wT st' i j)) 1) /\
         exists i, (i < m)%N /\ Rabs (t_wT st' i j) = 1) &
      lT_exact st -> lT_exact st'].
Proof.
move=> m0 Hn Hf Em Ew E3.
have [_ Ec El ES EwT] := trans3E Hn Hf E3; rewrite Em in EwT; have {}EwT := EwT m0.
have lt_n i : (i < n - k)%N -> (i < n)%N by move=> Hi; apply: leq_trans Hi (leq_subr _ _).
have EWS i j : (j < n)%N -> WS st' i j = WS st i j * (scale3 st j).2.
  by move=> Hj; rewrite /WS /mmul big_distrl /=; apply: eq_bigr => l _; rewrite ES // mulrA.
have Har j : (j < n - k)%N -> is_charge st j = false.
  by move=> Hj; rewrite (nf1_charge Hn) ?lt_n // Hj.
have Eal i j : (j < n - k)%N -> alphas st j i = zp st' i j.
  move=> Hj; rewrite /alphas /zp EWS ?lt_n //; congr Rabs.
  by rewrite ?RmultE (trans3_alpha _ Hn Hf E3 Hj) Ew.
have Ecut i j : (j < n - k)%N ->
    t_wT (scale3 st j).1 i j = if Rltb (zp st' i j) acc_har then 0 else t_wT st i j.
  move=> Hj; rewrite /scale3 Har // Em m0; case: ifP => _ /=; by rewrite /col_set eqxx Eal.
split=> //.
- move=> i j /andP [Hj1 Hj].
  have ch : is_charge st j by rewrite (nf1_charge Hn) // -leqNgt.
  by rewrite EwT // EWS // /scale3 ch /= !mulr1.
- move=> i j Hj; rewrite EwT ?lt_n // Ecut // EWS ?lt_n //.
  by case: ifP => _; rewrite ?mul0r // Ew.
- move=> j Hj [i0 [Hi0 Hbig]].
  have Hmax : Rltb acc_har (rmax m (alphas st j)).
    apply/RltbP; apply: Rlt_le_trans Hbig _; rewrite -Eal //.
    apply: (rmax_ub m (alphas st j) i0); exact/ltP.
  set a := argmax m (alphas st j).
  have Ha : (a < m)%N by apply/ltP; apply: argmax_lt; apply/ltP; rewrite lt0n.
  have aE : alphas st j a = rmax m (alphas st j) by apply: argmax_rmax.
  have acut : Rltb (zp st' a j) acc_har = false.
    rewrite -Eal // aE; apply/negP => /RltbP H; move/RltbP: Hmax => H'.
    by apply: (Rlt_irrefl acc_har); apply: Rlt_trans H' H.
  have v_E : (scale3 st j).2 = 1 / Rabs (t_wT st a j).
    by rewrite /scale3 Har // Em m0 Hmax /= /col_set eqxx -/a Eal // acut.
  have wa0 : t_wT st a j != 0.
    apply/eqP => w0; apply: (Rlt_irrefl acc_har); move/RltbP: Hmax => H'.
    apply: Rlt_trans H' _; rewrite -aE /alphas w0 mulr0 Rabs_R0; exact: acc_har_pos.
  have Rwa : Rabs (t_wT st a j) != 0.
    by apply/eqP; apply: Rabs_no_R0; apply/eqP.
  have wp : Rlt 0 (Rabs (t_wT st a j)) by apply: Rabs_pos_lt; apply/eqP.
  have Rv : Rabs (scale3 st j).2 = Rinv (Rabs (t_wT st a j)).
    rewrite v_E mul1r -RinvE Rabs_pos_eq //; apply: Rlt_le; exact: Rinv_0_lt_compat.
  have Ph : Rlt 0 (phi_zp (t_cI st j j) (t_lT st j j)).
    have [_ _ _ Hc [_ [HlTp _]]] := Hn.
    by apply: phi_zp_pos; [apply: Hc; apply: lt_n | apply: HlTp].
  have le_a i : (i < m)%N -> Rle (Rabs (t_wT st i j)) (Rabs (t_wT st a j)).
    move=> Hi; have H : Rle (alphas st j i) (alphas st j a).
      by rewrite aE; apply: (rmax_ub m (alphas st j) i); apply/ltP.
    have Eabs l : alphas st j l = Rmult (phi_zp (t_cI st j j) (t_lT st j j)) (Rabs (t_wT st l j)).
      by rewrite -[X in Rmult X _](Rabs_pos_eq _ (Rlt_le _ _ Ph)) -Rabs_mult.
    by move: H; rewrite !Eabs; apply: Rmult_le_reg_l.
  split.
    move=> i Hi; rewrite EwT ?lt_n // Ecut // -RmultE Rabs_mult Rv.
    case: ifP => _; first by rewrite Rabs_R0 Rmult_0_l; apply: Rle_0_1.
    apply: (Rmult_le_reg_r (Rabs (t_wT st a j))) => //.
    rewrite Rmult_assoc Rinv_l; last exact/eqP.
    by rewrite Rmult_1_r Rmult_1_l; apply: le_a.
  exists a; split=> //; rewrite EwT ?lt_n // Ecut // acut -RmultE Rabs_mult Rv.
  by rewrite Rinv_r //; apply/eqP.
- move=> HlT; move: E3; rewrite /trans3.
  case E: scales3 => [st3 x]; case: inv => [r3|//] [<- _ _].
  have [w [E1 _]] := scales3P (t_n st) st; rewrite E /= in E1.
  have [_ [En _] _ _ _] := Hn.
  by apply: lT_exact_apply; rewrite E1.
Qed.

(** ** All three *)
Lemma transform_all tries fuel sv order draw st' :
  transform_hamil croot D0 U eigL tries fuel sv order draw st0 = Some (Ok st') ->
  exists k, [/\ sing_locs n D0 eigL = iota (n - k) k,
    nf1 n k D0 st', frame n C st',
    (forall i, i \in sing_locs n D0 eigL -> D0 i = 0) -> lT_exact st' &
    t_m st' = m /\ (m != 0%N ->
    [/\ (forall i j, (i < m)%N -> (n - k <= j < n)%N -> val01 (t_wT st' i j)),
        (forall i j, (n - k <= j < n)%N ->
           t_wT st' i j = round01 (if kj == 0%N then 0 else WS st' i j)),
        (forall i j, (j < n - k)%N ->
           t_wT st' i j = if Rltb (zp st' i j) acc_har then 0 else WS st' i j) &
        (forall j, (j < n - k)%N -> (exists i, (i < m)%N /\ Rlt acc_har (zp st' i j)) ->
           (forall i, (i < m)%N -> Rle (Rabs (t_wT st' i j)) 1) /\
           exists i, (i < m)%N /\ Rabs (t_wT st' i j) = 1)])].
Proof.
rewrite /transform_hamil; case E1: trans1 => [[st1 [s1 r1]]|//].
have [k [Ek Hn Hf uC [[Em [Ekj EW]] [Ew HlT]]]] := trans1_all E1.
rewrite [t_m (set_omega st1)]/= Em; case: ifP => [/eqP m0|m0] H; exists k.
- case E3: trans3 H => [[st4 [s3 r3]]|] // [<-].
  have [[_ [Em4 _]] _ _ _ _] := trans3E Hn Hf E3.
  have [Hf4 _] := trans3_frame E3 Hf.
  split=> //; first exact: nf1_trans3 Hn Hf E3.
    move=> Hz; have {}HlT : lT_exact (set_omega st1) := HlT Hz.
    move: E3; rewrite /trans3; case E: scales3 => [st3 x]; case: inv => [r|//] [<- _ _].
    have [w [E3' _]] := scales3P (t_n (set_omega st1)) (set_omega st1); rewrite E /= in E3'.
    have [_ [En _] _ _ _] := Hn.
    by apply: lT_exact_apply; rewrite E3'.
  by rewrite Em4 /= Em m0.
- move: H; case E2: trans2 => [[[st3 [s2 r2]]|]|] //.
  case E3: trans3 => [[st4 [s3 r3]]|] // [<-].
  have [Hn3 Hf3 [Em3 [Ekj3 EW3]] [Ew3 H01] HlT3] :=
    trans2_all (negbT m0) Hn Hf uC Em Ekj EW (Ew (negbT m0)) E2.
  have Ew3' i j : (j < n - k)%N -> t_wT st3 i j = WS st3 i j.
    by move=> Hj; rewrite Ew3 ?Hj //; apply: leq_trans Hj (leq_subr _ _).
  have [H1 H2 H3 H4 H5] := trans3_all (negbT m0) Hn3 Hf3 Em3 Ew3' E3.
  have [Hf4 _] := trans3_frame E3 Hf3.
  split=> //; first exact: nf1_trans3 Hn3 Hf3 E3.
    by move=> Hz; apply: H5; apply: HlT3; apply: HlT.
  have [[_ [Em4 _]] _ _ _ _] := trans3E Hn3 Hf3 E3.
  split; first by rewrite Em4.
  move=> _; split=> //.
  + by move=> i j Hi Hj; have [-> _] := H2 i j Hj; apply: H01.
  + move=> i j Hj; have [-> ->] := H2 i j Hj; case/andP: Hj => Hj1 Hj.
    by rewrite Ew3 // ltnNge Hj1.
Qed.
End Whole.

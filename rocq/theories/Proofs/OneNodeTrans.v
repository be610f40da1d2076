(** OneNodeTrans.v -- the transformations of a circuit of one node. *)
From Coq Require Import Reals ZArith Lra.
From Verif.Model Require Import Base Units Edge LCWB Rounding Accuracy HamConst.
From Verif.Proofs Require Import AccProofs.
From mathcomp Require Import all_ssreflect all_algebra.
From Verif.Numerics Require Import RStruct Bridge.
From Verif.Model Require Import FluxDist Transform.
From Verif.Spec Require Import TransSpec.
From Verif.Proofs Require Import GramProofs TransProofs TransProofs2 TransProofs3 TransProofs4.

Set Implicit Arguments.
Unset Strict Implicit.
Unset Printing Implicit Defensive.
Import GRing.Theory.
Local Open Scope ring_scope.

Lemma inv1 A B : inv 1 A = Ok B -> A 0%N 0%N * B 0%N 0%N = 1.
Proof.
move=> /invP [u E]; have := mulmxV u; rewrite -E => /matrixP /(_ 0 0).
by rewrite !mxE big_ord_recl big_ord0 !mxE /= addr0.
Qed.
Lemma mmul1 A B i j : mmul 1 A B i j = A i 0%N * B 0%N j.
Proof. by rewrite /mmul big_ord_recl big_ord0 addr0. Qed.

Lemma kept1 sv p K i : i \in kept_columns sv p 1 K -> i = 0%N.
Proof.
move=> /mapP [k _ ->]; set z := nzcols _ _ _.
have lt : all (fun j => (j < 1)%N) z by apply/allP => j; rewrite mem_filter mem_iota => /andP [_ /andP [_]].
case: (ltnP k (size z)) => h; last by rewrite nth_default.
by move/allP: lt => /(_ _ (mem_nth 0%N h)); case: (nth _ _ _).
Qed.

Lemma loop1 fuel order w draw : forall k ind ind' rnd' basis, (size basis <= 1)%N -> size ind = size basis ->
  basis_loop fuel order 1 w draw k ind [::] basis = Some (ind', rnd') -> rnd' = [::].
Proof.
elim: fuel => [|f IH] k ind ind' rnd' basis le sz /=.
  by case: ifP => // _ [_ <-].
case: ifP => [_ [_ <-] //|ne]; case: ifP => [_|e].
  apply: IH; first by rewrite -(let: And5 Hs _ _ _ _ := independent_rowsP 1 w order in Hs); exact: selected_bounded.
  by have [Hs _ _ _ _] := independent_rowsP 1 w order.
by case: basis le ne e {sz} => [|x [|y s]].
Qed.

(** A junction across a node without inductors: one transformation puts the phase of the
    mode equal to the phase of the node. *)
Lemma charge1 C L W st0 croot D0 U eigL tries fuel sv order draw st :
  t_init 1 1 1 C L W = Ok st0 -> D0 0%N = 0 -> W 0%N 0%N = 1 ->
  transform_hamil croot D0 U eigL tries fuel sv order draw st0 = Some (Ok st) -> t_S st 0%N 0%N = 1.
Proof.
rewrite /t_init; case: inv => [cI|//] [<-] d0 w1; rewrite /transform_hamil /trans1 /=.
have mx : rmax 1 D0 == 0 by rewrite /= d0 eqxx.
rewrite /sing_locs mx; case: inv => [cri|//]; set s1 := mmul _ _ _; case E1: inv => [s1i|//] /=.
set st1 := set_omega _.
have ch : is_charge st1 0 by rewrite /is_charge /st1 /set_omega /= /zero_diag /= Rmult_0_r sqrt_0.
have cm : charge_modes st1 = [:: 0%N] by rewrite /charge_modes /= ch.
have s10 : s1 0%N 0%N != 0.
  by apply/eqP => z; move: (inv1 E1); rewrite z mul0r => /eqP; rewrite eq_sym oner_eq0.
case E2: trans2 => [[[st3 [s2 r2]]|//]|//].
have [St Om] : t_S st3 0%N 0%N = 1 /\ t_om st3 0%N = 0 /\ t_n st3 = 1%N.
  suff X : forall t a, trans2 t fuel sv order s1 draw a st1 = Some (Ok (st3, (s2, r2))) ->
      t_S st3 0%N 0%N = 1 /\ t_om st3 0%N = 0 /\ t_n st3 = 1%N by exact: X E2.
  elim=> [//|t IH] a /=; case E: attempt2 => [[[s r]|//]|//].
  case: ifP => [_ [E3 _ _]|_]; last exact: IH.
  have q : s 0%N 0%N = (s1 0%N 0%N)^-1.
    move: E; rewrite /attempt2 cm /=; set w := w_charge _ _ _.
    have wE i : nth (fun=> 0) w i 0%N = 0 \/ nth (fun=> 0) w i 0%N = s1 0%N 0%N.
      case: (ltnP i (size w)) => hi; last by left; rewrite nth_default.
      right; move: hi; rewrite size_map => hi; rewrite (nth_map 0%N) // cm /= mmul1.
      by rewrite (kept1 (mem_nth 0%N hi)) w1 mul1r.
    case EB: basis_loop => [[ind rnd]|//]; have rn := loop1 (ind := [::]) (basis := [::]) isT erefl EB.
    rewrite rn cats0; case: ifP => // /negbFE; rewrite size_map => /eqP sz.
    case EF: inv => [fi|//]; case ER: inv => [r2'|//] [<- _].
    rewrite /block_low /=; have := inv1 EF; case: ind sz {EB EF ER} => [|i [|]] //= _.
    by case: (wE i) => ->; rewrite ?mul0r => /eqP; rewrite ?(eq_sym 0) ?oner_eq0 // -(inj_eq (mulfI (invr_neq0 s10))) mulKf // mulr1 => /eqP.
  rewrite -E3 /= mmul1 q /st1 /= mmul1 /eye /= mul1r mulfV //; split=> //; split=> //.
  by move: ch => /eqP.
case: Om => Om nn; rewrite /trans3 nn /=; rewrite /scale3 /is_charge Om eqxx /=.
case: inv => [r3|//] [<-] /=; by rewrite nn mmul1 St /dg /= mulr1.
Qed.

Lemma toM1 A : toM 1 1 A = (A 0%N 0%N)%:M.
Proof. by apply/matrixP => i j; rewrite !mxE !ord1 eqxx mulr1n. Qed.
Lemma scalar1_inj (x y : R) : x%:M = y%:M :> 'M[R]_1 -> x = y.
Proof. by move=> /matrixP /(_ 0 0); rewrite !mxE eqxx !mulr1n. Qed.

Section Values.
Variables (m kj : nat) (C L W : arr) (st0 : tst) (croot lroot X U : arr) (D0 eigL : vec).
Variables (tries fuel : nat) (sv : svd_fun) (order : seq R -> seq nat) (draw : nat -> nat -> seq vec) (st : tst).
Let c := C 0%N 0%N.
Let l := L 0%N 0%N.
Hypothesis EI : t_init 1 m kj C L W = Ok st0.
Hypothesis HC : root_of (toM 1 1 C) (toM 1 1 croot).
Hypothesis HL : root_of (toM 1 1 L) (toM 1 1 lroot).
Hypothesis HA : svd_of (toM 1 1 lroot *m invmx (toM 1 1 croot)) (toM 1 1 X) (toM 1 1 U) (toV 1 D0).
Hypothesis Ht : transform_hamil croot D0 U eigL tries fuel sv order draw st0 = Some (Ok st).

Lemma c_pos : Rlt 0 c.
Proof.
have cn : c != 0.
  move: EI; rewrite /t_init; case E: inv => [ci|//] _; apply/eqP => z; move: (inv1 E).
  by rewrite -/c z mul0r => /eqP; rewrite eq_sym oner_eq0.
have [_] := HC; rewrite !toM1 -scalar_mxM => /scalar1_inj e.
have e' : c = Rmult (croot 0%N 0%N) (croot 0%N 0%N) by [].
have := Rle_0_sqr (croot 0%N 0%N); rewrite /Rsqr -e'; case=> [//|z]; by rewrite -z eqxx in cn.
Qed.
Lemma root_nz : croot 0%N 0%N != 0.
Proof.
apply/eqP => z; have [_] := HC; rewrite !toM1 -scalar_mxM => /scalar1_inj; rewrite z mul0r => e.
by have := c_pos; rewrite /c -e => /Rlt_irrefl.
Qed.
Lemma D_zero : D0 0%N = 0 <-> l = 0.
Proof.
have [_] := HL; rewrite !toM1 -scalar_mxM => /scalar1_inj eL.
have [XX UU E _] := HA.
have dE : diag_mx (toV 1 D0) = (D0 0%N)%:M :> 'M[R]_1.
  by apply/matrixP => i j; rewrite !mxE !ord1 eqxx.
move: XX UU E; rewrite dE !toM1 invmx_scalar !tr_scalar_mx -!scalar_mxM => /scalar1_inj XX /scalar1_inj UU /scalar1_inj E.
rewrite /l -eL; split=> z.
  by move/eqP: E; rewrite z mulr0 mul0r mulf_eq0 invr_eq0 (negbTE root_nz) orbF => /eqP ->; rewrite mul0r.
have {}z : lroot 0%N 0%N = 0 by apply/eqP; move/eqP: z; rewrite mulf_eq0 orbb.
move/eqP: E; rewrite z mul0r eq_sym !mulf_eq0 => /orP [/orP [/eqP x0|/eqP //]|/eqP u0].
  by move/eqP: XX; rewrite x0 mulr0 eq_sym oner_eq0.
by move/eqP: UU; rewrite u0 mulr0 eq_sym oner_eq0.
Qed.

Lemma frame1 : [/\ t_n st = 1%N, t_n0 st = 1%N, t_S st 0%N 0%N * t_R st 0%N 0%N = 1 &
  t_cI st 0%N 0%N = t_R st 0%N 0%N * c^-1 * t_R st 0%N 0%N].
Proof.
have [k [_ _ [[-> ->] SR cI] _ _]] := transform_all EI HC HL HA Ht.
move: SR cI; rewrite !toM1 !invmx_scalar !tr_scalar_mx -!scalar_mxM => /scalar1_inj SR /scalar1_inj cI; by split.
Qed.

(** No inductor and a junction: a charge mode with the phase of the node. *)
Lemma island1 : m = 1%N -> kj = 1%N -> W 0%N 0%N = 1 -> l = 0 ->
  [/\ t_n st = 1%N /\ t_m st = 1%N, t_om st 0%N = 0, t_wT st 0%N 0%N = 1 & t_cI st 0%N 0%N = c^-1].
Proof.
move=> m1 k1 w1 l0; have d0 := (D_zero.2 l0).
have s1 : t_S st 0%N 0%N = 1.
  by move: EI => EI'; rewrite m1 k1 in EI'; exact: charge1 EI' d0 w1 Ht.
have [n1 _ SR cI] := frame1; rewrite s1 mul1r in SR; rewrite SR mul1r mulr1 in cI.
have [k [Ek Hn _ _ [Em H]]] := transform_all EI HC HL HA Ht.
have mx : rmax 1 D0 == 0 by rewrite /= d0 eqxx.
have kk : k = 1%N by move: Ek; rewrite /sing_locs mx => /(congr1 size); rewrite !size_iota.
have [_ _ _ _ [_ [_ [_ [_ Hom]]]]] := Hn.
split=> //; rewrite ?Em ?m1 //; first by rewrite Hom // kk.
have [_ w _ _] := H (ltac:(by rewrite m1)); rewrite w ?kk // k1 /= /WS mmul1 w1 s1 mulr1.
have [p q] := acc_gs_small.
case: (round01_cases 1) => [[h ->]|[[h ->] //|[[h ->]|[_ [_ [_ ->]]]]]] //; exfalso; move: h.
  by rewrite Rabs_R1 => h; apply: (Rlt_irrefl R1); apply: Rlt_trans h _; lra.
move=> h; have h' : Rlt (Rabs (Rplus R1 R1)) acc_gs by exact: h.
have := Rle_abs (Rplus R1 R1); lra.
Qed.

(** An inductor: a harmonic mode, with the flux of the node up to the sign. *)
Definition sign_of (x : R) : R := if Rlt_dec x 0 then Ropp R1 else R1.
Lemma zp_scale k s r cc ll : Rlt 0 cc -> Rlt 0 ll -> Rmult s r = R1 -> Rle 0 k ->
  Rmult (sqrt (Rmult k (sqrt (Rdiv (Rmult (Rmult r (Rinv cc)) r) (Rmult (Rmult s ll) s))))) s =
  Rmult (sign_of s) (sqrt (Rmult k (sqrt (Rdiv (Rinv cc) ll)))).
Proof.
move=> c0 l0 sr k0; have s0 : s <> R0 by move=> z; rewrite z Rmult_0_l in sr; lra.
have -> : r = Rinv s by apply: (Rmult_eq_reg_l s); rewrite // sr Rinv_r.
have ss : Rlt 0 (Rmult s s) by exact: (Rsqr_pos_lt s s0).
have i0 : Rlt 0 (Rinv (Rmult s s)) by exact: Rinv_0_lt_compat.
have z0 : Rle 0 (Rdiv (Rinv cc) ll).
  by apply: Rlt_le; apply: Rdiv_lt_0_compat => //; apply: Rinv_0_lt_compat.
rewrite (_ : Rdiv _ _ = Rmult (Rdiv (Rinv cc) ll) (Rsqr (Rinv (Rmult s s)))); last first.
  rewrite /Rsqr; field; lra.
have -> : sqrt (Rmult (Rdiv (Rinv cc) ll) (Rsqr (Rinv (Rmult s s)))) = Rmult (sqrt (Rdiv (Rinv cc) ll)) (Rinv (Rmult s s)).
  by rewrite sqrt_mult_alt // sqrt_Rsqr //; exact: Rlt_le.
rewrite -Rmult_assoc sqrt_mult_alt; last by apply: Rmult_le_pos => //; apply: sqrt_pos.
rewrite -[Rmult s s]/(Rsqr s) sqrt_inv.
rewrite sqrt_Rsqr_abs Rmult_assoc Rmult_comm; congr Rmult.
rewrite /sign_of; case: Rlt_dec => h; [rewrite Rabs_left //|rewrite Rabs_pos_eq; last lra]; rewrite /=; field; lra.
Qed.

Lemma osc1 : Rlt 0 l -> eigL 0%N = l ->
  let sg := sign_of (t_S st 0%N 0%N) in
  [/\ [/\ t_n st = 1%N, t_n0 st = 1%N & t_m st = m], t_om st 0%N = sqrt (Rdiv l c) /\ t_om st 0%N <> 0,
      Rmult (t_S st 0%N 0%N) (f_zp (impedance (t_cI st 0%N 0%N) (t_lT st 0%N 0%N))) = Rmult sg (f_zp (impedance (Rinv c) l)) &
      m <> 0%N -> W 0%N 0%N = 1 -> ~ Rlt (phi_zp (Rinv c) l) acc_har ->
      Rmult (phi_zp (t_cI st 0%N 0%N) (t_lT st 0%N 0%N)) (t_wT st 0%N 0%N) = Rmult sg (phi_zp (Rinv c) l)].
Proof.
move=> lp eL sg; have [n1 n01 SR cI] := frame1; have cp := c_pos.
have [k [Ek Hn _ HlT [Em H]]] := transform_all EI HC HL HA Ht.
have dn : D0 0%N <> 0 by move=> /(D_zero.1) z; rewrite -/l z in lp; exact: (Rlt_irrefl _ lp).
have mx : (rmax 1 D0 == 0) = false by apply/negbTE/eqP.
have pf : Rltb (Rdiv (eigL 0%N) (rmax 1 eigL)) acc_sing = false.
  have -> : Rdiv (eigL 0%N) (rmax 1 eigL) = R1.
    by rewrite -[rmax 1 eigL]/(eigL 0%N) eL; apply: Rinv_r => z; rewrite z in lp; exact: (Rlt_irrefl _ lp).
  by apply/negP => /RltbP; rewrite /acc_sing => h; lra.
have k0 : k = 0%N.
  move: Ek; rewrite /sing_locs mx.
  have -> : count (fun i => Rltb (Rdiv (eigL i) (rmax 1 eigL)) acc_sing) (iota 0 1) = 0%N.
    by transitivity (Rltb (Rdiv (eigL 0%N) (rmax 1 eigL)) acc_sing + 0)%N; last rewrite pf.
  by move=> /(congr1 size); rewrite !size_iota.
have lT : t_lT st 0%N 0%N = t_S st 0%N 0%N * l * t_S st 0%N 0%N.
  have : lT_exact 1 L st by apply: HlT => i; rewrite Ek k0.
  by rewrite /lT_exact !toM1 !tr_scalar_mx -!scalar_mxM => /scalar1_inj.
have [_ _ HD _ [_ [_ [_ [Hsq Hom]]]]] := Hn.
have Dp : Rlt 0 (D0 0%N) by apply: HD; rewrite k0.
have sr : Rmult (t_S st 0%N 0%N) (t_R st 0%N 0%N) = R1 by exact: SR.
have ci : t_cI st 0%N 0%N = Rmult (Rmult (t_R st 0%N 0%N) (Rinv c)) (t_R st 0%N 0%N).
  by rewrite cI -RinvE //; apply/eqP => z; rewrite z in cp; exact: (Rlt_irrefl _ cp).
have li : t_lT st 0%N 0%N = Rmult (Rmult (t_S st 0%N 0%N) l) (t_S st 0%N 0%N) by [].
have omE : t_om st 0%N = D0 0%N by rewrite Hom // k0.
split=> //.
- split; last by rewrite omE => z; rewrite z in Dp; exact: (Rlt_irrefl _ Dp).
  rewrite omE -Hsq ?k0 //; congr sqrt; rewrite ci li -[LHS]/(Rmult _ _).
  transitivity (Rmult (Rmult (Rsqr (Rmult (t_S st 0%N 0%N) (t_R st 0%N 0%N))) (Rinv c)) l).
    rewrite /Rsqr; ring.
  rewrite sr /Rsqr /Rdiv; ring.
- rewrite /f_zp /impedance ci li Rmult_comm; apply: zp_scale => //; lra.
- move=> m0 w1 big; have {}m0 : m != 0%N by apply/eqP.
  have E : Rmult (phi_zp (t_cI st 0%N 0%N) (t_lT st 0%N 0%N)) (t_S st 0%N 0%N) = Rmult sg (phi_zp (Rinv c) l).
    rewrite /phi_zp /impedance ci li Rmult_assoc zp_scale //; last first.
      by rewrite /hbar; lra.
    rewrite /sg; ring.
  have [_ _ w _] := H m0; rewrite w ?k0 //; set z := zp _ _ _ _ _.
  have wE : WS 1 W st 0%N 0%N = t_S st 0%N 0%N by rewrite /WS mmul1 w1 mul1r.
  have zE : z = phi_zp (Rinv c) l.
    rewrite /z /zp wE E Rabs_mult [Rabs (phi_zp _ _)]Rabs_pos_eq; last first.
      by apply: Rlt_le; apply: phi_zp_pos => //; apply: Rinv_0_lt_compat.
    by rewrite /sg /sign_of; case: Rlt_dec => h; rewrite /= ?Rabs_Ropp Rabs_R1 Rmult_1_l.
  rewrite zE (_ : Rltb _ _ = false) ?wE //; by apply/negP => /RltbP.
Qed.
End Values.

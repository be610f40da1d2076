(** RemovalCase.v -- two uncoupled oscillators, the second with a junction: the
    first mode is removed and the second one inherits its coefficients. *)
From Coq Require Import Reals ZArith Lra Lia.
From Verif.Model Require Import Base Units Elements Edge LCWB Rounding Accuracy HamConst.
From Verif.Proofs Require Import HamConstProofs.
From mathcomp Require Import all_ssreflect all_algebra.
From Verif.Numerics Require Import RStruct Bridge.
From Verif.Model Require Import FluxDist Transform.
From Verif.Spec Require Import TransSpec.
From Verif.Proofs Require Import AccProofs TransProofs TransProofs1 TransProofs2 TransProofs3.
From Verif.Proofs Require Import TransProofs4 TransProofs6.

Set Implicit Arguments.
Unset Strict Implicit.
Unset Printing Implicit Defensive.
Import GRing.Theory.
Local Open Scope ring_scope.

Definition rmD : vec := fun i => if i == 0%N then IZR 2 else R1.
Definition rmL : vec := fun i => if i == 0%N then IZR 4 else R1.
Definition rmW : arr := fun _ j => if j == 1%N then R1 else R0.

(** Any arrays with these entries. *)
Section Case.
Variables (Cm Lm Wm : arr).
Hypothesis HCm : toM 2 2 Cm = toM 2 2 eye.
Hypothesis HLm : toM 2 2 Lm = toM 2 2 (dg rmL).
Hypothesis HWm : forall j, (j < 2)%N -> Wm 0%N j = rmW 0%N j.
Definition rm_st : tst :=
  mkT 2 2 1 0 Wm eye eye (ofM (invmx (toM 2 2 Cm))) Lm Wm (fun=> 0).

Lemma rm_init : t_init 2 1 0 Cm Lm Wm = Ok rm_st.
Proof. by rewrite /t_init /inv /rm_st HCm toM_eye unitmx1. Qed.
Lemma rm_root : root_of (toM 2 2 Cm) (toM 2 2 eye).
Proof. by rewrite HCm toM_eye; split; rewrite ?trmx1 ?mulmx1. Qed.
Lemma four : (IZR 2 * IZR 2 = IZR 4 :> R). Proof. by change (Rmult (IZR 2) (IZR 2) = IZR 4); lra. Qed.
Lemma rm_lroot : root_of (toM 2 2 Lm) (toM 2 2 (dg rmD)).
Proof.
rewrite HLm !toM_dg; split; first exact: tr_diag_mx.
rewrite mulmx_diag; congr diag_mx; apply/rowP => i; rewrite !mxE /rmD /rmL.
by case: eqP => _; rewrite ?mulr1 // four.
Qed.
Lemma rm_svd : svd_of (toM 2 2 (dg rmD) *m invmx (toM 2 2 eye)) (toM 2 2 eye) (toM 2 2 eye) (toV 2 rmD).
Proof.
rewrite toM_eye toM_dg; split; rewrite ?trmx1 ?invmx1 ?mulmx1 ?mul1mx //.
by move=> i; rewrite mxE /rmD; case: eqP => _; [apply: (IZR_le 0 2) | apply: Rle_0_1].
Qed.
Lemma rm_rmax : rmax 2 rmD = IZR 2.
Proof. by rewrite /= Rmax_left //; apply: (IZR_le 1 2). Qed.
Lemma rm_rmaxL : rmax 2 rmL = IZR 4.
Proof. by rewrite /= Rmax_left //; apply: (IZR_le 1 4). Qed.
Lemma two0 : (IZR 2 == 0 :> R) = false.
Proof. by apply/negbTE/eqP => E; have := eq_IZR 2 0 E. Qed.
Lemma rm_sing : sing_locs 2 rmD rmL = [::].
Proof.
rewrite /sing_locs rm_rmax two0 rm_rmaxL /=.
have -> : Rltb (rmL 0%N / IZR 4) acc_sing = false.
  by apply/RltbP; rewrite /rmL /=; change (~ Rlt (Rmult (IZR 4) (Rinv (IZR 4))) acc_sing); rewrite /acc_sing; lra.
have -> // : Rltb (rmL 1%N / IZR 4) acc_sing = false.
by apply/RltbP; rewrite /rmL /=; change (~ Rlt (Rmult R1 (Rinv (IZR 4))) acc_sing); rewrite /acc_sing; lra.
Qed.
Lemma rm_scale i : (i < 2)%N -> scale_of 2 rmD rmL i = rmD i.
Proof. by rewrite /scale_of rm_rmax two0 rm_sing. Qed.
Lemma rm_pos i : Rlt 0 (rmD i).
Proof. by rewrite /rmD; case: eqP => _; [apply: (IZR_lt 0 2)|apply: Rlt_0_1]. Qed.

Lemma scale3_wT st j i : is_charge st j = false -> t_m st != 0%N ->
  t_wT (scale3 st j).1 i j = if Rltb (alphas st j i) acc_har then 0 else t_wT st i j.
Proof. by move=> Hc Hm; rewrite /scale3 Hc Hm; case: ifP => _; rewrite /= /col_set eqxx. Qed.

Lemma rm_run sv order tries fuel draw : exists st,
  [/\ transform_hamil eye rmD eye rmL tries.+1 fuel sv order draw rm_st = Some (Ok st),
      t_n st = 2%N /\ t_n0 st = 2%N /\ t_m st = 1%N,
      t_S st 1%N 0%N = 0 /\ t_S st 1%N 1%N <> 0 /\ t_S st 0%N 1%N = 0,
      t_wT st 0%N 0%N = 0 /\ t_wT st 0%N 1%N <> 0 &
      t_om st 0%N = IZR 2 /\ t_om st 1%N = R1 /\ Rlt 0 (t_cI st 1%N 1%N) /\ Rlt 0 (t_lT st 1%N 1%N)].
Proof.
have [st1 [s1 [r1 E1]]] := trans1_total (eigL := rmL) rm_init isT rm_root rm_svd
  (fun i _ _ => not_eq_sym (Rlt_not_eq _ _ (rm_pos i))).
have [k [Ek Hn Hf uC [[Em [Ekj EW]] [Ew HlT]]]] := trans1_all rm_init rm_root rm_lroot rm_svd E1.
have {Ek} Ek0 : k = 0%N by have := congr1 size Ek; rewrite rm_sing size_iota.
subst k; rewrite /= in Em Ekj.
have [_ EcI ElT _ [_ [_ [ES [_ EwT]]]]] := trans1_diag rm_init rm_root rm_lroot rm_svd E1.
have Es1 i j : (i < 2)%N -> (j < 2)%N -> s1 i j = if i == j then sqrt (rmD j) else 0.
  move=> Hi Hj; move: E1; rewrite /trans1 /=; case Ei: inv => [cri|//]; case: inv => [si|//] [_ <- _].
  have [_ Ec] := invP Ei; rewrite toM_eye invmx1 in Ec.
  have E a b : (a < 2)%N -> (b < 2)%N -> cri a b = eye a b.
    by move=> Ha Hb; have := congr1 (fun M : 'M_2 => M (Ordinal Ha) (Ordinal Hb)) Ec; rewrite -toM_eye !mxE.
  rewrite mmul_dg // rm_scale //.
  have -> : mmul 2 cri (tr eye) i j = eye i j.
    rewrite (mmul_eql _ _ (A' := eye)); last by move=> l Hl; apply: E.
    have := mx_entry Hi Hj (_ : toM 2 2 (mmul 2 eye (tr eye)) = toM 2 2 eye).
    by rewrite !mxE; apply; rewrite toM_mmul toM_tr toM_eye trmx1 mulmx1.
  by rewrite /eye; case: eqP => _; rewrite ?mul1r ?mul0r.
have eyeS i j : (i < 2)%N -> t_S st1 i j = s1 i j.
  move=> Hi; rewrite ES /mmul (bigD1 (Ordinal Hi)) //= /eye eqxx mul1r big1 ?addr0 // => l.
  by rewrite -(inj_eq val_inj) /= eq_sym => /negbTE ->; rewrite mul0r.
have sq1 : sqrt (rmD 1%N) = 1 by rewrite /rmD /= sqrt_1.
have w1 : t_wT st1 0%N 0%N = 0 /\ t_wT st1 0%N 1%N = 1.
  rewrite EwT /= /mmul !big_ord_recr !big_ord0 /= !Es1 //= sq1 !HWm // /rmW /=.
  by rewrite ?mul0r ?mul1r ?add0r ?mulr0 ?mul0r ?add0r.
have Ech := nf1_charge_modes Hn; rewrite /= in Ech.
pose st2 := set_omega st1.
have E2 : trans2 tries.+1 fuel sv order s1 draw 0 st2 =
   Some (Ok (set_wT (apply_tr eye eye st2) (round_zero_one (apply_tr eye eye st2) (t_wT (apply_tr eye eye st2))), (eye, eye))).
  rewrite /= /attempt2 Ech /= orbT /=.
  rewrite ifT //; apply/allP => j; rewrite mem_iota add0n => /andP[_ Hj].
  apply/implyP => Hc; have [_ [En2 _] _ _ _] := Hn; rewrite En2 in Hj.
  by move: Hc; rewrite (nf1_charge Hn Hj) Hj.
have [Hn3 Hf3 [Em3 _] [Ew3 _] _] := trans2_all Lm rm_root (isT : 1%N != 0%N) Hn Hf uC Em Ekj EW (Ew isT) E2.
have [st4 [s3 [r3 E3]]] := trans3_total Hn3 Hf3.
have [[Eom [Em4 [En4 [En04 _]]]] Ec4 El4 ES4 Ew4] := trans3E Hn3 Hf3 E3.
have p0 := scale3_pos Hn3 Hf3 (isT : (0 < 2)%N); have p1 := scale3_pos Hn3 Hf3 (isT : (1 < 2)%N).
move: E3 Hn3 Hf3 Em3 Ew3 Eom Em4 Ec4 El4 ES4 Ew4 p0 p1; set st3 := set_wT _ _.
move=> E3 Hn3 Hf3 Em3 Ew3 Eom Em4 Ec4 El4 ES4 Ew4 p0 p1.
have S3 i j : (i < 2)%N -> (j < 2)%N -> t_S st3 i j = s1 i j.
  move=> Hi Hj; have [_ [En2 _] _ _ _] := Hn; rewrite /= in En2; rewrite /st3 /= En2.
  have := mx_entry Hi Hj (_ : toM 2 2 (mmul 2 (t_S st1) eye) = toM 2 2 (t_S st1)).
  rewrite !mxE /= => ->; last by rewrite toM_mmul toM_eye mulmx1.
  exact: eyeS.
have cl3 : t_cI st3 1%N 1%N = t_cI st1 1%N 1%N /\ t_lT st3 1%N 1%N = t_lT st1 1%N 1%N.
  have [_ [En2 _] _ _ _] := Hn; rewrite /= in En2; rewrite /st3 /= En2.
  split.
    have := mx_entry (isT : (1 < 2)%N) (isT : (1 < 2)%N) (_ : toM 2 2 (mmul 2 (mmul 2 (tr eye) (t_cI st1)) eye) = toM 2 2 (t_cI st1)).
    by rewrite !mxE /=; apply; rewrite !toM_mmul toM_tr toM_eye trmx1 mul1mx mulmx1.
  have := mx_entry (isT : (1 < 2)%N) (isT : (1 < 2)%N) (_ : toM 2 2 (mmul 2 (mmul 2 (tr eye) (t_lT st1)) eye) = toM 2 2 (t_lT st1)).
  by rewrite !mxE /=; apply; rewrite !toM_mmul toM_tr toM_eye trmx1 mul1mx mulmx1.
have c1 : t_cI st3 1%N 1%N = 1.
  by have [-> _] := cl3; rewrite EcI // eqxx rm_scale // /rmD /= divr1.
have l1 : t_lT st3 1%N 1%N = 1.
  by have [_ ->] := cl3; rewrite ElT // eqxx rm_sing rm_scale // /rmD /= expr1n mulr1.
have W3 j : (j < 2)%N -> t_wT st3 0%N j = t_wT st1 0%N j.
  move=> Hj; rewrite Ew3 // subn0 Hj; have -> : t_wT st1 = mmul 2 Wm s1 by rewrite EwT.
  by rewrite /WS /mmul; apply: eq_bigr => l _; rewrite S3 // ltn_ord.
have notch j : (j < 2)%N -> is_charge st3 j = false.
  by move=> Hj; rewrite (nf1_charge Hn3 Hj) subn0 Hj.
exists st4; split.
- rewrite /transform_hamil E1 [t_m _]/= Em; have -> : (1 == 0)%N = false by [].
  by rewrite -/st2 E2 -/st3 E3.
- by rewrite En4 En04 Em4 Em3.
- rewrite !ES4 // !S3 // !Es1 //= !mul0r sq1 mul1r; split=> //; split=> // E.
  by move: p1; rewrite E => /Rlt_irrefl.
- rewrite !Ew4 ?Em3 //; split.
    suff -> : t_wT (scale3 st3 0%N).1 0%N 0%N = 0 by rewrite mul0r.
    rewrite scale3_wT ?notch ?Em3 // W3 //; have [-> _] := w1; by case: ifP.
  suff -> : t_wT (scale3 st3 1%N).1 0%N 1%N = 1.
    by rewrite mul1r => E; move: p1; rewrite E => /Rlt_irrefl.
  have small : Rltb (alphas st3 1%N 0%N) acc_har = false.
    apply/RltbP; rewrite /alphas c1 l1 W3 //; have [_ ->] := w1.
    rewrite mulr1 Rabs_pos_eq; last exact: phi_zp_nonneg.
    by move=> H; apply: (Rlt_asym _ _ H); exact: phi_zp_unit.
  by rewrite scale3_wT ?notch ?Em3 // small W3 //; case: w1.
- rewrite Eom; have [_ _ _ cp [_ [lp [_ [_ om3]]]]] := Hn3.
  rewrite !om3 //=; split=> //; split=> //.
  have ip (x : R) : Rlt 0 x -> Rlt 0 x^-1 by move=> H; rewrite -RinvE; exact: Rinv_0_lt_compat.
  rewrite Ec4 // El4 // c1 l1 !mul1r.
  by split; apply: Rmult_lt_0_compat => //; apply: ip.
Qed.
End Case.

(** TransProofs1.v -- the first transformation diagonalises both matrices. *)
From Coq Require Import Reals ZArith Lra.
From Verif.Model Require Import Base Units Edge LCWB Rounding Accuracy.
From mathcomp Require Import all_ssreflect all_algebra.
From Verif.Numerics Require Import RStruct Bridge.
From Verif.Model Require Import FluxDist Transform.
From Verif.Spec Require Import TransSpec.
From Verif.Proofs Require Import TransProofs.

Set Implicit Arguments.
Unset Strict Implicit.
Unset Printing Implicit Defensive.
Import GRing.Theory.
Local Open Scope ring_scope.

Section First.
Variables (n : nat) (C L Cr Lr X U Sq : 'M[R]_n) (D : 'rV[R]_n).
Hypotheses (HC : root_of C Cr) (HL : root_of L Lr) (uC : Cr \in unitmx).
Hypothesis HA : svd_of (Lr *m invmx Cr) X U D.
Hypothesis Sqsym : Sq^T = Sq.

Variable s1 : 'M[R]_n.
Hypothesis s1E : s1 = invmx Cr *m U^T *m Sq.

Lemma Cinv_sym : (invmx Cr)^T = invmx Cr.
Proof. by rewrite trmx_inv; case: HC => ->. Qed.

Lemma s1_L : s1^T *m L *m s1 = Sq *m diag_mx D *m diag_mx D *m Sq.
Proof.
case: HC => Cs CC; case: HL => Ls LL; case: HA => XX UU AE _.
have E : (Lr *m invmx Cr)^T *m (Lr *m invmx Cr) = U^T *m diag_mx D *m diag_mx D *m U.
  rewrite {1}AE AE !trmx_mul tr_diag_mx !mulmxA -(mulmxA _ X^T X) XX mulmx1 //.
rewrite s1E !trmx_mul trmxK Sqsym Cinv_sym -LL.
transitivity (Sq *m U *m ((Lr *m invmx Cr)^T *m (Lr *m invmx Cr)) *m U^T *m Sq).
  by rewrite trmx_mul Cinv_sym Ls !mulmxA.
by rewrite E !mulmxA -(mulmxA Sq U U^T) UU mulmx1 -(mulmxA _ U U^T) UU mulmx1.
Qed.

Lemma s1_C : s1^T *m C *m s1 = Sq *m Sq.
Proof.
case: HC => Cs CC; case: HA => XX UU AE _.
rewrite s1E !trmx_mul trmxK Sqsym Cinv_sym -CC !mulmxA.
rewrite -(mulmxA _ (invmx Cr) Cr) mulVmx // mulmx1.
rewrite -(mulmxA _ Cr (invmx Cr)) mulmxV // mulmx1.
by rewrite -(mulmxA Sq U U^T) UU mulmx1.
Qed.

Lemma C_unit : C \in unitmx.
Proof. by case: HC => _ <-; rewrite unitmx_mul uC. Qed.

Lemma s1_cI : s1 \in unitmx -> invmx s1 *m invmx C *m (invmx s1)^T = invmx (Sq *m Sq).
Proof.
move=> us; rewrite -s1_C !trmx_inv.
have uT : s1^T \in unitmx by rewrite unitmx_tr.
have uM : s1^T *m C *m s1 \in unitmx by rewrite unitmx_mul us andbT unitmx_mul uT C_unit.
apply: (can_inj (mulKmx uM)); rewrite mulmxV // !mulmxA mulmxK // mulmxK ?C_unit // mulmxV //.
Qed.
End First.

Definition sing_set (n : nat) (D0 eigL : vec) := sing_locs n D0 eigL.

(** cInvTrans and lTrans after the first transformation. *)
Lemma trans1_diag n m k C L W st0 croot lroot D0 U X eigL st s r :
  t_init n m k C L W = Ok st0 ->
  root_of (toM n n C) (toM n n croot) -> root_of (toM n n L) (toM n n lroot) ->
  svd_of (toM n n lroot *m invmx (toM n n croot)) (toM n n X) (toM n n U) (toV n D0) ->
  trans1 croot D0 U eigL st0 = Ok (st, (s, r)) ->
  let sc := scale_of n D0 eigL in
  [/\ forall i, (i < n)%N -> Rlt 0 (sc i),
      forall i j, (i < n)%N -> (j < n)%N -> t_cI st i j = if i == j then 1 / sc i else 0,
      forall i j, (i < n)%N -> (j < n)%N -> t_lT st i j =
        if (i == j) && (i \notin sing_locs n D0 eigL) then D0 i ^+ 2 * sc i else 0,
      (toM n n s)^T *m toM n n L *m toM n n s = diag_mx (\row_i (D0 i ^+ 2 * sc i)) &
      dual n s r /\ [/\ t_n st = n, t_n0 st = n, t_m st = m, t_njwi st = k & t_W st = W] /\
      (t_S st = mmul n eye s /\ t_R st = mmul n eye r /\ t_wT st = if m == 0%N then W else mmul n W s)].
Proof.
rewrite /t_init; case EI: inv => [cI|//] [<-] HC HL HA.
have [uC EcI] := invP EI.
rewrite /trans1 /=; case Ecr: inv => [cri|//]; have [ucr Ecri] := invP Ecr.
set sc := scale_of n D0 eigL.
set s1 := mmul n _ _; case Es: inv => [si|//] [<- <- <-] /=.
have [us Esi] := invP Es.
have Sq_sc : toM n n (dg (fun i => sqrt (sc i))) = diag_mx (\row_i sqrt (sc i)) by rewrite toM_dg.
set Sq := diag_mx (\row_(i < n) sqrt (sc i)) in Sq_sc.
have Es1 : toM n n s1 = invmx (toM n n croot) *m (toM n n U)^T *m Sq.
  by rewrite /s1 !toM_mmul toM_tr Ecri Sq_sc.
clearbody s1.
have Sqs : Sq^T = Sq by rewrite /Sq tr_diag_mx.
have uSq : Sq \in unitmx by move: us; rewrite Es1 unitmx_mul => /andP[].
have sq_nz (i : 'I_n) : sqrt (sc i) != 0.
  move: uSq; rewrite unitmxE det_diag unitfE => /prodf_neq0 /(_ i isT).
  by rewrite mxE.
have sc_pos i : (i < n)%N -> Rlt 0 (sc i).
  move=> Hi; case: (Rlt_le_dec 0 (sc i)) => // H.
  by have := sq_nz (Ordinal Hi); rewrite /= (sqrt_neg_0 _ H) eqxx.
have sq_sq i : (i < n)%N -> sqrt (sc i) * sqrt (sc i) = sc i.
  by move=> Hi; apply: sqrt_def; apply: Rlt_le; apply: sc_pos.
have LT := s1_L HC HL HA Sqs Es1.
have LTd : Sq *m diag_mx (toV n D0) *m diag_mx (toV n D0) *m Sq = diag_mx (\row_i (D0 i ^+ 2 * sc i)).
  rewrite /Sq !mulmx_diag; congr diag_mx; apply/rowP => i; rewrite !mxE /=.
  rewrite -[in RHS](sq_sq i (ltn_ord i)) expr2; move: (sqrt _) (D0 _) => a d.
  by rewrite [a * d * d * a]mulrAC [a * d * a]mulrAC [RHS]mulrC !mulrA.
have SS : Sq *m Sq = diag_mx (\row_(i < n) sc i).
  by rewrite /Sq mulmx_diag; congr diag_mx; apply/rowP => i; rewrite !mxE sq_sq.
have CT : toM n n (mmul n (mmul n (tr (tr si)) cI) (tr si)) = diag_mx (\row_(i < n) (1 / sc i)).
  rewrite toM_mmul toM_mmul toM_tr toM_tr trmxK.
  rewrite Esi.
  rewrite EcI.
  rewrite (s1_cI HC ucr HA Sqs Es1) // SS.
  have uSS : diag_mx (\row_(i < n) sc i) \in unitmx by rewrite -SS unitmx_mul uSq.
  apply: (can_inj (mulKmx uSS)); rewrite mulmxV // mulmx_diag -diag_const_mx.
  congr diag_mx; apply/rowP => i; rewrite !mxE mulrCA mulfV ?mulr1 //.
  by apply/eqP => E; have := sc_pos i (ltn_ord i); rewrite E; apply: Rlt_irrefl.
split=> //.
- move=> i j Hi Hj.
  have := congr1 (fun A : 'M[R]_n => A (Ordinal Hi) (Ordinal Hj)) CT; rewrite !mxE /= => ->.
  by rewrite -(inj_eq val_inj) /=; case: eqP => _; rewrite ?mulr1n ?mulr0n.
- move=> i j Hi Hj; rewrite /zero_diag.
  have E : mmul n (mmul n (tr s1) L) s1 i j = (if i == j then D0 i ^+ 2 * sc i else 0).
    have := congr1 (fun A : 'M[R]_n => A (Ordinal Hi) (Ordinal Hj)) (etrans LT LTd).
    rewrite -toM_tr -!toM_mmul [toM _ _ _ _ _]mxE /= => ->.
    by rewrite !mxE -(inj_eq val_inj) /=; case: eqP => _; rewrite ?mulr1n ?mulr0n.
  by rewrite E; case: (i == j); case: (i \in _).
- by rewrite LT LTd.
- by split; first exact: dual_inv.
Qed.

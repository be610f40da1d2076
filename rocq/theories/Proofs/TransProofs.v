(** TransProofs.v -- the coordinate transformations are canonical. *)
From Coq Require Import Reals ZArith Lra.
From Verif.Model Require Import Base Units Edge LCWB Rounding Accuracy.
From mathcomp Require Import all_ssreflect all_algebra.
From Verif.Numerics Require Import RStruct Bridge.
From Verif.Model Require Import FluxDist Transform.

Set Implicit Arguments.
Unset Strict Implicit.
Unset Printing Implicit Defensive.
Import GRing.Theory.
Local Open Scope ring_scope.

Lemma toM_mmul m p n A B : toM m n (mmul p A B) = toM m p A *m toM p n B.
Proof. by apply/matrixP => i j; rewrite !mxE; apply: eq_bigr => k _; rewrite !mxE. Qed.
Lemma toM_tr m n A : toM m n (tr A) = (toM n m A)^T.
Proof. by apply/matrixP => i j; rewrite !mxE. Qed.
Lemma toM_eye n : toM n n eye = 1%:M.
Proof. by apply/matrixP => i j; rewrite !mxE -(inj_eq val_inj) /eye; case: eqP. Qed.
Lemma toM_dg n v : toM n n (dg v) = diag_mx (toV n v).
Proof.
apply/matrixP => i j; rewrite !mxE -(inj_eq val_inj) /dg.
by case: eqP => _; rewrite ?mulr1n ?mulr0n.
Qed.
Lemma invP n A B : inv n A = Ok B ->
  toM n n A \in unitmx /\ toM n n B = invmx (toM n n A).
Proof. by rewrite /inv; case: ifP => // uA [<-]; rewrite toM_ofM. Qed.
Lemma inv_unit n A : toM n n A \in unitmx -> exists B, inv n A = Ok B.
Proof. by move=> uA; rewrite /inv uA; eexists. Qed.

(** ** The canonical relations *)
Definition canonical (n m : nat) (C L W : arr) (st : tst) : Prop :=
  [/\ t_n st = n /\ t_n0 st = n,
      (toM n n (t_S st))^T *m toM n n (t_R st) = 1%:M,
      toM n n (t_cI st) = (toM n n (t_R st))^T *m invmx (toM n n C) *m toM n n (t_R st),
      toM n n (t_lT st) = (toM n n (t_S st))^T *m toM n n L *m toM n n (t_S st) &
      t_m st = m /\ toM m n (t_wT st) = toM m n W *m toM n n (t_S st)].

Lemma canonical_init n m k C L W st : t_init n m k C L W = Ok st -> canonical n m C L W st.
Proof.
rewrite /t_init; case E: inv => [cI|//] [<-]; have [_ EI] := invP E.
by split; rewrite //= !toM_eye ?EI ?trmx1 ?mul1mx ?mulmx1.
Qed.

(** r is the inverse transpose of s. *)
Definition dual (n : nat) (s r : arr) : Prop := (toM n n s)^T *m toM n n r = 1%:M.

Lemma dual_inv n s si : inv n s = Ok si -> dual n s (tr si).
Proof.
move=> /invP [us E]; rewrite /dual toM_tr E -trmx_mul mulVmx ?trmx1 //.
Qed.
Lemma dual_inv2 n s r : inv n (tr s) = Ok r -> dual n s r.
Proof. by move=> /invP [us E]; rewrite /dual E -toM_tr mulmxV. Qed.

Lemma canonical_apply n m C L W st s r : canonical n m C L W st -> dual n s r ->
  canonical n m C L W (apply_tr s r st).
Proof.
case=> [[En En0] SR EC EL [Em EW]] D; rewrite /apply_tr; split=> //=; rewrite ?En ?Em //.
- rewrite !toM_mmul trmx_mul mulmxA -(mulmxA _ _ (toM n n (t_R st))) SR mulmx1; exact: D.
- by rewrite !toM_mmul toM_tr EC trmx_mul !mulmxA.
- by rewrite !toM_mmul toM_tr EL trmx_mul !mulmxA.
- split=> //; case: ifP => [/eqP m0|_].
    by apply/matrixP => i; move: (ltn_ord i); rewrite {2}m0.
  by rewrite !toM_mmul EW mulmxA.
Qed.

Fixpoint run_trs (l : seq (arr * arr)) (st : tst) : tst :=
  match l with [::] => st | (s, r) :: l' => run_trs l' (apply_tr s r st) end.

Lemma canonical_run n m C L W l st : canonical n m C L W st ->
  (forall s r, List.In (s, r) l -> dual n s r) -> canonical n m C L W (run_trs l st).
Proof.
elim: l st => [//|[s r] l IH] st Hc H /=; apply: IH; last by move=> s' r' Hin; apply: H; right.
by apply: canonical_apply => //; apply: H; left.
Qed.

(** What remains after masking lTrans or wTrans. *)
Definition frame (n : nat) (C : arr) (st : tst) : Prop :=
  [/\ t_n st = n /\ t_n0 st = n,
      (toM n n (t_S st))^T *m toM n n (t_R st) = 1%:M &
      toM n n (t_cI st) = (toM n n (t_R st))^T *m invmx (toM n n C) *m toM n n (t_R st)].

Lemma frame_apply n C st s r : frame n C st -> dual n s r -> frame n C (apply_tr s r st).
Proof.
case=> [[En En0] SR EC] D; rewrite /apply_tr; split=> //=; rewrite ?En //.
- rewrite !toM_mmul trmx_mul mulmxA -(mulmxA _ _ (toM n n (t_R st))) SR mulmx1; exact: D.
- by rewrite !toM_mmul toM_tr EC trmx_mul !mulmxA.
Qed.

Lemma frame_charge n C st : frame n C st ->
  exists X, coord_transform true st = Ok X /\ toM n n X = (toM n n (t_S st))^T.
Proof.
case=> [[En En0] SR _]; rewrite /coord_transform En0.
have uR : toM n n (t_R st) \in unitmx by have [] := mulmx1_unit SR.
have [X HX] := inv_unit uR; exists X; split=> //.
have [_ ->] := invP HX; by rewrite -[LHS]mul1mx -SR mulmxK.
Qed.
Lemma frame_flux n C st : frame n C st ->
  exists X, coord_transform false st = Ok X /\ toM n n X = (toM n n (t_R st))^T.
Proof.
case=> [[En En0] SR _]; rewrite /coord_transform En0.
have uS : toM n n (t_S st) \in unitmx by have [] := mulmx1_unit SR; rewrite unitmx_tr.
have [X HX] := inv_unit uS; exists X; split=> //.
have [_ ->] := invP HX; rewrite -[LHS]mul1mx.
have -> : 1%:M = (toM n n (t_R st))^T *m toM n n (t_S st).
  by rewrite -[LHS]trmx1 -SR trmx_mul trmxK.
by rewrite mulmxK.
Qed.

Lemma attempt2_dual fuel sv order S1 draw st s r :
  attempt2 fuel sv order S1 draw st = Some (Ok (s, r)) -> dual (t_n st) s r.
Proof.
rewrite /attempt2; case: ifP => _; first by case=> <- <-; rewrite /dual toM_eye trmx1 mul1mx.
case: basis_loop => [[ind rnd]|//]; case: ifP => // _.
case: inv => [fi|//]; case E: inv => [r2|//] [<- <-]; exact: dual_inv2.
Qed.

Lemma trans2P tries fuel sv order S1 draw a st st' s r :
  trans2 tries fuel sv order S1 draw a st = Some (Ok (st', (s, r))) ->
  [/\ dual (t_n st) s r, gs_successful st s &
      st' = set_wT (apply_tr s r st) (round_zero_one (apply_tr s r st) (t_wT (apply_tr s r st)))].
Proof.
elim: tries a => [//|t IH] a /=.
case E: attempt2 => [[[s2 r2]|e]|] //; case: ifP => [ok|_]; last exact: IH.
by case=> <- <- <-; split=> //; apply: attempt2_dual E.
Qed.

Lemma scales3_frame n C k st : frame n C st -> frame n C (scales3 k st).1 /\ t_n (scales3 k st).1 = t_n st.
Proof.
move=> Hf; elim: k => [//|k [IH1 IH2]] /=; case: (scales3 k st) IH1 IH2 => st' v /= IH1 IH2.
rewrite /scale3; case: ifP => _ //=; case: ifP => _ //=; case: ifP => _ //=.
Qed.

Lemma trans3_frame n C st st' s r : trans3 st = Ok (st', (s, r)) -> frame n C st ->
  frame n C st' /\ dual n s r.
Proof.
rewrite /trans3; case E: scales3 => [st3 v]; case Ei: inv => [r3|//] [<- <- <-] Hf.
have [] := scales3_frame (t_n st) Hf; rewrite E /= => Hf3 _.
have En : t_n st = n by case: Hf => [[]].
rewrite En in Ei; have D := dual_inv2 Ei.
by split=> //; apply: frame_apply.
Qed.

Lemma trans1_frame n C croot D0 U eigL st st' s r :
  trans1 croot D0 U eigL st = Ok (st', (s, r)) -> frame n C st -> frame n C st'.
Proof.
rewrite /trans1; case: inv => [cri|//]; case E: inv => [si|//] [<- _ _] Hf.
have En : t_n st = n by case: Hf => [[]].
rewrite -En in Hf *; exact: (frame_apply Hf (dual_inv E)).
Qed.

Lemma transform_frame n C croot D0 U eigL tries fuel sv order draw st st' :
  transform_hamil croot D0 U eigL tries fuel sv order draw st = Some (Ok st') ->
  frame n C st -> frame n C st'.
Proof.
rewrite /transform_hamil; case E1: trans1 => [[st1 [s1 r1]]|//] H Hf.
have Hf1 := trans1_frame E1 Hf.
have Hf2 : frame n C (set_omega st1) by case: Hf1.
have Hf3 st3 : (if t_m (set_omega st1) == 0%N then Some (Ok (set_omega st1))
    else match trans2 tries fuel sv order s1 draw 0 (set_omega st1) with
         | None => None | Some (Err e) => Some (Err e)
         | Some (Ok (st3, _)) => Some (Ok st3) end) = Some (Ok st3) -> frame n C st3.
  case: ifP => _; first by case=> <-.
  case E2: trans2 => [[[st3' [s2 r2]]|]|] //= [<-].
  have [D _ ->] := trans2P E2.
  have En : t_n (set_omega st1) = n by case: Hf2 => [[]].
  rewrite -En in Hf2 *; exact: (frame_apply Hf2 D).
move: H Hf3; case: ifP => _.
  move=> H /(_ _ erefl) Hf3; move: H; case E3: trans3 => [[st4 [s3 r3]]|] // [<-].
  by have [] := trans3_frame E3 Hf3.
case: trans2 => [[[st3 [s2 r2]]|]|] //= H /(_ _ erefl) Hf3.
move: H; case E3: trans3 => [[st4 [s3 r3]]|] // [<-].
by have [] := trans3_frame E3 Hf3.
Qed.

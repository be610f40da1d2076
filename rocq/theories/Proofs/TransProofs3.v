(** TransProofs3.v -- the third transformation, and the whole of the coordinate
    transformations. *)
From Coq Require Import Reals ZArith Lra FunctionalExtensionality.
From Verif.Model Require Import Base Units Edge LCWB Rounding Accuracy.
From mathcomp Require Import all_ssreflect all_algebra.
From Verif.Numerics Require Import RStruct Bridge.
From Verif.Model Require Import FluxDist Transform.
From Verif.Spec Require Import TransSpec.
From Verif.Proofs Require Import AccProofs TransProofs TransProofs1 TransProofs2.

Set Implicit Arguments.
Unset Strict Implicit.
Unset Printing Implicit Defensive.
Import GRing.Theory Order.POrderTheory Order.TotalTheory.
Local Open Scope ring_scope.

Lemma sum_sq_pos n (v : 'cV[R]_n) : v != 0 -> Rlt 0 ((v^T *m v) 0 0).
Proof.
move=> vn0; rewrite mxE.
have E : \sum_j v^T 0 j * v j 0 = \sum_j v j 0 ^+ 2.
  by apply: eq_bigr => j _; rewrite mxE expr2.
rewrite E; apply/RltbP; apply/negPn/negP => H.
have ge0 : 0 <= \sum_j v j 0 ^+ 2 by apply: Num.Theory.sumr_ge0 => j _; apply: Num.Theory.sqr_ge0.
have : \sum_j v j 0 ^+ 2 == 0.
  rewrite eq_le ge0 andbT leNgt; exact: H.
rewrite Num.Theory.psumr_eq0; last by move=> j _; apply: Num.Theory.sqr_ge0.
move=> /allP H0; move/eqP: vn0; apply; apply/colP => j; rewrite mxE.
by have := H0 j (mem_index_enum _); rewrite /= sqrf_eq0 => /eqP.
Qed.

(** Charging energies are positive. *)
Lemma cI_pos n C croot st : root_of (toM n n C) (toM n n croot) -> toM n n croot \in unitmx ->
  frame n C st -> forall j, (j < n)%N -> Rlt 0 (t_cI st j j).
Proof.
move=> [Cs CC] uC [_ SR EcI] j Hj.
pose o := Ordinal Hj; pose A := invmx (toM n n croot); pose r := col o (toM n n (t_R st)).
have EC : invmx (toM n n C) = A^T *m A.
  rewrite -CC /A trmx_inv Cs.
  have uCC : toM n n croot *m toM n n croot \in unitmx by rewrite unitmx_mul uC.
  by apply: (can_inj (mulKmx uCC)); rewrite mulmxV // mulmxA mulmxK // mulmxV.
have -> : t_cI st j j = ((A *m r)^T *m (A *m r)) 0 0.
  have := mx_entry Hj Hj EcI; rewrite {1}mxE /= => ->.
  set M := _ *m _ *m _; have -> : M o o = (col o (row o M)) 0 0 by rewrite !mxE.
  by rewrite /M !row_mul -tr_col -/r EC colE -!mulmxA -colE -/r trmx_mul !mulmxA.
apply: sum_sq_pos; apply/eqP => /(congr1 (mulmx (invmx A))).
rewrite mulKmx ?unitmx_inv // mulmx0 => r0.
have [_ uR] := mulmx1_unit SR.
have : (invmx (toM n n (t_R st)) *m r) o 0 = 0 by rewrite r0 mulmx0 mxE.
by rewrite /r colE mulKmx // mxE !eqxx; move/eqP; rewrite oner_eq0.
Qed.

(** ** The third transformation *)
Lemma set_wT_id st : set_wT st (t_wT st) = st. Proof. by case: st. Qed.

Lemma scale3_shape st j : exists w, (scale3 st j).1 = set_wT st w /\
  forall i l, l != j -> w i l = t_wT st i l.
Proof.
rewrite /scale3; case: ifP => _ /=; first by exists (t_wT st); rewrite set_wT_id.
case: ifP => _ /=; last by exists (t_wT st); rewrite set_wT_id.
by case: ifP => _ /=; eexists; split; try reflexivity; move=> i l /negbTE lj; rewrite /col_set lj.
Qed.

Lemma scale3_ext st w j : (fun i => w i j) = (fun i => t_wT st i j) ->
  (scale3 (set_wT st w) j).2 = (scale3 st j).2 /\
  (fun i => t_wT (scale3 (set_wT st w) j).1 i j) = (fun i => t_wT (scale3 st j).1 i j).
Proof.
move=> E; have Ei i : w i j = t_wT st i j by exact: (congr1 (fun f => f i) E).
have Ea : alphas (set_wT st w) j = alphas st j.
  by apply: functional_extensionality => i; rewrite /alphas /= Ei.
rewrite /scale3 Ea /is_charge /=; case: ifP => _ //=; case: ifP => _ //=.
case: ifP => _ /=; rewrite /col_set eqxx; split=> //;
  try (apply: functional_extensionality => i); rewrite Ei //.
Qed.

Lemma scales3P k st : exists w, (scales3 k st).1 = set_wT st w /\
  (forall i j, w i j = if (j < k)%N then t_wT (scale3 st j).1 i j else t_wT st i j) /\
  (forall j, (scales3 k st).2 j = if (j < k)%N then (scale3 st j).2 else 1).
Proof.
elim: k => [|k [w [E1 [E2 E3]]]] /=; first by exists (t_wT st); rewrite set_wT_id.
case: (scales3 k st) E1 E3 => st' v /= -> E3.
have [w' [Ew' Hw']] := scale3_shape (set_wT st w) k.
have Ecol : (fun i => w i k) = (fun i => t_wT st i k).
  by apply: functional_extensionality => i; rewrite E2 ltnn.
have [Es Ec] := scale3_ext Ecol.
case E: (scale3 (set_wT st w) k) Ew' Es Ec => [st'' x] /= -> /= Es Ec.
exists w'; split=> //; split.
- move=> i j; rewrite ltnS leq_eqVlt; case: eqP => [->|/eqP jk] /=.
    by rewrite -(congr1 (fun f => f i) Ec).
  by rewrite Hw' //= E2.
- by move=> j; rewrite ltnS leq_eqVlt; case: eqP => [->|/eqP jk] /=.
Qed.

(** The scale of a mode is positive: the third transformation never divides by
    zero and never fails. *)
Lemma scale3_pos n k D C st j : nf1 n k D st -> frame n C st -> (j < n)%N ->
  Rlt 0 (scale3 st j).2.
Proof.
move=> Hn Hf Hj; have [Hk [En En0] HD Hc [_ [HlTp _]]] := Hn.
have col_pos : Rlt 0 (1 / rmax (t_n0 st) (fun i => Rabs (t_S st i j)))%R.
  apply: inv_pos; rewrite En0.
  have ge0 i : Rle 0 (Rabs (t_S st i j)) by apply: Rabs_pos.
  have lb : Rle 0 (rmax n (fun i => Rabs (t_S st i j))).
    apply: Rle_trans (ge0 j) _; apply: (rmax_ub n (fun i => Rabs (t_S st i j)) j); exact/ssrnat.ltP.
  case: (Rle_lt_or_eq_dec _ _ lb) => // /esym E0; exfalso.
  have n0 : (0 < n)%coq_nat by apply/ssrnat.ltP; apply: leq_ltn_trans Hj.
  have Z := rmax_zero n (fun i => Rabs (t_S st i j)) (fun i _ => ge0 i) n0 E0.
  have [_ SR _] := Hf; have := mx_entry Hj Hj SR; rewrite !mxE !eqxx big1.
    by move/esym/eqP; rewrite oner_eq0.
  move=> i _; rewrite !mxE /=.
  have -> : t_S st i j = 0; last by rewrite mul0r.
  case: (Req_EM_T (t_S st i j) 0) => // N; exfalso; apply: (Rabs_no_R0 _ N); exact: Z (ssrnat.ltP (ltn_ord i)).
rewrite /scale3; case Ech: is_charge => /=; first exact: Rlt_0_1.
case: ifP => [Hm|_] //; case: ifP => [/RltbP Hbig|_] //=.
rewrite /col_set eqxx argmax_rmax.
have -> : Rltb (rmax (t_m st) (alphas st j)) acc_har = false.
  by apply/negP => /RltbP H; apply: (Rlt_irrefl acc_har); apply: Rlt_trans Hbig H.
apply: inv_pos; apply: Rabs_pos_lt => E0; apply: (Rlt_irrefl 0).
apply: Rlt_trans acc_har_pos _; apply: Rlt_le_trans Hbig _.
rewrite -argmax_rmax /alphas E0 mulr0 Rabs_R0; exact: Rle_refl.
Qed.

Lemma trans3_total n k D C st : nf1 n k D st -> frame n C st ->
  exists st' s r, trans3 st = Ok (st', (s, r)).
Proof.
move=> Hn Hf; have [_ [En _] _ _ _] := Hn; rewrite /trans3 En.
have [w [E1 [E2 E3]]] := scales3P n st.
case E: (scales3 n st) E1 E3 => [st' v] /= _ E3.
have u : toM n n (tr (dg v)) \in unitmx.
  rewrite toM_tr unitmx_tr toM_dg unitmxE det_diag unitfE; apply/prodf_neq0 => i _.
  rewrite mxE E3 ltn_ord; apply: lt0_neq; exact: scale3_pos Hn Hf (ltn_ord i).
by have [r Er] := inv_unit u; rewrite Er; do 3 eexists.
Qed.

Lemma mmul_dg n A v i j : (j < n)%N -> mmul n A (dg v) i j = A i j * v j.
Proof.
move=> Hj; rewrite /mmul (bigD1 (Ordinal Hj)) //= big1 ?addr0; last first.
  by move=> l; rewrite -(inj_eq val_inj) /= => /negbTE lj; rewrite /dg lj mulr0.
by rewrite /dg eqxx.
Qed.
Lemma mmul_dgl n A v i j : (i < n)%N -> mmul n (tr (dg v)) A i j = v i * A i j.
Proof.
move=> Hi; rewrite /mmul (bigD1 (Ordinal Hi)) //= big1 ?addr0; last first.
  by move=> l; rewrite -(inj_eq val_inj) /= => /negbTE lj; rewrite /tr /dg lj mul0r.
by rewrite /tr /dg eqxx.
Qed.
Lemma dual_dg n v r : dual n (dg v) r -> (forall i, (i < n)%N -> v i != 0) ->
  forall i j, (i < n)%N -> (j < n)%N -> r i j = dg (fun i => 1 / v i) i j.
Proof.
move=> D vn0 i j Hi Hj; have := mx_entry Hi Hj D.
rewrite -toM_tr -toM_mmul !mxE /= mmul_dgl // -(inj_eq val_inj) /= /dg => E.
apply: (mulfI (vn0 i Hi)); rewrite E; case: eqP => _; rewrite ?mulr0 ?mulr1 //.
by rewrite mul1r mulfV // vn0.
Qed.
Lemma mmul_eqr n A B B' i j : (forall l, (l < n)%N -> B l j = B' l j) ->
  mmul n A B i j = mmul n A B' i j.
Proof. by move=> E; apply: eq_bigr => l _; rewrite E. Qed.
Lemma mmul_eql n A A' B i j : (forall l, (l < n)%N -> A i l = A' i l) ->
  mmul n A B i j = mmul n A' B i j.
Proof. by move=> E; apply: eq_bigr => l _; rewrite E. Qed.

Lemma trans3E n k D C st st' s r : nf1 n k D st -> frame n C st -> trans3 st = Ok (st', (s, r)) ->
  let v := fun j => (scale3 st j).2 in
  [/\ t_om st' = t_om st /\ t_m st' = t_m st /\ t_n st' = n /\ t_n0 st' = n /\
        t_W st' = t_W st /\ t_njwi st' = t_njwi st,
      forall i j, (i < n)%N -> (j < n)%N -> t_cI st' i j = t_cI st i j / v i / v j,
      forall i j, (i < n)%N -> (j < n)%N -> t_lT st' i j = t_lT st i j * v i * v j,
      forall i j, (j < n)%N -> t_S st' i j = t_S st i j * v j &
      (t_m st != 0%N) -> forall i j, (j < n)%N -> t_wT st' i j = t_wT (scale3 st j).1 i j * v j].
Proof.
move=> Hn Hf; have [_ [En En0] _ _ _] := Hn; rewrite /trans3 En.
have [w [E1 [E2 E3]]] := scales3P n st.
case E: (scales3 n st) E1 E3 => [st3 x] /= -> E3.
case Er: inv => [r3|//] [<- _ _] /=; rewrite En.
have D3 := dual_inv2 Er.
have xp i : (i < n)%N -> Rlt 0 (x i) by move=> Hi; rewrite E3 Hi; apply: scale3_pos Hn Hf Hi.
have rE := dual_dg D3 (fun i Hi => lt0_neq (xp i Hi)).
have xE i : (i < n)%N -> x i = (scale3 st i).2 by move=> Hi; rewrite E3 Hi.
split=> //.
- move=> i j Hi Hj; rewrite (mmul_eqr _ _ (B' := dg (fun i => 1 / x i))); last by move=> l Hl; rewrite rE.
  rewrite mmul_dg // (mmul_eql _ _ (A' := tr (dg (fun i => 1 / x i)))); last first.
    by move=> l Hl; rewrite /tr rE.
  by rewrite mmul_dgl // !xE // !mul1r mulrC [X in _ * X]mulrC mulrC.
- move=> i j Hi Hj; rewrite mmul_dg // mmul_dgl // !xE //; by rewrite [X in X * _]mulrC.
- by move=> i j Hj; rewrite mmul_dg // xE.
- by move=> /negbTE -> i j Hj; rewrite mmul_dg // xE // E2 Hj.
Qed.

Lemma nf1_trans3 n k D C st st' s r : nf1 n k D st -> frame n C st ->
  trans3 st = Ok (st', (s, r)) -> nf1 n k D st'.
Proof.
move=> Hn Hf E; have [[Eom [Em [En' [En0' _]]]] Ec El ES Ew] := trans3E Hn Hf E.
have [Hk _ HD Hc [HlT [HlTp [HcI [Hsq Hom]]]]] := Hn.
have vp i : (i < n)%N -> Rlt 0 (scale3 st i).2 by move=> Hi; apply: scale3_pos Hn Hf Hi.
have vn0 i : (i < n)%N -> (scale3 st i).2 != 0 by move=> Hi; apply: lt0_neq; apply: vp.
have lt_n i : (i < n - k)%N -> (i < n)%N by move=> Hi; apply: leq_trans Hi (leq_subr _ _).
split=> //.
- move=> i Hi; rewrite Ec //; have := inv_pos (vp i Hi); rewrite mul1r => Hp.
  by do 2?apply: Rmult_lt_0_compat => //; apply: Hc.
- split; last split; last split; last split.
  + move=> i j Hi Hj; rewrite !El // HlT //; case: ifP => [/andP [/eqP -> _] //|_].
    by rewrite !mul0r.
  + move=> i Hi; rewrite El ?lt_n //; do 2?apply: Rmult_lt_0_compat; try (apply: vp; exact: lt_n).
    exact: HlTp.
  + by move=> i j Hi Hj ij H; rewrite Ec // HcI // !mul0r.
  + move=> i Hi; rewrite -(Hsq i Hi); congr sqrt; rewrite Ec ?El ?lt_n // !RmultE.
    move: (vn0 i (lt_n _ Hi)); move: (_.2) (t_cI st i i) (t_lT st i i) => a c l a0.
    rewrite !mulrA [c / a / a * l]mulrAC [c / a * l]mulrAC -[_ / a / a * a]mulrA mulVf // mulr1.
    by rewrite -[_ / a * a]mulrA mulVf // mulr1.
  + by move=> i Hi; rewrite Eom Hom.
Qed.

(** phi_zp times the coupling is not changed by the scaling. *)
Lemma trans3_alpha n k D C st st' s r j x : nf1 n k D st -> frame n C st ->
  trans3 st = Ok (st', (s, r)) -> (j < n - k)%N ->
  phi_zp (t_cI st' j j) (t_lT st' j j) * (x * (scale3 st j).2) =
  phi_zp (t_cI st j j) (t_lT st j j) * x.
Proof.
move=> Hn Hf E Hj; have [_ Ec El _ _] := trans3E Hn Hf E.
have [Hk _ HD Hc [_ [HlTp _]]] := Hn.
have Hjn : (j < n)%N by apply: leq_trans Hj (leq_subr _ _).
have vp := scale3_pos Hn Hf Hjn; rewrite Ec // El //.
have := phi_zp_scale _ _ _ vp (Hc j Hjn) (HlTp j Hj).
have -> : t_cI st j j / (scale3 st j).2 / (scale3 st j).2 =
  Rdiv (Rdiv (t_cI st j j) (scale3 st j).2) (scale3 st j).2.
  by rewrite /Rdiv !RmultE RinvE.
by rewrite !RmultE => <-; rewrite -!mulrA [x * _]mulrC.
Qed.

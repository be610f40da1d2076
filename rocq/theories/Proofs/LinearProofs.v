(** LinearProofs.v -- normal modes, and the Hamiltonian of a circuit without junctions. *)
From Coq Require Import Reals ZArith Lia.
From Verif.Model Require Import Base Units Edge Accuracy HamConst.
From mathcomp Require Import all_ssreflect all_algebra.
From mathcomp Require Import complex ring zify.
From Verif.Numerics Require Import RStruct Bridge.
From Verif.Model Require Import FluxDist Op Transform Ham.
From Verif.Spec Require Import OpSpec TransSpec LevelsSpec LinearSpec.
From Verif.Proofs Require Import OpProofs HamProofs HamProofs2 HamProofs3 HamProofs4 HamProofs5 HamProofs6 ChargeShiftProofs.
From Verif.Proofs Require Import TransProofs TransProofs1 TransProofs2 TransProofs4 RelabelProofs2 LevelProofs.

Set Implicit Arguments.
Unset Strict Implicit.
Unset Printing Implicit Defensive.
Import GRing.Theory.
Local Open Scope ring_scope.
Local Open Scope complex_scope.

(** ** Resonances *)
Lemma det_root n (C L Cr Lr X U : 'M[R]_n) D : C \in unitmx -> root_of C Cr -> root_of L Lr ->
  svd_of (Lr *m invmx Cr) X U D ->
  forall x : R, \det (L - x *: C) = \det C * \prod_(i < n) (D 0 i ^+ 2 - x).
Proof.
move=> uC [sC rC] [sL rL] [XX UU AE _] x.
have uCr : Cr \in unitmx by move: uC; rewrite -rC unitmx_mul andbb.
have LE : Lr = X *m diag_mx D *m U *m Cr by rewrite -AE mulmxKV.
have UU' : U^T *m U = 1%:M := mulmx1C UU.
have L2 : L = Cr *m U^T *m diag_mx (\row_i (D 0 i ^+ 2)) *m (U *m Cr).
  rewrite -rL -{1}sL LE !trmx_mul tr_diag_mx sC !mulmxA; congr (_ *m _ *m _).
  rewrite -!mulmxA; congr (_ *m (_ *m _)); rewrite (mulmxA X^T) XX mul1mx mulmx_diag.
  by congr diag_mx; apply/rowP => i; rewrite !mxE expr2.
have C2 : C = Cr *m U^T *m (U *m Cr) by rewrite -mulmxA (mulmxA _ U) UU' mul1mx.
have -> : L - x *: C = Cr *m U^T *m diag_mx (\row_i (D 0 i ^+ 2 - x)) *m (U *m Cr).
  have -> : x *: C = Cr *m U^T *m x%:M *m (U *m Cr) by rewrite C2 mul_mx_scalar scalemxAl.
  rewrite L2 -mulmxBl -mulmxBr; congr (_ *m _ *m _).
  by apply/matrixP => i j; rewrite !mxE; case: eqP => _; rewrite ?mulr1n // !mulr0n subr0.
rewrite !det_mulmx det_diag -[C in RHS]rC det_mulmx det_tr.
have dU : \det U * \det U = 1 by rewrite -{2}det_tr -det_mulmx UU det1.
have -> : \prod_i (\row_i (D 0 i ^+ 2 - x)) 0 i = \prod_(i < n) (D 0 i ^+ 2 - x) by apply: eq_bigr => i _; rewrite mxE.
set c := \det Cr; set u := \det U in dU *; set p := \prod_(i < n) _.
have -> : c * u * p * (u * c) = (u * u) * (c * c * p) by ring.
by rewrite dU mul1r.
Qed.

(** ** Normal modes *)
Lemma col_mul n (A B : 'M[R]_n) i : col i (A *m B) = A *m col i B.
Proof. by rewrite !colE mulmxA. Qed.
Section Modes.
Variables (n k : nat) (C L : arr) (D : vec) (st : tst).
Hypothesis nf : nf1 n k D st.
Hypothesis fr : frame n C st.
Hypothesis ex : lT_exact n L st.
Hypothesis uC : toM n n C \in unitmx.
Let S := toM n n (t_S st).
Let Rm := toM n n (t_R st).

Lemma LS : toM n n L *m S = Rm *m toM n n (t_lT st).
Proof.
have [_ SR _] := fr; rewrite ex -/S; have /mulmx1C RS := SR.
by rewrite !mulmxA RS mul1mx.
Qed.
Lemma CS : toM n n C *m S *m toM n n (t_cI st) = Rm.
Proof.
have [_ SR ->] := fr; have E : S *m Rm^T = 1%:M by rewrite -[S]trmxK -trmx_mul (mulmx1C SR) trmx1.
by rewrite -/Rm !mulmxA -(mulmxA _ S) E mulmx1 mulmxV // mul1mx.
Qed.

Lemma sq_om i : (i < n - k)%N -> t_om st i ^+ 2 = t_cI st i i * t_lT st i i.
Proof.
move=> hi; have [Hk _ HD cp [_ [lp [_ [sq om]]]]] := nf.
have hn : (i < n)%N by exact: leq_trans hi (leq_subr _ _).
rewrite om // hi -sq // expr2; apply: sqrt_sqrt; apply: Rmult_le_pos; apply: Rlt_le; [exact: cp|exact: lp].
Qed.

Lemma col_oscillates (i : 'I_n) : oscillates (toM n n C) (toM n n L) (t_om st i) (col i S).
Proof.
have [Hk _ HD cp [lT [lp [cI [sq om]]]]] := nf; have [_ SR _] := fr.
split.
  apply/eqP => z.
  have E : Rm^T *m S = 1%:M by rewrite -[S]trmxK -trmx_mul SR trmx1.
  have := congr1 (col i) E; rewrite col_mul z mulmx0 => /colP /(_ i); rewrite !mxE eqxx => /eqP.
  by rewrite eq_sym oner_eq0.
have lTc : col i (toM n n (t_lT st)) = t_lT st i i *: delta_mx i 0.
  apply/colP => j; rewrite !mxE eqxx andbT lT // -val_eqE /=; case: eqP => [e|_] /=; rewrite ?mulr0 //.
  rewrite -e mulr1 [RHS]lT // eqxx /=; by case: ifP.
rewrite -!col_mul LS col_mul lTc.
case: (ltnP i (n - k)) => hi; last first.
  by rewrite lT // eqxx /= ltnNge hi /= scale0r mulmx0 om // ltnNge hi /= expr0n scale0r.
have cIc : col i (toM n n (t_cI st)) = t_cI st i i *: delta_mx i 0.
  apply/colP => j; rewrite !mxE eqxx andbT -val_eqE /=; case: eqP => [->|/eqP ne]; rewrite ?mulr1 //.
  by rewrite mulr0 cI // hi orbT.
have e : t_cI st i i *: col i (toM n n C *m S) = col i Rm.
  by rewrite -[in RHS]CS [RHS]col_mul cIc -scalemxAr -colE.
by rewrite sq_om // mulrC -scalerA e -scalemxAr -colE.
Qed.

(** The fluxes without inductive energy are those of the charge modes alone. *)
Lemma kernel_modes (x : 'cV[R]_n) : toM n n L *m x = 0 <-> forall i : 'I_n, (i < n - k)%N -> (Rm^T *m x) i 0 = 0.
Proof.
have [Hk _ HD cp [lT [lp _]]] := nf; have [_ SR _] := fr.
have E : S *m Rm^T = 1%:M by rewrite -[S]trmxK -trmx_mul (mulmx1C SR) trmx1.
have Lx : toM n n L *m x = Rm *m (toM n n (t_lT st) *m (Rm^T *m x)).
  by rewrite !mulmxA -LS -(mulmxA _ S) E mulmx1.
have ent i : (toM n n (t_lT st) *m (Rm^T *m x)) i 0 = (if (i < n - k)%N then t_lT st i i else 0) * (Rm^T *m x) i 0.
  rewrite mxE (bigD1 i) //= big1 ?addr0 => [|j ne]; first by congr (_ * _); rewrite [LHS]mxE [LHS]lT // eqxx.
  by rewrite [toM _ _ _ _ _]mxE lT // eq_sym -val_eqE in ne *; rewrite /= (negbTE ne) mul0r.
split=> [z i hi|H].
  have : toM n n (t_lT st) *m (Rm^T *m x) = 0 by rewrite -[LHS]mul1mx -SR -mulmxA -Lx z mulmx0.
  move/colP/(_ i); rewrite ent hi [RHS]mxE => /eqP; rewrite mulf_eq0 => /orP [/eqP l0|/eqP //].
  by have := lp _ hi; rewrite l0 => /Rlt_irrefl.
rewrite Lx (_ : _ *m (_ *m x) = 0) ?mulmx0 //; apply/colP => i; rewrite ent [RHS]mxE; case: ifP => hi; rewrite ?mul0r //.
by rewrite H ?mulr0.
Qed.
End Modes.

(** ** The Hamiltonian without junctions *)
Section Ham.
Variable h : hin.
Hypothesis sym : forall i j, (i < hn h)%N -> (j < hn h)%N -> t_cI (h_st h) i j = t_cI (h_st h) j i.
Hypothesis dec : forall i j, (i < hn h)%N -> (j < hn h)%N -> i != j -> ~~ hcharge h i || ~~ hcharge h j -> t_cI (h_st h) i j = 0.
Let n := hn h.
Let pos d := posn (hm h) d n.

Lemma pos_eq d d' : legal (hm h) d n -> legal (hm h) d' n -> (pos d == pos d') = [forall k : 'I_n, d k == d' k].
Proof.
move=> Ld Ld'; apply/eqP/forallP => [e k|H]; first by rewrite (posn_inj Ld Ld' e).
by apply: posn_ext => k hk; have /eqP := H (Ordinal hk).
Qed.
Lemma one_diag i d d' (x : nat -> C) A : (i < n)%N -> legal (hm h) d n -> legal (hm h) d' n ->
  acts_on n (hm h) i (fun k l => if k == l then x k else 0) A ->
  ent A (pos d) (pos d') = if pos d == pos d' then x (d i) else 0.
Proof.
move=> hi Ld Ld' [_ ->] //; rewrite pos_eq //.
have -> : [forall k : 'I_n, d k == d' k] = [forall k : 'I_n, ((k : nat) == i) || (d k == d' k)] && (d i == d' i).
  apply/forallP/andP => [H|[/forallP H e] k]; last by case/orP: (H k) => // /eqP ->.
  by split; [apply/forallP => k; rewrite H orbT|have := H (Ordinal hi)].
by case: [forall k, _] => //=; case: ifP.
Qed.

Lemma Q_entry i d d' : (i < n)%N -> hcharge h i -> legal (hm h) d n -> legal (hm h) d' n ->
  ent (opQ h i) (pos d) (pos d') = if pos d == pos d' then (cooper (hm h) (h_ng h) d i)%:C else 0.
Proof.
move=> hi ch Ld Ld'; rewrite (@one_diag i d d' (fun k => charge_unit%:C * (Rminus (charge_at (hm h i) k) (h_ng h i))%:C)) //.
  by case: eqP => // _; rewrite -cRM.
rewrite opQE; have [e H] := one_acts hi (dimQ h); split=> // x y Lx Ly.
by rewrite H //; case: ifP => // _; rewrite Qdiag.
Qed.

Lemma QQ_entry i j d d' : (i < n)%N -> (j < n)%N -> hcharge h i -> hcharge h j -> legal (hm h) d n -> legal (hm h) d' n ->
  prodQ h (pos d) (pos d') i j = if pos d == pos d' then (cooper (hm h) (h_ng h) d i * cooper (hm h) (h_ng h) d j)%:C else 0.
Proof.
move=> hi hj ci cj Ld Ld'; rewrite /prodQ /= dim_opQ.
have lt : (pos d < total h)%N by exact: posn_lt.
rewrite (bigD1 (Ordinal lt)) //= big1 ?addr0; last first.
  move=> a ne; have [e [Le Ee]] := posn_surj (ltn_ord a); rewrite -val_eqE /= in ne.
  by rewrite -Ee -/n -/(pos e) Q_entry //; rewrite -Ee eq_sym in ne; rewrite (negbTE ne) mul0r.
rewrite !Q_entry // eqxx; case: eqP => [_|_]; last by rewrite mulr0.
by rewrite -cRM.
Qed.

Lemma LC_level d d' : legal (hm h) d n -> legal (hm h) d' n ->
  oent (LC_hamil h) (pos d) (pos d') =
  if pos d == pos d' then (level n (t_om (h_st h)) (hcharge h) (t_cI (h_st h)) (hm h) (h_ng h) d)%:C else 0.
Proof.
move=> Ld Ld'; have la : (pos d < total h)%N := posn_lt Ld; have lb : (pos d' < total h)%N := posn_lt Ld'.
have two : 2%:R != 0 :> C by rewrite Num.Theory.pnatr_eq0.
apply: (mulfI two); rewrite LC_entry // mulrDr half_sumE //; last by move=> i j _ _; exact: prodQ_sym.
set P := prodQ h (pos d) (pos d'); set A := t_cI (h_st h); set w := t_om (h_st h).
have split2 : \sum_(i < n) \sum_(j < n) (A i j)%:C * P i j =
  \sum_(i < n | hcharge h i) \sum_(j < n | hcharge h j) (A i j)%:C * P i j + \sum_(i < n | ~~ hcharge h i) (A i i)%:C * P i i.
  rewrite (bigID (fun i : 'I_n => hcharge h i)) /=; congr (_ + _); apply: eq_bigr => i ci.
    rewrite (bigID (fun j : 'I_n => hcharge h j)) /= [X in _ + X]big1 ?addr0 // => j cj.
    rewrite /A dec ?cR0 ?mul0r ?cj ?orbT //; apply/eqP => e; by rewrite e (negbTE cj) in ci.
  rewrite (bigD1 i) //= big1 ?addr0 // => j ne; rewrite /A dec ?cR0 ?mul0r ?ci // eq_sym; exact: ne.
rewrite split2 -addrA.
have -> : (\sum_(i < n | ~~ hcharge h i) (A i i)%:C * P i i) + 2%:R * (\sum_(i < n | ~~ hcharge h i) ((w i)%:C * ent (opN h i) (pos d) (pos d') - (halfR (A i i))%:C * P i i)) =
  2%:R * (\sum_(i < n | ~~ hcharge h i) (w i)%:C * ent (opN h i) (pos d) (pos d')).
  rewrite sumrB mulrBr addrCA -[RHS]addr0; congr (_ + _); rewrite mulr_sumr -sumrB big1 // => i _.
  rewrite mulrA.
  have -> : 2%:R * (halfR (A i i))%:C = (A i i)%:C by rewrite mulr_natl mulr2n -cRD; congr (_%:C); rewrite /halfR; exact: (esym (double_var _)).
  by rewrite subrr.
have Nn : \sum_(i < n | ~~ hcharge h i) (w i)%:C * ent (opN h i) (pos d) (pos d') =
  if pos d == pos d' then (\sum_(i < n | ~~ hcharge h i) w i * INR (d i))%:C else 0.
  have NE (i : 'I_n) : ~~ hcharge h i -> ent (opN h i) (pos d) (pos d') = if pos d == pos d' then (INR (d i))%:C else 0.
    move=> ci; apply: (@one_diag i d d' (fun k => (INR k)%:C)) => //.
    rewrite opNE; have [e H] := one_acts (ltn_ord i) (dimN h); split=> // x y Lx Ly.
    by rewrite H //; case: ifP => // _; rewrite /num_op_isolated (negbTE ci).
  case: ifP => e; last by rewrite big1 // => i ci; rewrite NE // e mulr0.
  by rewrite rmorph_sum; apply: eq_bigr => i ci; rewrite NE // e -cRM.
have Pn : \sum_(i < n | hcharge h i) \sum_(j < n | hcharge h j) (A i j)%:C * P i j =
  if pos d == pos d' then (\sum_(i < n | hcharge h i) \sum_(j < n | hcharge h j) A i j * cooper (hm h) (h_ng h) d i * cooper (hm h) (h_ng h) d j)%:C else 0.
  case: ifP => e; last by rewrite big1 // => i ci; rewrite big1 // => j cj; rewrite /P QQ_entry // e mulr0.
  rewrite rmorph_sum; apply: eq_bigr => i ci; rewrite rmorph_sum; apply: eq_bigr => j cj.
  by rewrite /P QQ_entry // e -cRM mulrA.
rewrite Nn Pn; case: ifP => _; last by rewrite !mulr0 addr0.
rewrite /level mulr_natl [RHS]mulr_natl !mulr2n -!cRD; congr (_%:C).
set x := \sum_(i < n | hcharge h i) _; set y := \sum_(i < n | ~~ hcharge h i) _.
by rewrite {1}(double_var x) !RplusE addrACA addrC.
Qed.
End Ham.

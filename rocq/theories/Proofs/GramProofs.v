(** GramProofs.v -- the Gram-Schmidt selection of independent rows. *)
From Coq Require Import Reals ZArith Lra FunctionalExtensionality.
From Verif.Model Require Import Base Units Edge LCWB Rounding Accuracy.
From mathcomp Require Import all_ssreflect all_algebra.
From Verif.Numerics Require Import RStruct Bridge.
From Verif.Model Require Import FluxDist Transform.
From Verif.Proofs Require Import AccProofs.

Set Implicit Arguments.
Unset Strict Implicit.
Unset Printing Implicit Defensive.
Import GRing.Theory.
Local Open Scope ring_scope.

Notation dflt := (fun=> 0 : R).

Section Gram.
Variables (n : nat) (rows : seq vec).
Let row_at (i : nat) : vec := nth dflt rows i.
Definition dot (a b : vec) : R := \sum_(l < n) a l * b l.

Lemma dotC a b : dot a b = dot b a.
Proof. by apply: eq_bigr => l _; rewrite mulrC. Qed.
Lemma dotZl c a b : dot (fun k => a k * c) b = dot a b * c.
Proof. by rewrite /dot big_distrl /=; apply: eq_bigr => l _; rewrite mulrAC. Qed.
Lemma dotZ' c a b : dot (fun k => c * a k) b = c * dot a b.
Proof. by rewrite /dot big_distrr /=; apply: eq_bigr => l _; rewrite mulrA. Qed.
Lemma dotBl a b c : dot (fun k => a k - b k) c = dot a c - dot b c.
Proof. by rewrite /dot -sumrB; apply: eq_bigr => l _; rewrite mulrBl. Qed.
Lemma dot_suml (I : Type) (s : seq I) (f : I -> vec) c :
  dot (fun k => \sum_(i <- s) f i k) c = \sum_(i <- s) dot (f i) c.
Proof.
rewrite /dot exchange_big /=; apply: eq_bigr => l _; by rewrite big_distrl.
Qed.

Lemma vnorm_dot a : vnorm n a = sqrt (dot a a).
Proof.
rewrite /vnorm /dot; congr sqrt; elim: n => [|p IH]; first by rewrite big_ord0.
by rewrite big_ord_recr /= IH.
Qed.
Lemma dot_ge0 a : Rle 0 (dot a a).
Proof.
rewrite /dot; elim: n => [|p IH]; first by rewrite big_ord0; apply: Rle_refl.
by rewrite big_ord_recr; apply: Rplus_le_le_0_compat => //; apply: Rle_0_sqr.
Qed.
Lemma dot_entry a k : (k < n)%N -> Rle (Rmult (a k) (a k)) (dot a a).
Proof.
rewrite /dot; elim: n => [//|p IH] Hk; rewrite big_ord_recr /=.
move: Hk; rewrite ltnS leq_eqVlt => /orP [/eqP ->|Hk].
  rewrite -[X in Rle X _]Rplus_0_l; apply: Rplus_le_compat_r.
  elim: p {IH} => [|p IH]; first by rewrite big_ord0; apply: Rle_refl.
  by rewrite big_ord_recr; apply: Rplus_le_le_0_compat => //; apply: Rle_0_sqr.
apply: Rle_trans (IH Hk) _; rewrite -[X in Rle X _]Rplus_0_r; apply: Rplus_le_compat_l.
exact: Rle_0_sqr.
Qed.
Lemma vnorm_sq a : Rmult (vnorm n a) (vnorm n a) = dot a a.
Proof. by rewrite vnorm_dot; apply: sqrt_sqrt; apply: dot_ge0. Qed.

Lemma any_bigP a : reflect (exists2 k, (k < n)%N & Rlt acc_gs (Rabs (a k))) (any_big n a).
Proof.
elim: n => [|p IH] /=; first by apply: ReflectF => [[k]].
apply: (iffP orP).
- case=> [/IH [k Hk H]|]; first by exists k => //; apply: leq_trans Hk _.
  by case: Rlt_dec => // H _; exists p.
- case=> k; rewrite ltnS leq_eqVlt => /orP [/eqP -> H|Hk H]; last by left; apply/IH; exists k.
  by right; case: Rlt_dec.
Qed.
Lemma big_norm a : any_big n a -> Rlt 0 (vnorm n a).
Proof.
move=> /any_bigP [k Hk H]; have [Hp _] := acc_gs_small.
rewrite vnorm_dot; apply: sqrt_lt_R0; apply: Rlt_le_trans (dot_entry a Hk).
have : a k <> R0 by move=> E; rewrite E Rabs_R0 in H; apply: (Rlt_irrefl 0); apply: Rlt_trans Hp H.
exact: Rsqr_pos_lt.
Qed.

(** combination of the vectors of [basis] *)
Definition comb (basis : seq vec) (c : nat -> R) : vec :=
  fun k => \sum_(0 <= q < size basis) c q * nth dflt basis q k.

Lemma comb_rcons basis e c k :
  comb (rcons basis e) c k = comb basis c k + c (size basis) * e k.
Proof.
rewrite /comb size_rcons big_nat_recr //= nth_rcons ltnn eqxx; congr (_ + _).
by apply: eq_big_nat => q /andP [_ Hq]; rewrite nth_rcons Hq.
Qed.

Definition orthonormal (basis : seq vec) : Prop :=
  forall p q, (p < size basis)%N -> (q < size basis)%N ->
    dot (nth dflt basis p) (nth dflt basis q) = if p == q then 1 else 0.

Definition unit_row (i : nat) : vec := fun k => row_at i k / (vnorm n (row_at i) + gs_reg).

Definition inv_gs (done : seq nat) (acc : seq nat * seq vec) : Prop :=
  [/\ size acc.1 = size acc.2,
      orthonormal acc.2,
      forall p, (p < size acc.1)%N -> exists c,
        (forall k, (k < n)%N -> row_at (nth 0%N acc.1 p) k = comb acc.2 c k) /\
        c p != 0 /\ (forall q, (p < q)%N -> c q = 0),
      forall i, i \in done -> exists c,
        forall k, (k < n)%N -> Rle (Rabs (unit_row i k - comb acc.2 c k)%R) acc_gs &
      subseq acc.1 done].

Lemma reg_pos i : Rlt 0 (vnorm n (row_at i) + gs_reg).
Proof.
apply: Rplus_le_lt_0_compat; first exact: sqrt_pos.
rewrite /gs_reg; lra.
Qed.

Lemma gs_residE a basis k :
  gs_resid n a basis k = a k - comb basis (fun q => dot a (nth dflt basis q)) k.
Proof. by rewrite /gs_resid /comb (big_nth dflt). Qed.

Lemma resid_orth a basis q : orthonormal basis -> (q < size basis)%N ->
  dot (gs_resid n a basis) (nth dflt basis q) = 0.
Proof.
move=> Ho Hq; rewrite /gs_resid dotBl.
have -> : dot (fun k => \sum_(e <- basis) (\sum_(l < n) a l * e l) * e k) (nth dflt basis q) =
          dot a (nth dflt basis q); last by rewrite subrr.
rewrite dot_suml (big_nth dflt) (bigD1_seq q) ?mem_index_iota ?iota_uniq //= dotZ' Ho // eqxx mulr1.
rewrite [X in _ + X]big1_seq ?addr0 //.
move=> p /andP [pq]; rewrite mem_index_iota => /andP [_ Hp].
by rewrite dotZ' Ho // (negbTE pq) mulr0.
Qed.

Lemma comb_ext basis c c' k : (forall q, (q < size basis)%N -> c q = c' q) ->
  comb basis c k = comb basis c' k.
Proof. by move=> E; apply: eq_big_nat => q /andP [_ Hq]; rewrite E. Qed.

Definition cut (m : nat) (c : nat -> R) : nat -> R := fun q => if (q < m)%N then c q else 0.

Lemma comb_cut_rcons basis e c k : comb (rcons basis e) (cut (size basis) c) k = comb basis c k.
Proof.
rewrite comb_rcons /cut ltnn mul0r addr0; apply: comb_ext => q ->; by [].
Qed.

Lemma inv_step done acc i : inv_gs done acc -> inv_gs (rcons done i) (gs_step n rows acc i).
Proof.
case: acc => idx basis [/= Hs Ho Hc Hd Hsub]; rewrite /gs_step /=.
set a0 := nth _ rows i; set a := fun k => _ / _; set a' := gs_resid n a basis.
have aE k : a k = unit_row i k by [].
case: ifP => Hbig.
- have Hn := big_norm Hbig; set e := fun k => a' k / vnorm n a'.
  have nn0 : vnorm n a' != 0 by apply/eqP => E; rewrite E in Hn; exact: (Rlt_irrefl _ Hn).
  have ee : dot e e = 1.
    by rewrite dotZl dotC dotZl -vnorm_sq RmultE mulfK // mulfV.
  have eb q : (q < size basis)%N -> dot e (nth dflt basis q) = 0.
    by move=> Hq; rewrite dotZl resid_orth // mul0r.
  have aa k : a k = comb basis (fun q => dot a (nth dflt basis q)) k + vnorm n a' * e k.
    rewrite /e mulrCA mulfV // mulr1 /a' gs_residE addrC subrK //.
  pose ca := fun q => if (q < size basis)%N then dot a (nth dflt basis q)
                      else if q == size basis then vnorm n a' else 0.
  have ca_row k : a k = comb (rcons basis e) ca k.
    rewrite comb_rcons {2}/ca ltnn eqxx aa; congr (_ + _); apply: comb_ext => q Hq.
    by rewrite /ca Hq.
  have rp := reg_pos i; rewrite -/a0 in rp.
  have r0 : vnorm n a0 + gs_reg != 0 by apply/eqP => E; apply: (Rlt_not_eq _ _ rp); exact: esym E.
  split=> /=.
  + by rewrite !size_rcons Hs.
  + move=> p q; rewrite size_rcons !ltnS => Hp Hq; rewrite !nth_rcons.
    case: (ltngtP p (size basis)) Hp => // [Hp|Ep] _; case: (ltngtP q (size basis)) Hq => // [Hq|Eq] _.
    * exact: Ho.
    * by rewrite dotC eb // Eq ltn_eqF.
    * by rewrite eb // Ep gtn_eqF.
    * by rewrite ee Ep Eq eqxx.
  + move=> p; rewrite size_rcons ltnS leq_eqVlt => /orP [/eqP ->|Hp]; rewrite nth_rcons.
    * rewrite ltnn eqxx; exists (fun q => ca q * (vnorm n a0 + gs_reg)); split; last split.
      - move=> k Hk; rewrite /row_at -/a0.
        have -> : a0 k = a k * (vnorm n a0 + gs_reg) by rewrite /a divfK.
        rewrite ca_row /comb big_distrl /=; apply: eq_bigr => q _; by rewrite mulrAC.
      - by rewrite mulf_neq0 // /ca Hs ltnn eqxx.
      - move=> q Hq; rewrite /ca -Hs ltnNge (ltnW Hq) /= gtn_eqF // mul0r //.
    * rewrite Hp; have [c [H1 [H2 H3]]] := Hc p Hp; exists (cut (size basis) c); split; last split.
      - by move=> k Hk; rewrite comb_cut_rcons H1.
      - by rewrite /cut -Hs Hp.
      - by move=> q Hq; rewrite /cut; case: ifP => // _; apply: H3.
  + move=> j; rewrite mem_rcons inE => /orP [/eqP ->|Hj].
    * exists ca => k Hk; rewrite -aE -ca_row subrr Rabs_R0.
      by have [H _] := acc_gs_small; apply: Rlt_le.
    * have [c H] := Hd j Hj; exists (cut (size basis) c) => k Hk; rewrite comb_cut_rcons; exact: H.
  + by rewrite -!cats1 cat_subseq.
- split=> //=.
  + move=> j; rewrite mem_rcons inE => /orP [/eqP ->|Hj]; last exact: Hd.
    exists (fun q => dot a (nth dflt basis q)) => k Hk; rewrite -aE -gs_residE.
    apply: Rnot_lt_le => H; move/negP: Hbig; apply; apply/any_bigP; by exists k.
  + by apply: subseq_trans Hsub _; rewrite -cats1 prefix_subseq.
Qed.

Lemma independent_rowsP order :
  inv_gs (order [seq vnorm n r | r <- rows]) (independent_rows order n rows).
Proof.
rewrite /independent_rows; move: (order _) => l.
have gen done acc : inv_gs done acc -> inv_gs (done ++ l) (foldl (gs_step n rows) acc l).
  elim: l done acc => [|i l IH] done acc H /=; first by rewrite cats0.
  by rewrite -cat_rcons; apply: IH; apply: inv_step.
by have := gen [::] ([::], [::]); rewrite cat0s; apply; split.
Qed.

(** n selected rows are linearly independent. *)
Lemma selected_unit done acc : inv_gs done acc -> size acc.1 = n ->
  toM n n (fun i => row_at (nth 0%N acc.1 i)) \in unitmx.
Proof.
move=> [Hs Ho Hc _ _] Sn.
have /fin_all_exists [c Hcc] : forall p : 'I_n, exists c : nat -> R,
    (forall k, (k < n)%N -> row_at (nth 0%N acc.1 p) k = comb acc.2 c k) /\
    c p != 0 /\ (forall q, (p < q)%N -> c q = 0).
  by move=> p; apply: Hc; rewrite Sn.
pose B := toM n n (fun i => nth dflt acc.2 i); pose T := \matrix_(p < n, q < n) c p q.
have -> : toM n n (fun i => row_at (nth 0%N acc.1 i)) = T *m B.
  apply/matrixP => i j; rewrite !mxE; have [-> // _] := Hcc i.
  rewrite /comb -Hs Sn big_mkord; apply: eq_bigr => q _; by rewrite !mxE.
have uB : B \in unitmx.
  have : B *m B^T = 1%:M.
    apply/matrixP => i j; rewrite !mxE; under eq_bigr do rewrite !mxE.
    have := Ho i j; rewrite /dot -Hs Sn => -> //; rewrite -(inj_eq val_inj); by case: eqP.
  by case/mulmx1_unit.
rewrite unitmx_mul uB andbT unitmxE det_trig.
  by rewrite unitfE; apply/prodf_neq0 => i _; rewrite mxE; have [_ []] := Hcc i.
by apply/is_trig_mxP => i j ij; rewrite mxE; have [_ [_ H]] := Hcc i; apply: H.
Qed.
End Gram.

(** An orthonormal list of vectors of length n has at most n elements. *)
Lemma selected_bounded n rows order : (size (independent_rows order n rows).1 <= n)%N.
Proof.
have [-> Ho _ _ _] := independent_rowsP n rows order.
move: (independent_rows order n rows).2 Ho => basis Ho.
pose B := toM (size basis) n (fun i => nth dflt basis i).
have BB : B *m B^T = 1%:M.
  apply/matrixP => i j; rewrite !mxE; under eq_bigr do rewrite !mxE.
  by rewrite -(inj_eq val_inj) /= -[LHS]/(dot n _ _) Ho //; case: eqP.
have /eqP <- : row_free B by apply/row_freeP; exists B^T.
exact: rank_leq_col.
Qed.

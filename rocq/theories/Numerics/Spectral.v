(** Spectral.v -- every Hermitian matrix over the complex numbers has an orthonormal
    basis of eigenvectors with real eigenvalues in ascending order. *)
From Coq Require Import Reals.
From mathcomp Require Import all_ssreflect all_algebra.
From mathcomp Require Import complex ring.
From Verif.Numerics Require Import RStruct.

Set Implicit Arguments.
Unset Strict Implicit.
Unset Printing Implicit Defensive.
Import GRing.Theory Num.Theory Order.TTheory.
Local Open Scope ring_scope.
Local Open Scope complex_scope.

Notation C := (complex R).
Definition adj (m n : nat) (A : 'M[C]_(m, n)) : 'M[C]_(n, m) := map_mx (@conjc R_rcfType) A^T.

Lemma adjM m n p (A : 'M[C]_(m, n)) (B : 'M_(n, p)) : adj (A *m B) = adj B *m adj A.
Proof. by rewrite /adj trmx_mul map_mxM. Qed.
Lemma adjK m n (A : 'M[C]_(m, n)) : adj (adj A) = A.
Proof. by apply/matrixP => i j; rewrite !mxE conjcK. Qed.
Lemma adjZ m n z (A : 'M[C]_(m, n)) : adj (z *: A) = conjc z *: adj A.
Proof. by apply/matrixP => i j; rewrite !mxE rmorphM. Qed.

Lemma cjM (x y : C) : conjc (x * y) = conjc x * conjc y. Proof. exact: rmorphM. Qed.
Lemma cj_sum (I : Type) (r : seq I) (F : I -> C) : conjc (\sum_(i <- r) F i) = \sum_(i <- r) conjc (F i).
Proof. exact: rmorph_sum. Qed.
Lemma cjR (r : R) : conjc (r%:C) = r%:C. Proof. exact: conjc_real. Qed.
Lemma nsq (z : C) : z * conjc z = (complex.Re z ^+ 2 + complex.Im z ^+ 2)%:C.
Proof. by case: z => a b; simpc; rewrite !expr2 [b * a]mulrC addNr. Qed.

Lemma row_nsq n (w : 'rV[C]_n) : exists2 s : R, w *m adj w = (s%:C)%:M & (w != 0 -> 0 < s).
Proof.
exists (\sum_j (complex.Re (w 0 j) ^+ 2 + complex.Im (w 0 j) ^+ 2)).
  apply/matrixP => i j; rewrite !ord1 !mxE eqxx mulr1n rmorph_sum; apply: eq_bigr => k _.
  by rewrite !mxE nsq.
move=> nz; rewrite lt_neqAle sumr_ge0 ?andbT; last by move=> j _; rewrite addr_ge0 // sqr_ge0.
apply: contra nz => /eqP /esym e; apply/eqP/rowP => j; rewrite mxE.
have := psumr_eq0P (fun j _ => addr_ge0 (sqr_ge0 (complex.Re (w 0 j))) (sqr_ge0 (complex.Im (w 0 j)))) e.
move=> /(_ j isT) /eqP; rewrite paddr_eq0 ?sqr_ge0 // !sqrf_eq0 => /andP [/eqP a /eqP b].
by case: (w 0 j) a b => x y /= -> ->.
Qed.

Section Spectral.
Variables (n : nat) (A : 'M[C]_n).
Hypothesis hA : adj A = A.

Definition part (k : nat) (W : 'M[C]_(k, n)) (d : 'rV[R]_k) : Prop :=
  W *m adj W = 1%:M /\ W *m A = diag_mx (map_mx (@real_complex R_rcfType) d) *m W.

Lemma adj_diag k (d : 'rV[R]_k) : adj (diag_mx (map_mx (@real_complex R_rcfType) d)) =
  diag_mx (map_mx (@real_complex R_rcfType) d).
Proof.
apply/matrixP => i j; rewrite !mxE eq_sym; case: eqP => [->|_]; rewrite ?mulr1n ?mulr0n ?cjR //.
Qed.

(** A new eigenvector orthogonal to the old ones. *)
Lemma next_vec k (W : 'M[C]_(k, n)) d : (k < n)%N -> part W d ->
  exists (w : 'rV[C]_n) (a : R), [/\ w *m adj W = 0, w *m adj w = 1%:M & w *m A = a%:C *: w].
Proof.
move=> kn [_ WA]; pose V := kermx (adj W).
have r0 : (0 < \rank V)%N.
  rewrite mxrank_ker subn_gt0; apply: leq_ltn_trans kn; exact: rank_leq_col.
have Vs : (row_base V *m A <= row_base V)%MS.
  rewrite eq_row_base; apply/sub_kermxP; rewrite -mulmxA.
  have -> : A *m adj W = adj W *m diag_mx (map_mx (@real_complex R_rcfType) d).
    by rewrite -{1}hA -adjM WA adjM adj_diag.
  have : (row_base V <= V)%MS by rewrite eq_row_base.
  by move=> /sub_kermxP e; rewrite mulmxA e mul0mx.
pose B := row_base V *m A *m pinvmx (row_base V).
have BV : B *m row_base V = row_base V *m A by rewrite /B mulmxKpV.
have [a ra] : exists a, root (char_poly B) a by apply/closed_rootP; rewrite size_char_poly; case: (\rank V) r0.
have : eigenvalue B a by rewrite eigenvalue_root_char.
case/eigenvalueP => u uB u0.
pose w0 := u *m row_base V.
have w0A : w0 *m A = a *: w0 by rewrite /w0 -mulmxA -BV mulmxA uB scalemxAl.
have w00 : w0 != 0.
  apply: contra u0 => /eqP e; have := row_base_free V; rewrite -kermx_eq0 => /eqP k0.
  have : (u <= kermx (row_base V))%MS by apply/sub_kermxP.
  by rewrite k0 submx0.
have w0W : w0 *m adj W = 0.
  have : (row_base V <= V)%MS by rewrite eq_row_base.
  by move=> /sub_kermxP e; rewrite /w0 -mulmxA e mulmx0.
clearbody w0.
have [s ws sp] := row_nsq w0; move/(_ w00): sp => sp.
have areal : a = (complex.Re a)%:C.
  have e1 : w0 *m A *m adj w0 = (a * s%:C)%:M by rewrite w0A -scalemxAl ws scale_scalar_mx.
  have e2 : adj (w0 *m A *m adj w0) = w0 *m A *m adj w0 by rewrite !adjM adjK hA mulmxA.
  move: e2; rewrite e1 => /matrixP /(_ 0 0); rewrite !mxE eqxx !mulr1n cjM cjR => /mulIf e.
  have /e : s%:C != 0 by rewrite fmorph_eq0 gt_eqF.
  case: (a) => x y [] /eqP; rewrite eq_sym -subr_eq0 opprK -mulr2n mulrn_eq0 /= => /eqP -> //.
have q2 : (Num.sqrt s)^-1 * (Num.sqrt s)^-1 * s = 1.
  by rewrite -invfM -expr2 sqr_sqrtr ?ltW // mulVf // gt_eqF.
exists (((Num.sqrt s)^-1)%:C *: w0), (complex.Re a); split.
- by rewrite -scalemxAl w0W scaler0.
- rewrite adjZ -scalemxAl -scalemxAr ws !scale_scalar_mx cjR -!rmorphM mulrA q2 /=.
  by congr (_%:M).
by rewrite -scalemxAl w0A -areal !scalerA mulrC.
Qed.

Lemma part_some k : (k <= n)%N -> exists (W : 'M[C]_(k, n)) d, part W d.
Proof.
elim: k => [|k IH] kn.
  by exists 0, 0; split; apply/matrixP => -[].
have [W [d P]] := IH (ltnW kn); have [w [a [wW ww wA]]] := next_vec kn P.
case: P => WW WA.
rewrite -[k.+1]addn1; exists (col_mx W w), (row_mx d (a%:M)); split.
  have -> : adj (col_mx W w) = row_mx (adj W) (adj w) by rewrite /adj tr_col_mx map_row_mx.
  have e : W *m adj w = 0 by rewrite -[W]adjK -adjM wW; apply/matrixP => i j; rewrite !mxE; exact: rmorph0.
  by rewrite mul_col_row WW ww wW e -scalar_mx_block.
have -> : map_mx (@real_complex R_rcfType) (row_mx d a%:M) = row_mx (map_mx (@real_complex R_rcfType) d) (a%:C)%:M.
  by rewrite map_row_mx; congr row_mx; apply/matrixP => i j; rewrite !ord1 !mxE eqxx !mulr1n.
rewrite mul_col_mx WA wA diag_mx_row mul_block_col !mul0mx addr0 add0r; congr col_mx.
by rewrite -mul_scalar_mx; congr (_ *m _); apply/matrixP => i j; rewrite !ord1 !mxE eqxx !mulr1n.
Qed.
End Spectral.

(** In functions of indices. *)
Lemma spectral (n : nat) (h : nat -> nat -> C) :
  (forall i j, (i < n)%N -> (j < n)%N -> h i j = conjc (h j i)) ->
  exists (E : nat -> R) (v : nat -> nat -> C),
  [/\ forall i j, (i <= j < n)%N -> Rle (E i) (E j),
      forall i a, (i < n)%N -> (a < n)%N -> \sum_(b < n) h a b * v i b = (E i)%:C * v i a &
      forall i j, (i < n)%N -> (j < n)%N -> \sum_(a < n) conjc (v i a) * v j a = if i == j then 1 else 0].
Proof.
move=> H; pose A : 'M[C]_n := \matrix_(i, j) h i j.
have hA : adj A = A by apply/matrixP => i j; rewrite !mxE (H i j).
have [W [d [WW WA]]] := part_some hA (leqnn n).
have AE i j : A i j = h i j by rewrite mxE.
case: n h H A AE hA W d WW WA => [|n] h H A AE hA W d WW WA.
  by exists (fun=> 0), (fun _ => fun=> 0); split=> [i j|i a|i j] //; rewrite ltn0 ?andbF.
pose E0 (i : nat) : R := d 0 (inord i); pose v0 (i a : nat) : C := conjc (W (inord i) (inord a)).
pose p := sort (fun i j => E0 i <= E0 j) (iota 0 n.+1).
have sp : size p = n.+1 by rewrite size_sort size_iota.
have pp : perm_eq p (iota 0 n.+1) by rewrite perm_sort.
have up : uniq p by rewrite (perm_uniq pp) iota_uniq.
have pl i : (i < n.+1)%N -> (nth 0%N p i < n.+1)%N.
  by move=> hi; have : nth 0%N p i \in iota 0 n.+1; [rewrite -(perm_mem pp) mem_nth ?sp|rewrite mem_iota add0n].
exists (fun i => E0 (nth 0%N p i)), (fun i => v0 (nth 0%N p i)); split.
- move=> i j /andP [ij jn]; apply/RleP.
  have tr : transitive (fun i j => E0 i <= E0 j) by move=> y x z /=; exact: le_trans.
  have rf : reflexive (fun i j => E0 i <= E0 j) by move=> x /=; exact: lexx.
  have so : sorted (fun i j => E0 i <= E0 j) p by apply: sort_sorted => x y /=; exact: le_total.
  by apply: (sorted_leq_nth tr rf 0%N so) => //; rewrite inE sp // (leq_ltn_trans ij).
- move=> i a hi ha; move: (nth 0%N p i) (pl i hi) => {}i {}hi; rewrite /v0 /E0.
  have := congr1 (fun M : 'M[C]_n.+1 => conjc (M (inord i) (inord a))) WA; rewrite mul_diag_mx !mxE cjM cjR => <-.
  rewrite cj_sum; apply: eq_bigr => b _; rewrite cjM inord_val mulrC AE inordK //.
  by rewrite (H a b) //.
move=> i j hi hj; rewrite -(nth_uniq 0%N _ _ up) ?sp //.
move: (nth 0%N p i) (nth 0%N p j) (pl i hi) (pl j hj) => {}i {}j {}hi {}hj; rewrite /v0.
have := congr1 (fun M : 'M[C]_n.+1 => M (inord i) (inord j)) WW; rewrite mxE [1%:M _ _]mxE => e.
rewrite (_ : \sum_(a < n.+1) _ = \sum_(a < n.+1) W (inord i) a * adj W a (inord j)).
  by rewrite e -val_eqE /= !inordK //; case: eqP.
by apply: eq_bigr => a _; rewrite !mxE conjcK inord_val.
Qed.

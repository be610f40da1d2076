(** FluxProofs.v -- remove_dependent_columns and the flux distribution. *)
From Coq Require Import Reals ZArith Lra Lia.
From Verif.Model Require Import Base Elements Edge LCWB Rounding.
From Verif.Spec Require Import GraphSpec CircuitSpec.
From mathcomp Require Import all_ssreflect all_algebra.
From Verif.Numerics Require Import RStruct Bridge.
From Verif.Model Require Import FluxDist.
From Verif.Spec Require Import LinSpec.

Set Implicit Arguments.
Unset Strict Implicit.
Unset Printing Implicit Defensive.
Import GRing.Theory.
Local Open Scope ring_scope.

(** ** Kept columns *)
Lemma filter_iota_down (P : pred nat) m :
  (forall k l, (k <= l < m)%N -> P l -> P k) ->
  filter P (iota 0 m) = iota 0 (count P (iota 0 m)).
Proof.
elim: m => [|m IH] H //.
rewrite -addn1 iotaD filter_cat count_cat /= add0n addn0.
have Hm : filter P (iota 0 m) = iota 0 (count P (iota 0 m)).
  by apply: IH => k l /andP[kl lm]; apply: H; rewrite kl ltnW.
case: ifP => Pm; last by rewrite cats0 addn0.
have Hall : all P (iota 0 m).
  apply/allP => k; rewrite mem_iota add0n => /andP[_ km]; apply: (H k m) => //.
  by rewrite ltnW //=.
have := Hall; rewrite all_count size_iota => /eqP Hc.
by rewrite Hm Hc addn1 -[in RHS]addn1 iotaD.
Qed.

Lemma count_nth_iota (P : pred R) (s : seq R) :
  count (fun k => P (nth 0 s k)) (iota 0 (size s)) = count P s.
Proof.
have E : [seq nth 0 s k | k <- iota 0 (size s)] = s by rewrite map_nth_iota0 // take_size.
by rewrite -[in RHS]E count_map.
Qed.

Lemma where_bigE m n (A : 'M[R]_(m, n)) s : sing_values_ok tol A s ->
  where_big s = iota 0 (\rank A).
Proof.
case=> Hpos Hdesc Hc; rewrite /where_big filter_iota_down.
  congr iota; rewrite -Hc -count_nth_iota; apply: eq_count => k.
  by rewrite Rabs_pos_eq.
move=> k l /andP[kl ls]; rewrite !Rabs_pos_eq // => /RltbP H.
by apply/RltbP; apply: (Rlt_le_trans _ _ _ H); apply: Hdesc; rewrite kl.
Qed.

(** The matrix the SVD is taken of. *)
Definition nzmat p n K : 'M[R]_(p, size (nzcols p n K)) :=
  toM p (size (nzcols p n K)) (fun i k => K i (nth 0%N (nzcols p n K) k)).

Definition svd_good (sv : svd_fun) p n K := sing_values_ok tol (nzmat p n K) (sv _ _ (nzmat p n K)).

Lemma kept_columnsE sv p n K : svd_good sv p n K ->
  kept_columns sv p n K = take (\rank (nzmat p n K)) (nzcols p n K).
Proof.
move=> H; rewrite /kept_columns (where_bigE H) map_nth_iota0 //.
exact: rank_leq_col.
Qed.

Lemma nzcolsP p n (K : nat -> nat -> R) j : reflect ((j < n)%N /\ exists i : 'I_p, K i j != 0) (j \in nzcols p n K).
Proof.
rewrite mem_filter mem_iota add0n /=.
apply: (iffP andP) => [[/forallPn [i Hi] ->]|[-> [i Hi]]]; first by split => //; exists i.
by split=> //; apply/forallPn; exists i.
Qed.

Lemma nzcols_zero p n (K : nat -> nat -> R) j : (j < n)%N -> j \notin nzcols p n K ->
  forall i : 'I_p, K i j = 0.
Proof.
move=> jn Hj i; apply/eqP/negPn/negP => H; move/negP: Hj; apply.
by apply/nzcolsP; split=> //; exists i.
Qed.

(** Columns picked by a list of indices. *)
Definition pick p (K : nat -> nat -> R) (sel : seq nat) : 'M[R]_(p, size sel) :=
  toM p (size sel) (fun i k => K i (nth 0%N sel k)).

Lemma pickM p n K sel : all (fun j => (j < n)%N) sel ->
  pick p K sel = toM p n K *m \matrix_(j < n, k < size sel) ((j : nat) == nth 0%N sel k)%:R.
Proof.
move=> /allP H; apply/matrixP => i k; rewrite !mxE.
have Hk : (nth 0%N sel k < n)%N by apply: H; rewrite mem_nth.
rewrite (bigD1 (Ordinal Hk)) //= !mxE /= eqxx mulr1 big1 ?addr0 // => j Hj.
rewrite !mxE; case: eqP => [E|]; last by rewrite mulr0.
by move/eqP: Hj; case; apply: val_inj.
Qed.

Lemma pick_rank p n K sel : all (fun j => (j < n)%N) sel ->
  (\rank (pick p K sel) <= \rank (toM p n K))%N.
Proof. by move=> H; rewrite (pickM _ _ H) mxrankM_maxl. Qed.

Lemma nzcols_lt p n K : all (fun j => (j < n)%N) (nzcols p n K).
Proof. by apply/allP => j /nzcolsP[]. Qed.
Lemma nzcols_uniq p n K : uniq (nzcols p n K).
Proof. by rewrite filter_uniq // iota_uniq. Qed.

(** Dropping zero columns keeps the rank. *)
Lemma nzmat_rank p n K : \rank (nzmat p n K) = \rank (toM p n K).
Proof.
set nz := nzcols p n K.
apply/eqP; rewrite eqn_leq (pick_rank p K (nzcols_lt p n K)) /=.
have -> : toM p n K = nzmat p n K *m \matrix_(k < size nz, j < n) ((j : nat) == nth 0%N nz k)%:R.
  apply/matrixP => i j; rewrite !mxE.
  have [jin|jout] := boolP ((j : nat) \in nz); last first.
    rewrite (nzcols_zero _ jout) // big1 // => k _; rewrite !mxE.
    case: eqP => [E|]; last by rewrite mulr0.
    by move/negP: jout; case; rewrite E mem_nth.
  have Hk : (index (j : nat) nz < size nz)%N by rewrite index_mem.
  rewrite (bigD1 (Ordinal Hk)) //= !mxE /= nth_index // eqxx mulr1 big1 ?addr0 // => k Hk'.
  rewrite !mxE; case: eqP => [E|]; last by rewrite mulr0.
  by move/eqP: Hk'; case; apply: val_inj; rewrite /= E index_uniq ?nzcols_uniq.
exact: mxrankM_maxl.
Qed.

(** Independent picked columns in the right number span all columns. *)
Lemma pick_spans p n K sel : all (fun j => (j < n)%N) sel ->
  \rank (pick p K sel) = \rank (toM p n K) ->
  exists D, toM p n K = pick p K sel *m D.
Proof.
move=> Hs Hr.
have S : ((pick p K sel)^T <= (toM p n K)^T)%MS by rewrite (pickM _ _ Hs) trmx_mul submxMl.
have := mxrank_leqif_sup S; rewrite !mxrank_tr => -[_]; rewrite Hr eqxx => /esym /submxP [D E].
by exists D^T; rewrite -[LHS]trmxK E trmx_mul trmxK.
Qed.

Lemma kept_lt sv p n K : svd_good sv p n K -> all (fun j => (j < n)%N) (kept_columns sv p n K).
Proof.
move=> H; rewrite kept_columnsE //; apply/allP => j /mem_take Hj.
by move/allP: (nzcols_lt p n K); apply.
Qed.

Lemma size_kept sv p n K : svd_good sv p n K -> size (kept_columns sv p n K) = \rank (toM p n K).
Proof.
move=> H; rewrite kept_columnsE // size_take -(nzmat_rank p n K).
by case: ltngtP (rank_leq_col (nzmat p n K)) => // ->.
Qed.

(** If the kept columns are independent they span. *)
Lemma kept_spans sv p n K : svd_good sv p n K ->
  (forall u : 'cV[R]_(size (kept_columns sv p n K)), pick p K (kept_columns sv p n K) *m u = 0 -> u = 0) ->
  exists D, toM p n K = pick p K (kept_columns sv p n K) *m D.
Proof.
move=> H Hu; apply: pick_spans; first exact: kept_lt.
rewrite -(size_kept H) -mxrank_tr; apply/eqP/inj_row_free => v Hv.
apply: trmx_inj; rewrite trmx0; apply: Hu; apply: trmx_inj.
by rewrite trmx_mul trmxK trmx0.
Qed.

(** ** Loops: the row vector g *)
Lemma ofV_in n (v : 'rV[R]_n) (i : 'I_n) : ofV v i = v 0 i.
Proof. by rewrite /ofV valK. Qed.

(** A vector on the rows of [kl] is closed when it is 1 on the first row and
    every column of [kl] sums to zero with these weights. *)
Definition closed_on (n : nat) (kl : seq (seq Z)) (g : nat -> R) : Prop :=
  g 0%N = 1 /\ forall j, (j < n)%N -> \sum_(i < size kl) g i * rows kl i j = 0.

Lemma get_gP sv n kl g : get_g sv n kl = Ok g -> svd_good sv (size kl) n (rows kl) ->
  closed_on n kl g /\
  forall g', closed_on n kl g' -> forall i, (i < size kl)%N -> g' i = g i.
Proof.
rewrite /get_g; set p := size kl; set K := rows kl; set sel := kept_columns sv p n K.
case: eqP => // /eqP p0; case: ifP => // /negbFE /eqP szs; case: ifP => // uM [<-] Hsv.
set M := get_g_mat p K sel; set e0 := \col_i _; set g0 := invmx M *m e0.
have Hp : (0 < p)%N by rewrite lt0n.
have MgE : M *m g0 = e0 by rewrite /g0 mulKVmx.
have Hrow (v : 'cV[R]_p) : M *m v = e0 <->
   (v (Ordinal Hp) 0 = 1 /\ forall k, (k < size sel)%N -> \sum_(i < p) v i 0 * K i (nth 0%N sel k) = 0).
  split.
    move=> E; split.
      have := congr1 (fun A : 'cV[R]_p => A (Ordinal Hp) 0) E.
      rewrite /e0 !mxE /= (bigD1 (Ordinal Hp)) //= !mxE /= mul1r big1 ?addr0 // => j Hj.
      rewrite !mxE /=; case: eqP => [j0|]; last by rewrite mul0r.
      by move/eqP: Hj; case; apply: val_inj.
    move=> k Hk.
    have Hk1 : (k.+1 < p)%N by rewrite -szs.
    have := congr1 (fun A : 'cV[R]_p => A (Ordinal Hk1) 0) E.
    rewrite /e0 !mxE /= => H; rewrite -[RHS]H; apply: eq_bigr => i _.
    by rewrite !mxE /= mulrC.
  case=> v0 vk; apply/matrixP => i z; rewrite [z]ord1 /e0 !mxE.
  case: i => [[|k] Hi] /=.
    rewrite (bigD1 (Ordinal Hp)) //= !mxE /= mul1r v0 big1 ?addr0 // => j Hj.
    rewrite !mxE /=; case: eqP => [j0|]; last by rewrite mul0r.
    by move/eqP: Hj; case; apply: val_inj.
  rewrite -[RHS](vk k); last by rewrite -ltnS szs.
  by apply: eq_bigr => j _; rewrite !mxE /= mulrC.
have Hind : forall u : 'cV[R]_(size sel), pick p K sel *m u = 0 -> u = 0.
  move=> u Hu.
  (* a relation among the kept columns kills a combination of rows of M *)
  pose w : 'rV[R]_p := \row_(i < p) (if (i : nat) is k.+1 then ofV u^T k else 0).
  have wM : w *m M = 0.
    apply/rowP => j; rewrite !mxE.
    have := congr1 (fun A : 'cV[R]_p => A j 0) Hu; rewrite !mxE => Huj.
    rewrite -[RHS]Huj.
    transitivity (\sum_(0 <= i < p) (if i is k.+1 then ofV u^T k else 0) *
      (if i == 0%N then (if (j : nat) == 0%N then 1 else 0) else K j (nth 0%N sel i.-1))).
      by rewrite big_mkord; apply: eq_bigr => i _; rewrite !mxE.
    rewrite -[X in index_iota _ X]szs big_nat_recl //= mul0r add0r big_mkord; apply: eq_bigr => k _.
    by rewrite ofV_in !mxE mulrC.
  have w0 : w = 0 by rewrite -(mulmxK uM w) wM mul0mx.
  apply/colP => k; rewrite [RHS]mxE.
  have Hk1 : (k.+1 < p)%N by rewrite -szs ltnS.
  have := congr1 (fun A : 'rV[R]_p => A 0 (Ordinal Hk1)) w0; rewrite !mxE /= => H; rewrite -[RHS]H.
  by rewrite ofV_in mxE.
have [D HD] := kept_spans Hsv Hind.
have Hclosed (v : 'cV[R]_p) : (forall k, (k < size sel)%N ->
    \sum_(i < p) v i 0 * K i (nth 0%N sel k) = 0) ->
    forall j, (j < n)%N -> \sum_(i < p) v i 0 * K i j = 0.
  move=> H j Hj.
  have E : v^T *m toM p n K = 0.
    rewrite HD mulmxA; suff -> : v^T *m pick p K sel = 0 by rewrite mul0mx.
    apply/rowP => k; rewrite !mxE -[RHS](H k) //.
    by apply: eq_bigr => i _; rewrite !mxE.
  have := congr1 (fun A : 'rV[R]_n => A 0 (Ordinal Hj)) E; rewrite !mxE => H'; rewrite -[RHS]H'.
  by apply: eq_bigr => i _; rewrite !mxE.
have [g00 gk] := (Hrow g0).1 MgE.
split.
  split; first by rewrite -[0%N]/(nat_of_ord (Ordinal Hp)) ofV_in mxE.
  move=> j Hj; rewrite -[RHS](Hclosed g0 gk j Hj); apply: eq_bigr => i _.
  by rewrite ofV_in mxE.
move=> g' [g'0 g'k] i Hi.
have E : \col_(i < p) g' i = g0.
  rewrite -(mulKmx uM (\col_i g' i)); congr (_ *m _); apply/Hrow; split; first by rewrite mxE.
  move=> k Hk; rewrite -[RHS](g'k (nth 0%N sel k)).
    by apply: eq_bigr => j _; rewrite mxE.
  by move/allP: (kept_lt Hsv); apply; rewrite mem_nth.
by rewrite -[i]/(nat_of_ord (Ordinal Hi)) ofV_in -E !mxE.
Qed.

(** ** Scattering a loop vector over the inductive elements *)
Lemma scatterE idx vals j : uniq idx ->
  scatter idx vals j = if j \in idx then vals (index j idx) else 0.
Proof.
rewrite /scatter; elim/last_ind: idx => [//|idx i IH]; rewrite rcons_uniq => /andP[ni ui].
rewrite size_rcons -addn1 iotaD add0n /= -cats1 zip_cat ?size_iota // foldl_cat /=.
rewrite mem_cat mem_seq1 index_cat orbC.
have [->|ne] /= := eqVneq j i.
  by rewrite (negbTE ni) eqxx addn0.
by rewrite IH //; case: (j \in idx).
Qed.

Lemma sum_scatter N idx (vals F : nat -> R) : uniq idx -> all (fun b => (b < N)%N) idx ->
  \sum_(b < N) scatter idx vals b * F b = \sum_(k < size idx) vals k * F (nth 0%N idx k).
Proof.
move=> ui /allP lt.
transitivity (\sum_(b < N | (b : nat) \in idx) vals (index (b : nat) idx) * F b).
  rewrite [RHS]big_mkcond /=; apply: eq_bigr => b _; rewrite scatterE //.
  by case: ifP => // _; rewrite mul0r.
transitivity (\sum_(b <- idx) vals (index b idx) * F b).
  rewrite -(big_mkord (fun b => b \in idx) (fun b => vals (index b idx) * F b)).
  rewrite -big_filter; apply: perm_big; apply: uniq_perm => //.
    by rewrite filter_uniq // iota_uniq.
  move=> b; rewrite mem_filter mem_index_iota /=; case bi: (b \in idx) => //=.
  exact: lt.
rewrite (big_nth 0%N) big_mkord; apply: eq_bigr => k _.
by rewrite index_uniq.
Qed.

Lemma g_rowsP sv n lobj loops gs : g_rows sv n lobj loops = Ok gs ->
  size gs = size loops /\
  forall k, (k < size loops)%N -> exists g,
    get_g sv n (l_kmat (lobj (nth 0%N loops k))) = Ok g /\
    nth (fun=> 0) gs k = scatter (l_indices (lobj (nth 0%N loops k))) g.
Proof.
elim: loops gs => [|l ls IH] gs /=; first by case=> <-.
case E: get_g => [g|//]; case E2: g_rows => [gs'|//] [<-].
have [sz H] := IH _ E2; split; first by rewrite /= sz.
by case=> [|k] Hk; [exists g|apply: H].
Qed.

(** ** The distribution *)
(** A closed path along the branches [idx] of the rows of K. *)
Definition closed_path (n N : nat) (K : nat -> nat -> R) (idx : seq nat) (G : nat -> R) : Prop :=
  [/\ forall b, (b < N)%N -> b \notin idx -> G b = 0,
      G (head 0%N idx) = 1 &
      forall j, (j < n)%N -> \sum_(b < N) G b * K b j = 0].

(** Loop objects as _get_LCWB leaves them. *)
Definition loops_recorded (c : cst) : Prop :=
  forall l, l \in c_loops c ->
    [/\ l_kmat (c_lobj c l) = [seq nth [::] (c_kmat c) b | b <- l_indices (c_lobj c l)],
        uniq (l_indices (c_lobj c l)) ,
        all (fun b => (b < c_bid c)%N) (l_indices (c_lobj c l)) &
        l_indices (c_lobj c l) != [::]].

Definition svd_right (sv : svd_fun) (n : nat) (c : cst) : Prop :=
  svd_good sv (c_bid c) n (rows (c_kmat c)) /\
  forall l, l \in c_loops c ->
    svd_good sv (size (l_kmat (c_lobj c l))) n (rows (l_kmat (c_lobj c l))).

Lemma closed_path_iff n N (kmat : seq (seq Z)) idx g : uniq idx -> idx != [::] ->
  all (fun b => (b < N)%N) idx ->
  let kl := [seq nth [::] kmat b | b <- idx] in
  closed_on n kl g <-> closed_path n N (rows kmat) idx (scatter idx g).
Proof.
move=> ui i0 lt /=; have Hs (j : nat) : \sum_(b < N) scatter idx g b * rows kmat b j =
   \sum_(i < size [seq nth [::] kmat b | b <- idx]) g i * rows [seq nth [::] kmat b | b <- idx] i j.
  rewrite (@sum_scatter N idx g (fun b => rows kmat b j)) // size_map; apply: eq_bigr => k _; congr (_ * _).
  by rewrite /rows (nth_map 0%N).
have Hh : scatter idx g (head 0%N idx) = g 0%N.
  rewrite scatterE //; case: (idx) i0 => [//|a s] _ /=.
  by rewrite mem_head eqxx.
split=> [[H0 Hk]|[Hz H0 Hk]].
  split=> [b _ nb||j Hj]; first by rewrite scatterE // (negbTE nb).
    by rewrite Hh.
  by rewrite Hs Hk.
split; first by rewrite -Hh.
by move=> j Hj; rewrite -Hs Hk.
Qed.

(** A closed path is the scattering of its values. *)
Lemma closed_path_scatter n N K idx G : uniq idx -> closed_path n N K idx G ->
  forall b, (b < N)%N -> G b = scatter idx (fun k => G (nth 0%N idx k)) b.
Proof.
move=> ui [Hz _ _] b Hb; rewrite scatterE //; case: ifP => bi; first by rewrite nth_index.
by rewrite Hz // bi.
Qed.

Definition no_charge n (c : cst) nl (B : 'M[R]_(c_bid c, nl)) : Prop :=
  forall j l, (j < n)%N -> \sum_(b < c_bid c) rows (c_kmat c) b j * nth 0 (c_cedge c) b * B b l = 0.

Definition unit_flux n (c : cst) (B : 'M[R]_(c_bid c, size (c_loops c))) : Prop :=
  forall (k l : 'I_(size (c_loops c))) G,
    closed_path n (c_bid c) (rows (c_kmat c)) (l_indices (c_lobj c (nth 0%N (c_loops c) k))) G ->
    \sum_(b < c_bid c) G b * B b l = (k == l)%:R.

Lemma col_mulmx m p q (A : 'M[R]_(m, p)) (C : 'M[R]_(p, q)) l : col l (A *m C) = A *m col l C.
Proof. by rewrite !colE mulmxA. Qed.

Lemma flux_distP sv n c B : flux_dist sv n c = Ok (Some B) ->
  loops_recorded c -> svd_right sv n c ->
  [/\ no_charge n B,
      forall k, (k < size (c_loops c))%N -> exists G,
        closed_path n (c_bid c) (rows (c_kmat c)) (l_indices (c_lobj c (nth 0%N (c_loops c) k))) G,
      unit_flux n B &
      forall B', no_charge n B' -> unit_flux n B' -> B' = B].
Proof.
rewrite /flux_dist; set N := c_bid c; set K := rows (c_kmat c); set nl := size (c_loops c).
set sel := kept_columns sv N n K; set cs := c_cedge c.
case Eg: g_rows => [gs|//]; case: eqP => // /eqP nl0.
case: ifP => // /negbT; rewrite negb_or !negbK => /andP[nlN /eqP szN].
case: ifP => // uX [EB] Hrec [Hsv Hsvl].
have [szg Hg] := g_rowsP Eg.
set X := x_mat N K cs sel gs in uX *.
have HNs : (N - nl = size sel)%N by rewrite -szN addnK.
(* rows of X *)
have Xlow (v : 'cV[R]_N) i (Hi : (i < size sel)%N) (HiN : (i < N)%N) :
   (X *m v) (Ordinal HiN) 0 = \sum_(b < N) K b (nth 0%N sel i) * nth 0 cs b * v b 0.
  by rewrite !mxE; apply: eq_bigr => b _; rewrite !mxE /= Hi.
have Xhigh (v : 'cV[R]_N) k (Hk : (k < nl)%N) (HiN : (size sel + k < N)%N) :
   (X *m v) (Ordinal HiN) 0 = \sum_(b < N) nth (fun=> 0) gs k b * v b 0.
  rewrite !mxE; apply: eq_bigr => b _; rewrite !mxE /=.
  by rewrite ltnNge leq_addr /= addKn.
(* the kept columns are independent *)
have Hind : forall u : 'cV[R]_(size sel), pick N K sel *m u = 0 -> u = 0.
  move=> u Hu.
  pose w : 'rV[R]_N := \row_(i < N) ofV u^T i.
  have wlow i (Hi : (i < size sel)%N) : ofV u^T i = u (Ordinal Hi) 0.
    by rewrite -[i]/(nat_of_ord (Ordinal Hi)) ofV_in mxE.
  have whigh i : (size sel <= i)%N -> ofV u^T i = 0.
    by move=> Hi; rewrite /ofV insubF // ltnNge Hi.
  have wX : w *m X = 0.
    apply/rowP => b; rewrite !mxE.
    have := congr1 (fun A : 'cV[R]_N => A b 0) Hu; rewrite !mxE => Hub.
    rewrite -[RHS](mul0r (nth 0 cs b)) -[X in X * _]Hub big_distrl /=.
    transitivity (\sum_(i < N | (i < size sel)%N) ofV u^T i * (K b (nth 0%N sel i) * nth 0 cs b)).
      rewrite [RHS]big_mkcond /=; apply: eq_bigr => i _; rewrite !mxE.
      by case: ifP => // /negbT; rewrite -leqNgt => Hi; rewrite whigh // mul0r.
    rewrite -(big_ord_widen N (fun i : nat => ofV u^T i * (K b (nth 0%N sel i) * nth 0 cs b))); last first.
      by rewrite -szN leq_addr.
    apply: eq_bigr => k _ /=; rewrite ofV_in !mxE.
    by rewrite mulrA [u k 0 * _]mulrC.
  have w0 : w = 0 by rewrite -(mulmxK uX w) wX mul0mx.
  apply/colP => k; rewrite [RHS]mxE.
  have HkN : (k < N)%N by rewrite -szN ltn_addr.
  have := congr1 (fun A : 'rV[R]_N => A 0 (Ordinal HkN)) w0; rewrite !mxE /= => H0.
  by rewrite -[RHS]H0 ofV_in mxE.
have [D HD] := kept_spans Hsv Hind.
have Hall (v : 'I_N -> R) : (forall k, (k < size sel)%N -> \sum_(b < N) K b (nth 0%N sel k) * v b = 0) ->
   forall j, (j < n)%N -> \sum_(b < N) K b j * v b = 0.
  move=> H j Hj.
  have E : (\row_b v b) *m toM N n K = 0.
    rewrite HD mulmxA; suff -> : (\row_b v b) *m pick N K sel = 0 by rewrite mul0mx.
    apply/rowP => k; rewrite !mxE -[RHS](H k) //.
    by apply: eq_bigr => i _; rewrite !mxE mulrC.
  have := congr1 (fun A : 'rV[R]_n => A 0 (Ordinal Hj)) E; rewrite !mxE => H'; rewrite -[RHS]H'.
  by apply: eq_bigr => i _; rewrite !mxE mulrC.
have XB : X *m B = i_mat N nl by rewrite -EB mulKVmx.
have XBl l i (HiN : (i < N)%N) : (X *m col l B) (Ordinal HiN) 0 = if i == (N - nl + l)%N then 1 else 0.
  by rewrite -col_mulmx XB !mxE.
have Hloop k : (k < nl)%N -> let idx := l_indices (c_lobj c (nth 0%N (c_loops c) k)) in
    exists g, [/\ nth (fun=> 0) gs k = scatter idx g,
      closed_path n N K idx (scatter idx g) &
      forall G, closed_path n N K idx G -> forall b, (b < N)%N -> G b = scatter idx g b].
  move=> Hk idx; have [g [E1 E2]] := Hg k Hk; exists g.
  have lin : nth 0%N (c_loops c) k \in c_loops c by rewrite mem_nth.
  have [R1 R2 R3 R4] := Hrec _ lin.
  have Hs := Hsvl _ lin; have [C1 C2] := get_gP E1 Hs.
  rewrite R1 in C1 C2.
  split=> //; first exact: (iffLR (@closed_path_iff n N (c_kmat c) _ g R2 R4 R3) C1).
  move=> G HG b Hb; rewrite (closed_path_scatter R2 HG) //.
  have HG' : closed_path n N K idx (scatter idx (fun k => G (nth 0%N idx k))).
    case: (HG) => [G1 G2 G3]; split=> [b' Hb' nb||j Hj].
    - by rewrite scatterE // (negbTE nb).
    - rewrite -(closed_path_scatter R2 HG) //.
      by move/allP: R3; apply; rewrite -/idx; rewrite -/idx in R4; case: (idx) R4 => // a s _; rewrite mem_head.
    - rewrite -[RHS](G3 j Hj); apply: eq_bigr => b' _.
      by rewrite -(closed_path_scatter R2 HG).
  have C3 := iffRL (@closed_path_iff n N (c_kmat c) _ _ R2 R4 R3) HG'.
  rewrite !scatterE //; case: ifP => bi //.
  rewrite -(C2 _ C3) //.
  by rewrite size_map index_mem.
split.
- move=> j l Hj; rewrite -[RHS](Hall (fun b => nth 0 cs b * B b l) _ j Hj).
    by apply: eq_bigr => b _; rewrite mulrA.
  move=> k Hk; have HkN : (k < N)%N by rewrite -szN ltn_addr.
  have := XBl l k HkN; rewrite Xlow // HNs [k == _]ltn_eqF ?ltn_addr // => H.
  by rewrite -[RHS]H; apply: eq_bigr => b _; rewrite mulrA [in RHS]mxE.
- by move=> k Hk; have [g [_ H _]] := Hloop k Hk; exists (scatter (l_indices (c_lobj c (nth 0%N (c_loops c) k))) g).
- move=> k l G HG; have [g [E _ HU]] := Hloop k (ltn_ord k).
  have HkN : (size sel + k < N)%N by rewrite -szN ltn_add2l.
  have := XBl l _ HkN; rewrite Xhigh // HNs eqn_add2l E => H.
  transitivity (\sum_(b < N) scatter (l_indices (c_lobj c (nth 0%N (c_loops c) k))) g b * B b l).
    by apply: eq_bigr => b _; rewrite (HU _ HG).
  transitivity (if (k : nat) == l then 1 else 0 : R); last by rewrite val_eqE; case: (k == l).
  by rewrite -[RHS]H; apply: eq_bigr => b _; rewrite [in RHS]mxE.
- move=> B' nc uf.
  suff E : X *m B' = i_mat N nl by rewrite -(mulKmx uX B') E EB.
  apply/matrixP => i l; rewrite [RHS]mxE.
  have -> : (X *m B') i l = (X *m col l B') i 0 by rewrite -col_mulmx [in RHS]mxE.
  case: i => i Hi /=; have [ilow|ihigh] := ltnP i (size sel).
    rewrite Xlow // HNs [i == _]ltn_eqF ?ltn_addr // -[RHS](nc (nth 0%N sel i) l).
      by apply: eq_bigr => b _; rewrite !mxE.
    by move/allP: (kept_lt Hsv); apply; rewrite mem_nth.
  have Hk : (i - size sel < nl)%N by rewrite ltn_subLR // szN.
  have [g [E HC _]] := Hloop _ Hk.
  have -> : (X *m col l B') (Ordinal Hi) 0 = \sum_(b < N) nth (fun=> 0) gs (i - size sel) b * B' b l.
    have Hi' : (size sel + (i - size sel) < N)%N by rewrite subnKC.
    have -> : Ordinal Hi = Ordinal Hi' by apply: val_inj; rewrite /= subnKC.
    by rewrite Xhigh //; apply: eq_bigr => b _; rewrite !mxE.
  rewrite E (uf (Ordinal Hk) l _ HC) HNs -(inj_eq val_inj) /= -(eqn_add2l (size sel)) subnKC //.
  by case: eqP.
Qed.

(** ** When the distribution is found *)
Lemma flux_dist_total sv n c gs : svd_right sv n c -> loops_recorded c ->
  g_rows sv n (c_lobj c) (c_loops c) = Ok gs -> c_loops c != [::] ->
  c_bid c = (\rank (toM (c_bid c) n (rows (c_kmat c))) + size (c_loops c))%N ->
  (forall b, (b < c_bid c)%N -> 0 < nth 0 (c_cedge c) b) ->
  (forall u : 'cV[R]_(size (kept_columns sv (c_bid c) n (rows (c_kmat c)))),
     pick (c_bid c) (rows (c_kmat c)) (kept_columns sv (c_bid c) n (rows (c_kmat c))) *m u = 0 -> u = 0) ->
  (forall a : 'I_(size (c_loops c)) -> R,
     (forall b, (b < c_bid c)%N -> \sum_k a k * nth (fun=> 0) gs k b = 0) -> forall k, a k = 0) ->
  exists B, flux_dist sv n c = Ok (Some B).
Proof.
rewrite /flux_dist; set N := c_bid c; set K := rows (c_kmat c); set nl := size (c_loops c).
set sel := kept_columns sv N n K; set cs := c_cedge c.
move=> [Hsv Hsvl] Hrec Eg ne0 HN Hpos Hind Gind.
have szs : (size sel + nl)%N = N by rewrite (size_kept Hsv) -HN.
rewrite Eg; have -> : (nl == 0)%N = false by apply: negbTE; rewrite size_eq0.
have -> : ~~ (nl <= N)%N || ((size sel + nl)%N != N) = false.
  by rewrite szs eqxx orbF -szs leq_addl.
set X := x_mat N K cs sel gs.
suff uX : X \in unitmx by rewrite uX; eexists.
have [szg Hg] := g_rowsP Eg.
have [D HD] := kept_spans Hsv Hind.
pose G : 'M[R]_(nl, N) := \matrix_(k, b) nth (fun=> 0) gs k b.
have GK : G *m toM N n K = 0.
  apply/matrixP => k j; rewrite !mxE.
  have [g [E1 E2]] := Hg k (ltn_ord k).
  have lin : nth 0%N (c_loops c) k \in c_loops c by rewrite mem_nth.
  have [R1 R2 R3 R4] := Hrec _ lin.
  have [C1 _] := get_gP E1 (Hsvl _ lin); rewrite R1 in C1.
  have [_ _ H] := iffLR (@closed_path_iff n N (c_kmat c) _ g R2 R4 R3) C1.
  rewrite -[RHS](H j (ltn_ord j)); apply: eq_bigr => b _; rewrite !mxE E2 //.
have rG : \rank G = nl.
  apply/eqP/inj_row_free => a Ha; apply/rowP => k; rewrite mxE.
  apply: (Gind (fun k => a 0 k)) => b Hb.
  have := congr1 (fun A : 'rV[R]_N => A 0 (Ordinal Hb)) Ha; rewrite !mxE => H; rewrite -[RHS]H.
  by apply: eq_bigr => i _; rewrite !mxE.
have KG : (kermx G^T <= (toM N n K)^T)%MS.
  have sub : ((toM N n K)^T <= kermx G^T)%MS by apply/sub_kermxP; rewrite -trmx_mul GK trmx0.
  have [_ Hr] := mxrank_leqif_sup sub.
  have EN : \rank (toM N n K) = (N - nl)%N by apply: (canRL (addnK nl)); rewrite -HN.
  by rewrite -Hr mxrank_ker !mxrank_tr rG EN.
rewrite -unitmx_tr -row_free_unit; apply: inj_row_free => w Hw.
pose v := w^T.
have Xv : X *m v = 0 by apply: trmx_inj; rewrite trmx_mul trmxK Hw trmx0.
have Gv : G *m v = 0.
  apply/colP => k; rewrite [RHS]mxE.
  have HkN : (size sel + k < N)%N by rewrite -szs ltn_add2l.
  have := congr1 (fun A : 'cV[R]_N => A (Ordinal HkN) 0) Xv; rewrite !mxE => H; rewrite -[RHS]H.
  by apply: eq_bigr => b _; rewrite !mxE /= ltnNge leq_addr /= addKn.
pose Cv : 'cV[R]_N := \col_b (nth 0 cs b * v b 0).
have KCv : (toM N n K)^T *m Cv = 0.
  rewrite HD trmx_mul -mulmxA; suff -> : (pick N K sel)^T *m Cv = 0 by rewrite mulmx0.
  apply/colP => i; rewrite [RHS]mxE.
  have HiN : (i < N)%N by rewrite -szs ltn_addr.
  have := congr1 (fun A : 'cV[R]_N => A (Ordinal HiN) 0) Xv; rewrite !mxE => H; rewrite -[RHS]H.
  by apply: eq_bigr => b _; rewrite !mxE /= ltn_ord mulrA.
have /submxP[E HE] : (v^T <= (toM N n K)^T)%MS.
  by apply: submx_trans KG; apply/sub_kermxP; rewrite -trmx_mul Gv trmx0.
have Q0 : \sum_(b < N) nth 0 cs b * v b 0 ^+ 2 = 0.
  have : v^T *m Cv = 0 by rewrite HE -mulmxA KCv mulmx0.
  move/(congr1 (fun A : 'M[R]_1 => A 0 0)); rewrite !mxE => H; rewrite -[RHS]H.
  by apply: eq_bigr => b _; rewrite [in RHS]mxE [Cv _ _]mxE expr2 mulrCA.
have nn (b : 'I_N) : true -> 0 <= nth 0 cs b * v b 0 ^+ 2.
  by move=> _; apply: Num.Theory.mulr_ge0; [apply: Order.POrderTheory.ltW; apply: Hpos|apply: Num.Theory.sqr_ge0].
move/eqP: Q0; rewrite (Num.Theory.psumr_eq0 _ nn) => /allP Hz.
apply: trmx_inj; rewrite -/v trmx0; apply/colP => b; rewrite [RHS]mxE.
have := Hz b (mem_index_enum b) => /=; rewrite mulf_eq0 expf_eq0 /=.
by rewrite (negbTE (Num.Theory.lt0r_neq0 (Hpos b (ltn_ord b)))) => /eqP.
Qed.

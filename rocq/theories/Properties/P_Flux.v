(** P_Flux.v -- C21 and C22: column selection and the distribution of external
    fluxes over the inductive elements. *)
From Coq Require Import Reals ZArith String Lra Lia.
From Verif.Model Require Import Base Elements Edge LCWB Rounding.
From Verif.Spec Require Import GraphSpec CircuitSpec FluxSpec.
From Verif.Proofs Require Import LCWBProofs BookProofs FluxBook RoundProofs FluxWitness.
From mathcomp Require Import all_ssreflect all_algebra.
From Verif.Numerics Require Import RStruct Bridge.
From Verif.Model Require Import FluxDist.
From Verif.Spec Require Import LinSpec.
From Verif.Proofs Require Import FluxProofs FluxProofs2 FluxProofs3.

Set Implicit Arguments.
Unset Strict Implicit.
Unset Printing Implicit Defensive.
Import GRing.Theory.
Local Open Scope ring_scope.

(** ** C21 *)
(** Whatever the singular values are, as long as they decide the rank right, the
    function returns the first r non-zero columns. *)
Theorem C21_first_rank_columns sv p n K : svd_good sv p n K ->
  kept_columns sv p n K = take (\rank (toM p n K)) (nzcols p n K).
Proof. by move=> H; rewrite kept_columnsE // nzmat_rank. Qed.
Print Assumptions C21_first_rank_columns.

(** It is right when the non-zero columns are independent. *)
Theorem C21_independent_columns sv p n K : svd_good sv p n K ->
  (forall u : 'cV[R]_(size (nzcols p n K)), pick p K (nzcols p n K) *m u = 0 -> u = 0) ->
  let sel := kept_columns sv p n K in
  [/\ forall j, (j \in sel) = (j < n)%N && [exists i : 'I_p, K i j != 0],
      forall u : 'cV[R]_(size sel), pick p K sel *m u = 0 -> u = 0 &
      exists D, toM p n K = pick p K sel *m D].
Proof.
move=> H Hu /=; have E := kept_all H Hu.
have H2 : forall u : 'cV[R]_(size (kept_columns sv p n K)),
    pick p K (kept_columns sv p n K) *m u = 0 -> u = 0 by rewrite E.
split=> //; last exact: kept_spans.
by move=> j; rewrite E mem_filter mem_iota add0n /= andbC negb_forall.
Qed.
Print Assumptions C21_independent_columns.

(** In particular for the incidence matrix of a circuit whose inductive part is
    grounded. *)
Theorem C21_grounded_circuits sv optim s fd n lobj d c :
  get_LCWB optim s fd (Z.of_nat n) lobj d = Ok c -> proper_dict n d -> grounded_branches s d ->
  svd_good sv (c_bid c) n (rows (c_kmat c)) ->
  let sel := kept_columns sv (c_bid c) n (rows (c_kmat c)) in
  (forall u : 'cV[R]_(size sel), pick (c_bid c) (rows (c_kmat c)) sel *m u = 0 -> u = 0) /\
  exists D, toM (c_bid c) n (rows (c_kmat c)) = pick (c_bid c) (rows (c_kmat c)) sel *m D.
Proof.
move=> Hc Hp Hg Hsv /=.
by have [_ H1 H2] := C21_independent_columns Hsv (grounded_independent Hc Hp Hg).
Qed.
Print Assumptions C21_grounded_circuits.

(** Three columns (1,0), (1,0), (0,1). *)
Definition dup (i j : nat) : R :=
  match i, j with 0%N, 0%N | 0%N, 1%N | 1%N, 2%N => 1 | _, _ => 0 end.

Lemma dup_rank : \rank (toM 2 3 dup) = 2%N.
Proof.
apply/eqP; rewrite eqn_leq rank_leq_row /=.
have Hs : all (fun j => (j < 3)%N) [:: 0%N; 2%N] by [].
apply: leq_trans (pick_rank 2 dup Hs).
rewrite (_ : pick 2 dup [:: 0%N; 2%N] = 1%:M) ?mxrank1 //.
by apply/matrixP; case=> [[|[|//]] ?]; case=> [[|[|//]] ?]; rewrite !mxE.
Qed.
Lemma dup_nz : nzcols 2 3 dup = [:: 0%N; 1%N; 2%N].
Proof.
apply: nzcols_all; case=> [|[|[|//]]] _; last by exists (Ordinal (ltnSn 1)); rewrite oner_eq0.
  by exists ord0; rewrite oner_eq0.
by exists ord0; rewrite oner_eq0.
Qed.

(** The claim "the returned columns are independent and span the same space"
    fails: for these columns they are dependent and the third one is lost,
    whatever (correct) singular values are used. *)
Theorem C21_independent_spanning_refuted :
  exists p n K, forall sv, svd_good sv p n K ->
    let sel := kept_columns sv p n K in
    (exists u : 'cV[R]_(size sel), u != 0 /\ pick p K sel *m u = 0) /\
    ~ exists D, toM p n K = pick p K sel *m D.
Proof.
exists 2%N, 3%N, dup => sv H /=; rewrite C21_first_rank_columns // dup_rank dup_nz /=.
split.
  exists (\col_(i < 2) (if (i : nat) == 0%N then 1 else -1)); split.
    apply/negP => /eqP /(congr1 (fun A : 'cV[R]_2 => A ord0 0)); rewrite !mxE /= => /eqP.
    by rewrite oner_eq0.
  apply/colP; case=> [[|[|//]] ?]; rewrite !mxE !big_ord_recl big_ord0 !mxE /= ?mul0r ?addr0 //.
  by rewrite !mul1r addrN.
case=> D /(congr1 (fun A : 'M[R]_(2, 3) => A (Ordinal (ltnSn 1)) (Ordinal (ltnSn 2)))).
rewrite !mxE !big_ord_recl big_ord0 !mxE /= !mul0r !addr0 => /eqP.
by rewrite oner_eq0.
Qed.
Print Assumptions C21_independent_spanning_refuted.

Example C21_case : svd_good sv0 2 3 dup /\ kept_columns sv0 2 3 dup = [:: 0%N; 1%N].
Proof. by split; [exact: sv0_good|rewrite C21_first_rank_columns ?dup_rank ?dup_nz //; apply: sv0_good]. Qed.

(** ** C22 *)
Theorem C22_flux_distribution sv optim s fd n lobj d c B :
  get_LCWB optim s fd (Z.of_nat n) lobj d = Ok c -> proper_dict n d -> valid_dist fd ->
  simple_loops s d -> svd_right sv n c -> flux_dist sv n c = Ok (Some B) ->
  no_induced_charge s fd d (length (c_loops c)) (ofM B) /\
  (forall k, (k < length (c_loops c))%coq_nat ->
     exists G, closed_walk s d (List.nth k (c_loops c) 0%N) G) /\
  loop_sums s d (c_loops c) (ofM B) /\
  (forall B', no_induced_charge s fd d (length (c_loops c)) B' -> loop_sums s d (c_loops c) B' ->
     forall b k, (b < nbranch s d)%coq_nat -> (k < length (c_loops c))%coq_nat -> B' b k = ofM B b k).
Proof. by move=> Hc Hp Hv Hs Hsv HB; exact: (flux_dist_spec Hc Hp Hv Hs Hsv HB). Qed.
Print Assumptions C22_flux_distribution.

(** It succeeds when the inductive part is grounded, the capacitances are
    positive and the loops are independent and complete. *)
Theorem C22_found sv optim s fd n lobj d c gs :
  get_LCWB optim s fd (Z.of_nat n) lobj d = Ok c -> proper_dict n d -> valid_dist fd ->
  simple_loops s d -> svd_right sv n c -> grounded_branches s d ->
  (fd = "all"%string -> forall b, (b < nbranch s d)%N -> Rlt 0 (evalue s (ecap s (occ_el (branch s d b))))) ->
  c_loops c != [::] ->
  nbranch s d = (\rank (toM (c_bid c) n (rows (c_kmat c))) + size (c_loops c))%N ->
  g_rows sv n (c_lobj c) (c_loops c) = Ok gs ->
  (forall a : 'I_(size (c_loops c)) -> R,
     (forall b, (b < nbranch s d)%N -> \sum_k a k * nth (fun=> 0) gs k b = 0) -> forall k, a k = 0) ->
  exists B, flux_dist sv n c = Ok (Some B).
Proof.
move=> Hc Hp Hv Hs Hsv Hg Hpos ne Hr Eg Gi.
apply: (flux_dist_total Hsv (loops_rec Hc Hs) Eg ne).
- by rewrite {1}(bidE Hc) {1}Hr.
- move=> b Hb; rewrite (bidE Hc) in Hb; rewrite (weightE Hc Hv Hb); apply/RltP.
  by apply: dist_weight_pos => // /Hpos; apply.
- by have [H _] := C21_grounded_circuits Hc Hp Hg Hsv.1.
- by move=> a Ha; apply: Gi => b Hb; apply: Ha; rewrite (bidE Hc).
Qed.
Print Assumptions C22_found.

Lemma get_g_err sv n kl e : get_g sv n kl = Err e -> kl <> [::] -> e = ValueError.
Proof.
rewrite /get_g; case: kl => [|a l] //= H _; move: H; case: ifP => _; first by case.
by case: ifP => // _ [].
Qed.

(** "A connected circuit whose loops are all specified is accepted" fails: for
    the circuit [wd] the distribution exists, the circuit is connected, but
    construction raises ValueError, whatever (correct) singular values are used. *)
Theorem C22_connected_circuits_accepted_refuted :
  connected 3 (List.map fst wd) /\ proper_dict 3 wd /\ simple_loops ws wd /\
  (forall b, (b < nbranch ws wd)%N -> Rlt 0 (evalue ws (ecap ws (occ_el (branch ws wd b))))) /\
  (no_induced_charge ws "all" wd 1 wB /\ loop_sums ws wd [:: 0%N] wB /\ exists G, closed_walk ws wd 0 G) /\
  exists c, get_LCWB false ws "all" 3 wl wd = Ok c /\
    forall sv, svd_right sv 3 c -> flux_dist sv 3 c = Err ValueError.
Proof.
split; first exact: wd_connected.
split; first exact: wd_proper.
split; first exact: ws_simple.
split.
  move=> b _; rewrite /= /ws /evalue /ecap; apply: lt_0_INR.
  lia.
split; first exact: wd_dist_exists.
have [c Hc] := wd_run false "all"; exists c; split=> // sv [Hsv Hsvl].
have [Eb [Ek [El Em]]] := wd_facts _ _ _ Hc.
rewrite /flux_dist El /=.
case Eg: get_g => [g|e]; last by rewrite (get_g_err Eg) // Em.
case: ifP => // /negbT; rewrite negb_or !negbK => /andP[_ /eqP szs].
set sel := kept_columns _ _ _ _ in szs *.
have szs2 : size sel = 2%N by apply/eqP; rewrite -(eqn_add2r 1) szs Eb.
have Hsel : sel = [:: 0%N; 1%N].
  have Esel := C21_first_rank_columns Hsv.
  rewrite -/sel in Esel; have := szs2.
  have Enz : nzcols (c_bid c) 3 (rows (c_kmat c)) = [:: 0%N; 1%N; 2%N].
    rewrite Eb Ek; apply: nzcols_all; case=> [|[|[|//]]] _.
    - by exists ord0; apply/eqP => /eq_IZR.
    - by exists ord0; apply/eqP => /eq_IZR.
    - by exists (Ordinal (ltnSn 2)); apply/eqP => /eq_IZR.
  rewrite Esel Enz; case: (\rank _) => [|[|[|r]]] //=.
have nX : x_mat (c_bid c) (rows (c_kmat c)) (c_cedge c) sel [:: scatter (l_indices (c_lobj c 0%N)) g] \notin unitmx.
  rewrite -unitmx_tr Hsel.
  apply: (@null_not_unit _ _ (\col_(i < c_bid c) (if (i < 2)%N then 1 else 0))).
    have H0 : (0 < c_bid c)%N by rewrite Eb.
    apply/negP => /eqP /(congr1 (fun A : 'cV[R]_(c_bid c) => A (Ordinal H0) 0)); rewrite !mxE /= => /eqP.
    by rewrite oner_eq0.
  apply/colP => b; rewrite !mxE.
  rewrite (eq_bigr (fun i : 'I_(c_bid c) => (fun i : nat => (if (i < 2)%N then rows (c_kmat c) b (nth 0%N [:: 0%N; 1%N] i) * nth 0 (c_cedge c) b else 0)) i)); last first.
    by move=> i _; rewrite !mxE /=; case: ifP; rewrite ?mulr1 ?mulr0.
  rewrite -(big_mkord xpredT (fun i : nat => (if (i < 2)%N then rows (c_kmat c) b (nth 0%N [:: 0%N; 1%N] i) * nth 0 (c_cedge c) b else 0))).
  rewrite [in index_iota _ _]Eb /= unlock /= addr0 addr0 -mulrDl Ek.
  suff -> : rows wK b 0 + rows wK b 1 = 0 by rewrite mul0r.
  by rewrite -[RHS](wK_sum b) /rows !nthE.
by rewrite (negbTE nX).
Qed.
Print Assumptions C22_connected_circuits_accepted_refuted.


(** A grounded loop of an inductor and a junction is accepted. *)
Lemma ones_rank m (K : nat -> nat -> R) : (forall i, (i < m.+1)%N -> K i 0%N = 1) -> \rank (toM m.+1 1 K) = 1%N.
Proof.
move=> H; apply/eqP; rewrite eqn_leq rank_leq_col /= lt0n mxrank_eq0.
apply/negP => /eqP /(congr1 (fun A : 'M[R]_(m.+1, 1) => A ord0 ord0)); rewrite !mxE H // => /eqP.
by rewrite oner_eq0.
Qed.

Example C22_case : exists c B, get_LCWB false ws "junctions" 1 wl gd = Ok c /\
  simple_loops ws gd /\ svd_right sv0 1 c /\ c_loops c = [:: 0%N] /\ flux_dist sv0 1 c = Ok (Some B).
Proof.
have [c Hc] := gd_run false "junctions".
have [Eb [Ek [El [Em Ei]]]] := gd_facts _ _ _ Hc.
have Hsv : svd_right sv0 1 c by split=> [|l _]; apply: sv0_good.
have Hv : valid_dist "junctions" by right; left.
have R1 (kl := c_kmat c) i : (i < 2)%N -> rows kl i 0 = 1 by rewrite /kl Ek /rows; case: i => [|[|]].
have Hk : kept_columns sv0 2 1 (rows (c_kmat c)) = [:: 0%N].
  rewrite C21_first_rank_columns ?ones_rank //; last exact: sv0_good.
  by rewrite nzcols_all // => j; rewrite ltnS leqn0 => /eqP ->; exists ord0; rewrite R1 // oner_eq0.
have [g Hg] : exists g, get_g sv0 1 (l_kmat (c_lobj c 0%N)) = Ok g.
  have -> : l_kmat (c_lobj c 0%N) = c_kmat c by rewrite Em Ek.
  rewrite /get_g (_ : size (c_kmat c) = 2%N) /=; last by rewrite Ek.
  rewrite Hk /=; case: ifP => [_|/negbT/negP []]; first by eexists.
  rewrite unitmxE det_trig.
    rewrite !big_ord_recl big_ord0 !mxE /= R1 // !mulr1; exact: unitr1.
  apply/is_trig_mxP; case=> [[|[|//]] ?]; case=> [[|[|//]] ?] //= _.
  by rewrite mxE.
have [B HB] : exists B, flux_dist sv0 1 c = Ok (Some B).
  apply: (@C22_found sv0 false ws "junctions" 1 wl gd c [:: scatter [:: 0%N; 1%N] g] Hc gd_proper Hv (ws_simple gd) Hsv gd_grounded) => //.
  - by rewrite El.
  - rewrite -(@bidE false ws "junctions" 1 wl gd c Hc) El Eb ones_rank // => i; exact: R1.
  - by rewrite El /= Hg Ei.
  - have in0 : 0%N \in c_loops c by rewrite El mem_head.
    have [[g0 _] _] := get_gP Hg (Hsv.2 0%N in0).
    rewrite El => a Ha k; have := Ha 0%N isT; rewrite big_ord_recl big_ord0 addr0 /=.
    have -> : scatter [:: 0%N; 1%N] g 0%N = 1 by rewrite scatterE //= g0.
    by rewrite mulr1 => <-; congr a; apply: val_inj; case: k => [[|]].
by exists c, B; do !split => //; apply: ws_simple.
Qed.

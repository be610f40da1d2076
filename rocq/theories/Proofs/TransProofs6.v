(** TransProofs6.v -- the second transformation on circuits, loops that do not
    end, and the removal of uncoupled modes. *)
From Coq Require Import Reals ZArith Lra FunctionalExtensionality.
From Verif.Model Require Import Base Units Elements Edge LCWB Rounding Accuracy.
From Verif.Spec Require Import GraphSpec CircuitSpec NetSpec.
From Verif.Proofs Require Import NetProofs.
From mathcomp Require Import all_ssreflect all_algebra.
From Verif.Numerics Require Import RStruct Bridge.
From Verif.Model Require Import FluxDist Transform.
From Verif.Spec Require Import TransSpec.
From Verif.Proofs Require Import AccProofs TransProofs TransProofs1 TransProofs2 TransProofs3.
From Verif.Proofs Require Import TransProofs4 GramProofs TransProofs5.

Set Implicit Arguments.
Unset Strict Implicit.
Unset Printing Implicit Defensive.
Import GRing.Theory.
Local Open Scope ring_scope.

(** An empty first selection never fills up. *)
Lemma basis_loop_stuck fuel order nq w draw k ind rnd : nq != 0%N ->
  (independent_rows order nq w).2 = [::] ->
  basis_loop fuel order nq w draw k ind rnd [::] = None.
Proof.
move=> nq0 E; elim: fuel k ind rnd => [|f IH] k ind rnd /=; rewrite eq_sym (negbTE nq0) //.
by rewrite E; apply: IH.
Qed.

Lemma zero_rows_empty order nq w : (forall r l, r \in [seq i | i <- iota 0 (size w)] ->
    (l < nq)%N -> nth dflt w r l = 0) ->
  (independent_rows order nq w).2 = [::].
Proof.
move=> H.
have [Hs _ Hc _ _] := independent_rowsP nq w order.
have zero q l : (l < nq)%N -> nth dflt w q l = 0.
  move=> Hl; case: (ltnP q (size w)) => Hq; last by rewrite nth_default.
  by apply: H => //; rewrite map_id mem_iota.
case E: (independent_rows order nq w) Hs Hc => [idx basis] /= Hs Hc.
case: basis Hs Hc E => [//|e b] Hs Hc E.
exfalso; have := independent_rowsP nq w order; rewrite E => -[_ Ho Hc' _ _].
have [c [Hrow [c0 cq]]] : exists c,
    (forall k, (k < nq)%N -> nth dflt w (nth 0%N idx 0) k = comb (e :: b) c k) /\
    c 0%N != 0 /\ (forall q, (0 < q)%N -> c q = 0).
  by apply: Hc; rewrite Hs.
have e0 k : (k < nq)%N -> c 0%N * e k = 0.
  move=> Hk; have := Hrow k Hk; rewrite zero // /comb /= big_nat_recl //=.
  rewrite big1_seq ?addr0 // => q _; by rewrite cq // mul0r.
have := Ho 0%N 0%N; rewrite /= /dot big1.
  by move=> /(_ isT isT) /esym /eqP; rewrite oner_eq0.
move=> l _; have := e0 l (ltn_ord l) => /eqP; rewrite mulf_eq0 (negbTE c0) /= => /eqP ->.
by rewrite mul0r.
Qed.

Section Second2.
Variables (n m kj k : nat) (L W S1 : arr) (D0 : vec) (st : tst).
Hypothesis m0 : m != 0%N.
Hypothesis Hn : nf1 n k D0 st.
Hypothesis Em : t_m st = m.
Hypothesis Ekj : t_njwi st = kj.
Hypothesis EW : t_W st = W.
Variables (sv : svd_fun) (order : seq R -> seq nat).

(** Junctions that no charge mode drives, but one of them without inductor. *)
Lemma trans2_hangs tries fuel draw a : k != 0%N -> kj != 0%N ->
  (forall i l, (i < m)%N -> (l < k)%N -> \sum_(p < n) W i p * S1 p (l + (n - k))%N = 0) ->
  trans2 tries.+1 fuel sv order S1 draw a st = None.
Proof.
move=> k0 kj0 H0 /=; rewrite /attempt2.
have [_ [En En0] _ _ _] := Hn.
rewrite (nf1_charge_modes Hn) size_iota Em (negbTE m0) Ekj (negbTE kj0) (negbTE k0) /=.
rewrite basis_loop_stuck //; apply: zero_rows_empty => r l _ Hl.
case: (ltnP r (size (w_charge sv S1 st))) => Hr; last by rewrite nth_default.
rewrite (w_charge_nth Hn Em EW) //; apply: H0 => //.
apply: (@mem_nth_default _ (fun x => (x < m)%N : Prop)); first by rewrite lt0n.
by move=> x; apply: kept_lt; rewrite lt0n.
Qed.
End Second2.

(** ** From the first transformation of a circuit *)
Section Circuit.
Variables (n m kj : nat) (C L W : arr) (st0 : tst).
Variables (croot lroot X U : arr) (D0 eigL : vec) (ind jun : seq (Z * Z)).
Hypothesis net : network n m ind jun L W.
Hypothesis m0 : m != 0%N.
Hypothesis EI : t_init n m kj C L W = Ok st0.
Hypothesis HC : root_of (toM n n C) (toM n n croot).
Hypothesis HL : root_of (toM n n L) (toM n n lroot).
Hypothesis HA : svd_of (toM n n lroot *m invmx (toM n n croot)) (toM n n X) (toM n n U) (toV n D0).
Hypothesis Hz : forall i, i \in sing_locs n D0 eigL -> D0 i = 0.
Variables (st1 : tst) (s1 r1 : arr).
Hypothesis E1 : trans1 croot D0 U eigL st0 = Ok (st1, (s1, r1)).

Lemma first_facts : exists (k : nat) (d : vec),
  [/\ sing_locs n D0 eigL = iota (n - k) k, nf1 n k D0 (set_omega st1),
      [/\ t_m st1 = m, t_njwi st1 = kj & t_W st1 = W],
      toM n n s1 \in unitmx /\ (forall i j, (j < n)%N -> t_wT st1 i j = mmul n W s1 i j) &
      [/\ (toM n n s1)^T *m toM n n L *m toM n n s1 = diag_mx (\row_i d i),
          forall i, (n - k <= i < n)%N -> d i = 0 & forall i, (i < n - k)%N -> Rlt 0 (d i)]].
Proof.
have [k [Ek Hn]] := nf1_trans1 EI HC HL HA E1.
have [scp _ _ HLs [Ds [[_ _ Em Ekj EW] [ES [_ EwT]]]]] := trans1_diag EI HC HL HA E1.
have [Hk _ HD _ _] := Hn.
exists k, (fun i => D0 i ^+ 2 * scale_of n D0 eigL i); split=> //.
- split; first by have [] := mulmx1_unit Ds; rewrite unitmx_tr.
  by move=> i j Hj; rewrite EwT (negbTE m0).
- split=> //.
  + move=> i /andP [H1 H2]; rewrite Hz ?expr0n ?mul0r //.
    by rewrite Ek mem_sing // -leqNgt.
  + move=> i Hi; have Hin : (i < n)%N by apply: leq_trans Hi (leq_subr _ _).
    by do 2?apply: Rmult_lt_0_compat; [apply: HD | apply: HD | apply: scp].
Qed.

Lemma circuit_first_attempt sv order tries fuel draw k :
  sing_locs n D0 eigL = iota (n - k) k -> (k <= n)%N ->
  size (independent_rows order k (w_charge sv s1 (set_omega st1))).1 = k ->
  exists st' s2 r2,
    trans2 tries.+1 fuel.+1 sv order s1 draw 0 (set_omega st1) = Some (Ok (st', (s2, r2))).
Proof.
move=> Ek Hk; have [k' [d [Ek' Hn [Em Ekj EW] [uS Ew] [Hd d0 dp]]]] := first_facts.
have [Hk' _ _ _ _] := Hn.
have -> : k = k' by have := congr1 size (etrans (esym Ek) Ek'); rewrite !size_iota.
move=> sp; exact: (trans2_first_attempt net m0 Hn Em Ekj EW Ew uS Hd d0 dp tries fuel draw sp).
Qed.

Lemma circuit_accepts sv order fuel draw k s2 r2 :
  sing_locs n D0 eigL = iota (n - k) k -> (k <= n)%N ->
  spanning n m k L W s1 (set_omega st1) sv order ->
  attempt2 fuel sv order s1 draw (set_omega st1) = Some (Ok (s2, r2)) ->
  gs_successful (set_omega st1) s2.
Proof.
move=> Ek Hk; have [k' [d [Ek' Hn [Em Ekj EW] [uS Ew] [Hd d0 dp]]]] := first_facts.
have -> : k = k' by have := congr1 size (etrans (esym Ek) Ek'); rewrite !size_iota.
move=> Hsp Ha; exact: (attempt_success net m0 Hn Em Ekj EW Ew Hd d0 Hsp Ha).
Qed.

Lemma charge_null k i l : sing_locs n D0 eigL = iota (n - k) k -> (k <= n)%N ->
  (i < m)%N -> (l < k)%N ->
  (forall x, (forall e, List.In e ind -> GraphSpec.drop e x = 0) ->
     GraphSpec.drop (List.nth i jun (Z0, Z0)) x = 0) ->
  \sum_(p < n) W i p * s1 p (l + (n - k))%N = 0.
Proof.
move=> Ek Hk Hi Hl Hcon; have [k' [d [Ek' Hn _ [uS Ew] [Hd d0 dp]]]] := first_facts.
have E : k = k' by have := congr1 size (etrans (esym Ek) Ek'); rewrite !size_iota.
rewrite -E in d0 dp; pose y := fun q : nat => if q == l then 1 else 0 : R.
have [HLn [_ HW]] := net.
have null := quad_pad Hd d0 y; move/HLn: null => null.
have := HW i (lin n s1 (pad n k y)) (ltP Hi); rewrite /= (Hcon _ null) sumnE.
rewrite (lin_pad_sum s1 Hk (W i) y) (bigD1 (Ordinal Hl)) //= [X in _ + X]big1; last first.
  by move=> q; rewrite -(inj_eq val_inj) /= /y => /negbTE ->; rewrite mulr0.
by rewrite /y eqxx mulr1 addr0 ?RmultE mulr0.
Qed.

(** Every junction edge is bridged by inductors but at least one has none of its
    own, and there is a charge mode: the loop never ends. *)
Lemma circuit_hangs sv order tries fuel draw k :
  sing_locs n D0 eigL = iota (n - k) k -> (0 < k <= n)%N -> kj != 0%N ->
  (forall i x, (i < m)%N -> (forall e, List.In e ind -> GraphSpec.drop e x = 0) ->
     GraphSpec.drop (List.nth i jun (Z0, Z0)) x = 0) ->
  transform_hamil croot D0 U eigL tries.+1 fuel sv order draw st0 = None.
Proof.
move=> Ek /andP [k0 Hk] kj0 Hcon; rewrite /transform_hamil E1.
have [k' [d [Ek' Hn [Em Ekj EW] _ _]]] := first_facts.
have E : k = k' by have := congr1 size (etrans (esym Ek) Ek'); rewrite !size_iota.
rewrite -E in Hn.
rewrite [t_m _]/= Em (negbTE m0) (trans2_hangs m0 Hn Em Ekj EW) //; first by rewrite -lt0n.
by move=> i l Hi Hl; apply: (charge_null Ek Hk Hi Hl) => x; apply: Hcon.
Qed.
End Circuit.

(** The first transformation fails only if a non-singular mode has frequency 0. *)
Lemma trans1_total n m kj C L W st0 croot lroot X U D0 eigL :
  t_init n m kj C L W = Ok st0 -> (0 < n)%N ->
  root_of (toM n n C) (toM n n croot) ->
  svd_of (toM n n lroot *m invmx (toM n n croot)) (toM n n X) (toM n n U) (toV n D0) ->
  (forall i, (i < n)%N -> i \notin sing_locs n D0 eigL -> D0 i <> 0) ->
  exists st s r, trans1 croot D0 U eigL st0 = Ok (st, (s, r)).
Proof.
rewrite /t_init; case EI: inv => [cI|//] [<-] n0 [_ CC] [_ UU _ Dp] HD.
have [uC _] := invP EI; rewrite /trans1 /=.
have ucr : toM n n croot \in unitmx by move: uC; rewrite -CC unitmx_mul => /andP [].
have [cri Ec] := inv_unit ucr; rewrite Ec; have [_ Ecr] := invP Ec.
have D0p i : (i < n)%N -> Rle 0 (D0 i) by move=> Hi; have := Dp (Ordinal Hi); rewrite mxE.
have scp i : (i < n)%N -> Rlt 0 (scale_of n D0 eigL i).
  move=> Hi; rewrite /scale_of; case: ifP => [_|/eqP D0n]; first exact: Rlt_0_1.
  have mp : Rle (D0 i) (rmax n D0) by apply: (rmax_ub n D0 i); apply/ltP.
  case: ifP => Hs.
    have [j [/ltP Hj Ej]] := rmax_attained n D0 (ltP n0).
    by have := D0p j Hj; rewrite -Ej => -[//|E]; case: D0n.
  by have := D0p i Hi => -[//|E]; case: (HD i Hi (negbT Hs)).
set s1 := mmul n _ _.
have us : toM n n s1 \in unitmx.
  rewrite /s1 toM_mmul toM_mmul toM_tr toM_dg unitmx_mul unitmx_mul Ecr unitmx_inv ucr unitmx_tr.
  have [-> _] := mulmx1_unit UU; rewrite /= unitmxE det_diag unitfE; apply/prodf_neq0 => i _.
  by rewrite mxE; apply: lt0_neq; apply: sqrt_lt_R0; apply: scp.
by have [si Es] := inv_unit us; rewrite Es; do 3 eexists.
Qed.

(** ** Removal *)
Definition coupled (st : tst) (j : nat) : Prop := exists i, (i < t_m st)%N /\ t_wT st i j <> 0.

Lemma uncoupledP st j : (j < t_n st)%N -> (j \in uncoupled st) <-> ~ coupled st j.
Proof.
move=> Hj; rewrite /uncoupled mem_filter mem_iota Hj /= andbT.
rewrite -[X in _ == X](size_iota 0 (t_m st)) -all_count; split.
- move=> /allP H [i [Hi]]; apply; have := H i; rewrite mem_iota Hi => /(_ isT) /eqP //.
- move=> H; apply/allP => i; rewrite mem_iota /= => Hi; apply/negPn/negP => /eqP N.
  by apply: H; exists i.
Qed.

Lemma removal st : exists idx,
  [/\ sorted ltn idx, forall j, j \in idx <-> (j < t_n st)%N /\ coupled st j,
      t_n (remove_uncoupled st) = size idx &
      let st' := remove_uncoupled st in let ix := fun i => nth i idx i in
      [/\ forall a b, t_cI st' a b = t_cI st (ix a) (ix b),
          forall a b, t_lT st' a b = t_lT st (ix a) (ix b),
          forall i b, t_wT st' i b = t_wT st i (ix b),
          forall b, t_om st' b = t_om st (ix b) &
          t_m st' = t_m st /\ t_n0 st' = t_n0 st /\ t_S st' = t_S st /\ t_R st' = t_R st]].
Proof.
exists (kept_modes st); split=> //.
- apply: sorted_filter; [exact: ltn_trans | exact: iota_ltn_sorted].
- move=> j; rewrite /kept_modes mem_filter mem_iota add0n /=; split.
    move=> /andP [Hu Hj]; split=> //.
    have [i Hi] : exists i, (i < t_m st)%N && (t_wT st i j != 0).
      move: Hu; rewrite /uncoupled mem_filter mem_iota Hj /= andbT.
      rewrite -[X in _ == X](size_iota 0 (t_m st)) -all_count => /allPn [i].
      by rewrite mem_iota /= => Hi Hw; exists i; rewrite Hi Hw.
    by case/andP: Hi => Hi /eqP Hw; exists i.
  case=> Hj Hc; rewrite Hj andbT; apply/negP => /(uncoupledP Hj); exact.
- have E : (size (uncoupled st) + size (kept_modes st))%N = t_n st.
    have -> : size (kept_modes st) = count (predC (mem (uncoupled st))) (iota 0 (t_n st)).
      by rewrite -size_filter; congr size; apply: eq_in_filter => j Hj; rewrite inE.
    have -> : size (uncoupled st) = count (mem (uncoupled st)) (iota 0 (t_n st)).
      rewrite -size_filter; congr size; rewrite /uncoupled; apply: eq_in_filter => j Hj.
      by rewrite inE mem_filter Hj andbT.
    by rewrite count_predC size_iota.
  by rewrite /= -{1}E addKn.
Qed.

(** When the first selection is complete nothing is drawn. *)
Lemma attempt_indep sv order S1 fuel draw draw' st :
  size (independent_rows order (size (charge_modes st)) (w_charge sv S1 st)).1 = size (charge_modes st) ->
  attempt2 fuel.+1 sv order S1 draw st = attempt2 1 sv order S1 draw' st.
Proof.
move=> Hs; rewrite /attempt2; case E: (_ || _) => //; case/norP: (negbT E) => /norP [_ nq0] _.
have Hs2 : size (independent_rows order (size (charge_modes st)) (w_charge sv S1 st)).2 = size (charge_modes st).
  by have [<- _ _ _ _] := independent_rowsP (size (charge_modes st)) (w_charge sv S1 st) order.
rewrite /= (eq_sym 0%N) (negbTE nq0); case: fuel => [|fuel] /=; by rewrite Hs2 eqxx.
Qed.

Lemma trans2_indep sv order S1 tries fuel draw draw' st x :
  size (independent_rows order (size (charge_modes st)) (w_charge sv S1 st)).1 = size (charge_modes st) ->
  trans2 1 1 sv order S1 draw' 0 st = Some (Ok x) ->
  trans2 tries.+1 fuel.+1 sv order S1 draw 0 st = Some (Ok x).
Proof.
move=> H /=; rewrite (attempt_indep fuel (draw 0%N) (draw' 0%N) H).
by case: attempt2 => [[[s2 r2]|]|] //; case: ifP.
Qed.

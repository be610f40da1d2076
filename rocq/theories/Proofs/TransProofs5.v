(** TransProofs5.v -- when the second transformation succeeds at once. *)
From Coq Require Import Reals ZArith Lra FunctionalExtensionality.
From Verif.Model Require Import Base Units Edge LCWB Rounding Accuracy.
From Verif.Spec Require Import GraphSpec NetSpec.
From Verif.Proofs Require Import NetProofs.
From mathcomp Require Import all_ssreflect all_algebra.
From Verif.Numerics Require Import RStruct Bridge.
From Verif.Model Require Import FluxDist Transform.
From Verif.Spec Require Import TransSpec.
From Verif.Proofs Require Import AccProofs TransProofs TransProofs1 TransProofs2 TransProofs3.
From Verif.Proofs Require Import TransProofs4 GramProofs.

Set Implicit Arguments.
Unset Strict Implicit.
Unset Printing Implicit Defensive.
Import GRing.Theory.
Local Open Scope ring_scope.

Section Null.
Variables (n nq : nat) (L S1 : arr) (d : vec).
Hypothesis nq_n : (nq <= n)%N.
Hypothesis uS : toM n n S1 \in unitmx.
Hypothesis Hd : (toM n n S1)^T *m toM n n L *m toM n n S1 = diag_mx (\row_i d i).
Hypothesis d0 : forall i, (n - nq <= i < n)%N -> d i = 0.
Hypothesis dp : forall i, (i < n - nq)%N -> Rlt 0 (d i).

Definition lin (c : vec) : vec := fun p => \sum_(l < n) S1 p l * c l.

Lemma toV_lin c : (toV n (lin c))^T = toM n n S1 *m (toV n c)^T.
Proof. by apply/colP => i; rewrite !mxE; apply: eq_bigr => l _; rewrite !mxE. Qed.

Lemma quad_lin c : bilin n L (lin c) (lin c) = \sum_(i < n) d i * c i ^+ 2.
Proof.
rewrite bilinE -[toV n (lin c)]trmxK toV_lin trmxK trmx_mul !mulmxA.
rewrite -(mulmxA _ (toM n n S1)^T) -(mulmxA _ (_ *m _)) Hd trmxK.
rewrite mxE; apply: eq_bigr => i _.
rewrite mul_mx_diag !mxE expr2; by rewrite mulrAC mulrC.
Qed.

Lemma lin_ext c c' p : (forall l, (l < n)%N -> c l = c' l) -> lin c p = lin c' p.
Proof. by move=> E; apply: eq_bigr => l _; rewrite E. Qed.

(** charge-mode combinations *)
Definition pad (y : vec) : vec := fun l => if (l < n - nq)%N then 0 else y (l - (n - nq))%N.

Lemma quad_pad y : bilin n L (lin (pad y)) (lin (pad y)) = 0.
Proof.
rewrite quad_lin big1 // => i _; rewrite /pad; case: ltnP => H; first by rewrite expr0n mulr0.
by rewrite d0 ?H ?ltn_ord // mul0r.
Qed.

Lemma lin_onto x : exists c, forall p, (p < n)%N -> x p = lin c p.
Proof.
pose c := invmx (toM n n S1) *m (toV n x)^T.
exists (fun l => ofV c^T l) => p Hp.
have := congr1 (fun v : 'cV_n => v (Ordinal Hp) 0) (toV_lin (fun l => ofV c^T l)).
by rewrite mxE mxE /= => ->; rewrite toV_ofV trmxK /c mulKVmx // !mxE.
Qed.

Lemma null_pad x : bilin n L x x = 0 -> exists y, forall p, (p < n)%N -> x p = lin (pad y) p.
Proof.
have [c Hc] := lin_onto x.
have -> : bilin n L x x = bilin n L (lin c) (lin c).
  rewrite /bilin !sumnE; apply: eq_bigr => i _; rewrite !sumnE; apply: eq_bigr => j _.
  by rewrite !Hc.
rewrite quad_lin => /eqP; rewrite Num.Theory.psumr_eq0; last first.
  move=> i _; apply: Num.Theory.mulr_ge0; last exact: Num.Theory.sqr_ge0.
  apply/RlebP; case: (ltnP i (n - nq)) => H; first by apply: Rlt_le; apply: dp.
  by rewrite d0 ?H ?ltn_ord //; apply: Rle_refl.
move=> /allP H0; exists (fun l => c (l + (n - nq))%N) => p Hp; rewrite Hc //.
apply: lin_ext => l Hl; rewrite /pad; case: ltnP => H; last by rewrite subnK.
have := H0 (Ordinal Hl) (mem_index_enum _); rewrite /= mulf_eq0 sqrf_eq0.
by rewrite (negbTE (lt0_neq (dp H))) => /eqP.
Qed.

(** sums over the charge block *)
Lemma lin_pad_sum (w : vec) y : \sum_(p < n) w p * lin (pad y) p =
  \sum_(l < nq) (\sum_(p < n) w p * S1 p (l + (n - nq))%N) * y l.
Proof.
transitivity (\sum_(l < n) (\sum_(p < n) w p * S1 p l) * pad y l).
  rewrite (eq_bigr (fun p : 'I_n => \sum_(l < n) w p * S1 p l * pad y l)).
    by rewrite exchange_big /=; apply: eq_bigr => l _; rewrite big_distrl.
  by move=> p _; rewrite /lin big_distrr /=; apply: eq_bigr => l _; rewrite mulrA.
pose F := fun l => (\sum_(p < n) w p * S1 p l) * pad y l.
rewrite -(big_mkord xpredT F) (big_cat_nat _ (n := (n - nq)%N)) ?leq_subr //=.
rewrite big_nat big1 ?add0r; last by move=> l /andP [_ Hl]; rewrite /F /pad Hl mulr0.
rewrite -{1}[(n - nq)%N]add0n big_addn subKn // big_mkord; apply: eq_bigr => l _.
by rewrite /F /pad ltnNge leq_addl /= addnK.
Qed.
End Null.

Lemma mem_nth_default (s : seq nat) (P : nat -> Prop) : P 0%N -> (forall x, x \in s -> P x) ->
  forall i, P (nth 0%N s i).
Proof.
move=> P0 H i; case: (ltnP i (size s)) => Hi; first exact: H (mem_nth _ Hi).
by rewrite nth_default.
Qed.

Lemma kept_lt sv p m K : (0 < m)%N -> forall b, b \in kept_columns sv p m K -> (b < m)%N.
Proof.
move=> m0 b /mapP [k _ ->]; apply: (@mem_nth_default _ (fun x => (x < m)%N : Prop)) => // x.
by rewrite /nzcols mem_filter mem_iota => /andP [_].
Qed.

Lemma basis_loop_ind fuel order nq w draw ind rnd : nq != 0%N ->
  basis_loop fuel order nq w draw 0 [::] [::] [::] = Some (ind, rnd) ->
  ind = (independent_rows order nq w).1.
Proof.
move=> nq0; case: fuel => [|f] /=; first by rewrite eq_sym (negbTE nq0).
rewrite eq_sym (negbTE nq0).
have gen g k' r b : basis_loop g order nq w draw k' (independent_rows order nq w).1 r b = Some (ind, rnd) ->
    ind = (independent_rows order nq w).1.
  elim: g k' r b => [|g IH] k' r b /=; first by case: ifP => // _ [<- _].
  case: ifP => [_ [<- _] //|_]; case: ifP => _; exact: IH.
exact: gen.
Qed.

Section Second.
Variables (n m kj k : nat) (ind jun : seq (Z * Z)) (L W S1 : arr) (d D0 : vec) (st : tst).
Hypothesis net : network n m ind jun L W.
Hypothesis m0 : m != 0%N.
Hypothesis Hn : nf1 n k D0 st.
Hypothesis Em : t_m st = m.
Hypothesis Ekj : t_njwi st = kj.
Hypothesis EW : t_W st = W.
Hypothesis Ew : forall i j, (j < n)%N -> t_wT st i j = mmul n W S1 i j.
Hypothesis uS : toM n n S1 \in unitmx.
Hypothesis Hd : (toM n n S1)^T *m toM n n L *m toM n n S1 = diag_mx (\row_i d i).
Hypothesis d0 : forall i, (n - k <= i < n)%N -> d i = 0.
Hypothesis dp : forall i, (i < n - k)%N -> Rlt 0 (d i).

Let kn : (k <= n)%N. Proof. by case: Hn. Qed.
Let En : t_n st = n. Proof. by case: Hn => _ []. Qed.
Let En0 : t_n0 st = n. Proof. by case: Hn => _ []. Qed.

(** flux of a potential across junction edge i *)
Definition cpl (i : nat) (x : vec) : R := \sum_(p < n) W i p * x p.

Variables (sv : svd_fun) (order : seq R -> seq nat).
Let sel := kept_columns sv n m (tr W).
Let wc := w_charge sv S1 st.
Let picked := (independent_rows order k wc).1.

(** The selected junction edges determine all couplings of inductively constant
    potentials. *)
Definition spanning : Prop := forall x, bilin n L x x = 0 ->
  (forall p, (p < size picked)%N -> cpl (nth 0%N sel (nth 0%N picked p)) x = 0) ->
  forall i, (i < m)%N -> cpl i x = 0.

Lemma cplE i x : GraphSpec.sumn n (fun p => Rmult (W i p) (x p)) = cpl i x.
Proof. by rewrite sumnE. Qed.

Lemma null_sub x y : bilin n L x x = 0 -> bilin n L y y = 0 ->
  bilin n L (fun p => x p - y p) (fun p => x p - y p) = 0.
Proof.
exact: network_sub net.
Qed.
Lemma cpl_sub i x y : cpl i (fun p => x p - y p) = cpl i x - cpl i y.
Proof. by rewrite /cpl -sumrB; apply: eq_bigr => p _; rewrite mulrBr. Qed.

Lemma w_charge_nth q l : (l < k)%N -> (q < size wc)%N ->
  nth dflt wc q l = \sum_(p < n) W (nth 0%N sel q) p * S1 p (l + (n - k))%N.
Proof.
move=> Hl; rewrite /wc /w_charge size_map => Hq; rewrite (nth_map 0%N) // En0 Em EW.
rewrite (nf1_charge_modes Hn) nth_iota // /mmul addnC; by [].
Qed.

(** The couplings after a successful inversion are 0 or +-1. *)
Lemma second_vals f rnd fi :
  f = [seq nth dflt wc i | i <- picked] ++ rnd ->
  size f = k -> inv k (fun i => nth dflt f i) = Ok fi -> spanning ->
  forall i j, (i < m)%N -> (j < k)%N ->
    val01 (\sum_(l < k) (\sum_(p < n) W i p * S1 p (l + (n - k))%N) * fi l j).
Proof.
move=> Ef sf Ei Hsp i j Hi Hj.
have [uF EF] := invP Ei.
pose phi := lin n S1 (pad n k (fun l => fi l j)).
have Ephi b : cpl b phi = \sum_(l < k) (\sum_(p < n) W b p * S1 p (l + (n - k))%N) * fi l j.
  exact: lin_pad_sum.
rewrite -Ephi.
have null : bilin n L phi phi = 0 by apply: quad_pad Hd d0 _.
have sp : (size picked <= k)%N.
  by rewrite -sf Ef size_cat size_map leq_addr.
have FE p : (p < k)%N -> \sum_(l < k) nth dflt f p l * fi l j = if p == j then 1 else 0.
  move=> Hp; have := mx_entry Hp Hj (mulmxV uF); rewrite -EF !mxE -(inj_eq val_inj) /=.
  under eq_bigr do rewrite !mxE.
  by move=> ->; case: eqP.
have selE p : (p < size picked)%N ->
    cpl (nth 0%N sel (nth 0%N picked p)) phi = if p == j then 1 else 0.
  move=> Hp; have Hpk : (p < k)%N by apply: leq_trans Hp sp.
  rewrite -FE // Ephi.
  have fp : nth dflt f p = nth dflt wc (nth 0%N picked p).
    by rewrite Ef nth_cat size_map Hp (nth_map 0%N).
  case: (ltnP (nth 0%N picked p) (size wc)) => Hq.
    by apply: eq_bigr => l _; rewrite fp w_charge_nth.
  exfalso; have := mx_entry Hpk Hpk (mulmxV uF); rewrite -EF !mxE eqxx big1.
    by move/esym/eqP; rewrite oner_eq0.
  by move=> l _; rewrite !mxE /= fp nth_default // mul0r.
have sel_m p : (nth 0%N sel p < m)%N.
  apply: (@mem_nth_default _ (fun x => (x < m)%N : Prop)); first by rewrite lt0n.
  by move=> x; apply: kept_lt; rewrite lt0n.
case: (ltnP j (size picked)) => Hjp; last first.
  left; apply: Hsp => // p Hp; rewrite selE //; case: eqP => // E.
  by move: Hjp; rewrite -E leqNgt Hp.
pose b := nth 0%N sel (nth 0%N picked j).
have Hb : cpl b phi = 1 by rewrite /b selE // eqxx.
have [y [ny [yb [y0 yv]]]] : exists y, bilin n L y y = 0 /\ cpl b y = 1 /\
    (forall i, (i < m)%N -> cpl i phi = 0 -> cpl i y = 0) /\
    (forall i, (i < m)%N -> val01 (cpl i y)).
  have [|||y [ny [yb [y0 yv]]]] := network_cut n m ind jun L W phi b net.
  - exact/ltP/sel_m.
  - exact: null.
  - by rewrite cplE.
  exists y; split=> //; split; first by rewrite -cplE.
  split; first by move=> i' /ltP Hi'; rewrite -!cplE; apply: y0.
  by move=> i' /ltP Hi'; rewrite -cplE; apply: yv.
have := Hsp _ (null_sub null ny) _ i Hi; rewrite cpl_sub.
have E0 : forall p, (p < size picked)%N ->
    cpl (nth 0%N sel (nth 0%N picked p)) (fun p0 => phi p0 - y p0) = 0.
  move=> p Hp; rewrite cpl_sub selE //; case: eqP => [->|/eqP pj]; first by rewrite -/b yb subrr.
  rewrite y0 ?subrr // selE //; by rewrite (negbTE pj).
by move=> /(_ E0) /subr0_eq ->; apply: yv.
Qed.

Lemma sum_high (F : nat -> R) : (forall l, (l < n - k)%N -> F l = 0) ->
  \sum_(l < n) F l = \sum_(l < k) F (l + (n - k))%N.
Proof.
move=> F0; rewrite -(big_mkord xpredT F) (big_cat_nat _ (n := (n - k)%N)) ?leq_subr //=.
rewrite big_nat big1 ?add0r; last by move=> l /andP [_ Hl]; rewrite F0.
by rewrite -{1}[(n - k)%N]add0n big_addn subKn // big_mkord.
Qed.

Lemma block_low_col fi i j : (j < k)%N ->
  mmul n (t_wT st) (block_low n k fi) i (j + (n - k))%N =
  \sum_(l < k) (\sum_(p < n) W i p * S1 p (l + (n - k))%N) * fi l j.
Proof.
move=> Hj; rewrite /mmul (sum_high (F := fun l => t_wT st i l * block_low n k fi l (j + (n - k))%N)).
  apply: eq_bigr => l _; rewrite Ew ?/block_low; last first.
    by rewrite -{2}(subnKC kn) ltn_add2r.
  by rewrite !ltnNge !leq_addl /= !addnK.
move=> l Hl; rewrite /block_low Hl /= /eye.
case: eqP => [E|_]; rewrite ?mulr0 //.
by move: Hl; rewrite E ltnNge leq_addl.
Qed.

Lemma round01_fix v : val01 v -> round01 v = v.
Proof.
exact: round01_id.
Qed.

Lemma val01_abs v : val01 v -> (Rabs v == 0) || (Rabs v == 1).
Proof.
by case=> [->|[->|->]]; rewrite ?Rabs_R0 ?Rabs_Ropp ?Rabs_R1 ?eqxx ?orbT.
Qed.

(** One attempt that returns is accepted. *)
Lemma attempt_success fuel draw s2 r2 : spanning ->
  attempt2 fuel sv order S1 draw st = Some (Ok (s2, r2)) -> gs_successful st s2.
Proof.
move=> Hsp; rewrite /attempt2 En (nf1_charge_modes Hn) size_iota Em (negbTE m0) Ekj /=.
have ch j : (j < n)%N -> is_charge st j = ~~ (j < n - k)%N by move=> Hj; apply: nf1_charge Hn Hj.
have base s : (forall i j, kj != 0%N -> (i < m)%N -> (j < k)%N ->
    val01 (mmul n (t_wT st) s i (j + (n - k))%N)) -> gs_successful st s.
  move=> H; rewrite /gs_successful En Em; apply/allP => j; rewrite mem_iota add0n => /andP [_ Hj].
  apply/implyP => Hc; apply/allP => i; rewrite mem_iota add0n => /andP [_ Hi].
  rewrite /round_zero_one Hc Ekj; move: Hc; rewrite ch // -leqNgt => Hc.
  case: ifP => [_|/negbT k0]; first by rewrite round01_0 Rabs_R0 eqxx.
  have V : val01 (mmul n (t_wT st) s i j).
    by rewrite -(subnK Hc); apply: H => //; rewrite ltn_subLR // subnK.
  by rewrite round01_fix //; apply: val01_abs.
case: ifP => [/orP [/eqP k0|/eqP k0] [<- _]|]; try by apply: base => i j; rewrite ?k0.
move=> /norP [k0 kj0].
case E: basis_loop => [[ind' rnd]|//]; case: ifP => // /negbFE /eqP sf.
case Ei: inv => [fi|//]; case: inv => [r'|//] [<- _].
apply: base => i j _ Hi Hj; rewrite block_low_col //.
have Eind := basis_loop_ind k0 E.
apply: (@second_vals ([seq nth dflt wc i | i <- picked] ++ rnd) rnd) => //.
- by move: sf; rewrite Eind.
- by move: Ei; rewrite Eind.
Qed.

Lemma block_low_unit F fi : inv k F = Ok fi -> toM n n (block_low n k fi) \in unitmx.
Proof.
move=> Ei; have [uF EF] := invP Ei.
have : toM n n (block_low n k fi) *m toM n n (block_low n k F) = 1%:M.
  apply/matrixP => i j; rewrite !mxE; under eq_bigr do rewrite !mxE.
  rewrite -(inj_eq val_inj) /=.
  have R : (if (i : nat) == j then 1 else 0 : R) = ((i : nat) == j)%:R by case: eqP.
  case: (ltnP i (n - k)) => Hi.
    rewrite (bigD1 i) //= big1 ?addr0; last first.
      move=> l li; rewrite {1}/block_low Hi /= /eye eq_sym.
      by move: li; rewrite -(inj_eq val_inj) /= => /negbTE ->; rewrite mul0r.
    by rewrite /block_low Hi /= /eye eqxx mul1r.
  case: (ltnP j (n - k)) => Hj.
    rewrite (bigD1 j) //= big1 ?addr0; last first.
      move=> l; rewrite -(inj_eq val_inj) /= => /negbTE lj.
      by rewrite {2}/block_low Hj orbT /= /eye lj mulr0.
    by rewrite /block_low Hj orbT /= /eye eqxx mulr1.
  rewrite (sum_high (F := fun l => block_low n k fi i l * block_low n k F l j)); last first.
    move=> l Hl; rewrite {1}/block_low Hl orbT /eye; case: eqP => [E|_]; last by rewrite mul0r.
    by move: Hi; rewrite E leqNgt Hl.
  have Hi' : (i - (n - k) < k)%N by rewrite ltn_subLR // subnK.
  have Hj' : (j - (n - k) < k)%N by rewrite ltn_subLR // subnK.
  have := mx_entry Hi' Hj' (mulVmx uF); rewrite -EF !mxE -(inj_eq val_inj) /=.
  under eq_bigr do rewrite !mxE /=.
  have -> : (i - (n - k) == j - (n - k))%N = ((i : nat) == j).
    by rewrite -(eqn_add2r (n - k)) !subnK.
  move=> <-; apply: eq_bigr => l _; rewrite /block_low !ltnNge Hi Hj !leq_addl /= addnK //.
by case/mulmx1_unit.
Qed.

Lemma picked_size fuel draw : k != 0%N -> size picked = k ->
  basis_loop fuel.+1 order k wc draw 0 [::] [::] [::] = Some (picked, [::]).
Proof.
move=> k0 sp; rewrite /= eq_sym (negbTE k0) -/picked.
have [Hs _ _ _ _] := independent_rowsP k wc order; rewrite -/picked in Hs.
by case: fuel => [|f] /=; rewrite -Hs sp eqxx.
Qed.

(** If the Gram-Schmidt selection finds as many rows as there are charge modes,
    an attempt always returns, whatever the random numbers. *)
Lemma attempt_total fuel draw : size picked = k ->
  exists s2 r2, attempt2 fuel.+1 sv order S1 draw st = Some (Ok (s2, r2)).
Proof.
move=> sp; rewrite /attempt2 En (nf1_charge_modes Hn) size_iota Em (negbTE m0) Ekj [false || _]/=.
case: ifP => [_|/norP [k0 _]]; first by do 2 eexists.
rewrite (picked_size fuel draw k0 sp) cats0 size_map sp eqxx /=.
have uF := selected_unit (independent_rowsP k wc order) sp.
have [fi Ei] : exists fi, inv k (fun i => nth dflt [seq nth dflt wc i0 | i0 <- picked] i) = Ok fi.
  apply: inv_unit; set A := toM _ _ _.
  suff -> : A = toM k k (fun i => nth dflt wc (nth 0%N picked i)) by exact: uF.
  by apply/matrixP => i j; rewrite !mxE (nth_map 0%N) // sp.
rewrite Ei.
have [r2 Er] : exists r, inv n (tr (block_low n k fi)) = Ok r.
  by apply: inv_unit; rewrite toM_tr unitmx_tr (block_low_unit Ei).
by rewrite Er; do 2 eexists.
Qed.

Lemma full_spanning : size picked = k -> spanning.
Proof.
move=> sp x Hx Hsel i Hi.
have [y Hy] := null_pad uS Hd d0 dp Hx.
have cE b : cpl b x = \sum_(l < k) (\sum_(p < n) W b p * S1 p (l + (n - k))%N) * y l.
  rewrite -(lin_pad_sum S1 kn (W b) y); apply: eq_bigr => p _; by rewrite Hy.
have uF := selected_unit (independent_rowsP k wc order) sp; rewrite -/picked in uF.
have Fy : toM k k (fun i => nth dflt wc (nth 0%N picked i)) *m (toV k y)^T = 0.
  apply/colP => p; rewrite !mxE.
  case: (ltnP (nth 0%N picked p) (size wc)) => Hq; last first.
    by rewrite big1 // => l _; rewrite !mxE nth_default // mul0r.
  rewrite -[RHS](Hsel p) ?sp // cE; apply: eq_bigr => l _; by rewrite !mxE w_charge_nth.
have y0 l : (l < k)%N -> y l = 0.
  move=> Hl; have := congr1 (mulmx (invmx (toM k k (fun i => nth dflt wc (nth 0%N picked i))))) Fy.
  rewrite mulKmx // mulmx0 => /colP /(_ (Ordinal Hl)); by rewrite !mxE.
by rewrite cE big1 // => l _; rewrite y0 // mulr0.
Qed.

Lemma trans2_first_attempt tries fuel draw : size picked = k ->
  exists st' s2 r2, trans2 tries.+1 fuel.+1 sv order S1 draw 0 st = Some (Ok (st', (s2, r2))).
Proof.
move=> sp; have [s2 [r2 E]] := attempt_total fuel (draw 0%N) sp.
by rewrite [trans2 _ _ _ _ _ _ _ _]/= E (attempt_success (full_spanning sp) E); do 3 eexists.
Qed.
End Second.

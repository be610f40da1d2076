(** FluxGround.v -- moduli of the amplitudes and no external flux do not raise the energy. *)
From Coq Require Import Reals ZArith Lia Lra Psatz.
From Verif.Model Require Import Base Units Edge Accuracy HamConst.
Lemma re_bound2 (a b s : R) : (0 <= s -> a * a + b * b = s * s -> a <= s)%R.
Proof. intros p e. assert (b2 := Rle_0_sqr b). unfold Rsqr in b2. nra. Qed.
Lemma two_bounds x y p q m : (0 <= x -> 0 <= y -> p <= m -> q <= m -> x * p + y * q <= (x + y) * m)%R.
Proof. intros. nra. Qed.
From mathcomp Require Import all_ssreflect all_algebra.
From mathcomp Require Import complex ring zify.
From Verif.Numerics Require Import RStruct Bridge.
From Verif.Model Require Import FluxDist Op Transform Ham.
From Verif.Spec Require Import OpSpec LevelsSpec LinearSpec OrderSpec.
From Verif.Proofs Require Import OpProofs HamProofs HamProofs2 HamProofs3 HamProofs5 HamProofs6 LinearProofs LevelProofs.
From Verif.Proofs Require Import MinMaxProofs OrderProofs GroundProofs.

Set Implicit Arguments.
Unset Strict Implicit.
Unset Printing Implicit Defensive.
Import GRing.Theory.
Local Open Scope ring_scope.
Local Open Scope complex_scope.

Lemma Re_mag z : Rle (complex.Re z) (mag z).
Proof. by apply: (re_bound2 _ (complex.Im z)); [exact: mag_ge0|exact: (esym (mag2 z))]. Qed.
Lemma magM x y : mag (x * y) = mag x * mag y.
Proof. by rewrite /mag nrmM -!RmultE sqrt_mult //; apply/RleP; exact: nrm_ge0. Qed.
Lemma magJ x : mag (x^*) = mag x. Proof. by rewrite /mag nrmJ. Qed.
Lemma mag_expi p : mag (expi p) = 1.
Proof.
have e : nrm (expi p) = R1.
  by apply: etrans (sin2_cos2 p); rewrite Rplus_comm.
by rewrite /mag e sqrt_1.
Qed.

Section Islands.
Variables (disp : nat -> C -> op) (h : hin) (val : nat -> R) (loops loops' : seq R) (B B' : arr) (ks : keys) (A A' : op).
Hypothesis disp_dim : forall m a, dim (disp m a) = m.
Hypothesis I : islands h.
Hypothesis sym : symmetric (hn h) (t_cI (h_st h)).
Hypothesis noind : k_ind ks = [::].
Hypothesis EA : hamiltonian disp h val loops B ks = Ok A.
Hypothesis EA' : hamiltonian disp h val loops' B' ks = Ok A'.
Hypothesis vpos : forall k, List.In k (k_jj ks) -> Rle 0 (val k.1.1.2).
Hypothesis zero : forall k, List.In k (k_jj ks) -> ext_flux loops' B' k.1.2 = 0.
Let N := total h.
Variable v : nat -> C.
Let u a : C := (mag (v a))%:C.

Lemma exp_nonneg w a b : (a < N)%N -> (b < N)%N -> exists2 x : R, Rle 0 x & ent (opExp disp h w) a b = x%:C.
Proof.
move=> ha hb; have [d [Ld <-]] := posn_surj (ha : (a < total h)%N); have [d' [Ld' <-]] := posn_surj (hb : (b < total h)%N).
rewrite -[opExp _ _ _]/(T (exp_iso disp h w) (hn h)) (T_ent (dims := hm h)) //; last first.
  by move=> k hk; rewrite /exp_iso I // d_dim.
apply: (big_ind (fun z : C => exists2 x : R, Rle 0 x & z = x%:C)) => [|x y [r r0 ->] [q q0 ->]|k _].
- by exists 1; [exact: Rle_0_1|rewrite cR1].
- by exists (Rmult r q); [exact: Rmult_le_pos|rewrite RmultE cRM].
rewrite /exp_iso I // d_entry.
have one : exists2 x : R, Rle 0 x & (1 : C) = x%:C by exists 1; [exact: Rle_0_1|rewrite cR1].
have nul : exists2 x : R, Rle 0 x & (0 : C) = x%:C by exists 0; [exact: Rle_refl|rewrite cR0].
by repeat (case: ifP => _); [exact: one|exact: nul|exact: one|exact: nul|exact: one|exact: nul].
Qed.

Lemma jj_less p w a b : (a < N)%N -> (b < N)%N ->
  Rle (complex.Re ((v a)^* * (jjent disp h p w a b * v b))) (complex.Re ((u a)^* * (jjent disp h 0 w a b * u b))).
Proof.
move=> ha hb; have [x x0 X] := exp_nonneg w ha hb; have [y y0 Y] := exp_nonneg w hb ha.
rewrite /jjent X Y !cjM !cjR (_ : expi 0 = 1); last by rewrite /expi cos_0 sin_0.
have -> : (v a)^* * (2%:R^-1 * (expi p * x%:C + (expi p)^* * y%:C) * v b) =
  2%:R^-1 * (x%:C * ((v a)^* * expi p * v b) + y%:C * ((v a)^* * (expi p)^* * v b)).
  by move: ((v a)^*) (v b) (expi p) ((expi p)^*) x%:C y%:C => ? ? ? ? ? ?; ring.
have -> : (mag (v a))%:C * (2%:R^-1 * (1 * x%:C + (1 : C)^* * y%:C) * u b) =
  2%:R^-1 * (((x + y) * (mag (v a) * mag (v b)))%:C).
  rewrite cj1 !mul1r /u !cRM cRD.
  by move: (mag (v a))%:C (mag (v b))%:C x%:C y%:C => ? ? ? ?; ring.
have -> : 2%:R^-1 = (Rdiv R1 2)%:C :> C.
  have two : 2%:R != 0 :> C by rewrite Num.Theory.pnatr_eq0.
  apply: (mulfI two); rewrite mulfV // mulr_natl mulr2n -cRD -RplusE -cR1; congr (_%:C); exact: double_var.
rewrite !Re_scale; apply: Rmult_le_compat_l; first lra.
have Rd (z z' : C) : complex.Re (z + z') = complex.Re z + complex.Re z' by case: z z' => ? ? [].
rewrite Rd !Re_scale; apply: two_bounds => //.
  by apply: Rle_trans (Re_mag _) _; rewrite !magM magJ mag_expi mulr1; exact: Rle_refl.
by apply: Rle_trans (Re_mag _) _; rewrite !magM !magJ mag_expi mulr1; exact: Rle_refl.
Qed.

Lemma LC_same a b : (a < N)%N -> (b < N)%N ->
  complex.Re ((u a)^* * (oent (LC_hamil h) a b * u b)) = complex.Re ((v a)^* * (oent (LC_hamil h) a b * v b)).
Proof.
move=> ha hb; case: (eqVneq a b) => [<-|ne].
  have K (x : C) z : x^* * (z * x) = z * (nrm x)%:C by rewrite mulrCA nrmE.
  by rewrite !K /u nrmR mag2.
have [d [Ld Ea]] := posn_surj ha; have [d' [Ld' Eb]] := posn_surj hb.
have dec i j : (i < hn h)%N -> (j < hn h)%N -> i != j -> ~~ hcharge h i || ~~ hcharge h j -> t_cI (h_st h) i j = 0.
  by move=> hi hj _; rewrite !I.
have := LC_level sym dec Ld Ld'; rewrite Ea Eb (negbTE ne) => ->.
by rewrite !mul0r !mulr0.
Qed.

Lemma ham_term val0 loops0 B0 A0 (x y : C) a b : hamiltonian disp h val0 loops0 B0 ks = Ok A0 ->
  complex.Re (x * (ent A0 a b * y)) = complex.Re (x * (oent (LC_hamil h) a b * y)) -
  \sum_(k <- k_jj ks) val0 k.1.1.2 * complex.Re (x * (jjent disp h (ext_flux loops0 B0 k.1.2) k.2 a b * y)).
Proof.
move=> E0; rewrite (hamiltonian_entry _ _ E0) noind big_nil addr0 mulrBl mulrBr.
have Rs (z z' : C) : complex.Re (z - z') = complex.Re z - complex.Re z' by case: z z' => ? ? [].
rewrite Rs; congr (_ - _); rewrite mulr_suml mulr_sumr.
elim: (k_jj ks) => [|k l IH]; first by rewrite !big_nil.
have Rd (z z' : C) : complex.Re (z + z') = complex.Re z + complex.Re z' by case: z z' => ? ? [].
rewrite !big_cons Rd IH; congr (_ + _).
rewrite -Re_scale; congr complex.Re.
by move: (val0 _)%:C (jjent _ _ _ _ _ _) => p q; ring.
Qed.

Lemma term_less a b : (a < N)%N -> (b < N)%N ->
  Rle (complex.Re ((u a)^* * (ent A' a b * u b))) (complex.Re ((v a)^* * (ent A a b * v b))).
Proof.
move=> ha hb; rewrite (ham_term _ _ _ _ EA) (ham_term _ _ _ _ EA') LC_same //.
apply/RleP; apply: Num.Theory.ler_sub; first exact: Order.POrderTheory.lexx.
elim: (k_jj ks) vpos zero => [|k l IH] vp z; first by rewrite !big_nil Order.POrderTheory.lexx.
rewrite !big_cons; apply: Num.Theory.ler_add; last by apply: IH => k' hk; [apply: vp|apply: z]; right.
rewrite (z k); last by left.
apply: Num.Theory.ler_wpmul2l; first by apply/RleP; apply: vp; left.
by apply/RleP; exact: jj_less.
Qed.

Lemma expect_less : Rle (expect A' u) (expect A v) /\ weight N u = weight N v.
Proof.
have [dA _] := hamiltonian_ok disp_dim EA; have [dA' _] := hamiltonian_ok disp_dim EA'; split.
  rewrite /expect dA dA'; apply/RleP; rewrite !Re_sum; apply: Num.Theory.ler_sum => a _.
  rewrite !mulr_sumr !Re_sum; apply: Num.Theory.ler_sum => b _; apply/RleP; exact: term_less.
by rewrite /weight; congr complex.Re; apply: eq_bigr => a _; rewrite !nrmE /u nrmR mag2.
Qed.
End Islands.

(** An operator bounded by the ground energy in a state: the state is the ground state. *)
Section Lowest.
Variables (A : op) (E : nat -> R) (v : nat -> nat -> C) (u : nat -> C).
Let n := dim A.
Hypothesis L : levels_of A E v.
Hypothesis simple : forall j, (0 < j < n)%N -> Rlt (E 0%N) (E j).
Hypothesis n0 : (0 < n)%N.
Hypothesis low : Rle (expect A u) (Rmult (E 0%N) (weight n u)).

Lemma lowest_only : exists d : C, forall a, (a < n)%N -> u a = d * v 0%N a.
Proof.
have [asc EV ON] := L.
pose d j := PerturbSpec.dot n (v j) u.
have X a : (a < n)%N -> u a = \sum_(j < n) d j * v j a by move=> ha; exact: (complete u ON ha).
have [W Q] := combination EV ON X.
have low2 : \sum_(i < n) nrm (d i) * (E i - E 0%N) <= 0.
  rewrite (eq_bigr (fun i : 'I_n => nrm (d i) * E i - nrm (d i) * E 0%N)); last by move=> i _; rewrite mulrBr.
  rewrite sumrB -mulr_suml Num.Theory.subr_le0 [X in _ <= X]mulrC; apply/RleP; move: low.
  by rewrite /expect /weight -/n W Q !ReR -RmultE.
have z j : (0 < j < n)%N -> nrm (d j) = 0.
  move=> /andP [j0 hj]; apply: (weak_zero _ (Rminus (E j) (E 0%N))).
  - by apply/RleP; exact: nrm_ge0.
  - by apply: Rlt_Rminus; apply: simple; rewrite j0 hj.
  move: low2; rewrite (bigD1 (Ordinal hj)) //= => le; apply/RleP; apply: Order.POrderTheory.le_trans le.
  rewrite -RmultE -RminusE Num.Theory.ler_addl; apply: Num.Theory.sumr_ge0 => i _; apply: Num.Theory.mulr_ge0; first exact: nrm_ge0.
  by rewrite Num.Theory.subr_ge0; apply/RleP; apply: asc; rewrite leq0n ltn_ord.
exists (d 0%N) => a ha; rewrite X // (bigD1 (Ordinal n0)) //= big1 ?addr0 // => i ne.
rewrite (nrm_eq0 (z i _)) ?mul0r // ltn_ord andbT lt0n.
by apply: contra ne => /eqP e; apply/eqP/val_inj.
Qed.
End Lowest.

(** Two neighbour-coupled operators with one diagonal. *)
Section Steps.
Variables (m : nat) (q : nat -> R) (amp amp' z : C) (A A' : op) (v : nat -> C).
Let tri (x : C) (a b : nat) : C :=
  (if a == b then (q a)%:C else 0) - 2%:R^-1 * (if a == b.+1 then x else if b == a.+1 then x^* else 0).
Hypothesis dA : dim A = m.
Hypothesis dA' : dim A' = m.
Hypothesis eA : forall a b, (a < m)%N -> (b < m)%N -> ent A a b = tri amp a b.
Hypothesis eA' : forall a b, (a < m)%N -> (b < m)%N -> ent A' a b = tri amp' a b.
Hypothesis unit : z^* * z = 1.
Hypothesis turn : amp' = (mag amp')%:C * z.
Hypothesis less : Rle (mag amp) (mag amp').
Let u a : C := z ^+ a * (mag (v a))%:C.
Let gap (a b : nat) : R := if a == b.+1 then Rmult (Rdiv (Rminus (mag amp') (mag amp)) 2) (Rmult (mag (v a)) (mag (v b))) else 0.

Lemma zz a : (z ^+ a)^* * z ^+ a = 1.
Proof. by rewrite -[(z ^+ a)^*]/(conjc (z ^+ a)) rmorphX -exprMn unit expr1n. Qed.
Lemma half_re (y : C) : complex.Re (- (2%:R^-1 * y)) = - (Rdiv (complex.Re y) 2).
Proof.
have -> : 2%:R^-1 = (Rdiv R1 2)%:C :> C.
  have two : 2%:R != 0 :> C by rewrite Num.Theory.pnatr_eq0.
  apply: (mulfI two); rewrite mulfV // mulr_natl mulr2n -cRD -RplusE -cR1; congr (_%:C); exact: double_var.
have Rn (w : C) : complex.Re (- w) = - complex.Re w by case: w.
by rewrite Rn Re_scale; congr (- _); rewrite -RmultE; lra.
Qed.

Lemma down a : (u a.+1)^* * (amp' * u a) = (mag amp' * (mag (v a.+1) * mag (v a)))%:C.
Proof.
have e := zz a; rewrite /u exprS !cjM !cjR {1}turn !cRM -[RHS]mulr1 -e -[RHS]mulr1 -unit.
by move: (z ^+ a) ((z ^+ a)^*) (z^*) z (mag amp')%:C (mag (v a.+1))%:C (mag (v a))%:C => ? ? ? ? ? ? ?; ring.
Qed.
Lemma up a : (u a)^* * (amp'^* * u a.+1) = (mag amp' * (mag (v a.+1) * mag (v a)))%:C.
Proof.
have e := zz a; have et : amp'^* = (mag amp')%:C * z^* by rewrite {1}turn cjM cjR.
rewrite et /u exprS !cjM !cjR !cRM -[RHS]mulr1 -e -[RHS]mulr1 -unit.
by move: (z ^+ a) ((z ^+ a)^*) (z^*) z (mag amp')%:C (mag (v a.+1))%:C (mag (v a))%:C => ? ? ? ? ? ? ?; ring.
Qed.

Lemma step_term a b : (a < m)%N -> (b < m)%N ->
  Rle (Rplus (complex.Re ((u a)^* * (ent A' a b * u b))) (gap a b)) (complex.Re ((v a)^* * (ent A a b * v b))).
Proof.
move=> ha hb; rewrite eA // eA' // /tri /gap.
have bd x : mag x = mag amp -> Rle (complex.Re ((v a)^* * (x * v b))) (Rmult (mag amp) (Rmult (mag (v a)) (mag (v b)))).
  move=> e; apply: Rle_trans (Re_mag _) _; rewrite !magM magJ e -!RmultE; right.
  by move: (mag amp) (mag (v a)) (mag (v b)) => ? ? ?; rewrite !RmultE; ring.
have K (x y w : C) : x^* * ((0 - 2%:R^-1 * w) * y) = - (2%:R^-1 * (x^* * (w * y))).
  by move: (x^*) => ?; ring.
case: (eqVneq a b) => [<-|ne].
  have -> : (a == a.+1) = false by lia.
  rewrite mulr0 subr0 Rplus_0_r; right; congr complex.Re.
  have D (x : C) : x^* * ((q a)%:C * x) = (q a)%:C * (nrm x)%:C by rewrite mulrCA nrmE.
  have nz : nrm (z ^+ a) = 1 by have := zz a; rewrite nrmE => -[].
  by rewrite !D /u nrmM nz mul1r nrmR mag2.
case: (eqVneq a b.+1) => [e|ne1]; last case: (eqVneq b a.+1) => [e|ne2].
- subst a; rewrite !K !half_re down; have := bd amp erefl.
  move: (complex.Re _) (mag amp) (mag amp') (mag (v b.+1)) (mag (v b)) less => x r r' s t l h.
  rewrite -!RmultE -!RoppE /=; lra.
- subst b; rewrite !K !half_re up Rplus_0_r; have := bd (amp^*) (magJ _).
  have := Rmult_le_compat_r (mag (v a.+1) * mag (v a)) _ _ (Rmult_le_pos _ _ (mag_ge0 _) (mag_ge0 _)) less.
  rewrite -!RmultE (Rmult_comm (mag (v a)) (mag (v a.+1))).
  move: (complex.Re _) (mag amp) (mag amp') (mag (v a.+1)) (mag (v a)) => x r r' s t l h.
  rewrite -!RoppE /=; lra.
rewrite mulr0 subr0 !mul0r !mulr0 Rplus_0_r; exact: Rle_refl.
Qed.

Lemma step_less : Rle (Rplus (expect A' u) (if (1 < m)%N then gap 1%N 0%N else 0)) (expect A v) /\ weight m u = weight m v.
Proof.
have g0 a b : Rle 0 (gap a b).
  rewrite /gap; case: ifP => _; last exact: Rle_refl.
  by apply: Rmult_le_pos; [lra|apply: Rmult_le_pos; exact: mag_ge0].
split; last first.
  rewrite /weight; congr complex.Re; apply: eq_bigr => a _; rewrite !nrmE /u nrmM nrmR mag2.
  by have := zz a; rewrite nrmE => -[->]; rewrite mul1r.
have S : Rle (expect A' u + \sum_(a < m) \sum_(b < m) gap a b) (expect A v).
  rewrite /expect dA dA'; apply/RleP; rewrite -Num.Theory.ler_subr_addl !Re_sum -sumrB; apply: Num.Theory.ler_sum => a _.
  rewrite !mulr_sumr !Re_sum -sumrB; apply: Num.Theory.ler_sum => b _; rewrite Num.Theory.ler_subr_addl; apply/RleP; exact: step_term.
apply: Rle_trans S; apply: Rplus_le_compat_l; apply/RleP.
have sg (a : nat) : 0 <= \sum_(b < m) gap a b by apply: Num.Theory.sumr_ge0 => b _; apply/RleP.
case: ifP => m1; last by apply: Num.Theory.sumr_ge0 => a _; exact: sg.
rewrite (bigD1 (Ordinal m1)) //= (bigD1 (Ordinal (ltnW m1))) //= -addrA Num.Theory.ler_addl.
apply: Num.Theory.addr_ge0; apply: Num.Theory.sumr_ge0 => b _; [exact/RleP|exact: sg].
Qed.
End Steps.

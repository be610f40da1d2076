(** TransProofs2.v -- charge and harmonic modes, the normal form after the second
    transformation, and the scaling of the third. *)
From Coq Require Import Reals ZArith Lra.
From Verif.Model Require Import Base Units Edge LCWB Rounding Accuracy.
From mathcomp Require Import all_ssreflect all_algebra.
From Verif.Numerics Require Import RStruct Bridge.
From Verif.Model Require Import FluxDist Transform.
From Verif.Spec Require Import TransSpec.
From Verif.Proofs Require Import AccProofs TransProofs TransProofs1.

Set Implicit Arguments.
Unset Strict Implicit.
Unset Printing Implicit Defensive.
Import GRing.Theory.
Local Open Scope ring_scope.

Lemma lt0_neq (x : R) : Rlt 0 x -> x != 0.
Proof. by move=> H; apply/eqP => E; move: H; rewrite E; apply: Rlt_irrefl. Qed.
Lemma inv_pos (x : R) : Rlt 0 x -> Rlt 0 (1 / x)%R.
Proof.
move=> H; have n0 := lt0_neq H.
have -> : 1 / x = Rdiv 1 x.
  have E : Rmult (Rdiv 1 x) x = R1 by field; exact/eqP.
  by apply: (mulIf n0); rewrite divfK //; apply: esym; exact: E.
by apply: Rdiv_lt_0_compat => //; apply: Rlt_0_1.
Qed.

Lemma sing_locs_iota n D0 eigL : exists k, (k <= n)%N /\ sing_locs n D0 eigL = iota (n - k) k.
Proof.
rewrite /sing_locs; case: ifP => _; first by exists n; rewrite subnn.
by set k := count _ _; exists k; split=> //; rewrite -[X in (_ <= X)%N](size_iota 0 n) count_size.
Qed.

Lemma mem_sing n k i : (k <= n)%N -> (i < n)%N -> (i \in iota (n - k) k) = ~~ (i < n - k)%N.
Proof. by move=> Hk Hi; rewrite mem_iota subnK // Hi andbT -leqNgt. Qed.

(** What the first transformation leaves, with k charge modes. *)
Definition nf1 (n k : nat) (D : vec) (st : tst) : Prop :=
  [/\ (k <= n)%N, t_n st = n /\ t_n0 st = n,
      forall i, (i < n - k)%N -> Rlt 0 (D i),
      forall i, (i < n)%N -> Rlt 0 (t_cI st i i) &
      (forall i j, (i < n)%N -> (j < n)%N -> t_lT st i j =
         if (i == j) && (i < n - k)%N then t_lT st i i else 0) /\
      (forall i, (i < n - k)%N -> Rlt 0 (t_lT st i i)) /\
      (forall i j, (i < n)%N -> (j < n)%N -> i != j -> (i < n - k)%N || (j < n - k)%N ->
         t_cI st i j = 0) /\
      (forall i, (i < n - k)%N -> sqrt (t_cI st i i * t_lT st i i) = D i) /\
      (forall i, (i < n)%N -> t_om st i = if (i < n - k)%N then D i else 0)].

Lemma nf1_charge n k D st i : nf1 n k D st -> (i < n)%N -> is_charge st i = ~~ (i < n - k)%N.
Proof.
move=> [Hk _ HD _ [_ [_ [_ [_ Hom]]]]] Hi; rewrite /is_charge Hom //.
by case: ifP => [Hi'|_]; rewrite ?eqxx // (negbTE (lt0_neq (HD _ Hi'))).
Qed.

Lemma nf1_trans1 n m kj C L W st0 croot lroot D0 U X eigL st s r :
  t_init n m kj C L W = Ok st0 ->
  root_of (toM n n C) (toM n n croot) -> root_of (toM n n L) (toM n n lroot) ->
  svd_of (toM n n lroot *m invmx (toM n n croot)) (toM n n X) (toM n n U) (toV n D0) ->
  trans1 croot D0 U eigL st0 = Ok (st, (s, r)) ->
  exists k, sing_locs n D0 eigL = iota (n - k) k /\ nf1 n k D0 (set_omega st).
Proof.
move=> EI HC HL HA E1.
have [scp HcI HlT _ [_ [[En En0 _ _ _] _]]] := trans1_diag EI HC HL HA E1.
have [k [Hk Ek]] := sing_locs_iota n D0 eigL; exists k; split=> //.
have inS i : (i < n)%N -> (i \in sing_locs n D0 eigL) = ~~ (i < n - k)%N.
  by move=> Hi; rewrite Ek mem_sing.
have scD i : (i < n - k)%N -> scale_of n D0 eigL i = D0 i.
  move=> Hi; have Hin : (i < n)%N by apply: leq_trans Hi (leq_subr _ _).
  have := inS i Hin; rewrite Hi /= /scale_of /sing_locs; case: ifP => // _.
  by rewrite mem_iota /= Hin.
  by move=> ->.
have Dp i : (i < n - k)%N -> Rlt 0 (D0 i).
  move=> Hi; rewrite -(scD i Hi); apply: scp; exact: leq_trans Hi (leq_subr _ _).
have lTd i : (i < n - k)%N -> t_lT st i i = D0 i ^+ 2 * D0 i.
  move=> Hi; have Hin : (i < n)%N by apply: leq_trans Hi (leq_subr _ _).
  by rewrite HlT // eqxx inS // Hi /= scD.
have lTp i : (i < n - k)%N -> Rlt 0 (t_lT st i i).
  by move=> Hi; rewrite lTd //; have := Dp i Hi => Hp; do 2?apply: Rmult_lt_0_compat.
have sqD i : (i < n - k)%N -> sqrt (t_cI st i i * t_lT st i i) = D0 i.
  move=> Hi; have Hin : (i < n)%N by apply: leq_trans Hi (leq_subr _ _).
  rewrite lTd // HcI // eqxx scD //.
  have -> : Rmult (1 / D0 i)%R (D0 i ^+ 2 * D0 i)%R = Rmult (D0 i) (D0 i).
    by rewrite RmultE mul1r mulrC -mulrA mulfV ?mulr1 //; apply: lt0_neq; apply: Dp.
  by apply: sqrt_square; apply: Rlt_le; apply: Dp.
split=> //=.
- by move=> i Hi; rewrite HcI // eqxx; apply: inv_pos; apply: scp.
- split; last split; last split; last split.
  + move=> i j Hi Hj; rewrite !HlT // inS // eqxx negbK /=.
    by case: eqP => //= _; case: ifP.
  + exact: lTp.
  + by move=> i j Hi Hj ij _; rewrite HcI // (negbTE ij).
  + exact: sqD.
  + move=> i Hi; case: ifP => Hik; first exact: sqD.
    by rewrite HlT // inS // Hik eqxx /= ?RmultE mulr0 sqrt_0.
Qed.

(** ** The second transformation acts on the charge modes only *)
Definition blocky (n k : nat) (s : arr) : Prop :=
  forall i j, (i < n)%N -> (j < n)%N -> (i < n - k)%N || (j < n - k)%N -> s i j = eye i j.

Lemma mx_entry n (A B : 'M[R]_n) i j (Hi : (i < n)%N) (Hj : (j < n)%N) :
  A = B -> A (Ordinal Hi) (Ordinal Hj) = B (Ordinal Hi) (Ordinal Hj).
Proof. by move->. Qed.

Lemma blocky_sum n k s j (f : nat -> R) : blocky n k s -> (j < n - k)%N ->
  \sum_(l < n) f l * s l j = f j.
Proof.
move=> B Hj; have Hjn : (j < n)%N by apply: leq_trans Hj (leq_subr _ _).
rewrite (bigD1 (Ordinal Hjn)) //= big1 ?addr0; last first.
  move=> l /negbTE; rewrite -(inj_eq val_inj) /= => lj.
  by rewrite B ?Hj ?orbT // /eye lj mulr0.
by rewrite B ?Hj ?orbT // /eye eqxx mulr1.
Qed.
Lemma blocky_sum' n k s j (f : nat -> R) : blocky n k s -> (j < n - k)%N ->
  \sum_(l < n) s l j * f l = f j.
Proof. by move=> B Hj; rewrite -(blocky_sum f B Hj); apply: eq_bigr => l _; rewrite mulrC. Qed.

Lemma blocky_dual n k s r : blocky n k s -> dual n s r -> blocky n k r.
Proof.
move=> B D i j Hi Hj /orP [H|H].
- have := mx_entry Hi Hj D; rewrite !mxE -(inj_eq val_inj) /= /eye.
  under eq_bigr do rewrite !mxE.
  rewrite (blocky_sum' (fun l => r l j) B) // => ->; by case: eqP.
- have := mx_entry Hi Hj (mulmx1C D); rewrite !mxE -(inj_eq val_inj) /= /eye.
  under eq_bigr do rewrite !mxE.
  have -> : \sum_(l < n) r i l * s j l = r i j; last by move=> ->; case: eqP.
  rewrite (bigD1 (Ordinal Hj)) //= big1 ?addr0; last first.
    move=> l /negbTE; rewrite -(inj_eq val_inj) /= eq_sym => lj.
    by rewrite B ?H // /eye lj mulr0.
  by rewrite B ?H // /eye eqxx mulr1.
Qed.

Lemma attempt2_blocky fuel sv order S1 draw st s r :
  attempt2 fuel sv order S1 draw st = Some (Ok (s, r)) ->
  blocky (t_n st) (size (charge_modes st)) s.
Proof.
rewrite /attempt2; case: ifP => _; first by case=> <- _.
case: basis_loop => [[ind rnd]|//]; case: ifP => // _.
case: inv => [fi|//]; case E: inv => [r2|//] [<- _].
by move=> i j Hi Hj H; rewrite /block_low H.
Qed.
Lemma trans2_blocky tries fuel sv order S1 draw a st st' s r :
  trans2 tries fuel sv order S1 draw a st = Some (Ok (st', (s, r))) ->
  blocky (t_n st) (size (charge_modes st)) s.
Proof.
elim: tries a => [//|t IH] a /=.
case E: attempt2 => [[[s2 r2]|e]|] //; case: ifP => [ok|_]; last exact: IH.
case=> _ <- _; exact: attempt2_blocky E.
Qed.

Lemma nf1_charge_modes n k D st : nf1 n k D st -> charge_modes st = iota (n - k) k.
Proof.
move=> Hn; have [Hk [En _] _ _ _] := Hn; rewrite /charge_modes En.
rewrite -{1}(subnK Hk) iotaD filter_cat add0n.
rewrite (eq_in_filter (a2 := pred0)) ?filter_pred0 /=; last first.
  move=> i; rewrite mem_iota add0n => /andP [_ Hi].
  by rewrite (nf1_charge Hn) ?Hi //; apply: leq_trans Hi (leq_subr _ _).
rewrite (eq_in_filter (a2 := predT)) ?filter_predT //.
move=> i; rewrite mem_iota => /andP [H1 H2].
by rewrite (nf1_charge Hn) -?leqNgt //; rewrite subnK in H2.
Qed.

(** A block of charge modes transformed keeps the normal form. *)
Lemma nf1_apply2 n k D st s r : nf1 n k D st -> blocky n k s -> dual n s r ->
  (forall i, (n - k <= i < n)%N -> Rlt 0 (t_cI (apply_tr s r st) i i)) ->
  nf1 n k D (apply_tr s r st).
Proof.
move=> [Hk [En En0] HD Hc [HlT [HlTp [HcI [Hsq Hom]]]]] Bs Ds Hpos.
have Br := blocky_dual Bs Ds.
have lTE i j : (i < n)%N -> (j < n)%N -> t_lT (apply_tr s r st) i j = t_lT st i j.
  move=> Hi Hj; rewrite /= En /mmul.
  transitivity (\sum_(l < n) \sum_(p < n) s p i * t_lT st p l * s l j).
    by apply: eq_bigr => l _; rewrite big_distrl.
  have E (l p : 'I_n) : s p i * t_lT st p l * s l j =
      (if (p == l) && (p < n - k)%N then s p i * t_lT st p p * s p j else 0).
    rewrite HlT // -(inj_eq val_inj) /=; case: eqP => [->|_] /=; last by rewrite mulr0 mul0r.
    by case: ifP => // _; rewrite mulr0 mul0r.
  transitivity (\sum_(p < n) if (p < n - k)%N then s p i * t_lT st p p * s p j else 0).
    rewrite exchange_big /=; apply: eq_bigr => p _; rewrite (bigD1 p) //= big1 ?addr0.
      rewrite E eqxx /=; by case: ifP.
    by move=> l lp; rewrite E eq_sym (negbTE lp).
  rewrite HlT //; case: (ltnP i (n - k)) => Hik.
    rewrite (bigD1 (Ordinal Hi)) //= Hik big1 ?addr0; last first.
      move=> p; rewrite -(inj_eq val_inj) /= => pi; case: ifP => // Hp.
      by rewrite Bs ?Hp // /eye (negbTE pi) !mul0r.
    rewrite !Bs ?Hik // /eye eqxx mul1r; by case: eqP; rewrite ?mulr1 ?mulr0.
  rewrite andbF big1 // => p _; case: ifP => // Hp.
  rewrite Bs ?Hp // /eye; case: eqP => [E'|_]; last by rewrite !mul0r.
  by move: Hp; rewrite E' ltnNge Hik.
have cIE i j : (i < n)%N -> (j < n - k)%N -> t_cI (apply_tr s r st) i j = t_cI st i j.
  move=> Hi Hj; have Hjn : (j < n)%N by apply: leq_trans Hj (leq_subr _ _).
  rewrite /= En /mmul (blocky_sum (fun l => \sum_(p < n) tr r i p * t_cI st p l) Br Hj).
  rewrite (bigD1 (Ordinal Hjn)) //= big1 ?addr0; last first.
    move=> p; rewrite -(inj_eq val_inj) /= => pj.
    by rewrite HcI ?Hj ?orbT // mulr0.
  rewrite /tr Br ?Hj // /eye; case: eqP => [->|/eqP ji]; first by rewrite mul1r.
  by rewrite mul0r HcI ?Hj ?orbT // eq_sym.
have cIE' i j : (i < n - k)%N -> (j < n)%N -> t_cI (apply_tr s r st) i j = t_cI st i j.
  move=> Hi Hj; have Hin : (i < n)%N by apply: leq_trans Hi (leq_subr _ _).
  rewrite /= En /mmul.
  transitivity (\sum_(l < n) t_cI st i l * r l j).
    apply: eq_bigr => l _; congr (_ * _).
    exact: (blocky_sum' (fun p => t_cI st p l) Br Hi).
  rewrite (bigD1 (Ordinal Hin)) //= big1 ?addr0; last first.
    move=> p; rewrite -(inj_eq val_inj) /= => pi.
    by rewrite HcI ?Hi // 1?eq_sym // mul0r.
  rewrite Br ?Hi // /eye; case: eqP => [->|/eqP ji]; first by rewrite mulr1.
  by rewrite mulr0 HcI ?Hi.
split=> //.
- move=> i Hi; case: (ltnP i (n - k)) => Hik; first by rewrite cIE //; apply: Hc.
  by apply: Hpos; rewrite Hik.
- split; last split; last split; last split.
  + move=> i j Hi Hj; rewrite !lTE //; exact: HlT.
  + move=> i Hi; have Hin : (i < n)%N by apply: leq_trans Hi (leq_subr _ _).
    by rewrite lTE //; apply: HlTp.
  + move=> i j Hi Hj ij /orP [H|H]; first by rewrite cIE' // HcI ?H.
    by rewrite cIE // HcI ?H ?orbT.
  + move=> i Hi; have Hin : (i < n)%N by apply: leq_trans Hi (leq_subr _ _).
    by rewrite lTE // cIE //; apply: Hsq.
  + exact: Hom.
Qed.

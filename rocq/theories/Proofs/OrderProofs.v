(** OrderProofs.v -- the charging energy as a quadratic form, and inverses of ordered forms. *)
From Coq Require Import Reals ZArith Lra.
From Verif.Model Require Import Base Units Edge LCWB Accuracy HamConst.
From mathcomp Require Import all_ssreflect all_algebra.
From mathcomp Require Import complex.
From Verif.Numerics Require Import RStruct Bridge.
From Verif.Model Require Import Op Transform Ham.
From Verif.Spec Require Import OpSpec PerturbSpec LevelsSpec OrderSpec.
From Verif.Proofs Require Import OpProofs HamProofs HamProofs2 HamProofs3 HamProofs4 HamProofs6 MinMaxProofs TransProofs.

Set Implicit Arguments.
Unset Strict Implicit.
Unset Printing Implicit Defensive.
Import GRing.Theory.
Local Open Scope ring_scope.
Local Open Scope complex_scope.

Lemma Re_sum (I : Type) (r : seq I) (P : pred I) (F : I -> C) :
  complex.Re (\sum_(i <- r | P i) F i) = \sum_(i <- r | P i) complex.Re (F i).
Proof.
elim/big_rec2: _ => // i x y _ <-; by case: (F i) y => a b [c d].
Qed.
Lemma Re_scale (x : R) (z : C) : complex.Re (x%:C * z) = x * complex.Re z.
Proof. by case: z => a b; rewrite /= mul0r subr0. Qed.
Lemma Re_conj (x y : C) : complex.Re (x^* * y) = complex.Re x * complex.Re y + complex.Im x * complex.Im y.
Proof. by case: x y => a b [c d]; rewrite /= mulNr opprK. Qed.

Section Form.
Variables (N n : nat) (M : nat -> nat -> R) (Q : nat -> op) (u : nat -> C).
Hypothesis dQ : forall i, dim (Q i) = N.
Hypothesis hQ : forall i, herm (Q i).
Let X (i a : nat) : C := \sum_(b < N) ent (Q i) a b * u b.

Lemma product_mean i j : \sum_(a < N) (u a)^* * (\sum_(b < N) ent (omul (Q i) (Q j)) a b * u b) = \sum_(a < N) (X i a)^* * X j a.
Proof.
have -> : \sum_(a < N) (u a)^* * (\sum_(b < N) ent (omul (Q i) (Q j)) a b * u b) =
    \sum_(a < N) \sum_(c < N) (u a)^* * (ent (Q i) a c * X j c).
  apply: eq_bigr => a _; rewrite -mulr_sumr; congr (_ * _); rewrite /=  dQ.
  under eq_bigr do rewrite mulr_suml; rewrite exchange_big /=; apply: eq_bigr => c _.
  by rewrite /X mulr_sumr; apply: eq_bigr => b _; rewrite mulrA.
rewrite exchange_big /=; apply: eq_bigr => c _.
rewrite /X rmorph_sum mulr_suml; apply: eq_bigr => a _.
have [_ H] := hQ i; have E : ent (Q i) a c = (ent (Q i) c a)^* by apply: H; rewrite dQ.
by rewrite E rmorphM /= mulrA; congr (_ * _); rewrite mulrC.
Qed.

Lemma form_mean : complex.Re (\sum_(a < N) (u a)^* * (\sum_(b < N) (\sum_(i < n) \sum_(j < n) (M i j)%:C * ent (omul (Q i) (Q j)) a b) * u b)) =
  \sum_(a < N) (quad n M (fun i => complex.Re (X i a)) + quad n M (fun i => complex.Im (X i a))).
Proof.
have -> : \sum_(a < N) (u a)^* * (\sum_(b < N) (\sum_(i < n) \sum_(j < n) (M i j)%:C * ent (omul (Q i) (Q j)) a b) * u b) =
    \sum_(i < n) \sum_(j < n) (M i j)%:C * \sum_(a < N) (X i a)^* * X j a.
  under eq_bigr => a _ do under eq_bigr => b _ do rewrite mulr_suml.
  under eq_bigr => a _ do rewrite exchange_big /= mulr_sumr.
  rewrite exchange_big /=; apply: eq_bigr => i _.
  under eq_bigr => a _ do under eq_bigr => b _ do rewrite mulr_suml.
  under eq_bigr => a _ do rewrite exchange_big /= mulr_sumr.
  rewrite exchange_big /=; apply: eq_bigr => j _.
  rewrite -product_mean mulr_sumr; apply: eq_bigr => a _.
  rewrite mulrCA; congr (_ * _); rewrite mulr_sumr; apply: eq_bigr => b _; by rewrite mulrA.
rewrite Re_sum big_split /= [X in _ = X + _]exchange_big [X in _ = _ + X]exchange_big -big_split /=; apply: eq_bigr => i _.
rewrite Re_sum [X in _ = X + _]exchange_big [X in _ = _ + X]exchange_big -big_split /=; apply: eq_bigr => j _.
rewrite Re_scale Re_sum mulr_sumr -big_split /=; apply: eq_bigr => a _.
by rewrite Re_conj mulrDr.
Qed.

Lemma form_mean_ge0 : below n (fun _ _ => 0) M ->
  Rle 0 (complex.Re (\sum_(a < N) (u a)^* * (\sum_(b < N) (\sum_(i < n) \sum_(j < n) (M i j)%:C * ent (omul (Q i) (Q j)) a b) * u b))).
Proof.
move=> H; rewrite form_mean; apply/RleP; apply: Num.Theory.sumr_ge0 => a _.
have z y : quad n (fun _ _ => 0) y = 0.
  by rewrite /quad big1 // => i _; rewrite big1 // => j _; rewrite mul0r.
apply: Num.Theory.addr_ge0; apply/RleP; [have := H (fun i => complex.Re (X i a))|have := H (fun i => complex.Im (X i a))];
  by rewrite z.
Qed.
End Form.

Lemma eq_sum_In (T : Type) (l : seq T) (F G : T -> C) : (forall k, List.In k l -> F k = G k) ->
  \sum_(k <- l) F k = \sum_(k <- l) G k.
Proof.
elim: l => [|k l IH] H; first by rewrite !big_nil.
by rewrite !big_cons H ?IH //; [move=> j hj; apply: H; right | left].
Qed.

Section Islands.
Variables (disp : nat -> C -> op) (h h' : hin) (val val' : nat -> R) (loops loops' : seq R) (B B' : arr) (ks : keys) (A A' : op).
Hypothesis same : same_islands h h'.
Hypothesis noind : k_ind ks = [::].
Hypothesis EA : hamiltonian disp h val loops B ks = Ok A.
Hypothesis EA' : hamiltonian disp h' val' loops' B' ks = Ok A'.
Hypothesis agree : forall k, List.In k (k_jj ks) ->
  val' k.1.1.2 = val k.1.1.2 /\ ext_flux loops' B' k.1.2 = ext_flux loops B k.1.2.
Hypothesis sym : symmetric (hn h) (t_cI (h_st h)).
Hypothesis sym' : symmetric (hn h) (t_cI (h_st h')).
Hypothesis disp_dim : forall m a, dim (disp m a) = m.

Let nE : hn h' = hn h. Proof. by have [_ _ ->] := same. Qed.
Let mE k : hm h' k = hm h k. Proof. by rewrite /hm; have [_ _ _ ->] := same. Qed.
Let tE : total h' = total h. Proof. by rewrite /total nE; apply: eq_bigr => k _. Qed.

Lemma same_Q i : opQ h' i = opQ h i.
Proof.
rewrite !opQE nE; apply: T_ext => k hk; rewrite /one_fam mE; case: eqP => // _.
have [c c' _ _ [ng _]] := same.
by rewrite /charge_op_isolated c // c' ?nE // mE ng.
Qed.

Lemma same_exp w : opExp disp h' w = opExp disp h w.
Proof.
rewrite /opExp nE; congr otensor; apply/eq_in_map => k; rewrite mem_iota add0n => /andP [_ hk].
have [c c' _ _ [_ wT]] := same.
by rewrite /exp_iso c // c' ?nE // mE wT.
Qed.

Lemma LC_islands g : islands g -> forall a b, (a < total g)%N -> (b < total g)%N ->
  oent (LC_hamil g) a b = half_sum (hn g) (t_cI (h_st g)) (prodQ g a b).
Proof.
move=> I a b ha hb; rewrite LC_entry // big1 ?addr0 // => i; by rewrite I.
Qed.

Lemma island_diff a b : (a < total h)%N -> (b < total h)%N ->
  2%:R * (ent A a b - ent A' a b) = \sum_(i < hn h) \sum_(j < hn h)
    (t_cI (h_st h) i j - t_cI (h_st h') i j)%:C * ent (omul (opQ h i) (opQ h j)) a b.
Proof.
move=> ha hb; have [c c' _ _ _] := same.
rewrite (hamiltonian_entry a b EA) (hamiltonian_entry a b EA') noind !big_nil !addr0.
have -> : \sum_(k <- k_jj ks) (val' k.1.1.2)%:C * jjent disp h' (ext_flux loops' B' k.1.2) k.2 a b =
          \sum_(k <- k_jj ks) (val k.1.1.2)%:C * jjent disp h (ext_flux loops B k.1.2) k.2 a b.
  by apply: eq_sum_In => k hk; have [-> ->] := agree hk; rewrite /jjent same_exp.
rewrite opprB addrA subrK !LC_islands ?tE // mulrBr.
rewrite half_sumE //; last by move=> i j _ _; apply: prodQ_sym.
rewrite half_sumE ?nE //; last by move=> i j _ _; apply: prodQ_sym; rewrite tE.
rewrite -sumrB; apply: eq_bigr => i _; rewrite -sumrB; apply: eq_bigr => j _.
by rewrite /prodQ !same_Q rmorphB mulrBl.
Qed.

Let dA : dim A = total h. Proof. by have [] := hamiltonian_ok disp_dim EA. Qed.
Let dA' : dim A' = total h. Proof. by rewrite -tE; have [] := hamiltonian_ok disp_dim EA'. Qed.

Lemma expect_le u : below (hn h) (t_cI (h_st h')) (t_cI (h_st h)) -> Rle (expect A' u) (expect A u).
Proof.
move=> bl; pose M i j := t_cI (h_st h) i j - t_cI (h_st h') i j.
have pos : below (hn h) (fun _ _ => 0) M.
  move=> y; have -> : quad (hn h) (fun _ _ => 0) y = 0.
    by rewrite /quad big1 // => i _; rewrite big1 // => j _; rewrite mul0r.
  have -> : quad (hn h) M y = quad (hn h) (t_cI (h_st h)) y - quad (hn h) (t_cI (h_st h')) y.
    by rewrite /quad -sumrB; apply: eq_bigr => i _; rewrite -sumrB; apply: eq_bigr => j _; rewrite mulrBl.
  by apply/RleP; rewrite Num.Theory.subr_ge0; apply/RleP; apply: bl.
have := form_mean_ge0 (N := total h) u (dim_opQ h) (fun i => (mode_op_ok h Capacitive i).2) pos.
have -> : \sum_(a < total h) (u a)^* * (\sum_(b < total h) (\sum_(i < hn h) \sum_(j < hn h)
    (M i j)%:C * ent (omul (opQ h i) (opQ h j)) a b) * u b) =
    2%:R * (\sum_(i < dim A) (u i)^* * (\sum_(j < dim A) ent A i j * u j) -
            \sum_(i < dim A') (u i)^* * (\sum_(j < dim A') ent A' i j * u j)).
  rewrite dA dA' -sumrB mulr_sumr; apply: eq_bigr => a _.
  rewrite -mulrBr [2%:R * _]mulrCA; congr (_ * _); rewrite -sumrB mulr_sumr; apply: eq_bigr => b _.
  by rewrite -island_diff // -mulrBl mulrA.
rewrite /expect; move: (\sum_(i < dim A) _) (\sum_(i < dim A') _) => [x x'] [y y'].
have -> : 2%:R = (2%:R : R)%:C :> C by rewrite rmorph_nat.
rewrite Re_scale -[complex.Re _]/(x - y) => /RleP.
by rewrite Num.Theory.pmulr_rge0 ?Num.Theory.ltr0n // Num.Theory.subr_ge0 => /RleP.
Qed.

Lemma islands_sink E E' k : below (hn h) (t_cI (h_st h')) (t_cI (h_st h)) -> energies A E -> energies A' E' ->
  (k < dim A)%N -> Rle (E' k) (E k).
Proof.
move=> bl HE HE' hk; pose J (i j : nat) : C := if i == j then 1 else 0.
have JE u a : (a < dim A)%N -> apply_to (dim A) J u a = u a.
  move=> ha; rewrite /apply_to (bigD1 (Ordinal ha)) //= /J eqxx mul1r big1 ?addr0 // => b ne.
  by rewrite ifF ?mul0r //; apply/negbTE; rewrite eq_sym -(inj_eq val_inj) in ne.
suff P : Rle (E' k) (E k + 0) by move: P; rewrite ?addr0 ?Rplus_0_r.
apply: (minmax (J := J) HE HE') => // [u|u|]; last by rewrite dA' -dA.
  by rewrite /weight dA' -dA; congr complex.Re; apply: eq_bigr => a _; rewrite JE.
rewrite ?mul0r ?Rmult_0_l ?addr0 ?Rplus_0_r; apply: Rle_trans (expect_le u bl); apply: Req_le; rewrite /expect dA' -dA; congr complex.Re.
by apply: eq_bigr => a _; rewrite JE //; congr (_ * _); apply: eq_bigr => b _; rewrite JE.
Qed.
End Islands.

(** ** Inverses *)
Lemma four_terms (p q r : R) : Rle 0 (p - q - q + r) -> Rle r q -> Rle q p.
Proof. move=> ? ?; lra. Qed.
Section Inverse.
Variables (n : nat) (C0 C1 : arr).
Hypothesis u0 : toM n n C0 \in unitmx.
Hypothesis u1 : toM n n C1 \in unitmx.
Hypothesis s0 : symmetric n C0.
Hypothesis s1 : symmetric n C1.
Hypothesis p0 : below n (fun _ _ => 0) C0.
Hypothesis le : below n C0 C1.

Definition qf (M : 'M[R]_n) (y : 'cV[R]_n) : R := (y^T *m M *m y) 0 0.

Lemma quad_qf A (y : nat -> R) : quad n A y = qf (toM n n A) (\col_i y i).
Proof.
rewrite /qf mxE /quad exchange_big /=; apply: eq_bigr => j _; rewrite !mxE mulr_suml; apply: eq_bigr => i _.
by rewrite !mxE mulrA [y i * A i j]mulrC.
Qed.
Lemma qf_quad A (y : 'cV[R]_n) : qf (toM n n A) y = quad n A (fun i => if insub i is Some o then y o 0 else 0).
Proof.
rewrite quad_qf; congr (qf _ _); apply/colP => i; rewrite !mxE.
by case: insubP => [o _ /= E|]; [congr (y _ 0); apply/esym/val_inj|rewrite ltn_ord].
Qed.

Lemma symT A : symmetric n A -> (toM n n A)^T = toM n n A.
Proof. by move=> s; apply/matrixP => i j; rewrite !mxE s. Qed.

Lemma qf_inverse (y : 'cV[R]_n) : Rle (qf (invmx (toM n n C1)) y) (qf (invmx (toM n n C0)) y).
Proof.
set M0 := toM n n C0; set M1 := toM n n C1.
pose a := invmx M0 *m y; pose b := invmx M1 *m y.
have sI0 : (invmx M0)^T = invmx M0 by rewrite trmx_inv (symT s0).
have sI1 : (invmx M1)^T = invmx M1 by rewrite trmx_inv (symT s1).
have h0 : Rle 0 (qf M0 (a - b)).
  by rewrite qf_quad; have := p0 (fun i => if insub i is Some o then (a - b) o 0 else 0);
     rewrite {1}/quad big1 // => i _; rewrite big1 // => j _; rewrite mul0r.
have h1 : Rle (qf M0 b) (qf M1 b) by rewrite !qf_quad; apply: le.
have e1 : qf M1 b = qf (invmx M1) y.
  by rewrite /qf /b trmx_mul sI1 -!mulmxA mulKVmx.
have ab : b^T *m M0 *m a = y^T *m invmx M1 *m y.
  by rewrite /a /b trmx_mul sI1 -!mulmxA mulKVmx.
have ba : a^T *m M0 *m b = y^T *m invmx M1 *m y.
  by rewrite /a /b trmx_mul sI0 -!mulmxA [in LHS]mulmxA mulmxA -[X in X *m _]mulmxA mulVmx // mulmx1.
have aa : a^T *m M0 *m a = y^T *m invmx M0 *m y.
  by rewrite /a trmx_mul sI0 -!mulmxA mulKVmx.
have e2 : qf M0 (a - b) = qf (invmx M0) y - qf (invmx M1) y - qf (invmx M1) y + qf M0 b.
  have E (P Q : 'M[R]_1) : (P - Q) 0 0 = P 0 0 - Q 0 0 by rewrite !mxE.
  have Et : (a - b)^T = a^T - b^T by rewrite linearB.
  rewrite /qf Et mulmxBl mulmxBr !mulmxBl !E aa ab ba opprB addrA; exact: addrAC.
move: h0 h1; rewrite e2 e1; exact: four_terms.
Qed.
End Inverse.

(** In the coordinates of the modes. *)
Lemma frame_form n C0 st y : frame n C0 st -> quad n (t_cI st) y = qf (invmx (toM n n C0)) (toM n n (t_R st) *m \col_i y i).
Proof. by case=> _ _ E; rewrite quad_qf E /qf trmx_mul !mulmxA. Qed.

Lemma frame_sym n C0 st : frame n C0 st -> symmetric n C0 -> symmetric n (t_cI st).
Proof.
case=> _ _ E s i j hi hj.
have T : (toM n n (t_cI st))^T = toM n n (t_cI st) by rewrite E !trmx_mul trmxK trmx_inv (symT s) !mulmxA.
by have := congr1 (fun M : 'M[R]_n => M (Ordinal hi) (Ordinal hj)) T; rewrite !mxE.
Qed.

Lemma frame_below n C0 C1 st st' : frame n C0 st -> frame n C1 st' -> toM n n (t_R st') = toM n n (t_R st) ->
  toM n n C0 \in unitmx -> toM n n C1 \in unitmx -> symmetric n C0 -> symmetric n C1 ->
  below n (fun _ _ => 0) C0 -> below n C0 C1 -> below n (t_cI st') (t_cI st).
Proof.
move=> f f' ER u0 u1 s0 s1 p0 le y; rewrite (frame_form _ f) (frame_form _ f') ER; exact: qf_inverse.
Qed.

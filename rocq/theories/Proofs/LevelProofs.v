(** LevelProofs.v -- energies of a circuit with fewer and with more charge states. *)
From Coq Require Import Reals ZArith Lia Lra.
From Verif.Model Require Import Base Units Edge Accuracy HamConst.
Lemma charge_at_shift m t a (x : R) (z : Z) (a' m' : nat) :
  Z.of_nat m' = (Z.of_nat m + 2 * Z.of_nat t)%Z -> Z.of_nat a' = (Z.of_nat a + Z.of_nat t + z)%Z ->
  Rminus (charge_at m' a') (x + IZR z) = Rminus (charge_at m a) x.
Proof.
  unfold charge_at. intros H1 H2. rewrite !INR_IZR_INZ, H1, H2, !plus_IZR, mult_IZR. simpl. Lra.lra.
Qed.
From mathcomp Require Import all_ssreflect all_algebra.
From mathcomp Require Import complex ring zify.
From Verif.Numerics Require Import RStruct Bridge.
From Verif.Model Require Import Op Transform Ham.
From Verif.Spec Require Import OpSpec PerturbSpec LevelsSpec.
From Verif.Proofs Require Import OpProofs HamProofs HamProofs2 HamProofs5 HamProofs6 MinMaxProofs ChargeShiftProofs.

Set Implicit Arguments.
Unset Strict Implicit.
Unset Printing Implicit Defensive.
Import GRing.Theory Order.TTheory.
Local Open Scope ring_scope.
Local Open Scope complex_scope.

Lemma sum_image n n' (p : nat -> nat) (F : nat -> C) :
  (forall a, (a < n)%N -> (p a < n')%N) ->
  (forall a b, (a < n)%N -> (b < n)%N -> p a = p b -> a = b) ->
  (forall b, (b < n')%N -> (forall a, (a < n)%N -> p a <> b) -> F b = 0) ->
  \sum_(b < n') F b = \sum_(a < n) F (p a).
Proof.
move=> lt inj Z; pose P (a : 'I_n) : 'I_n' := Ordinal (lt a (ltn_ord a)).
have injP : injective P by move=> a b /(congr1 (@nat_of_ord _)) /= e; apply: ord_inj; exact: inj.
rewrite (bigID (mem (codom P))) /= [X in _ + X]big1 ?addr0; last first.
  move=> b nb; apply: Z => // a ha e; case/negP: nb; apply/codomP; exists (Ordinal ha); apply: ord_inj; by rewrite /= e.
transitivity (\sum_(b in [set P a | a in setT]) F b).
  apply: eq_bigl => b; apply/codomP/imsetP => [[a ->]|[a _ ->]]; by exists a; rewrite ?inE.
rewrite big_imset /=; last by move=> a b _ _; exact: injP.
by apply: eq_bigl => a; rewrite inE.
Qed.

(** A principal submatrix. *)
Lemma embed_le (A A' : op) E E' p k : energies A E -> energies A' E' ->
  (forall a, (a < dim A)%N -> (p a < dim A')%N) ->
  (forall a b, (a < dim A)%N -> (b < dim A)%N -> p a = p b -> a = b) ->
  (forall a b, (a < dim A)%N -> (b < dim A)%N -> ent A' (p a) (p b) = ent A a b) ->
  (k < dim A)%N -> (k < dim A')%N -> Rle (E' k) (E k).
Proof.
move=> HE HE' lt inj sub hk hk'.
pose J b a : C := if p a == b then 1 else 0.
have Jp u a : (a < dim A)%N -> apply_to (dim A) J u (p a) = u a.
  move=> ha; rewrite /apply_to (bigD1 (Ordinal ha)) //= /J eqxx mul1r big1 ?addr0 // => b ne.
  by case: eqP => [/(inj _ _ (ltn_ord b) ha) e|_]; rewrite ?mul0r //; case/eqP: ne; apply: ord_inj.
have J0 u b : (forall a, (a < dim A)%N -> p a <> b) -> apply_to (dim A) J u b = 0.
  move=> nb; rewrite /apply_to big1 // => a _; rewrite /J; case: eqP => [e|_]; last by rewrite mul0r.
  by case: (nb a (ltn_ord a)).
have -> : E k = E k + 0 by rewrite addr0.
apply: (minmax (J := J) HE HE') => // u.
  rewrite /weight; congr complex.Re.
  rewrite (sum_image (p := p) (n := dim A) (F := fun b => (apply_to (dim A) J u b)^* * apply_to (dim A) J u b)) //.
    by apply: eq_bigr => a _; rewrite Jp.
  by move=> b _ nb; rewrite (J0 u b) // mulr0.
rewrite [X in Rle _ X](_ : _ = expect A u); last by rewrite RplusE RmultE mul0r addr0.
apply: Req_le; rewrite /expect; congr complex.Re.
rewrite (sum_image (p := p) (n := dim A) (F := fun b => (apply_to (dim A) J u b)^* * \sum_(c < dim A') ent A' b c * apply_to (dim A) J u c)) //; last first.
  by move=> b _ nb; rewrite (J0 u b) // cj0 mul0r.
apply: eq_bigr => a _; rewrite Jp //; congr (_ * _).
rewrite (sum_image (p := p) (n := dim A) (F := fun c => ent A' (p a) c * apply_to (dim A) J u c)) //.
  by apply: eq_bigr => b _; rewrite Jp // sub.
by move=> b _ nb; rewrite (J0 u b) // mulr0.
Qed.

(** Position of the image of a state. *)
Fixpoint place (f : nat -> nat -> nat) (dims dims' : nat -> nat) (n I : nat) : nat :=
  if n is n'.+1 then (place f dims dims' n' (I %/ dims n') * dims' n' + f n' (I %% dims n'))%N else 0%N.
Lemma place_posn f dims dims' d n : legal dims d n ->
  place f dims dims' n (posn dims d n) = posn dims' (fun k => f k (d k)) n.
Proof.
elim: n => [//|n IH] L; have lt := L n (leqnn _); have h0 : (0 < dims n)%N by apply: leq_ltn_trans lt.
rewrite /= divnMDl // modnMDl divn_small // modn_small // addn0 IH // => k hk; apply: L; exact: ltnW.
Qed.
Lemma posn_inj dims d d' n : legal dims d n -> legal dims d' n -> posn dims d n = posn dims d' n ->
  forall k, (k < n)%N -> d k = d' k.
Proof.
elim: n => [//|n IH] L L' /= e k; have lt := L n (leqnn _); have lt' := L' n (leqnn _).
have h0 : (0 < dims n)%N by apply: leq_ltn_trans lt.
have e1 : posn dims d n = posn dims d' n.
  by have := congr1 (fun x => x %/ dims n)%N e; rewrite /= !divnMDl // !divn_small // !addn0.
have e2 : d n = d' n by have := congr1 (fun x => x %% dims n)%N e; rewrite /= !modnMDl !modn_small.
rewrite ltnS leq_eqVlt => /orP [/eqP -> //|hk]; apply: IH => // i hi; [apply: L|apply: L']; exact: ltnW.
Qed.

Section Cover.
Variables (h h' : hin) (disp : nat -> C -> op) (f : nat -> nat -> nat).
Hypothesis same : same_circuit h h'.
Hypothesis ddim : forall m a, dim (disp m a) = m.
Hypothesis cov : covers h h' f.
Variables (val : nat -> R) (loops : seq R) (B : arr) (ks : keys).

Lemma cover_le A A' E E' k : h_m h' <> [::] ->
  hamiltonian disp h val loops B ks = Ok A -> hamiltonian disp h' val loops B ks = Ok A' ->
  energies A E -> energies A' E' -> (k < dim A)%N -> (k < dim A')%N /\ Rle (E' k) (E k).
Proof.
move=> m0 EA EA' HE HE' hk.
have [A1 E1 g] := ham_shift same ddim m0 EA; move: E1; rewrite EA' => -[e1]; rewrite -{A1}e1 in g.
have [dA _] := hamiltonian_ok ddim EA; have [dA' _] := hamiltonian_ok ddim EA'.
have hn' : hn h' = hn h by rewrite /hn same.1.
have dT : dim A = (\prod_(i < hn h) hm h i)%N by rewrite dA.
have dT' : dim A' = (\prod_(i < hn h) hm h' i)%N by rewrite dA' /total hn'.
pose p := place f (hm h) (hm h') (hn h).
have lt a : (a < dim A)%N -> (p a < dim A')%N.
  rewrite dT => /posn_surj [d [L <-]]; rewrite /p place_posn // dT'; apply: posn_lt.
  by have [M _] := cov L.
have inj a b : (a < dim A)%N -> (b < dim A)%N -> p a = p b -> a = b.
  rewrite dT => /posn_surj [d [L <-]] /posn_surj [d' [L' <-]]; rewrite /p !place_posn // => e.
  have [M S] := cov L; have [M' S'] := cov L'; apply: posn_ext => i hi.
  have := posn_inj M M' e hi; have := S i hi; have := S' i hi; case: (boolP (hcharge h i)) => ch; last by move=> -> ->.
  move=> c2 c1 ee; have pa : pr h h' i (d i) (f i (d i)) by rewrite /pr ch.
  have pb : pr h h' i (d' i) (f i (d' i)) by rewrite /pr ch.
  by have [e3 _ _] := pr_eq same pa pb; apply/eqP; rewrite -e3 ee.
have sub a b : (a < dim A)%N -> (b < dim A)%N -> ent A' (p a) (p b) = ent A a b.
  rewrite dT => /posn_surj [d [L <-]] /posn_surj [d' [L' <-]]; rewrite /p !place_posn //.
  by have [M S] := cov L; have [M' S'] := cov L'; apply: g.
have ge : (dim A <= dim A')%N.
  pose P (a : 'I_(dim A)) : 'I_(dim A') := Ordinal (lt a (ltn_ord a)).
  have injP : injective P by move=> a b /(congr1 (@nat_of_ord _)) /= e; apply: ord_inj; exact: inj.
  by have := leq_card P injP; rewrite !card_ord.
have hk' : (k < dim A')%N by apply: leq_trans ge.
split=> //; exact: (embed_le HE HE' lt inj sub).
Qed.
End Cover.

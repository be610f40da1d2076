(** LossPhotons.v -- transition amplitudes between product states. *)
From Coq Require Import Reals ZArith Lia Lra String.
From Verif.Model Require Import Base Units Edge Elements LCWB HamConst.
From Verif.Proofs Require Import HamConstProofs.
From mathcomp Require Import all_ssreflect all_algebra.
From mathcomp Require Import complex ring.
From Verif.Numerics Require Import RStruct Bridge.
From Verif.Model Require Import FluxDist Op Transform Ham Diag.
From Verif.Spec Require Import OpSpec TransSpec DecSpec LossSpec.
From Verif.Proofs Require Import OpProofs HamProofs HamProofs2 HamProofs5.

Set Implicit Arguments.
Unset Strict Implicit.
Unset Printing Implicit Defensive.
Import GRing.Theory.
Local Open Scope ring_scope.
Local Open Scope complex_scope.

(** ** Phases *)
Fact two_squares (F : comRingType) (a b a' b' : F) :
  (a * a' - b * b') ^+ 2 + (a * b' + b * a') ^+ 2 = (a ^+ 2 + b ^+ 2) * (a' ^+ 2 + b' ^+ 2).
Proof. ring. Qed.
Fact turned (F : comRingType) (a b c d c' d' : F) :
  (a * c - b * d) * (a * c' - b * d') + (a * d + b * c) * (a * d' + b * c') = (a ^+ 2 + b ^+ 2) * (c * c' + d * d').
Proof. ring. Qed.
Lemma mod_mul (p z : C) : modulus2 (p * z) = modulus2 p * modulus2 z.
Proof. by case: p z => [a b] [a' b']; exact: (two_squares a b a' b'). Qed.
Lemma mod_real (x : R) : modulus2 x%:C = x * x.
Proof. by rewrite /modulus2 /= RplusE expr0n addr0 expr2. Qed.
Lemma mod_conj (p : C) : modulus2 p^* = modulus2 p.
Proof. by case: p => a b; rewrite /modulus2 /= sqrrN. Qed.

Lemma phase_form n B p (y : nat -> C) : modulus2 p = 1 -> form n B (fun i => p * y i) = form n B y.
Proof.
move=> p1; rewrite /form; apply: eq_bigr => i _; apply: eq_bigr => j _; congr (_ * _).
transitivity (modulus2 p * (complex.Re (y i) * complex.Re (y j) + complex.Im (y i) * complex.Im (y j))); last by rewrite p1 mul1r.
by case: p {p1} => a b; case: (y i) => c d; case: (y j) => c' d'; exact: turned.
Qed.

Lemma braket_at N A a b (v w : cvec) : dim A = N -> (a < N)%N -> (b < N)%N -> only_at a N v -> only_at b N w ->
  braket v A w = (v a)^* * w b * ent A a b.
Proof.
move=> dA ha hb [_ va] [_ wb]; rewrite /braket dA (bigD1 (Ordinal ha)) //= (bigD1 (Ordinal hb)) //=.
rewrite [X in _ + X]big1 => [|i ne]; last by rewrite big1 // => j _; rewrite va // cj0 !mul0r.
rewrite [X in _ + X + _]big1 => [|j ne]; last by rewrite wb ?mulr0.
by rewrite !addr0 mulrAC.
Qed.

(** ** Entries of the mode operators *)
Section Modes.
Variables (h : hin) (ct : ctype).
Let n := hn h.
Let pos d := posn (hm h) d n.

Lemma mode_entry j d d' : (j < n)%N -> legal (hm h) d n -> legal (hm h) d' n ->
  ent (mode_op h ct j) (pos d) (pos d') =
  if [forall k : 'I_n, ((k : nat) == j) || (d k == d' k)] then ent (mode_iso h ct j) (d j) (d' j) else 0.
Proof.
move=> hj Ld Ld'; have [_ H] : acts_on (hn h) (hm h) j (ent (mode_iso h ct j)) (mode_op h ct j).
  by case: (ct); rewrite /= ?opQE ?opPhiE; apply: one_acts => // k; rewrite ?dimQ ?dimF.
exact: H.
Qed.

Definition zp (i : nat) : R := if ct is Capacitive then q_zp (himp h i) else f_zp (himp h i).

Lemma iso_one i k : ~~ hcharge h i -> (k.+1 < hm h i)%N ->
  modulus2 (ent (mode_iso h ct i) k k.+1) = zp i * zp i * INR k.+1.
Proof.
move=> hc hk; have ne1 : (hm h i == 1%N) = false by apply/negbTE; rewrite neq_ltn (leq_trans _ hk) // orbT.
have sq : sqrt (INR k.+1) * sqrt (INR k.+1) = INR k.+1 by apply: sqrt_sqrt; apply: pos_INR.
have nk : (k == k.+2) = false by apply/negbTE; rewrite neq_ltn ltnW.
rewrite /zp; case: (ct); rewrite /mode_iso /charge_op_isolated /flux_op_isolated (negbTE hc) ne1 /=; rewrite !eqxx nk.
  rewrite cj0 subr0 !mod_mul.
  have -> : modulus2 (- 'i : C) = 1 by rewrite /modulus2 /= RplusE oppr0 expr0n sqrrN expr1n add0r.
  by rewrite mul1r !mod_real sq.
by rewrite cj0 addr0 !mod_mul !mod_real sq.
Qed.

Lemma iso_zero i k l : k <> l -> (~~ hcharge h i -> k <> l.+1 /\ l <> k.+1) -> ent (mode_iso h ct i) k l = 0.
Proof.
move=> /eqP ne H; case: (ct); rewrite /mode_iso /charge_op_isolated /flux_op_isolated; case hc: hcharge H => H /=.
- by rewrite (negbTE ne) mulr0 subr0 mulr0.
- have [/eqP a /eqP b] := H isT; case: ifP => // _ /=; by rewrite (negbTE a) (negbTE b) cj0 subr0 mulr0.
- by rewrite (negbTE ne).
- have [/eqP a /eqP b] := H isT; case: ifP => // _ /=; by rewrite (negbTE a) (negbTE b) cj0 addr0 mulr0.
Qed.

Lemma iso_back i k : ~~ hcharge h i -> (k.+1 < hm h i)%N ->
  modulus2 (ent (mode_iso h ct i) k.+1 k) = zp i * zp i * INR k.+1.
Proof.
move=> hc hk; have ne1 : (hm h i == 1%N) = false by apply/negbTE; rewrite neq_ltn (leq_trans _ hk) // orbT.
have sq : sqrt (INR k.+1) * sqrt (INR k.+1) = INR k.+1 by apply: sqrt_sqrt; apply: pos_INR.
have nk : (k == k.+2) = false by apply/negbTE; rewrite neq_ltn ltnW.
rewrite /zp; case: (ct); rewrite /mode_iso /charge_op_isolated /flux_op_isolated (negbTE hc) ne1 /=; rewrite !eqxx nk.
  rewrite sub0r !mod_mul.
  have -> : modulus2 (- 'i : C) = 1 by rewrite /modulus2 /= RplusE oppr0 expr0n sqrrN expr1n add0r.
  by rewrite mul1r -mulN1r mod_mul mod_conj !mod_real sq /modulus2 /= ?RplusE oppr0 expr0n addr0 sqrrN expr1n mul1r.
by rewrite add0r !mod_mul mod_conj !mod_real sq.
Qed.

(** Two states that differ in mode [i] only: only this mode has an amplitude. *)
Lemma form_diff B x y i : (i < n)%N -> legal (hm h) x n -> legal (hm h) y n -> x i <> y i ->
  (forall k, (k < n)%N -> k != i -> x k = y k) ->
  form n B (fun j => ent (mode_op h ct j) (pos x) (pos y)) = B i i * modulus2 (ent (mode_iso h ct i) (x i) (y i)).
Proof.
move=> hi Lx Ly /eqP ne same; set z := ent (mode_iso h ct i) (x i) (y i).
have E j : (j < n)%N -> ent (mode_op h ct j) (pos x) (pos y) = if j == i then z else 0.
  move=> hj; rewrite mode_entry //; case: eqP => [->|/eqP ji].
    by case: forallP => // -[] k; case: eqP => // /eqP nk; rewrite /= same.
  by case: forallP => // /(_ (Ordinal hi)) /=; rewrite eq_sym (negbTE ji) (negbTE ne).
rewrite /form (bigD1 (Ordinal hi)) //= [X in _ + X]big1 ?addr0 => [|j ji]; last first.
  have ji' : ((j : nat) == i) = false := negbTE ji.
  by rewrite big1 // => k _; rewrite (E j) // ji' !mul0r addr0 mulr0.
rewrite (bigD1 (Ordinal hi)) //= [X in _ + X]big1 ?addr0 => [|j ji]; last first.
  have ji' : ((j : nat) == i) = false := negbTE ji.
  by rewrite (E j) // ji' !mulr0 addr0 mulr0.
by rewrite E // eqxx /modulus2 !expr2.
Qed.

Lemma form_one B x y i : (i < n)%N -> ~~ hcharge h i -> legal (hm h) x n -> legal (hm h) y n ->
  one_more n x y i \/ one_more n y x i ->
  form n B (fun j => ent (mode_op h ct j) (pos x) (pos y)) = B i i * (zp i * zp i) * INR (maxn (x i) (y i)).
Proof.
move=> hi hc Lx Ly [[yi same]|[xi same]].
  have ne : x i <> y i by rewrite yi => /eqP; rewrite -{1}[x i]addn0 -addn1 eqn_add2l.
  have lt : ((x i).+1 < hm h i)%N by rewrite -yi; exact: Ly.
  rewrite (form_diff B hi Lx Ly ne) => [|k hk ki]; last by rewrite same.
  by rewrite yi iso_one // (maxn_idPr (leqnSn _)) mulrA.
have ne : x i <> y i by rewrite xi => /eqP; rewrite -{2}[y i]addn0 -addn1 eqn_add2l.
have lt : ((y i).+1 < hm h i)%N by rewrite -xi; exact: Lx.
rewrite (form_diff B hi Lx Ly ne) //.
by rewrite xi iso_back // (maxn_idPl (leqnSn _)) mulrA.
Qed.

(** Neither state has one photon more than the other: no amplitude. *)
Lemma form_none B x y k : (k < n)%N -> x k <> y k -> legal (hm h) x n -> legal (hm h) y n ->
  (forall i, (i < n)%N -> ~~ hcharge h i -> ~ one_more n x y i /\ ~ one_more n y x i) ->
  form n B (fun j => ent (mode_op h ct j) (pos x) (pos y)) = 0.
Proof.
move=> hk ne Lx Ly no; suff E j : (j < n)%N -> ent (mode_op h ct j) (pos x) (pos y) = 0.
  by rewrite /form big1 // => i _; rewrite big1 // => j _; rewrite !E // !mulr0 addr0 mulr0.
move=> hj; rewrite mode_entry //; case: forallP => // H.
have kj : k = j by have := H (Ordinal hk) => /= /orP [/eqP //|/eqP e]; case: ne.
apply: iso_zero => [|hc]; first by rewrite -kj.
have [n1 n2] := no j hj hc; split=> e.
  apply: n2; split=> // l hl lj; by have := H (Ordinal hl); rewrite /= (negbTE lj) => /eqP ->.
apply: n1; split=> // l hl lj; by have := H (Ordinal hl); rewrite /= (negbTE lj) => /eqP ->.
Qed.
End Modes.

(** MatDeriv.v -- the derivative of the inverse of a matrix that depends on a
    parameter. *)
From Coq Require Import Reals Lra.
From Verif.Spec Require Import ThermalSpec.
From Verif.Proofs Require Import ThermalProofs.
Open Scope R_scope.

Lemma hd_nonzero f t d : has_derivative f t d -> f t <> 0 ->
  exists delta, 0 < delta /\ forall u, Rabs (u - t) < delta -> f u <> 0.
Proof.
  intros D N. set (e := Rabs (f t)). assert (He : 0 < e) by (apply Rabs_pos_lt; exact N).
  destruct (D 1 Rlt_0_1) as [dl [Hd P]].
  assert (Hk : 0 < Rabs d + 1) by (pose proof (Rabs_pos d); lra).
  exists (Rmin dl (e / (Rabs d + 1))). split.
  - apply Rmin_glb_lt; [exact Hd | apply Rdiv_lt_0_compat; assumption].
  - intros u Hu Z. destruct (Req_dec u t) as [->|Hn]; [contradiction|].
    pose proof (Rmin_l dl (e / (Rabs d + 1))) as M1. pose proof (Rmin_r dl (e / (Rabs d + 1))) as M2.
    assert (Hh : u - t <> 0) by lra. specialize (P (u - t) Hh ltac:(lra)).
    replace (t + (u - t)) with u in P by ring. rewrite Z in P.
    assert (A : Rabs ((0 - f t) / (u - t)) < Rabs d + 1).
    { replace ((0 - f t) / (u - t)) with (((0 - f t) / (u - t) - d) + d) by ring.
      eapply Rle_lt_trans; [apply Rabs_triang|]. lra. }
    unfold Rdiv in A. rewrite Rabs_mult, Rabs_inv in A.
    replace (0 - f t) with (- f t) in A by ring. rewrite Rabs_Ropp in A. fold e in A.
    assert (Hu0 : 0 < Rabs (u - t)) by (apply Rabs_pos_lt; exact Hh).
    apply (Rmult_lt_compat_r (Rabs (u - t))) in A; [|exact Hu0].
    rewrite Rmult_assoc, Rinv_l, Rmult_1_r in A by lra.
    assert (B : (Rabs d + 1) * Rabs (u - t) < e).
    { apply Rlt_le_trans with ((Rabs d + 1) * (e / (Rabs d + 1))).
      - apply Rmult_lt_compat_l; lra.
      - right. field. lra. }
    lra.
Qed.

From mathcomp Require Import all_ssreflect all_algebra.
From mathcomp Require Import perm.
From Verif.Numerics Require Import RStruct Bridge.
From Verif.Proofs Require Import CDeriv PerturbProofs.

Set Implicit Arguments.
Unset Strict Implicit.
Unset Printing Implicit Defensive.
Import GRing.Theory.
Local Open Scope ring_scope.

Definition smooth (f : R -> R) (t : R) : Prop := exists d, has_derivative f t d.

Lemma smooth_ext f g t : (forall u, f u = g u) -> smooth f t -> smooth g t.
Proof. by move=> E [d D]; exists d; apply: hd_ext D. Qed.
Lemma smooth_const c t : smooth (fun=> c) t.
Proof. by exists 0; apply: hd_const. Qed.
Lemma smooth_add f g t : smooth f t -> smooth g t -> smooth (fun u => f u + g u) t.
Proof. by move=> [a A] [b B]; exists (a + b); apply: hd_add. Qed.
Lemma smooth_mul f g t : smooth f t -> smooth g t -> smooth (fun u => f u * g u) t.
Proof. by move=> [a A] [b B]; exists (Rplus (Rmult a (g t)) (Rmult (f t) b)); apply: hd_mul. Qed.
Lemma smooth_sum (I : Type) (r : seq I) (P : pred I) (F : I -> R -> R) t : (forall i, smooth (F i) t) ->
  smooth (fun u => \sum_(i <- r | P i) F i u) t.
Proof.
move=> H; elim: r => [|i r IH].
  by apply: (@smooth_ext (fun=> 0)) => [u|]; [rewrite big_nil | apply: smooth_const].
case E: (P i).
  apply: (@smooth_ext (fun u => F i u + \sum_(i <- r | P i) F i u)) => [u|]; first by rewrite big_cons E.
  exact: smooth_add.
by apply: smooth_ext IH => u; rewrite big_cons E.
Qed.
Lemma smooth_prod (I : Type) (r : seq I) (P : pred I) (F : I -> R -> R) t : (forall i, smooth (F i) t) ->
  smooth (fun u => \prod_(i <- r | P i) F i u) t.
Proof.
move=> H; elim: r => [|i r IH].
  by apply: (@smooth_ext (fun=> 1)) => [u|]; [rewrite big_nil | apply: smooth_const].
case E: (P i).
  apply: (@smooth_ext (fun u => F i u * \prod_(i <- r | P i) F i u)) => [u|]; first by rewrite big_cons E.
  exact: smooth_mul.
by apply: smooth_ext IH => u; rewrite big_cons E.
Qed.
Lemma smooth_det n (A : R -> 'M[R]_n) t : (forall i j, smooth (fun u => A u i j) t) ->
  smooth (fun u => \det (A u)) t.
Proof.
move=> H; rewrite /determinant; apply: smooth_sum => s; apply: smooth_mul; first exact: smooth_const.
exact: smooth_prod.
Qed.

Lemma hd_sum (I : Type) (r : seq I) (F : I -> R -> R) (G : I -> R) t :
  (forall i, has_derivative (F i) t (G i)) -> has_derivative (fun u => \sum_(i <- r) F i u) t (\sum_(i <- r) G i).
Proof.
move=> H; elim: r => [|i r IH].
  by apply: (hd_ext (fun=> 0)) => [u|]; rewrite big_nil //; apply: hd_const.
by rewrite big_cons; apply: (hd_ext (fun u => F i u + \sum_(j <- r) F j u)) => [u|];
  [rewrite big_cons | apply: hd_add].
Qed.

Section Inverse.
Variables (n : nat) (A : R -> 'M[R]_n) (D : 'M[R]_n) (t : R).
Hypothesis HD : forall i j, has_derivative (fun u => A u i j) t (D i j).
Hypothesis uA : A t \in unitmx.

Lemma near_unit : exists delta, Rlt 0 delta /\ forall u, Rlt (Rabs (Rminus u t)) delta -> A u \in unitmx.
Proof.
have [|d Hd] := @smooth_det n A t; first by move=> i j; exists (D i j).
have [|delta [d0 H]] := hd_nonzero _ _ _ Hd.
  by apply/eqP; move: uA; rewrite unitmxE unitfE.
by exists delta; split=> // u /H N; rewrite unitmxE unitfE; apply/eqP.
Qed.

Lemma inv_smooth i j : smooth (fun u => invmx (A u) i j) t.
Proof.
have [delta [d0 H]] := near_unit.
have Hs k l : smooth (fun u => A u k l) t by exists (D k l).
have [d Hd] := smooth_det Hs.
have nz : \det (A t) <> 0 by apply/eqP; move: uA; rewrite unitmxE unitfE.
have [|c Hc] := @smooth_det n.-1 (fun u => row' j (col' i (A u))) t.
  by move=> k l; apply: (smooth_ext _ (Hs (lift j k) (lift i l))) => u; rewrite !mxE.
have [e He] : smooth (fun u => (\det (A u))^-1 * cofactor (A u) j i) t.
  apply: smooth_mul.
    exists (Rdiv (Ropp d) (Rmult (\det (A t)) (\det (A t)))).
    by apply: (hd_near (fun u => Rinv (\det (A u))) _ _ _ _ d0 _ (hd_inv _ _ _ Hd nz)) => u /H uu; rewrite RinvE.
  by apply: smooth_mul; [apply: smooth_const | exists c].
exists e; apply: (hd_near _ _ _ _ _ d0 _ He) => u /H uu.
by rewrite /invmx uu !mxE.
Qed.

Lemma inv_derivative i j :
  has_derivative (fun u => invmx (A u) i j) t ((- (invmx (A t) *m D *m invmx (A t)) : 'M[R]_n) i j).
Proof.
have [X HX] : exists X : 'M[R]_n, forall i j, has_derivative (fun u => invmx (A u) i j) t (X i j).
  have [f Hf] := fin_all_exists (fun ij : 'I_n * 'I_n => inv_smooth ij.1 ij.2).
  by exists (\matrix_(i, j) f (i, j)) => k l; rewrite mxE; apply: (Hf (k, l)).
have [delta [d0 H]] := near_unit.
suff E : X = - (invmx (A t) *m D *m invmx (A t)) by rewrite -E.
have Z : D *m invmx (A t) + A t *m X = 0.
  apply/matrixP => k l; rewrite !mxE -big_split /=.
  have P : has_derivative (fun u => (A u *m invmx (A u)) k l) t
     (\sum_(q < n) (D k q * invmx (A t) q l + A t k q * X q l)).
    apply: (hd_ext (fun u => \sum_(q < n) A u k q * invmx (A u) q l)) => [u|]; first by rewrite mxE.
    by apply: hd_sum => q; apply: hd_mul.
  have Q : has_derivative (fun u => (A u *m invmx (A u)) k l) t 0.
    by apply: (hd_near (fun=> (1%:M : 'M[R]_n) k l) _ _ _ _ d0 _ (hd_const _ _)) => u /H uu; rewrite mulmxV.
  exact: has_derivative_unique P Q.
have : invmx (A t) *m (D *m invmx (A t) + A t *m X) = 0 by rewrite Z mulmx0.
rewrite mulmxDr mulmxA mulKmx // => /eqP; rewrite addrC addr_eq0 => /eqP -> //.
Qed.
End Inverse.

(** ListingProofs.v -- lemmas for the listing below the printed Hamiltonian. *)
From Coq Require Import Reals ZArith String Lra Lia.
From Verif.Model Require Import Base Units Rounding HamConst Symbolic.
From Verif.Proofs Require Import RoundProofs.
From mathcomp Require Import ssreflect ssrbool eqtype.
From Verif.Numerics Require Import RStruct Bridge.
From Verif.Model Require Import Listing.
Local Open Scope R_scope.

Lemma np_round_near d x : Rabs (np_round d x - x) <= / 2 / 10 ^ d.
Proof.
rewrite /np_round; have p : 0 < 10 ^ d by apply: pow_lt; lra.
have -> : IZR (round_even (x * 10 ^ d)) / 10 ^ d - x = - ((x * 10 ^ d - IZR (round_even (x * 10 ^ d))) / 10 ^ d).
  by field; lra.
rewrite Rabs_Ropp /Rdiv Rabs_mult [Rabs (/ _)]Rabs_right; last by apply/Rle_ge/Rlt_le/Rinv_0_lt_compat.
apply: Rmult_le_compat_r; first by apply/Rlt_le/Rinv_0_lt_compat.
by have := round_even_half (x * 10 ^ d); lra.
Qed.

Lemma sci_near d x : Rabs (sci d x - x) <= Rabs x / 2 / 10 ^ d.
Proof.
rewrite /sci; case: eqP => [->|nz].
  by rewrite Rminus_0_r Rabs_R0 /Rdiv !Rmult_0_l; apply: Rle_refl.
set L := ln (Rabs x) / ln 10; set s := powerRZ 10 _.
have ax : 0 < Rabs x by apply: Rabs_pos_lt.
have l10 : 0 < ln 10 by rewrite -ln_1; apply: ln_increasing; lra.
have Es : s = Rpower 10 (INR d - IZR (Int_part L)).
  by rewrite /s powerRZ_Rpower; [rewrite minus_IZR -INR_IZR_INZ|lra].
have sp : 0 < s by rewrite Es; apply: exp_pos.
have Hx : 10 ^ d <= Rabs x * s.
  have EL : Rabs x = Rpower 10 L.
    have E : L * ln 10 = ln (Rabs x) by rewrite /L; field; apply: Rgt_not_eq.
    by rewrite /Rpower E exp_ln.
  have Ed : 10 ^ d = Rpower 10 (INR d) by rewrite Rpower_pow //; lra.
  rewrite Es EL Ed -Rpower_plus; apply: Rle_Rpower; first lra.
  by have [E ?] := int_frac L; lra.
have -> : IZR (round_even (x * s)) / s - x = - ((x * s - IZR (round_even (x * s))) / s) by field; lra.
rewrite Rabs_Ropp /Rdiv Rabs_mult [Rabs (/ _)]Rabs_right; last by apply/Rle_ge/Rlt_le/Rinv_0_lt_compat.
apply: (Rle_trans _ (1 / 2 * / s)).
  by apply: Rmult_le_compat_r; [apply/Rlt_le/Rinv_0_lt_compat|exact: round_even_half].
have p : 0 < 10 ^ d by apply: pow_lt; lra.
apply: (Rmult_le_reg_r (2 * s * 10 ^ d)); first by apply: Rmult_lt_0_compat => //; lra.
have -> : 1 / 2 * / s * (2 * s * 10 ^ d) = 10 ^ d by field; lra.
by have -> : Rabs x * / 2 * / 10 ^ d * (2 * s * 10 ^ d) = Rabs x * s by field; lra.
Qed.

Lemma omega_near v : Rabs (sci 5 (np_round 5 v) - v) <= 1 / 100000 * (1 + Rabs v).
Proof.
have h := np_round_near 5 v; have g := sci_near 5 (np_round 5 v).
have E : 10 ^ 5 = 100000 by ring.
rewrite E in h g; set y := np_round 5 v in h g *.
have t1 : Rabs (sci 5 y - v) <= Rabs (sci 5 y - y) + Rabs (y - v).
  have -> : sci 5 y - v = (sci 5 y - y) + (y - v) by ring.
  exact: Rabs_triang.
have t2 : Rabs y <= Rabs v + Rabs (y - v).
  have {1}-> : y = v + (y - v) by ring.
  exact: Rabs_triang.
have := Rabs_pos v; lra.
Qed.
Lemma three_near v : Rabs (np_round 3 v - v) <= 1 / 2000.
Proof. have := np_round_near 3 v; (have -> : 10 ^ 3 = 1000 by ring); lra. Qed.
Lemma two_near v : Rabs (np_round 2 v - v) <= 1 / 200.
Proof. have := np_round_near 2 v; (have -> : 10 ^ 2 = 100 by ring); lra. Qed.
Lemma zp_near v : Rabs (sci 2 v - v) <= Rabs v / 200.
Proof. have := sci_near 2 v; (have -> : 10 ^ 2 = 100 by ring); lra. Qed.

Lemma np_round_small d x : Rabs (x * 10 ^ d) < 1 / 2 -> np_round d x = 0.
Proof.
move=> h; rewrite /np_round (_ : round_even _ = 0%Z); first by rewrite /Rdiv Rmult_0_l.
set y := x * 10 ^ d in h *; have a := round_even_half y.
have : Rabs (IZR (round_even y)) < 1.
  have t := Rabs_triang y (- (y - IZR (round_even y))); rewrite Rabs_Ropp in t.
  have E : y + - (y - IZR (round_even y)) = IZR (round_even y) by ring.
  by rewrite E in t; lra.
move=> k; have [k1 k2] : -1 < IZR (round_even y) < 1 by split; [have := Rle_abs (- IZR (round_even y)); rewrite Rabs_Ropp|have := Rle_abs (IZR (round_even y))]; lra.
apply lt_IZR in k1; apply lt_IZR in k2; lia.
Qed.
Lemma tiny : np_round 3 0 = np_round 3 (1 / 4000).
Proof.
rewrite !np_round_small //; [|rewrite Rmult_0_l Rabs_R0; lra].
rewrite Rabs_right; simpl; lra.
Qed.

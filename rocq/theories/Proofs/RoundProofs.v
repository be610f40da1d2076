(** RoundProofs.v -- rounding to five decimals. *)
From Coq Require Import Reals ZArith Lra Lia.
From Verif.Spec Require Import GraphSpec.
From mathcomp Require Import ssreflect ssrbool.
From Verif.Model Require Import Rounding.
From Verif.Proofs Require Import EdgeProofs.
Open Scope R_scope.

Lemma int_frac y : y = IZR (Int_part y) + frac_part y /\ 0 <= frac_part y < 1.
Proof. rewrite /frac_part; case: (base_Int_part y) => A B; lra. Qed.

(** Nearest integer; a tie goes to the even one. *)
Lemma round_even_near y m : Rabs (y - IZR (round_even y)) <= Rabs (y - IZR m).
Proof.
case: (int_frac y) => E F.
have Hm : (m <= Int_part y)%Z \/ (Int_part y + 1 <= m)%Z by lia.
have Hm' : IZR m <= IZR (Int_part y) \/ IZR (Int_part y) + 1 <= IZR m.
  by case: Hm => /IZR_le; rewrite ?plus_IZR => ?; [left|right].
rewrite /round_even; case: Rlt_dec => E1; [|case: Rlt_dec => E2; [|case: ifP => _]].
- rewrite /Rabs; case: Rcase_abs => ?; case: Rcase_abs => ?; case: Hm' => ?; lra.
- rewrite succ_IZR /Rabs; case: Rcase_abs => ?; case: Rcase_abs => ?; case: Hm' => ?; lra.
- rewrite /Rabs; case: Rcase_abs => ?; case: Rcase_abs => ?; case: Hm' => ?; lra.
- rewrite succ_IZR /Rabs; case: Rcase_abs => ?; case: Rcase_abs => ?; case: Hm' => ?; lra.
Qed.

Lemma round_even_half y : Rabs (y - IZR (round_even y)) <= 1 / 2.
Proof.
case: (int_frac y) => E F; case: (Rlt_le_dec (frac_part y) (1/2)) => H.
  apply: (Rle_trans _ _ _ (round_even_near y (Int_part y))); rewrite /Rabs; case: Rcase_abs; lra.
apply: (Rle_trans _ _ _ (round_even_near y (Z.succ (Int_part y)))).
rewrite succ_IZR /Rabs; case: Rcase_abs; lra.
Qed.

Lemma round_even_tie k : Z.Even (round_even (IZR k + 1 / 2)).
Proof.
have Ek : Int_part (IZR k + 1 / 2) = k.
  case: (base_Int_part (IZR k + 1 / 2)); move: (Int_part _) => z A B.
  have H1 : (z < k + 1)%Z by apply: lt_IZR; rewrite plus_IZR; lra.
  have H2 : (k < z + 1)%Z by apply: lt_IZR; rewrite plus_IZR; lra.
  lia.
have Fk : frac_part (IZR k + 1 / 2) = 1 / 2 by rewrite /frac_part Ek; lra.
rewrite /round_even Fk Ek; case: Rlt_dec => E; first by lra.
case E2: (Z.even k); first exact: (proj1 (Z.even_spec k) E2).
by apply (proj1 (Z.even_spec _)); rewrite Z.even_succ -Z.negb_even E2.
Qed.

Lemma around5_near x : Rabs (around5 x - x) <= 5 / 10 ^ 6.
Proof.
rewrite /around5; have := round_even_half (x * 10 ^ 5).
move: (round_even _) => z H.
have -> : IZR z / 10 ^ 5 - x = - ((x * 10 ^ 5 - IZR z) / 10 ^ 5) by field.
rewrite Rabs_Ropp Rabs_mult (Rabs_pos_eq (/ 10 ^ 5)); last by apply: Rlt_le; apply: Rinv_0_lt_compat; lra.
move: H; set t := Rabs _ => H; have : t * / 10 ^ 5 <= 1 / 2 * / 10 ^ 5.
  by apply: Rmult_le_compat_r => //; apply: Rlt_le; apply: Rinv_0_lt_compat; lra.
lra.
Qed.

Lemma sumn_abs_le n f g : (forall i, (i < n)%nat -> Rabs (f i) <= g i) -> Rabs (sumn n f) <= sumn n g.
Proof.
elim: n => [|n IH] H /=; first by rewrite Rabs_R0; lra.
apply: (Rle_trans _ _ _ (Rabs_triang _ _)).
have := H n ltac:(lia); have := IH (fun i Hi => H i ltac:(lia)); lra.
Qed.
Lemma sumn_minus n f g : sumn n f - sumn n g = sumn n (fun i => f i - g i).
Proof. elim: n => [|n IH] /=; lra. Qed.
Lemma sumn_scal n k f : sumn n (fun i => k * f i) = k * sumn n f.
Proof. elim: n => [|n IH] /=; lra. Qed.

(** Weighted sums of rounded numbers. *)
Lemma around5_sum n (a b : nat -> R) :
  Rabs (sumn n (fun i => a i * around5 (b i)) - sumn n (fun i => a i * b i))
    <= 5 / 10 ^ 6 * sumn n (fun i => Rabs (a i)).
Proof.
rewrite sumn_minus -sumn_scal; apply: sumn_abs_le => i _.
have -> : a i * around5 (b i) - a i * b i = a i * (around5 (b i) - b i) by ring.
rewrite Rabs_mult Rmult_comm; apply: Rmult_le_compat_r; first exact: Rabs_pos.
exact: around5_near.
Qed.

(** P_Rounding.v -- C23: effect of rounding the flux distribution. *)
From Coq Require Import Reals ZArith Lra Lia.
From Verif.Model Require Import Base Elements Edge LCWB Rounding.
From Verif.Spec Require Import GraphSpec CircuitSpec FluxSpec.
From Verif.Proofs Require Import RoundProofs.
Open Scope R_scope.
Open Scope list_scope.

(** ** C23 *)
(** Rounding goes to a nearest multiple of 1e-5; a tie goes to the even one. *)
Theorem C23_rounding_nearest (x : R) :
  (exists m, around5 x = IZR m / 10 ^ 5) /\
  (forall m, Rabs (x - around5 x) <= Rabs (x - IZR m / 10 ^ 5)) /\
  (forall k, x = (IZR k + 1 / 2) / 10 ^ 5 -> exists m, around5 x = IZR (2 * m) / 10 ^ 5) /\
  Rabs (around5 x - x) <= 5 / 10 ^ 6.
Proof.
  split; [eexists; reflexivity|]. split; [|split; [|apply around5_near]].
  - intros m. pose proof (round_even_near (x * 10 ^ 5) m) as H. unfold around5.
    replace (x - IZR (round_even (x * 10 ^ 5)) / 10 ^ 5)
      with ((x * 10 ^ 5 - IZR (round_even (x * 10 ^ 5))) * / 10 ^ 5) by field.
    replace (x - IZR m / 10 ^ 5) with ((x * 10 ^ 5 - IZR m) * / 10 ^ 5) by field.
    rewrite !Rabs_mult. apply Rmult_le_compat_r; [apply Rabs_pos|exact H].
  - intros k ->. unfold around5. replace ((IZR k + 1 / 2) / 10 ^ 5 * 10 ^ 5) with (IZR k + 1 / 2) by field.
    destruct (round_even_tie k) as [m ->]. exists m; auto.
Qed.
Print Assumptions C23_rounding_nearest.

(** The external phase of branch b is the sum over the loops of phase times
    share; rounding the shares moves it by at most 5e-6 times the sum of the
    absolute loop phases. *)
Theorem C23_external_phase nl (phi : nat -> R) (B : nat -> nat -> R) b :
  Rabs (sumn nl (fun k => phi k * around5 (B b k)) - sumn nl (fun k => phi k * B b k))
    <= 5 / 10 ^ 6 * sumn nl (fun k => Rabs (phi k)).
Proof. apply around5_sum. Qed.
Print Assumptions C23_external_phase.

(** Around a loop the flux is off by at most 5e-6 per element (per unit of walk
    weight; the weights of a simple loop are +-1). *)
Theorem C23_loop_sums s d loops B : loop_sums s d loops B ->
  forall k k' G, (k < length loops)%nat -> (k' < length loops)%nat ->
    closed_walk s d (nth k loops 0%nat) G ->
    Rabs (sumn (nbranch s d) (fun b => G b * around5 (B b k')) - (if Nat.eqb k k' then 1 else 0))
      <= 5 / 10 ^ 6 * sumn (nbranch s d) (fun b => Rabs (G b)).
Proof.
  intros H k k' G Hk Hk' HG. rewrite <- (H k k' G Hk Hk' HG).
  apply (around5_sum (nbranch s d) G (fun b => B b k')).
Qed.
Print Assumptions C23_loop_sums.

(** The induced charge: at most 5e-6 times the weighted branch variables. *)
Theorem C23_induced_charge s fd d nl B : no_induced_charge s fd d nl B ->
  forall k x, (k < nl)%nat ->
    Rabs (sumn (nbranch s d) (fun b => dist_weight s fd (occ_el (branch s d b)) * bdrop s d b x * around5 (B b k)))
      <= 5 / 10 ^ 6 * sumn (nbranch s d) (fun b => Rabs (dist_weight s fd (occ_el (branch s d b)) * bdrop s d b x)).
Proof.
  intros H k x Hk.
  pose proof (around5_sum (nbranch s d) (fun b => dist_weight s fd (occ_el (branch s d b)) * bdrop s d b x)
                (fun b => B b k)) as A.
  cbv beta in A. rewrite (H k x Hk), Rminus_0_r in A. exact A.
Qed.
Print Assumptions C23_induced_charge.

(** 1/3 is rounded to 0.33333, and the halfway case 2.5e-5 to 2e-5. *)
Example C23_case : around5 (1 / 3) = 33333 / 10 ^ 5 /\ around5 (25 / 10 ^ 6) = 2 / 10 ^ 5.
Proof.
  unfold around5, round_even.
  assert (I1 : Int_part (1 / 3 * 10 ^ 5) = 33333%Z).
  { destruct (base_Int_part (1 / 3 * 10 ^ 5)) as [A B]. revert A B. generalize (Int_part (1 / 3 * 10 ^ 5)).
    intros z A B. assert (z < 33334)%Z by (apply lt_IZR; lra).
    assert (33332 < z)%Z by (apply lt_IZR; lra). lia. }
  assert (I2 : Int_part (25 / 10 ^ 6 * 10 ^ 5) = 2%Z).
  { destruct (base_Int_part (25 / 10 ^ 6 * 10 ^ 5)) as [A B]. revert A B. generalize (Int_part (25 / 10 ^ 6 * 10 ^ 5)).
    intros z A B. assert (z < 3)%Z by (apply lt_IZR; lra).
    assert (1 < z)%Z by (apply lt_IZR; lra). lia. }
  unfold frac_part. rewrite I1, I2. simpl Z.even. cbv iota.
  destruct (Rlt_dec (1 / 3 * 10 ^ 5 - 33333) (1 / 2)); [|lra].
  destruct (Rlt_dec (25 / 10 ^ 6 * 10 ^ 5 - 2) (1 / 2)); [lra|].
  destruct (Rlt_dec (1 / 2) (25 / 10 ^ 6 * 10 ^ 5 - 2)); [lra|].
  split; lra.
Qed.

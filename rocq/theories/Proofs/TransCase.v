(** TransCase.v -- two modes, one of them a charge mode, and one junction. *)
From Coq Require Import Reals ZArith Lra.
From Verif.Model Require Import Base Units Elements Edge LCWB Rounding Accuracy.
From Verif.Spec Require Import GraphSpec CircuitSpec NetSpec.
From Verif.Proofs Require Import NetProofs.
From mathcomp Require Import all_ssreflect all_algebra.
From Verif.Numerics Require Import RStruct Bridge.
From Verif.Model Require Import FluxDist Transform.
From Verif.Spec Require Import TransSpec.
From Verif.Proofs Require Import AccProofs TransProofs TransProofs1 TransProofs2 TransProofs3.
From Verif.Proofs Require Import TransProofs4 GramProofs TransProofs5 TransProofs6.

Set Implicit Arguments.
Unset Strict Implicit.
Unset Printing Implicit Defensive.
Import GRing.Theory.
Local Open Scope ring_scope.

Definition caseD : vec := fun i => if i == 0%N then R1 else R0.
(** the junction between the two nodes, and one across the inductor *)
Definition caseW : arr := fun _ j => if j == 0%N then R1 else if j == 1%N then Ropp R1 else R0.
Definition hangW : arr := fun _ j => if j == 0%N then R1 else R0.
Definition st_of (W : arr) : tst :=
  mkT 2 2 1 1 W eye eye (ofM (invmx (toM 2 2 eye))) (dg caseD) W (fun=> 0).
Definition case_st := st_of caseW.
Definition hang_st := st_of hangW.

Lemma st_init W : t_init 2 1 1 eye (dg caseD) W = Ok (st_of W).
Proof. by rewrite /t_init /inv toM_eye unitmx1 /st_of toM_eye. Qed.
Lemma case_init : t_init 2 1 1 eye (dg caseD) caseW = Ok case_st. Proof. exact: st_init. Qed.

Lemma case_root : root_of (toM 2 2 eye) (toM 2 2 eye).
Proof. by rewrite toM_eye; split; rewrite ?trmx1 ?mulmx1. Qed.
Lemma case_lroot : root_of (toM 2 2 (dg caseD)) (toM 2 2 (dg caseD)).
Proof.
rewrite toM_dg; split; first exact: tr_diag_mx.
rewrite mulmx_diag; congr diag_mx; apply/rowP => i; rewrite !mxE /caseD.
by case: eqP; rewrite ?mulr1 ?mulr0.
Qed.
Lemma case_svd : svd_of (toM 2 2 (dg caseD) *m invmx (toM 2 2 eye)) (toM 2 2 eye) (toM 2 2 eye) (toV 2 caseD).
Proof.
rewrite toM_eye toM_dg; split; rewrite ?trmx1 ?invmx1 ?mulmx1 ?mul1mx //.
by move=> i; rewrite mxE /caseD; case: eqP => _; [apply: Rle_0_1 | apply: Rle_refl].
Qed.
Lemma case_rmax : rmax 2 caseD = R1.
Proof. by rewrite /= Rmax_left //; apply: Rle_0_1. Qed.
Lemma case_sing : sing_locs 2 caseD caseD = iota (2 - 1) 1.
Proof.
have r10 : (R1 == 0 :> R) = false by apply/negbTE/eqP; apply: R1_neq_R0.
rewrite /sing_locs case_rmax r10 /=.
have -> : Rltb (caseD 0%N / R1) acc_sing = false.
  by apply/RltbP; rewrite /caseD /=; apply: Rle_not_lt; rewrite /acc_sing; lra.
have -> // : Rltb (caseD 1%N / R1) acc_sing.
by apply/RltbP; rewrite /caseD /= /acc_sing; lra.
Qed.
Lemma case_zero i : i \in sing_locs 2 caseD caseD -> caseD i = 0.
Proof. by rewrite case_sing inE => /eqP ->. Qed.
Lemma case_nonzero i : (i < 2)%N -> i \notin sing_locs 2 caseD caseD -> caseD i <> 0.
Proof. by rewrite case_sing inE; case: i => [_ _|[|//] //]; apply: R1_neq_R0. Qed.

Lemma case_net : network 2 1 [:: (Z0, Zpos xH)] [:: (Zpos xH, Zpos (xO xH))] (dg caseD) caseW.
Proof. exact: (network_two (dg caseD) caseW true). Qed.
Lemma hang_net : network 2 1 [:: (Z0, Zpos xH)] [:: (Zpos xH, Z0)] (dg caseD) hangW.
Proof. exact: (network_two (dg caseD) hangW false). Qed.

Lemma hang_none sv order tries fuel draw :
  transform_hamil eye caseD eye caseD tries.+1 fuel sv order draw hang_st = None.
Proof.
have [st1 [s1 [r1 E1]]] := trans1_total (st_init hangW) isT case_root case_svd case_nonzero.
apply: (@circuit_hangs 2 1 1 eye (dg caseD) hangW hang_st eye (dg caseD) eye eye caseD caseD
  [:: (Z0, Zpos xH)] [:: (Zpos xH, Z0)] hang_net isT (st_init hangW) case_root case_lroot case_svd case_zero _ _ _ E1
  sv order tries fuel draw 1 case_sing) => //.
move=> [|//] x _ /= H; have := H _ (or_introl erefl); rewrite /GraphSpec.drop /GraphSpec.pot /=.
by move=> E; have {}E : Rminus R0 (x 0%N) = R0 := E; change (Rminus (x 0%N) R0 = R0); lra.
Qed.

(** In the other case the junction is selected. *)
Lemma case_total (sv : svd_fun) (order : seq R -> seq nat) tries fuel draw :
  (forall A, sv 2%N 1%N A = [:: R1]) -> (forall x, order [:: x] = [:: 0%N]) ->
  exists st, transform_hamil eye caseD eye caseD tries.+1 fuel.+1 sv order draw case_st = Some (Ok st).
Proof.
move=> Hsv Ho.
have [st1 [s1 [r1 E1]]] := trans1_total case_init isT case_root case_svd case_nonzero.
have sel : size (independent_rows order 1 (w_charge sv s1 (set_omega st1))).1 = 1%N.
  have [k [Ek Hn Hf uC [[Em [Ekj EW]] [Ew HlT]]]] := trans1_all case_init case_root case_lroot case_svd E1.
  have Ek1 : k = 1%N by have := congr1 size Ek; rewrite case_sing !size_iota => <-.
  rewrite Ek1 in Hn.
  have Es1 : s1 0%N 1%N = 0 /\ s1 1%N 1%N = 1.
    move: E1; rewrite /trans1 /=; case Ei: inv => [cri|//]; case: inv => [si|//] [_ <- _].
    have [_ Ec] := invP Ei; rewrite toM_eye invmx1 in Ec.
    have E i j : (i < 2)%N -> (j < 2)%N -> cri i j = eye i j.
      by move=> Hi Hj; have := congr1 (fun M : 'M_2 => M (Ordinal Hi) (Ordinal Hj)) Ec; rewrite -toM_eye !mxE.
    have r10 : (R1 == 0 :> R) = false by apply/negbTE/eqP; apply: R1_neq_R0.
    have sc : scale_of 2 caseD caseD 1%N = R1.
      by rewrite /scale_of case_rmax r10 case_sing inE.
    rewrite /mmul !big_ord_recr !big_ord0 /= /dg /= sc sqrt_1 !E // /tr /eye /=.
    by rewrite !mulr0 !mul0r !add0r !mulr1.
  rewrite /independent_rows.
  have Ew1 : exists f, w_charge sv s1 (set_omega st1) = [:: f] /\ f 0%N = (-1)%R.
    rewrite /w_charge (nf1_charge_modes Hn) /= Em.
    have [_ [_ En0] _ _ _] := Hn; rewrite /= in En0; rewrite En0 EW.
    have nz : nzcols 2 1 (tr caseW) = [:: 0%N].
      rewrite /nzcols /=; case: ifP => // /negbFE /forallP /(_ ord0) /eqP.
      by rewrite /tr /caseW /= => E; case: R1_neq_R0.
    rewrite /kept_columns nz /= Hsv /where_big /= .
    have -> : Rltb tol (Rabs R1) = true.
      by apply/RltbP; rewrite Rabs_R1 /tol; lra.
    rewrite /=; eexists; split; first by [].
    rewrite /= /mmul !big_ord_recr big_ord0 /= /caseW /=; have [-> ->] := Es1.
    by rewrite mulr0 !add0r mulr1.
  have [f [-> Ef]] := Ew1.
  have B : any_big 1 (gs_resid 1 (fun k => f k / (vnorm 1 f + gs_reg)%R) [::]) = true.
    by apply: (@big_minus_one f) => //; rewrite /gs_resid big_nil subr0 /Rdiv RinvE.
  cbn [map]; rewrite Ho; cbn [foldl]; rewrite /gs_step; cbn [fst snd nth].
  by case: ifP => //; rewrite B.
have := @circuit_first_attempt 2 1 1 eye (dg caseD) caseW case_st eye (dg caseD) eye eye caseD caseD
  [:: (Z0, Zpos xH)] [:: (Zpos xH, Zpos (xO xH))] case_net isT case_init case_root case_lroot case_svd
  case_zero _ _ _ E1 sv order tries fuel draw 1 case_sing isT sel.
move=> [st2 [s2 [r2 E2]]].
have [k' [Ek' Hn Hf uC [[Em [Ekj EW]] [Ew HlT]]]] := trans1_all case_init case_root case_lroot case_svd E1.
have [Hn3 Hf3 _ _ _] := trans2_all (dg caseD) case_root (isT : 1%N != 0%N) Hn Hf uC Em Ekj EW (Ew isT) E2.
have [st3 [s3 [r3 E3]]] := trans3_total Hn3 Hf3.
exists st3; rewrite /transform_hamil E1 [t_m _]/= Em.
have -> : (1 == 0)%N = false by [].
by rewrite E2 E3.
Qed.

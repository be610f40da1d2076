(** P_Bias.v -- C104: the ground energy against external flux that falls on the inductors. *)
From Coq Require Import Reals ZArith Lia Lra String List.
From Verif.Model Require Import Base Units Settings Edge Elements LCWB Accuracy HamConst.
From Verif.Spec Require Import GraphSpec ThermalSpec.
From Verif.Proofs Require Import HamConstProofs ThermalProofs.
Lemma above a0 a1 e0 e1 t : (0 <= t -> t <= 1 -> e0 <= a0 -> e1 <= a1 -> (1 - t) * e0 + t * e1 <= (1 - t) * a0 + t * a1)%R.
Proof. intros. apply Rplus_le_compat; apply Rmult_le_compat_l; lra. Qed.
Lemma coef_mean L a b t : (ind_coef L ((1 - t) * a + t * b) = (1 - t) * ind_coef L a + t * ind_coef L b)%R.
Proof. unfold ind_coef, Rdiv. ring. Qed.
Lemma loop_mean a b t c : (((1 - t) * a + t * b) * c = (1 - t) * (a * c) + t * (b * c))%R.
Proof. ring. Qed.
Lemma half_in2 : (0 <= / 2)%R /\ (/ 2 <= 1)%R. Proof. lra. Qed.
Lemma equal_mean e f : ((1 - / 2) * e + / 2 * e <= f -> e <= f)%R. Proof. lra. Qed.
Lemma equal_sum e f : (f = (1 - / 2) * e + / 2 * e -> e = f)%R. Proof. lra. Qed.
Lemma to_zero a : (0 = (1 - / 2) * a + / 2 * - a)%R. Proof. lra. Qed.

From mathcomp Require Import all_ssreflect all_algebra.
From mathcomp Require Import complex ring.
From Verif.Numerics Require Import RStruct Bridge.
From Verif.Model Require Import Op Transform Ham Diag CircuitSM.
From Verif.Spec Require Import OpSpec EigSpec SymmetrySpec SessionSpec GradSpec PerturbSpec LevelsSpec LowestSpec OrderSpec.
From Verif.Proofs Require Import OpProofs HamProofs HamProofs2 HamProofs5 HamProofs6 MinMaxProofs OrderProofs SumProofs SymmetryProofs SymmetryProofs2.
From Verif.Proofs Require Import SMProofs SMProofs2 SMProofs3.
From Verif.Properties Require Import P_Ops P_Symmetry P_Order P_Strong.

Set Implicit Arguments.
Unset Strict Implicit.
Unset Printing Implicit Defensive.
Import GRing.Theory.
Local Open Scope ring_scope.
Local Open Scope complex_scope.

Definition mix (t a b : R) : R := Rplus (Rmult (Rminus 1 t) a) (Rmult t b).

(** An operator between two others. *)
Section Between.
Variables (A0 A1 A : op) (N : nat) (t : R).
Hypothesis d0 : dim A0 = N.
Hypothesis d1 : dim A1 = N.
Hypothesis dA : dim A = N.
Hypothesis between : forall a b, (a < N)%N -> (b < N)%N -> ent A a b = (Rminus 1 t)%:C * ent A0 a b + t%:C * ent A1 a b.

Lemma expect_mix v : expect A v = mix t (expect A0 v) (expect A1 v).
Proof.
rewrite /expect /mix RplusE !RmultE d0 d1 dA -!Re_scale -[RHS]Re_add; congr complex.Re.
rewrite !mulr_sumr -big_split /=; apply: eq_bigr => i _.
rewrite ![_%:C * ((v i)^* * _)]mulrCA -mulrDr; congr (_ * _); rewrite !mulr_sumr -big_split /=.
by apply: eq_bigr => j _; rewrite between // mulrDl !mulrA.
Qed.
Lemma ground_mix F0 F1 F : (0 < N)%N -> Rle 0 t -> Rle t 1 -> energies A0 F0 -> energies A1 F1 -> energies A F ->
  Rle (mix t (F0 0%N) (F1 0%N)) (F 0%N).
Proof.
move=> n0 t0 t1 H0 H1 [v L]; have nM : (0 < dim A)%N by rewrite dA.
have [e w] := ground_expect L nM; rewrite dA in w; rewrite -e expect_mix.
have := ground_below (v 0%N) (ltac:(by rewrite d0) : (0 < dim A0)%N) H0; rewrite d0 w Rmult_1_r => l0.
have := ground_below (v 0%N) (ltac:(by rewrite d1) : (0 < dim A1)%N) H1; rewrite d1 w Rmult_1_r => l1.
have := @above (expect A0 (v 0%N)) (expect A1 (v 0%N)) (F0 0%N) (F1 0%N) t t0 t1 l0 l1; exact.
Qed.
Lemma sum_mix F0 F1 F : energies A0 F0 -> energies A1 F1 -> energies A F ->
  \sum_(k < N) F k = mix t (\sum_(k < N) F0 k) (\sum_(k < N) F1 k).
Proof.
move=> H0 H1 H; apply: complexI.
have := energy_sum H0; have := energy_sum H1; have := energy_sum H; rewrite d0 d1 dA => S S1 S0.
rewrite S /mix (cRD (Rmult (Rminus 1 t) _)) (cRM (Rminus 1 t)) (cRM t) S0 S1 !mulr_sumr -big_split /=.
by apply: eq_bigr => a _; rewrite between.
Qed.
End Between.

(** Time reversal keeps all energies. *)
Lemma rev_energies h A A' E : dim A = total h -> reversed h 1 A A' -> energies A E -> energies A' E.
Proof.
move=> dA rv [v [As EV ON]]; have [d _] := rv; exists (fun k => rev_state h (v k)); split.
- by rewrite d.
- move=> k a; rewrite d => hk ha.
  have nz : exists2 j, (j < dim A)%N & v k j <> 0.
    have := ON k k hk hk; rewrite eqxx => S.
    case: (pickP (fun j : 'I_(dim A) => v k j != 0)) => [j /eqP hj|z]; first by exists j.
    move: S; rewrite big1 => [/eqP|j _]; first by rewrite eq_sym oner_eq0.
    by have := z j; move/negbT; rewrite negbK => /eqP ->; rewrite mulr0.
  have P : eigenpair A (E k)%:C (v k) by split=> // j hj; exact: EV.
  have [Q _] := rev_eigen dA rv P.
  by have := Q a; rewrite d; apply.
- move=> k l; rewrite d => hk hl; have [_ _ X _] := C79_states h (v k) (v l).
  by rewrite dA X -dA ON //; case: eqP => _; rewrite ?cj1 ?cj0.
Qed.

Section Flux.
Variables (disp : nat -> C -> op) (h : hin) (val : nat -> R) (B : arr) (ks : keys).

(** The loops at two sets of values and at a weighted mean of them; the junctions see the
    same flux at both ends. *)
Section Mean.
Variables (l0 l1 l : seq R) (t : R) (A0 A1 A : op).
Hypothesis disp_dim : forall m a, dim (disp m a) = m.
Hypothesis size0 : size l0 = size l.
Hypothesis size1 : size l1 = size l.
Hypothesis mean_of : forall k, (k < size l)%N -> nth 0 l k = mix t (nth 0 l0 k) (nth 0 l1 k).
Hypothesis on_inductors : forall k, List.In k (k_jj ks) -> ext_flux l0 B k.1.2 = ext_flux l1 B k.1.2.
Hypothesis E0 : hamiltonian disp h val l0 B ks = Ok A0.
Hypothesis E1 : hamiltonian disp h val l1 B ks = Ok A1.
Hypothesis EM : hamiltonian disp h val l B ks = Ok A.

Lemma ext_mean b : ext_flux l B b = mix t (ext_flux l0 B b) (ext_flux l1 B b).
Proof.
rewrite /ext_flux size0 size1 /mix RplusE !RmultE !mulr_sumr -big_split /=; apply: eq_bigr => k _.
by rewrite mean_of // -[LHS]/(Rmult _ _) /mix loop_mean.
Qed.
Lemma mean_self a : mix t a a = a.
Proof. by rewrite /mix; lra. Qed.
Lemma whole_mean : [/\ dim A0 = total h, dim A1 = total h, dim A = total h &
  forall a b, ent A a b = (Rminus 1 t)%:C * ent A0 a b + t%:C * ent A1 a b].
Proof.
have [d0 _] := hamiltonian_ok disp_dim E0; have [d1 _] := hamiltonian_ok disp_dim E1; have [dA _] := hamiltonian_ok disp_dim EM.
split=> // a b; rewrite (hamiltonian_entry _ _ E0) (hamiltonian_entry _ _ E1) (hamiltonian_entry _ _ EM).
set L := oent _ _ _; set J := \sum_(k <- k_jj ks) _; set J0 := \sum_(k <- k_jj ks) _; set J1 := \sum_(k <- k_jj ks) _.
have e0 : J0 = J by apply: eq_sum_In => j hj; rewrite ext_mean -(on_inductors hj) mean_self.
have e1 : J1 = J by apply: eq_sum_In => j hj; rewrite ext_mean (on_inductors hj) mean_self.
have -> : \sum_(k <- k_ind ks) (ind_coef (val k.1.2) (ext_flux l B k.2))%:C * cpl h k.1.1 a b =
   (Rminus 1 t)%:C * (\sum_(k <- k_ind ks) (ind_coef (val k.1.2) (ext_flux l0 B k.2))%:C * cpl h k.1.1 a b) +
   t%:C * (\sum_(k <- k_ind ks) (ind_coef (val k.1.2) (ext_flux l1 B k.2))%:C * cpl h k.1.1 a b).
  rewrite !mulr_sumr -big_split /=; apply: eq_bigr => k _.
  by rewrite ext_mean /mix coef_mean (cRD (Rmult _ _)) (cRM (Rminus 1 t)) (cRM t) mulrDl !mulrA.
have e3 : (Rminus 1 t)%:C = 1 - t%:C :> C by rewrite -cR1 -cRB.
rewrite e0 e1 e3; clearbody L J; move: (\sum_(k <- k_ind ks) _) (\sum_(k <- k_ind ks) _) (t%:C) => X Y T; ring.
Qed.

(** The ground energy is concave along the segment, and the sum of the energies is affine. *)
Theorem C104_concave F0 F1 F : (0 < dim A)%N -> Rle 0 t -> Rle t 1 -> energies A0 F0 -> energies A1 F1 -> energies A F ->
  Rle (mix t (F0 0%N) (F1 0%N)) (F 0%N).
Proof.
have [d0 d1 dA W] := whole_mean; rewrite dA => n0.
exact: (ground_mix d0 d1 dA (fun a b _ _ => W a b) n0).
Qed.
Theorem C104_affine F0 F1 F : energies A0 F0 -> energies A1 F1 -> energies A F ->
  \sum_(k < dim A) F k = mix t (\sum_(k < dim A) F0 k) (\sum_(k < dim A) F1 k).
Proof.
have [d0 d1 dA W] := whole_mean; rewrite dA.
exact: (sum_mix d0 d1 dA (fun a b _ _ => W a b)).
Qed.
End Mean.

(** Without flux at the junctions the ground energy is highest with all loops at zero; the
    sum of the energies does not depend on the flux. *)
Theorem C104_highest l l' A A' F F' : displaces disp -> inductor_free h ks -> size l' = size l ->
  (forall k, (k < size l)%N -> nth 0 l' k = 0) ->
  (forall k, List.In k (k_jj ks) -> ext_flux l B k.1.2 = 0) ->
  hamiltonian disp h val l B ks = Ok A -> hamiltonian disp h val l' B ks = Ok A' -> (0 < dim A)%N ->
  energies A F -> energies A' F' -> Rle (F 0%N) (F' 0%N) /\ \sum_(k < dim A) F k = \sum_(k < dim A) F' k.
Proof.
move=> D fr sz z jz EA EA' n0 HF HF'; have [Am EM R] := C79_flux D fr EA.
have [dA _] := hamiltonian_ok D.1 EA; have [dA' _] := hamiltonian_ok D.1 EA'.
have HM := rev_energies dA R HF.
have sm : size (minus_flux l) = size l' by rewrite size_map sz.
have me k : (k < size l')%N -> nth 0 l' k = mix (Rinv 2) (nth 0 l k) (nth 0 (minus_flux l) k).
  by rewrite sz => hk; rewrite z // (nth_map 0) // /mix; exact: to_zero.
have on k : List.In k (k_jj ks) -> ext_flux l B k.1.2 = ext_flux (minus_flux l) B k.1.2.
  move=> hk; rewrite {2}/ext_flux size_map (eq_bigr (fun i : 'I_(size l) => - (nth 0 l i * B k.1.2 i))).
    by rewrite sumrN -/(ext_flux l B k.1.2) jz // oppr0.
  by move=> i _; rewrite (nth_map 0) // mulNr.
have n0' : (0 < dim A')%N by rewrite dA' -dA.
have [a b] := half_in2; split.
  have c := C104_concave D.1 (esym sz) sm me on EA EM EA' n0' a b HF HM HF'.
  by apply: equal_mean; exact: c.
apply: equal_sum; have := C104_affine D.1 (esym sz) sm me on EA EM EA' HF HM HF'; by rewrite dA' dA.
Qed.
End Flux.
Print Assumptions C104_concave.
Print Assumptions C104_affine.
Print Assumptions C104_highest.

(** ** Sessions *)
Section Session.
Variables (disp : nat -> C -> op) (optim : bool) (o : oracle) (s0 : store) (lobj : nat -> lrec) (fd : string).
Variables (d : seq (edge * seq nat)) (x0 : circ) (u : ustate) (cs : seq call) (tr : seq (world * res unit)).
Hypothesis D : displaces disp.
Hypothesis built_ok : construct optim o s0 lobj fd d = Some (Ok x0).
Hypothesis session : run disp optim (mkW s0 u x0) cs = Some tr.
Hypothesis updates : updates_ok optim (mkW s0 u x0) cs tr.
Let x := w_x (final (mkW s0 u x0) tr).
(** All the flux of the loops falls on inductors, and the charge modes leave them alone. *)
Hypothesis shares : forall k i, List.In k (c_keys_jj (x_c x)) -> (i < size (c_loops (x_c x)))%N -> x_B x k.1.2 i = 0.
Hypothesis free : inductor_free (hof x) (mkKeys (c_keys_ind (x_c x)) (c_keys_jj (x_c x))).
Variables (s s' : store).
Hypothesis same : evalue s' = evalue s.
Hypothesis off : forall l, List.In l (c_loops (x_c x)) -> lvalue s' l = 0.

Theorem C104_session A A' F F' : (hamil s x).2 = Ok A -> (hamil s' x).2 = Ok A' -> (0 < dim A)%N ->
  energies A F -> energies A' F' -> Rle (F 0%N) (F' 0%N) /\ \sum_(k < dim A) F k = \sum_(k < dim A) F' k.
Proof.
have G : good disp x.
  exact: good_run (good_construct disp built_ok : good disp (w_x (mkW s0 u x0))) session updates.
have [-> _] := hamilE s G; have [-> _] := hamilE s' G; rewrite /ham_of same => EA EA'.
apply: (C104_highest D free _ _ _ EA EA'); rewrite ?size_map //.
- move=> k hk; rewrite (nth_map 0%N) //; apply: off.
  by elim: (c_loops (x_c x)) k hk => [|a l IH] [|k] //= hk; [left|right; apply: IH].
- move=> k hk; rewrite /ext_flux big1 // => i _; rewrite (shares hk) ?mulr0 //.
  by case: i => i /= hi; rewrite size_map in hi.
Qed.
End Session.
Print Assumptions C104_session.

(** Case: a harmonic mode with two states and a charge mode with three; the inductor of the
    harmonic mode takes all the flux of the loop. *)
Definition case_B : arr := fun b _ => if b == 0%N then R1 else R0.
Example C104_case val z : let ks := mkKeys [:: (Z0, Zpos xH, 0%N, 0%N)] [:: (Zpos xH, Zpos (xO xH), 1%N, 1%N, 0%N)] in
  exists A A' F F', [/\ hamiltonian one_gen case_h val [:: z] case_B ks = Ok A,
      hamiltonian one_gen case_h val [:: 0] case_B ks = Ok A', energies A F, energies A' F' &
      dim A = 6%N /\ Rle (F 0%N) (F' 0%N) /\ ext_flux [:: z] case_B 0 = z].
Proof.
move=> ks; have n1 : isnode (Zpos xH) (t_n0 (h_st case_h)) by split => /=; lia.
have [_ Ec] := @coef_ground case_h Inductive_ eye (Zpos xH) erefl n1.
have tot y : exists A, hamiltonian one_gen case_h val [:: y] case_B ks = Ok A.
  have m0 : h_m case_h <> [::] by [].
  have [|A E] := @C35_total one_gen case_h val [:: y] case_B ks m0 isT; last by exists A.
  by move=> k [<-|[]]; right; split=> //; split => /=; lia.
have [A EA] := tot z; have [A' EA'] := tot 0.
have [dA hA] := hamiltonian_ok one_gen_ok.1 EA; have [_ hA'] := hamiltonian_ok one_gen_ok.1 EA'.
have six : dim A = 6%N by rewrite dA /total /= !big_ord_recr big_ord0.
have [F HF] := energies_exist hA; have [F' HF'] := energies_exist hA'.
exists A, A', F, F'; split=> //; split=> //; split; last by rewrite /ext_flux big_ord1 /= mulr1.
have fr : inductor_free case_h ks.
  move=> k [<-|[]]; eexists; first exact: Ec.
  by move=> [|[|i]] //; rewrite (negbTE case_harm).
have [] // := C104_highest one_gen_ok fr _ _ _ EA EA' _ HF HF'.
- by case.
- by move=> k [<-|[]]; rewrite /ext_flux big_ord1 /= mulr0.
- by rewrite six.
Qed.

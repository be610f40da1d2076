(** P_Symmetry.v -- C79: reversal of the external fluxes and of the gate charges. *)
From Coq Require Import Reals ZArith Lia String.
From Verif.Model Require Import Base Units Noise Edge Elements LCWB Accuracy HamConst PartialConst Thermal RateConst.
From Verif.Spec Require Import GraphSpec CircuitSpec.
From mathcomp Require Import all_ssreflect all_algebra.
From mathcomp Require Import complex ring.
From Verif.Numerics Require Import RStruct Bridge.
From Verif.Model Require Import Transform Op Ham Diag CircuitSM Partial DecRate.
From Verif.Spec Require Import OpSpec EigSpec SymmetrySpec.
From Verif.Proofs Require Import OpProofs HamProofs HamProofs2 HamProofs5 HamProofs6 GradProofs
  SymmetryProofs SymmetryProofs2 SymmetryProofs3 SymmetryProofs4.
From Verif.Properties Require Import P_Ops.

Set Implicit Arguments.
Unset Strict Implicit.
Unset Printing Implicit Defensive.
Import GRing.Theory.
Local Open Scope ring_scope.
Local Open Scope complex_scope.

(** The truncated displacement of the code, the matrix exponential of the truncated
    generator, has the symmetries. *)
Theorem C79_displacement disp : exponential disp -> displaces disp.
Proof. exact: exp_displaces. Qed.
Print Assumptions C79_displacement.

(** A charge mode without inductive energy leaves all inductors alone. *)
Theorem C79_inductors optim s fd lobj d c h ks : get_LCWB optim s fd (Z.of_nat (t_n0 (h_st h))) lobj d = Ok c ->
  proper_dict (t_n0 (h_st h)) d ->
  (forall e els el, List.In (e, els) d -> List.In el els -> ekind s el = KInd -> Rlt R0 (evalue s el)) ->
  (forall k, List.In k (k_ind ks) -> exists els, [/\ List.In (k.1.1, els) d, List.In k.1.2 els & ekind s k.1.2 = KInd]) ->
  (forall i, (i < hn h)%N -> hcharge h i ->
     bilin (t_n0 (h_st h)) (c_L c) (fun p => t_S (h_st h) p i) (fun p => t_S (h_st h) p i) = R0) ->
  inductor_free h ks.
Proof. exact: free_of_null. Qed.
Print Assumptions C79_inductors.

Section Symmetry.
Variables (disp : nat -> C -> op) (h : hin) (val : nat -> R) (loops : seq R) (B : arr) (ks : keys) (A : op).
Hypothesis D : displaces disp.
Hypothesis F : inductor_free h ks.
Hypothesis EA : hamiltonian disp h val loops B ks = Ok A.

(** All external fluxes reversed: the Hamiltonian is conjugated, and states of odd
    photon number change sign. *)
Theorem C79_flux : exists2 A', hamiltonian disp h val (minus_flux loops) B ks = Ok A' & reversed h 1 A A'.
Proof.
have [A' E'] := hamiltonian_shape (minus_flux loops) EA; exists A' => //.
exact: (ham_reversed D F EA E').
Qed.

Lemma coupling_minus e : coupling_op (minus_charge h) (Some Inductive_) e = coupling_op h (Some Inductive_) e.
Proof.
have Em i : mode_op (minus_charge h) Inductive_ i = mode_op h Inductive_ i by rewrite /mode_op !opPhiE.
rewrite /coupling_op -[coupling_coef (minus_charge h) _ _]/(coupling_coef h Inductive_ e); case: coupling_coef => // k.
rewrite -[hn (minus_charge h)]/(hn h).
have -> : forall l a, foldl (fun acc i => acc_add acc (oscale (k i)%:C (mode_op (minus_charge h) Inductive_ i))) a l =
  foldl (fun acc i => acc_add acc (oscale (k i)%:C (mode_op h Inductive_ i))) a l.
  by elim=> [//|i l IH a]; cbn [foldl]; rewrite Em IH.
by [].
Qed.
Lemma charge_shape loops' : exists A', hamiltonian disp (minus_charge h) val loops' B ks = Ok A'.
Proof.
have one2 : -1 * -1 = 1 :> C by rewrite mulrNN mulr1.
have LC := orel_LC (par1_sq (hcharge h)) (@mir1_lt (hcharge h) (fun k => hm h k)) (@mir1K (hcharge h) (fun k => hm h k))
  (h := h) (h' := minus_charge h) erefl (frefl _) erefl erefl one2 (fun k _ => mQ h k) (fun k _ => @mN h k).
have [A1 E1] := hamiltonian_shape loops' EA; move: E1; rewrite /hamiltonian.
have Ei : ind_hamil disp (minus_charge h) val loops' B ks = ind_hamil disp h val loops' B ks.
  rewrite /ind_hamil; have -> : foldl (ind_term (minus_charge h) val loops' B) (Ok None) (k_ind ks) =
    foldl (ind_term h val loops' B) (Ok None) (k_ind ks).
    elim: (k_ind ks) (Ok None) => [//|[[e el] b] l IH a]; cbn [foldl]; rewrite IH; congr foldl.
    by case: a => [a|//]; cbn [ind_term]; rewrite coupling_minus.
  case: foldl => [a|//]; congr Ok; elim: (k_jj ks) a => [//|[[[e el] b] w] l IH a]; cbn [foldl]; by rewrite IH.
rewrite Ei; change (h_m (minus_charge h)) with (h_m h); case: (size _ == 0%N) => //.
case: ind_hamil => [Hi|//]; move: LC; case: LC_hamil => [L|]; case: LC_hamil => [L'|] //=.
  by case: Hi => [H|]; eexists.
by case: Hi => [H|//]; eexists.
Qed.

(** Fluxes and gate charges reversed: charge states N and -N are exchanged. *)
Theorem C79_both : exists2 A', hamiltonian disp (minus_charge h) val (minus_flux loops) B ks = Ok A' & mirrored h 1 A A'.
Proof. by have [A' E'] := charge_shape (minus_flux loops); exists A' => //; exact: (ham_mirrored D F EA E'). Qed.

(** The energies of all four bias points are the same, and the states are obtained
    from one another. *)
Theorem C79_energies : exists A1 A2 A3,
  [/\ hamiltonian disp h val (minus_flux loops) B ks = Ok A1,
      hamiltonian disp (minus_charge h) val (minus_flux loops) B ks = Ok A2,
      hamiltonian disp (minus_charge h) val loops B ks = Ok A3 &
      forall (z : R) v, eigenpair A z%:C v ->
        [/\ eigenpair A1 z%:C (rev_state h v), eigenpair A2 z%:C (mir_state h v) &
            eigenpair A3 z%:C (rev_state h (mir_state h v))]].
Proof.
have dA : dim A = total h by have [] := hamiltonian_ok D.1 EA.
have [A1 E1 R1] := C79_flux; have [A2 E2 R2] := C79_both; have [A3 E3] := charge_shape loops.
exists A1, A2, A3; split=> // z v Hv; have H2 := mir_eigen dA R2 Hv.
split=> //; first exact: (rev_eigen dA R1 Hv).
have F' : inductor_free (minus_charge h) ks by move=> k hk; have [c Ec cz] := F hk; exists c.
have d2 : dim A2 = total (minus_charge h) by have [] := hamiltonian_ok D.1 E2.
have E3' : hamiltonian disp (minus_charge h) val (minus_flux (minus_flux loops)) B ks = Ok A3.
  rewrite /minus_flux -map_comp (_ : [seq _ | x <- loops] = loops) //.
  by elim: loops => //= x l ->; rewrite opprK.
exact: (rev_eigen d2 (ham_reversed D F' E2 E3') H2).
Qed.

(** Both maps of states are their own inverses and keep overlaps (the first up to
    conjugation): an orthonormal set of levels is mapped to one. *)
Theorem C79_states v w :
  [/\ forall I, (I < total h)%N -> rev_state h (rev_state h v) I = v I,
      forall I, (I < total h)%N -> mir_state h (mir_state h v) I = v I,
      \sum_(I < total h) (rev_state h v I)^* * rev_state h w I = (\sum_(I < total h) (v I)^* * w I)^* &
      \sum_(I < total h) (mir_state h v I)^* * mir_state h w I = \sum_(I < total h) (v I)^* * w I].
Proof.
split=> [I hI|I hI||].
- by rewrite /rev_state cjM cjK par_real // mulrA par_sq // mul1r.
- by rewrite /mir_state par_mir // mirK // mulrA par_sq // mul1r.
- rewrite cj_sum; apply: eq_bigr => I _; rewrite /rev_state !(cjM, cjK) par_real //.
  have s2 := par_sq (ltn_ord I); move: (par h I) (v I) ((w I)^*) s2 => a b c s2.
  by have -> : a * b * (a * c) = (a * a) * (b * c) by [ring]; rewrite s2 mul1r.
have inj : injective (fun I : 'I_(total h) => Ordinal (mir_lt (ltn_ord I))).
  move=> I J /(congr1 (@nat_of_ord _)) /= e; apply: ord_inj.
  by rewrite -(mirK (ltn_ord I)) -(mirK (ltn_ord J)) e.
rewrite [RHS](reindex_inj inj) /=; apply: eq_bigr => I _; rewrite /mir_state cjM par_real //.
have s2 := par_sq (ltn_ord I); move: (par h I) ((v _)^*) (w _) s2 => a b c s2.
by have -> : a * b * (a * c) = (a * a) * (b * c) by [ring]; rewrite s2 mul1r.
Qed.
End Symmetry.
Print Assumptions C79_flux.
Print Assumptions C79_both.
Print Assumptions C79_energies.
Print Assumptions C79_states.

(** Matrix elements between reversed states: branch charges and the cosines keep
    their values up to conjugation, branch fluxes and the sines change sign. *)
Theorem C79_elements disp h phi w u v : displaces disp ->
  let el A A' sg := inner (rev_state h u) A' (rev_state h v) = sg * (inner u A v)^* in
  [/\ forall e A, coupling_op h (Some Capacitive) e = Ok A -> el A A 1,
      forall e k A, coupling_op h (Some Inductive_) e = Ok A -> coupling_coef h Inductive_ e = Ok k ->
        (forall i, (i < hn h)%N -> hcharge h i -> k i = 0) -> el A A (-1),
      el (jj_cos (jj_exp disp h phi w)) (jj_cos (jj_exp disp h (GRing.opp phi) w)) 1,
      el (jj_sin (jj_exp disp h phi w)) (jj_sin (jj_exp disp h (GRing.opp phi) w)) (-1) &
      el (jj_sin (jj_root disp h phi w)) (jj_sin (jj_root disp h (GRing.opp phi) w)) (-1)].
Proof.
move=> D /=; split=> [e A E|e k A E Ek kz|||]; apply: inner_rev.
- exact: cap_rev E.
- exact: flux_rev E Ek kz.
- by rewrite /jj_exp expi_opp; apply: cos_rev; apply: exp_self.
- by rewrite /jj_exp expi_opp; apply: sin_rev; apply: exp_self.
rewrite /jj_root (_ : expi (halfR (GRing.opp phi)) = (expi (halfR phi))^*); last by rewrite -RoppE loop_half RoppE expi_opp.
by apply: sin_rev; apply: root_self.
Qed.
Print Assumptions C79_elements.

(** Every rate of a circuit is the same at reversed fluxes, for the reversed levels
    of the same frequencies. *)
Theorem C79_rates disp s x ev E q dt m n tot : displaces disp -> regular disp s x ->
  inductor_free (hof x) (mkKeys (c_keys_ind (x_c x)) (c_keys_jj (x_c x))) ->
  dec_rate E (back_flux s) q (put_eig (hamil (back_flux s) x).1 (rev_levels (hof x) ev)) dt m n tot =
  dec_rate E s q (put_eig (hamil s x).1 ev) dt m n tot.
Proof. by move=> D Rg F; exact (rate_back D Rg F ev E q dt m n tot). Qed.
Print Assumptions C79_rates.

(** A family of operators with the symmetries, and a Hamiltonian that does change. *)
Definition one_gen (m : nat) (a : C) : op := oadd (oeye m) (gen m a).
Lemma one_gen_ok : displaces one_gen.
Proof.
split=> // m r; split=> a b _ _; rewrite /one_gen !e_add !e_diag.
- by rewrite cjD gen_conj (gen_sym m (- r) b a) eq_sym; case: ifP => _; rewrite ?cj0 ?cj1.
- by rewrite cjD gen_conj; case: ifP => _; rewrite ?cj0 ?cj1.
by rewrite mulrDr gen_par; case: eqP => [->|_]; rewrite ?mulr0 // sign1 mul1r.
Qed.

Lemma case_free w : inductor_free case_h (mkKeys [:: (Z0, Zpos xH, 0%N, 0%N)] [:: (Zpos xH, Zpos (xO xH), 1%N, 0%N, w)]).
Proof.
move=> k [<-|[]]; have n1 : isnode (Zpos xH) (t_n0 (h_st case_h)) by split => /=; lia.
have [_ E] := @coef_ground case_h Inductive_ eye (Zpos xH) erefl n1; eexists; first exact: E.
by move=> [|[|i]] //; rewrite (negbTE case_harm).
Qed.
Example C79_case val x : exists A A',
  let ks := mkKeys [:: (Z0, Zpos xH, 0%N, 0%N)] [:: (Zpos xH, Zpos (xO xH), 1%N, 0%N, 0%N)] in
  [/\ hamiltonian one_gen case_h val [:: x] (fun _ _ => 1) ks = Ok A,
      hamiltonian one_gen case_h val [:: - x] (fun _ _ => 1) ks = Ok A' & reversed case_h 1 A A'] /\
  [/\ par case_h 1 = 1, par case_h 3 = -1 & mir case_h 3 = 5%N].
Proof.
have [A [E [d _]]] := @C35_case one_gen val one_gen_ok.1.
have [A1 E1] := hamiltonian_shape [:: x] E.
have [A2 E2 R] := C79_flux one_gen_ok (@case_free 0%N) E1.
exists A1, A2; split=> //; rewrite /par /mir /parity /mirror /= case_chg (negbTE case_harm) /=.
by rewrite !mulr1 ?mul1r.
Qed.
Example C79_changes val x A A' : let ks := mkKeys [::] [:: (Zpos xH, Zpos (xO xH), 1%N, 0%N, 0%N)] in
  hamiltonian one_gen case_h val [:: x] (fun _ _ => 1) ks = Ok A ->
  hamiltonian one_gen case_h val [:: - x] (fun _ _ => 1) ks = Ok A' ->
  ent A 1 0 - ent A' 1 0 = - (val 1%N)%:C * ('i * (sin x)%:C).
Proof.
move=> ks /hamiltonian_entry E1 /hamiltonian_entry E2; rewrite E1 E2 !big_nil !big_seq1; cbn [fst snd k_jj ks].
have X a b : (a < 3)%N -> (b < 3)%N -> ent (opExp one_gen case_h 0) a b = if a == b.+1 then 1 else 0.
  move=> ha hb; pose dg i := fun k : nat => if k == 0%N then 0%N else i : nat.
  have := @T_ent (exp_iso one_gen case_h 0) 2 (hm case_h) (dg a) (dg b).
  rewrite !case_posn mul0n !add0n => ->; first last.
  - by move=> [|[|k]].
  - by move=> [|[|k]].
  - by move=> [|[|k]] // _; apply: exp_dimk one_gen_ok _ _.
  have E0 : ent (exp_iso one_gen case_h 0 0) 0 0 = 1.
    by rewrite /exp_iso (negbTE case_harm) /one_gen e_add genE e_diag eqxx /= !addr0 mulr0 addr0.
  have E1' : ent (exp_iso one_gen case_h 0 1) a b = if a == b.+1 then 1 else 0.
    rewrite /exp_iso case_chg d_entry.
    case: (Rlt_dec _ _) => [h0|h1]; first by case: (Rlt_asym _ _ Rlt_0_1 h0).
    by case: (Rlt_dec _ _) => [//|h0]; case: (h0 Rlt_0_1).
  rewrite big_ord_recr big_ord_recr big_ord0.
  change (1 * ent (exp_iso one_gen case_h 0 0) 0 0 * ent (exp_iso one_gen case_h 0 1) a b = if a == b.+1 then 1 else 0).
  by rewrite E0 E1' !mul1r.
have X10 : ent (opExp one_gen case_h 0) 1 0 = 1 by rewrite X.
have X01 : ent (opExp one_gen case_h 0) 0 1 = 0 by rewrite X.
have Fx y : ext_flux [:: y] (fun _ _ => 1) 0 = y by rewrite /ext_flux big_ord1 /= mulr1.
rewrite !Fx /jjent expi_opp X10 X01 !mulr1 !mulr0 cj0 !addr0.
have -> : expi x = (cos x)%:C + 'i * (sin x)%:C by rewrite /expi; simpc.
have -> : ((cos x)%:C + 'i * (sin x)%:C)^* = (cos x)%:C - 'i * (sin x)%:C by rewrite cjD cjM !cjR iconj mulNr.
have h2 : 2%:R != 0 :> C by rewrite Num.Theory.pnatr_eq0.
move: (oent _ _ _) (val _)%:C ((cos x)%:C) ('i * _) => a b c e; by field.
Qed.

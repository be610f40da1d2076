(** P_Photons.v -- C85: energies against the numbers of photon states. *)
From Coq Require Import Reals ZArith Lia Lra.
From Verif.Model Require Import Base Units Settings Edge Elements LCWB Accuracy HamConst.
From Verif.Proofs Require Import AccProofs.
From mathcomp Require Import all_ssreflect all_algebra.
From mathcomp Require Import complex ring zify.
From Verif.Numerics Require Import RStruct Bridge.
From Verif.Model Require Import Op Transform Ham.
From Verif.Spec Require Import OpSpec HalfSpec LevelsSpec SymmetrySpec PhotonSpec.
From Verif.Proofs Require Import OpProofs HamProofs HamProofs2 HamProofs5 HamProofs6 HalfProofs SymmetryProofs SymmetryProofs4 MinMaxProofs ChargeShiftProofs LevelProofs ExpProofs ExpProofs2 PhotonProofs.
From Verif.Properties Require Import P_Levels P_Lipschitz P_Displace.

Set Implicit Arguments.
Unset Strict Implicit.
Unset Printing Implicit Defensive.
Import GRing.Theory Order.TTheory.
Local Open Scope ring_scope.
Local Open Scope complex_scope.

(** Junctions of energy zero or on charge modes only (all other elements are
    arbitrary): with more photon states in any harmonic modes and more charge states
    in any charge modes, every energy stays or comes down. *)
Theorem C85_linear disp h h' z l l' val loops B ks A : exponential disp ->
  raised z h h' -> wider h z l l' ->
  (forall j, List.In j (k_jj ks) -> val j.1.1.2 = 0 \/ charge_only h j.2) ->
  hamiltonian disp (truncated h l) val loops B ks = Ok A ->
  exists2 A', hamiltonian disp (truncated h' l') val loops B ks = Ok A' &
  (dim A <= dim A')%N /\ forall E E', energies A E -> energies A' E' -> forall k, (k < dim A)%N -> Rle (E' k) (E k).
Proof.
move=> ex [st ng] room jj EA; have D := exp_disp_dims ex; have D0 m : eqop (disp m 0) (oeye m) by exact: disp_zero.
have hn' : hn h' = hn h by rewrite /hn st.
have hc k : hcharge h' k = hcharge h k by rewrite /hcharge st.
have n0 : hn h <> 0%N by move=> e; move: EA; rewrite /hamiltonian /= e.
have m0 : h_m (truncated h' l') <> [::] by move=> /(congr1 size); rewrite size_map size_iota hn'.
have S : h_st (truncated h' l') = h_st (truncated h l) by [].
have [A' E' g] := ham_wide S D D0 jj m0 EA; exists A' => //.
pose f k a := if hcharge h k then Z.to_nat (Z.add (Z.of_nat a) (Z.add (Z.sub (Z.of_nat (nth 0%N l' k)) (Z.of_nat (nth 0%N l k))) (z k))) else a.
have cov : covers (truncated h l) (truncated h' l') f.
  move=> d L; split=> k; rewrite -[hn _]/(hn h) => hk; have := L k hk; have := room k hk;
    rewrite ?trunc_hm ?hn' // ?hc /f -?[hcharge (truncated h l) k]/(hcharge h k); case: (hcharge h k); try lia.
  move=> [l0 lz] dk; rewrite -[h_ng _ k]/(h_ng h' k) -[h_ng (truncated h l) k]/(h_ng h k) ng //.
  by apply: (charge_at_shift _ (nth 0 l' k - nth 0 l k)%N); lia.
have [dA hA] := hamiltonian_ok D EA; have [dA' hA'] := hamiltonian_ok D E'.
have [E HE] := energies_exist hA; have [F HF] := energies_exist hA'.
split; last by move=> E1 E2 H1 H2 k hk; have [] := wide_le S D D0 jj cov m0 EA E' H1 H2 hk.
case: (posnP (dim A)) => [-> //|pos]; rewrite -(prednK pos).
by have [] := wide_le S D D0 jj cov m0 EA E' HE HF (k := (dim A).-1); rewrite ?prednK.
Qed.
Print Assumptions C85_linear.

Lemma ham_val_shape disp h val val' loops B ks A : hamiltonian disp h val loops B ks = Ok A ->
  exists A', hamiltonian disp h val' loops B ks = Ok A'.
Proof.
have Hi : forall x y, same_shape x y ->
   same_shape (foldl (ind_term h val loops B) x (k_ind ks)) (foldl (ind_term h val' loops B) y (k_ind ks)).
  elim: (k_ind ks) => [//|[[e el] b] s IH] x y Hxy; cbn [foldl]; apply: IH.
  case: x y Hxy => [a|x] [b'|y] // Hab; cbn [ind_term].
  by case: (coupling_op h (Some Inductive_) e).
have Hj : forall a b, isSome a = isSome b ->
   isSome (foldl (jj_term disp h val loops B) a (k_jj ks)) = isSome (foldl (jj_term disp h val' loops B) b (k_jj ks)).
  by elim: (k_jj ks) => [//|[[[e el] b] w] s IH] x y Hxy; cbn [foldl]; apply: IH.
rewrite /hamiltonian; case: ifP => // _; rewrite /ind_hamil.
have := Hi (Ok None) (Ok None) erefl; case: foldl => [a|//]; case: foldl => [b|//] /= /Hj.
case: foldl => [x|]; case: foldl => [y|] //= _; first by case: LC_hamil; eexists.
by case: LC_hamil => //; eexists.
Qed.

(** Any circuit: let [P] contain the junctions that act on harmonic modes.  No energy
    comes up by more than twice the sum of their energies. *)
Theorem C85_junctions disp h h' z l l' val loops B ks A (P : pred nat) : exponential disp ->
  raised z h h' -> wider h z l l' ->
  (forall j, List.In j (k_jj ks) -> P j.1.1.2 \/ charge_only h j.2) ->
  (forall i, List.In i (k_ind ks) -> ~~ P i.1.2) ->
  hamiltonian disp (truncated h l) val loops B ks = Ok A ->
  exists2 A', hamiltonian disp (truncated h' l') val loops B ks = Ok A' &
  (dim A <= dim A')%N /\ forall E E', energies A E -> energies A' E' -> forall k, (k < dim A)%N ->
    Rle (E' k) (Rplus (E k) (Rmult 2 (\sum_(j <- k_jj ks | P j.1.1.2) Rabs (val j.1.1.2)))).
Proof.
move=> ex Rz room jj ind EA; have D := exp_disp_dims ex.
have U m a : unitary (disp m a) by exact: disp_unitary.
pose val0 el := if P el then 0 else val el.
have jj0 j : List.In j (k_jj ks) -> val0 j.1.1.2 = 0 \/ charge_only h j.2.
  by move=> /jj [p|c]; [left; rewrite /val0 p|right].
have [A0 EA0] := ham_val_shape val0 EA; have [A0' EA0' [d0 H0]] := C85_linear ex Rz room jj0 EA0.
have [A' EA'] := ham_val_shape val EA0'.
have [dA hA] := hamiltonian_ok D EA; have [dA0 hA0] := hamiltonian_ok D EA0.
have [dA' hA'] := hamiltonian_ok D EA'; have [dA0' hA0'] := hamiltonian_ok D EA0'.
exists A' => //; split; first by rewrite dA dA' -dA0 -dA0'.
move=> E E' HE HE' k hk; have [E0 HE0] := energies_exist hA0; have [E0' HE0'] := energies_exist hA0'.
have same loops0 i : List.In i (k_ind ks) -> val0 i.1.2 = val i.1.2 /\ ext_flux loops0 B i.2 = ext_flux loops0 B i.2.
  by move=> /ind /negbTE p; rewrite /val0 p.
have hk0 : (k < dim A0)%N by rewrite dA0 -dA.
have hk' : (k < dim A')%N by rewrite dA' -dA0'; apply: leq_trans d0.
have b1 := C82_lipschitz D U (@same loops) EA EA0 HE HE0 hk.
have b2 := C82_lipschitz D U (@same loops) EA' EA0' HE' HE0' hk'.
have b3 := H0 _ _ HE0 HE0' k hk0.
have sumE : \sum_(j <- k_jj ks) (Rabs (Rminus (val j.1.1.2) (val0 j.1.1.2)) +
     Rabs (val j.1.1.2) * Rabs (Rminus (ext_flux loops B j.1.2) (ext_flux loops B j.1.2))) =
   \sum_(j <- k_jj ks | P j.1.1.2) Rabs (val j.1.1.2).
  rewrite [RHS]big_mkcond; apply: eq_bigr => j _; rewrite [Rminus (ext_flux _ _ _) _](_ : _ = R0); last exact: Rminus_eq_0.
  rewrite Rabs_R0 mulr0 addr0 /val0; case: ifP => _; first by rewrite Rminus_0_r.
  by rewrite (_ : Rminus _ _ = R0) ?Rabs_R0 //; exact: Rminus_eq_0.
rewrite sumE in b1 b2; move: b1 b2 b3; set S := \sum_(_ <- _ | _) _; clearbody S.
have t a b c e s : Rle (Rabs (Rminus a b)) s -> Rle (Rabs (Rminus c e)) s -> Rle e b -> Rle c (Rplus a (Rmult 2 s)).
  move=> h1 h2 h3; have := Rle_abs (Rminus b a); have := Rle_abs (Rminus c e); rewrite (Rabs_minus_sym b a); lra.
exact: t.
Qed.
Print Assumptions C85_junctions.

(** One harmonic mode and one junction across it, no external flux: with one photon
    state the energy is -EJ, with two they are n omega - EJ cos r, where r is the
    zero-point phase.  So the lowest energy goes up when photon states are added,
    unless r is a whole number of turns: the variational statement of C80 for charge
    states is false for photon states. *)
Definition one_jj (e : edge) (el w : nat) : keys := mkKeys [::] [:: (e, el, 0%N, w)].
Lemma flux0 B b : ext_flux [::] B b = 0. Proof. by rewrite /ext_flux big_ord0. Qed.
Theorem C85_one_mode disp h val B e el w : exponential disp -> hn h = 1%N -> ~~ hcharge h 0%N -> Rle R0 (t_om (h_st h) 0%N) ->
  let r := hphi_zp h 0%N * t_wT (h_st h) w 0%N in
  exists A A', [/\ hamiltonian disp (truncated h [:: 1%N]) val [::] B (one_jj e el w) = Ok A,
    hamiltonian disp (truncated h [:: 2%N]) val [::] B (one_jj e el w) = Ok A', dim A = 1%N /\ dim A' = 2%N,
    energies A (fun=> - val el) & energies A' (fun n => Rminus (Rmult (INR n) (t_om (h_st h) 0%N)) (Rmult (val el) (cos r)))].
Proof.
move=> ex n1 ch om r; have D := exp_disp_dims ex.
have X l : exists2 A, hamiltonian disp (truncated h [:: l]) val [::] B (one_jj e el w) = Ok A &
  dim A = l /\ forall a b, ent A a b = (t_om (h_st h) 0%N)%:C * ent (num l) a b -
     (val el)%:C * (2%:R^-1 * (ent (exp_iso disp (truncated h [:: l]) w 0) a b + (ent (exp_iso disp (truncated h [:: l]) w 0) b a)^*)).
  set g := truncated h _.
  have n1' : hn g = 1%N by [].
  have ml : hm g 0 = l by rewrite trunc_hm ?n1 // (negbTE ch).
  have chg : hcharge g 0 = false by exact: negbTE ch.
  have LC : LC_hamil g = Some (oscale (t_om (h_st h) 0%N)%:C (opN g 0)).
    by rewrite /LC_hamil n1' /= /LC_term chg.
  have [A EA] : exists A, hamiltonian disp g val [::] B (one_jj e el w) = Ok A.
    by rewrite /hamiltonian size_map size_iota n1 /= /ind_hamil /= LC; eexists.
  exists A => //; have [dA _] := hamiltonian_ok D EA; split.
    by rewrite dA /total n1' big_ord_recl big_ord0 ml muln1.
  move=> a b; rewrite (hamiltonian_entry _ _ EA) LC /= big_nil addr0 big_seq1 /= flux0 /jjent.
  have -> : opN g 0 = num l by rewrite opNE n1' T1 /one_fam eqxx /num_op_isolated chg ml.
  have -> : opExp disp g w = exp_iso disp g w 0 by rewrite /opExp n1'.
  by rewrite (_ : expi 0 = 1) ?mul1r //; rewrite /expi cos_0 sin_0.
have half x : 2%:R^-1 * (x + x) = x :> C by rewrite -mulr2n -[x *+ 2]mulr_natl mulKf // Num.Theory.pnatr_eq0.
have [A EA [dA eA]] := X 1%N; have [A' EA' [dA' eA']] := X 2%N; exists A, A'; split=> //.
- exists (fun _ _ => 1); rewrite /levels_of dA; split; first by move=> i j _; apply: Rle_refl.
    move=> [|//] [|//] _ _; rewrite big_ord_recl big_ord0 addr0 eA /exp_iso; have -> : hcharge (truncated h [:: 1%N]) 0 = false by exact: negbTE ch.
    rewrite trunc_hm ?n1 // (negbTE ch) [X in X == 1%N]/= eqxx; set x := val el.
    rewrite [ent (num 1) _ _]/= [ent (oeye 1) _ _]/= cj1 mulr0 sub0r cRN.
    by rewrite half !mulr1.
  by move=> [|//] [|//] _ _; rewrite big_ord_recl big_ord0 addr0 cj1 mulr1.
- have c2 : hcharge (truncated h [:: 2%N]) 0 = false by exact: negbTE ch.
  have E2 : exp_iso disp (truncated h [:: 2%N]) w 0 = disp 2%N ('i * r%:C).
    by rewrite /exp_iso c2 trunc_hm ?n1 // (negbTE ch).
  have [d00 d01 d10 d11] := C83_case r ex.
  have eE a b : (a < 2)%N -> (b < 2)%N -> ent A' a b = if a == b then (Rminus (Rmult (INR a) (t_om (h_st h) 0%N)) (Rmult (val el) (cos r)))%:C else 0.
    move=> ha hb; rewrite eA' E2; case: a ha => [|[|//]] _; case: b hb => [|[|//]] _; rewrite ?d00 ?d01 ?d10 ?d11.
    - by rewrite cjR half cRB !cRM /= mulr0 mul0r.
    - by rewrite [ent (num 2) _ _]/= cjM iconj cjR mulNr subrr !mulr0 subrr.
    - by rewrite [ent (num 2) _ _]/= cjM iconj cjR mulNr subrr !mulr0 subrr.
    - by rewrite cjR half cRB !cRM /= mulrC.
  exists (fun i a => if i == a then 1 else 0); rewrite /levels_of dA'; split.
  + move=> i j /andP [le _]; apply: Rplus_le_compat_r; apply: Rmult_le_compat_r => //; apply: le_INR; lia.
  + move=> i a; case: i => [|[|//]]; case: a => [|[|//]] _ _; rewrite !big_ord_recl big_ord0 !eE //= ?(mulr0, mulr1, mul0r, addr0, add0r) //.
  + move=> i j; case: i => [|[|//]]; case: j => [|[|//]] _ _; rewrite !big_ord_recl big_ord0 ?(cj1, cj0, mulr0, mulr1, mul0r, addr0, add0r) //.
Qed.
Print Assumptions C85_one_mode.

(** The lowest energy of the circuit with two photon states is above the one with one. *)
Definition oscillator : hin := mkH (mkT 1 1 0 1 eye eye eye eye eye
  (fun _ _ => PI / Accuracy.phi_zp 1 1) (fun=> 1)) [::] (fun=> 0) eye.
Theorem C85_photons_refuted disp : exponential disp -> exists h l l' val B ks A A' E E',
  [/\ raised (fun=> Z0) h h /\ wider h (fun=> Z0) l l',
      hamiltonian disp (truncated h l) val [::] B ks = Ok A, hamiltonian disp (truncated h l') val [::] B ks = Ok A',
      energies A E /\ energies A' E' & Rlt (E 0%N) (E' 0%N)].
Proof.
move=> ex; have ch : ~~ hcharge oscillator 0%N by rewrite /hcharge /is_charge /= oner_eq0.
have om : Rle R0 (t_om (h_st oscillator) 0%N) by exact: Rle_0_1.
have [A [A' [EA EA' _ HE HE']]] := C85_one_mode (fun=> R1) eye (Z0, Zpos xH) 0%N 0%N ex (erefl : hn oscillator = 1%N) ch om.
exists oscillator, [:: 1%N], [:: 2%N], (fun=> R1), eye, (one_jj (Z0, Zpos xH) 0%N 0%N), A, A'; do 2!eexists; split; first 1 last.
- exact: EA.
- exact: EA'.
- split; [exact: HE|exact: HE'].
- have z0 : Accuracy.phi_zp 1 1 != 0.
    apply/eqP => z; have := phi_zp_pos R1 R1 Rlt_0_1 Rlt_0_1; rewrite -[phi_zp _ _]/(Accuracy.phi_zp 1 1) z; exact: Rlt_irrefl.
  rewrite (_ : hphi_zp _ _ * _ = PI); last by rewrite mulrC /hphi_zp /= divfK.
  have t x : Rlt (Ropp R1) (Rminus (Rmult (INR 0) x) (Rmult R1 (Ropp 1))) by rewrite /=; lra.
  rewrite cos_PI; exact: t.
- split; first by split=> // k _; rewrite Rplus_0_r.
  by case=> [|//] _; rewrite (negbTE ch).
Qed.
Print Assumptions C85_photons_refuted.

(** An oscillator without junctions: energies 0 and omega are kept when a third
    photon state is added. *)
Example C85_case disp val B : exponential disp -> exists2 A,
  hamiltonian disp (truncated oscillator [:: 2%N]) val [::] B (mkKeys [::] [::]) = Ok A &
  exists2 A', hamiltonian disp (truncated oscillator [:: 3%N]) val [::] B (mkKeys [::] [::]) = Ok A' &
  (dim A <= dim A')%N /\ forall E E', energies A E -> energies A' E' -> forall k, (k < dim A)%N -> Rle (E' k) (E k).
Proof.
move=> ex; have ch : hcharge oscillator 0%N = false by rewrite /hcharge /is_charge /= oner_eq0.
have [A EA] : exists A, hamiltonian disp (truncated oscillator [:: 2%N]) val [::] B (mkKeys [::] [::]) = Ok A.
  by apply: hamiltonian_total.
exists A => //; apply: (C85_linear (z := fun=> Z0) (l := [:: 2%N])) EA => //.
- by split=> // k _; rewrite Rplus_0_r.
- by case=> [|//] _; rewrite ch.
Qed.

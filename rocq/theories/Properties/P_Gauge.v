(** P_Gauge.v -- C87: the phases of the charge states and the distribution of the
    external flux. *)
From Coq Require Import Reals ZArith String Lia Lra.
From Verif.Model Require Import Base Units Settings Edge Elements LCWB Accuracy HamConst Rounding.
From Verif.Spec Require Import GraphSpec CircuitSpec FluxSpec.
From Verif.Proofs Require Import BookProofs RoundProofs FluxWitness GaugeWitness.
Local Open Scope R_scope.
Lemma near_four a a0 b b0 p : Rle (Rabs (a - a0)) (5 / 10 ^ 6 * p) -> Rle (Rabs (b - b0)) (5 / 10 ^ 6 * p) ->
  Rle (Rabs (a + (b0 - a0) - b)) (/ 10 ^ 5 * p).
Proof.
  intros H1 H2. replace (a + (b0 - a0) - b)%R with ((a - a0) + - (b - b0))%R by ring.
  eapply Rle_trans; [apply Rabs_triang|]. rewrite Rabs_Ropp. lra.
Qed.
From mathcomp Require Import all_ssreflect all_algebra.
From mathcomp Require Import complex ring zify.
From Verif.Numerics Require Import RStruct Bridge.
From Verif.Model Require Import Op Transform FluxDist Ham Diag CircuitSM.
From Verif.Spec Require Import OpSpec HalfSpec LevelsSpec LowestSpec GaugeSpec.
From Verif.Proofs Require Import OpProofs HamProofs HamProofs2 HamProofs5 HamProofs6 HalfProofs MinMaxProofs
  FluxProofs FluxProofs2 FluxProofs3 FluxGauge GaugeProofs GaugeProofs2 TransProofs.
From Verif.Properties Require Import P_Circuit P_Flux P_Rounding P_Transform P_Ops P_Lipschitz P_Lowest P_Levels P_Photons.

Set Implicit Arguments.
Unset Strict Implicit.
Unset Printing Implicit Defensive.
Import GRing.Theory Order.TTheory.
Local Open Scope ring_scope.
Local Open Scope complex_scope.

(** External phases that differ by angles of the charge modes give the same
    Hamiltonian up to phases of the charge states, and the same energies. *)
Theorem C87_gauge disp h theta val loops loops' B B' ks A : (forall m a, dim (disp m a) = m) ->
  unit_rows h ks -> gauge h theta ks loops loops' B B' -> hamiltonian disp h val loops B ks = Ok A ->
  exists2 A', hamiltonian disp h val loops' B' ks = Ok A' &
    turned h theta A A' /\ forall E, energies A E -> energies A' E.
Proof.
move=> D u g EA; have [A' EA'] := ham_exists loops' B' EA; exists A' => //.
have t := ham_turned D u g EA EA'; split=> // E; apply: (turned_energies _ t).
by have [] := hamiltonian_ok D EA.
Qed.
Print Assumptions C87_gauge.

(** Phases that are near such a set. *)
Theorem C87_near disp h theta val loops loops' B B' (phi : nat -> R) ks A A' E E' : (forall m a, dim (disp m a) = m) ->
  (forall m a, unitary (disp m a)) -> unit_rows h ks -> gauge h theta ks loops [:: 1] B (fun b _ => phi b) ->
  (forall i, List.In i (k_ind ks) -> ext_flux loops' B' i.2 = phi i.2) ->
  hamiltonian disp h val loops B ks = Ok A -> hamiltonian disp h val loops' B' ks = Ok A' ->
  energies A E -> energies A' E' -> forall k, (k < dim A)%N ->
  Rle (Rabs (Rminus (E k) (E' k)))
      (\sum_(j <- k_jj ks) Rabs (val j.1.1.2) * Rabs (Rminus (phi j.1.2) (ext_flux loops' B' j.1.2))).
Proof.
move=> D U u g ind EA EA' HE HE' k hk; have [A0 EA0 [[d0 _] lev]] := C87_gauge D u g EA.
have p1 b : ext_flux [:: 1] (fun b _ => phi b) b = phi b by rewrite /ext_flux big_ord_recl big_ord0 /= mul1r addr0.
pose Bt := two phi (ext_flux loops' B').
have F1 : hamiltonian disp h val [:: 1; 0] Bt ks = Ok A0 by rewrite -EA0; apply: ham_ext => b; rewrite two_first p1.
have F2 : hamiltonian disp h val [:: 0; 1] Bt ks = Ok A' by rewrite ham_second.
have same i : List.In i (k_ind ks) -> val i.1.2 = val i.1.2 /\ ext_flux [:: 0; 1] Bt i.2 = ext_flux [:: 1; 0] Bt i.2.
  by move=> hi; rewrite two_first two_second ind.
have hk0 : (k < dim A0)%N by rewrite d0.
have := C82_lipschitz D U same F1 F2 (lev _ HE) HE' hk0.
rewrite (eq_bigr (fun j => Rabs (val j.1.1.2) * Rabs (Rminus (phi j.1.2) (ext_flux loops' B' j.1.2)))) // => j _.
by rewrite two_first two_second (_ : Rminus (val _) _ = R0) ?Rabs_R0 ?add0r //; exact: Rminus_eq_0.
Qed.
Print Assumptions C87_near.

(** Angles of the modes of a circuit from angles of all modes: modes that couple to
    no junction do not matter. *)
Lemma row_angles optim st (y : nat -> R) : exists theta : nat -> R, forall w, (w < t_m st)%N ->
  \sum_(k < t_n (finish_modes optim st)) theta k * t_wT (finish_modes optim st) w k = \sum_(j < t_n st) y j * t_wT st w j.
Proof.
rewrite /finish_modes; case: ifP => _; last by exists y.
have [idx [srt mem sz [_ _ wT _ _]]] := C26_removal st; exists (fun k => y (nth k idx k)) => w hw.
rewrite sz; have uq : uniq idx by apply: sorted_uniq srt; [exact: ltn_trans|exact: ltnn].
transitivity (\sum_(j <- idx) y j * t_wT st w j).
  rewrite (big_nth 0%N) big_mkord; apply: eq_bigr => k _; rewrite wT.
  by rewrite (set_nth_default 0%N).
transitivity (\sum_(j <- iota 0 (t_n st)) y j * t_wT st w j); last by rewrite -{1}[t_n st]subn0 -/(index_iota 0 _) big_mkord.
rewrite [RHS](bigID (fun j => j \in idx)) /= [X in _ + X]big1_seq ?addr0; last first.
  move=> j /andP [/negP nin]; rewrite mem_iota add0n => /andP [_ hj]; case E: (t_wT st w j == 0); first by rewrite (eqP E) mulr0.
  by exfalso; apply: nin; apply/mem; split=> //; exists w; split=> //; apply/eqP; rewrite E.
rewrite -[RHS]big_filter; apply: perm_big; apply: uniq_perm => //; first by rewrite filter_uniq ?iota_uniq.
move=> j; rewrite mem_filter mem_iota add0n; case E: (j \in idx) => //=; by have /mem [-> _] := E.
Qed.

(** Two distributions of the external flux ("all", "junctions", "inductors") over the
    same circuit: the shares of each loop differ by the branch variables of some node
    variables. *)
Section Shares.
Variables (sv sv' : svd_fun) (optim : bool) (s : store) (fd fd' : string) (n : nat)
  (lobj lobj' : nat -> lrec) (d : list (edge * list nat)) (c c' : cst).
Hypothesis built : get_LCWB optim s fd (Z.of_nat n) lobj d = Ok c.
Hypothesis built' : get_LCWB optim s fd' (Z.of_nat n) lobj' d = Ok c'.
Hypothesis proper_d : proper_dict n d.
Hypothesis valid : valid_dist fd.
Hypothesis valid' : valid_dist fd'.
Hypothesis simple : simple_loops s d.
Hypothesis caps : fd = "all"%string -> forall b, (b < nbranch s d)%N -> Rlt 0 (evalue s (ecap s (occ_el (branch s d b)))).
Hypothesis Hsv : svd_right sv n c.
Hypothesis Hsv' : svd_right sv' n c'.

Theorem C87_shares B B' k : flux_dist sv n c = Ok (Some B) -> flux_dist sv' n c' = Ok (Some B') ->
  (k < size (c_loops c))%N ->
  exists x, forall b, (b < nbranch s d)%N -> ofM B' b k - ofM B b k = bdrop s d b x.
Proof. exact: (potential built built' proper_d valid valid' simple caps Hsv Hsv'). Qed.

(** The energies of a circuit without inductors: all modes of [st] are charge modes,
    their couplings are 0 or +-1 (C25) and are the rows of W in the new coordinates
    (the rounding of the couplings changed nothing).  [B], [B'] are the shares rounded
    to five decimals. *)
Variables (st : tst) (disp : nat -> C -> op) (h : hin) (val : nat -> R) (phi : seq R).
Hypothesis st_n : t_n st = n.
Hypothesis st_m : t_m st = size (c_W c).
Hypothesis charge_modes : forall j, (j < n)%N -> is_charge st j.
Hypothesis invertible : toM n n (t_S st) \in unitmx.
Hypothesis exact_w : forall i j, (i < size (c_W c))%N -> (j < n)%N ->
  t_wT st i j = \sum_(k < n) rows (c_W c) i k * t_S st k j.
Hypothesis units : forall i j, (i < size (c_W c))%N -> (j < n)%N -> t_wT st i j = 0 \/ t_wT st i j = 1 \/ t_wT st i j = - 1.
Hypothesis modes : h_st h = finish_modes optim st.
Hypothesis D : forall m a, dim (disp m a) = m.
Hypothesis U : forall m a, unitary (disp m a).
Hypothesis size_phi : size phi = size (c_loops c).

Let ks := mkKeys [::] (c_keys_jj c).

Lemma all_charge k : (k < hn h)%N -> hcharge h k.
Proof.
rewrite /hn /hcharge modes /finish_modes; case: ifP => _; last by rewrite st_n => /charge_modes.
have [idx [_ mem sz [_ _ _ om _]]] := C26_removal st; rewrite sz /is_charge om => hk.
apply: charge_modes; rewrite -st_n; have /mem [] // : nth k idx k \in idx by exact: mem_nth.
Qed.

Lemma key_row e el b w : List.In (e, el, b, w) (c_keys_jj c) ->
  [/\ (w < size (c_W c))%N, (b < nbranch s d)%N & forall x, bdrop s d b x = \sum_(j < n) rows (c_W c) w j * x j].
Proof.
move=> hin; have [occ [_ [_ [J _]]]] := C16_row_bookkeeping _ _ _ _ _ _ _ built proper_d.
have [_ [row [k1 [w1 _]]]] := J _ _ _ _ hin.
have hw : (w < size (c_W c))%N by apply/ssrnat.ltP; apply/List.nth_error_Some; rewrite w1.
have hb : (b < nbranch s d)%N.
  have [_ km _ _ _ _ _] := LCWB_book _ _ _ _ _ _ _ built.
  apply/ssrnat.ltP; have := proj1 (List.nth_error_Some (c_kmat c) b); rewrite k1 km List.map_length; exact.
split=> // x; rewrite (bdropM built proper_d) //; apply: eq_bigr => j _; rewrite /rows.
by rewrite -!nthE (List.nth_error_nth _ _ _ k1) (List.nth_error_nth _ _ _ w1).
Qed.

(** The angles of the charge modes that lead from one distribution to the other. *)
Lemma shares_gauge B B' : flux_dist sv n c = Ok (Some B) -> flux_dist sv' n c' = Ok (Some B') ->
  exists theta, forall e el b w, List.In (e, el, b, w) (c_keys_jj c) ->
    ext_flux phi (ofM B') b = ext_flux phi (ofM B) b + row_phase h theta w.
Proof.
move=> HB HB'; have ex (k : 'I_(size (c_loops c))) := C87_shares HB HB' (ltn_ord k).
have {ex} /fin_all_exists [x xE] := ex.
pose X j := \sum_(k < size (c_loops c)) nth 0 phi k * x k j.
pose y : 'cV[R]_n := invmx (toM n n (t_S st)) *m \col_j X j.
have yE (j : 'I_n) : X j = \sum_(i < n) t_S st j i * y i 0.
  have /matrixP /(_ j 0) : toM n n (t_S st) *m y = \col_j X j by rewrite /y mulmxA mulmxV // mul1mx.
  by rewrite !mxE => <-; apply: eq_bigr => i _; rewrite !mxE.
have [theta tE] := row_angles optim st (fun i => ofM y i 0%N); exists theta => e el b w hin.
have [hw hb row] := key_row hin; rewrite -[LHS](subrK (ext_flux phi (ofM B) b)) addrC; congr (_ + _).
have -> : row_phase h theta w = \sum_(k < hn h) theta k * t_wT (h_st h) w k.
  by rewrite /row_phase; apply: eq_bigl => k; exact: all_charge.
rewrite /hn modes tE ?st_m // st_n /ext_flux -sumrB size_phi.
transitivity (\sum_(j < n) rows (c_W c) w j * X j).
  transitivity (\sum_(k < size (c_loops c)) nth 0 phi k * \sum_(j < n) rows (c_W c) w j * x k j).
    by apply: eq_bigr => k _; rewrite -mulrBr xE // row.
  under eq_bigr do rewrite mulr_sumr; rewrite exchange_big /=; apply: eq_bigr => j _.
  by rewrite /X mulr_sumr; apply: eq_bigr => k _; rewrite mulrCA.
under eq_bigr do rewrite yE mulr_sumr; rewrite exchange_big /=; apply: eq_bigr => i _.
rewrite exact_w // mulr_sumr (ofME y i ord0); apply: eq_bigr => j _.
by rewrite mulrA mulrC.
Qed.

Lemma units_h : unit_rows h ks.
Proof.
move=> [[[e el] b] w] k hin; have [hw _ _] := key_row hin; rewrite /hn modes /finish_modes /=; case: ifP => _.
  have [idx [_ mem sz [_ _ wT _ _]]] := C26_removal st; rewrite sz wT => hk _.
  by apply: units => //; rewrite -st_n; have /mem [] // : nth k idx k \in idx by exact: mem_nth.
by rewrite st_n => hk _; apply: units.
Qed.

(** With the exact shares the energies agree. *)
Theorem C87_distributions B B' A : flux_dist sv n c = Ok (Some B) -> flux_dist sv' n c' = Ok (Some B') ->
  hamiltonian disp h val phi (ofM B) ks = Ok A ->
  exists2 A', hamiltonian disp h val phi (ofM B') ks = Ok A' & forall E, energies A E -> energies A' E.
Proof.
move=> HB HB' EA; have [theta tE] := shares_gauge HB HB'.
have g : gauge h theta ks phi phi (ofM B) (ofM B').
  by split=> [//|[[[e el] b] w] /tE /= ->]; exists Z0; rewrite -[IZR Z0]/(0 : R) mul0r addr0.
by have [A' EA' [_ lev]] := C87_gauge D units_h g EA; exists A'.
Qed.

(** With the shares rounded to five decimals they agree up to 1e-5 of the Josephson
    energies per unit of flux. *)
Theorem C87_rounded B B' Br Br' A A' E E' : flux_dist sv n c = Ok (Some B) -> flux_dist sv' n c' = Ok (Some B') ->
  b_of n sv c = Ok Br -> b_of n sv' c' = Ok Br' ->
  hamiltonian disp h val phi Br ks = Ok A -> hamiltonian disp h val phi Br' ks = Ok A' ->
  energies A E -> energies A' E' -> forall k, (k < dim A)%N ->
  Rle (Rabs (Rminus (E k) (E' k)))
      (\sum_(j <- c_keys_jj c) Rabs (val j.1.1.2) * Rmult (/ 10 ^ 5) (\sum_(l < size phi) Rabs (nth 0 phi l))).
Proof.
move=> HB HB'; rewrite /b_of HB HB' => -[<-] [<-] EA EA' HE HE' k hk; have [theta tE] := shares_gauge HB HB'.
set Fr := fun i j => around5 _ in EA; set Fr' := fun i j => around5 _ in EA'.
pose target b := (ext_flux phi Fr b + (ext_flux phi (ofM B') b - ext_flux phi (ofM B) b)).
have g : gauge h theta ks phi [:: 1] Fr (fun b _ => target b).
  split=> [//|[[[e el] b] w] /tE /= tb]; exists Z0; rewrite -[IZR Z0]/(0 : R) mul0r addr0.
  rewrite /ext_flux /= big_ord_recl big_ord0 /= mul1r addr0 -/(ext_flux phi Fr b) /target tb.
  by congr (_ + _); rewrite addrC addKr.
have := C87_near D U units_h g _ EA EA' HE HE' hk => /(_ (fun i F => match F with end)) le1.
apply: Rle_trans le1 _; apply/RleP; apply: Num.Theory.ler_sum => j _; apply/RleP; apply: Rmult_le_compat_l; first exact: Rabs_pos.
have rnd (M : arr) b : Rle (Rabs (Rminus (ext_flux phi (fun i l => around5 (M i l)) b) (ext_flux phi M b)))
    (Rmult (5 / 10 ^ 6) (\sum_(l < size phi) Rabs (nth 0 phi l))).
  by have := C23_external_phase (size phi) (nth 0 phi) M b; rewrite !sumnE.
by apply: near_four; exact: rnd.
Qed.

(** So do the frequencies diag() returns. *)
Theorem C87_returned eigs argsort u nf B B' Br Br' old old' r r' fr fr' ve ve' :
  (forall A, smallest eigs A nf) -> Rlt R0 (get_unit_freq u) ->
  flux_dist sv n c = Ok (Some B) -> flux_dist sv' n c' = Ok (Some B') ->
  b_of n sv c = Ok Br -> b_of n sv' c' = Ok Br' ->
  diag eigs argsort u true (hamiltonian disp h val phi Br ks) (Some (Z.of_nat nf)) old = (r, Ok (fr, ve)) ->
  diag eigs argsort u true (hamiltonian disp h val phi Br' ks) (Some (Z.of_nat nf)) old' = (r', Ok (fr', ve')) ->
  size fr = nf /\ size fr' = nf /\ forall i, (i < nf)%N ->
  Rle (Rmult (Rabs (Rminus (nth 0 fr i) (nth 0 fr' i))) (unit_rad u))
      (\sum_(j <- c_keys_jj c) Rabs (val j.1.1.2) * Rmult (/ 10 ^ 5) (\sum_(l < size phi) Rabs (nth 0 phi l))).
Proof.
move=> solver u0 HB HB' HBr HBr'; case EA: hamiltonian => [A|e]; last by rewrite /diag.
case EA': hamiltonian => [A'|e] d1; last by rewrite /diag.
move=> d2; have [_ hA] := hamiltonian_ok D EA; have [_ hA'] := hamiltonian_ok D EA'.
have [E HE] := energies_exist hA; have [E' HE'] := energies_exist hA'.
have [kd ->] := C84_returned (@solver A) HE d1; have [_ ->] := C84_returned (@solver A') HE' d2.
rewrite !size_map !size_iota; do 2!split=> //; move=> i hi.
rewrite !(nth_map 0%N) ?size_iota // !nth_iota // !add0n; apply: div_abs; last by apply: (C87_rounded HB HB' HBr HBr' EA EA' HE HE'); rewrite (leq_trans hi kd).
apply: Rmult_lt_0_compat => //; apply: Rmult_lt_0_compat; [lra|exact: PI_RGT_0].
Qed.
End Shares.
Print Assumptions C87_shares.
Print Assumptions C87_distributions.
Print Assumptions C87_rounded.
Print Assumptions C87_returned.

(** Two branches between node 1 and ground: the distribution is found. *)
Lemma par_found optim s fd c : get_LCWB optim s fd 1 wl gd = Ok c ->
  c_bid c = 2%N /\ c_kmat c = [:: [:: Zpos xH]; [:: Zpos xH]] /\ c_loops c = [:: 0%N] /\
  l_kmat (c_lobj c 0%N) = [:: [:: Zpos xH]; [:: Zpos xH]] /\ l_indices (c_lobj c 0%N) = [:: 0%N; 1%N] ->
  valid_dist fd -> simple_loops s gd -> grounded_branches s gd ->
  (forall b, (b < nbranch s gd)%N -> Rlt 0 (evalue s (ecap s (occ_el (branch s gd b))))) ->
  svd_right sv0 1 c /\ exists B, flux_dist sv0 1 c = Ok (Some B) /\ no_induced_charge s fd gd 1 (ofM B) /\ loop_sums s gd [:: 0%N] (ofM B).
Proof.
move=> Hc [Eb [Ek [El [Em Ei]]]] Hv Hs Hg Hpos.
have Hsv : svd_right sv0 1 c by split=> [|l _]; apply: sv0_good.
split=> //.
have K1 (kl := c_kmat c) i : (i < 2)%N -> rows kl i 0 = 1 by rewrite /kl Ek /rows; case: i => [|[|]].
have Hk : kept_columns sv0 2 1 (rows (c_kmat c)) = [:: 0%N].
  rewrite C21_first_rank_columns ?ones_rank //; last exact: sv0_good.
  by rewrite nzcols_all // => j; rewrite ltnS leqn0 => /eqP ->; exists ord0; rewrite K1 // oner_eq0.
have [g Eg] : exists g, get_g sv0 1 (l_kmat (c_lobj c 0%N)) = Ok g.
  have -> : l_kmat (c_lobj c 0%N) = c_kmat c by rewrite Em Ek.
  rewrite /get_g (_ : size (c_kmat c) = 2%N) /=; last by rewrite Ek.
  rewrite Hk /=; case: ifP => [_|/negbT/negP []]; first by eexists.
  rewrite unitmxE det_trig.
    rewrite !big_ord_recl big_ord0 !mxE /= K1 // !mulr1; exact: unitr1.
  apply/is_trig_mxP; case=> [[|[|//]] ?]; case=> [[|[|//]] ?] //= _.
  by rewrite mxE.
have [B HB] : exists B, flux_dist sv0 1 c = Ok (Some B).
  apply: (@C22_found sv0 optim s fd 1 wl gd c [:: scatter [:: 0%N; 1%N] g] Hc gd_proper Hv Hs Hsv Hg) => //.
  - by rewrite El.
  - rewrite -(@bidE optim s fd 1 wl gd c Hc) El Eb ones_rank // => i; exact: K1.
  - by rewrite El /= Eg Ei.
  - have in0 : 0%N \in c_loops c by rewrite El mem_head.
    have [[g0 _] _] := get_gP Eg (Hsv.2 0%N in0).
    have nb : (0 < nbranch s gd)%N by rewrite -(@bidE optim s fd 1 wl gd c Hc) Eb.
    rewrite El => a Ha k; have := Ha 0%N nb; rewrite big_ord_recl big_ord0 addr0 /=.
    have -> : scatter [:: 0%N; 1%N] g 0%N = 1 by rewrite scatterE //= g0.
    by rewrite mulr1 => <-; congr a; apply: val_inj; case: k => [[|]].
exists B; split=> //; have [q1 [_ [q3 _]]] := @C22_flux_distribution sv0 optim s fd 1 wl gd c B Hc gd_proper Hv Hs Hsv HB.
by move: q1 q3; move: (ofM B) => Bf; rewrite El.
Qed.

(** With an inductor in the loop and the harmonic mode truncated the distribution is
    seen: one photon state, half a flux quantum, "junctions" against "inductors". *)
Lemma one_photon disp val phi B : (forall m a, dim (disp m a) = m) -> exists2 A,
  hamiltonian disp (truncated oscillator [:: 1%N]) val [:: phi] B
    (mkKeys [:: ((Z0, Zpos xH), 1%N, 0%N)] [:: ((Z0, Zpos xH), 2%N, 1%N, 0%N)]) = Ok A &
  energies A (fun=> Ropp (Rmult (val 2%N) (cos (Rmult phi (B 1%N 0%N))))).
Proof.
move=> D; set g := truncated _ _; set ks := mkKeys _ _.
have ch : hcharge g 0%N = false by rewrite /hcharge /is_charge /= oner_eq0.
have [A EA] : exists A, hamiltonian disp g val [:: phi] B ks = Ok A.
  by apply: hamiltonian_total => // k [<-|//]; right.
exists A => //; have [dA _] := hamiltonian_ok D EA.
have m1 : hm g 0 = 1%N by rewrite trunc_hm // (ch : hcharge oscillator 0 = false).
have n1 : hn g = 1%N by [].
have d1 : dim A = 1%N by rewrite dA /total n1 big_ord_recl big_ord0 m1.
have e0 : ent A 0 0 = (Ropp (Rmult (val 2%N) (cos (Rmult phi (B 1%N 0%N)))))%:C.
  rewrite (hamiltonian_entry _ _ EA) /= !big_seq1 /=.
  have LC : oent (LC_hamil g) 0 0 = 0.
    rewrite /LC_hamil n1 /= /LC_term ch /= -/g opNE n1 T1 /one_fam eqxx /num_op_isolated ch m1 /=.
    by rewrite mulr0.
  have cp : cpl g (Z0, Zpos xH) 0 0 = 0.
    rewrite /cpl /coupling_op; case: coupling_coef => // q; rewrite n1 /= opPhiE n1 T1 /one_fam eqxx /flux_op_isolated ch m1 /=.
    by rewrite mulr0.
  have op : opExp disp g 0 = oeye 1 by rewrite /opExp n1 /= /exp_iso ch m1.
  rewrite LC cp mulr0 !addr0 sub0r /jjent op [ent (oeye 1) 0 0]/= mulr1.
  have -> : ext_flux [:: phi] B 1 = Rmult phi (B 1%N 0%N) by rewrite /ext_flux big_ord_recl big_ord0 addr0.
  set x := Rmult _ _; rewrite cRN cRM; congr (- (_ * _)).
  have -> : expi x + (expi x)^* = (cos x)%:C + (cos x)%:C by congr Complex; rewrite /= subrr addr0.
  have half y : 2%:R^-1 * (y + y) = y :> C by rewrite -mulr2n -[y *+ 2]mulr_natl mulKf // Num.Theory.pnatr_eq0.
  by rewrite half.
exists (fun _ _ => 1); rewrite /levels_of d1; split; first by move=> i j _; apply: Rle_refl.
  by move=> [|//] [|//] _ _; rewrite big_ord_recl big_ord0 addr0 e0 !mulr1.
by move=> [|//] [|//] _ _; rewrite big_ord_recl big_ord0 addr0 cj1 mulr1.
Qed.

Theorem C87_inductors_refuted disp : (forall m a, dim (disp m a) = m) -> exists h val phi c c' B B' A A' E E',
  [/\ get_LCWB false ws "junctions" 1 wl gd = Ok c /\ get_LCWB false ws "inductors" 1 wl gd = Ok c',
      b_of 1 sv0 c = Ok B /\ b_of 1 sv0 c' = Ok B',
      hamiltonian disp h val phi B (mkKeys (c_keys_ind c) (c_keys_jj c)) = Ok A /\
      hamiltonian disp h val phi B' (mkKeys (c_keys_ind c) (c_keys_jj c)) = Ok A',
      energies A E /\ energies A' E' & Rlt (E' 0%N) (E 0%N)].
Proof.
move=> D; have [c Hc] := gd_run false "junctions"; have [c' Hc'] := gd_run false "inductors".
have pos b : (b < nbranch ws gd)%N -> Rlt 0 (evalue ws (ecap ws (occ_el (branch ws gd b)))).
  by move=> _; rewrite /= /ws /evalue /ecap; apply: lt_0_INR; lia.
have [_ [M [EM [q1 q2]]]] := par_found Hc (gd_facts _ _ _ Hc) (or_intror (or_introl erefl)) (ws_simple gd) gd_grounded pos.
have [_ [M' [EM' [p1 p2]]]] := par_found Hc' (gd_facts _ _ _ Hc') (or_intror (or_intror erefl)) (ws_simple gd) gd_grounded pos.
have [_ r1] := ws_junctions _ q1 q2; have [_ r1'] := ws_inductors _ p1 p2.
have [ki kj] := ws_keys _ _ _ Hc; pose B i j := around5 (ofM M i j); pose B' i j := around5 (ofM M' i j).
have [A EA HE] := one_photon (fun=> R1) PI B D; have [A' EA' HE'] := one_photon (fun=> R1) PI B' D.
exists (truncated oscillator [:: 1%N]), (fun=> R1), [:: PI], c, c', B, B', A, A'; do 2!eexists; split; first by [].
- by rewrite /b_of EM EM'.
- by rewrite ki kj; split; [exact: EA|exact: EA'].
- by split; [exact: HE|exact: HE'].
- rewrite /B /B' r1 r1'.
  have t : Rlt (Ropp (Rmult R1 (cos (Rmult PI 0)))) (Ropp (Rmult R1 (cos (Rmult PI (Ropp R1))))).
    by rewrite Rmult_0_r cos_0 Ropp_mult_distr_r_reverse !Rmult_1_r cos_neg cos_PI; lra.
  exact: t.
Qed.
Print Assumptions C87_inductors_refuted.

(** Two junctions between a node and ground, one charge mode: "junctions" gives the
    shares 1/2 and -1/2, "all" 13/25 and -12/25; the energies are the same at every
    flux. *)
Definition island : tst := mkT 1 1 1 1 eye eye eye eye (fun _ _ => 0) (fun _ _ => 1) (fun=> 0).
Example C87_case disp ng val phi : (forall m a, dim (disp m a) = m) -> exists c c' M M',
  [/\ get_LCWB true gs "junctions" 1 wl gd = Ok c /\ get_LCWB true gs "all" 1 wl gd = Ok c',
      flux_dist sv0 1 c = Ok (Some M) /\ flux_dist sv0 1 c' = Ok (Some M'),
      ofM M 0 0 = Rdiv 1 2 /\ ofM M' 0 0 = Rdiv 13 25 &
      forall m, (0 < m)%N -> exists A A' E, let h := mkH (finish_modes true island) [:: m] ng eye in
        [/\ hamiltonian disp h val [:: phi] (ofM M) (mkKeys [::] (c_keys_jj c)) = Ok A,
            hamiltonian disp h val [:: phi] (ofM M') (mkKeys [::] (c_keys_jj c)) = Ok A',
            energies A E & energies A' E]].
Proof.
move=> D; have [c Hc] := gs_run true "junctions"; have [c' Hc'] := gs_run true "all".
have pos b : (b < nbranch gs gd)%N -> Rlt 0 (evalue gs (ecap gs (occ_el (branch gs gd b)))).
  by move=> _; rewrite /= /gs /evalue /ecap; apply: lt_0_INR; lia.
have v : valid_dist "junctions" by right; left.
have v' : valid_dist "all" by left.
have [sv [M [EM [q1 q2]]]] := par_found Hc (gs_facts _ _ _ Hc) v (gs_simple gd) gs_grounded pos.
have [sv' [M' [EM' [p1 p2]]]] := par_found Hc' (gs_facts _ _ _ Hc') v' (gs_simple gd) gs_grounded pos.
have [r0 _] := gs_junctions _ q1 q2; have [r0' _] := gs_all _ p1 p2.
exists c, c', M, M'; split=> // m m0; set h := mkH _ _ _ _.
have Wc : c_W c = [:: [:: Zpos xH]] by exact: gs_W Hc.
have [A EA] : exists A, hamiltonian disp h val [:: phi] (ofM M) (mkKeys [::] (c_keys_jj c)) = Ok A.
  by apply: hamiltonian_total.
have nz (P : Prop) : "junctions"%string = "all"%string -> P by [].
have [_ [_ [El _]]] := gs_facts _ _ _ Hc.
have [||||||A' EA' lev] := @C87_distributions sv0 sv0 true gs "junctions" "all" 1 wl wl gd c c' Hc Hc' gd_proper v v' (gs_simple gd)
  (fun F => nz _ F) sv sv' island disp h val [:: phi] erefl _ _ _ _ _ erefl D _ M M' A EM EM' EA.
- by rewrite Wc.
- by move=> j _; rewrite /is_charge /= eqxx.
- rewrite (_ : toM 1 1 _ = 1%:M) ?unitmx1 //; apply/matrixP => i j; rewrite !mxE /eye; by case: i => [[|]]; case: j => [[|]].
- by rewrite Wc => -[|//] [|//] _ _; rewrite big_ord_recl big_ord0 /rows /= /eye /= addr0 mulr1.
- by move=> i j _ _; right; left.
- by rewrite El.
have [_ hA] := hamiltonian_ok D EA; have [E HE] := energies_exist hA; exists A, A', E; split=> //; exact: lev.
Qed.

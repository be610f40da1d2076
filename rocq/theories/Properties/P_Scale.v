(** P_Scale.v -- C88: energies scale with the circuit parameters. *)
From Coq Require Import Reals ZArith String Lia Lra.
From Verif.Model Require Import Base Units Settings Edge Elements LCWB Accuracy HamConst.
From Verif.Spec Require Import GraphSpec CircuitSpec FluxSpec ScaleSpec.
From Verif.Proofs Require Import LCWBProofs BookProofs ScaleBook.
From Verif.Properties Require Import P_Circuit.
Lemma root_pos x : Rlt 0 x -> Rlt 0 (sqrt x) /\ Rmult (sqrt x) (sqrt x) = x.
Proof. intros H. split; [apply sqrt_lt_R0; auto|apply sqrt_sqrt; lra]. Qed.
Lemma unscale x a b : Rlt 0 x -> Rmult x a = Rmult x b -> a = b.
Proof. intros H E. apply (Rmult_eq_reg_l x); auto. lra. Qed.
From mathcomp Require Import all_ssreflect all_algebra.
From mathcomp Require Import complex ring zify.
From Verif.Numerics Require Import RStruct Bridge.
From Verif.Model Require Import Op Transform FluxDist Ham Diag CircuitSM.
From Verif.Spec Require Import OpSpec LevelsSpec LowestSpec TransSpec.
From Verif.Proofs Require Import OpProofs HamProofs HamProofs2 HamProofs6 MinMaxProofs FluxProofs FluxProofs2 TransProofs RelabelProofs2 ScaleProofs.
From Verif.Spec Require Import SymmetrySpec.
From Verif.Proofs Require Import ExpProofs2.
From Verif.Properties Require Import P_Flux P_Transform P_Ops P_Lowest P_Photons.

Set Implicit Arguments.
Unset Strict Implicit.
Unset Printing Implicit Defensive.
Import GRing.Theory Order.TTheory.
Local Open Scope ring_scope.
Local Open Scope complex_scope.

(** The rescaled elements give C/x and x L, the same rows of W and B, and the same
    tables of inductors and junctions. *)
Theorem C88_circuit x optim s fd n lobj d c : Rlt 0 x -> own_capacitors s -> proper_dict n d ->
  get_LCWB optim s fd (Z.of_nat n) lobj d = Ok c ->
  exists2 c', get_LCWB optim (rescale_store x s) fd (Z.of_nat n) lobj d = Ok c' &
    (forall i j, c_C c' i j = Rdiv (c_C c i j) x /\ c_L c' i j = Rmult x (c_L c i j)) /\
    [/\ c_W c' = c_W c, c_njwi c' = c_njwi c, c_kmat c' = c_kmat c, c_loops c' = c_loops c &
        c_keys_ind c' = c_keys_ind c /\ c_keys_jj c' = c_keys_jj c].
Proof.
move=> x0 own Hp H.
have [c' H'] : exists c', get_LCWB optim (rescale_store x s) fd (Z.of_nat n) lobj d = Ok c'.
  apply/(C13_construction_total _ _ _ _ _ _ Hp) => e els hin bad.
  by apply: (proj1 (C13_construction_total optim s fd n lobj d Hp) (ex_intro _ c H) e els hin); apply: sc_bad bad.
exists c' => //; have [m1 [m2 [m3 m4]]] := sc_mats _ _ own _ _ _ _ _ _ _ H H'.
by have [b1 [b2 [b3 b4]]] := sc_book _ _ _ _ _ _ _ _ _ H H'; do !split.
Qed.
Print Assumptions C88_circuit.

(** The flux is shared in the same way. *)
Theorem C88_shares x sv sv' optim s fd n lobj d c c' B B' b k : Rlt 0 x -> own_capacitors s -> proper_dict n d -> valid_dist fd ->
  simple_loops s d -> get_LCWB optim s fd (Z.of_nat n) lobj d = Ok c ->
  get_LCWB optim (rescale_store x s) fd (Z.of_nat n) lobj d = Ok c' ->
  svd_right sv n c -> svd_right sv' n c' -> flux_dist sv n c = Ok (Some B) -> flux_dist sv' n c' = Ok (Some B') ->
  (b < nbranch s d)%N -> (k < size (c_loops c))%N -> ofM B' b k = ofM B b k.
Proof.
move=> x0 own Hp Hv Hs H H' R1 R2 F1 F2 hb hk.
have [_ [_ [_ uq]]] := C22_flux_distribution H Hp Hv Hs R1 F1.
have [q1 [_ [q3 _]]] := C22_flux_distribution H' Hp Hv Hs R2 F2.
have [_ [_ [_ El]]] := sc_book _ _ _ _ _ _ _ _ _ H H'.
move: q1 q3; move: (ofM B') => Bf; rewrite El => q1 q3; apply: uq; [| |exact/ssrnat.ltP|exact/ssrnat.ltP].
- by apply: sc_no_induced q1.
- by apply: sc_loop_sums q3.
Qed.
Print Assumptions C88_shares.


(** Square roots and singular value decompositions of the two circuits: the singular
    values, and with them the mode frequencies, are multiplied. *)
Section Modes.
Variables (x : R) (optim : bool) (s : store) (fd : string) (n : nat) (lobj : nat -> lrec).
Variables (d : list (edge * list nat)) (c c' : cst).
Hypothesis x0 : Rlt 0 x.
Hypothesis own : own_capacitors s.
Hypothesis built : get_LCWB optim s fd (Z.of_nat n) lobj d = Ok c.
Hypothesis built' : get_LCWB optim (rescale_store x s) fd (Z.of_nat n) lobj d = Ok c'.
Variables (croot lroot X U croot' lroot' X' U' : arr) (D0 D0' : vec).
Hypothesis rC : root_of (toM n n (c_C c)) (toM n n croot).
Hypothesis rL : root_of (toM n n (c_L c)) (toM n n lroot).
Hypothesis dec : svd_of (toM n n lroot *m invmx (toM n n croot)) (toM n n X) (toM n n U) (toV n D0).
Hypothesis rC' : root_of (toM n n (c_C c')) (toM n n croot').
Hypothesis rL' : root_of (toM n n (c_L c')) (toM n n lroot').
Hypothesis dec' : svd_of (toM n n lroot' *m invmx (toM n n croot')) (toM n n X') (toM n n U') (toV n D0').
Hypothesis desc : forall i j, (i <= j < n)%N -> Rle (D0 j) (D0 i).
Hypothesis desc' : forall i j, (i <= j < n)%N -> Rle (D0' j) (D0' i).
Hypothesis invertible : toM n n (c_C c) \in unitmx.

Theorem C88_singular_values i : (i < n)%N -> D0' i = Rmult x (D0 i).
Proof.
have [m1 [m2 _]] := sc_mats _ _ own _ _ _ _ _ _ _ built built'.
have xn : x != 0 by apply/eqP => e; move: x0; rewrite e; exact: Rlt_irrefl.
have [y0 yy] := root_pos _ x0; set y := sqrt x in y0 yy.
have yn : y != 0 by apply/eqP => e; move: y0; rewrite e; exact: Rlt_irrefl.
have CE : toM n n (c_C c') = x^-1 *: toM n n (c_C c).
  by apply/matrixP => a b; rewrite !mxE m1 -RinvE mulrC.
have LE : toM n n (c_L c') = x *: toM n n (c_L c) by apply/matrixP => a b; rewrite !mxE m2.
have uC' : toM n n (c_C c') \in unitmx by rewrite CE unitmxZ ?unitrV ?unitfE.
have rC2 : root_of (toM n n (c_C c')) (y^-1 *: toM n n croot).
  case: (rC) => sC qC; split; first by rewrite linearZ /= sC.
  by rewrite -scalemxAl -scalemxAr scalerA qC CE -invfM -RmultE yy.
have rL2 : root_of (toM n n (c_L c')) (y *: toM n n lroot).
  case: (rL) => sL qL; split; first by rewrite linearZ /= sL.
  by rewrite -scalemxAl -scalemxAr scalerA qL LE -RmultE yy.
have dec2 : svd_of (y *: toM n n lroot *m invmx (y^-1 *: toM n n croot)) (toM n n X) (toM n n U) (x *: toV n D0).
  case: (dec) => h1 h2 h3 h4; split=> // [|j]; last by rewrite mxE; apply: Rmult_le_pos; [exact: Rlt_le|exact: h4].
  rewrite invmxZ; last by rewrite unitmxZ ?unitrV ?unitfE //; have : toM n n (c_C c) \in unitmx by []; case: (rC) => _ <-; rewrite unitmx_mul andbb.
  rewrite invrK -scalemxAl -scalemxAr scalerA h3 -RmultE yy.
  have -> : diag_mx (x *: toV n D0) = x *: diag_mx (toV n D0) by apply/matrixP => a b; rewrite !mxE mulrnAr.
  by rewrite -scalemxAr -scalemxAl.
have E1 := svd_char uC' rC2 rL2 dec2; have E2 := svd_char uC' rC' rL' dec'.
have P : perm_eq [seq (x *: toV n D0) 0 i ^+ 2 | i <- enum 'I_n] [seq toV n D0' 0 i ^+ 2 | i <- enum 'I_n].
  by apply: roots_eq; rewrite -E1 E2.
have e : x *: toV n D0 = toV n D0'.
  case: (dec2) (dec') => _ _ _ p1 [_ _ _ p2]; apply: sorted_values => // k l le; rewrite !mxE; last by apply: desc'; rewrite le ltn_ord.
  by apply: Rmult_le_compat_l; [exact: Rlt_le|apply: desc; rewrite le ltn_ord].
by move=> hi; have /rowP /(_ (Ordinal hi)) := e; rewrite !mxE.
Qed.

(** The mode frequencies.  [exact_]: the modes treated as charge modes are those whose
    singular value is zero. *)
Variables (m m' : nat) (W W' : arr) (st0 st0' st st' : tst) (eigL eigL' : vec).
Variables (tries tries' fuel fuel' : nat).
Hypothesis init : t_init n m (c_njwi c) (c_C c) (c_L c) W = Ok st0.
Hypothesis init' : t_init n m' (c_njwi c') (c_C c') (c_L c') W' = Ok st0'.
Hypothesis exact_ : forall i, (i < n)%N -> D0 i = 0 <-> i \in sing_locs n D0 eigL.
Hypothesis exact' : forall i, (i < n)%N -> D0' i = 0 <-> i \in sing_locs n D0' eigL'.

Theorem C88_frequencies sv sv' order order' draw draw' :
  transform_hamil croot D0 U eigL tries fuel sv order draw st0 = Some (Ok st) ->
  transform_hamil croot' D0' U' eigL' tries' fuel' sv' order' draw' st0' = Some (Ok st') ->
  forall i, (i < n)%N -> t_om st' i = Rmult x (t_om st i).
Proof.
have xn : x != 0 by apply/eqP => e; move: x0; rewrite e; exact: Rlt_irrefl.
move=> t t'; have [k [S [kn [H Q]] _ _ _]] := C24_normal_form init rC rL dec t.
have [k' [S' [kn' [H' Q']] _ _ _]] := C24_normal_form init' rC' rL' dec' t'.
have Z i : (i < n)%N -> (i \in iota (n - k) k) = (i \in iota (n - k') k').
  move=> hi; rewrite -S -S'; apply/idP/idP => h.
    by apply/exact' => //; rewrite C88_singular_values // (_ : D0 i = 0) ?RmultE ?mulr0 //; apply/exact_.
  apply/exact_ => //; have /exact' - /(_ hi) := h; rewrite C88_singular_values // RmultE => /eqP.
  by rewrite mulf_eq0 (negbTE xn) => /eqP.
have kk : k' = k.
  case: (ltngtP k' k) => // lt.
    have h : (n - k < n)%N by lia.
    by have := Z _ h; rewrite !mem_iota; lia.
  have h : (n - k' < n)%N by lia.
  by have := Z _ h; rewrite !mem_iota; lia.
move=> i hi; subst k'; case: (ltnP i (n - k)) => ik.
  have [_ [-> _]] := H _ ik; have [_ [-> _]] := H' _ ik; exact: C88_singular_values.
have hh : (n - k <= i < n)%N by rewrite ik.
by have [-> _] := Q _ hh; have [-> _] := Q' _ hh; rewrite RmultE mulr0.
Qed.
End Modes.
Print Assumptions C88_singular_values.
Print Assumptions C88_frequencies.

(** In the same coordinates the Hamiltonian is multiplied, and so are the energies. *)
Theorem C88_hamiltonian x disp h val val' loops B ks A : Rlt 0 x -> (forall m a, dim (disp m a) = m) ->
  rescaled_values x ks val val' -> hamiltonian disp h val loops B ks = Ok A ->
  exists2 A', hamiltonian disp (rescale x h) val' loops B ks = Ok A' &
    [/\ dim A' = dim A, forall i j, ent A' i j = x%:C * ent A i j &
        forall E, energies A E -> energies A' (fun k => Rmult x (E k))].
Proof.
move=> x0 D rv EA; have [A' EA' eA] := ham_scale x0 rv EA; exists A' => //.
have [d1 _] := hamiltonian_ok D EA; have [d2 _] := hamiltonian_ok D EA'.
have dd : dim A' = dim A by rewrite d1 d2.
split=> // E [v [asc eig orth]]; exists v; rewrite /levels_of dd; split=> //.
  by move=> i j ij; apply: Rmult_le_compat_l; [exact: Rlt_le|exact: asc].
move=> i a hi ha; rewrite RmultE cRM -mulrA -eig // mulr_sumr; apply: eq_bigr => b _; by rewrite eA mulrA.
Qed.
Print Assumptions C88_hamiltonian.

(** What diag() returns. *)
Theorem C88_returned x eigs argsort u k disp h val val' loops B ks old old' r r' fr fr' ve ve' : Rlt 0 x ->
  (forall A, smallest eigs A k) -> (forall m a, dim (disp m a) = m) -> rescaled_values x ks val val' ->
  diag eigs argsort u true (hamiltonian disp h val loops B ks) (Some (Z.of_nat k)) old = (r, Ok (fr, ve)) ->
  diag eigs argsort u true (hamiltonian disp (rescale x h) val' loops B ks) (Some (Z.of_nat k)) old' = (r', Ok (fr', ve')) ->
  fr' = [seq Rmult x f | f <- fr].
Proof.
move=> x0 solver D rv; case EA: hamiltonian => [A|e]; last by rewrite /diag.
have [A' EA' [_ _ H]] := C88_hamiltonian x0 D rv EA; rewrite EA' => d1 d2.
have [_ hA] := hamiltonian_ok D EA; have [E HE] := energies_exist hA.
have [_ ->] := C84_returned (@solver A) HE d1; have [_ ->] := C84_returned (@solver A') (H _ HE) d2.
by rewrite -map_comp; apply: eq_map => i /=; rewrite /Rdiv Rmult_assoc.
Qed.
Print Assumptions C88_returned.

(** A three-node circuit, and an oscillator with a junction whose energies -cos and
    omega - cos become three times as large. *)
Example C88_case disp B : exponential disp ->
  (exists c c', [/\ get_LCWB true ex "junctions" 3 exl exd = Ok c,
     get_LCWB true (rescale_store 3 ex) "junctions" 3 exl exd = Ok c' &
     forall i j, c_C c' i j = Rdiv (c_C c i j) 3 /\ c_L c' i j = Rmult 3 (c_L c i j)]) /\
  let r := hphi_zp oscillator 0%N * t_wT (h_st oscillator) 0%N 0%N in
  exists2 A, hamiltonian disp (rescale 3 (truncated oscillator [:: 2%N])) (fun=> IZR 3) [::] B (one_jj (Z0, Zpos xH) 0%N 0%N) = Ok A &
    energies A (fun n => Rmult 3 (Rminus (INR n) (cos r))).
Proof.
move=> exd0; have D := exp_disp_dims exd0; have x0 : Rlt 0 3 by lra.
split.
  have [c H] := ex_run true; have own : own_capacitors ex by move=> [|[|[|[|[|[|el]]]]]].
  have [c' H' [M _]] := C88_circuit x0 own (n := 3) ex_proper H.
  by exists c, c'.
move=> r; have ch : ~~ hcharge oscillator 0%N by rewrite /hcharge /is_charge /= oner_eq0.
have om : Rle R0 (t_om (h_st oscillator) 0%N) by exact: Rle_0_1.
have [_ [A [_ EA _ _ HE]]] := C85_one_mode (fun=> R1) B (Z0, Zpos xH) 0%N 0%N exd0 (erefl : hn oscillator = 1%N) ch om.
have rv : rescaled_values 3 (one_jj (Z0, Zpos xH) 0%N 0%N) (fun=> R1) (fun=> IZR 3).
  by split=> [k []|k _]; rewrite mulr1.
have [A' EA' [_ _ H]] := C88_hamiltonian x0 D rv EA.
exists A' => //; have [v [asc eig orth]] := H _ HE.
have e n : Rmult 3 (Rminus (INR n) (cos r)) = Rmult 3 (Rminus (Rmult (INR n) (t_om (h_st oscillator) 0%N)) (Rmult R1 (cos r))).
  by rewrite /= Rmult_1_l Rmult_1_r.
by exists v; split=> [i j|i a|//]; rewrite !e; [exact: asc|exact: eig].
Qed.

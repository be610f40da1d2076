(** P_Strong.v -- C101: external flux and the ground energy of circuits of islands. *)
From Coq Require Import Reals ZArith Lia Lra String List.
From Verif.Model Require Import Base Units Settings Edge Elements LCWB Rounding Accuracy HamConst.
From Verif.Spec Require Import GraphSpec CircuitSpec ThermalSpec.
From Verif.Proofs Require Import ElementsProofs AccProofs LCWBProofs OneNode.
Lemma half_pos x y : (x < y -> 0 < (y - x) / 2)%R. Proof. intros; lra. Qed.
Lemma squid_less e f c c' : (0 < e -> 0 < f -> c < c' -> e * e + f * f + 2 * e * f * c < e * e + f * f + 2 * e * f * c')%R.
Proof. intros E F l. apply Rplus_lt_compat_l. apply Rmult_lt_compat_l; trivial. apply Rmult_lt_0_compat; lra. Qed.
From mathcomp Require Import all_ssreflect all_algebra.
From mathcomp Require Import complex zify.
From Verif.Numerics Require Import RStruct Bridge.
From Verif.Model Require Import FluxDist Op Transform Ham Diag CircuitSM.
From Verif.Spec Require Import OpSpec TransSpec SymmetrySpec OneNodeSpec PerturbSpec LevelsSpec LowestSpec LinearSpec ParallelSpec SessionSpec LossSpec OrderSpec.
From Verif.Proofs Require Import OpProofs HamProofs HamProofs2 HamProofs5 HamProofs6 MinMaxProofs ExpProofs2 TransProofs LinearLevels.
From Verif.Proofs Require Import SMProofs SMProofs2 SMProofs3 LossSession OrderProofs OrderProofs2 GroundProofs FluxGround.
From Verif.Properties Require Import P_Lowest P_OneNode P_Order P_Parallel P_Simple.

Set Implicit Arguments.
Unset Strict Implicit.
Unset Printing Implicit Defensive.
Import GRing.Theory.
Local Open Scope ring_scope.
Local Open Scope complex_scope.

(** The ground state of an operator holds its lowest energy. *)
Lemma ground_expect A E v : levels_of A E v -> (0 < dim A)%N -> expect A (v 0%N) = E 0%N /\ weight (dim A) (v 0%N) = 1.
Proof.
move=> [_ EV ON] n0; have W : \sum_(a < dim A) (v 0%N a)^* * v 0%N a = 1 by have := ON 0%N 0%N n0 n0; rewrite eqxx.
split; last by rewrite /weight W.
rewrite /expect (_ : \sum_(a < dim A) _ = (E 0%N)%:C) //.
transitivity ((E 0%N)%:C * \sum_(a < dim A) (v 0%N a)^* * v 0%N a); last by rewrite W mulr1.
by rewrite mulr_sumr; apply: eq_bigr => a _; rewrite EV // mulrCA.
Qed.

(** Islands without inductors: no external flux, no higher ground energy. *)
Theorem C101_flux disp h val loops loops' B B' ks A A' E E' :
  (forall m a, dim (disp m a) = m) -> islands h -> symmetric (hn h) (t_cI (h_st h)) -> k_ind ks = [::] ->
  hamiltonian disp h val loops B ks = Ok A -> hamiltonian disp h val loops' B' ks = Ok A' ->
  (forall k, List.In k (k_jj ks) -> Rle 0 (val k.1.1.2)) ->
  (forall k, List.In k (k_jj ks) -> ext_flux loops' B' k.1.2 = 0) ->
  (0 < dim A)%N -> energies A E -> energies A' E' -> Rle (E' 0%N) (E 0%N).
Proof.
move=> D I sym ni EA EA' vp z n0 [v L] HE'.
have [dA _] := hamiltonian_ok D EA; have [dA' _] := hamiltonian_ok D EA'.
have [le we] := expect_less D I sym ni EA EA' vp z (v 0%N); have [e w] := ground_expect L n0.
rewrite dA in n0 w; have n0' : (0 < dim A')%N by rewrite dA'.
have := ground_below (fun a => (mag (v 0%N a))%:C) n0' HE'; rewrite dA' we w Rmult_1_r.
by move=> G; apply: Rle_trans G _; rewrite -e.
Qed.
Print Assumptions C101_flux.

(** ** Netlists *)
Section Session.
Variables (disp : nat -> C -> op) (optim : bool) (o : oracle) (s s1 s2 : store) (lobj : nat -> lrec) (fd : string).
Variables (d : seq (edge * seq nat)) (n : nat) (x0 : circ) (u : ustate) (cs : seq call) (tr : seq (world * res unit)).
Hypothesis disp_dim : forall m a, dim (disp m a) = m.
Hypothesis made : construct optim o s lobj fd d = Some (Ok x0).
Hypothesis calls : all leaves cs.
Hypothesis session : run disp optim (mkW s u x0) cs = Some tr.
Let x := w_x (final (mkW s u x0) tr).
Hypothesis nodes : node_count (List.map fst d) = Ok (Z.of_nat n).
Hypothesis whole : x_n x = n.
Hypothesis wired : proper_dict n d.
Hypothesis no_inductor : forall e els el, List.In (e, els) d -> List.In el els -> ekind s el <> KInd.
Hypothesis all_islands : islands (hof x).
(** The loops at any values, and the loops at zero. *)
Hypothesis junctions : forall j, List.In j (c_keys_jj (x_c x)) -> Rle 0 (evalue s1 j.1.1.2).
Hypothesis same : evalue s2 = evalue s1.
Hypothesis off : forall l, List.In l (c_loops (x_c x)) -> lvalue s2 l = 0.

Theorem C101_session A A' E E' : (hamil s1 x).2 = Ok A -> (hamil s2 x).2 = Ok A' -> (0 < dim A)%N ->
  energies A E -> energies A' E' -> Rle (E' 0%N) (E 0%N).
Proof.
have [G EL f uC] := made_facts nodes made calls session whole; rewrite -/x in G EL f uC.
have [-> _] := hamilE s1 G; have [-> _] := hamilE s2 G; rewrite /ham_of same => EA EA' n0 HE HE'.
have hnE : hn (hof x) = n by rewrite /hn /hof /=; exact: whole.
apply: (C101_flux disp_dim all_islands _ _ EA EA' _ _ n0 HE HE') => //.
- by rewrite hnE; exact: (frame_sym f (matrix_sym EL wired)).
- exact: no_ind_keys EL no_inductor.
move=> k _; rewrite /ext_flux big1 // => i _.
rewrite (_ : nth 0 _ _ = 0) ?mul0r ?mulr0 //.
case: i => i /= hi; rewrite size_map in hi; rewrite (nth_map 0%N) //; apply: off.
by elim: (c_loops (x_c x)) i hi => [|a l IH] [|i] //= hi; [left|right; apply: IH].
Qed.
End Session.
Print Assumptions C101_session.

(** ** One node *)
Section OneNode.
Variables (optim : bool) (s s' : store) (fd fd' : string) (lobj lobj' : nat -> lrec) (els els' : seq nat) (c c' : cst) (st0 st0' st st' : tst).
Variables (croot lroot X U croot' lroot' X' U' : arr) (D0 eigL D0' eigL' : vec) (tries fuel tries' fuel' : nat) (sv sv' : svd_fun).
Variables (order order' : seq R -> seq nat) (draw draw' : nat -> nat -> seq vec).
Variables (disp : nat -> C -> op) (m : nat) (ng : nat -> R) (loops loops' : seq R) (B B' : arr) (A A' : op).
Hypothesis ex : exponential disp.
Hypothesis K : constructed optim s fd lobj els c st0 st croot lroot X U D0 eigL tries fuel sv order draw.
Hypothesis K' : constructed optim s' fd' lobj' els' c' st0' st' croot' lroot' X' U' D0' eigL' tries' fuel' sv' order' draw'.
Hypothesis jj : existsb (is_jj s) els.
Hypothesis ni : existsb (is_ind s) els = false.
Hypothesis jj' : existsb (is_jj s') els'.
Hypothesis ni' : existsb (is_ind s') els' = false.
Hypothesis EA : one_ham optim s c st disp m ng loops B = Ok A.
Hypothesis EA' : one_ham optim s' c' st' disp m ng loops' B' = Ok A'.
Hypothesis same_cap : edge_cap s els = edge_cap s' els'.
(** The sums of E_J e^(i phase) over the junctions. *)
Let amp := total_amplitude (part_list (is_jj s) s els (ext_flux loops B)).
Let amp' := total_amplitude (part_list (is_jj s') s' els' (ext_flux loops' B')).

Lemma modulus_mag (x : C) : modulus2_of x = mag x * mag x. Proof. by rewrite mag2. Qed.
Lemma modulus_le (x y : C) : Rle (modulus2_of x) (modulus2_of y) -> Rle (mag x) (mag y).
Proof. by move=> le; rewrite /mag; apply: sqrt_le_1_alt. Qed.
Lemma modulus_lt (x y : C) : Rlt (modulus2_of x) (modulus2_of y) -> Rlt (mag x) (mag y).
Proof. by move=> lt; rewrite /mag; apply: sqrt_lt_1_alt; split=> //; apply/RleP; exact: nrm_ge0. Qed.
Lemma polar (x : C) : exists2 z : C, z^* * z = 1 & x = (mag x)%:C * z.
Proof.
have [z u e] : exists2 z : C, z^* * z = 1 & x = z * (mag x)%:C.
  by apply: turn_exists; rewrite -[LHS]/(nrm _) nrmR mag2.
by exists z => //; rewrite mulrC.
Qed.

(** More coupling does not raise the ground energy. *)
Lemma coupling E v E' : levels_of A E v -> energies A' E' -> (0 < m)%N -> Rle (modulus2_of amp) (modulus2_of amp') ->
  exists z : C, [/\ z^* * z = 1, weight m (fun a => z ^+ a * (mag (v 0%N a))%:C) = 1 &
  Rle (Rplus (expect A' (fun a => z ^+ a * (mag (v 0%N a))%:C))
    (if (1 < m)%N then Rmult (Rdiv (Rminus (mag amp') (mag amp)) 2) (Rmult (mag (v 0%N 1%N)) (mag (v 0%N 0%N))) else 0)) (E 0%N)].
Proof.
move=> L HE' m0 le; have [dA eA] := s_ent ex K jj ni EA; have [dA' eA'] := s_ent ex K' jj' ni' EA'.
rewrite -same_cap in eA'; have [z u t] := polar amp'.
have n0 : (0 < dim A)%N by rewrite dA.
have [e w] := ground_expect L n0; rewrite dA in w.
have [S W] := step_less (v 0%N) dA dA' eA eA' u t (modulus_le le).
by exists z; rewrite W w -e.
Qed.

Theorem C101_order E E' : Rle (modulus2_of amp) (modulus2_of amp') ->
  energies A E -> energies A' E' -> (0 < m)%N -> Rle (E' 0%N) (E 0%N).
Proof.
move=> le [v L] HE' m0; have [z [u w S]] := coupling L HE' m0 le; have [dA' _] := s_ent ex K' jj' ni' EA'.
have n0' : (0 < dim A')%N by rewrite dA'.
have := ground_below (fun a => z ^+ a * (mag (v 0%N a))%:C) n0' HE'; rewrite dA' w Rmult_1_r => G.
apply: Rle_trans G _; apply: Rle_trans S; rewrite -{1}[expect _ _]Rplus_0_r; apply: Rplus_le_compat_l.
case: ifP => _; last exact: Rle_refl.
apply: Rmult_le_pos; last by apply: Rmult_le_pos; exact: mag_ge0.
have := modulus_le le; lra.
Qed.

(** With two charge states or more it lowers it. *)
Theorem C101_strict E E' : Rlt (modulus2_of amp) (modulus2_of amp') ->
  energies A E -> energies A' E' -> (1 < m)%N -> Rlt (E' 0%N) (E 0%N).
Proof.
move=> lt HE HE' m1; have m0 := ltnW m1; have le := Rlt_le _ _ lt.
case: (Rle_lt_or_eq_dec _ _ (C101_order le HE HE' m0)) => // same.
have [v L] := HE; have [v' L'] := HE'; have [z [u w S]] := coupling L HE' m0 le.
have [dA' _] := s_ent ex K' jj' ni' EA'; have ml := modulus_lt lt.
have n0' : (0 < dim A')%N by rewrite dA'.
have cp : amp' <> 0.
  by move=> e; have := mag_ge0 amp; move: ml; rewrite e /mag nrm0 sqrt_0 => a b; lra.
have simple j : (0 < j < dim A')%N -> Rlt (E' 0%N) (E' j).
  by rewrite dA' => hj; exact: (C100_simple ex K' jj' ni' EA' cp HE' hj).
have gp : Rle 0 (Rmult (Rdiv (Rminus (mag amp') (mag amp)) 2) (Rmult (mag (v 0%N 1%N)) (mag (v 0%N 0%N)))).
  by apply: Rmult_le_pos; [have := half_pos _ _ ml; lra|apply: Rmult_le_pos; exact: mag_ge0].
rewrite m1 -same in S.
have low : Rle (expect A' (fun a => z ^+ a * (mag (v 0%N a))%:C)) (Rmult (E' 0%N) (weight (dim A') (fun a => z ^+ a * (mag (v 0%N a))%:C))).
  by rewrite dA' w Rmult_1_r; lra.
have [k kv] := lowest_only L' simple n0' low.
have [occ _] := C100_ground ex K' jj' ni' EA' cp L'.
have kn : k != 0.
  apply/eqP => k0; have := w; rewrite /weight big1 => [e|a _]; first by have {}e : R0 = R1 := e; lra.
  by rewrite kv ?dA' // k0 mul0r mulr0.
have mp a : (a < m)%N -> Rlt 0 (mag (v 0%N a)).
  move=> ha; case: (Rle_lt_or_eq_dec _ _ (mag_ge0 (v 0%N a))) => // e; case: (occ a ha).
  have : k * v' 0%N a = 0 by rewrite -kv ?dA' // -e cR0 mulr0.
  by move/eqP; rewrite mulf_eq0 (negbTE kn) => /eqP.
have pos : Rlt 0 (Rmult (Rdiv (Rminus (mag amp') (mag amp)) 2) (Rmult (mag (v 0%N 1%N)) (mag (v 0%N 0%N)))).
  by apply: Rmult_lt_0_compat; [exact: half_pos|apply: Rmult_lt_0_compat; exact: mp].
have := ground_below (fun a => z ^+ a * (mag (v 0%N a))%:C) n0' HE'; rewrite dA' w Rmult_1_r => G.
lra.
Qed.
End OneNode.
Print Assumptions C101_order.
Print Assumptions C101_strict.

(** ** Two junctions in a loop *)
(** The ground energy grows with the external phase between them up to half a flux quantum. *)
Theorem C101_squid optim s fd lobj els c st0 st croot lroot X U D0 eigL tries fuel sv order draw disp m ng loops loops' B A A' E E' e f p q p' q' :
  exponential disp -> constructed optim s fd lobj els c st0 st croot lroot X U D0 eigL tries fuel sv order draw ->
  existsb (is_jj s) els -> existsb (is_ind s) els = false ->
  part_list (is_jj s) s els (ext_flux loops B) = [:: (e, p); (f, q)] ->
  part_list (is_jj s) s els (ext_flux loops' B) = [:: (e, p'); (f, q')] -> Rlt 0 e -> Rlt 0 f ->
  one_ham optim s c st disp m ng loops B = Ok A -> one_ham optim s c st disp m ng loops' B = Ok A' ->
  energies A E -> energies A' E' -> (1 < m)%N ->
  Rle 0 (Rminus p' q') -> Rlt (Rminus p' q') (Rminus p q) -> Rle (Rminus p q) PI -> Rlt (E' 0%N) (E 0%N).
Proof.
move=> ex K jj ni P P' e0 f0 EA EA' HE HE' m1 l0 l1 l2.
apply: (C101_strict ex K K jj ni jj ni EA EA' erefl _ HE HE' m1).
have M a b : modulus2_of (total_amplitude [:: (e, a); (f, b)]) = _ := C98_squid_energy e f a b.
rewrite P P' !M; apply: squid_less => //.
by apply: cos_decreasing_1 => //; move: l0 l1 l2; set y := Rminus p q; set y' := Rminus p' q'; rewrite -?[0]/R0; lra.
Qed.
Print Assumptions C101_squid.

(** Two junctions of 3 rad/s in a loop, three charge states, external phase [t] against [t']. *)
Example C101_case disp draw ng t t' : exponential disp -> Rle 0 t' -> Rlt t' t -> Rle t PI -> exists c st0 st A A',
  [/\ constructed false pair_s "junctions" (fun=> mkL nil nil) [:: 0; 0]%N c st0 st two2 zero2 eye eye (fun=> 0) (fun=> 0) 1 2 sv1 in_order draw,
      one_ham false pair_s c st disp 3 ng [:: Ropp t] half_B = Ok A, one_ham false pair_s c st disp 3 ng [:: Ropp t'] half_B = Ok A' &
      forall E E', energies A E -> energies A' E' -> Rlt (E' 0%N) (E 0%N)].
Proof.
move=> ex t0 tt tp; have [c Ec] := pair_run [:: 0; 0]%N.
have cap : edge_cap pair_s [:: 0; 0]%N = IZR 4 by rewrite /edge_cap /= /cap_of /=; lra.
have [st0 [st K]] := built4 draw Ec cap isT erefl.
have [_ [A EA _]] := C90_island 3 ng [:: Ropp t] half_B ex K isT erefl.
have [_ [A' EA' _]] := C90_island 3 ng [:: Ropp t'] half_B ex K isT erefl.
exists c, st0, st, A, A'; split=> // E E' HE HE'.
have f0 y : ext_flux [:: y] half_B 0 = R0 by rewrite /ext_flux big_ord_recr big_ord0 /half_B /= mulr0 addr0.
have f1 y : ext_flux [:: y] half_B 1 = y by rewrite /ext_flux big_ord_recr big_ord0 /half_B /= mulr1 add0r.
have P y : part_list (is_jj pair_s) pair_s [:: 0; 0]%N (ext_flux [:: Ropp y] half_B) = [:: (IZR 3, R0); (IZR 3, Ropp y)].
  by rewrite /part_list /= f0 f1.
apply: (C101_squid ex K isT erefl (P t) (P t') _ _ EA EA' HE HE') => //; rewrite ?Rminus_0_l; lra.
Qed.

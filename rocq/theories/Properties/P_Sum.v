(** P_Sum.v -- C99: the sum of all energies, and of their squares. *)
From Coq Require Import Reals ZArith Lia Lra String List FunctionalExtensionality.
From Verif.Model Require Import Base Units Settings Edge Elements LCWB Rounding Accuracy HamConst.
From Verif.Spec Require Import GraphSpec CircuitSpec ThermalSpec.
From Verif.Proofs Require Import ElementsProofs AccProofs LCWBProofs OneNode.
Lemma moduli s q r t : ((s + q * r)%R = (s + q * t)%R -> q <> 0 -> r = t)%R.
Proof. intros H n. apply (Rmult_eq_reg_l q); trivial. lra. Qed.
Lemma half_pos q : ((q + 1) / 2 = 0 -> 0 <= q -> False)%R. Proof. lra. Qed.
Lemma band_sum a k s : (a + k * (s / 4) + k * (s / 4) = a + k / 2 * s)%R. Proof. field. Qed.
Lemma case_sum q : (0 < hbar -> q / (2 * 4) * ((0 - (1 + 1 + 1 - 1) / 2 - 0) * (0 - (1 + 1 + 1 - 1) / 2 - 0)) / hbar + q / (2 * 4) * ((1 - (1 + 1 + 1 - 1) / 2 - 0) * (1 - (1 + 1 + 1 - 1) / 2 - 0)) / hbar + q / (2 * 4) * (((1 + 1) - (1 + 1 + 1 - 1) / 2 - 0) * ((1 + 1) - (1 + 1 + 1 - 1) / 2 - 0)) / hbar = q / 4 / hbar)%R.
Proof. intros p. field. lra. Qed.
Lemma case_squares q : (0 < hbar -> q / (2 * 4) * ((0 - (1 + 1 + 1 - 1) / 2 - 0) * (0 - (1 + 1 + 1 - 1) / 2 - 0)) / hbar * (q / (2 * 4) * ((0 - (1 + 1 + 1 - 1) / 2 - 0) * (0 - (1 + 1 + 1 - 1) / 2 - 0)) / hbar) + q / (2 * 4) * ((1 - (1 + 1 + 1 - 1) / 2 - 0) * (1 - (1 + 1 + 1 - 1) / 2 - 0)) / hbar * (q / (2 * 4) * ((1 - (1 + 1 + 1 - 1) / 2 - 0) * (1 - (1 + 1 + 1 - 1) / 2 - 0)) / hbar) +
  q / (2 * 4) * (((1 + 1) - (1 + 1 + 1 - 1) / 2 - 0) * ((1 + 1) - (1 + 1 + 1 - 1) / 2 - 0)) / hbar * (q / (2 * 4) * (((1 + 1) - (1 + 1 + 1 - 1) / 2 - 0) * ((1 + 1) - (1 + 1 + 1 - 1) / 2 - 0)) / hbar) + (1 + 1) / 2 * (6 * 6 + 0 * 0) = 2 * (q / 8 / hbar * (q / 8 / hbar)) + 36)%R.
Proof. intros p. field. lra. Qed.
From mathcomp Require Import all_ssreflect all_algebra.
From mathcomp Require Import complex ring zify.
From mathcomp Require Import ssrZ.
From Verif.Numerics Require Import RStruct Bridge.
From Verif.Model Require Import FluxDist Op Transform Ham Diag CircuitSM.
From Verif.Spec Require Import OpSpec TransSpec SymmetrySpec OneNodeSpec PerturbSpec LevelsSpec SessionSpec LossSpec LinearSpec.
From Verif.Spec Require Import OrderSpec ParallelSpec SumSpec.
From Verif.Proofs Require Import OpProofs HamProofs HamProofs2 HamProofs5 HamProofs6 MinMaxProofs ExpProofs2 TransProofs.
From Verif.Proofs Require Import SMProofs SMProofs2 SMProofs3 LossSession OrderProofs OrderProofs2 ParallelProofs SumProofs.
From Verif.Properties Require Import P_OneNode P_Order P_Parallel.

Set Implicit Arguments.
Unset Strict Implicit.
Unset Printing Implicit Defensive.
Import GRing.Theory.
Local Open Scope ring_scope.
Local Open Scope complex_scope.

(** ** Sum rules of any Hamiltonian *)
(** The energies add up to the diagonal, their squares to the squares of all entries. *)
Theorem C99_rules disp h val loops B ks A E : (forall m a, dim (disp m a) = m) ->
  hamiltonian disp h val loops B ks = Ok A -> energies A E ->
  (\sum_(k < dim A) E k)%:C = \sum_(a < dim A) ent A a a /\
  \sum_(k < dim A) E k * E k = \sum_(a < dim A) \sum_(b < dim A) modulus2_of (ent A a b).
Proof.
move=> D EA HE; split; first exact: energy_sum.
by have [_ hA] := hamiltonian_ok D EA; rewrite energy_squares.
Qed.
Print Assumptions C99_rules.

(** Every junction moves charge on some island and no inductor is biased by an island: the
    sum of all energies is the sum of the energies of the photons and charges. *)
Theorem C99_sum disp h val loops B ks A E : (forall m a, dim (disp m a) = m) -> symmetric (hn h) (t_cI (h_st h)) ->
  hamiltonian disp h val loops B ks = Ok A -> inductor_free h ks ->
  (forall k, List.In k (k_jj ks) -> moves_charge h k.2) -> energies A E ->
  \sum_(k < dim A) E k =
  \sum_(x <- states (hm h) (hn h)) level (hn h) (t_om (h_st h)) (hcharge h) (t_cI (h_st h)) (hm h) (h_ng h) (nth 0%N x).
Proof. by move=> D sy; exact: ham_sum. Qed.
Print Assumptions C99_sum.

(** ** Sessions *)
Section Session.
Variables (disp : nat -> C -> op) (optim : bool) (o : oracle) (s : store) (lobj : nat -> lrec) (fd : string).
Variables (d : seq (edge * seq nat)) (n : nat) (x0 : circ) (u : ustate) (cs : seq call) (tr : seq (world * res unit)).
Hypothesis disp_dim : forall m a, dim (disp m a) = m.
Hypothesis made : construct optim o s lobj fd d = Some (Ok x0).
Hypothesis calls : all leaves cs.
Hypothesis session : run disp optim (mkW s u x0) cs = Some tr.
Let x := w_x (final (mkW s u x0) tr).
Hypothesis nodes : node_count (List.map fst d) = Ok (Z.of_nat n).
Hypothesis whole : x_n x = n.
Hypothesis wired : proper_dict n d.
Hypothesis free : inductor_free (hof x) (mkKeys (c_keys_ind (x_c x)) (c_keys_jj (x_c x))).
Hypothesis moves : forall k, List.In k (c_keys_jj (x_c x)) -> moves_charge (hof x) k.2.

Theorem C99_session A E : (hamil s x).2 = Ok A -> energies A E ->
  \sum_(k < dim A) E k =
  \sum_(y <- states (hm (hof x)) n) level n (t_om (x_st x)) (hcharge (hof x)) (t_cI (x_st x)) (hm (hof x)) (h_ng (hof x)) (nth 0%N y).
Proof.
have [G EL f _] := made_facts nodes made calls session whole; rewrite -/x in G EL f.
have [-> _] := hamilE s G; rewrite /ham_of => EA HE.
have hnE : hn (hof x) = n by rewrite /hn /hof /=; exact: whole.
rewrite (C99_sum disp_dim _ EA free moves HE) hnE //.
exact: frame_sym f (matrix_sym EL wired).
Qed.
End Session.
Print Assumptions C99_session.

(** Two netlists with the same edges, whatever the energies of the junctions, the loops and
    the fluxes: the same sum. *)
Theorem C99_netlists disp optim o s s' lobj lobj' fd fd' d d' n x0 y0 u u' cs cs' tr tr' A A' E E' :
  let x := w_x (final (mkW s u x0) tr) in let x' := w_x (final (mkW s' u' y0) tr') in
  (forall m a, dim (disp m a) = m) ->
  construct optim o s lobj fd d = Some (Ok x0) -> construct optim o s' lobj' fd' d' = Some (Ok y0) ->
  all leaves cs /\ all leaves cs' ->
  run disp optim (mkW s u x0) cs = Some tr -> run disp optim (mkW s' u' y0) cs' = Some tr' ->
  List.Forall2 (same_edge s s') d d' -> x_m x = x_m x' /\ (forall i, h_ng (hof x) i = h_ng (hof x') i) ->
  node_count (List.map fst d) = Ok (Z.of_nat n) -> x_n x = n -> proper_dict n d -> proper_dict n d' ->
  inductor_free (hof x) (mkKeys (c_keys_ind (x_c x)) (c_keys_jj (x_c x))) ->
  inductor_free (hof x') (mkKeys (c_keys_ind (x_c x')) (c_keys_jj (x_c x'))) ->
  (forall k, List.In k (c_keys_jj (x_c x)) -> moves_charge (hof x) k.2) ->
  (forall k, List.In k (c_keys_jj (x_c x')) -> moves_charge (hof x') k.2) ->
  (hamil s x).2 = Ok A -> (hamil s' x').2 = Ok A' -> energies A E -> energies A' E' ->
  \sum_(k < dim A) E k = \sum_(k < dim A') E' k.
Proof.
move=> x x' D Ed Ed' [lv lv'] Er Er' F [em eg] nodes w wd wd' fr fr' mv mv' EA EA' HE HE'.
have [es eC] := C98_modes Ed Ed' (conj lv lv') Er Er' F; rewrite -/x -/x' in es eC.
have ee : List.map fst d = List.map fst d' by elim: F => [//|p q ? ? [e _ _ _ _] _ IH] /=; rewrite e IH.
have w' : x_n x' = n by rewrite /x_n -es.
rewrite (C99_session D Ed lv Er nodes w wd fr mv EA HE) -/x.
rewrite ee in nodes; rewrite (C99_session D Ed' lv' Er' nodes w' wd' fr' mv' EA' HE') -/x'.
have ge : h_ng (hof x) = h_ng (hof x') by apply: functional_extensionality.
have hE : hof x = hof x' by move: ge; rewrite /hof /= => ge; rewrite es em eC ge.
by rewrite hE es.
Qed.
Print Assumptions C99_netlists.

(** ** One node *)
Lemma nrm_half (z : C) : nrm (2%:R^-1 * z) = Rdiv (nrm z) 4.
Proof.
have -> : 2%:R^-1 = (Rdiv R1 2)%:C :> C by rewrite half_C mulr1.
have e : (nrm ((Rdiv R1 2)%:C * z))%:C = (Rdiv (nrm z) 4)%:C.
  by rewrite -nrmE cjM cjR mulrACA nrmE -!cRM; congr (_%:C); rewrite -!RmultE; lra.
by case: e.
Qed.
Lemma nrm_opp z : nrm (- z) = nrm z.
Proof.
have e : (nrm (- z))%:C = (nrm z)%:C by rewrite -!nrmE -[(- z)^*]/(conjc (- z)) rmorphN mulrNN.
by case: e.
Qed.
Lemma nrm_cj z : nrm (z^*) = nrm z.
Proof.
have e : (nrm (z^*))%:C = (nrm z)%:C by rewrite -!nrmE -[(z^*)^*]/(conjc (conjc z)) conjcK mulrC.
by case: e.
Qed.
Lemma nrm_real (r : R) : nrm (r%:C) = r * r.
Proof.
have e : (nrm (r%:C))%:C = (r * r)%:C by rewrite -nrmE cjR -cRM.
by case: e.
Qed.

Section One.
Variables (A : op) (c ng : R) (j : seq (R * R)) (m : nat) (E : nat -> R).
Hypothesis dA : dim A = m.
Hypothesis hA : herm A.
Hypothesis eA : forall a b, (a < m)%N -> (b < m)%N -> ent A a b = island c ng j m a b.
Hypothesis HE : energies A E.
Let q a := charging c ng (Rminus (INR a) (centre m)).
Let S := modulus2_of (total_amplitude j).

Lemma one_sum : \sum_(k < m) E k = \sum_(a < m) q a.
Proof.
apply: complexI; have := energy_sum HE; rewrite dA => ->; rewrite rmorph_sum; apply: eq_bigr => a _.
by rewrite eA // island_amplitude eqxx !ltn_eqF // mulr0 subr0.
Qed.

Lemma band (x : R) : \sum_(a < m) \sum_(b < m) (if (a : nat) == b.+1 then x else 0) = Rmult (INR m.-1) x.
Proof.
case: m => [|k]; first by rewrite big_ord0 Rmult_0_l.
rewrite exchange_big /= big_ord_recr /= [X in _ + X]big1 ?addr0; last first.
  by move=> a _; rewrite ltn_eqF // ltnS.
rewrite (eq_bigr (fun=> x)); last first.
  move=> b _; rewrite (bigD1 (Ordinal (n := k.+1) (m := b.+1) (ltn_ord b))) //= eqxx big1 ?addr0 // => a ne.
  by rewrite ifN //; apply: contra ne => /eqP e; apply/eqP/val_inj.
elim: k => [|k IH]; first by rewrite big_ord0 Rmult_0_l.
by rewrite big_ord_recr IH S_INR Rmult_plus_distr_r Rmult_1_l RplusE.
Qed.

Lemma one_squares : \sum_(k < m) E k * E k = Rplus (\sum_(a < m) q a * q a) (Rmult (Rdiv (INR m.-1) 2) S).
Proof.
have := energy_squares hA HE; rewrite dA => ->.
have ent2 (a b : 'I_m) : nrm (ent A a b) = (if (a : nat) == b then q a * q a else 0) +
   (if (a : nat) == b.+1 then Rdiv S 4 else 0) + (if (b : nat) == a.+1 then Rdiv S 4 else 0).
  rewrite eA // island_amplitude; case: (eqVneq (a : nat) b) => [<-|ne].
    by rewrite !ltn_eqF // mulr0 subr0 nrm_real !addr0.
  rewrite sub0r nrm_opp nrm_half; case: (eqVneq (a : nat) b.+1) => [->|ne'].
    by rewrite ltn_eqF // add0r addr0.
  by case: ifP => _; rewrite ?nrm_cj ?nrm0 ?addr0 ?add0r // /Rdiv Rmult_0_l.
rewrite (eq_bigr _ (fun a _ => eq_bigr _ (fun b _ => ent2 a b))).
under eq_bigr => a _ do rewrite !big_split /=.
rewrite !big_split /= band [X in _ + X]exchange_big /= band.
have -> : \sum_(a < m) \sum_(b < m) (if (a : nat) == b then q a * q a else 0) = \sum_(a < m) q a * q a.
  apply: eq_bigr => a _; rewrite (bigD1 a) //= eqxx big1 ?addr0 // => b ne.
  by rewrite ifN //; apply: contra ne => /eqP e; apply/eqP/val_inj.
by rewrite -!RplusE; exact: band_sum.
Qed.
End One.

Section OneNode.
Variables (optim : bool) (s : store) (fd : string) (lobj : nat -> lrec) (els : seq nat) (c : cst) (st0 st : tst).
Variables (croot lroot X U : arr) (D0 eigL : vec) (tries fuel : nat) (sv : svd_fun) (order : seq R -> seq nat) (draw : nat -> nat -> seq vec).
Variables (disp : nat -> C -> op) (m : nat) (ng : nat -> R) (loops : seq R) (B : arr) (A : op) (E : nat -> R).
Hypothesis ex : exponential disp.
Hypothesis K : constructed optim s fd lobj els c st0 st croot lroot X U D0 eigL tries fuel sv order draw.
Hypothesis jj : existsb (is_jj s) els.
Hypothesis ni : existsb (is_ind s) els = false.
Hypothesis EA : one_ham optim s c st disp m ng loops B = Ok A.
Hypothesis HE : energies A E.
Let q a := charging (edge_cap s els) (ng 0%N) (Rminus (INR a) (centre m)).

(** A junction box: the energies add up to the charging energies of the [m] states, and
    their squares to the squares of these plus (m-1)/2 times the squared effective
    Josephson energy. *)
Theorem C99_one : \sum_(k < m) E k = \sum_(a < m) q a /\
  \sum_(k < m) E k * E k = Rplus (\sum_(a < m) q a * q a)
    (Rmult (Rdiv (INR m.-1) 2) (modulus2_of (total_amplitude (part_list (is_jj s) s els (ext_flux loops B))))).
Proof.
have [_ [A1 E1 [dA eA]]] := C90_island m ng loops B ex K jj ni; move: E1; rewrite EA => -[e1]; subst A1.
have [_ hA] := hamiltonian_ok (exp_disp_dims ex) EA.
by split; [exact: one_sum dA eA HE|exact: one_squares dA hA eA HE].
Qed.
End OneNode.
Print Assumptions C99_one.

(** With two or more charge states: the energies are the same exactly when the effective
    Josephson energies are. *)
Theorem C99_modulus optim s s' fd fd' lobj lobj' els els' c c' st0 st0' st st' croot croot' lroot lroot' X X' U U' D0 D0' eigL eigL'
    tries tries' fuel fuel' sv sv' order order' draw draw' disp m ng loops loops' B B' A A' E E' :
  exponential disp ->
  constructed optim s fd lobj els c st0 st croot lroot X U D0 eigL tries fuel sv order draw ->
  constructed optim s' fd' lobj' els' c' st0' st' croot' lroot' X' U' D0' eigL' tries' fuel' sv' order' draw' ->
  existsb (is_jj s) els -> existsb (is_ind s) els = false -> existsb (is_jj s') els' -> existsb (is_ind s') els' = false ->
  edge_cap s els = edge_cap s' els' ->
  one_ham optim s c st disp m ng loops B = Ok A -> one_ham optim s' c' st' disp m ng loops' B' = Ok A' ->
  energies A E -> energies A' E' -> (1 < m)%N ->
  (forall k, (k < m)%N -> E k = E' k) <->
  modulus2_of (total_amplitude (part_list (is_jj s) s els (ext_flux loops B))) =
  modulus2_of (total_amplitude (part_list (is_jj s') s' els' (ext_flux loops' B'))).
Proof.
move=> ex K K' jj ni jj' ni' same EA EA' HE HE' m1; split=> [e|am k hk]; last first.
  exact: (esym (C98_one ex K K' jj ni jj' ni' same am EA EA' HE HE' hk)).
have [_ r] := C99_one ex K jj ni EA HE; have [_ r'] := C99_one ex K' jj' ni' EA' HE'; rewrite -same in r'.
have E2 : \sum_(k < m) E k * E k = \sum_(k < m) E' k * E' k by apply: eq_bigr => k _; rewrite e.
rewrite r r' in E2; apply: (moduli _ _ _ _ E2); clear -m1; case: m m1 => [|[|k]] // _.
by move: (pos_INR k) => p; rewrite [k.+2.-1]/= S_INR => z; exact: (half_pos _ z p).
Qed.
Print Assumptions C99_modulus.

(** ** Case: the junctions of C98, three charge states, no gate charge: the energies of the pair
    add up to 2 (2e)^2/(2 C hbar). *)
Example C99_case disp draw B : exponential disp -> exists c st0 st A,
  [/\ constructed false pair_s "junctions" (fun=> mkL nil nil) [:: 0; 0]%N c st0 st two2 zero2 eye eye (fun=> 0) (fun=> 0) 1 2 sv1 in_order draw,
      one_ham false pair_s c st disp 3 (fun=> R0) [::] B = Ok A &
      forall E, energies A E ->
        \sum_(k < 3) E k = Rdiv (Rdiv (Rsqr (Rmult 2 e_charge)) 4) hbar /\
        \sum_(k < 3) E k * E k = Rplus (Rmult 2 (Rsqr (Rdiv (Rdiv (Rsqr (Rmult 2 e_charge)) 8) hbar))) 36].
Proof.
move=> ex; have [c Ec] := pair_run [:: 0; 0]%N.
have cap : edge_cap pair_s [:: 0; 0]%N = IZR 4 by rewrite /edge_cap /= /cap_of /=; lra.
have [st0 [st K]] := built4 draw Ec cap isT erefl.
have [_ [A EA _]] := C90_island 3 (fun=> R0) [::] B ex K isT erefl.
have ph i : expi (ext_flux [::] B i) = 1.
  by rewrite (_ : ext_flux _ _ _ = 0) ?/expi ?cos_0 ?sin_0 // /ext_flux big_ord0.
have am : total_amplitude (part_list (is_jj pair_s) pair_s [:: 0; 0]%N (ext_flux [::] B)) = (IZR 6)%:C.
  rewrite /total_amplitude /part_list /= big_cons big_seq1 /= !ph !mulr1 -cRD; congr (_%:C).
  by rewrite -RplusE; lra.
exists c, st0, st, A; split=> // E HE; have [-> ->] := C99_one ex K isT erefl EA HE.
rewrite am /modulus2_of !big_ord_recr !big_ord0 /= cap /charging /centre !add0r -!RplusE -!RmultE /= .
by rewrite /Rsqr; split; [exact: (case_sum _ hbar_pos)|exact: (case_squares _ hbar_pos)].
Qed.

(** P_Lowest.v -- C84: the frequencies that diag() returns. *)
From Coq Require Import Reals ZArith String Lia Lra.
From Verif.Model Require Import Base Units Settings Edge Elements LCWB Accuracy HamConst.
Lemma div_le a b c : Rlt 0 c -> Rle a b -> Rle (a / c) (b / c).
Proof. intros H L. apply Rmult_le_compat_r; [|exact L]. apply Rlt_le, Rinv_0_lt_compat, H. Qed.
Lemma div_abs a b c d : Rlt 0 c -> Rle (Rabs (Rminus a b)) d -> Rle (Rmult (Rabs (Rminus (a / c) (b / c))) c) d.
Proof.
  intros H L. replace (Rminus (a / c) (b / c)) with (Rmult (Rminus a b) (/ c)) by (unfold Rdiv; ring).
  rewrite Rabs_mult, (Rabs_right (/ c)) by (apply Rle_ge, Rlt_le, Rinv_0_lt_compat, H).
  rewrite Rmult_assoc, Rinv_l, Rmult_1_r by (apply Rgt_not_eq, H). exact L.
Qed.
From mathcomp Require Import all_ssreflect all_algebra.
From mathcomp Require Import complex ring.
From Verif.Numerics Require Import RStruct Bridge.
From Verif.Model Require Import Op Transform Ham Diag CircuitSM.
From Verif.Spec Require Import OpSpec HalfSpec EigSpec PerturbSpec SessionSpec LevelsSpec SymmetrySpec LowestSpec.
From Verif.Proofs Require Import OpProofs HamProofs HamProofs2 HamProofs5 HamProofs6 HalfProofs SMProofs SMProofs2 SMProofs3
  MinMaxProofs LevelProofs.
From Verif.Properties Require Import P_Ops P_Diag P_Symmetry P_Levels P_Lipschitz.

Set Implicit Arguments.
Unset Strict Implicit.
Unset Printing Implicit Defensive.
Import GRing.Theory Order.TTheory.
Local Open Scope ring_scope.
Local Open Scope complex_scope.

Lemma one_energies A E E' k : energies A E -> energies A E' -> (k < dim A)%N -> E k = E' k.
Proof. by move=> H H' hk; apply: Rle_antisym; apply: (embed_le (p := id) _ _ _ _ _ hk hk); eauto. Qed.

(** The stored frequencies are the [k] lowest energies, in ascending order. *)
Theorem C84_lowest eigs argsort A (k : nat) r E : smallest eigs A k -> energies A E ->
  diag_np eigs argsort A (Z.of_nat k) = Ok r -> (k <= dim A)%N /\ e_freqs r = [seq E i | i <- iota 0 k].
Proof.
move=> S HE /diag_np_inv [lam [V [ncv [El ->]]]]; have [E' HE' [kd P]] := S _ _ _ El; split=> //.
rewrite /sort_eigs /=; have P1 : perm_eq [seq complex.Re z | z <- lam] [seq E i | i <- iota 0 k].
  have := perm_map (fun z : C => complex.Re z) P; rewrite -map_comp => /perm_trans; apply.
  rewrite (_ : [seq _ | i <- iota 0 k] = [seq E i | i <- iota 0 k]) //; apply/eq_in_map => i; rewrite mem_iota add0n => /andP [_ hi] /=.
  by apply: one_energies HE' HE _; exact: leq_trans hi kd.
have -> : sort Order.le [seq complex.Re z | z <- lam] = sort Order.le [seq E i | i <- iota 0 k].
  by apply/perm_sortP => //; [exact: le_total|exact: le_trans|exact: le_anti].
apply: sorted_sort; first exact: le_trans.
have [v [asc _ _]] := HE; apply/(sortedP 0) => i; rewrite size_map size_iota => hi.
rewrite !(nth_map 0%N) ?size_iota ?(ltnW hi) // !nth_iota ?(ltnW hi) // !add0n.
by apply/RleP; apply: asc; rewrite leqnSn (leq_trans hi kd).
Qed.
Print Assumptions C84_lowest.

(** What diag() returns: the energies in the chosen unit of frequency. *)
Theorem C84_returned eigs argsort u A (k : nat) old r fr ve E : smallest eigs A k -> energies A E ->
  diag eigs argsort u true (Ok A) (Some (Z.of_nat k)) old = (r, Ok (fr, ve)) ->
  (k <= dim A)%N /\ fr = [seq Rdiv (E i) (unit_rad u) | i <- iota 0 k].
Proof.
move=> S HE; rewrite /diag /=; case Ed: diag_np => [r'|//] -[_ <- _].
by have [kd ->] := C84_lowest S HE Ed; rewrite -map_comp.
Qed.
Print Assumptions C84_returned.

(** The promise can be kept for every Hamiltonian. *)
Theorem C84_solver A (k : nat) : herm A -> (k <= dim A)%N -> exists eigs : eigs_fun, smallest eigs A k /\
  exists lam V, eigs A (Z.of_nat k) None = EigsOk lam V /\ size lam = k /\
    forall i, (i < k)%N -> eigenpair A (nth 0 lam i) (fun x => V x i).
Proof.
move=> hA kd; have [E HE] := energies_exist hA; have [v [_ eig orth]] := HE.
pose lam := [seq (E i)%:C | i <- iota 0 k].
exists (fun _ _ _ => EigsOk lam (fun x i => v i x)); split; first by move=> ncv l V [<- _]; exists E.
exists lam, (fun x i => v i x); split=> //; split; first by rewrite size_map size_iota.
move=> i hi; have hd := leq_trans hi kd; rewrite (nth_map 0%N) ?size_iota // nth_iota // add0n; split=> [a ha|]; first exact: eig.
have := orth i i hd hd; rewrite eqxx => o.
case: (pickP (fun a : 'I_(dim A) => v i a != 0)) => [a /eqP na|all0]; first by exists a.
move: o; rewrite big1 => [/esym /eqP|a _]; first by rewrite oner_eq0.
by move: (all0 a) => /= /negbFE /eqP ->; rewrite mulr0.
Qed.
Print Assumptions C84_solver.

(** No state has less energy than the lowest one returned. *)
Theorem C84_variational eigs argsort A (k : nat) r : herm A -> smallest eigs A k.+1 ->
  diag_np eigs argsort A (Z.of_nat k.+1) = Ok r ->
  forall v, Rle (Rmult (nth 0 (e_freqs r) 0) (weight (dim A) v)) (expect A v).
Proof.
move=> hA S Ed f; have [E HE] := energies_exist hA; have [kd ->] := C84_lowest S HE Ed.
rewrite (nth_map 0%N) ?size_iota // nth_iota // addn0; have [v [asc eig orth]] := HE.
pose c j := dot (dim A) (v j) f.
have X a : (a < dim A)%N -> f a = \sum_(j < dim A) c j * v j a by move=> ha; exact: complete.
have [w x] := combination eig orth X; rewrite /weight /expect w x /=; apply/RleP; rewrite RmultE mulr_sumr.
apply: Num.Theory.ler_sum => i _; rewrite mulrC; apply: Num.Theory.ler_wpmul2l; first exact: nrm_ge0.
by apply/RleP; apply: asc; rewrite ltn_ord.
Qed.
Print Assumptions C84_variational.

(** Fewer charge states, other fluxes and junctions: how the returned numbers
    move.  The frequency unit [u] is the same in both calls. *)
Section Moves.
Variables (eigs : eigs_fun) (argsort : seq C -> seq nat) (u : ustate) (k : nat).
Hypothesis solver : forall A, smallest eigs A k.
Hypothesis unit0 : Rlt R0 (get_unit_freq u).
Let rad0 : Rlt R0 (unit_rad u).
Proof. apply: Rmult_lt_0_compat => //; apply: Rmult_lt_0_compat; [lra|exact: PI_RGT_0]. Qed.

(** More charge states (and gate charges moved by Cooper pairs) lower all frequencies. *)
Theorem C84_truncation disp h h' z l l' val loops B ks old old' r r' fr fr' ve ve' : (forall m a, dim (disp m a) = m) ->
  raised z h h' -> roomier h z l l' ->
  diag eigs argsort u true (hamiltonian disp (truncated h l) val loops B ks) (Some (Z.of_nat k)) old = (r, Ok (fr, ve)) ->
  diag eigs argsort u true (hamiltonian disp (truncated h' l') val loops B ks) (Some (Z.of_nat k)) old' = (r', Ok (fr', ve')) ->
  size fr = k /\ size fr' = k /\ forall i, (i < k)%N -> Rle (nth 0 fr' i) (nth 0 fr i).
Proof.
move=> D Rz room; case EA: hamiltonian => [A|e]; last by rewrite /diag.
have [A' EA' [dd H]] := C80_levels D Rz room EA; rewrite EA' => d1 d2.
have [_ hA] := hamiltonian_ok D EA; have [_ hA'] := hamiltonian_ok D EA'.
have [E HE] := energies_exist hA; have [E' HE'] := energies_exist hA'.
have [kd ->] := C84_returned (@solver A) HE d1; have [_ ->] := C84_returned (@solver A') HE' d2.
rewrite !size_map !size_iota; do 2!split=> //; move=> i hi.
rewrite !(nth_map 0%N) ?size_iota // !nth_iota // !add0n; apply: div_le => //; apply: H HE HE' _ _.
exact: leq_trans hi kd.
Qed.

(** Other junction energies and fluxes. *)
Theorem C84_settings disp h val val' loops loops' B ks old old' r r' fr fr' ve ve' : (forall m a, dim (disp m a) = m) ->
  (forall m a, unitary (disp m a)) ->
  (forall i, List.In i (k_ind ks) -> val' i.1.2 = val i.1.2 /\ ext_flux loops' B i.2 = ext_flux loops B i.2) ->
  diag eigs argsort u true (hamiltonian disp h val loops B ks) (Some (Z.of_nat k)) old = (r, Ok (fr, ve)) ->
  diag eigs argsort u true (hamiltonian disp h val' loops' B ks) (Some (Z.of_nat k)) old' = (r', Ok (fr', ve')) ->
  size fr = k /\ size fr' = k /\ forall i, (i < k)%N ->
  Rle (Rmult (Rabs (Rminus (nth 0 fr i) (nth 0 fr' i))) (unit_rad u))
      (\sum_(j <- k_jj ks) (Rabs (Rminus (val j.1.1.2) (val' j.1.1.2)) +
        Rabs (val j.1.1.2) * Rabs (Rminus (ext_flux loops B j.1.2) (ext_flux loops' B j.1.2)))).
Proof.
move=> D U same; case EA: hamiltonian => [A|e]; last by rewrite /diag.
case EA': hamiltonian => [A'|e] d1; last by rewrite /diag.
move=> d2; have [_ hA] := hamiltonian_ok D EA; have [_ hA'] := hamiltonian_ok D EA'.
have [E HE] := energies_exist hA; have [E' HE'] := energies_exist hA'.
have [kd ->] := C84_returned (@solver A) HE d1; have [_ ->] := C84_returned (@solver A') HE' d2.
rewrite !size_map !size_iota; do 2!split=> //; move=> i hi.
rewrite !(nth_map 0%N) ?size_iota // !nth_iota // !add0n; apply: div_abs => //.
by apply: C82_lipschitz same EA EA' HE HE' _ _; rewrite // (leq_trans hi kd).
Qed.

(** The four bias points of C79 give the same frequencies. *)
Lemma moved_energies h A A' (f : (nat -> C) -> nat -> C) E : dim A = total h -> dim A' = total h ->
  (forall (z : R) v, eigenpair A z%:C v -> eigenpair A' z%:C (f v)) ->
  (forall v w, \sum_(I < total h) (f v I)^* * f w I = \sum_(I < total h) (v I)^* * w I \/
               \sum_(I < total h) (f v I)^* * f w I = (\sum_(I < total h) (v I)^* * w I)^*) ->
  energies A E -> energies A' E.
Proof.
move=> dA dA' ep ov [v [asc eig orth]]; rewrite dA in asc eig orth; exists (fun i => f (v i)).
rewrite /levels_of dA'; split=> // [i a hi ha|i j hi hj].
  have P : eigenpair A (E i)%:C (v i).
    split=> [b hb|]; first by rewrite dA in hb *; exact: eig.
    rewrite dA; have := orth i i hi hi; rewrite eqxx => o.
    case: (pickP (fun a : 'I_(total h) => v i a != 0)) => [b /eqP nb|all0]; first by exists b.
    move: o; rewrite big1 => [/esym /eqP|b _]; first by rewrite oner_eq0.
    by move: (all0 b) => /= /negbFE /eqP ->; rewrite mulr0.
  by have [H _] := ep _ _ P; rewrite dA' in H; exact: H.
by case: (ov (v i) (v j)) => ->; rewrite orth //; case: eqP => _; rewrite ?conjc1 ?conjc0.
Qed.
Theorem C84_reversal disp h val loops B ks old r fr ve : displaces disp -> inductor_free h ks ->
  diag eigs argsort u true (hamiltonian disp h val loops B ks) (Some (Z.of_nat k)) old = (r, Ok (fr, ve)) ->
  forall h' loops' old' r' fr' ve', h' = h \/ h' = minus_charge h -> loops' = loops \/ loops' = minus_flux loops ->
  diag eigs argsort u true (hamiltonian disp h' val loops' B ks) (Some (Z.of_nat k)) old' = (r', Ok (fr', ve')) -> fr' = fr.
Proof.
move=> D F; case EA: hamiltonian => [A|e]; last by rewrite /diag.
move=> d1; have [A1 [A2 [A3 [E1 E2 E3 ep]]]] := C79_energies D F EA.
have [dA hA] := hamiltonian_ok D.1 EA; have [E HE] := energies_exist hA.
have dA1 : dim A1 = total h by have [] := hamiltonian_ok D.1 E1.
have dA2 : dim A2 = total h by have [] := hamiltonian_ok D.1 E2.
have dA3 : dim A3 = total h by have [] := hamiltonian_ok D.1 E3.
have ov v w := C79_states h v w.
have H1 : energies A1 E.
  apply: (moved_energies dA dA1 (f := rev_state h)) HE => [z v /ep [] //|v w].
  by right; have [] := ov v w.
have H2 : energies A2 E.
  apply: (moved_energies dA dA2 (f := mir_state h)) HE => [z v /ep [] //|v w].
  by left; have [] := ov v w.
have H3 : energies A3 E.
  apply: (moved_energies dA dA3 (f := fun v => rev_state h (mir_state h v))) HE => [z v /ep [] //|v w].
  by right; have [_ _ -> _] := ov (mir_state h v) (mir_state h w); have [_ _ _ ->] := ov v w.
have [_ ->] := C84_returned (@solver A) HE d1.
move=> h' loops' old' r' fr' ve' [] -> [] ->; rewrite ?EA ?E1 ?E2 ?E3 => d2.
- by have [_ ->] := C84_returned (@solver A) HE d2.
- by have [_ ->] := C84_returned (@solver A1) H1 d2.
- by have [_ ->] := C84_returned (@solver A3) H3 d2.
- by have [_ ->] := C84_returned (@solver A2) H2 d2.
Qed.
End Moves.
Print Assumptions C84_truncation.
Print Assumptions C84_settings.
Print Assumptions C84_reversal.

(** In a session, for the Hamiltonian of the settings at the time of the call. *)
Theorem C84_session disp optim o s0 lobj fd d x0 u cs tr eigs argsort uu (k : nat) x1 fr ve :
  (forall m a, dim (disp m a) = m) -> (forall A, smallest eigs A k) ->
  construct optim o s0 lobj fd d = Some (Ok x0) -> run disp optim (mkW s0 u x0) cs = Some tr ->
  updates_ok optim (mkW s0 u x0) cs tr ->
  let s := w_s (final (mkW s0 u x0) tr) in let x := w_x (final (mkW s0 u x0) tr) in
  diag_sm eigs argsort uu (Some (Z.of_nat k)) s x = (x1, Ok (fr, ve)) ->
  exists A E, [/\ hamiltonian disp (hof x) (evalue s) [seq lvalue s l | l <- c_loops (x_c x)] (x_B x)
                    (mkKeys (c_keys_ind (x_c x)) (c_keys_jj (x_c x))) = Ok A,
    energies A E, (k <= dim A)%N, fr = [seq Rdiv (E i) (unit_rad uu) | i <- iota 0 k] &
    e_freqs (x_eig x1) = [seq E i | i <- iota 0 k]].
Proof.
move=> D S b r up s x; have G : good disp x by exact: good_run (good_construct disp b : good disp (w_x (mkW s0 u x0))) r up.
have [H1 _] := hamilE s G; rewrite /diag_sm; case: ifP => // _; case: hamil H1 => xh [A|e] /= H1; last by rewrite /diag.
case Ed: diag => [e r'] [<- Er]; rewrite Er in Ed.
have EA : ham_of disp s x = Ok A by rewrite H1.
have [_ hA] := hamiltonian_ok D EA; have [E HE] := energies_exist hA.
have [kd Ef] := C84_returned (@S A) HE Ed; exists A, E; split=> //.
move: Ed; rewrite /diag /=; case En: diag_np => [e'|//] -[<- _ _].
by have [_ ->] := C84_lowest (@S A) HE En.
Qed.
Print Assumptions C84_session.

(** diag(2, 1), the solver answering 2, 1: the frequencies are 1 and 2, and the state
    (1, 1) has the energy 3 for the squared length 2. *)
Example C84_case : smallest case_eigs case_H 2 /\
  (exists r, diag_np case_eigs argsort0 case_H 2 = Ok r /\ e_freqs r = [:: 1; 2%:R]) /\
  expect case_H (fun=> 1) = 3%:R /\ weight 2 (fun=> 1) = 2%:R.
Proof.
pose E (i : nat) : R := if i == 0%N then 1 else 2%:R.
pose v (i a : nat) : C := if (i + a == 1)%N then 1 else 0.
have HE : energies case_H E.
  exists v; split=> [i j|i a|i j] /=.
  - case: i => [|[|i]]; case: j => [|[|j]] // _; rewrite /E /=; apply/RleP => //; rewrite -[X in X <= _]/(1%:R); exact: Num.Theory.ler_nat.
  - by case: i => [|[|i]] // _; case: a => [|[|a]] // _; rewrite !big_ord_recr big_ord0 /= /v /E /= !(mul0r, mulr0, add0r, addr0, mul1r, mulr1) // rmorph_nat.
  - move=> hi hj; rewrite (eq_bigr (fun a : 'I_2 => v i a * v j a)) => [|a _]; last by rewrite /v; case: (_ == 1%N); rewrite ?conjc1 ?conjc0.
    by case: i hi => [|[|i]] // _; case: j hj => [|[|j]] // _; rewrite !big_ord_recr big_ord0 /= /v /= !(mul0r, mulr0, add0r, addr0, mul1r, mulr1).
have S : smallest case_eigs case_H 2.
  move=> ncv lam V [<- _]; exists E => //; split=> //.
  by rewrite /E /= rmorph_nat -cat1s -[X in perm_eq _ X]/([:: _] ++ [:: _]) perm_catC.
split=> //; split.
  exists (sort_eigs argsort0 [:: 2%:R; 1] (fun i j => if i == j then 1 else 0)); split=> //.
  have [_ ->] := C84_lowest (r := sort_eigs argsort0 [:: 2%:R; 1] (fun i j => if i == j then 1 else 0)) (argsort := argsort0) S HE (erefl _).
  by [].
have one1 : ((1 : C)^*) * 1 = 1 by rewrite conjc1 mulr1.
split; last first.
  rewrite /weight (eq_bigr (fun=> 1)) => [|i _]; last exact: one1.
  by rewrite !big_ord_recr big_ord0 /= add0r.
rewrite /expect (eq_bigr (fun i : 'I_2 => if (i : nat) == 0%N then 2%:R else 1)) => [|i _].
  by rewrite !big_ord_recr big_ord0 /= add0r !mulrS mulr0n addr0 -addrA.
rewrite conjc1 mul1r; case: i => [[|[|i]] hi] //; rewrite !big_ord_recr big_ord0 /= !(mul0r, mulr0, add0r, addr0, mul1r, mulr1) //.
Qed.

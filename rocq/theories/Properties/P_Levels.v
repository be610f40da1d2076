(** P_Levels.v -- C80: charge states, gate charges and energies. *)
From Coq Require Import Reals ZArith Lia Lra.
From Verif.Model Require Import Base Units Edge LCWB Accuracy HamConst.
Lemma charge_rel1 : Rminus (charge_at 1 0) 1 = Ropp 1.
Proof. unfold charge_at. simpl. lra. Qed.
Lemma charge_rel3 : Rminus (charge_at 3 2) 1 = 0%R /\ Rminus (charge_at 3 1) 1 = Ropp 1 /\ Rminus (charge_at 3 0) 1 = Ropp 2.
Proof. unfold charge_at. simpl. repeat split; lra. Qed.
Lemma halfR_pos : Rle 0 (halfR 1).
Proof. unfold halfR. lra. Qed.
Lemma sq_le i j c : Rle 0 c -> (i <= j)%nat -> Rle (Rmult c (Rmult (INR i) (INR i))) (Rmult c (Rmult (INR j) (INR j))).
Proof.
  intros H L. apply Rmult_le_compat_l; [exact H|]. apply Rmult_le_compat; auto using pos_INR, le_INR.
Qed.
Lemma sq_vals q : Rmult q (Rmult (INR 0) (INR 0)) = Rmult q (Rmult 0 0) /\
  Rmult q (Rmult (INR 1) (INR 1)) = Rmult q (Rmult (Ropp 1) (Ropp 1)) /\
  Rmult q (Rmult (INR 2) (INR 2)) = Rmult q (Rmult (Ropp 2) (Ropp 2)).
Proof. simpl. repeat split; ring. Qed.
Lemma sq_one q : Rmult q (Rmult (Ropp 1) (Ropp 1)) = q.
Proof. ring. Qed.
From mathcomp Require Import all_ssreflect all_algebra.
From mathcomp Require Import complex ring zify.
From Verif.Numerics Require Import RStruct Bridge.
From Verif.Model Require Import Op Transform Ham Diag CircuitSM.
From Verif.Spec Require Import OpSpec LevelsSpec.
From Verif.Proofs Require Import OpProofs HamProofs HamProofs2 HamProofs5 HamProofs6
  MinMaxProofs ChargeShiftProofs LevelProofs.

Set Implicit Arguments.
Unset Strict Implicit.
Unset Printing Implicit Defensive.
Import GRing.Theory Order.TTheory.
Local Open Scope ring_scope.
Local Open Scope complex_scope.

(** The Hamiltonian sees the charges of the islands only relative to the gate
    charges: states with the same relative charges have the same matrix elements,
    whatever the numbers of charge states and the gate charges are. *)
Theorem C80_elements disp h h' val loops B ks A : (forall m a, dim (disp m a) = m) -> same_circuit h h' -> h_m h' <> [::] ->
  hamiltonian disp h val loops B ks = Ok A ->
  exists2 A', hamiltonian disp h' val loops B ks = Ok A' &
  forall d1 d2 e1 e2,
    legal (hm h) d1 (hn h) -> legal (hm h) d2 (hn h) -> legal (hm h') e1 (hn h) -> legal (hm h') e2 (hn h) ->
    same_charges h h' d1 e1 -> same_charges h h' d2 e2 ->
    ent A' (posn (hm h') e1 (hn h)) (posn (hm h') e2 (hn h)) = ent A (posn (hm h) d1 (hn h)) (posn (hm h) d2 (hn h)).
Proof. by move=> D S m0 EA; have [A' E' g] := ham_shift S D m0 EA; exists A'. Qed.
Print Assumptions C80_elements.

(** Every Hamiltonian has a full set of energies, and only one. *)
Theorem C80_energies disp h val loops B ks A : (forall m a, dim (disp m a) = m) ->
  hamiltonian disp h val loops B ks = Ok A ->
  (exists E, energies A E) /\
  forall E E', energies A E -> energies A E' -> forall k, (k < dim A)%N -> E k = E' k.
Proof.
move=> D EA; have [dA hA] := hamiltonian_ok D EA; split; first exact: energies_exist.
by move=> E E' H H' k hk; apply: Rle_antisym; apply: (embed_le (p := id) _ _ _ _ _ hk hk); eauto.
Qed.
Print Assumptions C80_energies.

Lemma trunc_hm h l k : (k < hn h)%N -> hm (truncated h l) k = if hcharge h k then (2 * nth 0 l k).-1%N else nth 0%N l k.
Proof. by move=> hk; rewrite /hm /= (nth_map 0%N) ?size_iota // nth_iota. Qed.

(** Raising gate charges by whole Cooper pairs, with enough further charge states
    (none needed if the gates stay), lowers every energy or leaves it as it is. *)
Theorem C80_levels disp h h' z l l' val loops B ks A : (forall m a, dim (disp m a) = m) ->
  raised z h h' -> roomier h z l l' -> hamiltonian disp (truncated h l) val loops B ks = Ok A ->
  exists2 A', hamiltonian disp (truncated h' l') val loops B ks = Ok A' &
  (dim A <= dim A')%N /\ forall E E', energies A E -> energies A' E' -> forall k, (k < dim A)%N -> Rle (E' k) (E k).
Proof.
move=> D [st ng] room EA.
have hn' : hn h' = hn h by rewrite /hn st.
have hc k : hcharge h' k = hcharge h k by rewrite /hcharge st.
have n0 : hn h <> 0%N by move=> e; move: EA; rewrite /hamiltonian /= e.
have m0 : h_m (truncated h' l') <> [::] by move=> /(congr1 size); rewrite size_map size_iota hn'.
have S : same_circuit (truncated h l) (truncated h' l').
  split=> // k hk ch; rewrite !trunc_hm ?hn' // hc.
  by have := room k hk; rewrite -[hcharge (truncated h l) k]/(hcharge h k) in ch; rewrite (negbTE ch).
have [A' E' g] := ham_shift S D m0 EA; exists A' => //.
pose f k a := if hcharge h k then Z.to_nat (Z.add (Z.of_nat a) (Z.add (Z.sub (Z.of_nat (nth 0%N l' k)) (Z.of_nat (nth 0%N l k))) (z k))) else a.
have cov : covers (truncated h l) (truncated h' l') f.
  move=> d L; split=> k; rewrite -[hn _]/(hn h) => hk; have := L k hk; have := room k hk;
    rewrite ?trunc_hm ?hn' // ?hc /f -?[hcharge (truncated h l) k]/(hcharge h k); case: (hcharge h k); try lia.
  move=> [l0 lz] dk; rewrite -[h_ng _ k]/(h_ng h' k) -[h_ng (truncated h l) k]/(h_ng h k) ng //.
  by apply: (charge_at_shift _ (nth 0 l' k - nth 0 l k)%N); lia.
have [dA hA] := hamiltonian_ok D EA; have [dA' hA'] := hamiltonian_ok D E'.
have [E HE] := energies_exist hA; have [F HF] := energies_exist hA'.
split; last by move=> E1 E2 H1 H2 k hk; have [] := cover_le S D cov m0 EA E' H1 H2 hk.
case: (posnP (dim A)) => [-> //|pos]; rewrite -(prednK pos).
by have [] := cover_le S D cov m0 EA E' HE HF (k := (dim A).-1); rewrite ?prednK.
Qed.
Print Assumptions C80_levels.

(** The energies at gate charges that differ by whole Cooper pairs lie between those
    of smaller and of larger truncation numbers: they are periodic as far as the
    truncation can be trusted. *)
Theorem C80_periodic disp h h' z l l1 l2 val loops B ks A : (forall m a, dim (disp m a) = m) ->
  raised z h h' -> roomier h z l l1 -> roomier h z l1 l2 ->
  hamiltonian disp (truncated h l) val loops B ks = Ok A ->
  exists A1 A2, [/\ hamiltonian disp (truncated h' l1) val loops B ks = Ok A1,
                    hamiltonian disp (truncated h l2) val loops B ks = Ok A2 &
  forall E E1 E2, energies A E -> energies A1 E1 -> energies A2 E2 ->
    forall k, (k < dim A)%N -> Rle (E2 k) (E1 k) /\ Rle (E1 k) (E k)].
Proof.
move=> D rs r1 r2 EA; have [A1 E1 [d1 H1]] := C80_levels D rs r1 EA; case: (rs) => st ng.
have hn' : hn h' = hn h by rewrite /hn st.
have hc k : hcharge h' k = hcharge h k by rewrite /hcharge st.
have rs' : raised (fun k => Z.opp (z k)) h' h.
  by split=> // k; rewrite hn' => hk; rewrite ng // opp_IZR; lra.
have r2' : roomier h' (fun k => Z.opp (z k)) l1 l2.
  by move=> k; rewrite hn' => hk; have := r2 k hk; rewrite hc Z.abs_opp.
have [A2 E2 [d2 H2]] := C80_levels D rs' r2' E1; exists A1, A2; split=> // e e1 e2 He He1 He2 k hk; split.
  by apply: H2 => //; apply: leq_trans hk d1.
exact: H1.
Qed.
Print Assumptions C80_periodic.

(** How the two settings are made: set_trunc_nums and set_charge_offset. *)
Theorem C80_settings disp x :
  (forall l x', set_trunc disp (Some l) x = (x', Ok tt) -> hof x' = truncated (hof x) l) /\
  (forall mode v x', set_offset mode v x = (x', Ok tt) -> exists i, mode = Some (Z.of_nat i.+1) /\
     [/\ h_st (hof x') = h_st (hof x), h_m (hof x') = h_m (hof x), h_ng (hof x') i = v &
         forall k, k <> i -> h_ng (hof x') k = h_ng (hof x) k]).
Proof.
split=> [l x'|mode v x']; first by rewrite /set_trunc; case: ifP => // _; case: mem_err => // -[<-].
rewrite /set_offset; case Ei: island_of => [i|//].
have [Em [p Ep]] : mode = Some (Z.of_nat i.+1) /\ exists p, isl x i = Some p.
  move: Ei; rewrite /island_of; case: mode => [m|//]; case: ifP => // /andP [/Z.leb_le m1]; set j := Z.to_nat _ => sj [ij].
  by split; [congr Some; rewrite -ij /j; lia|rewrite -ij; case: (isl x j) sj => // p; exists p].
set x1 := island_set _ _ _.
have N k : ng_of x1 k = if k == i then v else ng_of x k.
  rewrite /ng_of /isl /x1 /= nth_set_nth /=; case: (k == i) => //.
  by move: Ep; rewrite /isl => ->.
have fin y : hof y = hof x1 -> exists i0, mode = Some (Z.of_nat i0.+1) /\ [/\ h_st (hof y) = h_st (hof x), h_m (hof y) = h_m (hof x), h_ng (hof y) i0 = v &
         forall k, k <> i0 -> h_ng (hof y) k = h_ng (hof x) k].
  move=> ->; exists i; split=> //; split=> //; first by rewrite /= N eqxx.
  by move=> k /eqP ne; rewrite /= N (negbTE ne).
case: ifP => _; first by move=> [<-]; apply: fin.
by case: mem_err => // -[<-]; apply: fin.
Qed.
Print Assumptions C80_settings.

(** One island with gate charge 1: with truncation number 1 only charge 0 is kept and
    the lowest energy is that of one Cooper pair too few; with truncation number 2
    the charge state 1 brings it down to 0. *)
Definition box (ng : R) : hin := mkH (mkT 1 1 0 0 (fun _ _ => 1) eye eye eye (fun _ _ => 0) (fun _ _ => 1) (fun=> 0)) [::] (fun=> ng) eye.
Lemma box_charge ng k : hcharge (box ng) k. Proof. by rewrite /hcharge /is_charge /= eqxx. Qed.
Lemma box_ham disp ng l val : (0 < l)%N -> exists2 A, hamiltonian disp (truncated (box ng) [:: l]) val [::] (fun _ _ => 0) (mkKeys [::] [::]) = Ok A &
  dim A = (2 * l).-1 /\ forall a b, (a < dim A)%N -> (b < dim A)%N ->
    ent A a b = if a == b then (halfR 1)%:C * (charge_unit%:C * (Rminus (charge_at (2 * l).-1 a) ng)%:C) ^+ 2 else 0.
Proof.
move=> l0; set h := truncated _ _.
have ch : hcharge h 0 = true by exact: box_charge.
have m1 : hm h 0 = (2 * l).-1 by rewrite trunc_hm // box_charge.
have LC : LC_hamil h = Some (oscale (halfR 1)%:C (opQQ h 0 0)) by rewrite /LC_hamil /= /LC_term ch /quad_cI eqxx.
eexists; first by rewrite /hamiltonian /ind_hamil /= LC; reflexivity.
have EQ : opQQ h 0 0 = omul (charge_op_isolated h 0) (charge_op_isolated h 0) by rewrite opQQE.
rewrite EQ; split; first by rewrite /= dimQ m1.
move=> a b; rewrite [dim _]/= dimQ m1 => ha hb.
rewrite -[ent (oscale _ _) a b]/((halfR 1)%:C * ent (omul (charge_op_isolated h 0) (charge_op_isolated h 0)) a b) /=.
rewrite dimQ m1 (bigD1 (Ordinal ha)) //= big1 ?addr0.
  rewrite !Qdiag // eqxx m1; case: eqP => [->|_]; by rewrite ?mulr0 // expr2.
move=> i ne; rewrite [X in X * _]Qdiag // eq_sym -val_eqE /= in ne *; by rewrite (negbTE ne) mul0r.
Qed.
Definition step_energy : R := Rmult (halfR 1) (Rmult charge_unit charge_unit).
Lemma step_sq x : (halfR 1)%:C * (charge_unit%:C * x%:C) ^+ 2 = (Rmult step_energy (Rmult x x))%:C.
Proof. by rewrite /step_energy !RmultE expr2 !rmorphM /=; ring. Qed.
Lemma step_pos : Rle 0 step_energy.
Proof. by apply: Rmult_le_pos; [exact: halfR_pos|exact: Rle_0_sqr]. Qed.
Example C80_case disp val : exists A A',
  [/\ hamiltonian disp (truncated (box 1) [:: 1%N]) val [::] (fun _ _ => 0) (mkKeys [::] [::]) = Ok A,
      hamiltonian disp (truncated (box 1) [:: 2%N]) val [::] (fun _ _ => 0) (mkKeys [::] [::]) = Ok A',
      dim A = 1%N /\ dim A' = 3%N, energies A (fun=> step_energy) &
      energies A' (fun k => Rmult step_energy (Rmult (INR k) (INR k)))].
Proof.
have [A EA [dA eA]] := @box_ham disp 1 1 val isT; have [A' EA' [dA' eA']] := @box_ham disp 1 2 val isT.
have [c2 [c1 c0]] := charge_rel3; have [s0 [s1 s2]] := sq_vals step_energy.
exists A, A'; split=> //.
- exists (fun _ _ => 1); rewrite /levels_of dA; split.
  + by move=> i j _; apply: Rle_refl.
  + move=> [|//] [|//] _ _; rewrite big_ord_recl big_ord0 addr0 eA ?dA // eqxx step_sq charge_rel1; by rewrite sq_one.
  + by move=> [|//] [|//] _ _; rewrite big_ord_recl big_ord0 addr0 cj1 mulr1.
- exists (fun i a => if (a + i == 2)%N then 1 else 0); rewrite /levels_of dA'; split.
  + by move=> i j /andP [le _]; apply: sq_le; [exact: step_pos|lia].
  + have e a b : (a < 3)%N -> (b < 3)%N -> ent A' a b = if a == b then (Rmult step_energy (Rmult (Rminus (charge_at 3 a) 1) (Rminus (charge_at 3 a) 1)))%:C else 0.
      by move=> ha hb; rewrite eA' ?dA' // step_sq.
    move=> i a; case: i => [|[|[|//]]]; case: a => [|[|[|//]]] _ _; rewrite !big_ord_recl big_ord0 !e //=
      ?(mulr0, mulr1, mul0r, addr0, add0r) // ?s0 ?s1 ?s2 ?c0 ?c1 ?c2 //.
  + move=> i j; case: i => [|[|[|//]]]; case: j => [|[|[|//]]] _ _; rewrite !big_ord_recl big_ord0 ?(cj1, cj0, mulr0, mulr1, mul0r, addr0, add0r) //.
Qed.

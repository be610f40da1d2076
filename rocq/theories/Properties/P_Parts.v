(** P_Parts.v -- C89: parts of a circuit that do not act on each other. *)
From Coq Require Import Reals ZArith Lia Lra.
From Verif.Model Require Import Base Units Settings Edge Accuracy HamConst.
From mathcomp Require Import all_ssreflect all_algebra.
From mathcomp Require Import complex ring zify.
From Verif.Numerics Require Import RStruct Bridge.
From Verif.Model Require Import Op Transform Ham Diag.
From Verif.Spec Require Import OpSpec LevelsSpec LowestSpec SymmetrySpec PartsSpec.
From Verif.Proofs Require Import OpProofs HamProofs HamProofs2 HamProofs6 MinMaxProofs ExpProofs2 PartsProofs.
From Verif.Properties Require Import P_Ops P_Lowest.

Set Implicit Arguments.
Unset Strict Implicit.
Unset Printing Implicit Defensive.
Import GRing.Theory Order.TTheory.
Local Open Scope ring_scope.
Local Open Scope complex_scope.

(** The Hamiltonian is the sum of the Hamiltonians of the two groups. *)
Theorem C89_hamiltonian disp h n1 n2 side val loops B ks A : (forall m a, dim (disp m a) = m) ->
  (forall m, eqop (disp m 0) (oeye m)) -> separate h n1 n2 side (k_jj ks) -> (0 < n1)%N -> (0 < n2)%N ->
  hamiltonian disp h val loops B ks = Ok A -> exists A1 A2,
  [/\ hamiltonian disp (part h 0 n1) val loops B (keys_of side ks) = Ok A1,
      hamiltonian disp (part h n1 n2) val loops B (keys_of (fun k => ~~ side k) ks) = Ok A2 & without_interaction A A1 A2].
Proof. exact: ham_parts. Qed.
Print Assumptions C89_hamiltonian.

Lemma pairs_map (X : Type) (f : nat -> nat -> X) a b :
  [seq f i j | i <- iota 0 a, j <- iota 0 b] = [seq f (k %/ b)%N (k %% b)%N | k <- iota 0 (a * b)].
Proof.
elim: a => [//|a IH]; rewrite -addn1 iotaD allpairs_cat IH mulnDl mul1n iotaD map_cat !add0n; congr (_ ++ _).
have -> : iota (a * b)%N b = [seq (a * b + j)%N | j <- iota 0 b] by rewrite -{1}[(a * b)%N]addn0 iotaDl.
rewrite /= cats0 -map_comp; apply/eq_in_map => j; rewrite mem_iota add0n => /andP [_ hj] /=.
have b0 : (0 < b)%N by lia.
by rewrite divnMDl // divn_small // addn0 modnMDl modn_small.
Qed.

(** Its energies are the sums of the energies of the two groups. *)
Theorem C89_energies A A1 A2 E1 E2 : without_interaction A A1 A2 -> energies A1 E1 -> energies A2 E2 ->
  energies A (nth 0 (all_sums (dim A1) (dim A2) E1 E2)).
Proof.
move=> [dA eA] [v1 [_ eig1 orth1]] [v2 [_ eig2 orth2]].
set N1 := dim A1 in dA eA eig1 orth1 *; set N2 := dim A2 in dA eA eig2 orth2 *.
pose e k : R := Rplus (E1 (k %/ N2)%N) (E2 (k %% N2)%N).
pose le_e : rel nat := fun k l => e k <= e l.
pose idx := sort le_e (iota 0 (N1 * N2)).
have AS : all_sums N1 N2 E1 E2 = [seq e k | k <- idx].
  by rewrite /all_sums (pairs_map (fun i j => Rplus (E1 i) (E2 j))) sort_map.
have sz : size idx = (N1 * N2)%N by rewrite size_sort size_iota.
pose sg i := nth 0%N idx i.
have sglt i : (i < N1 * N2)%N -> (sg i < N1 * N2)%N.
  move=> hi; have : sg i \in idx by rewrite mem_nth ?sz.
  by rewrite mem_sort mem_iota add0n => /andP [].
have sginj i j : (i < N1 * N2)%N -> (j < N1 * N2)%N -> (sg i == sg j) = (i == j).
  by move=> hi hj; rewrite /sg nth_uniq ?sz // sort_uniq iota_uniq.
have eE i : (i < N1 * N2)%N -> nth 0 (all_sums N1 N2 E1 E2) i = e (sg i).
  by move=> hi; rewrite AS (nth_map 0%N) ?sz.
pose u k a := v1 (k %/ N2)%N (a %/ N2)%N * v2 (k %% N2)%N (a %% N2)%N.
exists (fun i => u (sg i)); rewrite /levels_of dA; split.
- move=> i j /andP [ij hj]; have hi : (i < N1 * N2)%N by apply: leq_ltn_trans ij hj.
  rewrite !eE //; apply/RleP; have tr : transitive le_e by move=> x y z; apply: le_trans.
  have rf : reflexive le_e by move=> x; apply: lexx.
  have so : sorted le_e idx by apply: sort_sorted => x y; apply: le_total.
  by apply: (sorted_leq_nth tr rf 0%N so) => //; rewrite inE sz.
- move=> i a hi ha; rewrite eE //; set k := sg i; have hk := sglt _ hi; rewrite -/k in hk.
  have [k1 k2] := divb hk; have [a1 a2] := divb ha; rewrite /u.
  have split_a c : (c < N1 * N2)%N -> ent A a c = (if (a %% N2 == c %% N2)%N then ent A1 (a %/ N2)%N (c %/ N2)%N else 0) +
      (if (a %/ N2 == c %/ N2)%N then ent A2 (a %% N2)%N (c %% N2)%N else 0).
    by move=> hc; have [c1 c2] := divb hc; rewrite -eA // -!divn_eq.
  under eq_bigr => c _ do rewrite split_a //.
  rewrite (sum_divmod N1 N2 (fun x y => ((if (a %% N2 == y)%N then ent A1 (a %/ N2)%N x else 0) +
      (if (a %/ N2 == x)%N then ent A2 (a %% N2)%N y else 0)) * (v1 (k %/ N2)%N x * v2 (k %% N2)%N y))).
  transitivity (\sum_(x < N1) ent A1 (a %/ N2)%N x * v1 (k %/ N2)%N x * v2 (k %% N2)%N (a %% N2)%N +
                \sum_(y < N2) ent A2 (a %% N2)%N y * v2 (k %% N2)%N y * v1 (k %/ N2)%N (a %/ N2)%N).
    under eq_bigr => x _ do under eq_bigr => y _ do rewrite mulrDl.
    under eq_bigr => x _ do rewrite big_split /=.
    rewrite big_split /=; congr (_ + _).
      apply: eq_bigr => x _; rewrite (bigD1 (Ordinal a2)) //= eqxx big1 ?addr0; first by rewrite mulrA.
      by move=> y; rewrite -val_eqE /= eq_sym => /negbTE ->; rewrite mul0r.
    rewrite exchange_big /=; apply: eq_bigr => y _; rewrite (bigD1 (Ordinal a1)) //= eqxx big1 ?addr0.
      by rewrite -mulrA [v1 _ _ * _]mulrC.
    by move=> x; rewrite -val_eqE /= eq_sym => /negbTE ->; rewrite mul0r.
  rewrite -!big_distrl /= eig1 // eig2 // /e RplusE cRD.
  have alg (x y p q : C) : x * p * q + y * q * p = (x + y) * (p * q) by ring.
  exact: alg.
- move=> i j hi hj; rewrite -sginj //; set k := sg i; set l := sg j.
  have [k1 k2] := divb (sglt _ hi); have [l1 l2] := divb (sglt _ hj); rewrite -/k -/l in k1 k2 l1 l2.
  rewrite /u (sum_divmod N1 N2 (fun x y => (v1 (k %/ N2)%N x * v2 (k %% N2)%N y)^* * (v1 (l %/ N2)%N x * v2 (l %% N2)%N y))).
  transitivity ((\sum_(x < N1) (v1 (k %/ N2)%N x)^* * v1 (l %/ N2)%N x) * (\sum_(y < N2) (v2 (k %% N2)%N y)^* * v2 (l %% N2)%N y)).
    rewrite big_distrl; apply: eq_bigr => x _ /=; rewrite big_distrr; apply: eq_bigr => y _ /=.
    by rewrite cjM mulrACA.
  rewrite orth1 // orth2 //; case: (eqVneq k l) => [->|ne]; first by rewrite !eqxx mulr1.
  case: eqP => e1; rewrite ?mul0r // mul1r; case: eqP => e2 //; case/negP: ne.
  by rewrite (divn_eq k N2) (divn_eq l N2) e1 e2.
Qed.
Print Assumptions C89_energies.

Lemma all_sums_size n1 n2 E1 E2 : size (all_sums n1 n2 E1 E2) = (n1 * n2)%N.
Proof. by rewrite size_sort size_allpairs !size_iota. Qed.
Lemma all_sums_in n1 n2 E1 E2 z : z \in all_sums n1 n2 E1 E2 <-> exists i j, [/\ (i < n1)%N, (j < n2)%N & z = Rplus (E1 i) (E2 j)].
Proof.
rewrite mem_sort; split=> [/allpairsP [[i j] /= [hi hj ->]]|[i [j [hi hj ->]]]].
  by move: hi hj; rewrite !mem_iota !add0n => hi hj; exists i, j.
by apply/allpairsP; exists (i, j); rewrite /= !mem_iota !add0n.
Qed.

(** The lowest energy is the sum of the lowest energies. *)
Theorem C89_ground A A1 A2 E E1 E2 : without_interaction A A1 A2 -> energies A E -> energies A1 E1 -> energies A2 E2 ->
  (0 < dim A1)%N -> (0 < dim A2)%N -> E 0%N = Rplus (E1 0%N) (E2 0%N).
Proof.
move=> wi HE H1 H2 d1 d2; have HS := C89_energies wi H1 H2; have dA := proj1 wi.
have d0 : (0 < dim A)%N by rewrite dA muln_gt0 d1.
rewrite (one_energies HE HS d0); have [_ [asc _ _]] := HS.
have [v1 [asc1 _ _]] := H1; have [v2 [asc2 _ _]] := H2.
set S := all_sums _ _ _ _ in asc *; have sS : size S = dim A by rewrite all_sums_size dA.
apply: Rle_antisym.
  have : Rplus (E1 0%N) (E2 0%N) \in S by apply/all_sums_in; exists 0%N, 0%N.
  by move=> /(nthP 0) [k]; rewrite sS => hk <-; apply: asc; rewrite hk.
have : nth 0 S 0 \in S by rewrite mem_nth ?sS.
move=> /all_sums_in [i [j [hi hj ->]]]; apply: Rplus_le_compat; [apply: asc1|apply: asc2]; lia.
Qed.
Print Assumptions C89_ground.

(** The first excitation is the smaller of the two first excitations. *)
Lemma count_second (S : seq R) (p : pred R) : sorted <=%R S -> (1 < size S)%N ->
  (forall x y, x <= y -> p y -> p x) -> p (nth 0 S 1) = (1 < count p S)%N.
Proof.
case: S => [//|x [//|y l]] /= /andP [xy srt] _ down; case py: (p y).
  by rewrite (down _ _ xy py).
have -> : count p l = 0%N; last by case: (p x).
apply/eqP; rewrite -leqn0 leqNgt -has_count; apply/hasPn => z hz; apply/negP => pz.
by move/negP: py; apply; apply: down pz; move: srt; rewrite (path_sortedE le_trans) => /andP [/allP H _]; apply: H.
Qed.
Theorem C89_excitation A A1 A2 E E1 E2 : without_interaction A A1 A2 -> energies A E -> energies A1 E1 -> energies A2 E2 ->
  (1 < dim A1)%N -> (1 < dim A2)%N ->
  Rminus (E 1%N) (E 0%N) = Rmin (Rminus (E1 1%N) (E1 0%N)) (Rminus (E2 1%N) (E2 0%N)).
Proof.
move=> wi HE H1 H2 d1 d2; have HS := C89_energies wi H1 H2; have dA := proj1 wi.
have dd : (1 < dim A)%N by rewrite dA; nia.
rewrite (C89_ground wi HE H1 H2 (ltnW d1) (ltnW d2)) (one_energies HE HS dd).
have [v1 [asc1 _ _]] := H1; have [v2 [asc2 _ _]] := H2.
set N1 := dim A1 in dA d1 asc1 *; set N2 := dim A2 in dA d2 asc2 *; set S := all_sums _ _ _ _.
have sS : size S = dim A by rewrite all_sums_size dA.
have srt : sorted <=%R S by apply: sort_sorted; exact: le_total.
pose e k : R := Rplus (E1 (k %/ N2)%N) (E2 (k %% N2)%N).
have cnt p : count p S = count (fun k => p (e k)) (iota 0 (N1 * N2)).
  have P : perm_eq S [seq Rplus (E1 i) (E2 j) | i <- iota 0 N1, j <- iota 0 N2] by rewrite perm_sort.
  by have /permP -> := P; rewrite (pairs_map (fun i j => Rplus (E1 i) (E2 j))) count_map.
have lt1 : (1 < size S)%N by rewrite sS.
have n20 : (0 < N2)%N by lia.
have e0 : e 0%N = Rplus (E1 0%N) (E2 0%N) by rewrite /e div0n mod0n.
have e1 : e 1%N = Rplus (E1 0%N) (E2 1%N) by rewrite /e divn_small // modn_small.
have e2 : e N2 = Rplus (E1 1%N) (E2 0%N) by rewrite /e divnn n20 modnn.
set m := Rmin _ _; have [mL mR] : Rle m (Rminus (E1 1%N) (E1 0%N)) /\ Rle m (Rminus (E2 1%N) (E2 0%N)) by split; [exact: Rmin_l|exact: Rmin_r].
pose M := Rplus m (Rplus (E1 0%N) (E2 0%N)).
suff -> : nth 0 S 1 = M by rewrite /M; lra.
apply: Rle_antisym.
  have [k0 [k1 [k2 k3]]] : exists k, k != 0%N /\ (k < N1 * N2)%N /\ Rle (e k) M.
    rewrite /M /m; case: (Rle_dec (Rminus (E1 1%N) (E1 0%N)) (Rminus (E2 1%N) (E2 0%N))) => h.
      exists N2; rewrite e2 Rmin_left //; split; [by rewrite -lt0n|split; [by nia|lra]].
    exists 1%N; rewrite e1 Rmin_right; last by lra.
    by split=> //; split; [nia|lra].
  apply/RleP; rewrite (count_second (p := fun x => x <= M)) // => [|x y]; last exact: le_trans.
  rewrite cnt; have -> : 2%N = count [pred k | (k == 0%N) || (k == k0)] (iota 0 (N1 * N2)).
    rewrite (_ : count _ _ = count (predU (pred1 0%N) (pred1 k0)) (iota 0 (N1 * N2))) //.
    have := count_predUI (pred1 0%N) (pred1 k0) (iota 0 (N1 * N2)).
    rewrite (_ : count (predI _ _) _ = 0%N); last first.
      by apply/eqP; rewrite -leqn0 leqNgt -has_count; apply/hasPn => z _ /=; case: eqP => // ->; rewrite eq_sym.
    by rewrite addn0 => ->; rewrite !count_uniq_mem ?iota_uniq // !mem_iota !add0n k2 muln_gt0; lia.
  apply: sub_count => k /= /orP [/eqP ->|/eqP ->]; apply/RleP => //; rewrite e0 /M.
  have a1 := asc1 0%N 1%N; have a2 := asc2 0%N 1%N.
  have m0 : Rle 0 m by apply: Rmin_glb; have := a1 d1; have := a2 d2; lra.
  lra.
case: (Rle_dec M (nth 0 S 1)) => // /Rnot_le_lt lt; exfalso.
have : (1 < count (fun x : R => (x < M)%R) S)%N.
  rewrite -(count_second (p := fun x : R => (x < M)%R)) //; first by apply/RltP.
  by move=> x y; apply: le_lt_trans.
rewrite cnt ltnNge => /negP; apply.
have <- : count (pred1 0%N) (iota 0 (N1 * N2)) = 1%N.
  by rewrite count_uniq_mem ?iota_uniq // mem_iota add0n muln_gt0; lia.
have -> : count (fun k => (e k < M)%R) (iota 0 (N1 * N2)) = count (fun k => (k < N1 * N2)%N && (e k < M)%R) (iota 0 (N1 * N2)).
  by apply: eq_in_count => k; rewrite mem_iota add0n => /andP [_ ->].
apply: sub_count => k /= /andP [hk /RltP].
have [h1 h2] := divb hk; rewrite /e /M => l; apply/eqP; rewrite (divn_eq k N2).
case: (posnP (k %/ N2)%N) => q1; last first.
  have := asc1 1%N (k %/ N2)%N; have := asc2 0%N (k %% N2)%N; rewrite q1 h1 h2 => x1 x2.
  by have := x1 isT; have := x2 isT; lra.
case: (posnP (k %% N2)%N) => q2; first by rewrite q1 q2 mul0n.
have := asc1 0%N (k %/ N2)%N; have := asc2 1%N (k %% N2)%N; rewrite q2 h1 h2 => x1 x2.
by have := x1 isT; have := x2 isT; lra.
Qed.
Print Assumptions C89_excitation.

(** What diag() returns for the whole circuit, from the energies of the groups. *)
Theorem C89_returned eigs argsort u k disp h n1 n2 side val loops B ks old r fr ve : (forall A, smallest eigs A k) ->
  (forall m a, dim (disp m a) = m) -> (forall m, eqop (disp m 0) (oeye m)) ->
  separate h n1 n2 side (k_jj ks) -> (0 < n1)%N -> (0 < n2)%N ->
  diag eigs argsort u true (hamiltonian disp h val loops B ks) (Some (Z.of_nat k)) old = (r, Ok (fr, ve)) ->
  exists A1 A2, [/\ hamiltonian disp (part h 0 n1) val loops B (keys_of side ks) = Ok A1,
    hamiltonian disp (part h n1 n2) val loops B (keys_of (fun k => ~~ side k) ks) = Ok A2 &
    forall E1 E2, energies A1 E1 -> energies A2 E2 ->
      fr = [seq Rdiv e (unit_rad u) | e <- take k (all_sums (dim A1) (dim A2) E1 E2)]].
Proof.
move=> solver D D0 sep n10 n20; case EA: hamiltonian => [A|e]; last by rewrite /diag.
have [A1 [A2 [H1 H2 wi]]] := C89_hamiltonian D D0 sep n10 n20 EA => d; exists A1, A2; split=> // E1 E2 HE1 HE2.
have [kd ->] := C84_returned (@solver A) (C89_energies wi HE1 HE2) d.
have sS : size (all_sums (dim A1) (dim A2) E1 E2) = dim A by rewrite all_sums_size (proj1 wi).
apply: (@eq_from_nth _ 0); first by rewrite !size_map size_iota size_takel ?sS.
move=> i; rewrite size_map size_iota => hi.
rewrite !(nth_map 0%N) ?size_iota // nth_iota // (nth_map 0) ?size_takel ?sS // nth_take //.
Qed.
Print Assumptions C89_returned.

(** An oscillator and an island, each with its own junction: 2 photon and 3 charge
    states. *)
Definition pair_h : hin := mkH (mkT 2 2 0 2 eye eye eye eye eye eye (fun i => if i == 0%N then 1 else 0)) [:: 2%N; 3%N] (fun=> 0) eye.
Definition pair_ks : keys := mkKeys [::] [:: ((Z0, Zpos xH), 0%N, 0%N, 0%N); ((Z0, Zpos 2), 1%N, 1%N, 1%N)].
Example C89_case disp val B : exponential disp -> exists A A1 A2,
  [/\ hamiltonian disp pair_h val [::] B pair_ks = Ok A, dim A = 6%N, dim A1 = 2%N /\ dim A2 = 3%N,
    [/\ hamiltonian disp (part pair_h 0 1) val [::] B (mkKeys [::] [:: ((Z0, Zpos xH), 0%N, 0%N, 0%N)]) = Ok A1,
        hcharge (part pair_h 0 1) 0 = false, hcharge (part pair_h 1 1) 0 &
        hamiltonian disp (part pair_h 1 1) val [::] B (mkKeys [::] [:: ((Z0, Zpos 2), 1%N, 1%N, 1%N)]) = Ok A2] &
    forall E E1 E2, energies A E -> energies A1 E1 -> energies A2 E2 -> E 0%N = Rplus (E1 0%N) (E2 0%N)].
Proof.
move=> ex; have D := exp_disp_dims ex; have D0 := disp_zero ex.
have [A EA] : exists A, hamiltonian disp pair_h val [::] B pair_ks = Ok A by apply: hamiltonian_total.
have sep : separate pair_h 1 1 (fun k => k.2 == 0%N) (k_jj pair_ks).
  split=> [//|[|//] [|//] _ _ //|k [|//] kin ks _|k [|//] kin ks _]; case: kin ks => [<-//|[<-//|//]].
have [A1 [A2 [E1 E2 wi]]] := C89_hamiltonian D D0 sep isT isT EA.
have [dA _] := hamiltonian_ok D EA; have [d1 _] := hamiltonian_ok D E1; have [d2 _] := hamiltonian_ok D E2.
have t1 : total (part pair_h 0 1) = 2%N by rewrite /total big_ord_recl big_ord0.
have t2 : total (part pair_h 1 1) = 3%N by rewrite /total big_ord_recl big_ord0.
exists A, A1, A2; split=> //.
- by rewrite (proj1 wi) d1 d2 t1 t2.
- by rewrite d1 d2 t1 t2.
- by split=> //; rewrite /hcharge /is_charge /= ?oner_eq0 ?eqxx.
- by move=> E X Y HE HX HY; apply: C89_ground wi HE HX HY _ _; rewrite ?d1 ?d2 ?t1 ?t2.
Qed.

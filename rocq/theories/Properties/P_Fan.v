(** P_Fan.v -- C106: sums of the lowest energies. *)
From Coq Require Import Reals ZArith Lia Lra String List.
From Verif.Model Require Import Base Units Settings Edge Elements LCWB Accuracy HamConst.
From Verif.Spec Require Import GraphSpec ThermalSpec.
From Verif.Proofs Require Import HamConstProofs ThermalProofs OffsetGround.
Lemma above_sums a0 a1 e0 e1 e g t : (0 <= t -> t <= 1 -> e0 <= a0 -> e1 <= a1 -> e = (1 - t) * a0 + t * a1 - g ->
  (1 - t) * e0 + t * e1 - g <= e)%R.
Proof.
  intros t0 t1 l0 l1 ->. apply Rplus_le_compat_r, Rplus_le_compat; apply Rmult_le_compat_l; lra.
Qed.
Lemma no_gap e0 e1 e t : ((1 - t) * e0 + t * e1 - 0 <= e -> (1 - t) * e0 + t * e1 <= e)%R. Proof. lra. Qed.
Lemma equal_mean e f : ((1 - / 2) * e + / 2 * e <= f -> e <= f)%R. Proof. lra. Qed.
Lemma half_in2 : (0 <= / 2)%R /\ (/ 2 <= 1)%R. Proof. lra. Qed.
Lemma to_zero a : (0 = (1 - / 2) * a + / 2 * - a)%R. Proof. lra. Qed.
(** A plane vector z and its other end w, with the middle between them at q. *)
Lemma parallelogram (a b c d p q : R) : (p = (1 - / 2) * a + / 2 * c -> q = (1 - / 2) * b + / 2 * d ->
  (a * a + b * b) + (c * c + d * d) = 2 * ((p * p + q * q) + ((a - p) * (a - p) + (b - q) * (b - q))))%R.
Proof. intros -> ->. field. Qed.
Lemma twice_eq (a b : R) : (a + a = 2 * b -> a = b)%R. Proof. lra. Qed.

From mathcomp Require Import all_ssreflect all_algebra.
From mathcomp Require Import complex ring.
From Verif.Numerics Require Import RStruct Bridge.
From Verif.Model Require Import Op Transform Ham Diag CircuitSM.
From Verif.Spec Require Import OpSpec EigSpec SymmetrySpec SessionSpec GradSpec PerturbSpec LevelsSpec LowestSpec OrderSpec FanSpec.
From Verif.Proofs Require Import OpProofs HamProofs HamProofs2 HamProofs5 HamProofs6 MinMaxProofs OrderProofs SumProofs SymmetryProofs SymmetryProofs2.
From Verif.Proofs Require Import SMProofs SMProofs2 SMProofs3 MemProofs GradProofs NgProofs FanProofs.
From Verif.Properties Require Import P_Ops P_Symmetry P_Gradient P_Ng P_Order P_Strong P_Offset P_Bias.

Set Implicit Arguments.
Unset Strict Implicit.
Unset Printing Implicit Defensive.
Import GRing.Theory.
Local Open Scope ring_scope.
Local Open Scope complex_scope.

(** The sum of the lowest [k] energies is the smallest sum of expectation values in [k]
    states of an orthonormal basis: no basis falls under it, and one attains it. *)
Theorem C106_least A E k : energies A E -> (k <= dim A)%N ->
  (forall u, basis (dim A) u -> Rle (lowest_sum k E) (\sum_(j < k) expect A (u j))) /\
  exists2 u, basis (dim A) u & lowest_sum k E = \sum_(j < k) expect A (u j).
Proof.
move=> H kN; split=> [u U|]; first by apply/RleP; exact: fan.
by have [v L] := H; exists v; [have [] := L|exact: fan_own].
Qed.
Print Assumptions C106_least.

(** It is at most the sum of any [k] diagonal elements: [f] lists the basis states in any order. *)
Theorem C106_diagonal A E k f : energies A E -> (k <= dim A)%N ->
  (forall j, (j < dim A)%N -> (f j < dim A)%N) ->
  (forall i j, (i < dim A)%N -> (j < dim A)%N -> f i = f j -> i = j) ->
  Rle (lowest_sum k E) (\sum_(j < k) complex.Re (ent A (f j) (f j))).
Proof.
move=> H kN fN fI; pose u (j a : nat) : C := if a == f j then 1 else 0.
have one (g : nat -> C) j : (j < dim A)%N -> \sum_(a < dim A) g a * u j a = g (f j).
  move=> hj; rewrite (bigD1 (Ordinal (fN j hj))) //= /u eqxx mulr1 big1 ?addr0 // => a ne.
  by rewrite ifF ?mulr0 //; apply/negbTE; rewrite -(inj_eq val_inj) in ne.
have cu j a : (u j a)^* = u j a by rewrite /u; case: eqP => _; rewrite ?cj1 ?cj0.
have U : basis (dim A) u.
  move=> i j hi hj; rewrite (one (fun a => (u i a)^*)) // cu /u; case: (i =P j) => [->|ne]; first by rewrite eqxx.
  by rewrite ifF //; apply/negbTE/eqP => /esym e; apply: ne; exact: fI.
have [B _] := C106_least H kN; apply: Rle_trans (B u U) _; apply: Req_le; apply: eq_bigr => j _.
have hj := leq_trans (ltn_ord j) kN; rewrite /expect; congr complex.Re.
rewrite (eq_bigr (fun a : 'I_(dim A) => ent A a (f j) * u j a)); last first.
  by move=> a _; rewrite (one (fun b => ent A a b)) // cu mulrC.
exact: (one (fun a => ent A a (f j))).
Qed.
Print Assumptions C106_diagonal.

(** An operator between two others, less a constant. *)
Section Between.
Variables (A0 A1 A : op) (N : nat) (t g : R).
Hypothesis d0 : dim A0 = N.
Hypothesis d1 : dim A1 = N.
Hypothesis dA : dim A = N.
Hypothesis between : forall a b, (a < N)%N -> (b < N)%N ->
  ent A a b = (Rminus 1 t)%:C * ent A0 a b + t%:C * ent A1 a b - g%:C * (if a == b then 1 else 0).

Lemma expect_between v : weight N v = 1 -> expect A v = Rminus (mix t (expect A0 v) (expect A1 v)) g.
Proof.
move=> w1; have X : \sum_(a < N) (v a)^* * (\sum_(b < N) ent A a b * v b) =
   (Rminus 1 t)%:C * (\sum_(a < N) (v a)^* * (\sum_(b < N) ent A0 a b * v b)) +
   t%:C * (\sum_(a < N) (v a)^* * (\sum_(b < N) ent A1 a b * v b)) - g%:C * (\sum_(a < N) (v a)^* * v a).
  rewrite !mulr_sumr -big_split -sumrB /=; apply: eq_bigr => a _.
  have -> : \sum_(b < N) ent A a b * v b = (Rminus 1 t)%:C * (\sum_(b < N) ent A0 a b * v b) +
      t%:C * (\sum_(b < N) ent A1 a b * v b) - g%:C * v a.
    have <- : \sum_(b < N) (if (a : nat) == b then v b else 0) = v a by exact: sum_delta.
    rewrite !mulr_sumr -big_split -sumrB /=; apply: eq_bigr => b _; rewrite between //.
    by rewrite !mulrBl mulrDl !mulrA; congr (_ - _); case: eqP => _; rewrite ?mulr1 ?mulr0 ?mul0r.
  move: (\sum_(b < N) _) (\sum_(b < N) _) ((v a)^*) (v a) (g%:C) (t%:C) ((Rminus 1 t)%:C) => *; ring.
rewrite /expect dA d0 d1 X /mix RminusE RplusE !RmultE.
have m (x y : C) : complex.Re (x - y) = complex.Re x - complex.Re y by case: x; case: y.
by rewrite m Re_add !Re_scale [complex.Re (\sum_(a < N) (v a)^* * v a)](_ : _ = 1) ?mulr1.
Qed.
Lemma sums_between F0 F1 F k : (k <= N)%N -> Rle 0 t -> Rle t 1 -> energies A0 F0 -> energies A1 F1 -> energies A F ->
  Rle (Rminus (mix t (lowest_sum k F0) (lowest_sum k F1)) (Rmult (INR k) g)) (lowest_sum k F).
Proof.
move=> kN t0 t1 H0 H1 [v L]; have [_ _ ON] := L; rewrite dA in ON.
have kA : (k <= dim A)%N by rewrite dA.
have := fan (u := v) (k := k) H0; rewrite d0 => /(_ ON kN) /RleP l0.
have := fan (u := v) (k := k) H1; rewrite d1 => /(_ ON kN) /RleP l1.
have e : lowest_sum k F = Rminus (mix t (\sum_(j < k) expect A0 (v j)) (\sum_(j < k) expect A1 (v j))) (Rmult (INR k) g).
  rewrite (fan_own L kA) (eq_bigr (fun j : 'I_k => Rminus (mix t (expect A0 (v j)) (expect A1 (v j))) g)); last first.
    move=> j _; apply: expect_between; have hj := leq_trans (ltn_ord j) kN.
    by rewrite /weight ON // eqxx.
  rewrite /mix RminusE RplusE !RmultE !mulr_sumr -big_split /= (eq_bigr (fun j : 'I_k => (Rminus 1 t * expect A0 (v j) + t * expect A1 (v j)) - g)) //.
  rewrite sumrB; congr (_ - _); rewrite sumr_const card_ord.
  elim: (k) => [|m IH]; first by rewrite mul0r.
  by rewrite S_INR RplusE mulrDl mul1r mulrSr IH.
have := @above_sums (\sum_(j < k) expect A0 (v j)) (\sum_(j < k) expect A1 (v j)) (lowest_sum k F0) (lowest_sum k F1) (lowest_sum k F) (Rmult (INR k) g) t t0 t1 l0 l1 e; exact.
Qed.
End Between.

Section Exact.
Variables (A0 A1 A : op) (N : nat) (t : R).
Hypothesis d0 : dim A0 = N.
Hypothesis d1 : dim A1 = N.
Hypothesis dA : dim A = N.
Hypothesis between : forall a b, ent A a b = (Rminus 1 t)%:C * ent A0 a b + t%:C * ent A1 a b.
Lemma sums_exact F0 F1 F k : (k <= N)%N -> Rle 0 t -> Rle t 1 -> energies A0 F0 -> energies A1 F1 -> energies A F ->
  Rle (mix t (lowest_sum k F0) (lowest_sum k F1)) (lowest_sum k F).
Proof.
move=> kN t0 t1 H0 H1 H.
have b a c : (a < N)%N -> (c < N)%N -> ent A a c = (Rminus 1 t)%:C * ent A0 a c + t%:C * ent A1 a c - R0%:C * (if a == c then 1 else 0).
  by move=> _ _; rewrite between [R0%:C](_ : _ = 0) // mul0r subr0.
have := sums_between d0 d1 dA b kN t0 t1 H0 H1 H; rewrite Rmult_0_r => /no_gap; exact.
Qed.
End Exact.

(** Concave in the Josephson energies. *)
Theorem C106_junctions disp h val0 val1 val loops B ks A0 A1 A E0 E1 E t k :
  (forall m a, dim (disp m a) = m) -> Rle 0 t -> Rle t 1 ->
  hamiltonian disp h val0 loops B ks = Ok A0 -> hamiltonian disp h val1 loops B ks = Ok A1 ->
  hamiltonian disp h val loops B ks = Ok A ->
  (forall j, List.In j (k_ind ks) -> val0 j.1.2 = val j.1.2 /\ val1 j.1.2 = val j.1.2) ->
  (forall j, List.In j (k_jj ks) -> val j.1.1.2 = mix t (val0 j.1.1.2) (val1 j.1.1.2)) ->
  energies A0 E0 -> energies A1 E1 -> energies A E -> (k <= dim A)%N ->
  Rle (mix t (lowest_sum k E0) (lowest_sum k E1)) (lowest_sum k E).
Proof.
move=> D t0 t1 H0 H1 H ind jj HE0 HE1 HE kA.
have [d0 _] := hamiltonian_ok D H0; have [d1 _] := hamiltonian_ok D H1; have [dA _] := hamiltonian_ok D H.
rewrite dA in kA; apply: (sums_exact d0 d1 dA _ kA t0 t1 HE0 HE1 HE) => a b.
rewrite (hamiltonian_entry _ _ H0) (hamiltonian_entry _ _ H1) (hamiltonian_entry _ _ H).
set L := oent _ _ _.
set I := \sum_(k <- k_ind ks) _; set I0 := \sum_(k <- k_ind ks) _; set I1 := \sum_(k <- k_ind ks) _.
have e0 : I0 = I by apply: eq_sum_In => j /ind [-> _].
have e1 : I1 = I by apply: eq_sum_In => j /ind [_ ->].
have -> : \sum_(k <- k_jj ks) (val k.1.1.2)%:C * jjent disp h (ext_flux loops B k.1.2) k.2 a b =
   (Rminus 1 t)%:C * (\sum_(k <- k_jj ks) (val0 k.1.1.2)%:C * jjent disp h (ext_flux loops B k.1.2) k.2 a b) +
   t%:C * (\sum_(k <- k_jj ks) (val1 k.1.1.2)%:C * jjent disp h (ext_flux loops B k.1.2) k.2 a b).
  rewrite !mulr_sumr -big_split /=; apply: eq_sum_In => j /jj ->.
  by rewrite /mix (cRD (Rmult _ _)) (cRM (Rminus 1 t)) (cRM t) mulrDl !mulrA.
have e3 : (Rminus 1 t)%:C = 1 - t%:C :> C by rewrite -cR1 -cRB.
rewrite e0 e1 e3; clearbody L I; move: (\sum_(k <- k_jj ks) _) (\sum_(k <- k_jj ks) _) (t%:C) => X Y T; ring.
Qed.
Print Assumptions C106_junctions.

(** In the gate charge of one island, concave up to the charging energy of the distance for
    each level. *)
Theorem C106_gate disp h i val loops B ks p q t A0 A1 A E0 E1 E k :
  (forall m a, dim (disp m a) = m) -> (i < hn h)%N -> hcharge h i -> Rle 0 t -> Rle t 1 ->
  hamiltonian disp (h_at h i p) val loops B ks = Ok A0 -> hamiltonian disp (h_at h i q) val loops B ks = Ok A1 ->
  hamiltonian disp (h_at h i (mix t p q)) val loops B ks = Ok A ->
  energies A0 E0 -> energies A1 E1 -> energies A E -> (k <= dim A)%N ->
  Rle (Rminus (mix t (lowest_sum k E0) (lowest_sum k E1)) (Rmult (INR k) (bow (t_cI (h_st h) i i) (spread2 t p q))))
    (lowest_sum k E).
Proof.
move=> D hi ch t0 t1 H0 H1 H HE0 HE1 HE kA.
have [d0 _] := hamiltonian_ok D H0; have [d1 _] := hamiltonian_ok D H1; have [dA _] := hamiltonian_ok D H.
rewrite dA in kA; apply: (sums_between d0 d1 dA _ kA t0 t1 HE0 HE1 HE) => a b ha hb.
rewrite (ham_mean hi ch H0 H1 H ha hb); congr (_ - _ * _).
by rewrite -cRM /bow -bow_unit.
Qed.
Print Assumptions C106_gate.

Section Flux.
Variables (disp : nat -> C -> op) (h : hin) (val : nat -> R) (B : arr) (ks : keys).

(** Concave in flux that falls on inductors. *)
Theorem C106_flux l0 l1 l t A0 A1 A E0 E1 E k :
  (forall m a, dim (disp m a) = m) -> size l0 = size l -> size l1 = size l ->
  (forall i, (i < size l)%N -> nth 0 l i = mix t (nth 0 l0 i) (nth 0 l1 i)) ->
  (forall j, List.In j (k_jj ks) -> ext_flux l0 B j.1.2 = ext_flux l1 B j.1.2) -> Rle 0 t -> Rle t 1 ->
  hamiltonian disp h val l0 B ks = Ok A0 -> hamiltonian disp h val l1 B ks = Ok A1 -> hamiltonian disp h val l B ks = Ok A ->
  energies A0 E0 -> energies A1 E1 -> energies A E -> (k <= dim A)%N ->
  Rle (mix t (lowest_sum k E0) (lowest_sum k E1)) (lowest_sum k E).
Proof.
move=> D s0 s1 me on t0 t1 H0 H1 H HE0 HE1 HE kA.
have [d0 d1 dA W] := whole_mean D s0 s1 me on H0 H1 H; rewrite dA in kA.
exact: (sums_exact d0 d1 dA W kA t0 t1 HE0 HE1 HE).
Qed.

Section Highest.
Variables (l l' : seq R) (A A' : op) (F F' : nat -> R).
Hypothesis D : displaces disp.
Hypothesis free : inductor_free h ks.
Hypothesis sizes : size l' = size l.
Hypothesis zero : forall k, (k < size l)%N -> nth 0 l' k = 0.
Hypothesis shares : forall k, List.In k (k_jj ks) -> ext_flux l B k.1.2 = 0.
Hypothesis EA : hamiltonian disp h val l B ks = Ok A.
Hypothesis EA' : hamiltonian disp h val l' B ks = Ok A'.
Hypothesis HF : energies A F.
Hypothesis HF' : energies A' F'.

Lemma other_end : exists Am, [/\ energies Am F, dim Am = dim A, herm Am,
  size (minus_flux l) = size l' & (forall k, (k < size l')%N -> nth 0 l' k = mix (Rinv 2) (nth 0 l k) (nth 0 (minus_flux l) k)) /\
  (forall k, List.In k (k_jj ks) -> ext_flux l B k.1.2 = ext_flux (minus_flux l) B k.1.2) /\
  hamiltonian disp h val (minus_flux l) B ks = Ok Am].
Proof.
have [Am EM Rv] := C79_flux D free EA; have [dA _] := hamiltonian_ok D.1 EA; have [dm hm] := hamiltonian_ok D.1 EM.
exists Am; split=> //; first exact: rev_energies dA Rv HF; first by rewrite dm dA.
  by rewrite size_map sizes.
split; first by rewrite sizes => k hk; rewrite zero // (nth_map 0) // /mix; exact: to_zero.
split=> // k hk; rewrite {2}/ext_flux size_map (eq_bigr (fun i : 'I_(size l) => - (nth 0 l i * B k.1.2 i))).
  by rewrite sumrN -/(ext_flux l B k.1.2) shares // oppr0.
by move=> i _; rewrite (nth_map 0) // mulNr.
Qed.

(** Without flux at the junctions the sum of the lowest [k] energies is highest with all
    loops at zero, for every [k]: the levels spread out with the flux. *)
Theorem C106_highest k : (k <= dim A)%N -> Rle (lowest_sum k F) (lowest_sum k F').
Proof.
have [Am [HM dm _ sm [me [on EM]]]] := other_end => kA.
have [dA _] := hamiltonian_ok D.1 EA; have [dA' _] := hamiltonian_ok D.1 EA'.
have [a b] := half_in2; apply: equal_mean.
have kA' : (k <= dim A')%N by rewrite dA' -dA.
have := C106_flux D.1 (esym sizes) sm me on a b EA EM EA' HF HM HF' kA'; exact.
Qed.

(** The squares of the energies exceed those without flux by the squared distance of the
    Hamiltonians. *)
Theorem C106_squares : \sum_(k < dim A) F k * F k =
  \sum_(k < dim A) F' k * F' k + \sum_(a < dim A) \sum_(b < dim A) nrm (ent A a b - ent A' a b).
Proof.
have [Am [HM dm hm sm [me [on EM]]]] := other_end.
have [d0 d1 dA' W] := whole_mean D.1 (esym sizes) sm me on EA EM EA'.
have [_ hA] := hamiltonian_ok D.1 EA; have [_ hA'] := hamiltonian_ok D.1 EA'.
have S := energy_squares hA HF; have Sm := energy_squares hm HM; have S' := energy_squares hA' HF'.
rewrite dm in Sm; rewrite dA' -d0 in S'.
apply: twice_eq; rewrite {1}S Sm S' !RplusE RmultE.
rewrite -!big_split /= mulr_sumr; apply: eq_bigr => a _.
rewrite -!big_split /= mulr_sumr; apply: eq_bigr => b _.
have P (r : R) (z : C) : complex.Im (r%:C * z) = r * complex.Im z by case: z => x y /=; rewrite mul0r addr0.
have Q (z w : C) : complex.Im (z + w) = complex.Im z + complex.Im w by case: z; case: w.
have X := congr1 (@complex.Re _) (W a b); have Y := congr1 (@complex.Im _) (W a b).
rewrite Re_add !Re_scale in X; rewrite Q !P in Y.
have := @parallelogram _ _ _ _ _ _ X Y; rewrite /nrm.
by case: (ent A a b) => x y; case: (ent Am a b) => z w; case: (ent A' a b) => p q.
Qed.
(** So two Hamiltonians that differ have different energies. *)
Theorem C106_depends a b : (a < dim A)%N -> (b < dim A)%N -> ent A a b <> ent A' a b ->
  exists2 k, (k < dim A)%N & F k <> F' k.
Proof.
move=> ha hb ne; case: (pickP (fun k : 'I_(dim A) => F k != F' k)) => [k /eqP hk|same]; first by exists k.
have := C106_squares; rewrite (eq_bigr (fun k : 'I_(dim A) => F' k * F' k)); last first.
  by move=> k _; have /negbT := same k; rewrite negbK => /eqP ->.
move=> /eqP; rewrite -subr_eq0 opprD addrA subrr add0r oppr_eq0 => /eqP S.
have nn c : 0 <= \sum_(b < dim A) nrm (ent A c b - ent A' c b) by apply: Num.Theory.sumr_ge0 => e _; exact: nrm_ge0.
have /Num.Theory.psumr_eq0P r := S; have := r (fun c _ => nn c) (Ordinal ha) isT => /= /Num.Theory.psumr_eq0P r2.
have := r2 (fun c _ => nrm_ge0 _) (Ordinal hb) isT => /= /nrm_eq0 /eqP; by rewrite subr_eq0 => /eqP.
Qed.
End Highest.
End Flux.
Print Assumptions C106_flux.
Print Assumptions C106_highest.
Print Assumptions C106_squares.
Print Assumptions C106_depends.

(** ** Sessions *)
Section Session.
Variables (disp : nat -> C -> op) (optim : bool) (o : oracle) (s0 : store) (lobj : nat -> lrec) (fd : string).
Variables (d : seq (edge * seq nat)) (x0 : circ) (u : ustate) (cs : seq call) (tr : seq (world * res unit)).
Hypothesis D : displaces disp.
Hypothesis built_ok : construct optim o s0 lobj fd d = Some (Ok x0).
Hypothesis session : run disp optim (mkW s0 u x0) cs = Some tr.
Hypothesis updates : updates_ok optim (mkW s0 u x0) cs tr.
Let x := w_x (final (mkW s0 u x0) tr).
Let G : good disp x.
Proof. exact: good_run (good_construct disp built_ok : good disp (w_x (mkW s0 u x0))) session updates. Qed.

(** Between two settings of the Josephson energies, after any session. *)
Theorem C106_session t s1 s2 s A1 A2 A F1 F2 F k : Rle 0 t -> Rle t 1 ->
  lvalue s1 = lvalue s -> lvalue s2 = lvalue s ->
  (forall j, List.In j (c_keys_ind (x_c x)) -> evalue s1 j.1.2 = evalue s j.1.2 /\ evalue s2 j.1.2 = evalue s j.1.2) ->
  (forall j, List.In j (c_keys_jj (x_c x)) -> evalue s j.1.1.2 = mix t (evalue s1 j.1.1.2) (evalue s2 j.1.1.2)) ->
  (hamil s1 x).2 = Ok A1 -> (hamil s2 x).2 = Ok A2 -> (hamil s x).2 = Ok A ->
  energies A1 F1 -> energies A2 F2 -> energies A F -> (k <= dim A)%N ->
  Rle (mix t (lowest_sum k F1) (lowest_sum k F2)) (lowest_sum k F).
Proof.
move=> t0 t1 v1 v2 ind jj; have [-> _] := hamilE s1 G; have [-> _] := hamilE s2 G; have [-> _] := hamilE s G.
rewrite /ham_of /loop_vals v1 v2 => E1 E2 E H1 H2 H kA.
exact: (C106_junctions D.1 t0 t1 E1 E2 E ind jj H1 H2 H kA).
Qed.

(** All the flux of the loops falls on inductors, and the charge modes leave them alone. *)
Hypothesis shares : forall k i, List.In k (c_keys_jj (x_c x)) -> (i < size (c_loops (x_c x)))%N -> x_B x k.1.2 i = 0.
Hypothesis free : inductor_free (hof x) (mkKeys (c_keys_ind (x_c x)) (c_keys_jj (x_c x))).
Variables (s s' : store).
Hypothesis same : evalue s' = evalue s.
Hypothesis off : forall l, List.In l (c_loops (x_c x)) -> lvalue s' l = 0.

Theorem C106_session_flux A A' F F' k : (hamil s x).2 = Ok A -> (hamil s' x).2 = Ok A' ->
  energies A F -> energies A' F' -> (k <= dim A)%N -> Rle (lowest_sum k F) (lowest_sum k F').
Proof.
have [-> _] := hamilE s G; have [-> _] := hamilE s' G; rewrite /ham_of same => EA EA' HF HF'.
apply: (C106_highest D free _ _ _ EA EA' HF HF'); rewrite ?size_map //.
- move=> i hi; rewrite (nth_map 0%N) //; apply: off.
  by elim: (c_loops (x_c x)) i hi => [|a l IH] [|i] //= hi; [left|right; apply: IH].
- move=> j hj; rewrite /ext_flux big1 // => i _; rewrite (shares hj) ?mulr0 //.
  by case: i => i /= hi; rewrite size_map in hi.
Qed.
End Session.
Print Assumptions C106_session.
Print Assumptions C106_session_flux.

(** Case: a harmonic mode with two states and a charge mode with three, all the flux on the
    inductor: the lowest three of the six energies. *)
Example C106_case val z : let ks := mkKeys [:: (Z0, Zpos xH, 0%N, 0%N)] [:: (Zpos xH, Zpos (xO xH), 1%N, 1%N, 0%N)] in
  exists A A' F F', [/\ hamiltonian one_gen case_h val [:: z] case_B ks = Ok A,
      hamiltonian one_gen case_h val [:: 0] case_B ks = Ok A', energies A F, energies A' F' &
      dim A = 6%N /\ Rle (F 0%N + F 1%N + F 2%N) (F' 0%N + F' 1%N + F' 2%N)].
Proof.
move=> ks; have n1 : isnode (Zpos xH) (t_n0 (h_st case_h)) by split => /=; lia.
have [_ Ec] := @coef_ground case_h Inductive_ eye (Zpos xH) erefl n1.
have tot y : exists A, hamiltonian one_gen case_h val [:: y] case_B ks = Ok A.
  have m0 : h_m case_h <> [::] by [].
  have [|A E] := @C35_total one_gen case_h val [:: y] case_B ks m0 isT; last by exists A.
  by move=> k [<-|[]]; right; split=> //; split => /=; lia.
have [A EA] := tot z; have [A' EA'] := tot 0.
have [dA hA] := hamiltonian_ok one_gen_ok.1 EA; have [_ hA'] := hamiltonian_ok one_gen_ok.1 EA'.
have six : dim A = 6%N by rewrite dA /total /= !big_ord_recr big_ord0.
have [F HF] := energies_exist hA; have [F' HF'] := energies_exist hA'.
exists A, A', F, F'; split=> //; split=> //.
have fr : inductor_free case_h ks.
  move=> k [<-|[]]; eexists; first exact: Ec.
  by move=> [|[|i]] //; rewrite (negbTE case_harm).
have := @C106_highest one_gen case_h val case_B ks [:: z] [:: 0] A A' F F' one_gen_ok fr erefl _ _ EA EA' HF HF' 3%N.
rewrite /lowest_sum !big_ord_recr !big_ord0 /= !add0r six; apply => //.
- by case.
- by move=> k [<-|[]]; rewrite /ext_flux big_ord1 /= mulr0.
Qed.

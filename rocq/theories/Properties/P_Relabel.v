(** P_Relabel.v -- C86: node numbers and the choice of ground. *)
From Coq Require Import Reals ZArith String List Lra Lia.
From Verif.Model Require Import Base Units Elements Edge LCWB Rounding Accuracy.
From Verif.Spec Require Import GraphSpec CircuitSpec RelabelSpec.
From Verif.Proofs Require Import EdgeProofs LCWBProofs RelabelProofs.
From Verif.Properties Require Import P_Circuit.
Open Scope R_scope.
Open Scope list_scope.

Section Labels.
Variables (optim : bool) (s : store) (fd : string) (n : nat) (lobj : nat -> lrec).
Variables (d : list (edge * list nat)) (p q : Z -> Z) (c : cst).
Hypothesis pq : renumbers n p q.
Hypothesis proper_d : proper_dict n d.
Hypothesis built : get_LCWB optim s fd (Z.of_nat n) lobj d = Ok c.

(** The matrices can be built with the new numbers as well. *)
Theorem C86_builds : exists c', get_LCWB optim s fd (Z.of_nat n) lobj (relabelled p d) = Ok c'.
Proof.
  apply C13_construction_total; [apply (relabelled_proper n p q); auto|].
  intros e els Hin. apply in_map_iff in Hin as ([e0 els0] & [= <- <-] & Hin).
  apply (proj1 (C13_construction_total optim s fd n lobj d proper_d) (ex_intro _ c built) e0 els0 Hin).
Qed.

Variable c' : cst.
Hypothesis built' : get_LCWB optim s fd (Z.of_nat n) lobj (relabelled p d) = Ok c'.

(** For any potentials of the nodes, ground included, capacitive and inductive energy
    are those of the circuit with the old numbers. *)
Theorem C86_forms v u :
  bilin n (c_C c') (coords (fun k => v (q k))) (coords (fun k => u (q k))) = bilin n (c_C c) (coords v) (coords u) /\
  bilin n (c_L c') (coords (fun k => v (q k))) (coords (fun k => u (q k))) = bilin n (c_L c) (coords v) (coords u).
Proof.
  pose proof (relabelled_proper n p q pq d proper_d) as proper'.
  destruct (C13_circuit_matrices _ _ _ _ _ _ _ built proper_d) as (C1 & L1 & _).
  destruct (C13_circuit_matrices _ _ _ _ _ _ _ built' proper') as (C2 & L2 & _).
  rewrite C1, L1, C2, L2. split.
  - exact (relabel_suml n p q pq d (edge_cap s) v u proper_d).
  - exact (relabel_suml n p q pq d (edge_invind s) v u proper_d).
Qed.

(** Without a change of ground: the same entries at the new places. *)
Theorem C86_entries i j : p 0%Z = 0%Z -> (i < n)%nat -> (j < n)%nat ->
  let place k := Z.to_nat (p (Z.of_nat k + 1)%Z - 1) in
  c_C c' (place i) (place j) = c_C c i j /\ c_L c' (place i) (place j) = c_L c i j.
Proof.
  intros p0 Hi Hj place.
  pose (v i k := if Z.eqb k (Z.of_nat i + 1)%Z then 1 else 0).
  assert (q0 : q 0%Z = 0%Z) by (destruct (pq 0%Z) as (_ & _ & E & _); [lia|rewrite <- p0 at 1; auto]).
  assert (X : forall i k, coords (v i) k = if Nat.eqb k i then 1 else 0).
  { intros a k. unfold coords, v. destruct (Z.eqb_spec 0 (Z.of_nat a + 1)); [lia|].
    destruct (Z.eqb_spec (Z.of_nat k + 1) (Z.of_nat a + 1)); destruct (Nat.eqb_spec k a); try lia; lra. }
  assert (B : forall a, (a < n)%nat -> (place a < n)%nat /\ (Z.of_nat (place a) + 1 = p (Z.of_nat a + 1))%Z).
  { intros a Ha. destruct (pq (Z.of_nat a + 1)%Z) as (P1 & _ & P2 & _); [lia|].
    assert (p (Z.of_nat a + 1)%Z <> 0%Z) by (intros E; rewrite E, q0 in P2; lia).
    unfold place. lia. }
  assert (Y : forall a k, (a < n)%nat -> (k < n)%nat -> coords (fun l => v a (q l)) k = if Nat.eqb k (place a) then 1 else 0).
  { intros a k Ha Hk. unfold coords. rewrite q0. unfold v at 2. destruct (Z.eqb_spec 0 (Z.of_nat a + 1)); [lia|].
    unfold v. destruct (B a Ha) as [_ B2]. destruct (pq (Z.of_nat k + 1)%Z) as (_ & _ & _ & K); [lia|].
    destruct (pq (Z.of_nat a + 1)%Z) as (_ & _ & A & _); [lia|].
    destruct (Z.eqb_spec (q (Z.of_nat k + 1)%Z) (Z.of_nat a + 1)) as [E|E]; destruct (Nat.eqb_spec k (place a)) as [F|F]; try lra.
    - exfalso. rewrite E in K. lia.
    - exfalso. apply E. rewrite F, B2. exact A. }
  destruct (B i Hi) as [Bi _]. destruct (B j Hj) as [Bj _].
  destruct (C86_forms (v i) (v j)) as [F G].
  rewrite (bilin_unit n (c_C c') _ _ (place i) (place j)), (bilin_unit n (c_C c) _ _ i j) in F by auto.
  rewrite (bilin_unit n (c_L c') _ _ (place i) (place j)), (bilin_unit n (c_L c) _ _ i j) in G by auto.
  auto.
Qed.

(** Every junction and inductor keeps its element, its row of B and its row of W. *)
Theorem C86_keys :
  c_keys_ind c' = map (fun k => (relabel p (fst (fst k)), snd (fst k), snd k)) (c_keys_ind c) /\
  c_keys_jj c' = map (fun k => (relabel p (fst (fst (fst k))), snd (fst (fst k)), snd (fst k), snd k)) (c_keys_jj c).
Proof.
  destruct (C16_keys_in_order _ _ _ _ _ _ _ built) as [-> ->].
  destruct (C16_keys_in_order _ _ _ _ _ _ _ built') as [-> ->].
  unfold occs. rewrite occs_relabel, enum_map, !filter_map_comm, !map_map. split; reflexivity.
Qed.

(** The branch phase measured by its row of W has the same value, with the sign
    turned if the first node of the edge is ground in one numbering and not in the
    other. *)
Theorem C86_phases e el b w v : In (e, el, b, w) (c_keys_jj c) ->
  exists row row', nth_error (c_W c) w = Some row /\ nth_error (c_W c') w = Some row' /\
    sumn n (fun i => IZR (nth i row' 0%Z) * coords (fun k => v (q k)) i) =
    orient (relabel p e) * orient e * sumn n (fun i => IZR (nth i row 0%Z) * coords v i).
Proof.
  intros Hin. pose proof (relabelled_proper n p q pq d proper_d) as proper'.
  destruct (C16_row_bookkeeping _ _ _ _ _ _ _ built proper_d) as (O & _ & _ & J & _).
  destruct (C16_row_bookkeeping _ _ _ _ _ _ _ built' proper') as (_ & _ & _ & J' & _).
  destruct (J _ _ _ _ Hin) as (_ & row & _ & W & M).
  assert (Hin' : In (relabel p e, el, b, w) (c_keys_jj c')).
  { destruct C86_keys as [_ ->]. apply in_map_iff. exists (e, el, b, w). auto. }
  destruct (J' _ _ _ _ Hin') as (_ & row' & _ & W' & M').
  exists row, row'. repeat (split; auto).
  rewrite (proj2 M'), (proj2 M).
  assert (He : proper n e).
  { assert (Ho : nth_error (ind_occs s d) b = Some (e, el)) by (apply O; eauto).
    apply nth_error_In in Ho. apply in_flat_map in Ho as ([e0 els] & Hd & Ho).
    apply in_map_iff in Ho as (el0 & [= <- <-] & _). eapply proper_d; eauto. }
  rewrite (relabel_drop n p q pq e v He). unfold orient; destruct (Z.eqb (fst e) 0); lra.
Qed.
End Labels.
Print Assumptions C86_builds.
Print Assumptions C86_forms.
Print Assumptions C86_entries.
Print Assumptions C86_keys.
Print Assumptions C86_phases.

(** The node count is read off the lexicographically last edge (C12), so a circuit
    that can be built may fail with other numbers: "renumbering is harmless" is false
    for the constructor. *)
Theorem C86_count_refuted : exists d p q c,
  renumbers 3 p q /\ build false ex "junctions" exl d = Ok (3%Z, c) /\
  build false ex "junctions" exl (relabelled p d) = Err IndexError.
Proof.
  pose (p k := if Z.eqb k 1 then 3%Z else if Z.eqb k 3 then 1%Z else k).
  exists [((0, 1)%Z, [0]%nat); ((2, 3)%Z, [3]%nat)], p, p; eexists. split; [|split].
  - intros k Hk. assert (C : (k = 0 \/ k = 1 \/ k = 2 \/ k = 3)%Z) by (simpl in Hk; lia).
    destruct C as [->|[->|[->| ->]]]; unfold p; simpl; lia.
  - reflexivity.
  - change (relabelled p _) with [((0, 3)%Z, [0]%nat); ((2, 1)%Z, [3]%nat)].
    apply C12_wrong_count_fails with (n := 2%Z); [simpl; auto|reflexivity| |].
    + intros e els H. unfold nonneg.
      destruct H as [[= <- <-]|[[= <- <-]|[]]]; (split; [simpl; lia|]);
      intros (el & [<-|[]] & K & _); discriminate K.
    + exists (0, 3)%Z, [0%nat]. simpl; split; [auto|lia].
Qed.
Print Assumptions C86_count_refuted.

(** The running example with node 3 as ground. *)
Example C86_case : exists p q c c', renumbers 3 p q /\ p 0%Z = 3%Z /\
  get_LCWB false ex "junctions" 3 exl exd = Ok c /\ get_LCWB false ex "junctions" 3 exl (relabelled p exd) = Ok c' /\
  forall v u, bilin 3 (c_C c') (coords (fun k => v (q k))) (coords (fun k => u (q k))) = bilin 3 (c_C c) (coords v) (coords u).
Proof.
  pose (p k := if Z.eqb k 0 then 3%Z else if Z.eqb k 3 then 0%Z else k).
  assert (P : renumbers 3 p p).
  { intros k Hk. assert (C : (k = 0 \/ k = 1 \/ k = 2 \/ k = 3)%Z) by (simpl in Hk; lia).
    destruct C as [->|[->|[->| ->]]]; unfold p; simpl; lia. }
  destruct (ex_run false) as (c & H).
  destruct (C86_builds _ _ _ 3 _ _ p p c P ex_proper H) as (c' & H').
  exists p, p, c, c'. repeat (split; auto). intros v u.
  apply (C86_forms _ _ _ 3 _ _ p p c P ex_proper H c' H').
Qed.

From mathcomp Require Import all_ssreflect all_algebra.
From mathcomp Require Import zify.
From Verif.Numerics Require Import RStruct Bridge.
From Verif.Model Require Import FluxDist Transform.
From Verif.Spec Require Import TransSpec.
From Verif.Proofs Require Import TransProofs RelabelProofs2.
From Verif.Properties Require Import P_Transform.
Set Implicit Arguments.
Unset Strict Implicit.
Unset Printing Implicit Defensive.
Import GRing.Theory.
Local Open Scope ring_scope.

Section Modes.
Variables (optim : bool) (s : store) (fd : string) (n : nat) (lobj : nat -> lrec).
Variables (d : list (edge * list nat)) (p q : Z -> Z) (c c' : cst).
Hypothesis pq : renumbers n p q.
Hypothesis proper_d : proper_dict n d.
Hypothesis built : get_LCWB optim s fd (Z.of_nat n) lobj d = Ok c.
Hypothesis built' : get_LCWB optim s fd (Z.of_nat n) lobj (relabelled p d) = Ok c'.
Let forms := C86_forms _ _ _ _ _ _ _ _ _ pq proper_d built _ built'.
Let CE : toM n n (c_C c) = changeR n q *m toM n n (c_C c') *m (changeR n q)^T.
Proof. by apply: congruent pq _ => v u; have [] := forms v u. Qed.
Let LE : toM n n (c_L c) = changeR n q *m toM n n (c_L c') *m (changeR n q)^T.
Proof. by apply: congruent pq _ => v u; have [] := forms v u. Qed.

(** Determinants, those of L - x C included, are the same. *)
Theorem C86_determinants : \det (toM n n (c_C c')) = \det (toM n n (c_C c)) /\
  forall x : R, \det (toM n n (c_L c') - x *: toM n n (c_C c')) = \det (toM n n (c_L c) - x *: toM n n (c_C c)).
Proof.
have D (A : 'M[R]_n) : \det (changeR n q *m A *m (changeR n q)^T) = \det A.
  by rewrite !det_mulmx det_tr mulrAC -expr2 (change_det pq) mul1r.
split=> [|x]; first by rewrite CE D.
have -> : toM n n (c_L c) - x *: toM n n (c_C c) = changeR n q *m (toM n n (c_L c') - x *: toM n n (c_C c')) *m (changeR n q)^T.
  by rewrite CE LE mulmxBr mulmxBl -scalemxAr -scalemxAl.
by rewrite D.
Qed.

(** Two circuits, each with square roots and a singular value decomposition in
    descending order: the singular values are the same. *)
Variables (croot lroot X U croot' lroot' X' U' : arr) (D0 D0' : vec).
Hypothesis rC : root_of (toM n n (c_C c)) (toM n n croot).
Hypothesis rL : root_of (toM n n (c_L c)) (toM n n lroot).
Hypothesis dec : svd_of (toM n n lroot *m invmx (toM n n croot)) (toM n n X) (toM n n U) (toV n D0).
Hypothesis rC' : root_of (toM n n (c_C c')) (toM n n croot').
Hypothesis rL' : root_of (toM n n (c_L c')) (toM n n lroot').
Hypothesis dec' : svd_of (toM n n lroot' *m invmx (toM n n croot')) (toM n n X') (toM n n U') (toV n D0').
Hypothesis desc : forall i j, (i <= j < n)%N -> Rle (D0 j) (D0 i).
Hypothesis desc' : forall i j, (i <= j < n)%N -> Rle (D0' j) (D0' i).
Hypothesis invertible : toM n n (c_C c) \in unitmx.

Theorem C86_singular_values i : (i < n)%N -> D0' i = D0 i.
Proof.
have uC' : toM n n (c_C c') \in unitmx by move: invertible; rewrite CE !unitmx_mul => /andP [/andP [_ ->]].
have GH := change_inv pq.
have E1 := svd_char invertible rC rL dec; have E2 := svd_char uC' rC' rL' dec'.
have E3 := congruent_char uC' GH CE LE.
have P : perm_eq [seq toV n D0 0 i ^+ 2 | i <- enum 'I_n] [seq toV n D0' 0 i ^+ 2 | i <- enum 'I_n].
  by apply: roots_eq; rewrite -E1 E3 E2.
have e : toV n D0 = toV n D0'.
  case: (dec) (dec') => _ _ _ p1 [_ _ _ p2]; apply: sorted_values => // k l le; rewrite !mxE; [apply: desc|apply: desc'];
    by rewrite le ltn_ord.
by move=> hi; have /rowP /(_ (Ordinal hi)) := e; rewrite !mxE.
Qed.

(** The mode frequencies.  [exact]: the modes treated as charge modes are those whose
    singular value is zero. *)
Variables (m m' : nat) (W W' : arr) (st0 st0' st st' : tst) (eigL eigL' : vec).
Variables (tries tries' fuel fuel' : nat).
Hypothesis init : t_init n m (c_njwi c) (c_C c) (c_L c) W = Ok st0.
Hypothesis init' : t_init n m' (c_njwi c') (c_C c') (c_L c') W' = Ok st0'.
Hypothesis exact_ : forall i, (i < n)%N -> D0 i = 0 <-> i \in sing_locs n D0 eigL.
Hypothesis exact' : forall i, (i < n)%N -> D0' i = 0 <-> i \in sing_locs n D0' eigL'.

Theorem C86_frequencies sv sv' order order' draw draw' :
  transform_hamil croot D0 U eigL tries fuel sv order draw st0 = Some (Ok st) ->
  transform_hamil croot' D0' U' eigL' tries' fuel' sv' order' draw' st0' = Some (Ok st') ->
  forall i, (i < n)%N -> t_om st' i = t_om st i.
Proof.
move=> t t'; have [k [S [kn [H Q]] _ _ _]] := C24_normal_form init rC rL dec t.
have [k' [S' [kn' [H' Q']] _ _ _]] := C24_normal_form init' rC' rL' dec' t'.
have Z i : (i < n)%N -> (i \in iota (n - k) k) = (i \in iota (n - k') k').
  move=> hi; rewrite -S -S'; apply/idP/idP => h.
    by apply/exact' => //; rewrite C86_singular_values //; apply/exact_.
  by apply/exact_ => //; rewrite -C86_singular_values //; apply/exact'.
have kk : k' = k.
  case: (ltngtP k' k) => // lt.
    have h : (n - k < n)%N by lia.
    by have := Z _ h; rewrite !mem_iota; lia.
  have h : (n - k' < n)%N by lia.
  by have := Z _ h; rewrite !mem_iota; lia.
move=> i hi; subst k'; case: (ltnP i (n - k)) => ik.
  have [_ [-> _]] := H _ ik; have [_ [-> _]] := H' _ ik; exact: C86_singular_values.
have hh : (n - k <= i < n)%N by rewrite ik.
by have [-> _] := Q _ hh; have [-> _] := Q' _ hh.
Qed.
End Modes.
Print Assumptions C86_determinants.
Print Assumptions C86_singular_values.
Print Assumptions C86_frequencies.

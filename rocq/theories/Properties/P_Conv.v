(** P_Conv.v -- the convergence test (C32). *)
From Coq Require Import Lra Lia.
From Verif.Model Require Import Base Conv.
From Verif.Spec Require Import RadixSpec ConvSpec.
From Verif.Proofs Require Import TruncProofs ConvProofs.
Open Scope list_scope.
Open Scope Z_scope.

(** A stored eigenvector of unit norm in modes of sizes [m]. *)
Definition unit_vector (m : list Z) (v : list amp) : Prop :=
  Forall (fun x => 1 <= x) m /\ Z.of_nat (length v) = prodZ m /\
  total_weight (length v) (fun k => sqabs (nth k v (0, 0)%R)) = 1%R.

Lemma check_inv neig evecs m idx t th conv eps :
  check_convergence neig evecs m idx t th = Ok (conv, eps) ->
  exists v, py_get evecs idx = Ok v /\ (eps = 1 - box_sum t m 0 (weight_at v))%R /\
            (conv = true <-> (eps < th)%R).
Proof.
  unfold check_convergence. destruct (_ || _); [discriminate|].
  destruct (py_get evecs idx) as [v|e] eqn:E; cbn [bind]; [|discriminate].
  destruct (negb _); [discriminate|]. intros [= <- <-]. exists v. split; auto. split; auto.
  destruct (Rlt_dec _ _); intuition discriminate.
Qed.

(** ** C32 *)
(** Epsilon is the weight on the basis states outside the box of states all of
    whose digits avoid the top t levels. *)
Theorem C32_weight_outside neig evecs m idx t th conv eps v b :
  check_convergence neig evecs m idx t th = Ok (conv, eps) -> py_get evecs idx = Ok v ->
  unit_vector m v -> 0 < t -> decides_box t m b ->
  eps = total_weight (length v) (fun k => if b k then 0%R else sqabs (nth k v (0, 0)%R)) /\
  (conv = true <-> (eps < th)%R).
Proof.
  intros H Hv (Hm & Hl & Hn) Ht Hb. apply check_inv in H as (v' & Hv' & -> & Hc).
  rewrite Hv in Hv'. injection Hv' as <-. split; auto. apply eps_outside; auto.
Qed.
Print Assumptions C32_weight_outside.

(** Such a box exists, for all sizes and t. *)
Theorem C32_box_exists t m : Forall (fun x => 1 <= x) m -> 0 < t -> exists b, decides_box t m b.
Proof.
  intros Hm Ht. exists (fun k => inb t m (digs m (Z.of_nat k))). intros d Hd.
  pose proof (recompose_bound m d Hd). rewrite Z2Nat.id by lia. rewrite digs_recompose by auto.
  apply inb_inner; auto.
Qed.
Print Assumptions C32_box_exists.

Theorem C32_bounds neig evecs m idx t th conv eps v :
  check_convergence neig evecs m idx t th = Ok (conv, eps) -> py_get evecs idx = Ok v ->
  unit_vector m v -> (0 <= eps <= 1)%R.
Proof.
  intros H Hv (Hm & Hl & Hn). apply check_inv in H as (v' & Hv' & -> & Hc).
  rewrite Hv in Hv'. injection Hv' as <-. pose proof (box_bounds t m v Hm Hl). lra.
Qed.
Print Assumptions C32_bounds.

(** Every populated basis state with some digit among the top t levels of its
    mode counts in full. *)
Theorem C32_flags_top neig evecs m idx t th conv eps v d :
  check_convergence neig evecs m idx t th = Ok (conv, eps) -> py_get evecs idx = Ok v ->
  unit_vector m v -> 0 < t -> digits m d -> ~ inner t m d ->
  (sqabs (nth (Z.to_nat (recompose m d)) v (0, 0)%R) <= eps)%R.
Proof.
  intros H Hv Hu Ht Hd Hi. destruct Hu as (Hm & Hl & Hn) eqn:E.
  destruct (C32_box_exists t m Hm Ht) as (b & Hb).
  destruct (C32_weight_outside _ _ _ _ _ _ _ _ _ _ H Hv Hu Ht Hb) as [-> _].
  pose proof (recompose_bound m d Hd) as Hr.
  set (i := Z.to_nat (recompose m d)). assert (Hil : (i < length v)%nat) by (unfold i; lia).
  assert (Hbi : b i = false).
  { destruct (b i) eqn:Eb; auto. exfalso. apply Hi. apply (Hb d Hd). exact Eb. }
  rewrite total_sumn.
  assert (G : forall n f j, (forall x, 0 <= x < Z.of_nat n -> (0 <= f x)%R) -> 0 <= j < Z.of_nat n ->
                (f j <= sumn n f)%R).
  { induction n as [|n IH]; intros f j Hf Hj; [lia|]. cbn [sumn].
    assert (0 <= sumn n f)%R by (apply sumn_nonneg; intros; apply Hf; lia).
    assert (0 <= f (Z.of_nat n))%R by (apply Hf; lia).
    destruct (Z.eq_dec j (Z.of_nat n)) as [->|Ne]; [lra|].
    assert (f j <= sumn n f)%R by (apply IH; [intros; apply Hf; lia|lia]). lra. }
  specialize (G (length v) (fun k => if b (Z.to_nat k) then 0%R else sqabs (nth (Z.to_nat k) v (0, 0)%R)) (Z.of_nat i)).
  cbv beta in G. rewrite Nat2Z.id, Hbi in G. apply G; [|lia].
  intros x Hx. destruct (b (Z.to_nat x)); [lra|apply sqabs_pos].
Qed.
Print Assumptions C32_flags_top.

(** With t = 0 nothing is kept: epsilon is 1 whatever the state. *)
Theorem C32_t_zero neig evecs m idx th conv eps :
  check_convergence neig evecs m idx 0 th = Ok (conv, eps) -> m <> [] -> Forall (fun x => 1 <= x) m ->
  eps = 1%R.
Proof.
  intros H Hne Hm. apply check_inv in H as (v & _ & -> & _). rewrite box_empty; [lra|].
  destruct m as [|a m]; [congruence|]. constructor. inversion Hm; subst. unfold slice_stop. simpl. lia.
Qed.
Print Assumptions C32_t_zero.

(** Same when one mode has at most t levels. *)
Theorem C32_small_mode neig evecs m idx t th conv eps a :
  check_convergence neig evecs m idx t th = Ok (conv, eps) -> In a m -> a <= t -> 0 < t -> eps = 1%R.
Proof.
  intros H Ha Hat Ht. apply check_inv in H as (v & _ & -> & _). rewrite box_empty; [lra|].
  apply Exists_exists. exists a. split; auto. unfold slice_stop.
  destruct (Z.ltb_spec (-t) 0); lia.
Qed.
Print Assumptions C32_small_mode.

(** Without results, or with an index outside the list, or sizes that do not
    match the vector, it raises. *)
Theorem C32_errors neig evecs m idx t th :
  (neig = 0%nat \/ evecs = [] ->
     check_convergence neig evecs m idx t th = Err CircuitStateError) /\
  (neig <> 0%nat -> evecs <> [] -> idx < - Z.of_nat (length evecs) \/ Z.of_nat (length evecs) <= idx ->
     check_convergence neig evecs m idx t th = Err IndexError) /\
  (neig <> 0%nat -> forall v, py_get evecs idx = Ok v -> Z.of_nat (length v) <> prodZ m ->
     check_convergence neig evecs m idx t th = Err ValueError).
Proof.
  unfold check_convergence. split; [|split].
  - intros [->| ->]; auto. rewrite orb_true_r. auto.
  - intros Hn He Hi. destruct neig; [congruence|]. destruct evecs as [|v0 evecs]; [congruence|].
    cbn [Nat.eqb orb length]. unfold py_get, py_index.
    destruct (Z.leb_spec 0 idx).
    + destruct (Z.ltb_spec idx (Z.of_nat (length (v0 :: evecs)))); [lia|reflexivity].
    + destruct (Z.leb_spec 0 (idx + Z.of_nat (length (v0 :: evecs)))); [lia|reflexivity].
  - intros Hn v Hv Hl. destruct neig; [congruence|]. destruct evecs as [|v0 evecs].
    { exfalso. unfold py_get, py_index in Hv. simpl in Hv.
      destruct (0 <=? idx); [|destruct (0 <=? idx + 0)]; try discriminate.
      - destruct (idx <? 0); try discriminate; destruct (Z.to_nat idx); discriminate.
      - destruct (Z.to_nat (idx + 0)); discriminate. }
    cbn [Nat.eqb orb length]. rewrite Hv. cbn [bind]. rewrite size_ofE.
    destruct (Z.eqb_spec (Z.of_nat (length v)) (prodZ m)); [congruence|reflexivity].
Qed.
Print Assumptions C32_errors.

(** A charge mode with truncation number N has 2N-1 levels, level 0 being charge
    -(N-1).  A state sitting entirely on that edge passes the test: the negative
    edge is not looked at. *)
Definition edge_state (n : nat) : list amp := ((1, 0) :: repeat (0, 0) (n - 1))%R.
Theorem C32_negative_edge_refuted N t th : 1 <= t < 2 * N - 1 -> (0 < th)%R ->
  let m := [2 * N - 1] in
  let v := edge_state (Z.to_nat (2 * N - 1)) in
  unit_vector m v /\ check_convergence 1 [v] m 0 t th = Ok (true, 0%R).
Proof.
  intros Ht Hth m v.
  assert (Hl : Z.of_nat (length v) = prodZ m).
  { unfold v, edge_state, m. cbn [length prodZ]. rewrite repeat_length. lia. }
  assert (Hz : forall k, k <> O -> sqabs (nth k v (0, 0)%R) = 0%R).
  { intros k Hk. unfold v, edge_state. destruct k; [congruence|]. cbn [nth].
    rewrite nth_repeat. unfold sqabs. simpl. lra. }
  assert (H0 : sqabs (nth 0 v (0, 0)%R) = 1%R) by (unfold v, sqabs; simpl; lra).
  assert (S : forall n, (1 <= n)%nat -> sumn n (fun k => sqabs (nth (Z.to_nat k) v (0, 0)%R)) = 1%R).
  { induction n as [|n IH]; intros Hn; [lia|]. cbn [sumn]. rewrite Nat2Z.id.
    destruct n as [|n]; [cbn [sumn]; lra|]. rewrite IH by lia. rewrite Hz by lia. lra. }
  split.
  - split; [repeat constructor; lia|]. split; auto. rewrite total_sumn. apply S.
    unfold v, edge_state. cbn [length]. lia.
  - unfold check_convergence. cbn [Nat.eqb length orb]. change (py_get [v] 0) with (Ok (A:=list amp) v).
    cbn [bind]. rewrite size_ofE, Hl, Z.eqb_refl. cbn [negb].
    assert (B : box_sum t m 0 (weight_at v) = 1%R).
    { unfold m. cbn [box_sum]. rewrite (sumn_ext _ _ (fun k => sqabs (nth (Z.to_nat k) v (0, 0)%R))).
      - apply S. unfold slice_stop. destruct (Z.ltb_spec (-t) 0); lia.
      - intros x _. unfold weight_at. do 3 f_equal. cbn [size_of fold_right]. lia. }
    rewrite B. replace (1 - 1)%R with 0%R by lra.
    destruct (Rlt_dec 0 th); [reflexivity|lra].
Qed.
Print Assumptions C32_negative_edge_refuted.

(** Two modes of 3 and 2 levels, t = 1: only |0,0> and |1,0> are inside. *)
Example C32_case : let v := [(3/5, 0); (0, 0); (0, 0); (0, 4/5); (0, 0); (0, 0)]%R in
  unit_vector [3; 2] v /\ exists c, check_convergence 2 [v; v] [3; 2] 1 1 (1/2)%R = Ok (c, (16/25)%R) /\ c = false.
Proof.
  intros v. split.
  - split; [repeat constructor; lia|]. split; [reflexivity|]. unfold total_weight, sqabs, v. simpl. field.
  - exists (if Rlt_dec (16/25) (1/2) then true else false). split.
    + unfold check_convergence. cbn [Nat.eqb length orb]. change (py_get [v; v] 1) with (Ok (A:=list amp) v).
      cbn [bind]. change (negb (Z.of_nat (length v) =? size_of [3; 2])) with false. cbv iota.
      assert (B : (1 - box_sum 1 [3; 2]%Z 0 (weight_at v) = 16/25)%R).
      { cbn. unfold weight_at, sqabs, v. simpl.
        change (Pos.to_nat 2) with 2%nat. simpl. lra. }
      rewrite B. reflexivity.
    + destruct (Rlt_dec (16/25) (1/2)); [lra|reflexivity].
Qed.

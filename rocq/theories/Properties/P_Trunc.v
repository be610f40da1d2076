(** P_Trunc.v -- properties C29, C30, C31: truncation numbers and tensor indices. *)
From Coq Require Import Lra Lia.
From Verif.Model Require Import Base Trunc.
From Verif.Spec Require Import RadixSpec.
From Verif.Proofs Require Import TruncProofs.
Open Scope list_scope.
Open Scope Z_scope.

(** ** C29 *)
(** Exactly the lists of length n are accepted; everything else is a ValueError. *)
Theorem C29_accepts n charge arg :
  match set_trunc_dims n charge arg with
  | Ok _ => exists l, arg = PList l /\ length l = n
  | Err e => e = ValueError /\ forall l, arg = PList l -> length l <> n
  end.
Proof.
  destruct arg as [l|]; simpl.
  - destruct (Nat.eqb_spec (length l) n); simpl; [eauto|]. split; auto. intros l' [= <-]; auto.
  - split; auto. intros l [=].
Qed.
Print Assumptions C29_accepts.

(** The mode dimensions: N for a harmonic mode, the 2N-1 charges -(N-1) .. N-1
    for a charge mode. *)
Theorem C29_dimensions n charge l m : set_trunc_dims n charge (PList l) = Ok m ->
  length m = n /\
  forall i, (i < n)%nat ->
    (charge i = false -> nth i m 0 = nth i l 0) /\
    (charge i = true -> nth i m 0 = (nth i l 0 - 1) - (- (nth i l 0 - 1)) + 1).
Proof.
  simpl. destruct (Nat.eqb_spec (length l) n); simpl; [|discriminate]. intros [= <-].
  split; [apply mode_dims_length|]. intros i Hi. rewrite mode_dims_nth by auto.
  destruct (charge i); split; intros; try discriminate; lia.
Qed.
Print Assumptions C29_dimensions.

(** trunc_nums gives the list back, whatever the integers in it. *)
Theorem C29_round_trip n charge l m : set_trunc_dims n charge (PList l) = Ok m ->
  trunc_nums n charge m = Ok l.
Proof.
  simpl. destruct (Nat.eqb_spec (length l) n); simpl; [|discriminate]. intros [= <-].
  apply trunc_nums_back; auto.
Qed.
Print Assumptions C29_round_trip.

(** Dropping the size-1 modes keeps the total dimension, and only those go. *)
Theorem C29_squeezed m : prodZ (squeezed m) = prodZ m /\
  (forall x, In x (squeezed m) <-> In x m /\ x <> 1).
Proof.
  split; [apply squeezed_prod|]. intros x. unfold squeezed. rewrite filter_In.
  destruct (Z.eqb_spec x 1); simpl; intuition congruence.
Qed.
Print Assumptions C29_squeezed.

(** Before set_trunc_nums the getter fails with an IndexError, for any circuit
    with a mode. *)
Theorem C29_unset n charge : (0 < n)%nat -> trunc_nums n charge [] = Err IndexError.
Proof. apply trunc_nums_unset. Qed.
Print Assumptions C29_unset.

(** The entries are not checked: a truncation number below one is accepted and
    gives a mode of dimension zero or less. *)
Theorem C29_positive_refuted :
  exists n charge l m, set_trunc_dims n charge (PList l) = Ok m /\ nth 0 m 0 < 0.
Proof. exists 1%nat, (fun _ => true), [0], [-1]. split; [reflexivity|reflexivity]. Qed.
Print Assumptions C29_positive_refuted.

Example C29_case : let charge := fun i => Nat.eqb i 1 in
  set_trunc_dims 3 charge (PList [4; 3; 1]) = Ok [4; 5; 1] /\
  trunc_nums 3 charge [4; 5; 1] = Ok [4; 3; 1] /\ squeezed [4; 5; 1] = [4; 5] /\
  set_trunc_dims 3 charge (PList [4; 3]) = Err ValueError.
Proof. repeat split. Qed.

(** ** C30 *)
Theorem C30_bound K n charge : 1 <= K -> (0 < n)%nat ->
  exists l m, truncate_circuit (Some K) n charge = Ok l /\
    set_trunc_dims n charge (PList l) = Ok m /\
    prodZ m <= K /\
    forall x : R, (0 < x)%R -> (x ^ n = IZR K)%R -> forall i, (i < n)%nat ->
      1 <= nth i m 0 /\ (IZR (nth i m 0%Z) <= x)%R /\
      (x - IZR (nth i m 0%Z) < if charge i then 2 else 1)%R.
Proof.
  intros HK Hn. destruct (truncate_ok K n charge HK Hn) as (l & H1 & H2 & H3 & H4).
  exists l, (mode_dims n charge l). split; [auto|]. split.
  { simpl. rewrite H2, Nat.eqb_refl. reflexivity. }
  split; [auto|]. intros x Hx Hxn i Hi.
  assert (E : x = trunc_average K n).
  { pose proof (average_pow K n HK Hn) as Hp. pose proof (average_pos K n HK Hn) as Hq.
    rewrite <- Hp in Hxn. set (y := trunc_average K n) in *. clearbody y.
    destruct (Rtotal_order x y) as [H|[H|H]]; auto; exfalso.
    - assert (x ^ n < y ^ n)%R by (apply pow_lt_mono; lra || lia). lra.
    - assert (y ^ n < x ^ n)%R by (apply pow_lt_mono; lra || lia). lra. }
  rewrite E. apply (H3 i Hi).
Qed.
Print Assumptions C30_bound.

Theorem C30_errors K n charge : (forall k, K = Some k -> k < 1) ->
  truncate_circuit K n charge = Err ValueError.
Proof.
  intros H. destruct K as [k|]; auto. simpl. specialize (H k eq_refl).
  destruct (Z.ltb_spec k 1); auto; lia.
Qed.
Print Assumptions C30_errors.

(** Four states per mode on average: a harmonic mode gets 4, a charge mode 3. *)
Example C30_case : truncate_circuit (Some 16) 2 (fun i => Nat.eqb i 1) = Ok [4; 2] /\
  mode_dims 2 (fun i => Nat.eqb i 1) [4; 2] = [4; 3].
Proof.
  split; [|reflexivity]. unfold truncate_circuit. cbn [Z.ltb Nat.eqb Z.compare Pos.compare Pos.compare_cont].
  assert (E : trunc_average 16 2 = 4%R).
  { assert (H := average_pow 16 2 ltac:(lia) ltac:(lia)). assert (H' := average_pos 16 2 ltac:(lia) ltac:(lia)).
    nra. }
  rewrite E. cbn [map seq]. f_equal.
  assert (F : forall r k, (IZR k <= r < IZR k + 1)%R -> Int_part r = k).
  { intros r k H. pose proof (floor_bounds r). 
    assert (IZR (Int_part r) < IZR (k + 1))%R by (rewrite plus_IZR; lra).
    assert (IZR k < IZR (Int_part r + 1))%R by (rewrite plus_IZR; lra).
    apply lt_IZR in H1, H2. lia. }
  cbn [Nat.eqb]. rewrite (F 4%R 4) by lra. rewrite (F (1 / 2 * (4 + 1))%R 2) by lra. reflexivity.
Qed.

(** ** C31 *)
Theorem C31_decompose m idx : Forall (fun x => 1 <= x) m -> 0 <= idx < prodZ m ->
  exists d, tensor_to_modes (length m) m idx = Ok d /\ digits m d /\ recompose m d = idx.
Proof.
  intros Hm Hi. exists (digs m idx). split; [apply tensor_to_modesE; auto|]. apply digs_ok; auto.
Qed.
Print Assumptions C31_decompose.

(** Every digit tuple is produced by exactly one index below the product. *)
Theorem C31_bijection m d : digits m d ->
  (0 <= recompose m d < prodZ m /\ tensor_to_modes (length m) m (recompose m d) = Ok d) /\
  forall idx, 0 <= idx < prodZ m -> tensor_to_modes (length m) m idx = Ok d -> idx = recompose m d.
Proof.
  intros H. pose proof (digits_pos _ _ H) as Hm. split; [split|].
  - apply recompose_bound; auto.
  - rewrite tensor_to_modesE by auto. f_equal. apply digs_recompose; auto.
  - intros idx Hi. rewrite tensor_to_modesE by auto. intros [= <-].
    symmetry. apply digs_ok; auto.
Qed.
Print Assumptions C31_bijection.

(** An index past the end puts the overflow into the first digit, so that the
    tuple is not a legal one. *)
Theorem C31_overflow m idx d : m <> [] -> Forall (fun x => 1 <= x) m -> prodZ m <= idx ->
  tensor_to_modes (length m) m idx = Ok d -> recompose m d = idx /\ ~ digits m d.
Proof.
  intros Hne Hm Hi. rewrite tensor_to_modesE by auto. intros [= <-].
  assert (E : recompose m (digs m idx) = idx).
  { destruct m as [|a m]; [congruence|]. inversion Hm; subst. destruct m as [|b m]; [simpl in *; lia|].
    assert (Hp : 1 <= prodZ (b :: m)) by (apply prodZ_pos; auto).
    assert (0 <= idx) by (change (a * prodZ (b :: m) <= idx) in Hi; nia).
    change (Z.quot idx (prodZ (b :: m)) * prodZ (b :: m) +
            recompose (b :: m) (digs (b :: m) (idx mod prodZ (b :: m))) = idx).
    destruct (digs_ok (b :: m) (idx mod prodZ (b :: m))) as [_ E]; auto.
    { apply Z.mod_pos_bound; lia. }
    rewrite E, Z.quot_div_nonneg by lia. pose proof (Z.div_mod idx (prodZ (b :: m))). lia. }
  split; auto. intros H. apply recompose_bound in H. lia.
Qed.
Print Assumptions C31_overflow.

Example C31_case : tensor_to_modes 3 [2; 3; 5] 23 = Ok [1; 1; 3] /\
  recompose [2; 3; 5] [1; 1; 3] = 23 /\ tensor_to_modes 3 [2; 3; 5] 30 = Ok [2; 0; 0].
Proof. repeat split. Qed.

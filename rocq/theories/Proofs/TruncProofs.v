(** TruncProofs.v -- truncation numbers and tensor indices. *)
From Coq Require Import Lra Lia.
From Verif.Model Require Import Base Trunc.
From Verif.Spec Require Import RadixSpec.
Open Scope list_scope.
Open Scope Z_scope.

Lemma py_get_nth {A} (l : list A) i a : (i < length l)%nat ->
  py_get l (Z.of_nat i) = Ok (nth i l a).
Proof.
  intros H. unfold py_get, py_index.
  destruct (Z.leb_spec 0 (Z.of_nat i)); [|lia].
  destruct (Z.ltb_spec (Z.of_nat i) (Z.of_nat (length l))); [|lia].
  rewrite Nat2Z.id. rewrite (nth_error_nth' l a H). reflexivity.
Qed.

Lemma py_get_end {A} (l : list A) i a : (i < length l)%nat ->
  py_get l (-1 - Z.of_nat i) = Ok (nth (length l - 1 - i) l a).
Proof.
  intros H. unfold py_get, py_index.
  destruct (Z.leb_spec 0 (-1 - Z.of_nat i)); [lia|].
  destruct (Z.leb_spec 0 (-1 - Z.of_nat i + Z.of_nat (length l))); [|lia].
  replace (Z.to_nat (-1 - Z.of_nat i + Z.of_nat (length l))) with (length l - 1 - i)%nat by lia.
  rewrite (nth_error_nth' l a) by lia. reflexivity.
Qed.

Lemma py_get_out {A} (l : list A) i : (length l <= i)%nat -> py_get l (Z.of_nat i) = Err IndexError.
Proof.
  intros H. unfold py_get, py_index.
  destruct (Z.leb_spec 0 (Z.of_nat i)); [|lia].
  destruct (Z.ltb_spec (Z.of_nat i) (Z.of_nat (length l))); [lia|reflexivity].
Qed.

Lemma nth_map_seq {A} (f : nat -> A) a : forall n b i, (i < n)%nat ->
  nth i (map f (seq b n)) a = f (b + i)%nat.
Proof.
  induction n as [|n IH]; intros b i H; [lia|]. destruct i as [|i]; simpl.
  - f_equal; lia.
  - rewrite IH by lia. f_equal; lia.
Qed.

(** ** set_trunc_nums *)
Lemma mode_dims_length n charge l : length (mode_dims n charge l) = n.
Proof. unfold mode_dims. rewrite map_length, seq_length; auto. Qed.

Lemma mode_dims_nth n charge l i : (i < n)%nat ->
  nth i (mode_dims n charge l) 0 = if charge i then 2 * nth i l 0 - 1 else nth i l 0.
Proof.
  intros H. unfold mode_dims.
  rewrite nth_map_seq; auto.
Qed.

Lemma trunc_nums_gen (charge : nat -> bool) m : forall k a acc,
  (a + k <= length m)%nat ->
  fold_left (fun acc i => do l <- acc; do x <- py_get m (Z.of_nat i);
      Ok (l ++ [if charge i then Z.quot (x + 1) 2 else x]))%res (seq a k) (Ok acc)
  = Ok (acc ++ map (fun i => let x := nth i m 0 in if charge i then Z.quot (x + 1) 2 else x) (seq a k)).
Proof.
  induction k as [|k IH]; intros a acc H; simpl; [rewrite app_nil_r; auto|].
  rewrite (py_get_nth m a 0) by lia. simpl. rewrite IH by lia. rewrite <- app_assoc. reflexivity.
Qed.

Lemma trunc_nums_back n charge l : length l = n ->
  trunc_nums n charge (mode_dims n charge l) = Ok l.
Proof.
  intros H. unfold trunc_nums. rewrite trunc_nums_gen by (rewrite mode_dims_length; lia). simpl.
  f_equal. apply nth_ext with (d := 0) (d' := 0); [rewrite map_length, seq_length; auto|].
  rewrite map_length, seq_length. intros i Hi.
  rewrite nth_map_seq, Nat.add_0_l by auto. cbv zeta. rewrite mode_dims_nth by auto.
  destruct (charge i); auto.
  replace (2 * nth i l 0 - 1 + 1) with (nth i l 0 * 2) by lia. apply Z.quot_mul; lia.
Qed.

Lemma trunc_nums_unset n charge : (0 < n)%nat -> trunc_nums n charge [] = Err IndexError.
Proof.
  destruct n as [|n]; [lia|]. intros _. unfold trunc_nums. simpl.
  generalize 1%nat. induction n as [|n IH]; intros a; simpl; auto.
Qed.

Lemma squeezed_prod m : prodZ (squeezed m) = prodZ m.
Proof.
  unfold squeezed. induction m as [|a m IH]; simpl; auto.
  destruct (Z.eqb_spec a 1) as [->|]; cbn [negb prodZ]; rewrite IH; lia.
Qed.

Lemma prodZ_app a b : prodZ (a ++ b) = prodZ a * prodZ b.
Proof. induction a as [|x a IH]; cbn [prodZ app]; [lia|]. rewrite IH. lia. Qed.

Lemma prodZ_pos m : Forall (fun x => 1 <= x) m -> 1 <= prodZ m.
Proof. induction 1; cbn [prodZ recompose]; nia. Qed.

(** ** _tensor_to_modes *)
(** The partial products: entry i is the product of the sizes after mode i. *)
Lemma mP_gen m : forall k, (S k <= length m)%nat ->
  fold_left (fun acc i =>
      do mP <- acc;
      if Nat.eqb i 0 then do x <- py_get m (-1); Ok (mP ++ [x])
      else do h <- py_get mP 0; do x <- py_get m (-1 - Z.of_nat i); Ok ((h * x) :: mP))%res
    (seq 0 k) (Ok [])
  = Ok (map (fun j => prodZ (skipn j m)) (seq (length m - k) k)).
Proof.
  induction k as [|k IH]; intros H; auto.
  rewrite seq_S, fold_left_app, IH by lia. cbn [fold_left bind Nat.add].
  destruct k as [|k].
  - simpl Nat.eqb. cbn [bind seq map]. change (-1) with (-1 - Z.of_nat 0) at 1.
    rewrite (py_get_end m 0 0) by lia. cbn [bind app]. rewrite Nat.sub_0_r. f_equal. f_equal.
    assert (E : skipn (length m - 1) m = [nth (length m - 1) m 0]).
    { destruct m as [|a m] using rev_ind; [simpl in H; lia|]. clear.
      rewrite app_length. simpl. replace (length m + 1 - 1)%nat with (length m) by lia.
      rewrite skipn_app, skipn_all, Nat.sub_diag. simpl.
      rewrite app_nth2, Nat.sub_diag by lia. reflexivity. }
    rewrite E. simpl. lia.
  - assert (E1 : py_get (map (fun j => prodZ (skipn j m)) (seq (length m - S k) (S k))) 0 =
                 Ok (prodZ (skipn (length m - S k) m))) by reflexivity.
    simpl Nat.eqb. rewrite E1. cbn [bind].
    rewrite (py_get_end m (S k) 0) by lia. cbn [bind]. f_equal.
    replace (length m - S (S k))%nat with (length m - 1 - S k)%nat by lia.
    change (seq (length m - 1 - S k) (S (S k))) with
      ((length m - 1 - S k)%nat :: seq (S (length m - 1 - S k)) (S k)).
    replace (S (length m - 1 - S k)) with (length m - S k)%nat by lia.
    cbn [map]. f_equal.
    set (q := (length m - 1 - S k)%nat). replace (length m - S k)%nat with (S q) by lia.
    assert (Hq : (q < length m)%nat) by lia. clearbody q. clear - Hq.
    revert q Hq. induction m as [|a m IHm]; intros q Hq; [simpl in Hq; lia|].
    destruct q as [|q]; simpl; [lia|]. apply IHm. simpl in Hq; lia.
Qed.

Lemma mP_listE m : m <> [] ->
  mP_list (length m) m = Ok (map (fun j => prodZ (skipn j m)) (seq 1 (length m - 1))).
Proof.
  intros H. unfold mP_list. destruct m as [|a m]; [congruence|].
  rewrite mP_gen by (cbn [length]; lia).
  replace (length (a :: m) - (length (a :: m) - 1))%nat with 1%nat by (cbn [length]; lia). reflexivity.
Qed.

(** The digits computed by the loop. *)
Fixpoint digs (m : list Z) (idx : Z) : list Z :=
  match m with
  | [] => []
  | [_] => [idx]
  | _ :: m' => Z.quot idx (prodZ m') :: digs m' (idx mod prodZ m')
  end.

Lemma step_gen : forall k pre m idx acc,
  Forall (fun x => 1 <= x) m -> length m = k -> m <> [] ->
  exists r, fold_left (digit_step (length (pre ++ m))
      (map (fun j => prodZ (skipn j (pre ++ m))) (seq 1 (length (pre ++ m) - 1))))
      (seq (length pre) k) (Ok (acc, idx)) = Ok (acc ++ digs m idx, r).
Proof.
  induction k as [|k IH]; intros pre m idx acc Hpos Hlen Hne.
  - destruct m; [congruence|discriminate].
  - destruct m as [|a m]; [congruence|]. injection Hlen as Hlen.
    inversion Hpos as [|? ? Ha Hpos']; subst.
    cbn [seq fold_left]. unfold digit_step at 2. cbn [bind].
    destruct m as [|b m].
    + cbn [length] in *. rewrite app_length. cbn [length].
      replace (length pre + 1 - 1)%nat with (length pre) by lia. rewrite Nat.eqb_refl. simpl.
      eexists; reflexivity.
    + assert (E : Nat.eqb (length pre) (length (pre ++ a :: b :: m) - 1) = false).
      { apply Nat.eqb_neq. rewrite app_length. simpl. lia. }
      rewrite E. rewrite (py_get_nth _ (length pre) 0) by
        (rewrite map_length, seq_length, app_length; simpl; lia).
      cbn [bind].
      rewrite nth_map_seq by (rewrite app_length; simpl; lia).
      assert (Es : skipn (1 + length pre) (pre ++ a :: b :: m) = b :: m).
      { replace (1 + length pre)%nat with (length (pre ++ [a])) by (rewrite app_length; simpl; lia).
        replace (pre ++ a :: b :: m) with ((pre ++ [a]) ++ b :: m) by (rewrite <- app_assoc; auto).
        rewrite skipn_app, skipn_all, Nat.sub_diag. reflexivity. }
      rewrite Es. assert (Hp : 1 <= prodZ (b :: m)) by (apply prodZ_pos; auto).
      destruct (Z.eqb_spec (prodZ (b :: m)) 0); [lia|].
      destruct (IH (pre ++ [a]) (b :: m) (idx mod prodZ (b :: m)) (acc ++ [Z.quot idx (prodZ (b :: m))]))
        as [r Hr]; auto; [congruence|].
      exists r. rewrite <- app_assoc in Hr. cbn [app] in Hr.
      replace (length (pre ++ [a])) with (S (length pre)) in Hr by (rewrite app_length; simpl; lia).
      rewrite Hr. f_equal. f_equal. rewrite <- app_assoc. reflexivity.
Qed.

Lemma tensor_to_modesE m idx : Forall (fun x => 1 <= x) m ->
  tensor_to_modes (length m) m idx = Ok (digs m idx).
Proof.
  intros Hpos. destruct m as [|a m]; [reflexivity|].
  unfold tensor_to_modes. rewrite mP_listE by congruence. cbn [bind].
  destruct (step_gen (length (a :: m)) [] (a :: m) idx [] Hpos eq_refl) as [r Hr]; [congruence|].
  cbn [app length] in Hr. cbn [length]. rewrite Hr. reflexivity.
Qed.

Lemma digs_ok : forall m idx, Forall (fun x => 1 <= x) m -> 0 <= idx < prodZ m ->
  digits m (digs m idx) /\ recompose m (digs m idx) = idx.
Proof.
  induction m as [|a m IH]; intros idx Hpos Hi.
  - simpl in *. split; [constructor|lia].
  - inversion Hpos as [|? ? Ha Hpos']; subst. destruct m as [|b m].
    + simpl in *. split; [repeat constructor; lia|lia].
    + assert (Hp : 1 <= prodZ (b :: m)) by (apply prodZ_pos; auto).
      set (P := prodZ (b :: m)) in *.
      assert (Hi' : 0 <= idx < a * P) by (unfold P; exact Hi).
      change (digs (a :: b :: m) idx) with (Z.quot idx P :: digs (b :: m) (idx mod P)).
      destruct (IH (idx mod P)) as [H1 H2]; auto; [apply Z.mod_pos_bound; lia|].
      rewrite Z.quot_div_nonneg by lia. split.
      * constructor; auto. split; [apply Z.div_pos; lia|]. apply Z.div_lt_upper_bound; lia.
      * change (idx / P * P + recompose (b :: m) (digs (b :: m) (idx mod P)) = idx).
        rewrite H2. pose proof (Z.div_mod idx P). lia.
Qed.

Lemma recompose_bound : forall m d, digits m d -> 0 <= recompose m d < prodZ m.
Proof. induction 1; cbn [prodZ recompose]; nia. Qed.

Lemma digits_pos : forall m d, digits m d -> Forall (fun x => 1 <= x) m.
Proof. induction 1; constructor; auto; lia. Qed.

Lemma recompose_inj : forall m d, digits m d -> forall d', digits m d' ->
  recompose m d = recompose m d' -> d = d'.
Proof.
  induction 1 as [|a m x d Hx Hd IH]; intros d' H' E; inversion H' as [|? ? y d2 Hy Hd2]; subst; auto.
  simpl in E. pose proof (recompose_bound _ _ Hd). pose proof (recompose_bound _ _ Hd2).
  assert (x = y) by nia. subst y. f_equal. apply IH; auto. lia.
Qed.

Lemma digs_recompose m d : digits m d -> digs m (recompose m d) = d.
Proof.
  intros H. apply recompose_inj with (m := m); auto.
  - apply digs_ok; [eapply digits_pos; eauto|apply recompose_bound; auto].
  - apply digs_ok; [eapply digits_pos; eauto|apply recompose_bound; auto].
Qed.

(** ** truncate_circuit *)
Open Scope R_scope.

Lemma average_pos K n : (1 <= K)%Z -> (0 < n)%nat -> 1 <= trunc_average K n.
Proof.
  intros HK Hn. unfold trunc_average.
  assert (1 <= IZR K) by (apply IZR_le; lia).
  apply Rle_trans with (exp 0); [rewrite exp_0; lra|]. unfold Rpower.
  destruct (Rle_lt_or_eq_dec 1 (IZR K) H) as [H1|H1].
  - left. apply exp_increasing.
    apply Rmult_lt_0_compat; [|rewrite <- ln_1; apply ln_increasing; lra].
    apply Rdiv_lt_0_compat; [lra|]. apply lt_0_INR; auto.
  - rewrite <- H1, ln_1, Rmult_0_r. lra.
Qed.

Lemma average_pow K n : (1 <= K)%Z -> (0 < n)%nat -> trunc_average K n ^ n = IZR K.
Proof.
  intros HK Hn. unfold trunc_average.
  assert (0 < IZR K) by (apply IZR_lt; lia).
  rewrite <- Rpower_pow by (unfold Rpower; apply exp_pos).
  rewrite Rpower_mult. replace (1 / INR n * INR n) with 1.
  - apply Rpower_1; auto.
  - field. apply not_0_INR; lia.
Qed.

Lemma floor_bounds x : IZR (Int_part x) <= x < IZR (Int_part x) + 1.
Proof. destruct (base_Int_part x). lra. Qed.

Lemma dim_bounds (b : bool) x : 1 <= x ->
  let t := if b then Int_part (1 / 2 * (x + 1)) else Int_part x in
  let dim := if b then (2 * t - 1)%Z else t in
  (1 <= dim)%Z /\ IZR dim <= x /\ x - IZR dim < (if b then 2 else 1).
Proof.
  intros Hx. destruct b; cbv zeta.
  - pose proof (floor_bounds (1 / 2 * (x + 1))) as [H1 H2].
    set (k := Int_part (1 / 2 * (x + 1))) in *.
    assert (Hk : (1 <= k)%Z). { apply le_IZR. assert (0 < IZR k) by lra. 
      assert (0 < k)%Z by (apply lt_IZR; auto). apply IZR_le; lia. }
    rewrite minus_IZR, mult_IZR. split; [lia|]. lra.
  - pose proof (floor_bounds x) as [H1 H2]. set (k := Int_part x) in *.
    assert (0 < IZR k) by lra. assert (0 < k)%Z by (apply lt_IZR; auto).
    split; [lia|]. lra.
Qed.

Lemma prod_bound x : forall l, (forall k, In k l -> (1 <= k)%Z /\ IZR k <= x) ->
  IZR (prodZ l) <= x ^ length l.
Proof.
  induction l as [|k l IH]; intros H; simpl; [lra|].
  destruct (H k) as [H1 H2]; [left; auto|].
  assert (H3 : (1 <= prodZ l)%Z) by (apply prodZ_pos, Forall_forall; intros y Hy; apply (H y); right; auto).
  rewrite mult_IZR. apply Rmult_le_compat; auto.
  - apply IZR_le; lia.
  - apply IZR_le; lia.
  - apply IH. intros y Hy. apply H; right; auto.
Qed.

Lemma truncate_ok K n charge : (1 <= K)%Z -> (0 < n)%nat ->
  exists l, truncate_circuit (Some K) n charge = Ok l /\ length l = n /\
    let x := trunc_average K n in
    (forall i, (i < n)%nat ->
       let dim := nth i (mode_dims n charge l) 0%Z in
       (1 <= dim)%Z /\ IZR dim <= x /\ x - IZR dim < (if charge i then 2 else 1)) /\
    (prodZ (mode_dims n charge l) <= K)%Z.
Proof.
  intros HK Hn. unfold truncate_circuit.
  destruct (Z.ltb_spec K 1); [lia|]. destruct (Nat.eqb_spec n 0); [lia|].
  pose proof (average_pos K n HK Hn) as Hx. pose proof (average_pow K n HK Hn) as Hpow.
  set (x := trunc_average K n) in *.
  eexists; split; [reflexivity|]. split; [rewrite map_length, seq_length; auto|]. cbv zeta.
  assert (Hd : forall i, (i < n)%nat -> let dim := nth i (mode_dims n charge
      (map (fun i => if charge i then Int_part (1 / 2 * (x + 1)) else Int_part x) (seq 0 n))) 0%Z in
      (1 <= dim)%Z /\ IZR dim <= x /\ x - IZR dim < (if charge i then 2 else 1)).
  { intros i Hi. cbv zeta. rewrite mode_dims_nth by auto.
    rewrite nth_map_seq, Nat.add_0_l by auto.
    pose proof (dim_bounds (charge i) x Hx) as Hb. destruct (charge i); exact Hb. }
  split; [exact Hd|].
  apply le_IZR. rewrite <- Hpow. 
  set (ds := mode_dims n charge _) in *.
  replace n with (length ds) at 1 by apply mode_dims_length.
  apply prod_bound. intros k Hk. apply (In_nth _ _ 0%Z) in Hk as (i & Hi & <-).
  unfold ds in Hi. rewrite mode_dims_length in Hi. destruct (Hd i Hi) as (H1 & H2 & _). auto.
Qed.

Lemma pow_lt_mono x y : forall n, 0 <= x < y -> (0 < n)%nat -> x ^ n < y ^ n.
Proof.
  induction n as [|n IH]; intros H Hn; [lia|]. destruct n as [|n]; [simpl; lra|].
  assert (x ^ S n < y ^ S n) by (apply IH; auto; lia).
  assert (0 <= x ^ S n) by (apply pow_le; lra).
  change (x * x ^ S n < y * y ^ S n). nra.
Qed.

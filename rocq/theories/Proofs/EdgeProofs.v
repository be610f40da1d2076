(** EdgeProofs.v -- closed forms of the edge arrays. *)
From Coq Require Import Lia Lra.
From Verif.Model Require Import Base Edge.
From Verif.Spec Require Import GraphSpec.
Open Scope R_scope.

(** ** Lists *)
Lemma set_nth_length {A} (l : list A) i a : length (set_nth l i a) = length l.
Proof. revert i; induction l; intros [|i]; simpl; auto. Qed.

Lemma nth_set_nth {A} (l : list A) i a j d : (i < length l)%nat ->
  nth j (set_nth l i a) d = if Nat.eqb j i then a else nth j l d.
Proof.
  revert i j; induction l; intros [|i] [|j] H; simpl in *; try lia; auto.
  apply IHl; lia.
Qed.

Lemma py_index_in len z : (0 <= z < Z.of_nat len)%Z -> py_index len z = Some (Z.to_nat z).
Proof.
  intros H; unfold py_index.
  destruct (Z.leb_spec 0 z); [|lia]. destruct (Z.ltb_spec z (Z.of_nat len)); [auto|lia].
Qed.

Lemma py_get_in {A} (l : list A) z d : (0 <= z < Z.of_nat (length l))%Z ->
  py_get l z = Ok (nth (Z.to_nat z) l d).
Proof.
  intros H; unfold py_get; rewrite py_index_in by auto.
  rewrite (nth_error_nth' l d) by lia; auto.
Qed.

Lemma py_set_in {A} (l : list A) z a : (0 <= z < Z.of_nat (length l))%Z ->
  py_set l z a = Ok (set_nth l (Z.to_nat z) a).
Proof. intros H; unfold py_set; rewrite py_index_in; auto. Qed.

Lemma nth_repeat0 {A} (a : A) n i d : nth i (repeat a n) d = if Nat.ltb i n then a else d.
Proof.
  revert i; induction n; intros [|i]; simpl; auto.
  rewrite IHn; auto.
Qed.

Lemma nth_tl {A} (l : list A) i d : nth i (tl l) d = nth (S i) l d.
Proof. destruct l; simpl; auto. destruct i; auto. Qed.

Lemma tl_length {A} (l : list A) : length (tl l) = (length l - 1)%nat.
Proof. destruct l; simpl; lia. Qed.

(** ** The incidence vector *)
(** +1 at the first node, -1 at the second; +1 at the other node when one end
    is ground. *)
Definition wc (e : edge) (i : nat) : Z :=
  let k := (Z.of_nat i + 1)%Z in
  if (fst e =? 0)%Z then (if (k =? snd e)%Z then 1 else 0)%Z
  else if (snd e =? 0)%Z then (if (k =? fst e)%Z then 1 else 0)%Z
  else ((if (k =? fst e)%Z then 1 else 0) - (if (k =? snd e)%Z then 1 else 0))%Z.

Lemma py_add_in l z d : (0 <= z < Z.of_nat (length l))%Z ->
  py_add l z d = Ok (set_nth l (Z.to_nat z) (nth (Z.to_nat z) l 0 + d)%Z).
Proof.
  intros H; unfold py_add; rewrite (py_get_in l z 0%Z) by auto; simpl.
  apply py_set_in; auto.
Qed.

Ltac zb := repeat (match goal with
  | |- context [Z.eqb ?a ?b] => destruct (Z.eqb_spec a b)
  | |- context [Nat.eqb ?a ?b] => destruct (Nat.eqb_spec a b)
  | |- context [Nat.ltb ?a ?b] => destruct (Nat.ltb_spec a b)
  end; try lia; auto); simpl; try lia; auto.

Lemma w_at_edge_ok n e : proper n e ->
  exists w, w_at_edge (Z.of_nat n) e = Ok w /\ length w = n /\
    forall i, (i < n)%nat -> nth i w 0%Z = wc e i.
Proof.
  destruct e as [a b]; unfold proper; simpl; intros (Ha & Hb & Hab).
  unfold w_at_edge. replace (Z.to_nat (Z.of_nat n + 1)) with (S n) by lia.
  destruct ((a =? 0) || (b =? 0))%Z eqn:E.
  - rewrite py_add_in; [|rewrite repeat_length; apply orb_true_iff in E;
      destruct E as [E|E]; apply Z.eqb_eq in E; lia].
    cbn [bind]. eexists; split; [reflexivity|]. split.
    + rewrite tl_length, set_nth_length, repeat_length; lia.
    + intros i Hi. rewrite nth_tl.
      assert (Hr : (a = 0 \/ b = 0)%Z)
        by (apply orb_true_iff in E; destruct E as [E|E]; apply Z.eqb_eq in E; auto).
      rewrite nth_set_nth by (rewrite repeat_length; lia).
      rewrite !nth_repeat0. unfold wc; simpl fst; simpl snd; zb.
  - apply orb_false_iff in E; destruct E as [E1 E2]; apply Z.eqb_neq in E1, E2.
    rewrite py_add_in by (rewrite repeat_length; lia). cbn [bind].
    rewrite py_add_in by (rewrite set_nth_length, repeat_length; lia). cbn [bind].
    eexists; split; [reflexivity|]. split.
    + rewrite tl_length, !set_nth_length, repeat_length; lia.
    + intros i Hi. rewrite nth_tl.
      rewrite nth_set_nth by (rewrite set_nth_length, repeat_length; lia).
      rewrite !nth_set_nth by (rewrite repeat_length; lia).
      rewrite !nth_repeat0. unfold wc; simpl fst; simpl snd; zb.
Qed.

(** ** The matrix representation *)
Definition square (n : nat) (a : list (list Z)) : Prop :=
  length a = n /\ forall i, (i < n)%nat -> length (nth i a []) = n.

Lemma np_set2_ok n a i j v : square n a -> (0 <= i < Z.of_nat n)%Z -> (0 <= j < Z.of_nat n)%Z ->
  exists a', np_set2 a i j v = Ok a' /\ square n a' /\
    forall p q, (p < n)%nat -> (q < n)%nat ->
    entry a' p q = if Nat.eqb p (Z.to_nat i) && Nat.eqb q (Z.to_nat j) then v else entry a p q.
Proof.
  intros [Hl Hr] Hi Hj. unfold np_set2.
  rewrite (py_get_in a i []) by (rewrite Hl; auto); cbn [bind].
  assert (Hlen : length (nth (Z.to_nat i) a []) = n) by (apply Hr; lia).
  rewrite py_set_in by (rewrite Hlen; auto); cbn [bind].
  rewrite py_set_in by (rewrite Hl; auto).
  eexists; split; [reflexivity|]. split; [split|].
  - rewrite set_nth_length; auto.
  - intros p Hp. rewrite nth_set_nth by lia. zb. rewrite set_nth_length; auto.
  - intros p q Hp Hq. unfold entry. rewrite nth_set_nth by lia.
    destruct (Nat.eqb_spec p (Z.to_nat i)); subst; simpl; auto.
    rewrite nth_set_nth by lia. auto.
Qed.

Lemma zeros_square n : square n (repeat (repeat 0%Z n) n).
Proof.
  split; [apply repeat_length|]. intros i Hi. rewrite nth_repeat0. zb. apply repeat_length.
Qed.

Lemma entry_zeros n i j : entry (repeat (repeat 0%Z n) n) i j = 0%Z.
Proof.
  unfold entry. rewrite nth_repeat0. destruct (Nat.ltb i n); [rewrite nth_repeat0|];
  destruct j; simpl; zb.
Qed.

Lemma matrix_rep_ok n e : proper n e ->
  exists m, matrix_rep (Z.of_nat n) e = Ok m /\ square n m /\
    forall i j, (i < n)%nat -> (j < n)%nat -> entry m i j = (wc e i * wc e j)%Z.
Proof.
  destruct e as [a b]; unfold proper; simpl; intros (Ha & Hb & Hab).
  unfold matrix_rep. destruct (Z.ltb_spec (Z.of_nat n) 0); [lia|]. rewrite Nat2Z.id.
  simpl fst; simpl snd.
  destruct ((a =? 0) || (b =? 0))%Z eqn:E.
  - assert (Hr : (a = 0 \/ b = 0)%Z)
      by (apply orb_true_iff in E; destruct E as [E|E]; apply Z.eqb_eq in E; auto).
    destruct (np_set2_ok n _ (a + b - 1) (a + b - 1) 1 (zeros_square n)) as (m & Hm & Hs & He);
      try lia.
    exists m; split; [auto|]. split; auto. intros i j Hi Hj. rewrite He by auto.
    rewrite entry_zeros. unfold wc; simpl. zb.
  - apply orb_false_iff in E; destruct E as [E1 E2]; apply Z.eqb_neq in E1, E2.
    destruct (np_set2_ok n _ (a - 1) (a - 1) 1 (zeros_square n)) as (m1 & Hm1 & Hs1 & He1);
      try lia.
    destruct (np_set2_ok n m1 (b - 1) (b - 1) 1 Hs1) as (m2 & Hm2 & Hs2 & He2); try lia.
    destruct (np_set2_ok n m2 (a - 1) (b - 1) (-1) Hs2) as (m3 & Hm3 & Hs3 & He3); try lia.
    destruct (np_set2_ok n m3 (b - 1) (a - 1) (-1) Hs3) as (m4 & Hm4 & Hs4 & He4); try lia.
    exists m4. rewrite Hm1; cbn [bind]; rewrite Hm2; cbn [bind]; rewrite Hm3; cbn [bind].
    split; [auto|]. split; auto. intros i j Hi Hj.
    rewrite He4, He3, He2, He1, entry_zeros by auto. unfold wc; simpl.
    zb.
Qed.

(** ** Sums *)
Lemma sumn_ext n f g : (forall i, (i < n)%nat -> f i = g i) -> sumn n f = sumn n g.
Proof.
  induction n; intros H; simpl; auto. rewrite IHn, H by (intros; try apply H; lia). auto.
Qed.
Lemma sumn_plus n f g : sumn n (fun i => f i + g i) = sumn n f + sumn n g.
Proof. induction n; simpl; [ring|rewrite IHn; ring]. Qed.
Lemma sumn_scal n f a : sumn n (fun i => a * f i) = a * sumn n f.
Proof. induction n; simpl; [ring|rewrite IHn; ring]. Qed.
Lemma sumn_scal_r n f a : sumn n (fun i => f i * a) = sumn n f * a.
Proof. induction n; simpl; [ring|rewrite IHn; ring]. Qed.
Lemma sumn_0 n : sumn n (fun _ => 0) = 0.
Proof. induction n; simpl; [auto|rewrite IHn; ring]. Qed.
Lemma sumn_minus n f g : sumn n (fun i => f i - g i) = sumn n f - sumn n g.
Proof. induction n; simpl; [ring|rewrite IHn; ring]. Qed.

Lemma sumn_delta n k x : (1 <= k <= Z.of_nat n)%Z ->
  sumn n (fun i => (if (Z.of_nat i + 1 =? k)%Z then 1 else 0) * x i) = x (Z.to_nat k - 1)%nat.
Proof.
  intros Hk. induction n; [lia|]. cbn [sumn].
  destruct (Z.eqb_spec (Z.of_nat n + 1) k).
  - rewrite (sumn_ext n _ (fun _ => 0)).
    + rewrite sumn_0. replace (Z.to_nat k - 1)%nat with n by lia. ring.
    + intros i Hi. destruct (Z.eqb_spec (Z.of_nat i + 1) k); [lia|ring].
  - rewrite IHn by lia. ring.
Qed.

Lemma IZR_if (b : bool) : IZR (if b then 1 else 0) = if b then 1 else 0.
Proof. destruct b; auto. Qed.

Lemma wc_drop n e x : proper n e ->
  sumn n (fun i => IZR (wc e i) * x i) = orient e * drop e x.
Proof.
  destruct e as [a b]; unfold proper, orient, drop, pot, wc; simpl; intros (Ha & Hb & Hab).
  destruct (Z.eqb_spec a 0).
  - subst. destruct (Z.eqb_spec b 0); [lia|].
    rewrite <- (sumn_delta n b x) by lia. 
    rewrite (sumn_ext n _ (fun i => (if (Z.of_nat i + 1 =? b)%Z then 1 else 0) * x i)); [ring|].
    intros; rewrite IZR_if; auto.
  - destruct (Z.eqb_spec b 0).
    + subst. rewrite <- (sumn_delta n a x) by lia.
      rewrite (sumn_ext n _ (fun i => (if (Z.of_nat i + 1 =? a)%Z then 1 else 0) * x i)); [ring|].
      intros; rewrite IZR_if; auto.
    + rewrite <- (sumn_delta n a x), <- (sumn_delta n b x) by lia.
      rewrite Rmult_1_l, <- sumn_minus. apply sumn_ext. intros i Hi.
      rewrite minus_IZR, !IZR_if. ring.
Qed.

Lemma orient_sq e : orient e * orient e = 1.
Proof. unfold orient; destruct (Z.eqb _ _); ring. Qed.

Lemma bilin_outer n u x y :
  bilin n (fun i j => u i * u j) x y =
  sumn n (fun i => u i * x i) * sumn n (fun i => u i * y i).
Proof.
  unfold bilin. rewrite <- sumn_scal_r. apply sumn_ext; intros i Hi.
  rewrite <- sumn_scal. apply sumn_ext; intros; ring.
Qed.

Lemma bilin_ext n A B x y : (forall i j, (i < n)%nat -> (j < n)%nat -> A i j = B i j) ->
  bilin n A x y = bilin n B x y.
Proof.
  intros H; unfold bilin. apply sumn_ext; intros i Hi; apply sumn_ext; intros j Hj.
  rewrite H; auto.
Qed.

Lemma mat_rep_bilin n e m x y : proper n e -> matrix_rep (Z.of_nat n) e = Ok m ->
  bilin n (fun i j => IZR (entry m i j)) x y = drop e x * drop e y.
Proof.
  intros Hp Hm. destruct (matrix_rep_ok n e Hp) as (m' & Hm' & _ & He).
  rewrite Hm in Hm'; injection Hm' as <-.
  rewrite (bilin_ext n _ (fun i j => IZR (wc e i) * IZR (wc e j))).
  - rewrite bilin_outer, !(wc_drop n e) by auto.
    replace (orient e * drop e x * (orient e * drop e y))
      with (orient e * orient e * (drop e x * drop e y)) by ring.
    rewrite orient_sq; ring.
  - intros; rewrite He, mult_IZR; auto.
Qed.

(** ** Node count *)
Lemma edge_ltb_spec a b : edge_ltb a b = true <->
  (fst a < fst b \/ (fst a = fst b /\ snd a < snd b))%Z.
Proof.
  unfold edge_ltb. rewrite orb_true_iff, andb_true_iff, !Z.ltb_lt, Z.eqb_eq. tauto.
Qed.

Lemma max_edge_fold es e0 :
  let m := fold_left (fun m x => if edge_ltb m x then x else m) es e0 in
  In m (e0 :: es) /\ forall e, In e (e0 :: es) -> lex_le e m.
Proof.
  revert e0; induction es as [|x es IH]; intros e0; simpl.
  - split; auto. intros e [<-|[]]. unfold lex_le; lia.
  - destruct (IH (if edge_ltb e0 x then x else e0)) as [H1 H2]. split.
    + simpl in H1. destruct H1 as [H1|H1]; auto. destruct (edge_ltb e0 x); auto.
    + intros e He.
      assert (Hm : lex_le (if edge_ltb e0 x then x else e0)
                 (fold_left (fun m x => if edge_ltb m x then x else m) es
                    (if edge_ltb e0 x then x else e0))) by (apply H2; simpl; auto).
      assert (T : forall a b c, lex_le a b -> lex_le b c -> lex_le a c)
        by (unfold lex_le; intros; lia).
      destruct He as [<-|[<-|He]].
      * eapply T; [|exact Hm]. destruct (edge_ltb e0 x) eqn:E.
        -- apply edge_ltb_spec in E. unfold lex_le; lia.
        -- unfold lex_le; lia.
      * eapply T; [|exact Hm]. destruct (edge_ltb e0 x) eqn:E.
        -- unfold lex_le; lia.
        -- assert (~ edge_ltb e0 x = true) as N by congruence.
           rewrite edge_ltb_spec in N. unfold lex_le; lia.
      * apply H2; simpl; auto.
Qed.

(** The node count is the larger label of the lexicographically last edge. *)
Lemma node_count_spec es n : node_count es = Ok n <->
  exists e, In e es /\ (forall e', In e' es -> lex_le e' e) /\ n = Z.max (fst e) (snd e).
Proof.
  unfold node_count, max_edge. destruct es as [|e0 es]; simpl bind.
  - split; [discriminate|]. intros (e & [] & _).
  - destruct (max_edge_fold es e0) as [H1 H2].
    set (m := fold_left _ es e0) in *. split.
    + intros [= <-]. exists m; auto.
    + intros (e & He & Hm & ->). f_equal.
      assert (e = m).
      { specialize (H2 e He). specialize (Hm m H1). unfold lex_le in *.
        destruct e, m; simpl in *. f_equal; lia. }
      subst e; auto.
Qed.

(** It is the largest node label exactly when the last edge has it; in
    particular whenever edges are written small end first and the largest
    first component belongs to an edge reaching the largest label. *)
Lemma node_count_sorted es n : node_count es = Ok n ->
  (forall e, In e es -> (fst e < snd e)%Z) ->
  (exists a, In (a, n) es) /\
  forall e, In e es -> (fst e < n)%Z.
Proof.
  intros H Ho. apply node_count_spec in H. destruct H as (e & He & Hm & ->).
  pose proof (Ho e He). split.
  - exists (fst e). rewrite Z.max_r by lia. destruct e; auto.
  - intros e' He'. specialize (Hm e' He'). unfold lex_le in Hm. lia.
Qed.

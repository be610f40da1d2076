(** EdgeProofs2.v -- degenerate edges, the wrong node count, and order
    invariance. *)
From Coq Require Import Lia Lra Permutation.
From Verif.Model Require Import Base Elements Edge LCWB.
From Verif.Spec Require Import GraphSpec CircuitSpec.
From Verif.Proofs Require Import EdgeProofs LCWBProofs SensProofs.
Open Scope R_scope.
Open Scope list_scope.

Lemma w_measures n e : proper n e ->
  exists w, w_at_edge (Z.of_nat n) e = Ok w /\ measures n e w.
Proof.
  intros H. destruct (w_at_edge_ok n e H) as (w & Hw & Hl & Hn).
  exists w; split; auto. split; auto. intros x. rewrite <- (wc_drop n e x H).
  apply sumn_ext. intros i Hi. rewrite Hn; auto.
Qed.

Lemma outer_product n e w m : proper n e -> w_at_edge (Z.of_nat n) e = Ok w ->
  matrix_rep (Z.of_nat n) e = Ok m ->
  forall i j, (i < n)%nat -> (j < n)%nat -> entry m i j = (nth i w 0 * nth j w 0)%Z.
Proof.
  intros H Hw Hm i j Hi Hj.
  destruct (w_at_edge_ok n e H) as (w' & Hw' & _ & Hn).
  destruct (matrix_rep_ok n e H) as (m' & Hm' & _ & He).
  assert (w' = w) by congruence. assert (m' = m) by congruence. subst.
  rewrite He, !Hn; auto.
Qed.

Lemma proper_flip n e : proper n e -> proper n (flip e).
Proof. unfold proper, flip; simpl; intuition. Qed.
Lemma wc_flip e i j : (fst e <> snd e) -> (wc (flip e) i * wc (flip e) j = wc e i * wc e j)%Z.
Proof.
  destruct e as [a b]; unfold wc, flip; simpl; intros H.
  destruct (Z.eqb_spec a 0), (Z.eqb_spec b 0); try lia; try ring.
Qed.
Lemma mrep_flip n e i j : proper n e -> (i < n)%nat -> (j < n)%nat ->
  mrep (Z.of_nat n) (flip e) i j = mrep (Z.of_nat n) e i j.
Proof.
  intros H Hi Hj. destruct (matrix_rep_ok n e H) as (m & Hm & _ & He).
  destruct (matrix_rep_ok n _ (proper_flip n e H)) as (m' & Hm' & _ & He').
  unfold mrep. rewrite Hm, Hm', He, He', wc_flip by (auto; apply H). auto.
Qed.

(** ** Degenerate edges *)
Lemma py_index_neg len z : (0 < len)%nat -> z = (-1)%Z -> py_index len z = Some (len - 1)%nat.
Proof.
  intros H ->. unfold py_index. change (0 <=? -1)%Z with false. cbv iota.
  destruct (Z.leb_spec 0 (-1 + Z.of_nat len)); [|lia]. f_equal; lia.
Qed.

Lemma matrix_rep_00 n : (0 < n)%nat -> exists m, matrix_rep (Z.of_nat n) (0, 0)%Z = Ok m /\
  forall i j, (i < n)%nat -> (j < n)%nat ->
    entry m i j = if Nat.eqb i (n - 1) && Nat.eqb j (n - 1) then 1%Z else 0%Z.
Proof.
  intros Hn. unfold matrix_rep. destruct (Z.ltb_spec (Z.of_nat n) 0); [lia|]. rewrite Nat2Z.id.
  simpl fst; simpl snd. simpl orb. cbn iota. change (0 + 0 - 1)%Z with (-1)%Z.
  unfold np_set2. destruct (zeros_square n) as [Hl Hr].
  unfold py_get at 1. rewrite Hl, (py_index_neg n) by lia.
  rewrite (nth_error_nth' _ []) by lia. cbn [bind].
  unfold py_set at 1. rewrite Hr, (py_index_neg n) by lia. cbn [bind].
  unfold py_set. rewrite Hl, (py_index_neg n) by lia.
  eexists; split; [reflexivity|]. intros i j Hi Hj. unfold entry.
  rewrite nth_set_nth by lia. destruct (Nat.eqb_spec i (n - 1)); subst; cbn [andb].
  - rewrite nth_set_nth by (rewrite Hr; lia). destruct (Nat.eqb j (n - 1)); auto.
    apply (entry_zeros n (n - 1) j).
  - apply (entry_zeros n i j).
Qed.

Lemma w_at_edge_00 n : w_at_edge (Z.of_nat n) (0, 0)%Z = Ok (repeat 0%Z n).
Proof.
  unfold w_at_edge. simpl orb; cbn iota. replace (Z.to_nat (Z.of_nat n + 1)) with (S n) by lia.
  rewrite py_add_in by (rewrite repeat_length; lia). reflexivity.
Qed.

Lemma matrix_rep_kk n k : (1 <= k <= n)%nat ->
  exists m, matrix_rep (Z.of_nat n) (Z.of_nat k, Z.of_nat k) = Ok m /\
  forall i j, (i < n)%nat -> (j < n)%nat ->
    entry m i j = if Nat.eqb i (k - 1) && Nat.eqb j (k - 1) then (-1)%Z else 0%Z.
Proof.
  intros Hk. unfold matrix_rep. destruct (Z.ltb_spec (Z.of_nat n) 0); [lia|]. rewrite Nat2Z.id.
  simpl fst; simpl snd. destruct (Z.eqb_spec (Z.of_nat k) 0); [lia|]. simpl orb. cbn iota.
  set (a := (Z.of_nat k - 1)%Z).
  destruct (np_set2_ok n _ a a 1 (zeros_square n)) as (m1 & Hm1 & Hs1 & He1); try lia.
  destruct (np_set2_ok n m1 a a 1 Hs1) as (m2 & Hm2 & Hs2 & He2); try lia.
  destruct (np_set2_ok n m2 a a (-1) Hs2) as (m3 & Hm3 & Hs3 & He3); try lia.
  destruct (np_set2_ok n m3 a a (-1) Hs3) as (m4 & Hm4 & Hs4 & He4); try lia.
  exists m4. rewrite Hm1; cbn [bind]; rewrite Hm2; cbn [bind]; rewrite Hm3; cbn [bind].
  split; auto. intros i j Hi Hj. rewrite He4, He3, He2, He1, entry_zeros by auto.
  replace (Z.to_nat a) with (k - 1)%nat by lia.
  destruct (Nat.eqb i (k - 1) && Nat.eqb j (k - 1)); auto.
Qed.

(** ** Which edges the arrays accept *)
Lemma py_index_out len z : (Z.of_nat len <= z)%Z -> py_index len z = None.
Proof.
  intros H. unfold py_index. destruct (Z.leb_spec 0 z); [|lia].
  destruct (Z.ltb_spec z (Z.of_nat len)); [lia|auto].
Qed.
Lemma py_add_out l z d : (Z.of_nat (length l) <= z)%Z -> py_add l z d = Err IndexError.
Proof. intros H. unfold py_add, py_get. rewrite py_index_out; auto. Qed.

Lemma w_at_edge_out n e : nonneg e -> (Z.of_nat n < Z.max (fst e) (snd e))%Z ->
  w_at_edge (Z.of_nat n) e = Err IndexError.
Proof.
  destruct e as [a b]; unfold nonneg; simpl. intros [Ha Hb] H.
  unfold w_at_edge. replace (Z.to_nat (Z.of_nat n + 1)) with (S n) by lia.
  destruct ((a =? 0) || (b =? 0))%Z eqn:E.
  - assert (Hr : (a = 0 \/ b = 0)%Z)
      by (apply orb_true_iff in E; destruct E as [E|E]; apply Z.eqb_eq in E; auto).
    rewrite py_add_out; auto. rewrite repeat_length; lia.
  - destruct (Z_le_gt_dec a (Z.of_nat n)).
    + rewrite py_add_in by (rewrite repeat_length; lia). cbn [bind].
      rewrite py_add_out; auto. rewrite set_nth_length, repeat_length; lia.
    + rewrite py_add_out; auto. rewrite repeat_length; lia.
Qed.

Lemma edge_in_ok n e : (0 < n)%nat -> nonneg e -> (Z.max (fst e) (snd e) <= Z.of_nat n)%Z ->
  (exists w, w_at_edge (Z.of_nat n) e = Ok w) /\ (exists m, matrix_rep (Z.of_nat n) e = Ok m).
Proof.
  destruct e as [a b]; unfold nonneg; simpl. intros Hn [Ha Hb] H.
  destruct (Z.eq_dec a b) as [->|Hab].
  - destruct (Z.eq_dec b 0) as [->|Hb0].
    + split; [eexists; apply w_at_edge_00|]. destruct (matrix_rep_00 n Hn) as (m & Hm & _). eauto.
    + split.
      * unfold w_at_edge. replace (Z.to_nat (Z.of_nat n + 1)) with (S n) by lia.
        destruct (Z.eqb_spec b 0); [lia|]. cbn [orb].
        rewrite py_add_in by (rewrite repeat_length; lia). cbn [bind].
        rewrite py_add_in by (rewrite set_nth_length, repeat_length; lia). cbn [bind]. eauto.
      * destruct (matrix_rep_kk n (Z.to_nat b)) as (m & Hm & _); [lia|].
        rewrite Z2Nat.id in Hm by lia. eauto.
  - assert (P : proper n (a, b)) by (unfold proper; simpl; lia).
    destruct (w_at_edge_ok n _ P) as (w & Hw & _). destruct (matrix_rep_ok n _ P) as (m & Hm & _).
    eauto.
Qed.

(** An edge beyond the node count makes construction fail with IndexError. *)
Lemma too_small_n optim s fd n d : forall c, (0 < n)%nat ->
  (forall e els, In (e, els) d -> nonneg e /\ ~ bad_ind s els) ->
  (exists e els, In (e, els) d /\ (Z.of_nat n < Z.max (fst e) (snd e))%Z) ->
  run_edges optim s fd (Z.of_nat n) c d = Err IndexError.
Proof.
  induction d as [|[e els] d IH]; intros c Hn Hd (e' & els' & Hin & Hgt); [destruct Hin|].
  unfold run_edges. simpl. unfold process_edge at 1.
  destruct (Hd e els (or_introl eq_refl)) as [He Hb].
  destruct (Z_le_gt_dec (Z.max (fst e) (snd e)) (Z.of_nat n)) as [Hle|Hg].
  - destruct (edge_in_ok n e Hn He Hle) as ((w & Hw) & (m & Hm)). rewrite Hw, Hm. cbn [bind].
    rewrite (eff_ind_good s els Hb). cbn [bind]. apply IH; auto.
    + intros; apply Hd; right; auto.
    + destruct Hin as [[= -> ->]|Hin]; [lia|eauto].
  - rewrite w_at_edge_out by (auto; lia). cbn [bind]. apply fold_edges_err.
Qed.

Theorem wrong_node_count optim s fd lobj d n :
  In fd ["junctions"; "inductors"; "all"]%string ->
  node_count (map fst d) = Ok n ->
  (forall e els, In (e, els) d -> nonneg e /\ ~ bad_ind s els) ->
  (exists e els, In (e, els) d /\ (n < Z.max (fst e) (snd e))%Z) ->
  build optim s fd lobj d = Err IndexError.
Proof.
  intros Hfd Hn Hd Hex. unfold build.
  assert (F : negb (String.eqb fd "junctions" || String.eqb fd "inductors"
           || String.eqb fd "all") = false)
    by (destruct Hfd as [<-|[<-|[<-|[]]]]; reflexivity).
  rewrite F, Hn. cbn [bind].
  assert (Hn' : (0 < n)%Z).
  { apply node_count_spec in Hn as (e & He & Hmax & ->).
    apply in_map_iff in He as ([e0 els0] & E & Hin0). simpl in E; subst e0.
    destruct (Hd _ _ Hin0) as [[? ?] _].
    destruct Hex as (e' & els' & Hin & Hgt).
    assert (L : lex_le e' e) by (apply Hmax; apply (in_map fst) in Hin; auto).
    destruct (Hd _ _ Hin) as [[? ?] _]. unfold lex_le in L. lia. }
  unfold get_LCWB. destruct (Z.ltb_spec n 0); [lia|].
  replace n with (Z.of_nat (Z.to_nat n)) in * by lia.
  fold (run_edges optim s fd (Z.of_nat (Z.to_nat n)) (cst0 lobj) d).
  rewrite too_small_n; auto. lia.
Qed.

(** ** C19 *)
Lemma redeclared_mats optim s fd n lobj d d' c c' : proper_dict n d -> redeclared d d' ->
  get_LCWB optim s fd (Z.of_nat n) lobj d = Ok c ->
  get_LCWB optim s fd (Z.of_nat n) lobj d' = Ok c' ->
  forall i j, (i < n)%nat -> (j < n)%nat -> c_C c i j = c_C c' i j /\ c_L c i j = c_L c' i j.
Proof.
  intros Hp (d1 & Hperm & Hall) H H' i j Hi Hj.
  apply get_LCWB_run in H as [_ H], H' as [_ H'].
  apply run_edges_mats in H as (HC & HL & _). apply run_edges_mats in H' as (HC' & HL' & _).
  rewrite HC, HC', HL, HL'. simpl. rewrite !Rplus_0_l.
  rewrite !(suml_perm d d1) by auto.
  assert (Hp1 : proper_dict n d1).
  { intros e els Hin. apply (Hp e els). eapply Permutation_in; [symmetry|]; eauto. }
  clear - Hall Hp1 Hi Hj. induction Hall as [|[e els] [e' els'] d1 d' [HE HP] Hall IH]; simpl; auto.
  destruct IH as [IH1 IH2]; [intros ? ? ?; eapply Hp1; right; eauto|].
  simpl in HE, HP. rewrite IH1, IH2.
  assert (M : mrep (Z.of_nat n) e i j = mrep (Z.of_nat n) e' i j).
  { destruct HE as [-> | ->]; auto. symmetry. apply mrep_flip; auto.
    eapply Hp1; left; eauto. }
  rewrite M. unfold edge_cap, edge_invind. rewrite !(suml_perm els els') by auto. auto.
Qed.

(** Redeclaring also keeps success. *)
Lemma redeclared_ok optim s fd n lobj d d' c : proper_dict n d -> redeclared d d' ->
  get_LCWB optim s fd (Z.of_nat n) lobj d = Ok c ->
  exists c', get_LCWB optim s fd (Z.of_nat n) lobj d' = Ok c'.
Proof.
  intros Hp (d1 & Hperm & Hall) H.
  apply get_LCWB_run in H as [_ H].
  assert (G := proj1 (run_edges_ok_iff optim s fd (Z.of_nat n) d (cst0 lobj)) (ex_intro _ c H)).
  unfold get_LCWB. destruct (Z.ltb_spec (Z.of_nat n) 0); [lia|].
  apply (run_edges_total optim s fd n d' (cst0 lobj)).
  - intros e els Hin.
    assert (K : exists x, In x d1 /\ same_edge x (e, els)).
    { clear - Hall Hin. induction Hall; [destruct Hin|]. destruct Hin as [-> |Hin].
      - exists x; split; [left|]; auto.
      - destruct IHHall as (z & Hz & Hs); auto. exists z; split; [right|]; auto. }
    destruct K as ([e0 els0] & Hx & [HE _]). simpl in HE.
    assert (proper n e0) by (eapply Hp; eapply Permutation_in; [symmetry; eauto|eauto]).
    destruct HE as [-> | ->]; auto. apply proper_flip; auto.
  - intros e els Hin.
    assert (K : exists x, In x d1 /\ same_edge x (e, els)).
    { clear - Hall Hin. induction Hall; [destruct Hin|]. destruct Hin as [-> |Hin].
      - exists x; split; [left|]; auto.
      - destruct IHHall as (z & Hz & Hs); auto. exists z; split; [right|]; auto. }
    destruct K as ([e0 els0] & Hx & [_ HP]). simpl in HP.
    assert (Hin0 : In (e0, els0) d) by (eapply Permutation_in; [symmetry; eauto|eauto]).
    destruct (G _ _ Hin0) as (_ & _ & Hb). intros (el & Hel & Hz). apply Hb.
    exists el; split; auto. eapply Permutation_in; [symmetry; eauto|auto].
Qed.

(** Parallel capacitors add. *)
Lemma parallel_caps optim s fd n lobj pre post e caps rest cap c c' :
  (forall x, In x caps -> ekind s x = KCap) -> ekind s cap = KCap ->
  evalue s cap = suml caps (evalue s) ->
  get_LCWB optim s fd n lobj (pre ++ (e, caps ++ rest) :: post) = Ok c ->
  get_LCWB optim s fd n lobj (pre ++ (e, cap :: rest) :: post) = Ok c' ->
  forall i j, c_C c i j = c_C c' i j /\ c_L c i j = c_L c' i j.
Proof.
  intros Hk Kc Hv H H' i j.
  apply get_LCWB_run in H as [_ H], H' as [_ H'].
  apply run_edges_mats in H as (HC & HL & _). apply run_edges_mats in H' as (HC' & HL' & _).
  rewrite HC, HC', HL, HL'. rewrite !suml_app. simpl.
  assert (E1 : edge_cap s (caps ++ rest) = edge_cap s (cap :: rest)).
  { unfold edge_cap. rewrite suml_app. simpl. f_equal. unfold cap_of at 2. rewrite Kc, Hv.
    apply suml_ext. intros x Hx. unfold cap_of. rewrite Hk; auto. }
  assert (E2 : edge_invind s (caps ++ rest) = edge_invind s (cap :: rest)).
  { unfold edge_invind. rewrite suml_app. simpl. f_equal. unfold invind_of at 2. rewrite Kc.
    rewrite (suml_ext caps _ (fun _ => 0)); [apply suml_0|].
    intros x Hx. unfold invind_of. rewrite Hk; auto. }
  rewrite E1, E2. auto.
Qed.

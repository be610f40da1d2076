(** NetProofs.v -- cutting a potential in two levels. *)
From Coq Require Import Reals ZArith List Lra Lia.
From Verif.Spec Require Import GraphSpec NetSpec.
From Verif.Model Require Import Base Elements Edge LCWB.
From Verif.Spec Require Import CircuitSpec.
From Verif.Proofs Require Import EdgeProofs EdgeProofs2 LCWBProofs.
Open Scope R_scope.

Definition lvl (a x : R) : R := if Req_EM_T x a then 0 else 1.
(** 1 where x differs from a, shifted so that ground stays at 0. *)
Definition two_level (a : R) (x : nat -> R) : nat -> R := fun i => lvl a (x i) - lvl a 0.

Lemma pot_two_level a x k : pot (two_level a x) k = lvl a (pot x k) - lvl a 0.
Proof. unfold pot, two_level. destruct (Z.eqb k 0); lra. Qed.

Lemma two_level_same a x e : drop e x = 0 -> drop e (two_level a x) = 0.
Proof.
  unfold drop; rewrite !pot_two_level; intros H.
  replace (pot x (snd e)) with (pot x (fst e)) by lra. lra.
Qed.
Lemma two_level_vals a x e :
  drop e (two_level a x) = 0 \/ drop e (two_level a x) = 1 \/ drop e (two_level a x) = -1.
Proof.
  unfold drop; rewrite !pot_two_level; unfold lvl.
  destruct (Req_EM_T (pot x (fst e)) a), (Req_EM_T (pot x (snd e)) a); lra.
Qed.
Lemma two_level_at x e : drop e x <> 0 -> drop e (two_level (pot x (snd e)) x) = 1.
Proof.
  unfold drop; intros H; rewrite !pot_two_level; unfold lvl.
  destruct (Req_EM_T (pot x (fst e)) (pot x (snd e))); [lra|].
  destruct (Req_EM_T (pot x (snd e)) (pot x (snd e))); lra.
Qed.

Lemma orient_pm e : orient e = 1 \/ orient e = -1.
Proof. unfold orient; destruct (Z.eqb (fst e) 0); auto. Qed.

(** Measured by W: if x is an inductively constant potential whose couplings to
    the selected rows are those of a unit vector, there is another with the same
    selected couplings and all couplings 0 or +-1. *)
Lemma network_cut n m ind jun L W x j : network n m ind jun L W -> (j < m)%nat ->
  bilin n L x x = 0 -> sumn n (fun k => W j k * x k) = 1 ->
  exists y, bilin n L y y = 0 /\ sumn n (fun k => W j k * y k) = 1 /\
    (forall i, (i < m)%nat -> sumn n (fun k => W i k * x k) = 0 -> sumn n (fun k => W i k * y k) = 0) /\
    (forall i, (i < m)%nat -> let v := sumn n (fun k => W i k * y k) in v = 0 \/ v = 1 \/ v = -1).
Proof.
  intros (HL & Hlen & HW) Hj H0 H1. set (e := nth j jun (0, 0)%Z).
  assert (Hd : orient e * drop e x = 1) by (unfold e; rewrite <- HW; auto).
  assert (Hn0 : drop e x <> 0) by (intros E; rewrite E in Hd; lra).
  pose (a := pot x (snd e)). pose (y := fun i => orient e * two_level a x i).
  assert (Py : forall k, pot y k = orient e * pot (two_level a x) k).
  { intros k; unfold pot, y; destruct (Z.eqb k 0); lra. }
  assert (Dy : forall f, drop f y = orient e * drop f (two_level a x)).
  { intros f; unfold drop; rewrite !Py; lra. }
  exists y. split; [|split; [|split]].
  - apply HL. intros f Hf. rewrite Dy, two_level_same; [lra|]. apply (proj1 (HL x) H0 f Hf).
  - rewrite HW by auto. cbv zeta. fold e. rewrite Dy. unfold a. rewrite two_level_at by auto.
    destruct (orient_pm e) as [-> | ->]; lra.
  - intros i Hi E. rewrite HW in E |- * by auto. cbv zeta in *. rewrite Dy.
    rewrite two_level_same; [lra|].
    destruct (orient_pm (nth i jun (0, 0)%Z)) as [R | R]; rewrite R in E; lra.
  - intros i Hi. cbv zeta. rewrite HW by auto. cbv zeta. rewrite Dy.
    destruct (orient_pm e) as [-> | ->], (orient_pm (nth i jun (0, 0)%Z)) as [-> | ->];
    destruct (two_level_vals a x (nth i jun (0, 0)%Z)) as [-> | [-> | ->]]; lra.
Qed.

Lemma network_sub n m ind jun L W x y : network n m ind jun L W ->
  bilin n L x x = 0 -> bilin n L y y = 0 ->
  bilin n L (fun p => x p - y p) (fun p => x p - y p) = 0.
Proof.
  intros (HL & _) Hx Hy. apply HL. intros e He.
  pose proof (proj1 (HL x) Hx e He) as A. pose proof (proj1 (HL y) Hy e He) as B.
  unfold drop, pot in *. destruct (Z.eqb (fst e) 0), (Z.eqb (snd e) 0); lra.
Qed.

Definition ind_edges (s : store) (d : list (edge * list nat)) : list edge :=
  map fst (filter (fun ee => existsb (is_ind s) (snd ee)) d).

Lemma in_ind_edges s d e : In e (ind_edges s d) <->
  exists els el, In (e, els) d /\ In el els /\ ekind s el = KInd.
Proof.
  unfold ind_edges. rewrite in_map_iff. split.
  - intros ([e' els] & <- & H). apply filter_In in H as [Hin H].
    apply existsb_exists in H as (el & Hel & K). exists els, el. unfold is_ind in K.
    repeat split; auto. destruct (ekind s el); auto; discriminate.
  - intros (els & el & Hin & Hel & K). exists (e, els). split; auto.
    apply filter_In; split; auto. apply existsb_exists; exists el.
    unfold is_ind; rewrite K; auto.
Qed.

(** The constructed matrices are those of a network. *)
Lemma LCWB_network optim s fd n lobj d c :
  get_LCWB optim s fd (Z.of_nat n) lobj d = Ok c -> proper_dict n d ->
  (forall e els el, In (e, els) d -> In el els -> ekind s el = KInd -> 0 < evalue s el) ->
  network n (length (c_W c)) (ind_edges s d) (jj_edges s d) (c_L c)
    (fun i k => IZR (nth k (nth i (c_W c) nil) 0%Z)).
Proof.
  intros H Hp Hpos. split; [|split].
  - intros x. rewrite (L_null _ _ _ _ _ _ _ H Hp Hpos). split.
    + intros Hd e He. apply in_ind_edges in He as (els & el & Hin & Hel & K); eauto.
    + intros Hd e els el Hin Hel K. apply Hd. apply in_ind_edges; eauto.
  - pose proof (get_LCWB_run _ _ _ _ _ _ _ H) as [_ Hr]. apply run_edges_mats in Hr.
    destruct Hr as (_ & _ & HW & _). rewrite HW. simpl. rewrite map_length; auto.
  - intros i x Hi. cbv zeta.
    pose proof (get_LCWB_run _ _ _ _ _ _ _ H) as [_ Hr]. apply run_edges_mats in Hr.
    destruct Hr as (_ & _ & HW & _). rewrite HW in *. simpl in *. rewrite map_length in Hi.
    set (e := nth i (jj_edges s d) (0, 0)%Z).
    assert (Hin : In e (jj_edges s d)) by (apply nth_In; auto).
    assert (Hpe : proper n e).
    { unfold jj_edges in Hin. apply in_map_iff in Hin as ([e' els] & Ee & Hin).
      apply filter_In in Hin as [Hin _]. simpl in Ee. rewrite <- Ee. apply (Hp _ _ Hin). }
    assert (En : nth i (map (wrow (Z.of_nat n)) (jj_edges s d)) nil = wrow (Z.of_nat n) e).
    { unfold e. rewrite (nth_indep _ nil (wrow (Z.of_nat n) (0, 0)%Z)) by (rewrite map_length; auto).
      apply map_nth. }
    rewrite En. destruct (w_measures n e Hpe) as (w & Hw & Hlen & Hm).
    assert (Ew : wrow (Z.of_nat n) e = w) by (unfold wrow; rewrite Hw; auto).
    rewrite Ew. apply Hm.
Qed.

(** Two nodes, an inductor from the first one to ground and one junction. *)
Lemma network_two L W b : L 0%nat 0%nat = 1 -> L 0%nat 1%nat = 0 -> L 1%nat 0%nat = 0 ->
  L 1%nat 1%nat = 0 -> W 0%nat 0%nat = 1 -> W 0%nat 1%nat = (if b : bool then -1 else 0) ->
  network 2 1 [(0, 1)%Z] [(1, if b then 2 else 0)%Z] L W.
Proof.
  intros E1 E2 E3 E4 F1 F2. split; [|split; [reflexivity|]].
  - intros x. unfold bilin, sumn. rewrite E1, E2, E3, E4. split.
    + intros H e [<-|[]]. unfold drop, pot; simpl. 
      assert (x 0%nat * x 0%nat = 0) by lra. apply Rmult_integral in H0. lra.
    + intros H. specialize (H _ (or_introl eq_refl)). unfold drop, pot in H; simpl in H.
      assert (E : x 0%nat = 0) by lra. rewrite E; ring.
  - intros [|i] x Hi; [|lia]. cbv zeta. unfold sumn. rewrite F1, F2.
    destruct b; unfold orient, drop, pot; simpl; lra.
Qed.

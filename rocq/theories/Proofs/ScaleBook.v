(** ScaleBook.v -- the matrices of the rescaled circuit. *)
From Coq Require Import Lia Lra String.
From Verif.Model Require Import Base Elements Edge LCWB.
From Verif.Spec Require Import GraphSpec CircuitSpec FluxSpec ScaleSpec.
From Verif.Proofs Require Import EdgeProofs LCWBProofs BookProofs FluxBook RoundProofs.
Open Scope R_scope.
Open Scope list_scope.

Section Store.
Variables (x : R) (s : store).
Hypothesis x0 : 0 < x.
Hypothesis own : own_capacitors s.
Notation s' := (rescale_store x s).

Lemma sc_cap el : cap_of s' el = cap_of s el / x.
Proof.
  unfold cap_of; simpl. destruct (ekind s el) eqn:K; simpl; rewrite ?own; auto; rewrite ?K; try reflexivity; discriminate.
Qed.
Lemma suml_scale {A} k (l : list A) f g : (forall a, f a = k * g a) -> suml l f = k * suml l g.
Proof. intros H. induction l as [|a l IH]; simpl; [ring|]. rewrite H, IH. ring. Qed.
Lemma sc_edge_cap els : edge_cap s' els = / x * edge_cap s els.
Proof. apply suml_scale. intros a. rewrite sc_cap. unfold Rdiv. ring. Qed.
Lemma sc_edge_invind els : edge_invind s' els = x * edge_invind s els.
Proof.
  apply suml_scale. intros a. unfold invind_of; simpl. destruct (ekind s a); try ring.
  unfold Rdiv. rewrite Rinv_mult, Rinv_inv. ring.
Qed.
Lemma sc_bad els : bad_ind s' els -> bad_ind s els.
Proof.
  intros (el & H1 & H2 & H3). exists el. simpl in *. rewrite H2 in H3. repeat split; auto.
  unfold Rdiv in H3. apply Rmult_integral in H3 as [H|H]; auto. apply Rinv_neq_0_compat in H; [easy|lra].
Qed.

Lemma sc_occs d : occs s' d = occs s d.
Proof.
  unfold occs. generalize 0%nat as w. induction d as [|[e els] d IH]; intros w; simpl; auto.
  rewrite IH. reflexivity.
Qed.

Section Build.
Variables (optim : bool) (fd : string) (n : Z) (lobj : nat -> lrec) (d : list (edge * list nat)) (c c' : cst).
Hypothesis H : get_LCWB optim s fd n lobj d = Ok c.
Hypothesis H' : get_LCWB optim s' fd n lobj d = Ok c'.

Lemma sc_mats : (forall i j, c_C c' i j = c_C c i j / x) /\ (forall i j, c_L c' i j = x * c_L c i j) /\
  c_W c' = c_W c /\ c_njwi c' = c_njwi c.
Proof.
  apply get_LCWB_run in H as [_ HH], H' as [_ HH'].
  destruct (run_edges_mats _ _ _ _ _ _ _ HH) as (C1 & L1 & W1 & _ & N1).
  destruct (run_edges_mats _ _ _ _ _ _ _ HH') as (C2 & L2 & W2 & _ & N2).
  repeat split.
  - intros. rewrite C1, C2. simpl. unfold Rdiv. rewrite Rmult_plus_distr_r, Rmult_0_l, (Rmult_comm (suml _ _)). f_equal.
    apply suml_scale. intros a. rewrite sc_edge_cap. ring.
  - intros. rewrite L1, L2. simpl. rewrite Rmult_plus_distr_l, Rmult_0_r. f_equal.
    apply suml_scale. intros a. rewrite sc_edge_invind. ring.
  - rewrite W1, W2. reflexivity.
  - rewrite N1, N2. reflexivity.
Qed.
Lemma sc_book : c_keys_ind c' = c_keys_ind c /\ c_keys_jj c' = c_keys_jj c /\ c_kmat c' = c_kmat c /\ c_loops c' = c_loops c.
Proof.
  destruct (LCWB_book _ _ _ _ _ _ _ H) as [_ K1 L1 _ I1 J1 _]. destruct (LCWB_book _ _ _ _ _ _ _ H') as [_ K2 L2 _ I2 J2 _].
  rewrite K1, K2, L1, L2, I1, I2, J1, J2, sc_occs. split; [reflexivity|]. split; [reflexivity|]. split; reflexivity.
Qed.
End Build.

Lemma sc_weight fd el : ekind s el <> KCap -> dist_weight s' fd el = (if String.eqb fd "all" then / x else 1) * dist_weight s fd el.
Proof.
  intros K. unfold dist_weight. destruct (String.eqb fd "all"); simpl; [|destruct (ekind s el), (String.eqb fd "junctions"); simpl; ring].
  rewrite (own _ K). unfold Rdiv. ring.
Qed.
Lemma sc_nbranch d : nbranch s' d = nbranch s d.
Proof. unfold nbranch. rewrite sc_occs. reflexivity. Qed.
Lemma sc_branch d b : branch s' d b = branch s d b.
Proof. unfold branch. rewrite sc_occs. reflexivity. Qed.
Lemma sc_bdrop d b v : bdrop s' d b v = bdrop s d b v.
Proof. unfold bdrop. rewrite sc_branch. reflexivity. Qed.
Lemma occs_kind d o : In o (occs s d) -> ekind s (occ_el o) <> KCap.
Proof. intros H K. apply occs_inductive in H. unfold inductive_el in H. rewrite K in H. discriminate. Qed.
Lemma sc_no_induced fd d nl B : no_induced_charge s' fd d nl B -> no_induced_charge s fd d nl B.
Proof.
  intros H k v Hk. specialize (H k v Hk). rewrite sc_nbranch in H.
  set (z := if String.eqb fd "all" then / x else 1).
  assert (z <> 0) as nz by (unfold z; destruct (String.eqb fd "all"); [apply Rinv_neq_0_compat|]; lra).
  apply (Rmult_eq_reg_l z); auto. rewrite Rmult_0_r, <- H, <- sumn_scal.
  apply sumn_ext. intros b Hb. rewrite sc_bdrop, sc_branch, sc_weight; [fold z; ring|].
  apply (occs_kind d). apply nth_In. exact Hb.
Qed.
Lemma sc_loop_sums d loops B : loop_sums s' d loops B -> loop_sums s d loops B.
Proof.
  intros H k k' G Hk Hk' (G1 & G2 & G3). rewrite <- sc_nbranch. apply H; auto. split; [|split].
  - intros b Hb Hn. apply G1; [rewrite <- sc_nbranch; auto|]. unfold mentions in *. rewrite sc_occs in Hn. exact Hn.
  - unfold mentions in *. rewrite sc_occs. exact G2.
  - intros v. rewrite sc_nbranch, <- (G3 v). apply sumn_ext. intros b _. rewrite sc_bdrop. reflexivity.
Qed.
End Store.

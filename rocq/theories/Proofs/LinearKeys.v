(** LinearKeys.v -- what construction leaves of a circuit without junctions. *)
From Coq Require Import Reals ZArith String List Lia.
From Verif.Model Require Import Base Units Noise Edge Elements LCWB.
From Verif.Spec Require Import GraphSpec CircuitSpec.
From Verif.Proofs Require Import LCWBProofs BookProofs.
Import ListNotations.

Section Keys.
Variables (optim : bool) (s : store) (fd : string) (n : nat) (lobj : nat -> lrec) (d : list (edge * list nat)) (c : cst).
Hypothesis H : get_LCWB optim s fd (Z.of_nat n) lobj d = Ok c.

Lemma key_edge e el b : In (e, el, b) (c_keys_ind c) -> exists els, In (e, els) d /\ In el els.
Proof.
  intros Hin. pose proof (proj2 (key_rows _ _ _ _ _ _ _ H b e el) (or_introl Hin)) as N.
  apply nth_error_In in N. unfold ind_occs in N. apply in_flat_map in N as ([e' els] & Hd & N). simpl in N.
  apply in_map_iff in N as (el' & [= -> ->] & N). apply filter_In in N as [N _]. exists els. auto.
Qed.
Lemma jj_edge e el b w : In (e, el, b, w) (c_keys_jj c) -> is_jj s el = true /\ exists els, In (e, els) d /\ In el els.
Proof.
  intros Hin. destruct (LCWB_book _ _ _ _ _ _ _ H) as [_ _ _ _ _ B6 _].
  split.
  - rewrite B6 in Hin. unfold keys_jj in Hin. apply in_map_iff in Hin as (x & [= <- <- <- <-] & Hin).
    apply filter_In in Hin as [_ Hin]. exact Hin.
  - pose proof (proj2 (key_rows _ _ _ _ _ _ _ H b e el) (or_intror (ex_intro _ w Hin))) as N.
    apply nth_error_In in N. unfold ind_occs in N. apply in_flat_map in N as ([e' els] & Hd & N). simpl in N.
    apply in_map_iff in N as (el' & [= -> ->] & N). apply filter_In in N as [N _]. exists els. auto.
Qed.

Hypothesis none : forall e els el, In (e, els) d -> In el els -> ekind s el <> KJJ.
Lemma no_jj_keys : c_keys_jj c = [].
Proof.
  destruct (c_keys_jj c) as [|[[[e el] b] w] l] eqn:E; auto.
  destruct (jj_edge e el b w) as (J & els & Hd & Hel); [rewrite E; left; auto|].
  exfalso. apply (none e els el Hd Hel). unfold is_jj in J. destruct (ekind s el); auto; discriminate.
Qed.
Lemma no_jj_W : c_W c = [].
Proof.
  pose proof H as H'. apply get_LCWB_run in H' as [_ H']. apply run_edges_mats in H' as (_ & _ & HW & _).
  rewrite HW. simpl. unfold jj_edges. clear -none. induction d as [|[e els] d' IH]; auto. simpl.
  destruct (existsb (is_jj s) els) eqn:E.
  - apply existsb_exists in E as (el & Hel & J). exfalso. apply (none e els el); auto; [left; auto|].
    unfold is_jj in J. destruct (ekind s el); auto; discriminate.
  - apply IH. intros e0 els0 el0 H0. apply none with e0. right; auto.
Qed.
End Keys.

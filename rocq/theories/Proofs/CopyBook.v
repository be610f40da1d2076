(** CopyBook.v -- where the components named in the bookkeeping of a built circuit
    come from. *)
From Coq Require Import Reals ZArith List Lia String.
From Verif.Model Require Import Base Edge LCWB.
From Verif.Spec Require Import CircuitSpec.
From Verif.Proofs Require Import LCWBProofs BookProofs.
Import ListNotations.

Definition sits (d : list (edge * list nat)) (el : nat) : Prop :=
  exists p, In p d /\ In el (snd p).

Lemma occs_sits s d : forall k e el w, In (e, el, w) (occs_from s k d) ->
  sits d el /\ inductive_el s el = true.
Proof.
  induction d as [|[e0 els] d IH]; intros k e el w; simpl; [tauto|].
  rewrite in_app_iff, in_map_iff. intros [(el' & [= -> -> ->] & Hel)|H].
  - apply filter_In in Hel as [Hel Hi]. split; auto. exists (e, els); simpl; auto.
  - apply IH in H as [(p & Hp & Hel) Hi]. split; auto. exists p; simpl; auto.
Qed.
Lemma sits_occs s d el : sits d el -> inductive_el s el = true -> forall k,
  exists e w, In (e, el, w) (occs_from s k d).
Proof.
  intros (p & Hp & Hel) Hi. induction d as [|[e0 els] d IH]; intros k; [destruct Hp|].
  destruct Hp as [<-|Hp]; simpl.
  - exists e0, k. apply in_app_iff. left. apply in_map_iff. exists el; split; auto.
    apply filter_In; auto.
  - destruct (IH Hp (if existsb (is_jj s) els then S k else k)) as (e & w & H).
    exists e. eexists. apply in_app_iff. right. exact H.
Qed.

Section Built.
Variables (s : store) (fd : string) (n : Z) (lobj : nat -> lrec) (d : list (edge * list nat)) (c : cst).
Hypothesis H : get_LCWB true s fd n lobj d = Ok c.

Lemma built_ind_sits k : In k (c_keys_ind c) -> sits d (snd (fst k)).
Proof.
  destruct (LCWB_book _ _ _ _ _ _ _ H) as [_ _ _ _ B5 _ _]. rewrite B5. unfold keys_ind.
  rewrite in_map_iff. intros ([b [[e el] w]] & <- & Hin). apply filter_In in Hin as [Hin _].
  apply enum_In, nth_error_In in Hin. simpl. apply (occs_sits s d) in Hin. tauto.
Qed.
Lemma built_jj_sits k : In k (c_keys_jj c) -> sits d (snd (fst (fst k))).
Proof.
  destruct (LCWB_book _ _ _ _ _ _ _ H) as [_ _ _ _ _ B6 _]. rewrite B6. unfold keys_jj.
  rewrite in_map_iff. intros ([b [[e el] w]] & <- & Hin). apply filter_In in Hin as [Hin _].
  apply enum_In, nth_error_In in Hin. simpl. apply (occs_sits s d) in Hin. tauto.
Qed.
Lemma built_loops l : In l (c_loops c) <->
  exists el, sits d el /\ inductive_el s el = true /\ In l (eloops s el).
Proof.
  destruct (LCWB_book _ _ _ _ _ _ _ H) as [_ _ B3 _ _ _ _]. rewrite B3.
  rewrite (firsts_In Nat.eqb Nat.eqb_spec). unfold loops_of. rewrite in_flat_map. split.
  - intros [([[e el] w] & Hin & Hl) _]. exists el. apply occs_sits in Hin. tauto.
  - intros (el & Hs & Hi & Hl). split; [|simpl; tauto].
    destruct (sits_occs s d el Hs Hi 0%nat) as (e & w & Hin). exists (e, el, w). auto.
Qed.
Lemma built_params k : In k (map fst (c_params c)) <->
  tracked s k = true /\
  match k with
  | CEl i => sits d i \/ exists el, sits d el /\ inductive_el s el = true /\ i = ecap s el
  | CLoop l => In l (c_loops c)
  end.
Proof.
  destruct (params_characterised _ _ _ _ _ _ H) as (_ & P & _).
  assert (E : In k (map fst (c_params c)) <-> In k (visits s d) /\ tracked s k = true).
  { rewrite in_map_iff. split.
    - intros ([k' v] & <- & Hin). apply P in Hin. simpl; tauto.
    - intros [H1 H2]. exists (k, cvalue s k). split; auto. apply P. auto. }
  rewrite E, visits_In. destruct k as [i|l].
  - split.
    + intros [(e & els & el & H1 & H2 & H3) H4]. split; auto.
      destruct H3 as [[= ->]|[Hi [[= ->]|(l & _ & [=])]]].
      * left. exists (e, els); simpl; auto.
      * right. exists el. split; [exists (e, els); simpl; auto|auto].
    + intros [H4 [([e els] & Hp & Hel)|(el & ([e els] & Hp & Hel) & Hi & ->)]]; split; auto.
      * exists e, els, i. auto 10.
      * exists e, els, el. auto 10.
  - rewrite built_loops. split.
    + intros [(e & els & el & H1 & H2 & [[=]|[Hi [[=]|(l' & Hl & [= ->])]]]) H4]. split; auto.
      exists el. split; [exists (e, els); simpl; auto|auto].
    + intros [H4 (el & ([e els] & Hp & Hel) & Hi & Hl)]. split; auto.
      exists e, els, el. split; auto. split; auto. right. split; auto. right. eauto.
Qed.
Lemma built_loops_uniq : NoDup (c_loops c).
Proof. exact (proj1 (proj2 (loops_characterised _ _ _ _ _ _ _ H))). Qed.
End Built.

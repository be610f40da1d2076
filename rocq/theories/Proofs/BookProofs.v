(** BookProofs.v -- the lists built by _get_LCWB: row numbers, keys, loops and
    parameters. *)
From Coq Require Import Lia Lra Permutation.
From Verif.Model Require Import Base Elements Edge LCWB.
From Verif.Spec Require Import GraphSpec CircuitSpec.
From Verif.Proofs Require Import EdgeProofs LCWBProofs.
Open Scope list_scope.

(** ** firsts *)
Section Firsts.
Context {A : Type} (eqb : A -> A -> bool) (eqb_spec : forall a b, reflect (a = b) (eqb a b)).

Lemma existsb_eqb_In a l : existsb (eqb a) l = true <-> In a l.
Proof.
  rewrite existsb_exists. split.
  - intros (x & Hx & E). destruct (eqb_spec a x); congruence.
  - intros H; exists a; split; auto. destruct (eqb_spec a a); congruence.
Qed.

Lemma firsts_app seen l1 l2 :
  firsts eqb seen (l1 ++ l2) = firsts eqb seen l1 ++ firsts eqb (seen ++ firsts eqb seen l1) l2.
Proof.
  revert seen; induction l1; intros seen; simpl; [rewrite app_nil_r; auto|].
  destruct (existsb (eqb a) seen); [apply IHl1|].
  simpl. rewrite IHl1. rewrite <- app_assoc; auto.
Qed.

Lemma firsts_In seen l a : In a (firsts eqb seen l) <-> In a l /\ ~ In a seen.
Proof.
  revert seen; induction l as [|b l IH]; intros seen; simpl; [tauto|].
  destruct (existsb (eqb b) seen) eqn:E.
  - apply existsb_eqb_In in E. rewrite IH. split; [tauto|]. intros [[->|H] N]; tauto.
  - assert (~ In b seen) by (rewrite <- existsb_eqb_In; congruence).
    simpl. rewrite IH, in_app_iff. simpl. split.
    + intros [->|[H1 H2]]; tauto.
    + intros [[->|H1] H2]; [tauto|]. destruct (eqb_spec b a); [tauto|]. right; split; [auto|].
      intros [?|[?|[]]]; auto.
Qed.

Lemma firsts_NoDup seen l : NoDup (firsts eqb seen l).
Proof.
  revert seen; induction l as [|b l IH]; intros seen; simpl; [constructor|].
  destruct (existsb (eqb b) seen); [apply IH|]. constructor; [|apply IH].
  rewrite firsts_In, in_app_iff; simpl; tauto.
Qed.
End Firsts.

Lemma comp_eqb_spec a b : reflect (a = b) (comp_eqb a b).
Proof.
  destruct a, b; simpl; try (constructor; congruence);
  destruct (Nat.eqb_spec i i0); constructor; congruence.
Qed.

(** ** Enumerations *)
Lemma enum_snoc {A} (l : list A) a : enum (l ++ [a]) = enum l ++ [(length l, a)].
Proof.
  unfold enum. rewrite app_length; simpl. rewrite Nat.add_comm. simpl Nat.add.
  rewrite seq_S. simpl.
  assert (H : forall (l1 : list nat) (l2 : list A) x y, length l1 = length l2 ->
    combine (l1 ++ [x]) (l2 ++ [y]) = combine l1 l2 ++ [(x, y)]).
  { induction l1; intros [|] x y E; simpl in *; try discriminate; auto. rewrite IHl1; auto. }
  apply H. apply seq_length.
Qed.

Lemma enum_fst {A} (l : list A) : map fst (enum l) = seq 0 (length l).
Proof.
  unfold enum. generalize 0%nat. induction l; intros k; simpl; auto. rewrite IHl; auto.
Qed.
Lemma enum_snd {A} (l : list A) : map snd (enum l) = l.
Proof.
  unfold enum. generalize 0%nat. induction l; intros k; simpl; auto. rewrite IHl; auto.
Qed.
Lemma enum_In {A} (l : list A) b a : In (b, a) (enum l) <-> nth_error l b = Some a.
Proof.
  unfold enum. enough (forall k, In (b, a) (combine (seq k (length l)) l) <->
    (k <= b)%nat /\ nth_error l (b - k) = Some a) as E.
  { rewrite E, Nat.sub_0_r. split; [tauto|]; intros; split; auto; lia. }
  induction l; intros k; simpl.
  - split; [tauto|]. intros [_ H]. destruct (b - k)%nat; discriminate.
  - rewrite IHl. split.
    + intros [[= -> ->]|[H1 H2]].
      * split; [lia|]. rewrite Nat.sub_diag; auto.
      * split; [lia|]. replace (b - k)%nat with (S (b - S k)) by lia. auto.
    + intros [H1 H2]. destruct (Nat.eq_dec k b).
      * subst. rewrite Nat.sub_diag in H2. injection H2 as ->. auto.
      * right; split; [lia|]. replace (b - k)%nat with (S (b - S k)) in H2 by lia. auto.
Qed.

(** ** The loop part *)
Lemma loops_fold optim s w b ls : forall loops lobj ps,
  let '(loops', lobj', ps') := fold_left (loop_from_element optim s w b) ls (loops, lobj, ps) in
  loops' = loops ++ firsts Nat.eqb loops ls /\
  ps' = (if optim then fold_left (fun p c => add_to_parameters s c p) (map CLoop ls) ps else ps) /\
  forall l, lobj' l =
    if existsb (Nat.eqb l) ls then
      let r := if existsb (Nat.eqb l) loops then lobj l else mkL [] [] in
      let k := count_occ Nat.eq_dec ls l in
      mkL (l_indices r ++ repeat b k) (l_kmat r ++ repeat w k)
    else lobj l.
Proof.
  induction ls as [|a ls IH]; intros loops lobj ps.
  - simpl. rewrite app_nil_r. split; [auto|]. split; [destruct optim; auto|auto].
  - cbn [fold_left loop_from_element].
    destruct (add_loop a (loops, lobj)) as [loops1 lobj1] eqn:E.
    unfold add_loop in E.
    set (ps1 := if optim then add_to_parameters s (CLoop a) ps else ps).
    set (lobj2 := fun l' => if Nat.eqb l' a
       then mkL (l_indices (lobj1 a) ++ [b]) (l_kmat (lobj1 a) ++ [w]) else lobj1 l').
    specialize (IH loops1 lobj2 ps1).
    destruct (fold_left _ ls (loops1, lobj2, ps1)) as [[loops' lobj'] ps'].
    destruct IH as (H1 & H2 & H3). split; [|split].
    + rewrite H1. simpl. destruct (existsb (Nat.eqb a) loops); injection E as <- <-; auto.
      rewrite <- app_assoc; auto.
    + rewrite H2. unfold ps1. destruct optim; auto.
    + intros l. rewrite H3. cbn [existsb count_occ].
      unfold lobj2.
      destruct (Nat.eqb_spec l a) as [->|Hne].
      * cbn [orb]. destruct (Nat.eq_dec a a) as [_|]; [|congruence].
        destruct (existsb (Nat.eqb a) loops) eqn:EL; injection E as <- <-.
        -- rewrite EL. destruct (existsb (Nat.eqb a) ls) eqn:EA; simpl.
           ++ rewrite <- !app_assoc; auto.
           ++ assert (Hc : count_occ Nat.eq_dec ls a = 0%nat).
              { apply count_occ_not_In. intros Hin.
                apply (existsb_eqb_In Nat.eqb Nat.eqb_spec) in Hin; congruence. }
              rewrite Hc; auto.
        -- assert (EX : existsb (Nat.eqb a) (loops ++ [a]) = true)
             by (apply (existsb_eqb_In Nat.eqb Nat.eqb_spec); apply in_app_iff; simpl; auto).
           rewrite EX, Nat.eqb_refl.
           destruct (existsb (Nat.eqb a) ls) eqn:EA; simpl; auto.
           assert (Hc : count_occ Nat.eq_dec ls a = 0%nat).
           { apply count_occ_not_In. intros Hin.
             apply (existsb_eqb_In Nat.eqb Nat.eqb_spec) in Hin; congruence. }
           rewrite Hc; auto.
      * destruct (Nat.eq_dec a l) as [|_]; [congruence|]. cbn [orb].
        destruct (existsb (Nat.eqb a) loops) eqn:EL; injection E as <- <-; auto.
        rewrite existsb_app. simpl. destruct (Nat.eqb_spec l a); [congruence|].
        rewrite !orb_false_r. auto.
Qed.

(** ** The invariant over the processed occurrences *)
Definition mention_pos (s : store) (D : list (edge * nat * nat)) (l : nat) : list nat :=
  flat_map (fun bo => repeat (fst bo) (count_occ Nat.eq_dec (eloops s (occ_el (snd bo))) l)) (enum D).
Definition mention_rows (s : store) (n : Z) (D : list (edge * nat * nat)) (l : nat) : list (list Z) :=
  flat_map (fun bo => repeat (wrow n (occ_edge (snd bo)))
     (count_occ Nat.eq_dec (eloops s (occ_el (snd bo))) l)) (enum D).
Definition keys_ind (s : store) (D : list (edge * nat * nat)) : list (edge * nat * nat) :=
  map (fun bo => (occ_edge (snd bo), occ_el (snd bo), fst bo))
      (filter (fun bo => is_ind s (occ_el (snd bo))) (enum D)).
Definition keys_jj (s : store) (D : list (edge * nat * nat)) : list (edge * nat * nat * nat) :=
  map (fun bo => (occ_edge (snd bo), occ_el (snd bo), fst bo, snd (snd bo)))
      (filter (fun bo => is_jj s (occ_el (snd bo))) (enum D)).
Definition loops_of (s : store) (D : list (edge * nat * nat)) : list nat :=
  flat_map (fun o => eloops s (occ_el o)) D.
Definition cedge_of (s : store) (fd : string) (D : list (edge * nat * nat)) : list R :=
  flat_map (fun o => match cap_for_flux_dist (ekind s (occ_el o)) fd
                             (evalue s (ecap s (occ_el o))) with
                     | Some x => [x] | None => [] end) D.

Record book (s : store) (fd : string) (n : Z) (lobj0 : nat -> lrec)
    (D : list (edge * nat * nat)) (c : cst) : Prop := {
  bk_bid : c_bid c = length D;
  bk_kmat : c_kmat c = map (fun o => wrow n (occ_edge o)) D;
  bk_loops : c_loops c = firsts Nat.eqb [] (loops_of s D);
  bk_lobj : forall l, c_lobj c l =
    if existsb (Nat.eqb l) (loops_of s D) then mkL (mention_pos s D l) (mention_rows s n D l)
    else lobj0 l;
  bk_ind : c_keys_ind c = keys_ind s D;
  bk_jj : c_keys_jj c = keys_jj s D;
  bk_cedge : c_cedge c = cedge_of s fd D
}.

Lemma flat_map_snoc {A B} (f : A -> list B) l a : flat_map f (l ++ [a]) = flat_map f l ++ f a.
Proof. rewrite flat_map_app; simpl; rewrite app_nil_r; auto. Qed.

Lemma process_el_book optim s fd n lobj0 e w m D c el :
  w_at_edge n e = Ok w -> book s fd n lobj0 D c ->
  book s fd n lobj0
    (D ++ map (fun el => (e, el, c_wid c)) (filter (inductive_el s) [el]))
    (process_el optim s fd e w m c el).
Proof.
  intros Hw B. unfold process_el. simpl filter.
  destruct (inductive_el s el) eqn:EI; simpl map; [|rewrite app_nil_r; destruct B; split; auto].
  set (ps1 := if optim then _ else c_params c).
  pose proof (loops_fold optim s w (c_bid c) (eloops s el) (c_loops c) (c_lobj c) ps1) as LF.
  destruct (fold_left _ (eloops s el) (c_loops c, c_lobj c, ps1)) as [[loops' lobj'] ps'].
  destruct LF as (L1 & _ & L3).
  destruct B as [B1 B2 B3 B4 B5 B6 B7].
  assert (HL : loops_of s (D ++ [(e, el, c_wid c)]) = loops_of s D ++ eloops s el)
    by (unfold loops_of; rewrite flat_map_snoc; auto).
  split; cbn [c_bid c_kmat c_loops c_lobj c_keys_ind c_keys_jj c_cedge].
  - rewrite app_length, B1; simpl; lia.
  - rewrite map_app, B2; simpl. change (occ_edge (e, el, c_wid c)) with e.
    replace (wrow n e) with w by (unfold wrow; rewrite Hw; auto). auto.
  - rewrite L1, B3, HL, firsts_app; auto.
  - intros l. rewrite L3, HL, existsb_app, B4.
    unfold mention_pos, mention_rows. rewrite enum_snoc, !flat_map_snoc.
    cbn [fst snd]. change (occ_el (e, el, c_wid c)) with el.
    change (occ_edge (e, el, c_wid c)) with e.
    rewrite B3. replace (wrow n e) with w by (unfold wrow; rewrite Hw; auto). rewrite B1.
    assert (HF : existsb (Nat.eqb l) (firsts Nat.eqb [] (loops_of s D))
                 = existsb (Nat.eqb l) (loops_of s D)).
    { apply eq_true_iff_eq. rewrite !(existsb_eqb_In Nat.eqb Nat.eqb_spec).
      rewrite (firsts_In Nat.eqb Nat.eqb_spec). simpl; tauto. }
    rewrite HF.
    destruct (existsb (Nat.eqb l) (loops_of s D)) eqn:EO.
    + cbn [orb]. destruct (existsb (Nat.eqb l) (eloops s el)) eqn:EL; simpl.
      * auto.
      * assert (Hc : count_occ Nat.eq_dec (eloops s el) l = 0%nat).
        { apply count_occ_not_In. intros Hin.
          apply (existsb_eqb_In Nat.eqb Nat.eqb_spec) in Hin; congruence. }
        rewrite Hc; simpl. rewrite !app_nil_r; auto.
    + cbn [orb]. destruct (existsb (Nat.eqb l) (eloops s el)) eqn:EL; simpl; auto.
      assert (Hno : forall {B} (f : nat * (edge * nat * nat) -> B),
        flat_map (fun bo => repeat (f bo) (count_occ Nat.eq_dec (eloops s (occ_el (snd bo))) l)) (enum D)
        = []).
      { intros B f. assert (forall bo, In bo (enum D) ->
          count_occ Nat.eq_dec (eloops s (occ_el (snd bo))) l = 0%nat).
        { intros bo Hbo. apply count_occ_not_In. intros Hin.
          assert (In l (loops_of s D)).
          { unfold loops_of. apply in_flat_map. exists (snd bo). split; auto.
            rewrite <- (enum_snd D). apply in_map; auto. }
          apply (existsb_eqb_In Nat.eqb Nat.eqb_spec) in H; congruence. }
        clear - H. induction (enum D); simpl; auto.
        rewrite H by (left; auto). simpl. apply IHl0. intros; apply H; right; auto. }
      rewrite (Hno nat fst), (Hno (list Z) (fun bo => wrow n (occ_edge (snd bo)))). auto.
  - unfold keys_ind. rewrite enum_snoc, filter_app, map_app, B5, B1. simpl.
    change (occ_el (e, el, c_wid c)) with el. destruct (is_ind s el); simpl; [auto|rewrite app_nil_r; auto].
  - unfold keys_jj. rewrite enum_snoc, filter_app, map_app, B6, B1. simpl.
    change (occ_el (e, el, c_wid c)) with el. destruct (is_jj s el); simpl; [auto|rewrite app_nil_r; auto].
  - unfold cedge_of. rewrite flat_map_snoc, B7. auto.
Qed.

Lemma process_el_wid optim s fd e w m c el : c_wid (process_el optim s fd e w m c el) = c_wid c.
Proof.
  destruct (process_el_frame optim s fd e w m [el] c) as (_ & _ & _ & _ & H). exact H.
Qed.

Lemma process_els_book optim s fd n lobj0 e w m els : forall D c,
  w_at_edge n e = Ok w -> book s fd n lobj0 D c ->
  book s fd n lobj0 (D ++ map (fun el => (e, el, c_wid c)) (filter (inductive_el s) els))
    (fold_left (process_el optim s fd e w m) els c).
Proof.
  induction els as [|el els IH]; intros D c Hw B; [simpl; rewrite app_nil_r; auto|].
  cbn [fold_left]. pose proof (process_el_book optim s fd n lobj0 e w m D c el Hw B) as B1.
  specialize (IH _ _ Hw B1). rewrite process_el_wid in IH.
  rewrite <- app_assoc, <- map_app, <- filter_app in IH. exact IH.
Qed.

Lemma run_edges_book optim s fd n lobj0 d : forall D c c',
  book s fd n lobj0 D c -> run_edges optim s fd n c d = Ok c' ->
  book s fd n lobj0 (D ++ occs_from s (c_wid c) d) c'.
Proof.
  induction d as [|[e els] d IH]; intros D c c' B H.
  - injection H as <-. simpl. rewrite app_nil_r; auto.
  - apply run_edges_cons in H as (c1 & H1 & H2).
    apply process_edge_inv in H1 as (w & m & Hw & Hm & _ & H1). cbv zeta in H1.
    pose proof (process_els_book optim s fd n lobj0 e w m els D c Hw B) as B1.
    destruct (process_el_frame optim s fd e w m els c) as (_ & _ & _ & _ & FD).
    set (c0 := fold_left _ els c) in *.
    assert (B2 : book s fd n lobj0
        (D ++ map (fun el => (e, el, c_wid c)) (filter (inductive_el s) els)) c1).
    { rewrite H1. destruct B1; split; auto. }
    specialize (IH _ _ _ B2 H2). simpl. rewrite <- app_assoc in IH.
    rewrite H1 in IH; simpl in IH. rewrite FD in IH. exact IH.
Qed.

Theorem LCWB_book optim s fd n lobj d c : get_LCWB optim s fd n lobj d = Ok c ->
  book s fd n lobj (occs s d) c.
Proof.
  intros H. apply get_LCWB_run in H as [_ H].
  apply (run_edges_book optim s fd n lobj d []) in H; auto.
  split; auto.
Qed.

(** ** C16 *)
Lemma keys_perm s D : (forall o, In o D -> inductive_el s (occ_el o) = true) ->
  Permutation (map (fun k => snd k) (keys_ind s D) ++ map (fun k => snd (fst k)) (keys_jj s D))
              (seq 0 (length D)).
Proof.
  intros H. unfold keys_ind, keys_jj. rewrite !map_map. simpl. rewrite <- enum_fst.
  assert (H' : forall bo, In bo (enum D) -> inductive_el s (occ_el (snd bo)) = true).
  { intros bo Hbo. apply H. rewrite <- (enum_snd D). apply in_map; auto. }
  clear H. induction (enum D) as [|bo l IH]; simpl; auto.
  pose proof (H' bo (or_introl eq_refl)) as Hk. unfold inductive_el in Hk.
  assert (IH' := IH (fun x h => H' x (or_intror h))).
  unfold is_ind at 1, is_jj at 1. destruct (ekind s (occ_el (snd bo))); [discriminate| |]; simpl.
  - constructor; auto.
  - etransitivity; [symmetry; apply Permutation_middle|]. constructor; auto.
Qed.

Lemma occs_inductive s d o : In o (occs s d) -> inductive_el s (occ_el o) = true.
Proof.
  unfold occs. generalize 0%nat. induction d as [|[e els] d IH]; intros k; simpl; [tauto|].
  rewrite in_app_iff, in_map_iff. intros [(el & <- & Hel)|H]; eauto.
  apply filter_In in Hel. tauto.
Qed.

(** Every inductive element of the dictionary occurs. *)
Lemma occs_map s d : map (fun o => (occ_edge o, occ_el o)) (occs s d) =
  flat_map (fun ee => map (fun el => (fst ee, el)) (filter (inductive_el s) (snd ee))) d.
Proof.
  unfold occs. generalize 0%nat. induction d as [|[e els] d IH]; intros k; simpl; auto.
  rewrite map_app, map_map, IH. auto.
Qed.

(** The W row of an occurrence on an edge with a junction. *)
Lemma occs_from_wid s d : forall k e el wid, In (e, el, wid) (occs_from s k d) -> is_jj s el = true ->
  exists i, wid = (k + i)%nat /\ nth_error (jj_edges s d) i = Some e.
Proof.
  induction d as [|[e0 els] d IH]; intros k e el wid; simpl; [tauto|].
  rewrite in_app_iff, in_map_iff. intros [(el' & [= -> -> ->] & Hel)|H] Hj.
  - apply filter_In in Hel as [Hel _]. exists 0%nat. split; [lia|].
    unfold jj_edges. simpl.
    assert (E : existsb (is_jj s) els = true) by (apply existsb_exists; eauto).
    rewrite E; auto.
  - apply IH in H as (i & Hi & Hn); auto. unfold jj_edges in *. simpl.
    destruct (existsb (is_jj s) els); simpl.
    + exists (S i). split; [lia|auto].
    + exists i; auto.
Qed.

Lemma NoDup_jj_edges s d : NoDup (map fst d) -> NoDup (jj_edges s d).
Proof.
  unfold jj_edges. induction d as [|[e els] d IH]; simpl; intros H; [constructor|].
  apply NoDup_cons_iff in H as [H1 H2].
  destruct (existsb (is_jj s) els); simpl; auto. constructor; auto.
  intros Hin. apply H1. apply in_map_iff in Hin as (x & <- & Hx).
  apply filter_In in Hx as [Hx _]. apply in_map; auto.
Qed.

(** ** C18: parameters *)
Lemma add_params_fold s cs : forall seen,
  fold_left (fun p c => add_to_parameters s c p) cs (map (fun c => (c, cvalue s c)) seen) =
  map (fun c => (c, cvalue s c)) (seen ++ firsts comp_eqb seen (filter (tracked s) cs)).
Proof.
  induction cs as [|c cs IH]; intros seen; simpl; [rewrite app_nil_r; auto|].
  unfold add_to_parameters at 2. fold (tracked s c). destruct (tracked s c); simpl; [|apply IH].
  assert (E : existsb (fun p => comp_eqb c (fst p)) (map (fun c => (c, cvalue s c)) seen)
              = existsb (comp_eqb c) seen).
  { clear. induction seen; simpl; auto. rewrite IHseen; auto. }
  rewrite E. destruct (existsb (comp_eqb c) seen); simpl; [apply IH|].
  replace (map (fun c0 => (c0, cvalue s c0)) seen ++ [(c, cvalue s c)])
    with (map (fun c0 => (c0, cvalue s c0)) (seen ++ [c])) by (rewrite map_app; auto).
  rewrite IH, <- app_assoc. auto.
Qed.

Lemma process_el_params optim s fd e w m c el :
  c_params (process_el optim s fd e w m c el) =
  if optim then fold_left (fun p c => add_to_parameters s c p) (visit_el s el) (c_params c)
  else c_params c.
Proof.
  unfold process_el, visit_el, inductive_el. destruct (ekind s el) eqn:K; cbn [c_params c_pm].
  - destruct optim; auto.
  - set (ps1 := if optim then _ else c_params c).
    pose proof (loops_fold optim s w (c_bid c) (eloops s el) (c_loops c) (c_lobj c) ps1) as LF.
    destruct (fold_left _ (eloops s el) (c_loops c, c_lobj c, ps1)) as [[loops' lobj'] ps'].
    destruct LF as (_ & -> & _). simpl. unfold ps1. destruct optim; auto.
    rewrite fold_left_app. auto.
  - set (ps1 := if optim then _ else c_params c).
    pose proof (loops_fold optim s w (c_bid c) (eloops s el) (c_loops c) (c_lobj c) ps1) as LF.
    destruct (fold_left _ (eloops s el) (c_loops c, c_lobj c, ps1)) as [[loops' lobj'] ps'].
    destruct LF as (_ & -> & _). simpl. unfold ps1. destruct optim; auto.
    rewrite fold_left_app. auto.
Qed.

Lemma process_els_params optim s fd e w m els : forall c,
  c_params (fold_left (process_el optim s fd e w m) els c) =
  if optim then fold_left (fun p c => add_to_parameters s c p) (flat_map (visit_el s) els) (c_params c)
  else c_params c.
Proof.
  induction els as [|el els IH]; intros c; simpl; [destruct optim; auto|].
  rewrite IH, process_el_params. destruct optim; auto. rewrite fold_left_app; auto.
Qed.

Lemma run_edges_params optim s fd n d : forall c c', run_edges optim s fd n c d = Ok c' ->
  c_params c' =
  if optim then fold_left (fun p c => add_to_parameters s c p) (visits s d) (c_params c)
  else c_params c.
Proof.
  induction d as [|[e els] d IH]; intros c c' H.
  - injection H as <-. destruct optim; auto.
  - apply run_edges_cons in H as (c1 & H1 & H2).
    apply process_edge_inv in H1 as (w & m & Hw & Hm & _ & H1). cbv zeta in H1.
    apply IH in H2. rewrite H2, H1. cbn [c_params]. rewrite process_els_params.
    destruct optim; auto. unfold visits; simpl. rewrite fold_left_app; auto.
Qed.

Theorem LCWB_params optim s fd n lobj d c : get_LCWB optim s fd n lobj d = Ok c ->
  c_params c = if optim
    then map (fun k => (k, cvalue s k)) (firsts comp_eqb [] (filter (tracked s) (visits s d)))
    else [].
Proof.
  intros H. apply get_LCWB_run in H as [_ H]. apply run_edges_params in H. rewrite H.
  destruct optim; auto. apply (add_params_fold s (visits s d) []).
Qed.

(** ** Statements used by the property file *)
Lemma nth_error_map_iff {A B} (f : A -> B) l i b :
  nth_error (map f l) i = Some b <-> exists a, nth_error l i = Some a /\ f a = b.
Proof.
  revert i; induction l; intros [|i]; simpl; try (split; [discriminate|intros (? & ? & ?); discriminate]).
  - split; [intros [= <-]; eauto|intros (? & [= <-] & <-); auto].
  - apply IHl.
Qed.

Lemma key_rows optim s fd n lobj d c : get_LCWB optim s fd n lobj d = Ok c ->
  forall b e el, nth_error (ind_occs s d) b = Some (e, el) <->
   (In (e, el, b) (c_keys_ind c) \/ exists w, In (e, el, b, w) (c_keys_jj c)).
Proof.
  intros H b e el. destruct (LCWB_book _ _ _ _ _ _ _ H) as [_ _ _ _ B5 B6 _].
  rewrite B5, B6. unfold ind_occs. rewrite <- occs_map, nth_error_map_iff.
  unfold keys_ind, keys_jj. split.
  - intros (o & Ho & [= He Hel]).
    assert (Hi : inductive_el s el = true).
    { rewrite <- Hel. apply (occs_inductive s d). eapply nth_error_In; eauto. }
    unfold inductive_el in Hi. destruct (ekind s el) eqn:K; [discriminate| |].
    + left. apply in_map_iff. exists (b, o). simpl. subst. split; auto.
      apply filter_In. split; [apply enum_In; auto|]. simpl. unfold is_ind. rewrite K; auto.
    + right. exists (snd o). apply in_map_iff. exists (b, o). simpl. subst. split; auto.
      apply filter_In. split; [apply enum_In; auto|]. simpl. unfold is_jj. rewrite K; auto.
  - intros [H'|(w & H')]; apply in_map_iff in H' as ([b' o] & E & H'); simpl in E;
      apply filter_In in H' as [H' _]; apply enum_In in H'; inversion E; subst; eauto.
Qed.

Lemma jj_key_rows optim s fd n lobj d c : get_LCWB optim s fd n lobj d = Ok c ->
  forall e el b w, In (e, el, b, w) (c_keys_jj c) ->
   is_jj s el = true /\ nth_error (jj_edges s d) w = Some e /\
   nth_error (c_W c) w = Some (wrow n e) /\ nth_error (c_kmat c) b = Some (wrow n e).
Proof.
  intros H e el b w Hin. pose proof H as H0.
  destruct (LCWB_book _ _ _ _ _ _ _ H) as [_ B2 _ _ _ B6 _]. rewrite B6 in Hin.
  unfold keys_jj in Hin. apply in_map_iff in Hin as ([b' o] & [= E1 E2 E3 E4] & Hin); simpl in *.
  apply filter_In in Hin as [Hin Hj]. apply enum_In in Hin. simpl in *.
  destruct o as [[e0 el0] w0]. unfold occ_edge, occ_el in *. simpl in *. subst.
  destruct (occs_from_wid s d 0 e el w) as (i & -> & Hi); [eapply nth_error_In; eauto|auto|].
  simpl. repeat split; auto.
  - apply get_LCWB_run in H0 as [_ H0]. apply run_edges_mats in H0 as (_ & _ & HW & _).
    rewrite HW. simpl. apply nth_error_map_iff. eauto.
  - rewrite B2. apply nth_error_map_iff. exists (e, el, i); auto.
Qed.

Lemma ind_key_rows optim s fd n lobj d c : get_LCWB optim s fd n lobj d = Ok c ->
  forall e el b, In (e, el, b) (c_keys_ind c) ->
   is_ind s el = true /\ nth_error (c_kmat c) b = Some (wrow n e).
Proof.
  intros H e el b Hin.
  destruct (LCWB_book _ _ _ _ _ _ _ H) as [_ B2 _ _ B5 _ _]. rewrite B5 in Hin.
  unfold keys_ind in Hin. apply in_map_iff in Hin as ([b' o] & [= E1 E2 E3] & Hin); simpl in *.
  apply filter_In in Hin as [Hin Hj]. apply enum_In in Hin. simpl in *.
  destruct o as [[e0 el0] w0]. unfold occ_edge, occ_el in *. simpl in *. subst.
  split; auto. rewrite B2. apply nth_error_map_iff. exists (e, el, w0); auto.
Qed.

Lemma key_perm optim s fd n lobj d c : get_LCWB optim s fd n lobj d = Ok c ->
  Permutation (map (fun k => snd k) (c_keys_ind c) ++ map (fun k => snd (fst k)) (c_keys_jj c))
              (seq 0 (length (ind_occs s d))).
Proof.
  intros H. destruct (LCWB_book _ _ _ _ _ _ _ H) as [_ _ _ _ B5 B6 _]. rewrite B5, B6.
  unfold ind_occs. rewrite <- occs_map, map_length. apply keys_perm. apply occs_inductive.
Qed.

Lemma key_wid_inj optim s fd n lobj d c : get_LCWB optim s fd n lobj d = Ok c ->
  NoDup (map fst d) ->
  forall e1 el1 b1 w1 e2 el2 b2 w2,
  In (e1, el1, b1, w1) (c_keys_jj c) -> In (e2, el2, b2, w2) (c_keys_jj c) ->
  (w1 = w2 <-> e1 = e2).
Proof.
  intros H ND e1 el1 b1 w1 e2 el2 b2 w2 H1 H2.
  destruct (jj_key_rows _ _ _ _ _ _ _ H _ _ _ _ H1) as (_ & N1 & _).
  destruct (jj_key_rows _ _ _ _ _ _ _ H _ _ _ _ H2) as (_ & N2 & _).
  split; [intros ->; congruence|]. intros ->.
  assert (ND' := NoDup_jj_edges s d ND). rewrite NoDup_nth_error in ND'.
  apply ND'; [|congruence]. apply nth_error_Some. congruence.
Qed.

Lemma mention_rows_eq s n D l :
  mention_rows s n D l =
  map (fun b => nth b (map (fun o => wrow n (occ_edge o)) D) []) (mention_pos s D l).
Proof.
  unfold mention_rows, mention_pos.
  assert (H : forall L, incl L (enum D) ->
    flat_map (fun bo => repeat (wrow n (occ_edge (snd bo)))
      (count_occ Nat.eq_dec (eloops s (occ_el (snd bo))) l)) L =
    map (fun b => nth b (map (fun o => wrow n (occ_edge o)) D) [])
      (flat_map (fun bo => repeat (fst bo)
      (count_occ Nat.eq_dec (eloops s (occ_el (snd bo))) l)) L)).
  { induction L as [|[b o] L IH]; intros HL; simpl; auto.
    rewrite map_app, <- IH by (intros x Hx; apply HL; right; auto). f_equal.
    assert (Hb : nth_error D b = Some o) by (apply enum_In, HL; left; auto).
    assert (E : nth b (map (fun o => wrow n (occ_edge o)) D) [] = wrow n (occ_edge o)).
    { apply nth_error_nth. apply nth_error_map_iff. eauto. }
    rewrite <- E. generalize (count_occ Nat.eq_dec (eloops s (occ_el o)) l) as k.
    induction k; simpl; auto. f_equal; auto. }
  apply H. apply incl_refl.
Qed.

Lemma loops_characterised optim s fd n lobj d c : get_LCWB optim s fd n lobj d = Ok c ->
  c_loops c = firsts Nat.eqb [] (mentioned s d) /\
  NoDup (c_loops c) /\ (forall l, In l (c_loops c) <-> In l (mentioned s d)) /\
  (forall l, In l (mentioned s d) ->
     l_indices (c_lobj c l) = mentions s d l /\
     l_kmat (c_lobj c l) = map (fun b => nth b (c_kmat c) []) (mentions s d l)) /\
  (forall l, ~ In l (mentioned s d) -> c_lobj c l = lobj l).
Proof.
  intros H. destruct (LCWB_book _ _ _ _ _ _ _ H) as [_ B2 B3 B4 _ _ _].
  fold (mentioned s d) in B3. change (loops_of s (occs s d)) with (mentioned s d) in *.
  rewrite B3. split; [auto|]. split; [apply firsts_NoDup; apply Nat.eqb_spec|]. split; [|split].
  - intros l. rewrite (firsts_In Nat.eqb Nat.eqb_spec). simpl; tauto.
  - intros l Hl. rewrite B4. apply (existsb_eqb_In Nat.eqb Nat.eqb_spec) in Hl. rewrite Hl. simpl.
    split; auto. rewrite B2. apply mention_rows_eq.
  - intros l Hl. rewrite B4. destruct (existsb (Nat.eqb l) (mentioned s d)) eqn:E; auto.
    apply (existsb_eqb_In Nat.eqb Nat.eqb_spec) in E. tauto.
Qed.

Lemma params_characterised s fd n lobj d c : get_LCWB true s fd n lobj d = Ok c ->
  NoDup (map fst (c_params c)) /\
  (forall k v, In (k, v) (c_params c) <-> In k (visits s d) /\ tracked s k = true /\ v = cvalue s k) /\
  map fst (c_params c) = firsts comp_eqb [] (filter (tracked s) (visits s d)).
Proof.
  intros H. apply LCWB_params in H. rewrite H.
  assert (E : map fst (map (fun k => (k, cvalue s k))
     (firsts comp_eqb [] (filter (tracked s) (visits s d)))) =
     firsts comp_eqb [] (filter (tracked s) (visits s d))).
  { rewrite map_map. simpl. apply map_id. }
  split; [rewrite E; apply firsts_NoDup; apply comp_eqb_spec|]. split; [|auto].
  intros k v. rewrite in_map_iff. split.
  - intros (k' & [= -> <-] & Hk). apply (firsts_In comp_eqb comp_eqb_spec) in Hk as [Hk _].
    apply filter_In in Hk. tauto.
  - intros (H1 & H2 & ->). exists k. split; auto. apply (firsts_In comp_eqb comp_eqb_spec).
    split; [apply filter_In; auto|]. simpl; tauto.
Qed.

(** What construction visits: every element, the capacitor and the loops of
    every inductive element. *)
Lemma visits_In s d k : In k (visits s d) <->
  exists e els el, In (e, els) d /\ In el els /\
    (k = CEl el \/ (inductive_el s el = true /\
       (k = CEl (ecap s el) \/ exists l, In l (eloops s el) /\ k = CLoop l))).
Proof.
  unfold visits. rewrite in_flat_map. split.
  - intros ([e els] & Hin & H). simpl in H. apply in_flat_map in H as (el & Hel & H).
    exists e, els, el. repeat split; auto. unfold visit_el, inductive_el in *.
    destruct (ekind s el); simpl in H.
    + destruct H as [<-|[]]; auto.
    + rewrite in_app_iff, in_map_iff in H. simpl in H.
      destruct H as [<-|[(l & <- & Hl)|[<-|[]]]]; eauto 8.
    + rewrite in_app_iff, in_map_iff in H. simpl in H.
      destruct H as [<-|[(l & <- & Hl)|[<-|[]]]]; eauto 8.
  - intros (e & els & el & Hin & Hel & H). exists (e, els). split; auto. simpl.
    apply in_flat_map. exists el. split; auto. unfold visit_el, inductive_el in *.
    destruct (ekind s el); simpl.
    + destruct H as [->|[? _]]; [auto|discriminate].
    + rewrite in_app_iff, in_map_iff; simpl.
      destruct H as [->|[_ [->|(l & Hl & ->)]]]; eauto 8.
    + rewrite in_app_iff, in_map_iff; simpl.
      destruct H as [->|[_ [->|(l & Hl & ->)]]]; eauto 8.
Qed.

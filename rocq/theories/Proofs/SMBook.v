(** SMBook.v -- the bookkeeping of a build does not depend on what the loop
    objects recorded before. *)
From Coq Require Import Lia.
From Verif.Model Require Import Base Elements Edge LCWB.
From Verif.Spec Require Import GraphSpec CircuitSpec.
From Verif.Proofs Require Import EdgeProofs LCWBProofs BookProofs EdgeProofs2.
Open Scope R_scope.
Open Scope list_scope.

(** The same record with other loop objects that agree on the collected loops. *)
Definition with_lobj (c : cst) (lo : nat -> lrec) : cst :=
  mkC (c_loops c) lo (c_keys_ind c) (c_keys_jj c) (c_params c) (c_pm c) (c_bid c) (c_wid c)
      (c_kmat c) (c_cedge c) (c_C c) (c_L c) (c_W c) (c_njwi c).
Definition agree (ls : list nat) (a b : nat -> lrec) : Prop := forall l, In l ls -> a l = b l.

Lemma existsb_In a ls : existsb (Nat.eqb a) ls = true <-> In a ls.
Proof.
  rewrite existsb_exists. split; [intros (x & H & E); apply Nat.eqb_eq in E; subst; auto|].
  intros; exists a; split; auto. apply Nat.eqb_refl.
Qed.

Lemma loops_fold_agree optim s w b ls : forall loops lo lo' ps, agree loops lo lo' ->
  exists loops2 lo2 lo2' ps2,
    fold_left (loop_from_element optim s w b) ls (loops, lo, ps) = (loops2, lo2, ps2) /\
    fold_left (loop_from_element optim s w b) ls (loops, lo', ps) = (loops2, lo2', ps2) /\
    agree loops2 lo2 lo2'.
Proof.
  induction ls as [|a ls IH]; intros loops lo lo' ps H.
  - exists loops, lo, lo', ps. auto.
  - cbn [fold_left loop_from_element]. unfold add_loop.
    destruct (existsb (Nat.eqb a) loops) eqn:E; apply IH; intros l Hl.
    + apply existsb_In in E. destruct (Nat.eqb_spec l a); auto. rewrite (H a); auto.
    + rewrite Nat.eqb_refl. destruct (Nat.eqb_spec l a); auto.
      apply in_app_iff in Hl as [Hl|[Hl|[]]]; auto. congruence.
Qed.

Lemma process_el_agree optim s fd e w m c lo' el : agree (c_loops c) (c_lobj c) lo' ->
  exists lo2', process_el optim s fd e w m (with_lobj c lo') el =
               with_lobj (process_el optim s fd e w m c el) lo2' /\
    agree (c_loops (process_el optim s fd e w m c el)) (c_lobj (process_el optim s fd e w m c el)) lo2'.
Proof.
  destruct c as [a1 a2 a3 a4 a5 a6 a7 a8 a9 a10 a11 a12 a13 a14]. unfold with_lobj, process_el.
  cbn [c_loops c_lobj c_params c_bid c_pm c_keys_ind c_keys_jj c_kmat c_cedge c_wid c_C c_L c_W c_njwi].
  intros H. destruct (inductive_el s el).
  - cbv zeta.
    destruct (loops_fold_agree optim s w a7 (eloops s el) a1 a2 lo'
                (if optim then add_to_parameters s (CEl (ecap s el)) a5 else a5) H)
      as (l2 & lo2 & lo2' & ps2 & E1 & E2 & A).
    rewrite E1, E2. exists lo2'. split; [reflexivity|exact A].
  - exists lo'. split; [reflexivity|exact H].
Qed.

Lemma process_els_agree optim s fd e w m els : forall c lo', agree (c_loops c) (c_lobj c) lo' ->
  exists lo2', fold_left (process_el optim s fd e w m) els (with_lobj c lo') =
               with_lobj (fold_left (process_el optim s fd e w m) els c) lo2' /\
    agree (c_loops (fold_left (process_el optim s fd e w m) els c))
          (c_lobj (fold_left (process_el optim s fd e w m) els c)) lo2'.
Proof.
  induction els as [|el els IH]; intros c lo' H; [exists lo'; auto|]. cbn [fold_left].
  destruct (process_el_agree optim s fd e w m c lo' el H) as (lo2 & E & A). rewrite E. apply IH; auto.
Qed.

Lemma process_edge_agree optim s fd n c lo' ee c1 : agree (c_loops c) (c_lobj c) lo' ->
  process_edge optim s fd n c ee = Ok c1 ->
  exists lo2', process_edge optim s fd n (with_lobj c lo') ee = Ok (with_lobj c1 lo2') /\
    agree (c_loops c1) (c_lobj c1) lo2'.
Proof.
  destruct ee as [e els]. unfold process_edge. intros H.
  destruct (w_at_edge n e) as [w|]; [|discriminate].
  destruct (matrix_rep n e) as [m|]; [|discriminate]. cbn [bind].
  destruct (process_els_agree optim s fd e w m els c lo' H) as (lo2 & E & A). rewrite E.
  destruct (eff_ind s els) as [il|]; [|discriminate]. cbn [bind]. intros [= <-].
  exists lo2. split; [reflexivity|exact A].
Qed.

Lemma run_edges_agree optim s fd n d : forall c lo' c1, agree (c_loops c) (c_lobj c) lo' ->
  run_edges optim s fd n c d = Ok c1 ->
  exists lo2', run_edges optim s fd n (with_lobj c lo') d = Ok (with_lobj c1 lo2') /\
    agree (c_loops c1) (c_lobj c1) lo2'.
Proof.
  induction d as [|ee d IH]; intros c lo' c1 H E.
  - injection E as <-. exists lo'. auto.
  - apply run_edges_cons in E as (c2 & E1 & E2).
    destruct (process_edge_agree _ _ _ _ _ lo' _ _ H E1) as (lo2 & E3 & A).
    destruct (IH c2 lo2 c1 A E2) as (lo3 & E4 & A3). exists lo3. split; auto.
    unfold run_edges. simpl. rewrite E3. exact E4.
Qed.

Lemma get_LCWB_agree optim s fd n lobj lobj' d c : get_LCWB optim s fd n lobj d = Ok c ->
  exists lo', get_LCWB optim s fd n lobj' d = Ok (with_lobj c lo') /\ agree (c_loops c) (c_lobj c) lo'.
Proof.
  intros H. pose proof (get_LCWB_run _ _ _ _ _ _ _ H) as [Hn Hr].
  destruct (run_edges_agree optim s fd n d (cst0 lobj) lobj' c) as (lo & E & A); auto.
  { intros l []. }
  exists lo. split; auto. unfold get_LCWB. destruct (Z.ltb_spec n 0); [lia|]. exact E.
Qed.

(** With fewer nodes than the edges mention the build fails, also for n = 0. *)
Lemma too_small_n0 optim s fd n d : forall c,
  (forall e els, In (e, els) d -> nonneg e /\ fst e <> snd e /\ ~ bad_ind s els) ->
  (exists e els, In (e, els) d /\ (Z.of_nat n < Z.max (fst e) (snd e))%Z) ->
  run_edges optim s fd (Z.of_nat n) c d = Err IndexError.
Proof.
  destruct n as [|n].
  - intros c Hd (e & els & Hin & _). destruct d as [|[e0 els0] d]; [destruct Hin|].
    destruct (Hd e0 els0 (or_introl eq_refl)) as ((H1 & H2) & H3 & _).
    unfold run_edges. simpl. unfold process_edge.
    pose proof (w_at_edge_out 0 e0) as W. simpl in W. rewrite W; [|split; auto|lia]. cbn [bind]. apply fold_edges_err.
  - intros c Hd Hex. apply too_small_n; auto; [lia|].
    intros e els Hin. destruct (Hd e els Hin) as (H1 & _ & H3). auto.
Qed.

From Coq Require Import Lia Lra.
From Verif.Model Require Import Base Units Settings Noise.
From Verif.Spec Require Import UnitSpec UnitHistory.
Open Scope string_scope.
Open Scope R_scope.

(** ** The tables agree with the SI reading *)

Lemma lookup_in {A} (d : list (string * A)) k v : lookup d k = Some v -> In (k, v) d.
Proof.
  induction d as [|[k' v'] d IH]; simpl; [discriminate|].
  destruct (String.eqb_spec k k') as [->|]; intros H.
  - inversion H; auto.
  - right; auto.
Qed.

Lemma lookup_notin {A} (d : list (string * A)) k : lookup d k = None -> forall v, ~ In (k, v) d.
Proof.
  induction d as [|[k' v'] d IH]; simpl; intros H v; [tauto|].
  destruct (String.eqb_spec k k') as [->|E]; [discriminate|].
  intros [Heq|Hin]; [inversion Heq; congruence|]. exact (IH H v Hin).
Qed.

Ltac scale_tac := unfold scale; simpl powerRZ; lra.

Lemma freq_lookup u x : lookup freq_list u = Some x <-> exists k, freq_unit u k /\ x = scale k.
Proof.
  split.
  - intros H. apply lookup_in in H. simpl in H.
    destruct H as [H|[H|[H|[H|[H|[]]]]]]; inversion H; subst;
    [exists 0%Z|exists 3%Z|exists 6%Z|exists 9%Z|exists 12%Z];
    (split; [eexists; split; [constructor|split; [reflexivity|lia]]|scale_tac]).
  - intros (k & (p & Hp & -> & Hk) & ->).
    destruct Hp; try lia; simpl; f_equal; scale_tac.
Qed.

Ltac table_tac :=
  split;
  [ intros H; apply lookup_in in H; simpl in H;
    destruct H as [H|[H|[H|[H|[H|[H|[]]]]]]]; inversion H; subst;
    [exists 0%Z|exists (-3)%Z|exists (-6)%Z|exists (-9)%Z|exists (-12)%Z|exists (-15)%Z];
    (split; [eexists; split; [constructor|split; [reflexivity|lia]]|scale_tac])
  | intros (k & (p & Hp & -> & Hk) & ->);
    destruct Hp; try lia; simpl; f_equal; scale_tac ].

Lemma farad_lookup u x : lookup farad_list u = Some x <-> exists k, farad_unit u k /\ x = scale k.
Proof. table_tac. Qed.
Lemma henry_lookup u x : lookup henry_list u = Some x <-> exists k, henry_unit u k /\ x = scale k.
Proof. table_tac. Qed.
Lemma time_lookup u x : lookup time_list u = Some x <-> exists k, time_unit u k /\ x = scale k.
Proof. table_tac. Qed.

Lemma mem_freq u : mem freq_list u = true <-> exists k, freq_unit u k.
Proof.
  unfold mem. destruct (lookup freq_list u) eqn:E; split; try tauto; intros H.
  - apply freq_lookup in E as (k & Hk & _); eauto.
  - discriminate.
  - destruct H as (k & Hk). rewrite (proj2 (freq_lookup u (scale k))) in E by eauto. discriminate.
Qed.
Lemma mem_farad u : mem farad_list u = true <-> exists k, farad_unit u k.
Proof.
  unfold mem. destruct (lookup farad_list u) eqn:E; split; try tauto; intros H.
  - apply farad_lookup in E as (k & Hk & _); eauto.
  - discriminate.
  - destruct H as (k & Hk). rewrite (proj2 (farad_lookup u (scale k))) in E by eauto. discriminate.
Qed.
Lemma mem_henry u : mem henry_list u = true <-> exists k, henry_unit u k.
Proof.
  unfold mem. destruct (lookup henry_list u) eqn:E; split; try tauto; intros H.
  - apply henry_lookup in E as (k & Hk & _); eauto.
  - discriminate.
  - destruct H as (k & Hk). rewrite (proj2 (henry_lookup u (scale k))) in E by eauto. discriminate.
Qed.

Lemma si_prefix_inj p k1 k2 : si_prefix p k1 -> si_prefix p k2 -> k1 = k2.
Proof. destruct 1; inversion 1; reflexivity. Qed.

Lemma append_inj_l p q b : p ++ b = q ++ b -> p = q.
Proof.
  revert q. induction p as [|c p IH]; intros [|d q] H; simpl in H; auto.
  - exfalso. assert (Hl : String.length b = String.length (String d (q ++ b))) by (rewrite <- H; auto).
    simpl in Hl. assert (G : forall s, String.length (s ++ b) = (String.length s + String.length b)%nat).
    { induction s; simpl; auto. } rewrite G in Hl. lia.
  - exfalso. assert (Hl : String.length b = String.length (String c (p ++ b))) by (rewrite H; auto).
    simpl in Hl. assert (G : forall s, String.length (s ++ b) = (String.length s + String.length b)%nat).
    { induction s; simpl; auto. } rewrite G in Hl. lia.
  - inversion H. f_equal. auto.
Qed.

Lemma is_unit_inj b lo hi u k1 k2 : is_unit b lo hi u k1 -> is_unit b lo hi u k2 -> k1 = k2.
Proof.
  intros (p & Hp & -> & _) (q & Hq & E & _). apply append_inj_l in E. subst.
  eapply si_prefix_inj; eauto.
Qed.

Lemma scale_pos k : 0 < scale k.
Proof. unfold scale. apply powerRZ_lt. lra. Qed.

(** ** C01 *)

Lemma last_valid_snoc {A} (valid : A -> Prop) d l r x :
  last_valid valid d l r ->
  (valid x -> last_valid valid d (l ++ [x]) x) /\
  (~ valid x -> last_valid valid d (l ++ [x]) r).
Proof.
  intros H; split; intros Hx.
  - right. exists l, []. split; [reflexivity|]. split; auto.
  - destruct H as [[HF ->]|(l1 & l2 & -> & Hr & HF)].
    + left. split; auto. apply Forall_app; auto.
    + right. exists l1, (l2 ++ [x])%list. rewrite <- app_assoc. split; [reflexivity|].
      split; auto. apply Forall_app; auto.
Qed.

Lemma unit_run_snoc l c st : unit_run (l ++ [c]) st = fst (unit_step (unit_run l st) c).
Proof. unfold unit_run. rewrite fold_left_app. reflexivity. Qed.

Lemma set_unit_cap_spec u st :
  (valid_cap u -> set_unit_cap u st = (mkU (unit_freq st) u (unit_ind st) (unit_JJ st), Ok tt)) /\
  (~ valid_cap u -> set_unit_cap u st = (st, Err ValueError)).
Proof.
  unfold set_unit_cap, valid_cap. rewrite <- mem_freq, <- mem_farad.
  destruct (mem freq_list u), (mem farad_list u); simpl; split; intuition congruence.
Qed.
Lemma set_unit_ind_spec u st :
  (valid_ind u -> set_unit_ind u st = (mkU (unit_freq st) (unit_cap st) u (unit_JJ st), Ok tt)) /\
  (~ valid_ind u -> set_unit_ind u st = (st, Err ValueError)).
Proof.
  unfold set_unit_ind, valid_ind. rewrite <- mem_freq, <- mem_henry.
  destruct (mem freq_list u), (mem henry_list u); simpl; split; intuition congruence.
Qed.
Lemma set_unit_JJ_spec u st :
  (valid_freq u -> set_unit_JJ u st = (mkU (unit_freq st) (unit_cap st) (unit_ind st) u, Ok tt)) /\
  (~ valid_freq u -> set_unit_JJ u st = (st, Err ValueError)).
Proof.
  unfold set_unit_JJ, valid_freq. rewrite <- mem_freq.
  destruct (mem freq_list u); simpl; split; intuition congruence.
Qed.
Lemma set_unit_freq_spec u st :
  (forall k, freq_unit u k ->
     set_unit_freq u st = (mkU (scale k) (unit_cap st) (unit_ind st) (unit_JJ st), Ok tt)) /\
  (~ valid_freq u -> set_unit_freq u st = (st, Err ValueError)).
Proof.
  unfold set_unit_freq, valid_freq. split.
  - intros k Hk. rewrite (proj2 (freq_lookup u (scale k))) by eauto. reflexivity.
  - intros H. destruct (lookup freq_list u) eqn:E; auto.
    apply freq_lookup in E as (k & Hk & _). exfalso; eauto.
Qed.

Lemma valid_freq_dec u : {valid_freq u} + {~ valid_freq u}.
Proof.
  unfold valid_freq. destruct (mem freq_list u) eqn:E; [left|right]; rewrite <- mem_freq; congruence.
Qed.
Lemma valid_cap_dec u : {valid_cap u} + {~ valid_cap u}.
Proof.
  unfold valid_cap. destruct (mem freq_list u || mem farad_list u) eqn:E; [left|right];
  rewrite <- mem_freq, <- mem_farad; destruct (mem freq_list u), (mem farad_list u); simpl in *;
  intuition congruence.
Qed.
Lemma valid_ind_dec u : {valid_ind u} + {~ valid_ind u}.
Proof.
  unfold valid_ind. destruct (mem freq_list u || mem henry_list u) eqn:E; [left|right];
  rewrite <- mem_freq, <- mem_henry; destruct (mem freq_list u), (mem henry_list u); simpl in *;
  intuition congruence.
Qed.

Lemma flat_map_snoc {A B} (f : A -> list B) l x : flat_map f (l ++ [x]) = (flat_map f l ++ f x)%list.
Proof. rewrite flat_map_app. simpl. rewrite app_nil_r. reflexivity. Qed.

(** The state after any history: each setting is the last valid name passed to
    its own setter (the import-time default if none), whatever else happened. *)
Lemma unit_history calls :
  let st := unit_run calls ustate_init in
  last_valid valid_cap "GHz" (caps calls) (get_unit_cap st) /\
  last_valid valid_ind "GHz" (inds calls) (get_unit_ind st) /\
  last_valid valid_freq "GHz" (jjs calls) (get_unit_JJ st) /\
  exists u k, last_valid valid_freq "GHz" (freqs calls) u /\ freq_unit u k /\ get_unit_freq st = scale k.
Proof.
  induction calls as [|c calls IH] using rev_ind; cbn zeta in *.
  - repeat split; try (left; split; [constructor|reflexivity]).
    exists "GHz", 9%Z. split; [left; split; [constructor|reflexivity]|]. split.
    + exists "G". split; [constructor|]. split; [reflexivity|lia].
    + simpl. scale_tac.
  - rewrite unit_run_snoc. set (st := unit_run calls ustate_init) in *.
    destruct IH as (Hc & Hi & Hj & (uf & k & Hf & Hk & Hs)).
    unfold caps, inds, jjs, freqs in *. rewrite !flat_map_snoc.
    destruct c as [u|u|u|u]; simpl unit_step; rewrite ?app_nil_r.
    + destruct (valid_freq_dec u) as [V|V].
      * pose proof V as (k' & Hk'). rewrite (proj1 (set_unit_freq_spec u st) _ Hk'). simpl.
        repeat (split; [assumption|]). exists u, k'. split; [|auto].
        apply (proj1 (last_valid_snoc _ _ _ _ u Hf)); auto.
      * rewrite (proj2 (set_unit_freq_spec u st) V). simpl.
        repeat (split; [assumption|]). exists uf, k. split; [|auto].
        apply (proj2 (last_valid_snoc _ _ _ _ u Hf)); auto.
    + destruct (valid_cap_dec u) as [V|V].
      * rewrite (proj1 (set_unit_cap_spec u st) V). simpl.
        split; [apply (proj1 (last_valid_snoc _ _ _ _ u Hc)); auto|]. repeat (split; [assumption|]). eauto.
      * rewrite (proj2 (set_unit_cap_spec u st) V). simpl.
        split; [apply (proj2 (last_valid_snoc _ _ _ _ u Hc)); auto|]. repeat (split; [assumption|]). eauto.
    + destruct (valid_ind_dec u) as [V|V].
      * rewrite (proj1 (set_unit_ind_spec u st) V). simpl.
        split; [assumption|]. split; [apply (proj1 (last_valid_snoc _ _ _ _ u Hi)); auto|].
        repeat (split; [assumption|]). eauto.
      * rewrite (proj2 (set_unit_ind_spec u st) V). simpl.
        split; [assumption|]. split; [apply (proj2 (last_valid_snoc _ _ _ _ u Hi)); auto|].
        repeat (split; [assumption|]). eauto.
    + destruct (valid_freq_dec u) as [V|V].
      * rewrite (proj1 (set_unit_JJ_spec u st) V). simpl.
        do 2 (split; [assumption|]). split; [apply (proj1 (last_valid_snoc _ _ _ _ u Hj)); auto|]. eauto.
      * rewrite (proj2 (set_unit_JJ_spec u st) V). simpl.
        do 2 (split; [assumption|]). split; [apply (proj2 (last_valid_snoc _ _ _ _ u Hj)); auto|]. eauto.
Qed.

Lemma valid_GHz : freq_unit "GHz" 9.
Proof. exists "G". split; [constructor|]. split; [reflexivity|lia]. Qed.

Lemma last_valid_valid {A} (valid : A -> Prop) d l r :
  valid d -> last_valid valid d l r -> valid r.
Proof. intros Hd [[_ ->]|(? & ? & _ & Hr & _)]; auto. Qed.

Lemma unit_always_valid calls :
  let st := unit_run calls ustate_init in
  valid_cap (get_unit_cap st) /\ valid_ind (get_unit_ind st) /\ valid_freq (get_unit_JJ st) /\
  exists k, (0 <= k <= 12)%Z /\ get_unit_freq st = scale k.
Proof.
  destruct (unit_history calls) as (Hc & Hi & Hj & (u & k & _ & Hk & Hs)). cbn zeta.
  split; [eapply last_valid_valid; [|exact Hc]; left; eexists; apply valid_GHz|].
  split; [eapply last_valid_valid; [|exact Hi]; left; eexists; apply valid_GHz|].
  split; [eapply last_valid_valid; [|exact Hj]; eexists; apply valid_GHz|].
  exists k. split; auto. destruct Hk as (p & _ & _ & ?). auto.
Qed.

(** ** C02 *)

Lemma lower_idem_ascii c : lower_ascii (lower_ascii c) = lower_ascii c.
Proof. destruct c as [[] [] [] [] [] [] [] []]; reflexivity. Qed.
Lemma lower_idem s : lower (lower s) = lower s.
Proof. induction s; simpl; [reflexivity|]. rewrite lower_idem_ascii, IHs; reflexivity. Qed.

Lemma existsb_engine s : existsb (String.eqb s) SUPPORTED_ENGINES_LOWER = true <-> s = "numpy" \/ s = "pytorch".
Proof.
  change SUPPORTED_ENGINES_LOWER with ["numpy"; "pytorch"]. cbn [existsb].
  destruct (String.eqb_spec s "numpy"), (String.eqb_spec s "pytorch"); simpl; split; intuition congruence.
Qed.

Lemma set_engine_spec s st :
  (lower s = "numpy" \/ lower s = "pytorch" -> set_engine s st = (lower s, Ok tt)) /\
  (~ (lower s = "numpy" \/ lower s = "pytorch") -> set_engine s st = (st, Err ValueError)).
Proof.
  unfold set_engine. cbn zeta. rewrite <- existsb_engine.
  destruct (existsb _ _); split; intuition congruence.
Qed.

Lemma eng_run_snoc l c st : eng_run (l ++ [c]) st = fst (eng_step (eng_run l st) c).
Proof. unfold eng_run. rewrite fold_left_app. reflexivity. Qed.

Lemma eng_history calls :
  last_valid (fun s => s = "numpy" \/ s = "pytorch") "numpy" (engines calls)
    (eng_run calls eng_init).
Proof.
  induction calls as [|c calls IH] using rev_ind.
  - left; split; [constructor|reflexivity].
  - rewrite eng_run_snoc. unfold engines in *. rewrite map_app. simpl.
    set (st := eng_run calls eng_init) in *.
    destruct c as [s|[]]; simpl eng_step.
    + destruct (existsb (String.eqb (lower s)) SUPPORTED_ENGINES_LOWER) eqn:E.
      * pose proof (proj1 (existsb_engine _) E) as V. rewrite (proj1 (set_engine_spec s st) V). simpl.
        apply (proj1 (last_valid_snoc _ _ _ _ _ IH)). auto.
      * assert (V : ~ (lower s = "numpy" \/ lower s = "pytorch")) by (rewrite <- existsb_engine; congruence).
        rewrite (proj2 (set_engine_spec s st) V). simpl. apply (proj2 (last_valid_snoc _ _ _ _ _ IH)). auto.
    + apply (proj1 (last_valid_snoc _ _ _ _ _ IH)). auto.
    + apply (proj1 (last_valid_snoc _ _ _ _ _ IH)). auto.
Qed.

Lemma eng_reachable calls :
  let st := eng_run calls eng_init in
  (get_engine st = "numpy" \/ get_engine st = "pytorch") /\
  (get_optim_mode st = true <-> get_engine st = "pytorch") /\
  (raise_optim_error_if_needed st = Err ModeError <-> get_engine st = "numpy") /\
  (raise_optim_error_if_needed st = Ok tt <-> get_engine st = "pytorch").
Proof.
  cbn zeta. pose proof (eng_history calls) as H.
  apply last_valid_valid in H; [|auto]. set (st := eng_run calls eng_init) in *. clearbody st.
  destruct H as [->| ->]; vm_compute; intuition congruence.
Qed.

(** ** C03 *)

Lemma env_setters s :
  (forall x, env_step s (CallTemp x) = (mkEnv x (omega_low s) (omega_high s) (t_exp s), Ok tt)) /\
  (forall v u k, freq_unit u k ->
     env_step s (CallLow v u) = (mkEnv (T s) (2 * PI * (v * scale k)) (omega_high s) (t_exp s), Ok tt)) /\
  (forall v u k, freq_unit u k ->
     env_step s (CallHigh v u) = (mkEnv (T s) (omega_low s) (2 * PI * (v * scale k)) (t_exp s), Ok tt)) /\
  (forall v u k, time_unit u k ->
     env_step s (CallTexp v u) = (mkEnv (T s) (omega_low s) (omega_high s) (v * scale k), Ok tt)) /\
  (forall v u, (forall k, ~ freq_unit u k) ->
     env_step s (CallLow v u) = (s, Err KeyError) /\ env_step s (CallHigh v u) = (s, Err KeyError)) /\
  (forall v u, (forall k, ~ time_unit u k) -> env_step s (CallTexp v u) = (s, Err KeyError)).
Proof.
  repeat split; intros; simpl; unfold set_low_freq, set_high_freq, set_t_exp, getitem.
  - rewrite (proj2 (freq_lookup u (scale k))) by eauto. f_equal; f_equal; ring.
  - rewrite (proj2 (freq_lookup u (scale k))) by eauto. f_equal; f_equal; ring.
  - rewrite (proj2 (time_lookup u (scale k))) by eauto. reflexivity.
  - destruct (lookup freq_list u) eqn:E; auto. apply freq_lookup in E as (k & Hk & _). exfalso; eapply H; eauto.
  - destruct (lookup freq_list u) eqn:E; auto. apply freq_lookup in E as (k & Hk & _). exfalso; eapply H; eauto.
  - destruct (lookup time_list u) eqn:E; auto. apply time_lookup in E as (k & Hk & _). exfalso; eapply H; eauto.
Qed.

Lemma env_reset calls s :
  env_step (env_run calls s) CallReset =
    (mkEnv (15 / 1000) (2 * PI) (2 * PI * (3 * 10 ^ 9)) (1 / 10 ^ 5), Ok tt) /\
  env_init = mkEnv (15 / 1000) (2 * PI) (2 * PI * (3 * 10 ^ 9)) (1 / 10 ^ 5).
Proof.
  split.
  - simpl. unfold reset_to_default, seq, set_temp, set_low_freq, set_high_freq, set_t_exp. simpl.
    f_equal. f_equal; try lra; ring_simplify; try (field_simplify; lra); lra.
  - unfold env_init. f_equal; try lra.
Qed.

(** All four entries after any history: each is determined by the last call
    that addresses it. *)
Lemma env_run_app a b s : env_run (a ++ b) s = env_run b (env_run a s).
Proof. unfold env_run. apply fold_left_app. Qed.

(** C01, C02, C03: process-wide settings. *)
From Coq Require Import Lia Lra.
From Verif.Model Require Import Base Units Settings Noise.
From Verif.Spec Require Import UnitSpec UnitHistory.
From Verif.Proofs Require Import UnitsProofs.
Open Scope string_scope.
Open Scope R_scope.

(** C01: one call -- a valid name changes exactly its own setting, any other
    name raises ValueError and changes nothing. *)
Theorem C01_set_unit_effect : forall u st,
  ((valid_cap u -> set_unit_cap u st = (mkU (unit_freq st) u (unit_ind st) (unit_JJ st), Ok tt)) /\
   (~ valid_cap u -> set_unit_cap u st = (st, Err ValueError))) /\
  ((valid_ind u -> set_unit_ind u st = (mkU (unit_freq st) (unit_cap st) u (unit_JJ st), Ok tt)) /\
   (~ valid_ind u -> set_unit_ind u st = (st, Err ValueError))) /\
  ((valid_freq u -> set_unit_JJ u st = (mkU (unit_freq st) (unit_cap st) (unit_ind st) u, Ok tt)) /\
   (~ valid_freq u -> set_unit_JJ u st = (st, Err ValueError))) /\
  ((forall k, freq_unit u k ->
      set_unit_freq u st = (mkU (scale k) (unit_cap st) (unit_ind st) (unit_JJ st), Ok tt)) /\
   (~ valid_freq u -> set_unit_freq u st = (st, Err ValueError))).
Proof.
  exact (fun u st => conj (set_unit_cap_spec u st) (conj (set_unit_ind_spec u st)
          (conj (set_unit_JJ_spec u st) (set_unit_freq_spec u st)))).
Qed.
Print Assumptions C01_set_unit_effect.

(** C01: after any history each getter returns the last valid name given to its
    own setter, the frequency unit being the scale of that name. *)
Theorem C01_unit_history : forall calls,
  let st := unit_run calls ustate_init in
  last_valid valid_cap "GHz" (caps calls) (get_unit_cap st) /\
  last_valid valid_ind "GHz" (inds calls) (get_unit_ind st) /\
  last_valid valid_freq "GHz" (jjs calls) (get_unit_JJ st) /\
  exists u k, last_valid valid_freq "GHz" (freqs calls) u /\ freq_unit u k /\ get_unit_freq st = scale k.
Proof. exact unit_history. Qed.
Print Assumptions C01_unit_history.

(** C01: hence every reachable setting is valid. *)
Theorem C01_units_always_valid : forall calls,
  let st := unit_run calls ustate_init in
  valid_cap (get_unit_cap st) /\ valid_ind (get_unit_ind st) /\ valid_freq (get_unit_JJ st) /\
  exists k, (0 <= k <= 12)%Z /\ get_unit_freq st = scale k.
Proof. exact unit_always_valid. Qed.
Print Assumptions C01_units_always_valid.

Example C01_case :
  get_unit_cap (unit_run [CallCap "fF"; CallCap "fH"; CallJJ "fF"; CallInd "nH"] ustate_init) = "fF" /\
  get_unit_JJ (unit_run [CallCap "fF"; CallCap "fH"; CallJJ "fF"; CallInd "nH"] ustate_init) = "GHz" /\
  farad_unit "fF" (-15) /\ ~ valid_cap "fH".
Proof.
  split; [reflexivity|]. split; [reflexivity|]. split.
  - exists "f". split; [constructor|]. split; [reflexivity|lia].
  - unfold valid_cap. rewrite <- mem_freq, <- mem_farad. vm_compute. intuition congruence.
Qed.

(** C02 *)
Theorem C02_set_engine_effect : forall s st,
  (lower s = "numpy" \/ lower s = "pytorch" -> set_engine s st = (lower s, Ok tt)) /\
  (~ (lower s = "numpy" \/ lower s = "pytorch") -> set_engine s st = (st, Err ValueError)).
Proof. exact set_engine_spec. Qed.
Print Assumptions C02_set_engine_effect.

Theorem C02_engine_history : forall calls,
  last_valid (fun s => s = "numpy" \/ s = "pytorch") "numpy" (engines calls)
    (eng_run calls eng_init).
Proof. exact eng_history. Qed.
Print Assumptions C02_engine_history.

Theorem C02_engine_reachable : forall calls,
  let st := eng_run calls eng_init in
  (get_engine st = "numpy" \/ get_engine st = "pytorch") /\
  (get_optim_mode st = true <-> get_engine st = "pytorch") /\
  (raise_optim_error_if_needed st = Err ModeError <-> get_engine st = "numpy") /\
  (raise_optim_error_if_needed st = Ok tt <-> get_engine st = "pytorch").
Proof. exact eng_reachable. Qed.
Print Assumptions C02_engine_reachable.

Example C02_case :
  get_engine (eng_run [CallEngine "PYTORCH"; CallEngine "jax"] eng_init) = "pytorch" /\
  get_engine (eng_run [CallOptim true; CallEngine "NumPy"; CallEngine ""] eng_init) = "numpy".
Proof. split; reflexivity. Qed.

(** C03: every noise setter changes exactly its own entry; bad units raise and
    change nothing. *)
Theorem C03_env_setters : forall s,
  (forall x, env_step s (CallTemp x) = (mkEnv x (omega_low s) (omega_high s) (t_exp s), Ok tt)) /\
  (forall v u k, freq_unit u k ->
     env_step s (CallLow v u) = (mkEnv (T s) (2 * PI * (v * scale k)) (omega_high s) (t_exp s), Ok tt)) /\
  (forall v u k, freq_unit u k ->
     env_step s (CallHigh v u) = (mkEnv (T s) (omega_low s) (2 * PI * (v * scale k)) (t_exp s), Ok tt)) /\
  (forall v u k, time_unit u k ->
     env_step s (CallTexp v u) = (mkEnv (T s) (omega_low s) (omega_high s) (v * scale k), Ok tt)) /\
  (forall v u, (forall k, ~ freq_unit u k) ->
     env_step s (CallLow v u) = (s, Err KeyError) /\ env_step s (CallHigh v u) = (s, Err KeyError)) /\
  (forall v u, (forall k, ~ time_unit u k) -> env_step s (CallTexp v u) = (s, Err KeyError)).
Proof. exact env_setters. Qed.
Print Assumptions C03_env_setters.

(** C03: from any history, reset restores the import-time values: 15 mK,
    2 pi 1 Hz, 2 pi 3 GHz, 10 us. *)
Theorem C03_reset : forall calls s,
  env_step (env_run calls s) CallReset =
    (mkEnv (15 / 1000) (2 * PI) (2 * PI * (3 * 10 ^ 9)) (1 / 10 ^ 5), Ok tt) /\
  env_init = mkEnv (15 / 1000) (2 * PI) (2 * PI * (3 * 10 ^ 9)) (1 / 10 ^ 5).
Proof. exact env_reset. Qed.
Print Assumptions C03_reset.

Example C03_case : exists s, s <> env_init /\ fst (env_step s CallReset) = env_init.
Proof.
  exists (env_run [CallTemp 1; CallTexp 5 "ms"; CallLow 1 "eV"] env_init). split.
  - intros H. apply (f_equal T) in H. simpl in H. lra.
  - rewrite (proj1 (env_reset [CallTemp 1; CallTexp 5 "ms"; CallLow 1 "eV"] env_init)).
    symmetry. apply (proj2 (env_reset [] env_init)).
Qed.

(** Noise.v -- model of SQcircuit/noise.py. *)
From Verif.Model Require Import Base Units.
Open Scope string_scope.
Open Scope R_scope.

(** noise.py 10-15: the ENV dictionary. *)
Record env : Type := mkEnv { T : R; omega_low : R; omega_high : R; t_exp : R }.

Definition env_init : env := mkEnv 0.015 (2 * PI) (2 * PI * 3 * 1e9) 10e-6.

(** noise.py 18-30 *)
Definition set_temp (x : R) (s : env) : env * res unit :=
  (mkEnv x (omega_low s) (omega_high s) (t_exp s), Ok tt).

(** noise.py 33-48: the table lookup raises KeyError before the store. *)
Definition set_low_freq (v : R) (u : string) (s : env) : env * res unit :=
  match getitem freq_list (Some u) with
  | Err e => (s, Err e)
  | Ok f => (mkEnv (T s) (2 * PI * v * f) (omega_high s) (t_exp s), Ok tt)
  end.

(** noise.py 51-66 *)
Definition set_high_freq (v : R) (u : string) (s : env) : env * res unit :=
  match getitem freq_list (Some u) with
  | Err e => (s, Err e)
  | Ok f => (mkEnv (T s) (omega_low s) (2 * PI * v * f) (t_exp s), Ok tt)
  end.

(** noise.py 69-84 *)
Definition set_t_exp (v : R) (u : string) (s : env) : env * res unit :=
  match getitem time_list (Some u) with
  | Err e => (s, Err e)
  | Ok f => (mkEnv (T s) (omega_low s) (omega_high s) (v * f), Ok tt)
  end.

(** [a; b] in Python: [b] only runs when [a] returned. *)
Definition seq (a b : env -> env * res unit) (s : env) : env * res unit :=
  let (s', r) := a s in match r with Ok _ => b s' | Err e => (s', Err e) end.

(** noise.py 87-96 *)
Definition reset_to_default (s : env) : env * res unit :=
  seq (set_temp 0.015) (seq (set_low_freq 1 "Hz")
    (seq (set_high_freq 3 "GHz") (set_t_exp 10 "us"))) s.

Inductive env_call : Type :=
| CallTemp (x : R) | CallLow (v : R) (u : string) | CallHigh (v : R) (u : string)
| CallTexp (v : R) (u : string) | CallReset.

Definition env_step (s : env) (c : env_call) : env * res unit :=
  match c with
  | CallTemp x => set_temp x s
  | CallLow v u => set_low_freq v u s
  | CallHigh v u => set_high_freq v u s
  | CallTexp v u => set_t_exp v u s
  | CallReset => reset_to_default s
  end.

Definition env_run (calls : list env_call) (s : env) : env :=
  fold_left (fun s c => fst (env_step s c)) calls s.

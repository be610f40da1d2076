(** Settings.v -- model of SQcircuit/settings.py and of the engine test in
    SQcircuit/exceptions.py. *)
From Verif.Model Require Import Base.
From Coq Require Import Ascii.
Open Scope string_scope.

(** [str.lower()] on ASCII letters.  Simplification: bytes outside A-Z are kept,
    Python also folds non-ASCII letters (no such letter folds into the letters
    of an engine name). *)
Definition lower_ascii (c : ascii) : ascii :=
  let n := nat_of_ascii c in
  if Nat.leb 65 n && Nat.leb n 90 then ascii_of_nat (n + 32) else c.

Fixpoint lower (s : string) : string :=
  match s with
  | EmptyString => EmptyString
  | String c s' => String (lower_ascii c) (lower s')
  end.

(** settings.py 13-15 *)
Definition SUPPORTED_ENGINES : list string := ["NumPy"; "PyTorch"].
Definition SUPPORTED_ENGINES_LOWER : list string := map lower SUPPORTED_ENGINES.

(** settings.py 11: [_ENG = 'numpy'].  The whole state is that global. *)
Definition eng_init : string := "numpy".

(** settings.py 17-41 *)
Definition set_engine (eng : string) (st : string) : string * res unit :=
  let eng := lower eng in
  if existsb (String.eqb eng) SUPPORTED_ENGINES_LOWER then (eng, Ok tt)
  else (st, Err ValueError).

(** settings.py 43-50 *)
Definition get_engine (st : string) : string := lower st.

(** settings.py 53-69 *)
Definition set_optim_mode (s : bool) (st : string) : string * res unit :=
  set_engine (if s then "PyTorch" else "NumPy") st.

(** settings.py 72-82 *)
Definition get_optim_mode (st : string) : bool := String.eqb (get_engine st) "pytorch".

(** exceptions.py 18-20 *)
Definition raise_optim_error_if_needed (st : string) : res unit :=
  if get_optim_mode st then Ok tt else Err ModeError.

Inductive eng_call : Set := CallEngine (s : string) | CallOptim (b : bool).

Definition eng_step (st : string) (c : eng_call) : string * res unit :=
  match c with
  | CallEngine s => set_engine s st
  | CallOptim b => set_optim_mode b st
  end.

Definition eng_run (calls : list eng_call) (st : string) : string :=
  fold_left (fun s c => fst (eng_step s c)) calls st.

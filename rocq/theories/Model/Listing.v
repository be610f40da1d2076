(** Listing.v -- model of the text printed by description(): the listing of modes,
    parameters and loops below the Hamiltonian (texts.py 49-154, circuit.py
    1258-1297).

    How sympy prints an equation and an expression is an argument.  Displaying the
    text (texts.py 22-37, 150) is left out. *)
From Coq Require Import Reals ZArith String.
From Verif.Model Require Import Base Units Edge Elements LCWB Rounding HamConst Texts.
From mathcomp Require Import all_ssreflect all_algebra.
From Verif.Numerics Require Import RStruct Bridge.
From Verif.Model Require Import Transform Op Ham CircuitSM Symbolic.

Set Implicit Arguments.
Unset Strict Implicit.
Unset Printing Implicit Defensive.
Import GRing.Theory.
Local Open Scope ring_scope.

(** Symbols that stand for numbers (symbolic.py 62-93); subscripts start from 1. *)
Inductive sym := SOmega (i : nat) | SZp (i : nat) | SNg (i : nat) | SEC (i j : nat)
  | SEL (i : nat) | SEJ (i : nat) | SFlux (i : nat).
(** An equation: phi_i = zp_i (a_i + ad_i), symbol / 2 pi = number, symbol = number. *)
Inductive eqn := EqPhi (i : nat) | EqOver2Pi (q : sym) (r : R) | EqIs (q : sym) (r : R).

(** [float(f'{x:.{d}e}')]: d digits after the first one that is not 0; ties to
    even, as in Python. *)
Definition sci (d : nat) (x : R) : R :=
  let s := powerRZ 10 (Z.of_nat d - Int_part (Rdiv (ln (Rabs x)) (ln 10))) in
  if x == 0 then 0 else Rdiv (IZR (round_even (Rmult x s))) s.

(** texts.py 88-109: kind and equations of mode i, counted from 0. *)
Definition mode_eqns (D : dvars) (i : nat) : string * seq eqn :=
  if (i < dv_har D)%N then
    ("harmonic"%string,
     [:: EqPhi i.+1; EqOver2Pi (SOmega i.+1) (sci 5 (np_round 5 (dv_omega D i))); EqIs (SZp i.+1) (sci 2 (dv_zp D i))])
  else ("charge"%string, [:: EqIs (SNg i.+1) (np_round 3 (nth 0 (dv_ng D) (i - dv_har D)))]).

(** texts.py 112-129 *)
Definition param_eqns (D : dvars) : seq eqn :=
  flatten [seq [seq EqIs (SEC i.+1 j.+1) (np_round 3 (dv_EC D i j)) | j <- iota i (dv_n D - i)]
          | i <- iota (dv_har D) (dv_n D - dv_har D)] ++
  [seq EqIs (SEL i.+1) (np_round 3 (nth 0 (dv_EL D) i)) | i <- iota 0 (size (dv_EL D)) & nth false (dv_has D) i] ++
  [seq EqIs (SEJ i.+1) (np_round 3 (nth 0 (dv_EJ D) i)) | i <- iota 0 (size (dv_EJ D))].

(** texts.py 136-139 *)
Definition loop_eqns (D : dvars) : seq eqn :=
  [seq EqOver2Pi (SFlux i.+1) (np_round 2 (nth 0 (dv_loops D) i)) | i <- iota 0 (size (dv_loops D))].

(** All equations in the order in which they are printed. *)
Definition all_eqns (D : dvars) : seq eqn :=
  flatten [seq (mode_eqns D i).2 | i <- iota 0 (dv_n D)] ++ param_eqns D ++ loop_eqns D.

(** texts.py 49-69: [Ok true] for LaTeX. *)
Definition text_type (tp : string) : res bool :=
  if String.eqb tp "ltx" then Ok true else if String.eqb tp "txt" then Ok false else Err ValueError.

Section Text.
Variables (ltx : bool) (pr_eq : eqn -> string) (pr_H : expr -> string).
Local Open Scope string_scope.
(** texts.py 51, 71-81 *)
Definition rule : string := rep 60 "-" ++ nl.
Definition gap : string := if ltx then rep 11 "~" else rep 7 " ".
Definition plain (t : string) : string := if ltx then "\text{" ++ t ++ "}" else t.
(** texts.py 84-86 *)
Definition ham_txt (e : expr) : string := pr_H e ++ nl.
(** texts.py 88-109 *)
Definition mode_txt (D : dvars) : string :=
  String.concat "" [seq plain ("mode " ++ decimal i.+1 ++ ":") ++ gap ++ plain (mode_eqns D i).1 ++ gap ++
                        String.concat gap [seq pr_eq q | q <- (mode_eqns D i).2] ++ nl | i <- iota 0 (dv_n D)].
(** texts.py 130-134 *)
Definition param_txt (D : dvars) : string :=
  plain "parameters:" ++ gap ++ String.concat gap [seq pr_eq q | q <- param_eqns D] ++ nl.
(** texts.py 136-144 *)
Definition loop_txt (D : dvars) : string :=
  plain "loops:" ++ gap ++ String.concat gap [seq pr_eq q | q <- loop_eqns D].
(** texts.py 146-154 *)
Definition whole_txt (D : dvars) (e : expr) : string :=
  ham_txt e ++ rule ++ mode_txt D ++ rule ++ param_txt D ++ loop_txt D.
End Text.

(** circuit.py 1258-1297.  [notebook]: what is_notebook() returns; the printers
    depend on the type. *)
Definition description (pr_eq : bool -> eqn -> string) (pr_H : bool -> expr -> string) (notebook : bool)
    (tp : option string) (u : ustate) (s : store) (x : circ) : res string :=
  (do ltx <- text_type (match tp with None => if notebook then "ltx" else "txt" | Some t => t end)%string;
   do De <- printed u s x;
   Ok (whole_txt ltx (pr_eq ltx) (pr_H ltx) De.1 De.2))%res.

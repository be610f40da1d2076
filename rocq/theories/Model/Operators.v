(** Operators.v -- access to stored operators: charge_op (circuit.py 1831-1875),
    _get_w_id (1877-1897) and op (1899-1936).

    [qobj_to_tensor] (functions.py 386-411) keeps size and entries.  In the PyTorch
    engine [charge_op] in the eigenbasis is modelled after a diag that returned,
    when [_evecs] is a tensor. *)
From Coq Require Import Reals ZArith String.
From Verif.Model Require Import Base Units Elements Edge LCWB HamConst.
From mathcomp Require Import all_ssreflect all_algebra.
From mathcomp Require Import complex.
From Verif.Numerics Require Import RStruct Bridge.
From Verif.Model Require Import Transform Op Ham Diag CircuitSM Partial System.

Set Implicit Arguments.
Unset Strict Implicit.
Unset Printing Implicit Defensive.
Import GRing.Theory.
Local Open Scope ring_scope.
Local Open Scope complex_scope.

(** circuit.py 1892-1897 *)
Fixpoint find_w (ks : seq (edge * nat * nat * nat)) (el b : nat) : option nat :=
  match ks with
  | [::] => None
  | (_, o_el, o_b, w) :: ks' => if (o_el == el) && (o_b == b) then Some w else find_w ks' el b
  end.
Definition get_w_id (x : circ) (el b : nat) : option nat := find_w (c_keys_jj (x_c x)) el b.

(** circuit.py 1919-1936.  [kb], [kel]: the entries of [keywords].  In the PyTorch
    engine an unknown row of B is noticed when there is a loop, an unknown junction
    when the list is indexed with [None]. *)
Definition op_get (optim : bool) (s : store) (x : circ) (typ : string) (kb kel : option nat) : res op :=
  if ~~ String.eqb typ "sin_half" then Err ValueError
  else match kb with
  | None => Err KeyError
  | Some b => match kel with
    | None => Err KeyError
    | Some el =>
        if ~~ optim then
          if M_half (x_mem x) el b is Some A then Ok A else Err KeyError
        else
          let loops := [seq lvalue s l | l <- c_loops (x_c x)] in
          if (0 < size loops)%N && (size (c_keys_ind (x_c x)) + size (c_keys_jj (x_c x)) <= b)%N
          then Err IndexError
          else match get_w_id x el b with
          | None => Err TypeError
          | Some w =>
              if (size (M_root (x_mem x)) <= w)%N then Err IndexError
              else Ok (jj_sin (oscale (expi (halfR (ext_flux loops (x_B x) b))) (nth (ozero 0) (M_root (x_mem x)) w)))
          end
    end
  end.

(** circuit.py 1848-1875; [original] is the default. *)
Definition charge_op (x : circ) (mode : Z) (basis : string) : res op :=
  if size (x_m x) == 0%N then Err CircuitStateError
  else if String.eqb basis "original" then py_nth (ozero 0) (M_Q (x_mem x)) (mode - 1)
  else if String.eqb basis "eig" then charge_op_eig x mode
  else Err ValueError.

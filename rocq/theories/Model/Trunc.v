(** Trunc.v -- model of the truncation bookkeeping of a circuit: set_trunc_nums
    (circuit.py 1340-1379, the assignments to self.m and self.ms), trunc_nums
    (485-496), truncate_circuit (2051-2088) and _tensor_to_modes (2166-2201).

    Python ints are Z.  [charge i] is [self._is_charge_mode(i)] (865-880), i.e.
    [self.omega[i] == 0].  Float divisions of ints followed by [int] are exact
    quotients here (the numbers involved are far below 2^53). *)
From Coq Require Import Lra Lia.
From Verif.Model Require Import Base.
Open Scope list_scope.
Open Scope Z_scope.

(** A Python argument that should be a list of ints. *)
Inductive pyarg : Set := PList (l : list Z) | PNotList.

(** circuit.py 1354-1374: the new [self.m]. *)
Definition mode_dims (n : nat) (charge : nat -> bool) (nums : list Z) : list Z :=
  map (fun i => if charge i then 2 * nth i nums 0 - 1 else nth i nums 0) (seq 0 n).

Definition set_trunc_dims (n : nat) (charge : nat -> bool) (nums : pyarg) : res (list Z) :=
  match nums with
  | PNotList => Err ValueError
  | PList l => if negb (Nat.eqb (length l) n) then Err ValueError else Ok (mode_dims n charge l)
  end.

(** circuit.py 1376-1377: [filter(lambda x: x != 1, self.m)] *)
Definition squeezed (m : list Z) : list Z := filter (fun x => negb (x =? 1)) m.

(** circuit.py 485-496; [self.m[i]] raises IndexError when m is shorter. *)
Definition trunc_nums (n : nat) (charge : nat -> bool) (m : list Z) : res (list Z) :=
  fold_left (fun acc i =>
      do l <- acc;
      do x <- py_get m (Z.of_nat i);
      Ok (l ++ [if charge i then Z.quot (x + 1) 2 else x]))%res (seq 0 n) (Ok []).

(** circuit.py 2070-2088.  [K] is [None] for a non-int.  [K ** (1 / n)] is the
    real power; [1 / 0] raises ZeroDivisionError. *)
Definition trunc_average (K : Z) (n : nat) : R := Rpower (IZR K) (1 / INR n).
Definition truncate_circuit (K : option Z) (n : nat) (charge : nat -> bool) : res (list Z) :=
  match K with
  | None => Err ValueError
  | Some K =>
      if K <? 1 then Err ValueError
      else if Nat.eqb n 0 then Err ZeroDivisionError
      else
        let x := trunc_average K n in
        let cut := (1 / 2 * (x + 1))%R in
        Ok (map (fun i => if charge i then Int_part cut else Int_part x) (seq 0 n))
  end.

(** circuit.py 2183-2190: the partial products. *)
Definition mP_list (n : nat) (m : list Z) : res (list Z) :=
  fold_left (fun acc i =>
      do mP <- acc;
      if Nat.eqb i 0 then do x <- py_get m (-1); Ok (mP ++ [x])
      else do h <- py_get mP 0; do x <- py_get m (-1 - Z.of_nat i); Ok ((h * x) :: mP))%res
    (seq 0 (n - 1)) (Ok []).

(** circuit.py 2192-2199; [int(a / b)] truncates, [/ 0] raises. *)
Definition digit_step (n : nat) (mP : list Z) (acc : res (list Z * Z)) (i : nat) : res (list Z * Z) :=
  (do p <- acc;
   let (ind, idx) := p in
   if Nat.eqb i (n - 1) then Ok (ind ++ [idx], idx)
   else
     do d <- py_get mP (Z.of_nat i);
     if d =? 0 then Err ZeroDivisionError
     else Ok (ind ++ [Z.quot idx d], idx mod d))%res.
Definition tensor_to_modes (n : nat) (m : list Z) (idx : Z) : res (list Z) :=
  (do mP <- mP_list n m;
   do p <- fold_left (digit_step n mP) (seq 0 n) (Ok ([], idx));
   Ok (fst p))%res.

(** Conv.v -- model of Circuit.check_convergence (circuit.py 2090-2118).

    An eigenvector is the list of its complex amplitudes as (re, im) pairs;
    [threshold] is compared exactly. *)
From Verif.Model Require Import Base.
Open Scope list_scope.
Open Scope Z_scope.

Definition amp : Type := (R * R)%type.
(** [np.abs(x)**2] *)
Definition sqabs (a : amp) : R := (fst a * fst a + snd a * snd a)%R.

(** End of [slice(-t)] on an axis with [a] entries (Python slice semantics). *)
Definition slice_stop (t a : Z) : Z :=
  if -t <? 0 then Z.max 0 (a - t) else Z.min (-t) a.

(** [sum_{0 <= x < k} f x] *)
Fixpoint sumn (k : nat) (f : Z -> R) : R :=
  match k with O => 0%R | S k' => (sumn k' f + f (Z.of_nat k'))%R end.

(** [np.prod(m)] *)
Definition size_of (m : list Z) : Z := fold_right Z.mul 1 m.

(** [np.sum] over the array reshaped to [m] in C order (first axis most
    significant), every axis cut by [slice(-t)]. *)
Fixpoint box_sum (t : Z) (m : list Z) (off : Z) (f : Z -> R) : R :=
  match m with
  | [] => f off
  | a :: m' => sumn (Z.to_nat (slice_stop t a)) (fun x => box_sum t m' (off + x * size_of m') f)
  end.

Definition weight_at (v : list amp) (k : Z) : R := sqabs (nth (Z.to_nat k) v (0, 0)%R).

(** circuit.py 2108-2118; [neig] is [len(self._efreqs)].  [reshape] raises
    ValueError when the sizes do not match. *)
Definition check_convergence (neig : nat) (evecs : list (list amp)) (m : list Z)
    (idx t : Z) (threshold : R) : res (bool * R) :=
  if Nat.eqb neig 0 || Nat.eqb (length evecs) 0 then Err CircuitStateError
  else
    (do v <- py_get evecs idx;
     if negb (Z.of_nat (length v) =? size_of m) then Err ValueError
     else
       let eps := (1 - box_sum t m 0 (weight_at v))%R in
       Ok (if Rlt_dec eps threshold then true else false, eps))%res.

(** FluxDist.v -- model of the external-flux distribution: the second half of
    Circuit._get_LCWB (circuit.py 802-831), Loop.get_g (elements.py 683-691),
    remove_zero_columns and remove_dependent_columns (functions.py 309-336).

    Arrays are index functions with explicit sizes; inversion is mathcomp's
    [invmx] guarded by invertibility (a singular or non-square argument makes
    numpy raise LinAlgError, a subclass of ValueError, which the caller turns
    into ValueError).  The singular values are an argument [sv]: what numpy's SVD
    returns.  Numbers are exact. *)
From Coq Require Import Reals ZArith.
From Verif.Model Require Import Base Elements Edge LCWB Rounding.
From mathcomp Require Import all_ssreflect all_algebra.
From Verif.Numerics Require Import RStruct Bridge.

Set Implicit Arguments.
Unset Strict Implicit.
Unset Printing Implicit Defensive.
Import GRing.Theory.
Local Open Scope ring_scope.

(** What [np.linalg.svd] returns as singular values. *)
Definition svd_fun := forall m n, 'M[R]_(m, n) -> seq R.

(** functions.py 309-318: indices of the columns with a non-zero entry. *)
Definition nzcols (p n : nat) (K : nat -> nat -> R) : seq nat :=
  [seq j <- iota 0 n | ~~ [forall i : 'I_p, K i j == 0]].

(** [np.where(np.abs(s) > tol)[0]] *)
Definition where_big (s : seq R) : seq nat :=
  [seq k <- iota 0 (size s) | Rltb tol (Rabs (nth 0 s k))].

(** functions.py 321-336: the indices of the columns that are kept. *)
Definition kept_columns (sv : svd_fun) (p n : nat) (K : nat -> nat -> R) : seq nat :=
  let nz := nzcols p n K in
  [seq nth 0%N nz k | k <- where_big (sv _ _ (toM p (size nz) (fun i k => K i (nth 0%N nz k))))].

(** A list of integer rows as an index function. *)
Definition rows (k : seq (seq Z)) (i j : nat) : R := IZR (nth Z0 (nth [::] k i) j).

(** elements.py 683-691: [get_g], for a loop matrix with [p] rows and [n]
    columns. *)
Definition get_g_mat (p : nat) (K : nat -> nat -> R) (sel : seq nat) : 'M[R]_p :=
  \matrix_(i < p, j < p)
    if (i : nat) == 0%N then (if (j : nat) == 0%N then 1 else 0) else K j (nth 0%N sel i.-1).

Definition get_g (sv : svd_fun) (n : nat) (kl : seq (seq Z)) : res (nat -> R) :=
  let p := size kl in
  let K := rows kl in
  let sel := kept_columns sv p n K in
  if p == 0%N then Err IndexError
  else if (size sel).+1 != p then Err ValueError
  else
    let M := get_g_mat p K sel in
    if M \in unitmx
    then Ok (ofV (invmx M *m \col_(i < p) (if (i : nat) == 0%N then 1 else 0 : R))^T)
    else Err ValueError.

(** [g = zeros((1, b_id)); g[0, indices] = vals]: repeated indices keep the last
    value. *)
Definition scatter (idx : seq nat) (vals : nat -> R) : nat -> R :=
  foldl (fun f ki => fun j => if j == ki.2 then vals ki.1 else f j)
        (fun _ => 0) (zip (iota 0 (size idx)) idx).

(** The [for loop in self.loops] part, circuit.py 809-812: the rows appended to
    x_mat. *)
Fixpoint g_rows (sv : svd_fun) (n : nat) (lobj : nat -> lrec) (loops : seq nat)
    : res (seq (nat -> R)) :=
  match loops with
  | [::] => Ok [::]
  | l :: ls =>
      match get_g sv n (l_kmat (lobj l)) with
      | Err e => Err e
      | Ok g => match g_rows sv n lobj ls with
                | Err e => Err e
                | Ok gs => Ok (scatter (l_indices (lobj l)) g :: gs)
                end
      end
  end.

(** circuit.py 807 and 812: x_mat, [sel] being the kept columns. *)
Definition x_mat (N : nat) (K : nat -> nat -> R) (cs : seq R) (sel : seq nat)
    (gs : seq (nat -> R)) : 'M[R]_N :=
  \matrix_(i < N, j < N)
    if (i < size sel)%N then K j (nth 0%N sel i) * nth 0 cs j
    else nth (fun _ => 0) gs (i - size sel) j.

(** circuit.py 818-821: i_mat. *)
Definition i_mat (N nl : nat) : 'M[R]_(N, nl) :=
  \matrix_(i < N, j < nl) if (i : nat) == (N - nl + j)%N then 1 else 0.

(** circuit.py 802-831 before rounding.  [None]: no loops, B stays an empty
    array. *)
Definition flux_dist (sv : svd_fun) (n : nat) (c : cst)
    : res (option 'M[R]_(c_bid c, size (c_loops c))) :=
  let N := c_bid c in
  let K := rows (c_kmat c) in
  let sel := kept_columns sv N n K in
  let nl := size (c_loops c) in
  match g_rows sv n (c_lobj c) (c_loops c) with
  | Err e => Err e
  | Ok gs =>
      if nl == 0%N then Ok None
      else if ~~ (nl <= N)%N || ((size sel + nl)%N != N) then Err ValueError
      else
        let X := x_mat N K (c_cedge c) sel gs in
        if X \in unitmx then Ok (Some (invmx X *m i_mat N nl)) else Err ValueError
  end.

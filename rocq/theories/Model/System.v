(** System.v -- model of SQcircuit/systems.py (NumPy engine).

    A circuit is referred to by a number and [circs] gives its current state;
    [Circuit] defines no [__eq__], so [==], [in] and [index] compare identities.
    Sums of operators are not checked for equal dimensions here: SystemDims.v adds the
    check, which matters for a sub-circuit that is diagonalised again with another
    number of eigenvalues after the [System] was made (stale [trunc_nums]). *)
From Coq Require Import Reals ZArith String.
From Verif.Model Require Import Base Units Elements Edge LCWB HamConst.
From mathcomp Require Import all_ssreflect all_algebra.
From mathcomp Require Import complex.
From Verif.Numerics Require Import RStruct Bridge.
From Verif.Model Require Import Transform Op Ham Diag CircuitSM Partial.

Set Implicit Arguments.
Unset Strict Implicit.
Unset Printing Implicit Defensive.
Import GRing.Theory.
Local Open Scope ring_scope.
Local Open Scope complex_scope.

(** systems.py 22-53.  An attribute is a node or an edge (a tuple). *)
Inductive attr := ANode (z : Z) | AEdge (a b : Z).
Record couple := mkCp { cp_c1 : nat; cp_a1 : attr; cp_c2 : nat; cp_a2 : attr; cp_el : nat }.

(** functions.py 218-222, [scipy.linalg.block_diag]; every block with its size. *)
Fixpoint block_diag (l : seq (nat * arr)) : arr :=
  match l with
  | [::] => fun _ _ => 0
  | (n, A) :: l' => fun i j =>
      if (i < n)%N && (j < n)%N then A i j
      else if (n <= i)%N && (n <= j)%N then block_diag l' (i - n)%N (j - n)%N else 0
  end.

(** circuit.py 1831-1875 with [basis='eig']: V^dagger Q V, the columns of V being
    the eigenvectors.  [np.concatenate] of an empty list raises ValueError. *)
Definition charge_op_eig (x : circ) (mode : Z) : res op :=
  if size (x_m x) == 0%N then Err CircuitStateError
  else match py_nth (ozero 0) (M_Q (x_mem x)) (mode - 1) with
       | Err e => Err e
       | Ok Q => let vs := e_vecs (x_eig x) in
                 if size vs == 0%N then Err ValueError
                 else Ok (Op (size vs) (fun a b => inner (nth (fun=> 0) vs a) Q (nth (fun=> 0) vs b)))
       end.

(** systems.py 67-81 *)
Record sys := mkSys { s_cps : seq couple; s_ids : seq nat; s_N : nat; s_tr : seq nat }.
Definition s_sub (S : sys) : nat := size (s_ids S).

(** systems.py 83-96 *)
Definition add_new (l : seq nat) (c : nat) : seq nat := if c \in l then l else rcons l c.
Definition all_circuits (cps : seq couple) : seq nat :=
  foldl (fun l c => foldl add_new l [:: cp_c1 c; cp_c2 c]) [::] cps.

(** The four lines [C[i, i] += v] ... of systems.py 181-184. *)
Definition add_at (v : R) (i j : nat) (A : arr) : arr :=
  fun p q => if (p == i) && (q == j) then A p q + v else A p q.
Definition add_cap (v : R) (i j : nat) (A : arr) : arr :=
  add_at (- v) j i (add_at (- v) i j (add_at v j j (add_at v i i A))).

Section Sys.
Variable circs : nat -> circ.
Let n_of (c : nat) : nat := x_n (circs c).
Let n0_of (c : nat) : nat := t_n0 (x_st (circs c)).

(** systems.py 98-107; the property [efreqs] raises when a circuit has not been
    diagonalised. *)
Fixpoint num_eigs (u : ustate) (ids : seq nat) : res (seq nat) :=
  match ids with
  | [::] => Ok [::]
  | c :: r => match efreqs u (x_eig (circs c)) with
              | Err e => Err e
              | Ok f => match num_eigs u r with Ok l => Ok (size f :: l) | Err e => Err e end
              end
  end.

Definition system (u : ustate) (cps : seq couple) : res sys :=
  let ids := all_circuits cps in
  match num_eigs u ids with
  | Err e => Err e
  | Ok tr => Ok (mkSys cps ids (sumn [seq n_of c | c <- ids]) tr)
  end.

(** systems.py 109-127: the loop with its [break]. *)
Fixpoint offset (ids : seq nat) (cr : nat) : nat :=
  match ids with
  | [::] => 0%N
  | c :: r => if c == cr then 0%N else (n_of c + offset r cr)%N
  end.
Definition node_idx (S : sys) (cr : nat) (i : Z) : Z :=
  Z.sub (Z.add (Z.of_nat (offset (s_ids S) cr)) i) (Zpos xH).

(** systems.py 129-158.  Only called with [i] from a range, so [i >= N] when a
    node is found. *)
Fixpoint sub_loop (all rest : seq nat) (N i : nat) : Z * nat :=
  match rest with
  | [::] => (Z0, 0%N)
  | c :: r => if (i < N + n_of c)%N then (Z.of_nat (i - N).+1, index c all)
              else sub_loop all r (N + n_of c)%N i
  end.
Definition sub_idx (S : sys) (i : nat) : Z * nat := sub_loop (s_ids S) (s_ids S) 0 i.

(** systems.py 160-167 *)
Definition bare_blocks (S : sys) : seq (nat * arr) := [seq (n0_of c, x_C (circs c)) | c <- s_ids S].
Definition s_dim (S : sys) : nat := sumn [seq n0_of c | c <- s_ids S].
Definition bare_cap (S : sys) : arr := block_diag (bare_blocks S).

(** systems.py 169-187.  [N + attr - 1] on a tuple raises TypeError; numpy
    indices count from the end when negative. *)
Definition attr_idx (S : sys) (cr : nat) (a : attr) : res Z :=
  match a with ANode z => Ok (node_idx S cr z) | AEdge _ _ => Err TypeError end.
Definition add_couple (s : store) (S : sys) (A : res arr) (cp : couple) : res arr :=
  match A with
  | Err e => Err e
  | Ok A =>
      match ekind s (cp_el cp) with
      | KCap =>
          match attr_idx S (cp_c1 cp) (cp_a1 cp), attr_idx S (cp_c2 cp) (cp_a2 cp) with
          | Ok i, Ok j =>
              match np_row (s_dim S) i, np_row (s_dim S) j with
              | Ok i, Ok j => Ok (add_cap (evalue s (cp_el cp)) i j A)
              | Err e, _ | _, Err e => Err e
              end
          | Err e, _ | _, Err e => Err e
          end
      | _ => Ok A
      end
  end.
Definition cap_matrix (s : store) (S : sys) : res arr :=
  foldl (add_couple s S) (Ok (bare_cap S)) (s_cps S).

(** systems.py 189-211 *)
Definition op_in_sys (S : sys) (A : op) (k : nat) : op :=
  otensor [seq if i == k then A else oeye (nth 0%N (s_tr S) i) | i <- iota 0 (s_sub S)].

(** systems.py 213-252 *)
Definition op_times_op (S : sys) (A : op) (k : nat) (B : op) (l : nat) : op :=
  if k == l then op_in_sys S (omul A B) k
  else otensor [seq if i == k then A else if i == l then B else oeye (nth 0%N (s_tr S) i)
               | i <- iota 0 (s_sub S)].

(** systems.py 254-273 *)
Definition node_charge (S : sys) (i : nat) : res op :=
  charge_op_eig (circs (nth 0%N (s_ids S) (sub_idx S i).2)) (sub_idx S i).1.
Definition QQ_op (S : sys) (m n : nat) : res op :=
  match node_charge S m, node_charge S n with
  | Ok Qm, Ok Qn => Ok (op_times_op S Qm (sub_idx S m).2 Qn (sub_idx S n).2)
  | Err e, _ | _, Err e => Err e
  end.

(** systems.py 275-294 *)
Definition quad_term (S : sys) (A : arr) (i : nat) (acc : res (option op)) (j : nat) : res (option op) :=
  if i == j then racc (fun j => rscale (halfR (A i i)) (QQ_op S i j)) acc j
  else if (i < j)%N then racc (fun j => rscale (A i j) (QQ_op S i j)) acc j
  else acc.
Definition quadratic_Q (S : sys) (A : arr) : res (option op) :=
  foldl (fun acc i => foldl (quad_term S A i) acc (iota 0 (s_N S))) (Ok None) (iota 0 (s_N S)).

(** systems.py 296-307 *)
Definition local_term (u : ustate) (S : sys) (i : nat) : res op :=
  match efreqs u (x_eig (circs (nth 0%N (s_ids S) i))) with
  | Err e => Err e
  | Ok f => Ok (op_in_sys S (odiag (size f) (fun k => (nth 0 f k)%:C)) i)
  end.
Definition H_local (u : ustate) (S : sys) : res (option op) :=
  foldl (racc (local_term u S)) (Ok None) (iota 0 (s_sub S)).

(** systems.py 309-320 *)
Definition R_blocks (S : sys) : seq (nat * arr) := [seq (n0_of c, t_R (x_st (circs c))) | c <- s_ids S].
Definition int_coef (s : store) (S : sys) : res arr :=
  let d := s_dim S in
  match cap_matrix s S with
  | Err e => Err e
  | Ok Cf =>
      match inv d Cf, inv d (bare_cap S) with
      | Ok a, Ok b =>
          let Rm := block_diag (R_blocks S) in
          Ok (mmul d (mmul d (tr Rm) (fun i j => a i j - b i j)) Rm)
      | Err e, _ | _, Err e => Err e
      end
  end.
Definition oscale_opt (c : C) (a : option op) : option op :=
  if a is Some A then Some (oscale c A) else None.
Definition H_int (s : store) (u : ustate) (S : sys) : res (option op) :=
  match int_coef s S with
  | Err e => Err e
  | Ok A => match quadratic_Q S A with
            | Err e => Err e
            | Ok q => Ok (oscale_opt (in_unit u 1)%:C q)
            end
  end.

(** systems.py 322-327 *)
Definition s_hamiltonian (s : store) (u : ustate) (S : sys) : res (option op) :=
  match H_local u S with
  | Err e => Err e
  | Ok a => match H_int s u S with Err e => Err e | Ok b => Ok (acc_acc a b) end
  end.
End Sys.

(** Partial.v -- gradients of the Hamiltonian, of the eigenfrequencies and of the
    eigenvectors (circuit.py 2649-2921) in the NumPy engine, and the second
    derivatives of torch_extensions.py 286-350, 386-490, 664-694 and 834-893.

    All operators are read from the memory, as the code does.  Inductances are
    not 0.  [None] in [option op] is the Python int 0. *)
From Coq Require Import Reals ZArith String.
From Verif.Model Require Import Base Units Edge Elements LCWB HamConst PartialConst.
From mathcomp Require Import all_ssreflect all_algebra.
From mathcomp Require Import complex.
From Verif.Numerics Require Import RStruct Bridge.
From Verif.Model Require Import Transform Op Ham Diag CircuitSM.

Set Implicit Arguments.
Unset Strict Implicit.
Unset Printing Implicit Defensive.
Import GRing.Theory.
Local Open Scope ring_scope.
Local Open Scope complex_scope.

(** functions.py 298-306: <v|A|w> *)
Definition inner (v : cvec) (A : op) (w : cvec) : C :=
  \sum_(i < dim A) (v i)^* * \sum_(j < dim A) ent A i j * w j.

(** numpy's [l[z]] on a list. *)
Definition py_nth (T : Type) (x0 : T) (l : seq T) (z : Z) : res T :=
  match np_row (size l) z with Ok i => Ok (nth x0 l i) | Err e => Err e end.

(** A running sum whose terms may raise. *)
Definition racc (K : Type) (f : K -> res op) (a : res (option op)) (k : K) : res (option op) :=
  match a with
  | Err e => Err e
  | Ok A => match f k with Ok X => Ok (acc_add A X) | Err e => Err e end
  end.

(** [self._memory_ops[name][(el, b_id)]] *)
Definition fetch (f : nat -> nat -> option op) (el b : nat) : res op :=
  match f el b with Some A => Ok A | None => Err KeyError end.
Definition rscale (c : R) (r : res op) : res op :=
  match r with Ok A => Ok (oscale c%:C A) | Err e => Err e end.

(** circuit.py 2649-2672, the products read from memory. *)
Definition quad_Q (x : circ) (A : arr) : res (option op) :=
  foldl (fun acc i => foldl (racc (fun j =>
      match nth None [seq Some o | o <- nth [::] (M_QQ (x_mem x)) i] j with
      | Some X => Ok (oscale (if j == 0%N then halfR (A i (i + j)%N) else A i (i + j)%N)%:C X)
      | None => Err IndexError
      end)) acc (iota 0 (x_n x - i))) (Ok None) (iota 0 (x_n x)).

(** circuit.py 2674-2702; [len(self.omega != 0)] is the number of modes. *)
Definition quad_phi (x : circ) (A : arr) : res (option op) :=
  let P := M_phi (x_mem x) in
  if (size P < x_n x)%N then Err IndexError
  else Ok (foldl (fun acc i => foldl (fun acc j =>
      if i == j then acc_add acc (oscale (halfR (A i i))%:C (omul (nth (ozero 0) P i) (nth (ozero 0) P i)))
      else if (i < j)%N then acc_add acc (oscale (A i j)%:C (omul (nth (ozero 0) P i) (nth (ozero 0) P j)))
      else acc)
      acc (iota 0 (x_n x))) None (iota 0 (x_n x))).

(** circuit.py 2736: -R^T C^-1 dC C^-1 R *)
Definition cap_grad (x : circ) (P : arr) : res arr :=
  let n0 := t_n0 (x_st x) in
  match inv n0 (x_C x) with
  | Err e => Err e
  | Ok ci => Ok (fun i j => - mmul n0 (mmul n0 (mmul n0 (mmul n0 (tr (t_R (x_st x))) ci) P) ci)
                                   (t_R (x_st x)) i j)
  end.
(** circuit.py 2741: -S^T dL S *)
Definition ind_grad (x : circ) (P : arr) : arr :=
  let n0 := t_n0 (x_st x) in
  fun i j => - mmul n0 (mmul n0 (tr (t_S (x_st x))) P) (t_S (x_st x)) i j.

(** circuit.py 2704-2775.  A component without an entry in [partial_mats] gives
    the int 0, and numpy's matmul with a number raises ValueError. *)
Definition loop_index (x : circ) (l : nat) : res nat :=
  if l \in c_loops (x_c x) then Ok (index l (c_loops (x_c x))) else Err ValueError.
Definition loop_values (s : store) (x : circ) : seq R := [seq lvalue s l | l <- c_loops (x_c x)].

Definition partial_H (s : store) (x : circ) (c : LCWB.comp) (bsel : option nat)
    : res (option op) :=
  let M := x_mem x in
  match c with
  | CEl el =>
      match ekind s el with
      | KCap =>
          match inv (t_n0 (x_st x)) (x_C x), c_pm (x_c x) el with
          | Err e, _ => Err e
          | Ok _, None => Err ValueError
          | Ok _, Some P => match cap_grad x P with Err e => Err e | Ok A => quad_Q x A end
          end
      | KInd =>
          match c_pm (x_c x) el with
          | None => Err ValueError
          | Some P =>
              foldl (racc (fun k : edge * nat * nat =>
                       let '(_, el', b) := k in
                       rscale (- d_ind_coef (evalue s el) (ext_flux (loop_values s x) (x_B x) b))
                              (fetch (M_ind M) el b)))
                    (quad_phi x (ind_grad x P))
                    [seq k <- c_keys_ind (x_c x) | k.1.2 == el]
          end
      | KJJ =>
          foldl (racc (fun k : edge * nat * nat * nat =>
                   let '(_, _, b, _) := k in rscale (- 1) (fetch (M_cos M) el b)))
                (Ok None)
                [seq k <- c_keys_jj (x_c x) | (k.1.1.2 == el) &&
                   (if bsel is Some b' then b' == k.1.2 else true)]
      end
  | CLoop l =>
      match loop_index x l with
      | Err e => Err e
      | Ok j =>
          foldl (racc (fun k : edge * nat * nat * nat =>
                   let '(_, el, b, _) := k in rscale (x_B x b j * evalue s el) (fetch (M_sin M) el b)))
            (foldl (racc (fun k : edge * nat * nat =>
                   let '(_, el, b) := k in
                   rscale (loop_coef (x_B x b j) (evalue s el)) (fetch (M_ind M) el b)))
               (Ok None) (c_keys_ind (x_c x)))
            (c_keys_jj (x_c x))
      end
  end.

(** <v|A|w> where the int 0 as operator raises TypeError. *)
Definition inner0 (v : cvec) (A : option op) (w : cvec) : res C :=
  match A with Some A => Ok (inner v A w) | None => Err TypeError end.
Definition evec (x : circ) (z : Z) : res cvec := py_nth (fun=> 0) (e_vecs (x_eig x)) z.
Definition efreq (x : circ) (z : Z) : res R := py_nth 0 (e_freqs (x_eig x)) z.

(** circuit.py 2777-2826 *)
Definition get_partial_omega (s : store) (x : circ) (c : LCWB.comp) (m : Z) (subtract_ground : bool)
    (bsel : option nat) : res R :=
  if size (e_vecs (x_eig x)) == 0%N then Err CircuitStateError
  else
    (do v <- evec x m;
     do P <- partial_H s x c bsel;
     do wm <- inner0 v P v;
     if subtract_ground then
       do v0 <- evec x 0; do w0 <- inner0 v0 P v0; Ok (complex.Re (wm - w0))
     else Ok (complex.Re wm))%res.

(** circuit.py 2828-2873 *)
Definition partial_omega_mn (s : store) (x : circ) (c : LCWB.comp) (m n : Z) (bsel : option nat) : res R :=
  (do v <- evec x m;
   do w <- evec x n;
   do P <- partial_H s x c bsel;
   do wm <- inner0 v P v;
   do wn <- inner0 w P w;
   Ok (complex.Re (wm - wn)))%res.

(** circuit.py 2875-2921.  The loop skips the index [n == m]; where the
    denominator is 0 numpy gives infinite entries, the model an error. *)
Definition vec_term (x : circ) (P : option op) (v : cvec) (w : R) (eps : R) (m : Z)
    (acc : res cvec) (n : nat) : res cvec :=
  if Z.eqb (Z.of_nat n) m then acc
  else
    (do a <- acc;
     let vn := nth (fun=> 0) (e_vecs (x_eig x)) n in
     do wn <- efreq x (Z.of_nat n);
     do p <- inner0 vn P v;
     if w - wn + eps == 0 then Err ZeroDivisionError
     else Ok (fun i => a i + p * vn i / (w - wn + eps)%:C))%res.
Definition get_partial_vec (s : store) (x : circ) (c : LCWB.comp) (m : Z) (eps : R) : res cvec :=
  if size (e_vecs (x_eig x)) == 0%N then Err CircuitStateError
  else
    (do v <- evec x m;
     do P <- partial_H s x c None;
     do w <- efreq x m;
     foldl (vec_term x P v w eps m) (Ok (fun=> 0)) (iota 0 (size (e_vecs (x_eig x)))))%res.

(** torch_extensions.py 422-451, and circuit.py 2494-2499 *)
Definition partial_H_ng (x : circ) (i : nat) : res (option op) :=
  if ~~ is_charge (x_st x) i then Err ValueError
  else foldl (racc (fun j =>
         match nth None [seq Some o | o <- M_Q (x_mem x)] j with
         | Some X => Ok (oscale (ng_coef (t_cI (x_st x) i j))%:C X)
         | None => Err IndexError
         end)) (Ok None) (iota 0 (x_n x)).

(** torch_extensions.py 454-490 *)
Definition oneg (A : option op) : option op := omap (oscale (- 1)) A.
Definition partial_squared_H_ng (s : store) (x : circ) (i : nat) (c : LCWB.comp) : res (option op) :=
  if ~~ is_charge (x_st x) i then Err ValueError
  else match c with
  | CEl el =>
      match ekind s el with
      | KCap =>
          let n0 := t_n0 (x_st x) in
          match inv n0 (x_C x), c_pm (x_c x) el with
          | Err e, _ => Err e
          | Ok _, None => Err ValueError
          | Ok ci, Some P =>
              match foldl (racc (fun j =>
                  match nth None [seq Some o | o <- M_Q (x_mem x)] j with
                  | Some X => Ok (oscale (ng_coef (mmul n0 (mmul n0 ci P) ci i j))%:C X)
                  | None => Err IndexError
                  end)) (Ok None) (iota 0 (x_n x)) with
              | Err e => Err e
              | Ok A => Ok (oneg A)
              end
          end
      | _ => Ok None
      end
  | CLoop _ => Ok None
  end.

(** torch_extensions.py 664-694 *)
Definition partial_squared_H_EJ (x : circ) (ej b : nat) (c : LCWB.comp) : res (option op) :=
  match c with
  | CEl _ => Ok None
  | CLoop l =>
      match loop_index x l with
      | Err e => Err e
      | Ok j => match rscale (x_B x b j) (fetch (M_sin (x_mem x)) ej b) with
                | Ok A => Ok (Some A) | Err e => Err e end
      end
  end.

(** torch_extensions.py 386-415 *)
Definition B_indices (s : store) (x : circ) (el : nat) : seq nat :=
  match ekind s el with
  | KJJ => [seq k.1.2 | k <- c_keys_jj (x_c x) & k.1.1.2 == el]
  | KInd => [seq k.2 | k <- c_keys_ind (x_c x) & k.1.2 == el]
  | KCap => [::]
  end.

(** torch_extensions.py 834-893 *)
Definition partial_squared_H_phi (s : store) (x : circ) (l : nat) (c : LCWB.comp) : res (option op) :=
  let M := x_mem x in
  match c with
  | CEl el =>
      match ekind s el with
      | KCap => Ok None
      | KJJ => match loop_index x l with
               | Err e => Err e
               | Ok j => foldl (racc (fun b => rscale (x_B x b j) (fetch (M_sin M) el b)))
                               (Ok None) (B_indices s x el)
               end
      | KInd => match loop_index x l with
                | Err e => Err e
                | Ok j => foldl (racc (fun b => rscale (d_loop_coef (x_B x b j) (evalue s el))
                                                        (fetch (M_ind M) el b)))
                                (Ok None) (B_indices s x el)
                end
      end
  | CLoop l2 =>
      match loop_index x l, loop_index x l2 with
      | Err e, _ | _, Err e => Err e
      | Ok j1, Ok j2 =>
          foldl (racc (fun k : edge * nat * nat * nat =>
                   let '(_, el, b, _) := k in
                   rscale (evalue s el * x_B x b j2 * x_B x b j1) (fetch (M_cos M) el b)))
                (Ok None) (c_keys_jj (x_c x))
      end
  end.

(** [cr.evecs[m]] (circuit.py 475-482) *)
Definition evecs_at (x : circ) (m : Z) : res cvec :=
  if size (e_vecs (x_eig x)) == 0%N then Err CircuitStateError else evec x m.

(** torch_extensions.py 286-350 *)
Definition partial_squared_omega (s : store) (x : circ) (c : LCWB.comp) (P P2 : option op) (m n : Z)
    (eps : R) : res R :=
  (do vm <- evecs_at x m;
   do dm <- get_partial_vec s x c m eps;
   do vn <- evecs_at x n;
   do dn <- get_partial_vec s x c n eps;
   let p1 := match P with
             | None => 0
             | Some A => Rmult 2 (complex.Re (inner dm A vm - inner dn A vn))
             end in
   let p2 := match P2 with
             | None => 0
             | Some A => complex.Re (inner vm A vm - inner vn A vn)
             end in
   Ok (p1 + p2))%res.

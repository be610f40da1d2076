(** Matrix.v -- functions.py, the matrix operations and conversions that work on
    tensors, qutip objects and arrays alike.

    An object has a kind, a shape and entries; a one-dimensional one of length n
    has shape [n] and its entry i at (i, 0).  Modelled are the dispatch on the
    kinds, the order of the factors, the transpositions and the exceptions.  The
    products themselves (torch.mm, torch.sparse.mm, torch.matmul, qutip's and
    numpy's) are exact; torch's fail with RuntimeError when the shapes do not fit,
    qutip's with TypeError.
    Number types and gradients are not modelled. *)
From Coq Require Import Reals ZArith.
From Verif.Model Require Import Base.
From mathcomp Require Import all_ssreflect all_algebra.
From mathcomp Require Import complex.
From Verif.Numerics Require Import RStruct.
From Verif.Model Require Import Op.

Set Implicit Arguments.
Unset Strict Implicit.
Unset Printing Implicit Defensive.
Import GRing.Theory.
Local Open Scope ring_scope.
Local Open Scope complex_scope.

(** qutip's data layers; [Other] is any other class. *)
Inductive layer := CSR | Dia | Dense | Other.
(** numpy array, tensor (sparse or not), qutip object, anything else. *)
Inductive kind := KArr | KTen (sparse : bool) | KQobj (l : layer) | KOther.
Record obj := Obj { o_kind : kind; o_shape : seq nat; o_ent : nat -> nat -> C }.

Definition is_tensor (a : obj) : bool := if o_kind a is KTen _ then true else false.
Definition is_qobj (a : obj) : bool := if o_kind a is KQobj _ then true else false.
Definition is_sparse (a : obj) : bool := if o_kind a is KTen s then s else false.

(** A product of two matrices whose result has kind [k]; [e] if they do not fit. *)
Definition prod2 (e : exn) (k : kind) (a b : obj) : res obj :=
  match o_shape a, o_shape b with
  | [:: n; p], [:: q; m] =>
      if p == q then Ok (Obj k [:: n; m] (fun i j => \sum_(l < p) o_ent a i l * o_ent b l j))
      else Err e
  | _, _ => Err e
  end.

Section Engine.
(** [get_optim_mode()] *)
Variable optim : bool.
(** The row indices, column indices and values of scipy's [tocoo()]. *)
Variable tocoo : obj -> seq nat * seq nat * seq C.
(** Products the code leaves to the libraries in forms not needed here: [@] of
    numpy arrays and mixed kinds, [torch.sparse.mm] of two dense tensors,
    [torch.matmul] of vectors. *)
Variable ext : obj -> obj -> res obj.

(** A sparse tensor from its indices (two rows) and values: repeated positions
    add up. *)
Definition sparse_coo (rows cols : seq nat) (vals : seq C) (shape : seq nat) : obj :=
  Obj (KTen true) shape (fun i j => \sum_(t <- zip (zip rows cols) vals | (t.1.1 == i) && (t.1.2 == j)) t.2).

(** functions.py 386-411 *)
Definition qobj_to_tensor (q : obj) : res obj :=
  let coo := let: (rows, cols, vals) := tocoo q in Ok (sparse_coo rows cols vals (o_shape q)) in
  match o_kind q with
  | KQobj CSR => coo
  | KQobj Dia => coo
  | KQobj Dense => Ok (Obj (KTen false) (o_shape q) (o_ent q))
  | KQobj Other => Err ValueError
  | _ => Err AttributeError
  end.

(** functions.py 363-368 *)
Definition dense (a : obj) : obj :=
  match o_kind a with
  | KQobj _ => Obj KArr (o_shape a) (o_ent a)
  | KTen true => Obj (KTen false) (o_shape a) (o_ent a)
  | _ => a
  end.
(** functions.py 378-383 *)
Definition to_numpy (a : obj) : obj :=
  match o_kind a with KTen _ | KQobj _ => Obj KArr (o_shape a) (o_ent a) | _ => a end.
(** functions.py 371-375; for an array of two dimensions *)
Definition mat_to_op (a : obj) : obj :=
  match o_kind a with KTen _ => a | _ => Obj (KQobj CSR) (o_shape a) (o_ent a) end.

(** functions.py 225-238 *)
Definition transpose (a : obj) : res obj :=
  if o_shape a is [:: n; m] then Ok (Obj (o_kind a) [:: m; n] (fun i j => o_ent a j i)) else Err IndexError.
Definition conj_obj (a : obj) : obj := Obj (o_kind a) (o_shape a) (fun i j => (o_ent a i j)^*).
Definition dag (a : obj) : res obj :=
  if (2 < size (o_shape a))%N then Err AssertionError
  else match o_kind a with
       | KTen _ => if size (o_shape a) == 1%N then Ok (conj_obj a)
                   else match transpose a with Ok t => Ok (conj_obj t) | Err e => Err e end
       | KQobj _ => match transpose a with Ok t => Ok (conj_obj t) | Err e => Err e end
       | KArr => if size (o_shape a) == 1%N then Ok (conj_obj a) else Err ValueError
       | KOther => Err ValueError
       end.

(** torch.sparse.mm *)
Definition sparse_mm (a b : obj) : res obj :=
  if is_sparse a || is_sparse b then prod2 RuntimeError (KTen (is_sparse a && is_sparse b)) a b else ext a b.

(** functions.py 274-295 *)
Definition mat_mul (a b : obj) : res obj :=
  if optim then
    if is_tensor a && is_tensor b then
      if is_sparse a && is_sparse b then sparse_mm a b
      else if (is_sparse a && ~~ is_sparse b) || (~~ is_sparse a && is_sparse b) then sparse_mm a b
      else prod2 RuntimeError (KTen false) a b
    else if is_tensor a && is_qobj b then
      match qobj_to_tensor b with
      | Err e => Err e
      | Ok b => match sparse_mm b a with Err e => Err e | Ok c => transpose c end
      end
    else if is_qobj a && is_tensor b then
      match qobj_to_tensor a with Err e => Err e | Ok a => sparse_mm a b end
    else
      let a := dense a in let b := dense b in
      if (size (o_shape a) == 2%N) && (size (o_shape b) == 2%N) then prod2 RuntimeError (KTen false) a b else ext a b
  else if is_qobj a && is_qobj b then prod2 TypeError (KQobj CSR) a b else ext a b.

(** [torch.unsqueeze(x, 1)] of a tensor; other objects are refused. *)
Definition unsqueeze (a : obj) : res obj :=
  if is_tensor a then
    if o_shape a is n :: r then
      if r is [::] then Ok (Obj (o_kind a) [:: n; 1%N] (o_ent a)) else Ok (Obj (o_kind a) (n :: 1%N :: r) (o_ent a))
    else Err IndexError
  else Err TypeError.

(** functions.py 414-417; in the NumPy engine the product of a bra and a ket is a
    number already. *)
Definition unwrap (a : obj) : res C :=
  match o_shape a with
  | [:: n; m] => if optim then if (0 < n)%N && (0 < m)%N then Ok (o_ent a 0%N 0%N) else Err IndexError
                 else if (n == 1%N) && (m == 1%N) then Ok (o_ent a 0%N 0%N) else Err TypeError
  | _ => Err IndexError
  end.

(** functions.py 298-306 *)
Definition inner_product (v a w : obj) : res C :=
  let states := if optim then
      match unsqueeze v, unsqueeze w with
      | Ok v, Ok w => Ok (v, w)
      | Err e, _ | _, Err e => Err e
      end else Ok (v, w) in
  match states with
  | Err e => Err e
  | Ok (v, w) =>
      match mat_mul a w with
      | Err e => Err e
      | Ok x => match dag v with
                | Err e => Err e
                | Ok d => match mat_mul d x with Err e => Err e | Ok y => unwrap y end
                end
      end
  end.
End Engine.

(** functions.py 255-265; a name without a value raises UnboundLocalError, which
    is a NameError: None. *)
Definition tensor_torch (l : seq op) : option op :=
  foldl (fun out x => Some (if out is Some o then kron o x else x)) None l.

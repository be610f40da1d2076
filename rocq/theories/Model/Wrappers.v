(** Wrappers.v -- functions.py, the functions that make or rearrange matrices in the
    engine that is on: eye, zero, zeros, block_diag, diag, mat_inv, sort, array, copy.

    Objects are those of Matrix.v.  Number types are not modelled except that
    torch.as_tensor with a real dtype drops imaginary parts; tensors do not require
    grad.  scipy and numpy take tensors and qutip objects as arrays; sparse tensors
    they refuse. *)
From Coq Require Import Reals ZArith.
From Verif.Model Require Import Base.
From mathcomp Require Import all_ssreflect all_algebra.
From mathcomp Require Import complex.
From Verif.Numerics Require Import RStruct.
From Verif.Model Require Import Op Matrix.

Set Implicit Arguments.
Unset Strict Implicit.
Unset Printing Implicit Defensive.
Import GRing.Theory.
Local Open Scope ring_scope.
Local Open Scope complex_scope.

(** [np.asarray] of an argument. *)
Definition as_array (a : obj) : res obj :=
  if is_sparse a then Err TypeError else Ok (Obj KArr (o_shape a) (o_ent a)).

(** ** Blocks *)
(** Rows, columns and entries of an argument of block_diag: a vector is a row, a
    number a matrix of one entry. *)
Definition rows_of (a : obj) : nat :=
  match o_shape a with [:: n; _] => n | _ => 1%N end.
Definition cols_of (a : obj) : nat :=
  match o_shape a with [:: _; m] => m | [:: n] => n | _ => 1%N end.
Definition ent2 (a : obj) (i j : nat) : C :=
  match o_shape a with [:: _] => o_ent a j 0%N | _ => o_ent a i j end.

(** Both libraries fill a zero matrix block by block, [r] and [c] being the corner of the next. *)
Fixpoint fill (M : nat -> nat -> C) (r c : nat) (l : seq obj) : nat -> nat -> C :=
  match l with
  | [::] => M
  | a :: l' =>
      let n := rows_of a in let m := cols_of a in
      fill (fun i j => if [&& r <= i, i < r + n, c <= j & j < c + m]%N then ent2 a (i - r) (j - c) else M i j)
           (r + n) (c + m) l'
  end.
Definition sum_of (f : obj -> nat) (l : seq obj) : nat := sumn [seq f a | a <- l].
(** Without arguments both return a matrix of one row and no column. *)
Definition filled (k : kind) (l : seq obj) : obj :=
  if l is [::] then Obj k [:: 1; 0]%N (fun _ _ => 0)
  else Obj k [:: sum_of rows_of l; sum_of cols_of l] (fill (fun _ _ => 0) 0 0 l).

Section Engine.
(** [get_optim_mode()] *)
Variable optim : bool.
(** numpy's and torch's inverse: None for a singular matrix. *)
Variable inv : nat -> (nat -> nat -> C) -> option (nat -> nat -> C).

(** functions.py 189-199 *)
Definition eye (N : nat) : obj :=
  Obj (if optim then KTen false else KQobj Dia) [:: N; N] (fun i j => (i == j)%:R).
(** functions.py 202-205; 0 is an int without the engine. *)
Definition zero : obj := Obj (if optim then KTen false else KOther) [::] (fun _ _ => 0).
(** functions.py 208-211 *)
Definition zeros (shape : seq nat) : obj := Obj (if optim then KTen false else KArr) shape (fun _ _ => 0).

(** functions.py 218-222 *)
Definition block_diag (l : seq obj) : res obj :=
  if optim then
    if ~~ all is_tensor l then Err TypeError
    else if has is_sparse l || has (fun a => 2 < size (o_shape a))%N l then Err RuntimeError
    else Ok (filled (KTen false) l)
  else if has is_sparse l then Err TypeError
  else if has (fun a => 2 < size (o_shape a))%N l then Err ValueError
  else Ok (filled KArr l).

(** torch.diag and np.diag of an object of one or two dimensions. *)
Definition diag_obj (e : exn) (k : kind) (a : obj) : res obj :=
  match o_shape a with
  | [:: n] => Ok (Obj k [:: n; n] (fun i j => if i == j then o_ent a i 0%N else 0))
  | [:: n; m] => Ok (Obj k [:: minn n m] (fun i _ => o_ent a i i))
  | _ => Err e
  end.
(** functions.py 241-245 *)
Definition diag (a : obj) : res obj :=
  if optim then if is_tensor a then diag_obj RuntimeError (o_kind a) a else Err TypeError
  else match as_array a with Err e => Err e | Ok b => diag_obj ValueError KArr b end.

(** functions.py 268-271: by the type of the argument. *)
Definition inv_obj (k : kind) (a : obj) : res obj :=
  match o_shape a with
  | [:: n; m] => if n == m then match inv n (o_ent a) with Some B => Ok (Obj k [:: n; n] B) | None => Err LinAlgError end
                 else Err LinAlgError
  | _ => Err LinAlgError
  end.
Definition mat_inv (a : obj) : res obj :=
  match o_kind a with
  | KTen true => Err RuntimeError
  | KTen false => inv_obj (KTen false) a
  | _ => inv_obj KArr a
  end.

(** functions.py 339-342: torch.sort returns the sorted entries and their places.
    [srt] and [places] are the libraries'. *)
Inductive sorted := Values (v : obj) | ValuesAndPlaces (v p : obj).
Definition sort (srt places : obj -> obj) (a : obj) : res sorted :=
  if optim then if is_tensor a then Ok (ValuesAndPlaces (srt a) (places a)) else Err TypeError
  else match as_array a with Err e => Err e | Ok b => Ok (Values (srt b)) end.

(** functions.py 349-352; [real_type]: the dtype is real (the default).  numpy keeps
    the values whatever the dtype. *)
Definition array (real_type : bool) (a : obj) : res obj :=
  if optim then
    match o_kind a with
    | KQobj _ => Err TypeError
    | k => Ok (Obj (if k is KTen s then KTen s else KTen false) (o_shape a)
                   (fun i j => if real_type then (complex.Re (o_ent a i j))%:C else o_ent a i j))
    end
  else as_array a.

(** functions.py 355-360; tensors have no copy(), arrays no clone(). *)
Definition copy (a : obj) : res obj :=
  match o_kind a, optim with
  | KQobj _, _ => Ok a
  | KTen _, true => Ok a
  | KArr, false => Ok a
  | _, _ => Err AttributeError
  end.
End Engine.

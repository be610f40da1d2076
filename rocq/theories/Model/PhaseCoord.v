(** PhaseCoord.v -- model of Circuit.eig_phase_coord (circuit.py 2203-2312) in the
    NumPy engine, on top of _tensor_to_modes (Trunc.v).

    [n] is self.n, [m] self.m, [charge i] is [_is_charge_mode(i)], [cI] and [lT] are
    the diagonals of cInvTrans and lTrans, [evecs] is _evecs.  A vector is an index
    function: its length is not checked.  [grid] is a list of one-dimensional arrays. *)
From Coq Require Import Reals ZArith.
From Verif.Model Require Import Base Units Trunc HamConst PhaseConst.
From mathcomp Require Import all_ssreflect all_algebra.
From mathcomp Require Import complex.
From Verif.Numerics Require Import RStruct.
From Verif.Model Require Import Op Diag.

Set Implicit Arguments.
Unset Strict Implicit.
Unset Printing Implicit Defensive.
Import GRing.Theory.
Local Open Scope ring_scope.
Local Open Scope complex_scope.

(** An array of complex numbers. *)
Record cnd := mkA { a_shape : seq nat; a_at : seq nat -> C }.
(** The number [x] as an array. *)
Definition a_num (x : C) : cnd := mkA [::] (fun=> x).

(** circuit.py 2228: one array of np.meshgrid with indexing 'ij'; an entry of
    the result depends on its own index only. *)
Definition mesh_at (grid : seq (seq R)) (mode : nat) (ix : seq nat) : R :=
  nth 0%R (nth [::] grid mode) (nth 0%N ix mode).
Definition mesh_shape (grid : seq (seq R)) : seq nat := [seq size g | g <- grid].

(** circuit.py 2253-2255 *)
Definition charge_factor (nn : Z) (phi : R) : C := charge_norm%:C * expi (phi * IZR nn)%R.

(** circuit.py 2246-2301 for one mode: [phi_list[mode]] raises IndexError; after the
    multiplication the term has the shape of the mesh. *)
Definition mode_step (L : slib) (charge : nat -> bool) (cI lT : nat -> R) (grid : seq (seq R))
    (ind : seq Z) (acc : res cnd) (mode : nat) : res cnd :=
  (do term <- acc;
   do nn <- py_get ind (Z.of_nat mode);
   if (mode < size grid)%N then
     Ok (mkA (mesh_shape grid) (fun ix =>
           a_at term (if a_shape term is [::] then [::] else ix) *
           (if charge mode then charge_factor nn (mesh_at grid mode ix)
            else (harm_factor L (Z.to_nat nn) (len0 (cI mode) (lT mode)) (mesh_at grid mode ix))%:C)))
   else Err IndexError)%res.

(** circuit.py 2235-2303, one basis index; a number is broadcast. *)
Definition basis_step (L : slib) (n : nat) (m : seq Z) (charge : nat -> bool) (cI lT : nat -> R)
    (grid : seq (seq R)) (evecs : seq cvec) (k : Z) (acc : res cnd) (i : nat) : res cnd :=
  (do state <- acc;
   do ind <- tensor_to_modes n m (Z.of_nat i);
   do v <- py_get evecs k;
   do term <- foldl (mode_step L charge cI lT grid ind) (Ok (a_num (v i))) (iota 0 n);
   Ok (mkA (a_shape term) (fun ix =>
        a_at state (if a_shape state is [::] then [::] else ix) + a_at term ix)))%res.

(** circuit.py 2305: [np.squeeze] drops the axes of size 1. *)
Fixpoint unsqueeze (sh ix : seq nat) : seq nat :=
  match sh with
  | [::] => [::]
  | d :: sh' => if d == 1%N then 0%N :: unsqueeze sh' ix
                else head 0%N ix :: unsqueeze sh' (behead ix)
  end.
Definition squeeze (A : cnd) : cnd :=
  mkA [seq d <- a_shape A | d != 1%N] (fun ix => a_at A (unsqueeze (a_shape A) ix)).

(** circuit.py 2307-2312: the first two axes are exchanged. *)
Definition swap01 (l : seq nat) : seq nat := if l is a :: b :: r then b :: a :: r else l.
Definition swap_axes (A : cnd) : cnd := mkA (swap01 (a_shape A)) (fun ix => a_at A (swap01 ix)).

(** circuit.py 2203-2312; [k = None]: not an int.  [np.prod([])] is the float 1.0,
    which [range] refuses. *)
Definition dimZ (m : seq Z) : Z := foldr Z.mul (Zpos xH) m.
Definition eig_phase_coord (L : slib) (n : nat) (m : seq Z) (charge : nat -> bool) (cI lT : nat -> R)
    (evecs : seq cvec) (k : option Z) (grid : seq (seq R)) : res cnd :=
  if size evecs == 0%N then Err CircuitStateError
  else match k with
  | None => Err ValueError
  | Some k =>
      if size m == 0%N then Err TypeError
      else (do s <- foldl (basis_step L n m charge cI lT grid evecs k) (Ok (a_num 0))
                          (iota 0 (Z.to_nat (dimZ m)));
            let s := squeeze s in
            Ok (if (1 < size (a_shape s))%N then swap_axes s else s))%res
  end.

(** Sweep.v -- model of sweep.py: the table of eigenfrequencies (and of decoherence
    rates when 'loss' is among the properties) over a grid of external fluxes or
    charge offsets, on top of the circuit object of CircuitSM.v.

    NumPy engine.  Saving and plotting, which follow the loop (102-109, 142-148),
    are in Storage.v.  The number of eigenvalues is an int.  The eigensolver and
    argsort may answer differently at each grid point: they get its number. *)
From Coq Require Import Reals ZArith.
From Verif.Model Require Import Base Units Noise Edge Elements LCWB HamConst.
From mathcomp Require Import all_ssreflect all_algebra.
From Verif.Numerics Require Import RStruct Bridge.
From Verif.Model Require Import Transform Op Ham Diag CircuitSM DecRate.

Set Implicit Arguments.
Unset Strict Implicit.
Unset Printing Implicit Defensive.
Import GRing.Theory.
Local Open Scope ring_scope.

(** A numpy array of floats: shape and entries. *)
Record nd := mkNd { nd_shape : seq nat; nd_at : seq nat -> R }.
Definition nd_zeros (sh : seq nat) : nd := mkNd sh (fun=> 0).
Definition nd_size (sh : seq nat) : nat := (\prod_(d <- sh) d)%N.

(** Position of an entry in row-major order. *)
Fixpoint ravel (sh ix : seq nat) : nat :=
  match sh, ix with
  | _ :: sh', i :: ix' => (i * nd_size sh' + ravel sh' ix')%N
  | _, _ => 0%N
  end.

(** Shape of [A[:, idx]] with [idx] a tuple: numpy takes a tuple inside the key as
    an array of positions along the second axis. *)
Definition sel_shape (A : nd) (idx : seq nat) : res (seq nat) :=
  match nd_shape A with
  | k :: d :: rest => if all (fun i => (i < d)%N) idx then Ok (k :: size idx :: rest) else Err IndexError
  | _ => Err IndexError
  end.

(** [v.reshape(sh)] for a one-dimensional [v]. *)
Definition reshape (v : seq R) (sh : seq nat) : res nd :=
  if size v == nd_size sh then Ok (mkNd sh (fun ix => nth 0 v (ravel sh ix))) else Err ValueError.

(** [A[:, idx] = B]; of equal positions the last counts. *)
Definition put_sel (A : nd) (idx : seq nat) (B : nd) : nd :=
  mkNd (nd_shape A)
    (fun ix => match ix with
               | r :: j :: rest =>
                   if j \in idx
                   then nd_at B (r :: ((size idx).-1 - index j (rev idx))%N :: rest)
                   else nd_at A ix
               | _ => nd_at A ix
               end).

(** sweep.py 58-62 and 65-69 with [itertools.product]. *)
Definition grid_dims (grid : seq (seq R)) : seq nat := [seq size g | g <- grid].
Fixpoint product (ds : seq nat) : seq (seq nat) :=
  match ds with
  | [::] => [:: [::]]
  | d :: ds' => flatten [seq [seq i :: t | t <- product ds'] | i <- iota 0 d]
  end.

(** sweep.py 46-53 *)
Definition dec_keys : seq dec_type := [:: DCap; DInd; DQp; DCharge; DCC; DFlux].
Definition dec_no (t : dec_type) : nat :=
  match t with DCap => 0 | DInd => 1 | DQp => 2 | DCharge => 3 | DCC => 4 | DFlux => 5 end%N.
Definition dec_tab := dec_type -> seq nat -> option R.
Definition dec_put (D : dec_tab) (t : dec_type) (idx : seq nat) (v : option R) : dec_tab :=
  fun t' ix => if (dec_no t' == dec_no t) && (ix == idx) then v else D t' ix.

(** What a sweep leaves: the world and the two tables. *)
Record swept := mkSw { sw_w : world; sw_f : nd; sw_d : dec_tab }.

(** The setters: loop.set_flux (elements.py 661-672) and set_charge_offset. *)
Definition set_flux_of (s : store) (l : nat) (v : R) : store :=
  comp_put s (CLoop l) (mkP (loop_val (set_flux v (mkLoop 0 0))) false true).
Definition setter := R -> world -> world * res unit.
Definition flux_setter (l : nat) : setter :=
  fun v w => (mkW (set_flux_of (w_s w) l v) (w_u w) (w_x w), Ok tt).
Definition charge_setter (m : option Z) : setter :=
  fun v w => let (x, r) := set_offset m v (w_x w) in (mkW (w_s w) (w_u w) x, r).

(** sweep.py 89-91 and 129-131 *)
Fixpoint set_point (ps : seq setter) (grid : seq (seq R)) (idx : seq nat) (w : world) : world * res unit :=
  match grid, idx with
  | g :: grid', i :: idx' =>
      match ps with
      | [::] => (w, Err IndexError)
      | p :: ps' =>
          let (w1, r) := p (nth 0 g i) w in
          match r with
          | Err e => (w1, Err e)
          | Ok _ => set_point ps' grid' idx' w1
          end
      end
  | _, _ => (w, Ok tt)
  end.

Section Sweep.
Variables (eigs : nat -> eigs_fun) (argsort : nat -> seq C -> seq nat).
Variables (E : env) (q : quality) (loss : bool) (k : Z).

(** sweep.py 95-98 *)
Definition dec_point (idx : seq nat) (w : world) (D : dec_tab) : dec_tab * res unit :=
  foldl (fun a t => match a with
                    | (D, Ok _) => match dec_rate E (w_s w) q (w_x w) (Some t) 1 0 true with
                                   | Ok v => (dec_put D t idx v, Ok tt)
                                   | Err e => (D, Err e)
                                   end
                    | _ => a
                    end) (D, Ok tt) (if loss then dec_keys else [::]).

(** sweep.py 89-98: one grid point, the [p]-th. *)
Definition point (ps : seq setter) (grid : seq (seq R)) (p : nat) (idx : seq nat) (a : swept)
    : swept * res unit :=
  let (w1, r) := set_point ps grid idx (sw_w a) in
  match r with
  | Err e => (mkSw w1 (sw_f a) (sw_d a), Err e)
  | Ok _ =>
      let (x, d) := diag_sm (eigs p) (argsort p) (w_u w1) (Some k) (w_s w1) (w_x w1) in
      let w2 := mkW (w_s w1) (w_u w1) x in
      match d with
      | Err e => (mkSw w2 (sw_f a) (sw_d a), Err e)
      | Ok (fr, _) =>
          match (do sh <- sel_shape (sw_f a) idx; reshape fr sh)%res with
          | Err e => (mkSw w2 (sw_f a) (sw_d a), Err e)
          | Ok B => let (D, r) := dec_point idx w2 (sw_d a) in (mkSw w2 (put_sel (sw_f a) idx B) D, r)
          end
      end
  end.

Fixpoint points (ps : seq setter) (grid : seq (seq R)) (p : nat) (l : seq (seq nat)) (a : swept)
    : swept * res unit :=
  match l with
  | [::] => (a, Ok tt)
  | idx :: l' =>
      let (a1, r) := point ps grid p idx a in
      match r with
      | Err e => (a1, Err e)
      | Ok _ => points ps grid p.+1 l' a1
      end
  end.

(** sweep.py 79-98 and 119-138; the allocation rejects a negative number. *)
Definition sweep (ps : seq setter) (grid : seq (seq R)) (w : world) : swept * res unit :=
  let sh := Z.to_nat k :: grid_dims grid in
  let a := mkSw w (nd_zeros sh) (fun _ _ => Some 0) in
  if Z.ltb k 0 then (a, Err ValueError)
  else points ps grid 0 (product (grid_dims grid)) a.

(** sweep.py 71-100, 111-140 *)
Definition sweep_flux (loops : seq nat) := sweep [seq flux_setter l | l <- loops].
Definition sweep_charge (modes : seq (option Z)) := sweep [seq charge_setter m | m <- modes].
End Sweep.

(** Construct.v -- the constructors of capacitors, inductors and junctions with
    the attributes that do not concern the value (elements.py 89-105, 136-167,
    235-244, 280-323, 462-507) and the calls of the quality factors and of the
    admittance in dec_rate (circuit.py 2594-2631).

    Objects get identifiers in the order of their creation.  How Python prints a
    number ([show]) and the scaled Bessel function ([k0e]) are arguments.  The
    list of loops is copied where Python shares it. *)
From Coq Require Import Reals ZArith String.
From Verif.Model Require Import Base Units Settings Noise Elements Edge LCWB HamConst
  PartialConst Thermal RateConst.
From mathcomp Require Import all_ssreflect all_algebra.
From mathcomp Require Import complex.
From Verif.Numerics Require Import RStruct Bridge.
From Verif.Model Require Import Transform Op Ham Diag CircuitSM Partial DecRate.

Set Implicit Arguments.
Unset Strict Implicit.
Unset Printing Implicit Defensive.
Import GRing.Theory.
Local Open Scope seq_scope.
Local Open Scope ring_scope.

(** What may be passed as Q or Y: a string, a Python float, int or bool, None, a
    function of one or two arguments, or something else that cannot be called
    (NumPy integers, arrays, tensors; [b]: its truth value).  [None] as a result
    of a function: NaN. *)
Inductive pyarg :=
| AStr (s : string) | AFloat (x : R) | AInt (z : Z) | ABool (b : bool) | ANone
| AFun1 (f : R -> R) | AFun2 (f : R -> R -> option R) | AOther (b : bool).

(** [if cap.Q:] *)
Definition truthy (a : pyarg) : bool :=
  match a with
  | AStr s => ~~ String.eqb s EmptyString
  | AFloat x => x != 0
  | AInt z => ~~ Z.eqb z 0
  | ABool b => b
  | ANone => false
  | AFun1 _ | AFun2 _ => true
  | AOther b => b
  end.
(** [a(omega)] and [a(omega, T)] *)
Definition call1 (a : pyarg) (omega : R) : res R :=
  if a is AFun1 f then Ok (f omega) else Err TypeError.
Definition call2 (a : pyarg) (omega T : R) : res (option R) :=
  if a is AFun2 f then Ok (f omega T) else Err TypeError.

(** [isinstance(a, float) or isinstance(a, int)]: True and False are ints. *)
Definition as_number (a : pyarg) : option R :=
  match a with
  | AFloat x => Some x
  | AInt z => Some (IZR z)
  | ABool b => Some (if b then 1 else 0)
  | _ => None
  end.
Definition is_default (a : pyarg) : bool := if a is AStr s then String.eqb s "default" else false.

(** elements.py 157-162, 313-318, 499-502.  At omega = 0 the default functions of
    inductors and junctions give NaN. *)
Section Attr.
Variable k0e : R -> R.
Definition attr_cap (q : pyarg) : pyarg :=
  if is_default q then AFun1 default_q_cap
  else if as_number q is Some x then AFun1 (fun=> x) else q.
Definition attr_ind (q : pyarg) : pyarg :=
  if is_default q then AFun2 (fun w t => if w == 0 then None else Some (default_q_ind k0e w t))
  else if as_number q is Some x then AFun2 (fun _ _ => Some x) else q.
Definition attr_jj (delta x : R) (y : pyarg) : pyarg :=
  if is_default y then AFun2 (fun w t => if w == 0 then None else Some (default_y_junc k0e delta x w t))
  else y.
End Attr.

(** elements.py 89-105; the prefixes at 165, 321 and 505. *)
Definition prefix (k : kind) : string :=
  match k with KCap => "C" | KInd => "L" | KJJ => "JJ" end.
Definition default_id (show : R -> string) (k : kind) (v : R) (u : string) : string :=
  (prefix k ++ "_" ++ show v ++ "_" ++ u)%string.

(** The object: value-carrying part, [Q] or [Y], identifier string, own capacitor
    and loops (inductive elements). *)
Record eobj := mkEo {
  eo_el : elem; eo_qual : pyarg; eo_id : string; eo_cap : option nat; eo_loops : seq nat }.
(** The objects made so far. *)
Definition objs := seq eobj.

Record eargs := mkEa {
  ea_v : R; ea_u : option string; ea_req : bool; ea_cap : option nat; ea_q : pyarg;
  ea_err : R; ea_z : R; ea_loops : option (seq nat); ea_id : option string;
  ea_delta : R; ea_x : R }.

Section New.
Variables (k0e : R -> R) (show : R -> string) (eng : string) (st : ustate).

(** elements.py 235-238: VerySmallCap() *)
Definition small_cap : eobj :=
  mkEo (mkEl KCap very_small_cap 0 false) ANone (default_id show KCap very_small_cap "F") None [::].

Definition the_unit (k : kind) (u : option string) : string :=
  if u is Some s then s else default_unit k st.
Definition the_id (k : kind) (a : eargs) : string :=
  if ea_id a is Some s then s else default_id show k (ea_v a) (the_unit k (ea_u a)).

(** elements.py 136-167 *)
Definition new_cap (a : eargs) (os : objs) : res (objs * nat) :=
  (do x <- Elements.construct eng st KCap (ea_v a) (ea_u a) (ea_req a) (ea_err a) (ea_z a);
   Ok (rcons os (mkEo x (attr_cap (ea_q a)) (the_id KCap a) None [::]), size os))%res.

(** elements.py 280-323, 462-507: the capacitor is made before the element is
    complete. *)
Definition new_inductive (k : kind) (q : pyarg) (a : eargs) (os : objs) : res (objs * nat) :=
  (do x <- Elements.construct eng st k (ea_v a) (ea_u a) (ea_req a) (ea_err a) (ea_z a);
   let: (os1, c) := if ea_cap a is Some c then (os, c) else (rcons os small_cap, size os) in
   let ls := if ea_loops a is Some l then l else [::] in
   Ok (rcons os1 (mkEo x q (the_id k a) (Some c) ls), size os1))%res.
Definition new_el (k : kind) (a : eargs) (os : objs) : res (objs * nat) :=
  match k with
  | KCap => new_cap a os
  | KInd => new_inductive KInd (attr_ind k0e (ea_q a)) a os
  | KJJ => new_inductive KJJ (attr_jj k0e (ea_delta a) (ea_x a) (ea_q a)) a os
  end.

(** elements.py 178-199, 336-357, 516-533 on an object. *)
Definition obj_set_value (v : R) (u : option string) (e z : R) (o : eobj) : eobj * res unit :=
  let (x, r) := Elements.set_value v u e z (eo_el o) in
  (mkEo x (eo_qual o) (eo_id o) (eo_cap o) (eo_loops o), r).
End New.

(** ** dec_rate with the attributes as they are (circuit.py 2594-2631) *)
Definition cap_term_at (s : store) (q : nat -> pyarg) (x : circ) (tS : option R) (omega : R) (m n : Z)
    (k : edge * nat) : res (option R) :=
  let cap := cap_of_el s k.2 in
  if ~~ truthy (q cap) then Ok (Some 0)
  else
    (do y <- call1 (q cap) omega;
     do z <- matrix_elements x (Some Capacitive) k.1 m n;
     Ok (with_factor tS (fun t => omap (fun y => y * abs2 z) (fdiv (t * evalue s cap) y))))%res.
Definition ind_rate_at (s : store) (q : nat -> pyarg) (T : R) (tS : option R) (omega : R) (v w : cvec)
    (k : nat * op) : res (option R) :=
  (do r <- call2 (q k.1) omega T;
   Ok (match r with
       | None => Some 0
       | Some Q => with_factor tS (fun t =>
            with_factor (fdiv t Q) (fun y => omap (fun y => y * abs2 (inner v k.2 w)) (fdiv y (evalue s k.1))))
       end))%res.
Definition qp_rate_at (s : store) (q : nat -> pyarg) (T : R) (tS : option R) (omega : R) (v w : cvec)
    (k : nat * op) : res (option R) :=
  (do r <- call2 (q k.1) omega T;
   Ok (match r with
       | None => Some 0
       | Some Y => omap (fun t => qp_factor t Y omega (evalue s k.1) * abs2 (inner v k.2 w)) tS
       end))%res.

(** The three kinds of loss that use the attributes. *)
Inductive loss := LCap | LInd | LQp.
Definition loss_type (l : loss) : dec_type :=
  match l with LCap => DCap | LInd => DInd | LQp => DQp end.
Definition loss_rate (E : env) (s : store) (q : nat -> pyarg) (x : circ) (l : loss)
    (m n : Z) (total : bool) : res (option R) :=
  if size (e_freqs (x_eig x)) == 0%N then Err CircuitStateError
  else
    (do w1 <- efreq x m;
     do w2 <- efreq x n;
     do v <- evec x m;
     do w <- evec x n;
     let omega := abs_diff w2 w1 in
     let tS := omap (temp_factor total m n) (thermal E omega) in
     match l with
     | LCap => foldl (rate_add (cap_term_at s q x tS omega m n)) (Ok (Some 0)) (placements x)
     | LInd => foldl (rate_add (ind_rate_at s q (Noise.T E) tS omega v w)) (Ok (Some 0)) (ind_mem x)
     | LQp => foldl (rate_add (qp_rate_at s q (Noise.T E) tS omega v w)) (Ok (Some 0)) (half_mem x)
     end)%res.

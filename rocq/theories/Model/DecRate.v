(** DecRate.v -- decoherence rates (circuit.py 2397-2434, 2456-2647) in the NumPy
    engine.  In the PyTorch engine the three dephasing rates go through
    torch Functions whose forward pass calls the same NumPy methods
    (torch_extensions.py 635, 805, 994).

    [None] in [option R] is an infinite or NaN number (a Python ZeroDivisionError
    where a quality factor or an inductance is the number 0).  States and
    operators come from one truncation. *)
From Coq Require Import Reals ZArith String.
From Verif.Model Require Import Base Units Noise Edge Elements LCWB HamConst PartialConst Thermal RateConst.
From mathcomp Require Import all_ssreflect all_algebra.
From mathcomp Require Import complex.
From Verif.Numerics Require Import RStruct Bridge.
From Verif.Model Require Import Transform Op Ham Diag CircuitSM Partial.

Set Implicit Arguments.
Unset Strict Implicit.
Unset Printing Implicit Defensive.
Import GRing.Theory.
Local Open Scope ring_scope.
Local Open Scope complex_scope.

(** Noise attributes of the components: [Q] of capacitors ([None]: the attribute
    is None), [Q] of inductors and [Y] of junctions as functions of frequency and
    temperature with [None] for NaN, [A] of junctions and loops. *)
Record quality := mkQual {
  q_cap : nat -> option (R -> R);
  q_ind : nat -> R -> R -> option R;
  q_jj : nat -> R -> R -> option R;
  a_jj : nat -> R;
  a_loop : nat -> R }.

(** [sqf.abs(z) ** 2] and [sqf.abs(z)] *)
Definition abs2 (z : C) : R := complex.Re z * complex.Re z + complex.Im z * complex.Im z.
Definition cabs (z : C) : R := sqrt (abs2 z).

(** circuit.py 2314-2395 with 'capacitive', reading the memory. *)
Definition coupling_cap (x : circ) (e : edge) : res op :=
  match coupling_coef (hof x) Capacitive e with
  | Err z => Err z
  | Ok k =>
      if (size (M_Q (x_mem x)) < x_n x)%N then Err IndexError
      else match foldl (fun acc i => acc_add acc (oscale (k i)%:C (nth (ozero 0) (M_Q (x_mem x)) i))) None
                       (iota 0 (x_n x)) with
           | Some A => Ok A
           | None => Err AttributeError
           end
  end.

(** circuit.py 2397-2434; [ctype] None: neither of the two strings. *)
Definition matrix_elements (x : circ) (ct : option ctype) (e : edge) (m n : Z) : res C :=
  if size (e_vecs (x_eig x)) == 0%N then Err CircuitStateError
  else
    (do v <- evec x m;
     do w <- evec x n;
     do A <- (match ct with
              | None => Err ValueError
              | Some Capacitive => coupling_cap x e
              | Some Inductive_ => coupling_mem x (x_mem x) e
              end);
     Ok (inner v A w))%res.

(** [decay = decay + term], the terms possibly raising. *)
Definition rate_add (K : Type) (f : K -> res (option R)) (a : res (option R)) (k : K)
    : res (option R) :=
  (do d <- a; do t <- f k;
   Ok (match d, t with Some d, Some t => Some (d + t) | _, _ => None end))%res.

(** A finite factor times a possibly infinite one. *)
Definition with_factor (f : option R) (g : R -> option R) : option R :=
  match f with Some x => g x | None => None end.
(** [a / b] *)
Definition fdiv (a b : R) : option R := if b == 0 then None else Some (a / b).

(** circuit.py 2597-2608 *)
Definition cap_of_el (s : store) (el : nat) : nat :=
  match ekind s el with KCap => el | _ => ecap s el end.
Definition cap_term (s : store) (q : quality) (x : circ) (tS : option R) (omega : R) (m n : Z)
    (k : edge * nat) : res (option R) :=
  let cap := cap_of_el s k.2 in
  match q_cap q cap with
  | None => Ok (Some 0)
  | Some Q =>
      (do z <- matrix_elements x (Some Capacitive) k.1 m n;
       Ok (with_factor tS (fun t => omap (fun y => y * abs2 z) (fdiv (t * evalue s cap) (Q omega)))))%res
  end.
Definition placements (x : circ) : seq (edge * nat) :=
  flatten [seq [seq (ee.1, el) | el <- ee.2] | ee <- x_dict x].

(** The keys of the memory dictionaries, in insertion order (1800-1827). *)
Definition ind_mem (x : circ) : seq (nat * op) :=
  pmap (fun k : edge * nat * nat => omap (pair k.1.2) (M_ind (x_mem x) k.1.2 k.2)) (c_keys_ind (x_c x)).
Definition half_mem (x : circ) : seq (nat * op) :=
  pmap (fun k : edge * nat * nat * nat => omap (pair k.1.1.2) (M_half (x_mem x) k.1.1.2 k.1.2))
       (c_keys_jj (x_c x)).
Definition cos_mem (x : circ) : seq (nat * nat) :=
  pmap (fun k : edge * nat * nat * nat => omap (fun=> (k.1.1.2, k.1.2)) (M_cos (x_mem x) k.1.1.2 k.1.2))
       (c_keys_jj (x_c x)).

(** circuit.py 2609-2618 *)
Definition ind_rate (s : store) (q : quality) (T : R) (tS : option R) (omega : R) (v w : cvec)
    (k : nat * op) : res (option R) :=
  match q_ind q k.1 omega T with
  | None => Ok (Some 0)
  | Some Q =>
      Ok (with_factor tS (fun t =>
            with_factor (fdiv t Q) (fun y => omap (fun y => y * abs2 (inner v k.2 w)) (fdiv y (evalue s k.1)))))
  end.

(** circuit.py 2619-2631 *)
Definition qp_rate (s : store) (q : quality) (T : R) (tS : option R) (omega : R) (v w : cvec)
    (k : nat * op) : res (option R) :=
  match q_jj q k.1 omega T with
  | None => Ok (Some 0)
  | Some Y => Ok (omap (fun t => qp_factor t Y omega (evalue s k.1) * abs2 (inner v k.2 w)) tS)
  end.

(** circuit.py 2476-2504 *)
Definition charge_rate (E : env) (x : circ) (v w : cvec) (i : nat) : res (option R) :=
  if ~~ is_charge (x_st x) i then Ok (Some 0)
  else
    (do P <- partial_H_ng x i;
     do a <- inner0 v P v;
     do b <- inner0 w P w;
     match isl x i with
     | None => Err KeyError
     | Some p => Ok (dephasing E (charge_amp p.2) (cabs (a - b)))
     end)%res.

(** circuit.py 2506-2527 *)
Definition cc_rate (E : env) (s : store) (q : quality) (x : circ) (m n : Z) (k : nat * nat)
    : res (option R) :=
  (do p <- partial_omega_mn s x (CEl k.1) m n (Some k.2);
   Ok (dephasing E (a_jj q k.1 * evalue s k.1) p))%res.

(** circuit.py 2456-2474 *)
Definition flux_rate (E : env) (s : store) (q : quality) (x : circ) (m n : Z) (l : nat)
    : res (option R) :=
  (do p <- partial_omega_mn s x (CLoop l) m n None; Ok (dephasing E (a_loop q l) p))%res.

(** The strings of dec_type; [None]: any other string. *)
Inductive dec_type := DCap | DInd | DQp | DCharge | DCC | DFlux.

(** circuit.py 2529-2647 *)
Definition dec_rate (E : env) (s : store) (q : quality) (x : circ) (dt : option dec_type)
    (m n : Z) (total : bool) : res (option R) :=
  if size (e_freqs (x_eig x)) == 0%N then Err CircuitStateError
  else
    (do w1 <- efreq x m;
     do w2 <- efreq x n;
     do v <- evec x m;
     do w <- evec x n;
     let omega := abs_diff w2 w1 in
     let tS := omap (temp_factor total m n) (thermal E omega) in
     match dt with
     | None => Err ValueError
     | Some DCap => foldl (rate_add (cap_term s q x tS omega m n)) (Ok (Some 0)) (placements x)
     | Some DInd => foldl (rate_add (ind_rate s q (T E) tS omega v w)) (Ok (Some 0)) (ind_mem x)
     | Some DQp => foldl (rate_add (qp_rate s q (T E) tS omega v w)) (Ok (Some 0)) (half_mem x)
     | Some DCharge => foldl (rate_add (charge_rate E x v w)) (Ok (Some 0)) (iota 0 (x_n x))
     | Some DCC => foldl (rate_add (cc_rate E s q x m n)) (Ok (Some 0)) (cos_mem x)
     | Some DFlux => foldl (rate_add (flux_rate E s q x m n)) (Ok (Some 0)) (c_loops (x_c x))
     end)%res.

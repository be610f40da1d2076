(** TorchRates.v -- gradients of the three dephasing rates (torch_extensions.py
    493-617, 697-786, 896-976) and the backward passes (647-657, 817-827,
    1006-1016).

    As in Partial.v a running sum that is still the Python int 0 raises TypeError
    when it is used as an operator (RuntimeError with tensors).  [eps] is the
    default of get_partial_vec, 1e-12 in the code.  [None] in [option R] is an
    infinite or NaN number. *)
From Coq Require Import Reals ZArith String.
From Verif.Model Require Import Base Units Noise Edge Elements LCWB HamConst PartialConst Thermal RateConst.
From mathcomp Require Import all_ssreflect all_algebra.
From mathcomp Require Import complex.
From Verif.Numerics Require Import RStruct Bridge.
From Verif.Model Require Import Transform Op Ham Diag CircuitSM Partial DecRate.

Set Implicit Arguments.
Unset Strict Implicit.
Unset Printing Implicit Defensive.
Import GRing.Theory.
Local Open Scope ring_scope.
Local Open Scope complex_scope.

(** torch_extensions.py 493-531 *)
Definition partial_omega_ng (x : circ) (i : nat) (m n : Z) : res R :=
  if ~~ is_charge (x_st x) i then Err ValueError
  else
    (do v <- evecs_at x m;
     do w <- evecs_at x n;
     do P <- partial_H_ng x i;
     do a <- inner0 v P v;
     do b <- inner0 w P w;
     Ok (complex.Re (a - b)))%res.

Section Grad.
Variables (E : env) (s : store) (q : quality) (x : circ) (c : LCWB.comp) (m n : Z) (eps : R).

(** torch_extensions.py 534-572 *)
Definition partial_squared_omega_mn_ng (i : nat) : res R :=
  if ~~ is_charge (x_st x) i then Err ValueError
  else
    (do P <- partial_H_ng x i;
     do P2 <- partial_squared_H_ng s x i c;
     partial_squared_omega s x c P P2 m n eps)%res.
(** torch_extensions.py 697-734 *)
Definition partial_squared_omega_mn_EJ (k : nat * nat) : res R :=
  (do P <- partial_H s x (CEl k.1) (Some k.2);
   do P2 <- partial_squared_H_EJ x k.1 k.2 c;
   partial_squared_omega s x c P P2 m n eps)%res.
(** torch_extensions.py 896-930 *)
Definition partial_squared_omega_mn_phi (l : nat) : res R :=
  (do P <- partial_H s x (CLoop l) None;
   do P2 <- partial_squared_H_phi s x l c;
   partial_squared_omega s x c P P2 m n eps)%res.

(** torch_extensions.py 594-615: one mode. *)
Definition charge_dec_term (i : nat) : res (option R) :=
  if ~~ is_charge (x_st x) i then Ok (Some 0)
  else
    (do p <- partial_omega_ng x i m n;
     do p2 <- partial_squared_omega_mn_ng i;
     match isl x i with
     | None => Err KeyError
     | Some a => Ok (partial_dephasing_rate E (charge_amp a.2) 0 p p2)
     end)%res.
(** torch_extensions.py 762-784: one placement; [grad_el is EJ_el]. *)
Definition cc_dec_term (k : nat * nat) : res (option R) :=
  (do p <- partial_omega_mn s x (CEl k.1) m n (Some k.2);
   do p2 <- partial_squared_omega_mn_EJ k;
   let dA := match c with CEl el => if el == k.1 then a_jj q k.1 else 0 | CLoop _ => 0 end in
   Ok (partial_dephasing_rate E (a_jj q k.1 * evalue s k.1) dA p p2))%res.
(** torch_extensions.py 954-975: one loop. *)
Definition flux_dec_term (l : nat) : res (option R) :=
  (do p <- partial_omega_mn s x (CLoop l) m n None;
   do p2 <- partial_squared_omega_mn_phi l;
   Ok (partial_dephasing_rate E (a_loop q l) 0 p p2))%res.

(** torch_extensions.py 575-617, 737-786, 933-976 *)
Definition partial_charge_dec : res (option R) :=
  foldl (rate_add charge_dec_term) (Ok (Some 0)) (iota 0 (x_n x)).
Definition partial_cc_dec : res (option R) :=
  foldl (rate_add cc_dec_term) (Ok (Some 0)) (cos_mem x).
Definition partial_flux_dec : res (option R) :=
  foldl (rate_add flux_dec_term) (Ok (Some 0)) (c_loops (x_c x)).
End Grad.

(** torch_extensions.py 647-657, 817-827, 1006-1016: one entry for each parameter
    of the saved copy [x]; [None]: an entry that is not a finite number. *)
Fixpoint dec_backward (f : LCWB.comp -> res (option R)) (g : R) (ks : seq LCWB.comp) : res (seq (option R)) :=
  match ks with
  | [::] => Ok [::]
  | k :: ks' => (do d <- f k; do r <- dec_backward f g ks'; Ok (omap (fun d => g * d) d :: r))%res
  end.

(** Elements.v -- model of SQcircuit/elements.py (values, units, errors).

    Simplifications: numbers are exact reals.  A Python float division by zero
    raises ZeroDivisionError (this is also what the PyTorch engine does in
    [set_value] with Python-float arguments; [get_value] on a zero tensor would
    give inf there, the model reports ZeroDivisionError).  [torch.normal] is
    [mean + z * std] for a standard-normal draw [z] that is an argument. *)
From Verif.Model Require Import Base Units Settings.
Open Scope string_scope.
Open Scope R_scope.

Inductive kind : Set := KCap | KInd | KJJ.

(** The value-carrying attributes of an element: [_value] (26-35), [_error]
    (71-77), and whether gradients were requested (37-47). *)
Record elem : Type := mkEl { el_kind : kind; el_val : R; el_err : R; el_grad : bool }.

(** elements.py 169-176, 325-334, 509-514: [_check_unit_format]; [None] passes. *)
Definition check_unit_format (k : kind) (u : option string) : res unit :=
  let is_none := match u with None => true | Some _ => false end in
  let bad := match k with
    | KCap => negb (mem_opt freq_list u) && negb (mem_opt farad_list u) && negb is_none
    | KInd => negb (mem_opt freq_list u) && negb (mem_opt henry_list u) && negb is_none
    | KJJ => negb (mem_opt freq_list u) && negb is_none
    end in
  if bad then Err ValueError else Ok tt.

(** Float division. *)
Definition pydiv (a b : R) : res R :=
  if Req_EM_T b 0 then Err ZeroDivisionError else Ok (a / b).

(** The nominal internal value: elements.py 193-197 (capacitor), 351-355
    (inductor), 531 (junction). *)
Definition nominal (k : kind) (v : R) (u : option string) : res R :=
  match k with
  | KCap =>
      if mem_opt farad_list u then do f <- getitem farad_list u; Ok (v * f)
      else do f <- getitem freq_list u;
           let energy := v * f * (2 * PI * hbar) in
           pydiv (e_charge ^ 2 / 2) energy
  | KInd =>
      if mem_opt henry_list u then do f <- getitem henry_list u; Ok (v * f)
      else do f <- getitem freq_list u;
           let energy := v * f * (2 * PI * hbar) in
           pydiv ((Phi0 / 2 / PI) ^ 2) energy
  | KJJ => do f <- getitem freq_list u; Ok (v * f * 2 * PI)
  end%res.

(** elements.py 79-87: [_set_value_with_error]; [torch.normal] raises
    RuntimeError for a negative standard deviation.  [z] is the draw. *)
Definition sample (mean error z : R) : res R :=
  let std := mean * error / 100 in
  if Rlt_dec std 0 then Err RuntimeError else Ok (mean + z * std).

(** elements.py 178-199, 336-357, 516-533: [set_value].  The order is: unit
    check, store the error attribute, compute, store the value. *)
Definition set_value (v : R) (u : option string) (e z : R) (x : elem) : elem * res unit :=
  match check_unit_format (el_kind x) u with
  | Err er => (x, Err er)
  | Ok _ =>
      let x1 := mkEl (el_kind x) (el_val x) e (el_grad x) in
      match (do m <- nominal (el_kind x) v u; sample m e z)%res with
      | Err er => (x1, Err er)
      | Ok w => (mkEl (el_kind x) w e (el_grad x), Ok tt)
      end
  end.

(** elements.py 201-221, 359-377, 535-547: [get_value]. *)
Definition get_value (u : option string) (x : elem) : res R :=
  match el_kind x with
  | KCap =>
      if mem_opt farad_list u then do f <- getitem farad_list u; pydiv (el_val x) f
      else if mem_opt freq_list u then
        do f <- getitem freq_list u;
        do a <- pydiv (e_charge ^ 2 / 2) (el_val x);
        Ok (a / (2 * PI * hbar) / f)
      else Err ValueError
  | KInd =>
      if mem_opt henry_list u then do f <- getitem henry_list u; pydiv (el_val x) f
      else if mem_opt freq_list u then
        do f <- getitem freq_list u;
        do a <- pydiv ((Phi0 / 2 / PI) ^ 2) (el_val x);
        Ok (a / (2 * PI * hbar) / f)
      else Err ValueError
  | KJJ =>
      if mem_opt freq_list u then do f <- getitem freq_list u; pydiv (el_val x) f
      else Err ValueError
  end%res.

(** The default unit looked up by the constructors (elements.py 146-147,
    292-293, 477-478). *)
Definition default_unit (k : kind) (st : ustate) : string :=
  match k with
  | KCap => get_unit_cap st | KInd => get_unit_ind st | KJJ => get_unit_JJ st
  end.

(** elements.py 136-155, 280-301, 462-487: the constructors, up to the parts
    that do not concern the value.  [eng] is the engine global. *)
Definition construct (eng : string) (st : ustate) (k : kind) (v : R) (u : option string)
    (requires_grad : bool) (e z : R) : res elem :=
  let u' := match u with None => Some (default_unit k st) | Some s => Some s end in
  (do _ <- check_unit_format k u;
   let (x, r) := set_value v u' e z (mkEl k 0 0 false) in
   do _ <- r;
   if requires_grad then
     do _ <- raise_optim_error_if_needed eng; Ok (mkEl k (el_val x) (el_err x) true)
   else Ok x)%res.

(** elements.py 235-244 *)
Definition very_small_cap : R := 1e-20.
Definition very_large_cap : R := 1e20.

(** elements.py 406-413 and 564-571: [get_cap_for_flux_dist]; [c] is the
    element's own capacitor in farad.  [None] models Python's implicit [None]. *)
Definition cap_for_flux_dist (k : kind) (flux_dist : string) (c : R) : option R :=
  if String.eqb flux_dist "all" then Some c
  else if String.eqb flux_dist "junctions" then
    match k with KInd => Some very_large_cap | KJJ => Some very_small_cap | KCap => None end
  else if String.eqb flux_dist "inductors" then
    match k with KInd => Some very_small_cap | KJJ => Some very_large_cap | KCap => None end
  else None.

(** elements.py 599-681: Loop (indices and k_mat are in LCWB.v). *)
Record loop : Type := mkLoop { loop_val : R; loop_A : R }.

(** elements.py 661-672 *)
Definition set_flux (x : R) (l : loop) : loop := mkLoop (x * 2 * PI) (loop_A l).
(** elements.py 674-675 *)
Definition loop_set_noise (A : R) (l : loop) : loop := mkLoop (loop_val l) A.
(** elements.py 617-634 *)
Definition new_loop (value A : R) : loop :=
  let l := set_flux value (mkLoop 0 0) in mkLoop (loop_val l) (A * 2 * PI).
(** elements.py 645-659; [z] is the draw used when [random] is set. *)
Definition loop_value (random : bool) (z : R) (l : loop) : R :=
  if random then loop_val l + z * loop_A l else loop_val l.

(** elements.py 693-726: Charge. *)
Record charge : Type := mkCharge { chValue : R; ch_A : R }.
Definition new_charge : charge := mkCharge 0 1e-4.
Definition charge_value (random : bool) (z : R) (c : charge) : R :=
  if random then chValue c + z * ch_A c else chValue c.
Definition set_offset (x : R) (c : charge) : charge := mkCharge x (ch_A c).
Definition charge_set_noise (A : R) (c : charge) : charge := mkCharge (chValue c) A.

(** elements.py 228-232: default capacitor quality factor. *)
Definition default_q_cap (omega : R) : R :=
  1e6 * Rpower (2 * PI * 6e9 / Rabs omega) 0.7.

(** functions.py 52-56 *)
Definition log_sinh (x : R) : R := x + ln (1 - exp (- 2 * x)) - ln 2.

(** functions.py 129-138: [kve(0, x)] is the exponentially scaled Bessel
    function, an argument of the model; [log_k0 x = log (k0e x) - x]. *)
Definition log_k0 (k0e : R -> R) (x : R) : R := ln (k0e x) - x.

(** elements.py 379-391: default inductor quality factor. *)
Definition default_q_ind (k0e : R -> R) (omega temp : R) : R :=
  let alpha := hbar * 2 * PI * 0.5e9 / (2 * k_B * temp) in
  let beta := hbar * omega / (2 * k_B * temp) in
  500e6 * exp (log_k0 k0e alpha + log_sinh alpha - log_k0 k0e beta - log_sinh beta).

(** elements.py 573-596: default junction admittance. *)
Definition default_y_junc (k0e : R -> R) (delta x omega temp : R) : R :=
  let alpha := hbar * omega / (2 * k_B * temp) in
  sqrt (2 / PI)
  * (8 / (delta * 1.6e-19) / (hbar * 2 * PI / e_charge ^ 2))
  * Rpower (2 * (delta * 1.6e-19) / hbar / omega) 1.5
  * x * sqrt alpha * k0e alpha * (1 - exp (- 2 * alpha)) / 2.

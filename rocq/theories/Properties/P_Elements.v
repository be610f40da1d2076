(** C04-C10, C60: element values and units, loops, quality factors. *)
From Coq Require Import Lia Lra.
From Verif.Model Require Import Base Units Settings Elements.
From Verif.Spec Require Import UnitSpec ElementSpec.
From Verif.Proofs Require Import UnitsProofs ElementsProofs.
Open Scope string_scope.
Open Scope R_scope.

(** C04: a capacitor reads back what was set, in every allowed unit. *)
Theorem C04_capacitor_roundtrip : forall v u z x,
  el_kind x = KCap -> valid_cap u -> v <> 0 ->
  get_value (Some u) (fst (set_value v (Some u) 0 z x)) = Ok v.
Proof. exact cap_roundtrip. Qed.
Print Assumptions C04_capacitor_roundtrip.

(** C04/C05: set in one unit and read in another -- both numbers denote the same
    physical component (E_C = e^2/2C, E_L = (Phi0/2pi)^2/L). *)
Theorem C04_C05_units_consistent : forall v u u' z x,
  el_kind x <> KJJ -> allowed (el_kind x) u -> allowed (el_kind x) u' -> v <> 0 ->
  exists y v', set_value v (Some u) 0 z x = (mkEl (el_kind x) y 0 (el_grad x), Ok tt) /\
    get_value (Some u') (fst (set_value v (Some u) 0 z x)) = Ok v' /\
    denotes (el_kind x) u v y /\ denotes (el_kind x) u' v' y.
Proof. exact set_get_denotes. Qed.
Print Assumptions C04_C05_units_consistent.

(** C04/C05: reading in any unit and writing the number back does not change
    the component. *)
Theorem C04_C05_convert_roundtrip : forall x u,
  el_kind x <> KJJ -> allowed (el_kind x) u -> el_val x <> 0 ->
  exists v, get_value (Some u) x = Ok v /\
    forall z, fst (set_value v (Some u) 0 z x) = mkEl (el_kind x) (el_val x) 0 (el_grad x).
Proof. exact convert_roundtrip. Qed.
Print Assumptions C04_C05_convert_roundtrip.

(** The denotation used above is a one-to-one correspondence for each unit. *)
Theorem C04_C05_denotes_one_to_one : forall k u v w x y,
  (denotes k u v x -> denotes k u v y -> x = y) /\
  (denotes k u v x -> denotes k u w x -> v = w).
Proof. exact (fun k u v w x y => conj (denotes_fun k u v x y) (denotes_inj k u v w x)). Qed.
Print Assumptions C04_C05_denotes_one_to_one.

Theorem C05_inductor_roundtrip : forall v u z x,
  el_kind x = KInd -> valid_ind u -> v <> 0 ->
  get_value (Some u) (fst (set_value v (Some u) 0 z x)) = Ok v.
Proof. exact ind_roundtrip. Qed.
Print Assumptions C05_inductor_roundtrip.

Example C04_case : exists y,
  set_value 5 (Some "fF") 0 0 (mkEl KCap 1 0 false) = (mkEl KCap y 0 false, Ok tt) /\ y = 5 * scale (-15) /\
  valid_cap "MHz" /\ exists v', get_value (Some "MHz") (mkEl KCap y 0 false) = Ok v' /\
     photon (v' * scale 6) = e_charge * e_charge / (2 * (5 * scale (-15))).
Proof.
  assert (Hm : freq_unit "MHz" 6) by (exists "M"; split; [constructor|split; [reflexivity|lia]]).
  assert (Hf : farad_unit "fF" (-15)) by (exists "f"; split; [constructor|split; [reflexivity|lia]]).
  destruct (set_get_denotes 5 "fF" "MHz" 0 (mkEl KCap 1 0 false)) as (y & v' & E & Hg & Hd & Hd').
  - discriminate.
  - simpl. right. eauto.
  - simpl. left. eauto.
  - lra.
  - exists y. split; [exact E|].
    assert (Hy : y = 5 * scale (-15)).
    { eapply denotes_fun; [exact Hd|]. eapply den_farad; eauto. }
    split; auto. split; [left; eauto|]. exists v'. rewrite E in Hg. split; [exact Hg|].
    inversion Hd' as [? k' ? ? Hu' Hx'|? k' ? ? Hu' Hx' E'| | |].
    + exfalso. eapply freq_not_farad; eauto.
    + rewrite (is_unit_inj _ _ _ _ _ _ Hm Hu'), E', Hy. reflexivity.
Qed.

(** C06 (refuted): a junction does not report the value it was given; it
    reports 2*pi times that value, for every value and unit. *)
Theorem C06_junction_reports_angular : forall v u z x,
  el_kind x = KJJ -> valid_freq u ->
  get_value (Some u) (fst (set_value v (Some u) 0 z x)) = Ok (2 * PI * v) /\
  denotes KJJ u v (el_val (fst (set_value v (Some u) 0 z x))).
Proof. exact junction_get_set. Qed.
Print Assumptions C06_junction_reports_angular.

Theorem C06_junction_roundtrip_refuted :
  exists v u z x, el_kind x = KJJ /\ valid_freq u /\ v <> 0 /\
    get_value (Some u) (fst (set_value v (Some u) 0 z x)) <> Ok v.
Proof.
  exists 5, "GHz", 0, (mkEl KJJ 0 0 false).
  split; [reflexivity|]. split; [eexists; exact valid_GHz|]. split; [lra|].
  rewrite (proj1 (junction_get_set 5 "GHz" 0 (mkEl KJJ 0 0 false) eq_refl (ex_intro _ _ valid_GHz))).
  intros H. injection H as H. pose proof PI2_3_2. unfold PI2 in *. lra.
Qed.
Print Assumptions C06_junction_roundtrip_refuted.

(** C07: a unit that is not documented for the kind is rejected everywhere, and
    nothing changes. *)
Theorem C07_invalid_unit_rejected : forall v u e z x eng st k g,
  (~ allowed (el_kind x) u ->
     set_value v (Some u) e z x = (x, Err ValueError) /\ get_value (Some u) x = Err ValueError) /\
  (~ allowed k u -> construct eng st k v (Some u) g e z = Err ValueError).
Proof.
  exact (fun v u e z x eng st k g =>
    conj (fun H => conj (invalid_unit_set v u e z x H) (invalid_unit_get u x H))
         (invalid_unit_construct eng st k v u g e z)).
Qed.
Print Assumptions C07_invalid_unit_rejected.

(** C07: with an allowed unit [set_value] fails only for zero energy or for a
    negative standard deviation. *)
Theorem C07_allowed_unit_failures : forall v u e z x er,
  allowed (el_kind x) u -> snd (set_value v (Some u) e z x) = Err er ->
  (er = ZeroDivisionError /\ v = 0) \/ (er = RuntimeError /\ v * e < 0).
Proof. exact allowed_unit_failures. Qed.
Print Assumptions C07_allowed_unit_failures.

(** C07 (finding): unit [None] passes the unit check of [set_value], then raises
    KeyError after the error attribute was overwritten. *)
Theorem C07_none_unit_keyerror : forall v e z x,
  set_value v None e z x = (mkEl (el_kind x) (el_val x) e (el_grad x), Err KeyError) /\
  get_value None x = Err ValueError.
Proof. exact none_unit. Qed.
Print Assumptions C07_none_unit_keyerror.

Example C07_case : ~ allowed KJJ "fF" /\ allowed KCap "fF".
Proof.
  split.
  - simpl. unfold valid_freq. rewrite <- mem_freq. vm_compute. congruence.
  - right. exists (-15)%Z. exists "f". split; [constructor|split; [reflexivity|lia]].
Qed.

(** C08 *)
Theorem C08_default_unit : forall eng calls k v g e z,
  let st := unit_run calls ustate_init in
  let u := match k with KCap => get_unit_cap st | KInd => get_unit_ind st | KJJ => get_unit_JJ st end in
  allowed k u /\ construct eng st k v None g e z = construct eng st k v (Some u) g e z.
Proof. exact construct_default. Qed.
Print Assumptions C08_default_unit.

Theorem C08_constructed_value : forall eng st k v u z,
  allowed k u -> v <> 0 ->
  exists y, construct eng st k v (Some u) false 0 z = Ok (mkEl k y 0 false) /\ denotes k u v y.
Proof. exact construct_value. Qed.
Print Assumptions C08_constructed_value.

(** C02/C08: a gradient-tracking element can be created exactly with PyTorch. *)
Theorem C02_requires_grad_needs_pytorch : forall calls st k v u z,
  allowed k u -> v <> 0 ->
  let eng := eng_run calls eng_init in
  (get_engine eng = "numpy" -> construct eng st k v (Some u) true 0 z = Err ModeError) /\
  (get_engine eng = "pytorch" -> exists y, construct eng st k v (Some u) true 0 z = Ok (mkEl k y 0 true)
      /\ denotes k u v y).
Proof. exact construct_grad. Qed.
Print Assumptions C02_requires_grad_needs_pytorch.

Example C08_case :
  get_unit_ind (unit_run [CallInd "nH"; CallInd "furlong"] ustate_init) = "nH".
Proof. reflexivity. Qed.

(** C09 *)
Theorem C09_loop_flux : forall x l z,
  loop_value false z (set_flux x l) = 2 * PI * x /\ loop_A (set_flux x l) = loop_A l.
Proof. exact loop_flux. Qed.
Print Assumptions C09_loop_flux.

Theorem C09_loop_noise_refuted : forall v A, A <> 0 ->
  loop_set_noise A (new_loop v 0) <> new_loop v A.
Proof. exact loop_noise_refute. Qed.
Print Assumptions C09_loop_noise_refuted.

(** C10 *)
Theorem C10_fabrication_error : forall v u e z x,
  allowed (el_kind x) u -> v <> 0 -> 0 <= v * e ->
  exists y w, denotes (el_kind x) u v y /\
    set_value v (Some u) e z x = (mkEl (el_kind x) w e (el_grad x), Ok tt) /\
    w - y = y * (e / 100) * z.
Proof. exact fabrication. Qed.
Print Assumptions C10_fabrication_error.

Example C10_case : allowed KJJ "GHz" /\ 0 <= 5 * 20.
Proof. split; [eexists; exact valid_GHz|lra]. Qed.

(** C60 *)
Theorem C60_log_sinh : forall x, 0 < x -> log_sinh x = ln (sinh x).
Proof. exact log_sinh_spec. Qed.
Print Assumptions C60_log_sinh.

Theorem C60_default_q_cap : forall w, w <> 0 ->
  0 < default_q_cap w /\
  (Rabs w = 2 * PI * (6 * 10 ^ 9) -> default_q_cap w = 10 ^ 6) /\
  (forall w', 0 < Rabs w < Rabs w' -> default_q_cap w' < default_q_cap w) /\
  (forall w', w' <> 0 -> default_q_cap w / default_q_cap w' = Rpower (Rabs w' / Rabs w) (7 / 10)).
Proof.
  exact (fun w Hw => conj (q_cap_pos w Hw) (conj (q_cap_anchor w)
    (conj (q_cap_decreasing w) (fun w' => q_cap_power w w' Hw)))).
Qed.
Print Assumptions C60_default_q_cap.

Theorem C60_default_q_ind : forall k0e w t,
  (forall x, 0 < x -> 0 < k0e x) -> 0 < w -> 0 < t ->
  let k0 x := k0e x * exp (- x) in
  let a := 2 * PI * hbar * (5 * 10 ^ 8) / (2 * k_B * t) in
  let b := hbar * w / (2 * k_B * t) in
  default_q_ind k0e w t = 5 * 10 ^ 8 * (k0 a * sinh a / (k0 b * sinh b)).
Proof. exact q_ind_spec. Qed.
Print Assumptions C60_default_q_ind.

Theorem C60_default_q_ind_anchor : forall k0e t,
  (forall x, 0 < x -> 0 < k0e x) -> 0 < t ->
  default_q_ind k0e (2 * PI * (5 * 10 ^ 8)) t = 5 * 10 ^ 8.
Proof. exact q_ind_anchor. Qed.
Print Assumptions C60_default_q_ind_anchor.

Example C60_case : (forall x, 0 < x -> 0 < exp (-x)) /\ 0 < sinh 1.
Proof. split; [intros; apply exp_pos|]. rewrite <- sinh_0. apply sinh_lt. lra. Qed.

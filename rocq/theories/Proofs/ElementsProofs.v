From Coq Require Import Lia Lra.
From Verif.Model Require Import Base Units Settings Elements.
From Verif.Spec Require Import UnitSpec UnitHistory ElementSpec.
From Verif.Proofs Require Import UnitsProofs.
Open Scope string_scope.
Open Scope R_scope.

(** Non-zero goals on syntactic products, quotients and powers. *)
Ltac nz :=
  repeat match goal with
  | |- (_ * _)%R <> 0%R => apply Rmult_integral_contrapositive_currified
  | |- (_ / _)%R <> 0%R => unfold Rdiv at 1
  | |- (/ _)%R <> 0%R => apply Rinv_neq_0_compat
  | |- (_ ^ _)%R <> 0%R => apply pow_nonzero
  | |- _ <> 0%R => first [assumption | lra]
  end.

(** Positivity of syntactic products and quotients. *)
Ltac pos :=
  repeat match goal with
  | |- 0%R < (_ * _)%R => apply Rmult_lt_0_compat
  | |- 0%R < (_ / _)%R => apply Rdiv_lt_0_compat
  | |- 0%R < (/ _)%R => apply Rinv_0_lt_compat
  | |- 0%R < exp _ => apply exp_pos
  | |- 0%R < _ => first [assumption | lra]
  end.

Lemma hbar_pos : 0 < hbar. Proof. unfold hbar; lra. Qed.
Lemma e_pos : 0 < e_charge. Proof. unfold e_charge; lra. Qed.
Lemma Phi0_pos : 0 < Phi0. Proof. unfold Phi0; lra. Qed.
Lemma k_B_pos : 0 < k_B. Proof. unfold k_B; lra. Qed.

Lemma check_ok k u : allowed k u -> check_unit_format k (Some u) = Ok tt.
Proof.
  destruct k; simpl; unfold valid_cap, valid_ind, valid_freq, check_unit_format, mem_opt;
  rewrite <- mem_freq, <- ?mem_farad, <- ?mem_henry;
  destruct (mem freq_list u), (mem farad_list u), (mem henry_list u); simpl; intuition congruence.
Qed.
Lemma check_err k u : ~ allowed k u -> check_unit_format k (Some u) = Err ValueError.
Proof.
  destruct k; simpl; unfold valid_cap, valid_ind, valid_freq, check_unit_format, mem_opt;
  rewrite <- mem_freq, <- ?mem_farad, <- ?mem_henry;
  destruct (mem freq_list u), (mem farad_list u), (mem henry_list u); simpl; intuition congruence.
Qed.

(** No name is both a frequency and a farad/henry unit. *)
Lemma freq_not_farad u k k' : freq_unit u k -> farad_unit u k' -> False.
Proof.
  intros (p & Hp & -> & _) (q & Hq & E & _).
  destruct Hp; destruct Hq; discriminate E.
Qed.
Lemma freq_not_henry u k k' : freq_unit u k -> henry_unit u k' -> False.
Proof.
  intros (p & Hp & -> & _) (q & Hq & E & _).
  destruct Hp; destruct Hq; discriminate E.
Qed.

Lemma getitem_freq u k : freq_unit u k -> getitem freq_list (Some u) = Ok (scale k).
Proof. intros H. unfold getitem. rewrite (proj2 (freq_lookup u (scale k))) by eauto. reflexivity. Qed.
Lemma getitem_farad u k : farad_unit u k -> getitem farad_list (Some u) = Ok (scale k).
Proof. intros H. unfold getitem. rewrite (proj2 (farad_lookup u (scale k))) by eauto. reflexivity. Qed.
Lemma getitem_henry u k : henry_unit u k -> getitem henry_list (Some u) = Ok (scale k).
Proof. intros H. unfold getitem. rewrite (proj2 (henry_lookup u (scale k))) by eauto. reflexivity. Qed.

Lemma mem_farad_false u k : freq_unit u k -> mem farad_list u = false.
Proof.
  intros H. destruct (mem farad_list u) eqn:E; auto. apply mem_farad in E as (k' & H').
  exfalso; eapply freq_not_farad; eauto.
Qed.
Lemma mem_henry_false u k : freq_unit u k -> mem henry_list u = false.
Proof.
  intros H. destruct (mem henry_list u) eqn:E; auto. apply mem_henry in E as (k' & H').
  exfalso; eapply freq_not_henry; eauto.
Qed.

Lemma pydiv_ok a b : b <> 0 -> pydiv a b = Ok (a / b).
Proof. intros H. unfold pydiv. destruct (Req_EM_T b 0); congruence. Qed.

(** *** set: the nominal value is the denoted one *)
Lemma nominal_denotes k u v :
  allowed k u -> v <> 0 -> exists x, nominal k v (Some u) = Ok x /\ denotes k u v x /\ x <> 0.
Proof.
  intros Ha Hv. pose proof hbar_pos. pose proof e_pos. pose proof Phi0_pos. pose proof PI_RGT_0.
  destruct k; simpl in Ha; unfold valid_cap, valid_ind, valid_freq in Ha.
  - destruct Ha as [(k & Hk)|(k & Hk)]; pose proof (scale_pos k).
    + unfold nominal, mem_opt. rewrite (mem_farad_false _ _ Hk), (getitem_freq _ _ Hk). cbn [bind].
      assert (v * scale k * (2 * PI * hbar) <> 0) by nz.
      rewrite pydiv_ok by auto. eexists; split; [reflexivity|].
      assert (e_charge ^ 2 / 2 / (v * scale k * (2 * PI * hbar)) <> 0).
      { nz. }
      split; auto. eapply den_EC; eauto. unfold photon. field. repeat split; lra.
    + unfold nominal, mem_opt. rewrite (proj2 (mem_farad u)), (getitem_farad _ _ Hk) by eauto. cbn [bind].
      eexists; split; [reflexivity|]. split; [eapply den_farad; eauto|].
      nz.
  - destruct Ha as [(k & Hk)|(k & Hk)]; pose proof (scale_pos k).
    + unfold nominal, mem_opt. rewrite (mem_henry_false _ _ Hk), (getitem_freq _ _ Hk). cbn [bind].
      assert (v * scale k * (2 * PI * hbar) <> 0) by nz.
      rewrite pydiv_ok by auto. eexists; split; [reflexivity|].
      assert ((Phi0 / 2 / PI) ^ 2 / (v * scale k * (2 * PI * hbar)) <> 0).
      { nz. }
      split; auto. eapply den_EL; eauto. unfold photon. field. repeat split; lra.
    + unfold nominal, mem_opt. rewrite (proj2 (mem_henry u)), (getitem_henry _ _ Hk) by eauto. cbn [bind].
      eexists; split; [reflexivity|]. split; [eapply den_henry; eauto|].
      nz.
  - destruct Ha as (k & Hk). pose proof (scale_pos k).
    unfold nominal. rewrite (getitem_freq _ _ Hk). cbn [bind]. eexists; split; [reflexivity|].
    split; [eapply den_EJ; [eauto|ring]|]. nz.
Qed.

(** *** get: the reported number denotes the stored value (capacitor, inductor) *)
Lemma get_denotes x u :
  el_kind x <> KJJ -> allowed (el_kind x) u -> el_val x <> 0 ->
  exists v, get_value (Some u) x = Ok v /\ denotes (el_kind x) u v (el_val x) /\ v <> 0.
Proof.
  intros Hk Ha Hx. pose proof hbar_pos. pose proof e_pos. pose proof Phi0_pos. pose proof PI_RGT_0.
  destruct x as [kk w er g]; cbn [el_kind el_val] in *. unfold get_value; cbn [el_kind el_val].
  destruct kk; [| |congruence]; simpl in Ha; unfold valid_cap, valid_ind in Ha.
  - destruct Ha as [(k & Hu)|(k & Hu)]; pose proof (scale_pos k); unfold mem_opt.
    + rewrite (mem_farad_false _ _ Hu), (proj2 (mem_freq u)), (getitem_freq _ _ Hu) by eauto. cbn [bind].
      rewrite pydiv_ok by auto. cbn [bind]. eexists; split; [reflexivity|]. split.
      * eapply den_EC; eauto. unfold photon. field. repeat split; lra.
      * nz.
    + rewrite (proj2 (mem_farad u)), (getitem_farad _ _ Hu) by eauto. cbn [bind].
      rewrite pydiv_ok by lra. eexists; split; [reflexivity|]. split.
      * eapply den_farad; eauto. field. lra.
      * nz.
  - destruct Ha as [(k & Hu)|(k & Hu)]; pose proof (scale_pos k); unfold mem_opt.
    + rewrite (mem_henry_false _ _ Hu), (proj2 (mem_freq u)), (getitem_freq _ _ Hu) by eauto. cbn [bind].
      rewrite pydiv_ok by auto. cbn [bind]. eexists; split; [reflexivity|]. split.
      * eapply den_EL; eauto. unfold photon. field. repeat split; lra.
      * nz.
    + rewrite (proj2 (mem_henry u)), (getitem_henry _ _ Hu) by eauto. cbn [bind].
      rewrite pydiv_ok by lra. eexists; split; [reflexivity|]. split.
      * eapply den_henry; eauto. field. lra.
      * nz.
Qed.

Lemma Rdiv_cancel a x y : a <> 0 -> x <> 0 -> y <> 0 -> a / x = a / y -> x = y.
Proof.
  intros Ha Hx Hy H. unfold Rdiv in H. apply Rmult_eq_reg_l in H; auto.
  rewrite <- (Rinv_inv x), H, Rinv_inv. reflexivity.
Qed.

(** A number in a unit denotes at most one internal value, and vice versa. *)
Lemma denotes_fun k u v x y : denotes k u v x -> denotes k u v y -> x = y.
Proof.
  pose proof e_pos. pose proof Phi0_pos. pose proof PI_RGT_0.
  assert (He : e_charge * e_charge / 2 <> 0).
  { nz. }
  assert (Hf : Phi0 / (2 * PI) * (Phi0 / (2 * PI)) <> 0).
  { nz. }
  destruct 1 as [u k v x Hu Hx|u k v x Hu Hx E|u k v x Hu Hx|u k v x Hu Hx E|u k v x Hu Hx];
  inversion 1 as [? k' ? ? Hu' Hx'|? k' ? ? Hu' Hx' E'|? k' ? ? Hu' Hx'|? k' ? ? Hu' Hx' E'|? k' ? ? Hu' Hx'];
  subst;
  try (exfalso; eapply freq_not_farad; eauto; fail);
  try (exfalso; eapply freq_not_henry; eauto; fail);
  try (rewrite (is_unit_inj _ _ _ _ _ _ Hu Hu'); ring).
  - pose proof (is_unit_inj _ _ _ _ _ _ Hu Hu'); subst. rewrite E in E'.
    apply (Rdiv_cancel (e_charge * e_charge / 2)); auto.
    replace (e_charge * e_charge / 2 / x) with (e_charge * e_charge / (2 * x)) by (field; auto).
    rewrite E'. field; auto.
  - pose proof (is_unit_inj _ _ _ _ _ _ Hu Hu'); subst. rewrite E in E'.
    apply (Rdiv_cancel (Phi0 / (2 * PI) * (Phi0 / (2 * PI)))); auto.
Qed.

Lemma denotes_inj k u v w x : denotes k u v x -> denotes k u w x -> v = w.
Proof.
  pose proof hbar_pos. pose proof PI_RGT_0.
  assert (Hc : forall a b k, photon (a * scale k) = photon (b * scale k) -> a = b).
  { intros a b kk Hab. unfold photon in Hab. pose proof (scale_pos kk).
    apply (Rmult_eq_reg_r (scale kk)); [|lra].
    apply (Rmult_eq_reg_l (2 * PI * hbar)); [exact Hab|].
    nz. }
  destruct 1 as [u k v x Hu Hx|u k v x Hu Hx E|u k v x Hu Hx|u k v x Hu Hx E|u k v x Hu Hx];
  inversion 1 as [? k' ? ? Hu' Hx'|? k' ? ? Hu' Hx' E'|? k' ? ? Hu' Hx'|? k' ? ? Hu' Hx' E'|? k' ? ? Hu' Hx'];
  try (exfalso; eapply freq_not_farad; eauto; fail);
  try (exfalso; eapply freq_not_henry; eauto; fail);
  pose proof (is_unit_inj _ _ _ _ _ _ Hu Hu'); subst k'; pose proof (scale_pos k).
  - apply (Rmult_eq_reg_r (scale k)); lra.
  - rewrite <- E' in E. eauto.
  - apply (Rmult_eq_reg_r (scale k)); lra.
  - rewrite <- E' in E. eauto.
  - apply (Rmult_eq_reg_r (scale k)); [|lra]. apply (Rmult_eq_reg_l (2 * PI)); [|lra].
    congruence.
Qed.

Lemma sample_0 m z : sample m 0 z = Ok m.
Proof.
  unfold sample. destruct (Rlt_dec (m * 0 / 100) 0) as [H|H]; [lra|]. f_equal. lra.
Qed.

Lemma set_value_ok v u z x :
  allowed (el_kind x) u -> v <> 0 ->
  exists y, set_value v (Some u) 0 z x = (mkEl (el_kind x) y 0 (el_grad x), Ok tt) /\
            denotes (el_kind x) u v y /\ y <> 0.
Proof.
  intros Ha Hv. unfold set_value. rewrite check_ok by auto.
  destruct (nominal_denotes _ _ _ Ha Hv) as (y & -> & Hd & Hy). cbn [bind].
  rewrite sample_0. eauto.
Qed.

(** C04 / C05: set in [u], read in [u'] *)
Lemma set_get_denotes v u u' z x :
  el_kind x <> KJJ -> allowed (el_kind x) u -> allowed (el_kind x) u' -> v <> 0 ->
  exists y v', set_value v (Some u) 0 z x = (mkEl (el_kind x) y 0 (el_grad x), Ok tt) /\
    get_value (Some u') (fst (set_value v (Some u) 0 z x)) = Ok v' /\
    denotes (el_kind x) u v y /\ denotes (el_kind x) u' v' y.
Proof.
  intros Hk Ha Ha' Hv. destruct (set_value_ok v u z x Ha Hv) as (y & E & Hd & Hy).
  destruct (get_denotes (mkEl (el_kind x) y 0 (el_grad x)) u') as (v' & Hg & Hd' & _); auto.
  exists y, v'. rewrite E. auto.
Qed.

Lemma set_get_same v u z x :
  el_kind x <> KJJ -> allowed (el_kind x) u -> v <> 0 ->
  get_value (Some u) (fst (set_value v (Some u) 0 z x)) = Ok v.
Proof.
  intros Hk Ha Hv. destruct (set_get_denotes v u u z x Hk Ha Ha Hv) as (y & v' & _ & Hg & H1 & H2).
  rewrite Hg. f_equal. eapply denotes_inj; eauto.
Qed.

Lemma cap_roundtrip v u z x :
  el_kind x = KCap -> valid_cap u -> v <> 0 ->
  get_value (Some u) (fst (set_value v (Some u) 0 z x)) = Ok v.
Proof. intros Hk Hu Hv. apply set_get_same; rewrite ?Hk; auto. discriminate. Qed.
Lemma ind_roundtrip v u z x :
  el_kind x = KInd -> valid_ind u -> v <> 0 ->
  get_value (Some u) (fst (set_value v (Some u) 0 z x)) = Ok v.
Proof. intros Hk Hu Hv. apply set_get_same; rewrite ?Hk; auto. discriminate. Qed.

Lemma convert_roundtrip x u :
  el_kind x <> KJJ -> allowed (el_kind x) u -> el_val x <> 0 ->
  exists v, get_value (Some u) x = Ok v /\
    forall z, fst (set_value v (Some u) 0 z x) = mkEl (el_kind x) (el_val x) 0 (el_grad x).
Proof.
  intros Hk Ha Hx. destruct (get_denotes x u Hk Ha Hx) as (v & Hg & Hd & Hv).
  exists v. split; auto. intros z.
  destruct (set_value_ok v u z x Ha Hv) as (y & E & Hd' & _). rewrite E. simpl.
  rewrite (denotes_fun _ _ _ _ _ Hd' Hd). reflexivity.
Qed.

(** C06 *)
Lemma junction_get_set v u z x :
  el_kind x = KJJ -> valid_freq u ->
  get_value (Some u) (fst (set_value v (Some u) 0 z x)) = Ok (2 * PI * v) /\
  denotes KJJ u v (el_val (fst (set_value v (Some u) 0 z x))).
Proof.
  intros Hk Hu. pose proof Hu as (k & Hk'). pose proof (scale_pos k).
  assert (E : set_value v (Some u) 0 z x = (mkEl KJJ (v * scale k * 2 * PI) 0 (el_grad x), Ok tt)).
  { unfold set_value. rewrite Hk, check_ok by (simpl; auto). unfold nominal.
    rewrite (getitem_freq _ _ Hk'). cbn [bind]. rewrite sample_0. reflexivity. }
  rewrite E. simpl fst. split.
  - unfold get_value, mem_opt; cbn [el_kind el_val].
    rewrite (proj2 (mem_freq u)), (getitem_freq _ _ Hk') by eauto. cbn [bind].
    rewrite pydiv_ok by lra. f_equal. field. lra.
  - simpl. eapply den_EJ; eauto. ring.
Qed.

Lemma two_pi_neq_1 : 2 * PI <> 1.
Proof. pose proof PI2_3_2. unfold PI2 in *. lra. Qed.

(** C07 *)
Lemma invalid_unit_set v u e z x :
  ~ allowed (el_kind x) u -> set_value v (Some u) e z x = (x, Err ValueError).
Proof. intros H. unfold set_value. rewrite check_err by auto. reflexivity. Qed.
Lemma invalid_unit_get u x :
  ~ allowed (el_kind x) u -> get_value (Some u) x = Err ValueError.
Proof.
  destruct x as [k w e g]; unfold get_value; cbn [el_kind]. unfold mem_opt.
  destruct k; simpl; unfold valid_cap, valid_ind, valid_freq;
  rewrite <- mem_freq, <- ?mem_farad, <- ?mem_henry;
  destruct (mem freq_list u), (mem farad_list u), (mem henry_list u); simpl; intuition congruence.
Qed.
Lemma invalid_unit_construct eng st k v u g e z :
  ~ allowed k u -> construct eng st k v (Some u) g e z = Err ValueError.
Proof. intros H. unfold construct. rewrite check_err by auto. reflexivity. Qed.
Lemma none_unit v e z x :
  set_value v None e z x = (mkEl (el_kind x) (el_val x) e (el_grad x), Err KeyError) /\
  get_value None x = Err ValueError.
Proof. destruct x as [[] ? ? ?]; split; reflexivity. Qed.

(** Allowed unit: the only possible failures are a zero energy and a negative
    standard deviation. *)
Lemma allowed_unit_failures v u e z x er :
  allowed (el_kind x) u -> snd (set_value v (Some u) e z x) = Err er ->
  (er = ZeroDivisionError /\ v = 0) \/ (er = RuntimeError /\ v * e < 0).
Proof.
  intros Ha. pose proof hbar_pos. pose proof PI_RGT_0. pose proof e_pos. pose proof Phi0_pos.
  unfold set_value. rewrite check_ok by auto.
  destruct (Req_EM_T v 0) as [->|Hv].
  - (* v = 0 *)
    destruct (el_kind x); simpl in Ha; unfold valid_cap, valid_ind, valid_freq in Ha; unfold nominal, mem_opt.
    + destruct Ha as [(k & Hk)|(k & Hk)].
      * rewrite (mem_farad_false _ _ Hk), (getitem_freq _ _ Hk). cbn [bind].
        unfold pydiv. destruct (Req_EM_T _ 0) as [|n]; [|exfalso; apply n; ring]. simpl. intros [= <-]; auto.
      * rewrite (proj2 (mem_farad u)), (getitem_farad _ _ Hk) by eauto. cbn [bind]. unfold sample.
        destruct (Rlt_dec _ 0) as [L|]; simpl; [lra|discriminate].
    + destruct Ha as [(k & Hk)|(k & Hk)].
      * rewrite (mem_henry_false _ _ Hk), (getitem_freq _ _ Hk). cbn [bind].
        unfold pydiv. destruct (Req_EM_T _ 0) as [|n]; [|exfalso; apply n; ring]. simpl. intros [= <-]; auto.
      * rewrite (proj2 (mem_henry u)), (getitem_henry _ _ Hk) by eauto. cbn [bind]. unfold sample.
        destruct (Rlt_dec _ 0) as [L|]; simpl; [lra|discriminate].
    + destruct Ha as (k & Hk). rewrite (getitem_freq _ _ Hk). cbn [bind]. unfold sample.
      destruct (Rlt_dec _ 0) as [L|]; simpl; [lra|discriminate].
  - destruct (nominal_denotes _ _ _ Ha Hv) as (y & -> & Hd & Hy). cbn [bind]. unfold sample.
    destruct (Rlt_dec (y * e / 100) 0) as [L|]; simpl; [|discriminate]. intros [= <-]. right. split; auto.
    (* y and v have the same sign *)
    assert (Hs : 0 < y * v).
    { assert (Hsq : 0 < v * v) by nra.
      inversion Hd as [? k' ? ? Hu' Hx'|? k' ? ? Hu' Hx' E'|? k' ? ? Hu' Hx'|? k' ? ? Hu' Hx' E'|? k' ? ? Hu' Hx'];
      pose proof (scale_pos k').
      - rewrite Hx'. replace (v * scale k' * v) with (v * v * scale k') by ring. apply Rmult_lt_0_compat; auto.
      - assert (Hm : photon (v * scale k') * (2 * y) = e_charge * e_charge) by (rewrite E'; field; auto).
        unfold photon in Hm.
        assert (Hq : 0 < (4 * PI * hbar * scale k') * (y * v)).
        { replace (4 * PI * hbar * scale k' * (y * v)) with (2 * PI * hbar * (v * scale k') * (2 * y)) by ring.
          rewrite Hm. nra. }
        apply (Rmult_lt_reg_l (4 * PI * hbar * scale k')).
        + pos.
        + lra.
      - rewrite Hx'. replace (v * scale k' * v) with (v * v * scale k') by ring. apply Rmult_lt_0_compat; auto.
      - assert (Hm : photon (v * scale k') * y = Phi0 / (2 * PI) * (Phi0 / (2 * PI))) by (rewrite E'; field; lra).
        unfold photon in Hm.
        assert (Hq : 0 < (2 * PI * hbar * scale k') * (y * v)).
        { replace (2 * PI * hbar * scale k' * (y * v)) with (2 * PI * hbar * (v * scale k') * y) by ring.
          rewrite Hm. assert (0 < Phi0 / (2 * PI)) by (apply Rdiv_lt_0_compat; lra). nra. }
        apply (Rmult_lt_reg_l (2 * PI * hbar * scale k')).
        + pos.
        + lra.
      - rewrite Hx'. replace (2 * PI * (v * scale k') * v) with (v * v * (2 * PI * scale k')) by ring.
        apply Rmult_lt_0_compat; auto. pos. }
    assert (Hye : y * e < 0) by lra.
    (* v e < 0 *)
    destruct (Rlt_or_le (v * e) 0) as [|Hge]; auto. exfalso.
    assert (0 <= (v * e) * (y * v)) by (apply Rmult_le_pos; lra).
    assert ((y * e) * (v * v) < 0) by (assert (0 < v * v) by nra; nra).
    replace ((v * e) * (y * v)) with ((y * e) * (v * v)) in * by ring. lra.
Qed.

(** C08 *)
Lemma construct_default eng calls k v g e z :
  let st := unit_run calls ustate_init in
  let u := match k with KCap => get_unit_cap st | KInd => get_unit_ind st | KJJ => get_unit_JJ st end in
  allowed k u /\ construct eng st k v None g e z = construct eng st k v (Some u) g e z.
Proof.
  cbn zeta. destruct (unit_always_valid calls) as (Hc & Hi & Hj & _).
  match goal with |- allowed k ?u /\ _ => assert (A : allowed k u) by (destruct k; assumption) end.
  split; auto. unfold construct. rewrite (check_ok _ _ A). destruct k; reflexivity.
Qed.

Lemma construct_value eng st k v u z :
  allowed k u -> v <> 0 ->
  exists y, construct eng st k v (Some u) false 0 z = Ok (mkEl k y 0 false) /\ denotes k u v y.
Proof.
  intros Ha Hv. unfold construct. rewrite check_ok by auto. cbn [bind].
  destruct (set_value_ok v u z (mkEl k 0 0 false) Ha Hv) as (y & E & Hd & _). cbn [el_kind] in *.
  rewrite E. cbn [bind]. eauto.
Qed.

(** gradients only with the PyTorch engine *)
Lemma construct_grad calls st k v u z :
  allowed k u -> v <> 0 ->
  let eng := eng_run calls eng_init in
  (get_engine eng = "numpy" -> construct eng st k v (Some u) true 0 z = Err ModeError) /\
  (get_engine eng = "pytorch" -> exists y, construct eng st k v (Some u) true 0 z = Ok (mkEl k y 0 true)
      /\ denotes k u v y).
Proof.
  intros Ha Hv. cbn zeta. destruct (eng_reachable calls) as (_ & _ & Hn & Hp). cbn zeta in *.
  unfold construct. rewrite check_ok by auto. cbn [bind].
  destruct (set_value_ok v u z (mkEl k 0 0 false) Ha Hv) as (y & E & Hd & _). cbn [el_kind] in *.
  rewrite E. cbn [bind]. split; intros H.
  - apply Hn in H. rewrite H. reflexivity.
  - apply Hp in H. rewrite H. cbn [bind]. eauto.
Qed.

(** C09 *)
Lemma loop_flux x l z : loop_value false z (set_flux x l) = 2 * PI * x /\ loop_A (set_flux x l) = loop_A l.
Proof. simpl. split; ring. Qed.
Lemma loop_noise_refute v A : A <> 0 -> loop_set_noise A (new_loop v 0) <> new_loop v A.
Proof.
  intros HA H. apply (f_equal loop_A) in H. simpl in H. pose proof two_pi_neq_1.
  apply H0. apply (Rmult_eq_reg_l A); auto. lra.
Qed.

(** C10 *)
Lemma fabrication v u e z x :
  allowed (el_kind x) u -> v <> 0 -> 0 <= v * e ->
  exists y w, denotes (el_kind x) u v y /\
    set_value v (Some u) e z x = (mkEl (el_kind x) w e (el_grad x), Ok tt) /\
    w - y = y * (e / 100) * z.
Proof.
  intros Ha Hv He. pose proof (allowed_unit_failures v u e z x) as Hf.
  unfold set_value in *. rewrite check_ok in * by auto.
  destruct (nominal_denotes _ _ _ Ha Hv) as (y & Hn & Hd & Hy). rewrite Hn in *. cbn [bind] in *.
  unfold sample in *. destruct (Rlt_dec (y * e / 100) 0).
  - destruct (Hf RuntimeError Ha eq_refl) as [[? _]|[_ ?]]; [discriminate|lra].
  - exists y, (y + z * (y * e / 100)). split; auto. split; auto. lra.
Qed.

(** C60 *)
Lemma log_sinh_spec x : 0 < x -> log_sinh x = ln (sinh x).
Proof.
  intros Hx. unfold log_sinh.
  assert (H1 : 0 < 1 - exp (- 2 * x)).
  { assert (exp (- 2 * x) < exp 0) by (apply exp_increasing; lra). rewrite exp_0 in *. lra. }
  assert (H0 : 0 < exp x) by apply exp_pos.
  replace (sinh x) with (exp x * (1 - exp (- 2 * x)) * / 2).
  - rewrite ln_mult; [|apply Rmult_lt_0_compat; auto|lra].
    rewrite ln_mult; auto. rewrite ln_exp, ln_Rinv by lra. ring.
  - unfold sinh. replace (exp (- x)) with (exp x * exp (-2 * x)).
    + field.
    + rewrite <- exp_plus. f_equal. ring.
Qed.

Lemma q_cap_pos w : w <> 0 -> 0 < default_q_cap w.
Proof. intros _. unfold default_q_cap, Rpower. apply Rmult_lt_0_compat; [lra|apply exp_pos]. Qed.
Lemma q_cap_anchor w : Rabs w = 2 * PI * (6 * 10 ^ 9) -> default_q_cap w = 10 ^ 6.
Proof.
  intros H. unfold default_q_cap. rewrite H. pose proof PI_RGT_0.
  replace (2 * PI * 6e9 / (2 * PI * (6 * 10 ^ 9))) with 1 by (field; repeat split; lra).
  unfold Rpower. rewrite ln_1, Rmult_0_r, exp_0. lra.
Qed.
Lemma q_cap_decreasing w1 w2 : 0 < Rabs w1 < Rabs w2 -> default_q_cap w2 < default_q_cap w1.
Proof.
  intros [H1 H2]. unfold default_q_cap. apply Rmult_lt_compat_l; [lra|].
  pose proof PI_RGT_0. apply Rlt_Rpower_l; [lra|]. split.
  - apply Rdiv_lt_0_compat; nra.
  - unfold Rdiv. apply Rmult_lt_compat_l; [nra|]. apply Rinv_lt_contravar; auto.
    apply Rmult_lt_0_compat; lra.
Qed.
Lemma q_cap_power w1 w2 : w1 <> 0 -> w2 <> 0 ->
  default_q_cap w1 / default_q_cap w2 = Rpower (Rabs w2 / Rabs w1) (7 / 10).
Proof.
  intros H1 H2. apply Rabs_pos_lt in H1. apply Rabs_pos_lt in H2. pose proof PI_RGT_0.
  unfold default_q_cap. set (a := Rabs w1) in *. set (b := Rabs w2) in *.
  assert (0 < 2 * PI * 6e9) by nra. set (c := 2 * PI * 6e9) in *.
  replace (c / b) with (c / a * (a / b)) by (field; repeat split; lra).
  assert (0 < c / a) by (apply Rdiv_lt_0_compat; lra).
  assert (0 < a / b) by (apply Rdiv_lt_0_compat; lra).
  rewrite <- Rpower_mult_distr by auto. replace (7 / 10) with 0.7 by lra.
  assert (E : Rpower (b / a) 0.7 = / Rpower (a / b) 0.7).
  { rewrite <- Rpower_Ropp. unfold Rpower. f_equal.
    replace (b / a) with (/ (a / b)) by (field; lra). rewrite ln_Rinv by auto. ring. }
  rewrite E. assert (0 < Rpower (c / a) 0.7) by (unfold Rpower; apply exp_pos).
  assert (0 < Rpower (a / b) 0.7) by (unfold Rpower; apply exp_pos). field. lra.
Qed.

(** With [k0 x = k0e x * exp (-x)], the Bessel function itself. *)
Lemma q_ind_spec k0e w t :
  (forall x, 0 < x -> 0 < k0e x) -> 0 < w -> 0 < t ->
  let k0 x := k0e x * exp (- x) in
  let a := 2 * PI * hbar * (5 * 10 ^ 8) / (2 * k_B * t) in
  let b := hbar * w / (2 * k_B * t) in
  default_q_ind k0e w t = 5 * 10 ^ 8 * (k0 a * sinh a / (k0 b * sinh b)).
Proof.
  intros Hk Hw Ht k0 a b. pose proof hbar_pos. pose proof k_B_pos. pose proof PI_RGT_0.
  assert (Ha : 0 < a) by (unfold a; pos).
  assert (Hb : 0 < b) by (unfold b; pos).
  unfold default_q_ind. cbn zeta.
  assert (Ea : hbar * 2 * PI * 0.5e9 / (2 * k_B * t) = a).
  { unfold a. field_simplify_eq; [lra|]. split; lra. }
  rewrite Ea. fold b.
  rewrite !log_sinh_spec by auto. unfold log_k0.
  assert (Hsa : 0 < sinh a). { rewrite <- sinh_0. apply sinh_lt; auto. }
  assert (Hsb : 0 < sinh b). { rewrite <- sinh_0. apply sinh_lt; auto. }
  pose proof (Hk a Ha). pose proof (Hk b Hb).
  replace (ln (k0e a) - a + ln (sinh a) - (ln (k0e b) - b) - ln (sinh b))
    with (ln (k0 a * sinh a / (k0 b * sinh b))).
  - rewrite exp_ln; [lra|]. unfold k0.
    pos.
  - unfold k0, Rdiv. rewrite ln_mult.
    + rewrite ln_Rinv. 2:{ pos. }
      rewrite !ln_mult; auto; try apply exp_pos;
        try (pos).
      rewrite !ln_exp. ring.
    + pos.
    + apply Rinv_0_lt_compat. pos.
Qed.

Lemma q_ind_anchor k0e t :
  (forall x, 0 < x -> 0 < k0e x) -> 0 < t ->
  default_q_ind k0e (2 * PI * (5 * 10 ^ 8)) t = 5 * 10 ^ 8.
Proof.
  intros Hk Ht. pose proof PI_RGT_0. pose proof hbar_pos. pose proof k_B_pos.
  unfold default_q_ind; cbn zeta.
  assert (Ea : hbar * (2 * PI * (5 * 10 ^ 8)) / (2 * k_B * t) = hbar * 2 * PI * 0.5e9 / (2 * k_B * t)).
  { field_simplify_eq; [lra|]. split; lra. }
  rewrite Ea.
  set (a := hbar * 2 * PI * 0.5e9 / (2 * k_B * t)).
  replace (log_k0 k0e a + log_sinh a - log_k0 k0e a - log_sinh a) with 0 by ring.
  rewrite exp_0. lra.
Qed.

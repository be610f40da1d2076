(** SymProofs.v -- the capacitance matrix and its transformed inverse are symmetric
    in every circuit, whatever the edges. *)
From Coq Require Import Reals ZArith String List Lia.
From Verif.Model Require Import Base Units Settings Elements Edge LCWB Rounding Accuracy.
From Verif.Proofs Require Import EdgeProofs LCWBProofs.
Import ListNotations.

Lemma np_set2_inv n a i j v a' : square n a -> np_set2 a i j v = Ok a' ->
  exists p q, py_index n i = Some p /\ py_index n j = Some q /\ square n a' /\
    forall x y, (x < n)%nat -> (y < n)%nat ->
    entry a' x y = if Nat.eqb x p && Nat.eqb y q then v else entry a x y.
Proof.
  intros [Hl Hr]. unfold np_set2, py_get, py_set. rewrite Hl.
  destruct (py_index n i) as [p|] eqn:Ep; cbn [bind]; [|discriminate].
  destruct (nth_error a p) as [row|] eqn:En; cbn [bind]; [|discriminate].
  assert (Hp : (p < n)%nat) by (rewrite <- Hl; apply nth_error_Some; rewrite En; discriminate).
  assert (Erow : nth p a [] = row) by (apply nth_error_nth with (d := []) in En; exact En).
  assert (Hlen : length row = n) by (rewrite <- Erow; apply Hr; exact Hp).
  rewrite Hlen. destruct (py_index n j) as [q|] eqn:Eq; cbn [bind]; [|discriminate].
  intros H; injection H as <-. exists p, q. split; [auto|]. split; [auto|].
  assert (Hq : (q < n)%nat).
  { revert Eq. unfold py_index. destruct (Z.leb_spec 0 j).
    - destruct (Z.ltb_spec j (Z.of_nat n)); [|discriminate]. intros H1; injection H1; lia.
    - destruct (Z.leb_spec 0 (j + Z.of_nat n)); [|discriminate]. intros H1; injection H1; lia. }
  split; [split|].
  - rewrite set_nth_length; auto.
  - intros x Hx. rewrite nth_set_nth by lia. zb. rewrite set_nth_length; auto.
  - intros x y Hx Hy. unfold entry. rewrite nth_set_nth by lia.
    destruct (Nat.eqb_spec x p); subst; simpl; auto.
    rewrite nth_set_nth by lia. auto.
Qed.

Lemma matrix_rep_sym n e m : matrix_rep (Z.of_nat n) e = Ok m ->
  forall i j, (i < n)%nat -> (j < n)%nat -> entry m i j = entry m j i.
Proof.
  unfold matrix_rep. destruct (Z.ltb_spec (Z.of_nat n) 0); [lia|]. rewrite Nat2Z.id.
  destruct ((fst e =? 0) || (snd e =? 0))%Z.
  - intros H1 i j Hi Hj. apply (np_set2_inv n) in H1 as (p & q & Ep & Eq & _ & HE);
      [|apply zeros_square]. rewrite Ep in Eq; injection Eq as <-.
    rewrite !HE, !entry_zeros by auto. zb.
  - destruct (np_set2 _ (fst e - 1) (fst e - 1) 1) as [m1|] eqn:H1; cbn [bind]; [|discriminate].
    apply (np_set2_inv n) in H1 as (p & p' & Ep & Ep' & S1 & E1); [|apply zeros_square].
    rewrite Ep in Ep'; injection Ep' as <-.
    destruct (np_set2 m1 _ _ 1) as [m2|] eqn:H2; cbn [bind]; [|discriminate].
    apply (np_set2_inv n) in H2 as (q & q' & Eq & Eq' & S2 & E2); [|auto].
    rewrite Eq in Eq'; injection Eq' as <-.
    destruct (np_set2 m2 _ _ (-1)) as [m3|] eqn:H3; cbn [bind]; [|discriminate].
    apply (np_set2_inv n) in H3 as (x & y & Ex & Ey & S3 & E3); [|auto].
    rewrite Ep in Ex; injection Ex as <-. rewrite Eq in Ey; injection Ey as <-.
    intros H4 i j Hi Hj. apply (np_set2_inv n) in H4 as (x & y & Ex & Ey & S4 & E4); [|auto].
    rewrite Eq in Ex; injection Ex as <-. rewrite Ep in Ey; injection Ey as <-.
    rewrite !E4, !E3, !E2, !E1, !entry_zeros by auto. zb.
Qed.

Lemma C_symmetric optim s fd n lobj d c : get_LCWB optim s fd (Z.of_nat n) lobj d = Ok c ->
  forall i j, (i < n)%nat -> (j < n)%nat -> c_C c i j = c_C c j i /\ c_L c i j = c_L c j i.
Proof.
  intros H i j Hi Hj. apply get_LCWB_run in H as [_ H].
  apply run_edges_mats in H as (HC & HL & _). simpl in HC, HL.
  assert (Hs : forall e, mrep (Z.of_nat n) e i j = mrep (Z.of_nat n) e j i).
  { intros e. unfold mrep. destruct (matrix_rep (Z.of_nat n) e) eqn:E; auto.
    rewrite (matrix_rep_sym _ _ _ E i j) by auto. reflexivity. }
  split; [rewrite !HC | rewrite !HL]; f_equal; apply suml_ext; intros ee _; simpl; rewrite Hs; reflexivity.
Qed.

From mathcomp Require Import all_ssreflect all_algebra.
From mathcomp Require Import complex.
From Verif.Numerics Require Import RStruct Bridge.
From Verif.Model Require Import FluxDist Transform Op Ham Diag CircuitSM.
From Verif.Spec Require Import SessionSpec.
From Verif.Proofs Require Import TransProofs TransProofs6 SMProofs SMProofs2 SMProofs3 MemProofs.

Set Implicit Arguments.
Unset Strict Implicit.
Unset Printing Implicit Defensive.
Import GRing.Theory.
Local Open Scope ring_scope.

Definition cI_sym (st : tst) : Prop :=
  forall i j, (i < t_n st)%N -> (j < t_n st)%N -> t_cI st i j = t_cI st j i.

Lemma cI_symM st : cI_sym st <-> (toM (t_n st) (t_n st) (t_cI st))^T = toM (t_n st) (t_n st) (t_cI st).
Proof.
split=> [H|/matrixP H i j hi hj]; first by apply/matrixP => i j; rewrite !mxE H.
by have := H (Ordinal hj) (Ordinal hi); rewrite !mxE.
Qed.

Lemma sym_init n m k C L W st : t_init n m k C L W = Ok st ->
  (forall i j, (i < n)%N -> (j < n)%N -> C i j = C j i) -> cI_sym st.
Proof.
rewrite /t_init; case E: inv => [cI|//] [<-] H; apply/cI_symM => /=; have [_ ->] := invP E.
rewrite trmx_inv; congr invmx; apply/matrixP => i j; rewrite !mxE; exact: H.
Qed.

Lemma sym_apply st s r : cI_sym st -> cI_sym (apply_tr s r st).
Proof.
move=> /cI_symM H; apply/cI_symM; rewrite /apply_tr /= !toM_mmul toM_tr !trmx_mul trmxK H mulmxA //.
Qed.

Lemma sym_eq st st' : t_n st' = t_n st -> t_cI st' = t_cI st -> cI_sym st -> cI_sym st'.
Proof. by rewrite /cI_sym => -> ->. Qed.

Lemma sym_trans1 croot D0 U eigL st st' x : trans1 croot D0 U eigL st = Ok (st', x) -> cI_sym st -> cI_sym st'.
Proof.
rewrite /trans1; case: inv => // cri; case: inv => // si [<- _] H; exact: (@sym_apply st _ (tr si) H).
Qed.

Lemma sym_trans2 tries fuel sv order S1 draw a st st' x :
  trans2 tries fuel sv order S1 draw a st = Some (Ok (st', x)) -> cI_sym st -> cI_sym st'.
Proof. by case: x => s r /trans2P [_ _ ->] H; exact: (@sym_apply st s r H). Qed.

Lemma sym_scales3 k st : cI_sym st -> cI_sym (scales3 k st).1.
Proof.
move=> H; elim: k => [//|k IH] /=; case: (scales3 k st) IH => st' v /= IH.
by rewrite /scale3; case: ifP => _ //=; case: ifP => _ //=; case: ifP => _ //=.
Qed.

Lemma sym_trans3 st st' x : trans3 st = Ok (st', x) -> cI_sym st -> cI_sym st'.
Proof.
rewrite /trans3; case E: scales3 => [st3 v]; case: inv => // r3 [<- _] H.
by apply: sym_apply; have := @sym_scales3 (t_n st) _ H; rewrite E.
Qed.

Lemma sym_run o st st' : transform_run o st = Some (st', None) -> cI_sym st -> cI_sym st'.
Proof.
rewrite /transform_run; case E1: trans1 => [[st1 [s1 r1]]|] // H H0.
have H2 : cI_sym (set_omega st1) := sym_trans1 E1 H0.
move: H; case: ifP => _.
  by case E3: trans3 => [[st4 x]|] // [<-]; apply: sym_trans3 E3 H2.
case E2: trans2 => [[[st3 x]|]|] //.
by case E3: trans3 => [[st4 y]|] // [<-]; apply: sym_trans3 E3 (sym_trans2 E2 H2).
Qed.

Lemma sym_finish optim st : cI_sym st -> cI_sym (finish_modes optim st).
Proof.
rewrite /finish_modes; case: ifP => // _ H; have [idx [_ mem En [E _ _ _ _]]] := removal st.
move=> i j; rewrite En => hi hj; rewrite !E; apply: H.
  by have [|] := (mem (nth i idx i)).1; first exact: mem_nth.
by have [|] := (mem (nth j idx j)).1; first exact: mem_nth.
Qed.

Section Session.
Variables (disp : nat -> complex R -> op) (optim : bool).

Lemma sym_built o s fd d n lobj c B st : built optim o s fd d n lobj c B st -> cI_sym st.
Proof.
move=> [st0 [Ec EB Ei Et]]; apply: sym_run Et _; apply: sym_init Ei _ => i j hi hj.
by have [] := C_symmetric _ _ _ _ _ _ _ Ec i j (elimT ltP hi) (elimT ltP hj).
Qed.

Lemma sym_construct o s lobj fd d x : construct optim o s lobj fd d = Some (Ok x) -> cI_sym (x_st x).
Proof. by move=> /constructP [n [c [B [st [Hb [_ ->]]]]]]; apply/sym_finish/(sym_built Hb). Qed.

Lemma sym_step w c w1 r : cI_sym (x_st (w_x w)) -> step disp optim w c = Some (w1, r) ->
  ~~ update_failed optim w c r -> cI_sym (x_st (w_x w1)).
Proof.
have upd o s x x' : update disp optim o s x = Some (x', None) -> cI_sym (x_st x').
  by move=> /update_okP [c0 [B [st [Hb [_ ->]]]]]; apply: sym_built Hb.
case: w => s u x; case: c => [nums|m a|m a|c p|u'|vs o|o| |eigs argsort k|rd] /= Hb.
- by rewrite /set_trunc; case: nums => [l|]; [case: ifP => _; [|case: mem_err => [e|]]|] => -[<- _].
- rewrite /set_offset; case: island_of => [i|]; last by case=> <- _.
  by case: ifP => _; [|case: mem_err => [e|]] => -[<- _].
- by rewrite /set_charge_noise; case: island_of => [i|] -[<- _].
- by case=> <- _ _.
- by case=> <- _.
- rewrite /set_params; case Eo: (~~ optim); first by case=> <- _.
  move: Eo => /negbFE Eo; have := assignE [seq q.1 | q <- c_params (x_c x)] vs s.
  case: assign => s1 e /= ->; rewrite size_map; case: ifP => Hle; last by case=> <- _ _.
  case EU: CircuitSM.update => [[x1 [e1|]]|] // [<- <-] /=; first by rewrite Eo.
  by move=> _; apply: upd EU.
- by case EU: CircuitSM.update => [[x1 [e1|]]|] // [<- <-] //= _; apply: upd EU.
- by rewrite /hamil; case: ifP => _; [|case: foldl => M h] => -[<- _].
- rewrite /diag_sm; case: ifP => _; first by case=> <- _.
  case: k => [k|]; last by case=> <- _.
  by rewrite /hamil; case: ifP => _; [|case: foldl => M h]; case: diag => e h' -[<- _].
- by case=> <- _.
Qed.

Lemma sym_session cs : forall w tr, cI_sym (x_st (w_x w)) -> run disp optim w cs = Some tr -> updates_ok optim w cs tr ->
  cI_sym (x_st (w_x (final w tr))).
Proof.
elim: cs => [|c cs IH] w tr G; first by case=> <-.
move=> /run_cons [w1 [r [tr' [Es Er ->]]]] /andP [Hu Hus].
by rewrite /final /=; apply: (IH w1) Er Hus; apply: sym_step Es Hu.
Qed.
End Session.

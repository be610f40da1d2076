(** ChargeShiftProofs.v -- matrix elements of the Hamiltonian depend on the charges
    measured from the gate charges only. *)
From Coq Require Import Reals ZArith Lia Lra.
From Verif.Model Require Import Base Units Edge Accuracy HamConst.
Lemma charge_diff m m' a a' b b' (x x' : R) :
  Rminus (charge_at m' a') x' = Rminus (charge_at m a) x -> Rminus (charge_at m' b') x' = Rminus (charge_at m b) x ->
  Z.sub (Z.of_nat a') (Z.of_nat b') = Z.sub (Z.of_nat a) (Z.of_nat b).
Proof.
  unfold charge_at. intros H1 H2. apply eq_IZR. rewrite !minus_IZR, <- !INR_IZR_INZ. Lra.lra.
Qed.
From mathcomp Require Import all_ssreflect all_algebra.
From mathcomp Require Import complex ring zify.
From Verif.Numerics Require Import RStruct Bridge.
From Verif.Model Require Import Op Transform Ham.
From Verif.Spec Require Import OpSpec LevelsSpec.
From Verif.Proofs Require Import OpProofs HamProofs HamProofs2 HamProofs5 HamProofs6.

Set Implicit Arguments.
Unset Strict Implicit.
Unset Printing Implicit Defensive.
Import GRing.Theory.
Local Open Scope ring_scope.
Local Open Scope complex_scope.

Section Shift.
Variables (h h' : hin) (disp : nat -> C -> op).
Hypothesis same : same_circuit h h'.
Hypothesis ddim : forall m a, dim (disp m a) = m.
Let st := same.1.
Let hn' : hn h' = hn h. Proof. by rewrite /hn st. Qed.
Let hc' k : hcharge h' k = hcharge h k. Proof. by rewrite /hcharge st. Qed.
Let hm' k : (k < hn h)%N -> ~~ hcharge h k -> hm h' k = hm h k. Proof. exact: same.2. Qed.

(** Corresponding states of one mode. *)
Definition pr (k a a' : nat) : Prop :=
  if hcharge h k then Rminus (charge_at (hm h' k) a') (h_ng h' k) = Rminus (charge_at (hm h k) a) (h_ng h k)
  else a' = a.
Definition lr (k : nat) (X X' : op) : Prop :=
  [/\ dim X = hm h k, dim X' = hm h' k & forall a b a' b', pr k a a' -> pr k b b' ->
    (a < hm h k)%N -> (b < hm h k)%N -> (a' < hm h' k)%N -> (b' < hm h' k)%N -> ent X' a' b' = ent X a b].
Definition gr (A A' : op) : Prop := forall d d' e e',
  legal (hm h) d (hn h) -> legal (hm h) d' (hn h) -> legal (hm h') e (hn h) -> legal (hm h') e' (hn h) ->
  same_charges h h' d e -> same_charges h h' d' e' ->
  ent A' (posn (hm h') e (hn h)) (posn (hm h') e' (hn h)) = ent A (posn (hm h) d (hn h)) (posn (hm h) d' (hn h)).

Lemma gr_T F G : (forall k, (k < hn h)%N -> lr k (F k) (G k)) -> gr (T F (hn h)) (T G (hn h)).
Proof.
move=> H d d' e e' L L' M M' P P'.
rewrite (T_ent (dims := hm h')) //; last by move=> k hk; case: (H k hk).
rewrite (T_ent (dims := hm h)) //; last by move=> k hk; case: (H k hk).
apply: eq_bigr => k _; have hk := ltn_ord k; have [_ _ E] := H k hk.
by apply: E; [exact: P|exact: P'|exact: L|exact: L'|exact: M|exact: M'].
Qed.

Lemma pr_eq k a a' b b' : pr k a a' -> pr k b b' -> [/\ (a' == b') = (a == b), (a' == b'.+1) = (a == b.+1) & (b' == a'.+1) = (b == a.+1)].
Proof.
rewrite /pr; case: ifP => [_ p1 p2|_ -> -> //]; have H := charge_diff _ _ _ _ _ _ _ _ p1 p2.
by split; apply/eqP/eqP; lia.
Qed.

Lemma lr_eye k : lr k (oeye (hm h k)) (oeye (hm h' k)).
Proof. by split=> // a b a' b' p q *; rewrite /=; have [-> _ _] := pr_eq p q. Qed.

Lemma lr_same k X X' : (k < hn h)%N -> ~~ hcharge h k -> dim X = hm h k -> X' = X -> lr k X X'.
Proof.
move=> hk ch dX ->; split=> //; first by rewrite hm'.
by move=> a b a' b'; rewrite /pr (negbTE ch) => -> ->.
Qed.

Lemma Qsame k : (k < hn h)%N -> ~~ hcharge h k -> charge_op_isolated h' k = charge_op_isolated h k.
Proof. by move=> hk ch; rewrite /charge_op_isolated hc' (negbTE ch) hm' // /himp st. Qed.

Lemma Qdiag g k a b : hcharge g k -> ent (charge_op_isolated g k) a b =
  if a == b then charge_unit%:C * (Rminus (charge_at (hm g k) a) (h_ng g k))%:C else 0.
Proof.
move=> ch; rewrite /charge_op_isolated ch /=; case: eqP => [->|_]; last by rewrite mulr0 subrr mulr0.
by rewrite mulr1 -cRB.
Qed.

Lemma lr_Q k : (k < hn h)%N -> lr k (charge_op_isolated h k) (charge_op_isolated h' k).
Proof.
move=> hk; case: (boolP (hcharge h k)) => ch; last by apply: lr_same => //; [exact: dimQ|exact: Qsame].
split; rewrite ?dimQ // => a b a' b' p q _ _ _ _; have [e _ _] := pr_eq p q.
by rewrite !Qdiag ?hc' // e; move: p; rewrite /pr ch => ->.
Qed.

Lemma lr_QQ k : (k < hn h)%N -> lr k (omul (charge_op_isolated h k) (charge_op_isolated h k))
                                    (omul (charge_op_isolated h' k) (charge_op_isolated h' k)).
Proof.
move=> hk; case: (boolP (hcharge h k)) => ch; last by apply: lr_same; rewrite //= ?dimQ // Qsame.
have sq g a b : hcharge g k -> (a < hm g k)%N -> ent (omul (charge_op_isolated g k) (charge_op_isolated g k)) a b =
  if a == b then (charge_unit%:C * (Rminus (charge_at (hm g k) a) (h_ng g k))%:C) ^+ 2 else 0.
  move=> cg ha /=; rewrite dimQ (bigD1 (Ordinal ha)) //= big1 ?addr0.
    by rewrite !Qdiag // eqxx; case: eqP => [->|_]; rewrite ?mulr0 // expr2.
  by move=> i ne; rewrite [X in X * _]Qdiag // eq_sym -val_eqE /= in ne *; rewrite (negbTE ne) mul0r.
split; [exact: dimQ|exact: dimQ|] => a b a' b' p q ha _ ha' _; have [e _ _] := pr_eq p q.
rewrite (sq h) // (sq h') ?hc' // e; by move: p; rewrite /pr ch => ->.
Qed.

Lemma lr_F k : (k < hn h)%N -> lr k (flux_op_isolated h k) (flux_op_isolated h' k).
Proof.
move=> hk; case: (boolP (hcharge h k)) => ch.
  by rewrite /flux_op_isolated hc' ch; apply: lr_eye.
by apply: lr_same => //; rewrite ?dimF // /flux_op_isolated hc' (negbTE ch) hm' // /himp st.
Qed.

Lemma lr_N k : (k < hn h)%N -> ~~ hcharge h k -> lr k (num_op_isolated h k) (num_op_isolated h' k).
Proof. by move=> hk ch; apply: lr_same => //; rewrite ?dimN // /num_op_isolated hc' (negbTE ch) hm'. Qed.

Lemma lr_exp i k : (k < hn h)%N -> lr k (exp_iso disp h i k) (exp_iso disp h' i k).
Proof.
move=> hk; case: (boolP (hcharge h k)) => ch; last first.
  apply: lr_same => //; first exact: iso_dim.
  by rewrite /exp_iso hc' (negbTE ch) hm' // /alpha /hphi_zp st.
split; rewrite ?iso_dim // => a b a' b' p q *; have [e1 e2 e3] := pr_eq p q.
by rewrite /exp_iso hc' ch st !d_entry e1 e2 e3.
Qed.

Lemma gr_one X X' i : (i < hn h)%N -> lr i (X i) (X' i) -> gr (T (one_fam h X i) (hn h)) (T (one_fam h' X' i) (hn h)).
Proof.
move=> hi r; apply: gr_T => k hk; rewrite /one_fam; case: eqP => [->//|_]; exact: lr_eye.
Qed.
Lemma gr_opQQ i j : (i + j < hn h)%N -> gr (opQQ h i j) (opQQ h' i j).
Proof.
move=> hij; rewrite !opQQE ?hn' //; apply: gr_T => k hk; rewrite /two_fam.
case: eqP => [ei|ni]; case: eqP => [ej|nj]; [exact: lr_QQ|exact: lr_Q|exact: lr_Q|exact: lr_eye].
Qed.

Definition ogr (a a' : option op) : Prop :=
  match a, a' with Some A, Some A' => gr A A' | None, None => True | _, _ => False end.
Lemma gr_scale x A A' : gr A A' -> gr (oscale x A) (oscale x A').
Proof. by move=> g d d' e e' *; rewrite /= (g d d' e e'). Qed.
Lemma gr_add A A' B B' : gr A A' -> gr B B' -> gr (oadd A B) (oadd A' B').
Proof. by move=> g g2 d d' e e' *; rewrite /= (g d d' e e') // (g2 d d' e e'). Qed.
Lemma ogr_add a a' X X' : ogr a a' -> gr X X' -> ogr (acc_add a X) (acc_add a' X').
Proof. by case: a a' => [A|] [A'|] //= r g; apply: gr_add. Qed.
Lemma ogr_foldl (X : eqType) (f f' : option op -> X -> option op) l a a' :
  (forall x b b', x \in l -> ogr b b' -> ogr (f b x) (f' b' x)) -> ogr a a' ->
  ogr (foldl f a l) (foldl f' a' l).
Proof.
elim: l a a' => //= x l IH a a' H r; apply: IH; first by move=> y b b' hy; apply: H; rewrite inE hy orbT.
by apply: H => //; rewrite inE eqxx.
Qed.

Lemma ogr_LC : ogr (LC_hamil h) (LC_hamil h').
Proof.
rewrite /LC_hamil hn'; apply: ogr_foldl => // i a a'; rewrite mem_iota add0n => /andP [_ hi] r.
apply: ogr_foldl r => j b b'; rewrite mem_iota add0n => /andP [_ hj] r.
have hij : (i + j < hn h)%N by rewrite -ltn_subRL.
have qc x y : quad_cI h' x y = quad_cI h x y by rewrite /quad_cI st.
rewrite /LC_term hc' st !qc; case: eqP => [j0|nj].
  case: ifP => ch; apply: ogr_add => //; apply: gr_scale; first exact: gr_opQQ.
  by rewrite !opNE hn'; apply: gr_one => //; apply: lr_N; rewrite ?ch.
by case: ifP => // _; apply: ogr_add => //; apply: gr_scale; exact: gr_opQQ.
Qed.

Lemma coefS e : coupling_coef h' Inductive_ e = coupling_coef h Inductive_ e.
Proof. by rewrite /coupling_coef /coupling_mat st. Qed.

Lemma coupling_shape e : match coupling_op h (Some Inductive_) e, coupling_op h' (Some Inductive_) e with
  | Ok A, Ok A' => gr A A' | Err x, Err y => x = y | _, _ => False end.
Proof.
rewrite /coupling_op coefS; case: coupling_coef => [k|//]; rewrite hn'.
have : ogr (foldl (fun acc i => acc_add acc (oscale (k i)%:C (mode_op h Inductive_ i))) None (iota 0 (hn h)))
           (foldl (fun acc i => acc_add acc (oscale (k i)%:C (mode_op h' Inductive_ i))) None (iota 0 (hn h))).
  apply: ogr_foldl => // i a a'; rewrite mem_iota add0n => /andP [_ hi] r; apply: ogr_add => //; apply: gr_scale.
  by rewrite /mode_op !opPhiE hn'; apply: gr_one => //; exact: lr_F.
by case: foldl => [A|]; case: foldl => [A'|].
Qed.

Lemma gr_adj A A' : gr A A' -> gr (oadj A) (oadj A').
Proof. by move=> g d d' e e' *; rewrite /= (g d' d e' e). Qed.
Lemma gr_exp i : gr (opExp disp h i) (opExp disp h' i).
Proof.
have E g : opExp disp g i = T (exp_iso disp g i) (hn g) by [].
by rewrite !E hn'; apply: gr_T => k hk; exact: lr_exp.
Qed.

Variables (val : nat -> R) (loops : seq R) (B : arr) (ks : keys).
Definition rgr (x x' : res (option op)) : Prop :=
  match x, x' with Ok a, Ok a' => ogr a a' | Err e, Err e' => e = e' | _, _ => False end.

Lemma ham_shift A : h_m h' <> [::] -> hamiltonian disp h val loops B ks = Ok A ->
  exists2 A', hamiltonian disp h' val loops B ks = Ok A' & gr A A'.
Proof.
move=> m0; rewrite /hamiltonian; case: ifP => // _; have -> : (size (h_m h') == 0%N) = false by apply/negbTE/eqP => /size0nil.
have : rgr (ind_hamil disp h val loops B ks) (ind_hamil disp h' val loops B ks).
  rewrite /ind_hamil.
  have : forall x x', rgr x x' -> rgr (foldl (ind_term h val loops B) x (k_ind ks)) (foldl (ind_term h' val loops B) x' (k_ind ks)).
    elim: (k_ind ks) => [//|[[e el] b] l IH] x x' r; cbn [foldl]; apply: IH.
    case: x x' r => [a|z] [a'|z'] // r; cbn [ind_term]; have := coupling_shape e.
    case: coupling_op => [X|z]; case: coupling_op => [X'|z'] // g.
    by rewrite /rgr; apply: ogr_add => //; apply: gr_scale.
  move=> /(_ (Ok None) (Ok None) I); case: foldl => [a|z]; case: foldl => [a'|z'] // r.
  change (ogr (foldl (jj_term disp h val loops B) a (k_jj ks)) (foldl (jj_term disp h' val loops B) a' (k_jj ks))).
  elim: (k_jj ks) a a' r => [//|[[[e el] b] w] l IH] a a' r; cbn [foldl]; apply: IH; cbn [jj_term].
  apply: ogr_add => //; apply: gr_scale; apply: gr_scale; apply: gr_add; first by apply: gr_scale; exact: gr_exp.
  by apply: gr_adj; apply: gr_scale; exact: gr_exp.
case: ind_hamil => [a|z]; case: ind_hamil => [a'|z'] // r; have := ogr_LC.
case: LC_hamil => [L|]; case: LC_hamil => [L'|] //; case: a a' r => [a|] [a'|] //= r g [<-]; eexists; try reflexivity; try by [].
exact: gr_add.
Qed.
End Shift.

(** HamProofs2.v -- running sums, coupling operators, the Hamiltonian. *)
From Coq Require Import Reals ZArith.
From Verif.Model Require Import Base Units Edge HamConst.
From mathcomp Require Import all_ssreflect all_algebra.
From mathcomp Require Import complex.
From Verif.Numerics Require Import RStruct Bridge.
From Verif.Model Require Import Op Transform Ham.
From Verif.Spec Require Import OpSpec.
From Verif.Proofs Require Import OpProofs HamProofs.

Set Implicit Arguments.
Unset Strict Implicit.
Unset Printing Implicit Defensive.
Import GRing.Theory.
Local Open Scope ring_scope.
Local Open Scope complex_scope.

(** ** Running sums *)
Definition oent (a : option op) (i j : nat) : C := if a is Some A then ent A i j else 0.
Definition okacc (D : nat) (a : option op) : Prop := if a is Some A then dim A = D /\ herm A else True.

Lemma oent_add a X i j : oent (acc_add a X) i j = oent a i j + ent X i j.
Proof. by case: a => [A|] //=; rewrite add0r. Qed.
Lemma oent_acc a b i j : oent (acc_acc a b) i j = oent a i j + oent b i j.
Proof. by case: a b => [A|] [B|] //=; rewrite ?add0r ?addr0. Qed.

Lemma ok_add D a X : okacc D a -> dim X = D -> herm X -> okacc D (acc_add a X).
Proof.
by case: a => [A|] /= [] *; split=> //; apply: herm_add => //; congruence.
Qed.
Lemma ok_acc D a b : okacc D a -> okacc D b -> okacc D (acc_acc a b).
Proof. by case: a b => [A|] [B|] //= [? ?] [? ?]; split=> //; apply: herm_add => //; congruence. Qed.

Lemma foldl_in (A : Type) (X : eqType) (P : A -> Prop) (f : A -> X -> A) s a :
  (forall x b, x \in s -> P b -> P (f b x)) -> P a -> P (foldl f a s).
Proof.
elim: s a => //= x s IH a H Ha; apply: IH; first by move=> y b hy; apply: H; rewrite inE hy orbT.
by apply: H => //; rewrite inE eqxx.
Qed.

Lemma foldl_sum (X : eqType) (f : option op -> X -> option op) (g : X -> C) s a i j :
  (forall b x, x \in s -> oent (f b x) i j = oent b i j + g x) ->
  oent (foldl f a s) i j = oent a i j + \sum_(x <- s) g x.
Proof.
elim: s a => [|x s IH] a H /=; first by rewrite big_nil addr0.
rewrite IH => [|b y hy]; last by apply: H; rewrite inE hy orbT.
by rewrite H ?inE ?eqxx // big_cons addrA.
Qed.

Lemma foldl_some (X : Type) (f : option op -> X -> option op) s a :
  (forall b x, isSome (f b x)) -> s <> [::] \/ isSome a -> isSome (foldl f a s).
Proof.
move=> H; elim: s a => [|x s IH] a [] //= _; apply: IH; right; exact: H.
Qed.

Lemma sum_iota n (F : nat -> C) : \sum_(i <- iota 0 n) F i = \sum_(i < n) F i.
Proof. by rewrite -{1}(subn0 n) -/(index_iota 0 n) big_mkord. Qed.

(** ** Coupling operators *)
Lemma mode_op_ok h ct i : dim (mode_op h ct i) = total h /\ herm (mode_op h ct i).
Proof.
case: ct => /=; rewrite ?opQE ?opPhiE; split;
  by [apply: dim_one => k; rewrite ?dimQ ?dimF | apply: herm_one => k; apply: herm_Qiso
     | apply: herm_one => k; apply: herm_Fiso].
Qed.

Lemma couplingP h ct e A : coupling_op h (Some ct) e = Ok A ->
  exists k, [/\ coupling_coef h ct e = Ok k, (0 < hn h)%N, dim A = total h, herm A &
    forall a b, ent A a b = \sum_(i < hn h) (k i)%:C * ent (mode_op h ct i) a b].
Proof.
rewrite /coupling_op; case: coupling_coef => [k|//].
case E: foldl => [B|//] [<-]; exists k; split=> //.
- by case: (hn h) E.
- have : okacc (total h) (Some B).
    rewrite -E; apply: foldl_in => // i b _ Hb; have [d H] := mode_op_ok h ct i.
    by apply: ok_add => //; apply: herm_scale.
  by case.
- have : okacc (total h) (Some B).
    rewrite -E; apply: foldl_in => // i b _ Hb; have [d H] := mode_op_ok h ct i.
    by apply: ok_add => //; apply: herm_scale.
  by case.
- move=> a b; have -> : ent B a b = oent (Some B) a b by [].
  rewrite -E (foldl_sum (g := fun i => (k i)%:C * ent (mode_op h ct i) a b)) => [|x i _].
    by rewrite /= add0r sum_iota.
  by rewrite oent_add.
Qed.

Lemma coupling_total h ct e k : coupling_coef h ct e = Ok k -> (0 < hn h)%N ->
  exists A, coupling_op h (Some ct) e = Ok A.
Proof.
rewrite /coupling_op => -> hn0; case E: foldl => [A|]; first by exists A.
have := @foldl_some nat (fun acc i => acc_add acc (oscale (k i)%:C (mode_op h ct i))) (iota 0 (hn h)) None.
by rewrite E => H; have : isSome (@None op) by apply: H => //; left; case: (hn h) hn0.
Qed.

(** ** Junction operators *)
Lemma half_conj : ((2%:R : C)^-1)^* = (2%:R : C)^-1.
Proof. by rewrite conjc_inv (conjc_nat _ 2). Qed.

Lemma herm_cos E : herm (jj_cos E).
Proof.
split=> // i j hi hj.
change ((2%:R : C)^-1 * (ent E i j + (ent E j i)^*) = ((2%:R : C)^-1 * (ent E j i + (ent E i j)^*))^*).
by rewrite cjM half_conj cjD cjK addrC.
Qed.
Lemma herm_sin E : herm (jj_sin E).
Proof.
split=> // i j hi hj.
change ((2%:R * 'i : C)^-1 * (ent E i j - (ent E j i)^*) = ((2%:R * 'i : C)^-1 * (ent E j i - (ent E i j)^*))^*).
rewrite cjM conjc_inv cjM (conjc_nat _ 2) cji mulrN invrN mulNr cjB cjK.
by rewrite -mulrN opprB.
Qed.

Lemma exp_dim (disp : nat -> C -> op) h i : (forall m a, dim (disp m a) = m) ->
  dim (opExp disp h i) = total h.
Proof.
move=> Hd; rewrite /opExp -/(T _ _) T_dim; apply: eq_bigr => k _; rewrite /exp_iso.
case: ifP => _; first by rewrite /d_op_isolated; case: ifP => //= _; case: Rlt_dec.
by case: eqP.
Qed.

(** ** The Hamiltonian *)
Lemma QQ_ok h i j : (i + j < hn h)%N -> dim (opQQ h i j) = total h /\ herm (opQQ h i j).
Proof.
move=> H; rewrite opQQE //; split; first by apply: dim_two => k; apply: dimQ.
by apply: herm_two => k; apply: herm_Qiso.
Qed.
Lemma N_ok h i : dim (opN h i) = total h /\ herm (opN h i).
Proof. by rewrite opNE; split; [apply: dim_one => k; apply: dimN|apply: herm_one => k; apply: herm_Niso]. Qed.

Lemma LC_ok h : okacc (total h) (LC_hamil h).
Proof.
apply: foldl_in => // i a; rewrite mem_iota add0n => /andP[_ hi] Ha.
apply: foldl_in => // j b; rewrite mem_iota add0n => /andP[_ hj] Hb.
have hij : (i + j < hn h)%N by rewrite -ltn_subRL.
have [d1 H1] := QQ_ok hij; have [d2 H2] := N_ok h i.
rewrite /LC_term; case: ifP => [_|_]; case: ifP => // _; by apply: ok_add => //; apply: herm_scale.
Qed.

Lemma ind_ok disp h val loops B ks H : (forall m a, dim (disp m a) = m) ->
  ind_hamil disp h val loops B ks = Ok H -> okacc (total h) H.
Proof.
move=> Hd; rewrite /ind_hamil.
have : forall H, foldl (ind_term h val loops B) (Ok None) (k_ind ks) = Ok H -> okacc (total h) H.
  have : forall H, Ok (@None op) = Ok H -> okacc (total h) H by move=> H0 [<-].
  elim: (k_ind ks) (Ok None) => //= -[[e el] b] l IH acc Hacc; apply: IH => H0.
  rewrite /ind_term; case: acc Hacc => [a|//] Ha; case E: coupling_op => [A|//] [<-].
  have [k [_ _ d hA _]] := couplingP E; apply: ok_add; [exact: Ha|exact: d|exact: herm_scale].
case: foldl => [H0|//] /(_ _ erefl) H1 [<-].
elim: (k_jj ks) H0 H1 => //= -[[[e el] b] w] l IH a Ha; apply: IH.
by apply: ok_add => //; [rewrite /= exp_dim|apply: herm_scale; apply: herm_cos].
Qed.

Lemma hamiltonian_ok disp h val loops B ks A : (forall m a, dim (disp m a) = m) ->
  hamiltonian disp h val loops B ks = Ok A -> dim A = total h /\ herm A.
Proof.
move=> Hd; rewrite /hamiltonian; case: ifP => // _; case E: ind_hamil => [H|//].
have H1 := ind_ok Hd E; have := ok_acc H1 (LC_ok h); case: acc_acc => // B' H2 [<-]; exact: H2.
Qed.

(** PosDefProofs.v -- invertibility of the capacitance matrix. *)
From Coq Require Import Reals ZArith.
From mathcomp Require Import all_ssreflect all_algebra.
From Verif.Numerics Require Import RStruct Bridge.
From Verif.Model Require Import Base Elements Edge LCWB.
From Verif.Spec Require Import GraphSpec CircuitSpec.
From Verif.Proofs Require Import LCWBProofs.

Set Implicit Arguments.
Unset Strict Implicit.
Unset Printing Implicit Defensive.

Import GRing.Theory.
Local Open Scope ring_scope.

Lemma C_invertible optim s fd n lobj d c :
  get_LCWB optim s fd (Z.of_nat n) lobj d = Ok c -> proper_dict n d ->
  (forall e els, In (e, els) d -> Rlt R0 (edge_cap s els)) ->
  connected n (map fst d) ->
  toM n n (c_C c) \in unitmx.
Proof.
move=> H Hp Hc Hconn; apply: definite_unit => v Hv.
have [_ Hz] := C_posdef _ _ _ _ _ _ _ H Hp Hc Hconn (ofV v).
move: Hz; rewrite bilinE toV_ofV => /(_ Hv) Hz.
apply/rowP => i; rewrite mxE -[v]toV_ofV mxE; apply: Hz.
by apply/ltP.
Qed.

Lemma C_not_invertible optim s fd n lobj d c (T : Z -> bool) :
  get_LCWB optim s fd (Z.of_nat n) lobj d = Ok c -> proper_dict n d ->
  T 0%Z = false -> (exists k, Z.le 1 k /\ Z.le k (Z.of_nat n) /\ T k = true) ->
  (forall e els, In (e, els) d -> T (fst e) = T (snd e)) ->
  toM n n (c_C c) \notin unitmx.
Proof.
move=> H Hp H0 [k [Hk1 [Hk2 Tk]]] HT.
have [//|x [[i [Hi Hx]] Hn]] := C_singular _ _ _ _ _ _ _ T H Hp H0 _ HT; first by exists k.
apply: (@null_not_unit _ _ (toV n x)^T).
  apply/negP => /eqP /matrixP Hv; apply: Hx.
  move/ltP: Hi => Hi; have := Hv (Ordinal Hi) 0.
  by rewrite !mxE.
apply/matrixP => j z; rewrite [z]ord1 [RHS]mxE.
have := Hn (fun i => if i == j then 1 else 0); rewrite bilinE => E.
refine (eq_trans _ E).
rewrite -mulmxA [RHS]mxE (bigD1 j) //= big1 ?addr0 => [|p Hp'].
  by rewrite [toV _ _ _ _]mxE eqxx mul1r.
rewrite [toV _ _ _ _]mxE; case: eqP => [e|]; last by rewrite mul0r.
by move/eqP: Hp'; case; apply: val_inj.
Qed.

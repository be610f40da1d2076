(** FluxProofs3.v -- when the kept columns are independent, and a circuit for
    which they are not. *)
From Coq Require Import Reals ZArith String Lra Lia.
From Verif.Model Require Import Base Elements Edge LCWB Rounding.
From Verif.Spec Require Import GraphSpec CircuitSpec FluxSpec.
From Verif.Proofs Require Import LCWBProofs BookProofs FluxBook.
From mathcomp Require Import all_ssreflect all_algebra.
From Verif.Numerics Require Import RStruct Bridge.
From Verif.Model Require Import FluxDist.
From Verif.Spec Require Import LinSpec.
From Verif.Proofs Require Import FluxProofs FluxProofs2.

Set Implicit Arguments.
Unset Strict Implicit.
Unset Printing Implicit Defensive.
Import GRing.Theory.
Local Open Scope ring_scope.

(** Singular values that make the rank decision right exist for every matrix. *)
Definition sv0 : svd_fun := fun m n A => nseq (\rank A) 1.
Lemma sv0_ok m n (A : 'M[R]_(m, n)) : sing_values_ok tol A (sv0 A).
Proof.
have t1 : Rlt tol 1 by rewrite /tol; lra.
split.
- move=> k; rewrite nth_nseq; case: ifP => _; change (Rle 0 1) || change (Rle 0 0); lra.
- move=> k l /andP[kl]; rewrite size_nseq => ls; rewrite !nth_nseq ls (leq_ltn_trans kl ls).
  by change (Rle 1 1); lra.
- rewrite count_nseq; have -> : Rltb tol 1 by apply/RltbP.
  by rewrite mul1n.
Qed.
Lemma sv0_good p n K : svd_good sv0 p n K.
Proof. exact: sv0_ok. Qed.

(** If the non-zero columns are independent, all of them are kept. *)
Lemma kept_all sv p n K : svd_good sv p n K ->
  (forall u : 'cV[R]_(size (nzcols p n K)), nzmat p n K *m u = 0 -> u = 0) ->
  kept_columns sv p n K = nzcols p n K.
Proof.
move=> H Hu; rewrite kept_columnsE // (_ : \rank _ = size (nzcols p n K)) ?take_size //.
rewrite -mxrank_tr; apply/eqP/inj_row_free => v Hv.
apply: trmx_inj; rewrite trmx0; apply: Hu; apply: trmx_inj.
by rewrite trmx_mul trmxK trmx0.
Qed.

Lemma nzcols_all p n (K : nat -> nat -> R) :
  (forall j, (j < n)%N -> exists i : 'I_p, K i j != 0) -> nzcols p n K = iota 0 n.
Proof.
move=> H; apply/all_filterP/allP => j; rewrite mem_iota => /andP[_]; rewrite add0n => Hj.
by apply/forallPn; apply: H.
Qed.

Section Circuit.
Variables (optim : bool) (s : store) (fd : string) (n : nat)
  (lobj : nat -> lrec) (d : list (edge * list nat)) (c : cst).
Hypothesis Hc : get_LCWB optim s fd (Z.of_nat n) lobj d = Ok c.
Hypothesis Hp : proper_dict n d.

(** A circuit whose inductive part is grounded keeps all touched nodes. *)
Lemma grounded_independent : grounded_branches s d ->
  forall u : 'cV[R]_(size (nzcols (c_bid c) n (rows (c_kmat c)))),
    nzmat (c_bid c) n (rows (c_kmat c)) *m u = 0 -> u = 0.
Proof.
move=> Hg u; set nz := nzcols _ _ _ in u *; move=> Hu.
pose x (j : nat) : R := if j \in nz then ofV u^T (index j nz) else 0.
have Ex b : (b < nbranch s d)%N -> bdrop s d b x = 0.
  move=> Hb; rewrite -(rowE Hc Hp x Hb).
  have Hb' : (b < c_bid c)%N by rewrite (bidE Hc).
  have := congr1 (fun A : 'cV[R]_(c_bid c) => A (Ordinal Hb') 0) Hu; rewrite !mxE => E.
  rewrite -[RHS]E -/nz.
  transitivity (\sum_(0 <= j < n | j \in nz) rows (c_kmat c) b j * ofV u^T (index j nz)).
    rewrite -[LHS](big_mkord xpredT (fun j => rows (c_kmat c) b j * x j)) [RHS]big_mkcond /=.
    by apply: eq_bigr => j _; rewrite /x; case: ifP => //; rewrite mulr0.
  transitivity (\sum_(j <- nz) rows (c_kmat c) b j * ofV u^T (index j nz)).
    rewrite -big_filter; apply: perm_big; apply: uniq_perm; rewrite ?filter_uniq ?iota_uniq //.
    move=> j; rewrite mem_filter mem_index_iota /=; case jin: (j \in nz) => //=.
    by move/allP: (nzcols_lt (c_bid c) n (rows (c_kmat c))) => /(_ j jin).
  rewrite (big_nth 0%N) big_mkord; apply: eq_bigr => k _.
  by rewrite index_uniq ?nzcols_uniq // ofV_in !mxE.
apply/colP => k; rewrite [RHS]mxE.
have kin : nth 0%N nz k \in nz by rewrite mem_nth.
have [jn [i Hi]] := elimT (nzcolsP _ _ _ _) kin.
have Hi' : (i < nbranch s d)%N by rewrite -(bidE Hc).
have Hne : bdrop s d i (unit_at (nth 0%N nz k)) <> 0.
  rewrite -(rowE Hc Hp _ Hi') (bigD1 (Ordinal jn)) //= [X in _ + X]big1 ?addr0.
    by rewrite /unit_at Nat.eqb_refl; apply/eqP; rewrite mulr1.
  move=> j /eqP nj; rewrite /unit_at; case: Nat.eqb_spec => [E|_]; last exact: mulr0.
  by case: nj; apply: val_inj.
have := grounded_kernel _ _ _ _ Hp Hg (fun b Hb => Ex b (introT ltP Hb)) _ _ (elimT ltP Hi') Hne.
by rewrite /x kin index_uniq ?nzcols_uniq // ofV_in mxE => ->.
Qed.
End Circuit.

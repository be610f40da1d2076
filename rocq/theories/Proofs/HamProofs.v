(** HamProofs.v -- the stored operators. *)
From Coq Require Import Reals ZArith.
From Verif.Model Require Import Base Units Edge HamConst.
From mathcomp Require Import all_ssreflect all_algebra.
From mathcomp Require Import complex.
From Verif.Numerics Require Import RStruct Bridge.
From Verif.Model Require Import Op Transform Ham.
From Verif.Spec Require Import OpSpec.
From Verif.Proofs Require Import OpProofs.

Set Implicit Arguments.
Unset Strict Implicit.
Unset Printing Implicit Defensive.
Import GRing.Theory.
Local Open Scope ring_scope.
Local Open Scope complex_scope.

(** The families behind the lists. *)
Definition one_fam (h : hin) (X : nat -> op) (i k : nat) : op :=
  if k == i then X k else oeye (hm h k).
Definition two_fam (h : hin) (X : nat -> op) (i j k : nat) : op :=
  if k == i then (if k == j then omul (X k) (X k) else X k)
  else if k == j then X k else oeye (hm h k).

Lemma iota_rcons a n : iota a n.+1 = rcons (iota a n) (a + n)%N.
Proof. by rewrite -(addn1 n) iotaD cats1. Qed.

Lemma row_prefix h i j : (j <= hn h)%N ->
  foldl (mem_step h i) (mkRow [::] [::] [::] [::]) (iota 0 j) =
  mkRow [seq one_fam h (charge_op_isolated h) i k | k <- iota 0 j]
        [seq T (two_fam h (charge_op_isolated h) i k) (hn h) | k <- iota i (j - i)%N]
        [seq one_fam h (num_op_isolated h) i k | k <- iota 0 j]
        [seq one_fam h (flux_op_isolated h) i k | k <- iota 0 j].
Proof.
elim: j => [|j IH] hj; first by rewrite sub0n.
rewrite iota_rcons foldl_rcons IH 1?ltnW // add0n /mem_step /=.
have split_n : iota 0 (hn h) = rcons (iota 0 j) j ++ iota j.+1 (hn h - j.+1)%N.
  by rewrite -[j in rcons _ j]add0n -iota_rcons -{1}(subnKC hj) iotaD add0n.
have rest : [seq oeye (hm h k) | k <- iota j.+1 (hn h - j.+1)%N] =
            [seq (if (k <= j)%N then ozero 0 else oeye (hm h k)) | k <- iota j.+1 (hn h - j.+1)%N].
  by apply/eq_in_map => k; rewrite mem_iota => /andP[hk _]; rewrite leqNgt hk.
have [E|ne] := eqVneq i j.
  subst j; rewrite subnn subSnn /= !map_rcons; congr mkRow.
  - by rewrite /one_fam eqxx.
  - rewrite /T split_n map_cat map_rcons; congr [:: otensor (rcons _ _ ++ _)].
    + apply/eq_in_map => k; rewrite mem_iota add0n => /andP[_ hk].
      by rewrite /one_fam /two_fam (ltn_eqF hk).
    + by rewrite /two_fam eqxx.
    + apply/eq_in_map => k; rewrite mem_iota => /andP[hk _].
      by rewrite /two_fam (gtn_eqF hk).
  - by rewrite /one_fam eqxx.
  - by rewrite /one_fam eqxx.
have nej : (j == i) = false by apply/eqP => E; move/eqP: ne; rewrite E.
rewrite !map_rcons /one_fam nej; congr mkRow; rewrite -/(one_fam _ _ _).
case: ltnP => [lt|le].
  rewrite subSn 1?ltnW // iota_rcons subnKC 1?ltnW // map_rcons; congr rcons.
  rewrite /T split_n map_cat map_rcons; congr (otensor (rcons _ _ ++ _)).
  - apply/eq_in_map => k; rewrite mem_iota add0n => /andP[_ hk].
    by rewrite /one_fam /two_fam (ltn_eqF hk).
  - by rewrite /two_fam nej eqxx.
  - apply/eq_in_map => k; rewrite mem_iota => /andP[hk _].
    by rewrite /two_fam (gtn_eqF hk) (gtn_eqF (ltn_trans lt hk)).
have {le ne} lt : (j < i)%N by rewrite ltn_neqAle le andbT eq_sym.
have -> : (j - i = 0)%N by apply/eqP; rewrite subn_eq0 ltnW.
by have -> : (j.+1 - i = 0)%N by apply/eqP; rewrite subn_eq0.
Qed.

Lemma opQE h i : opQ h i = T (one_fam h (charge_op_isolated h) i) (hn h).
Proof. by rewrite /opQ /mem_row row_prefix. Qed.
Lemma opNE h i : opN h i = T (one_fam h (num_op_isolated h) i) (hn h).
Proof. by rewrite /opN /mem_row row_prefix. Qed.
Lemma opPhiE h i : opPhi h i = T (one_fam h (flux_op_isolated h) i) (hn h).
Proof. by rewrite /opPhi /mem_row row_prefix. Qed.
Lemma opQQE h i j : (i + j < hn h)%N ->
  opQQ h i j = T (two_fam h (charge_op_isolated h) i (i + j)%N) (hn h).
Proof.
move=> H; have hj : (j < hn h - i)%N by rewrite ltn_subRL.
by rewrite /opQQ /mem_row row_prefix //= (nth_map 0%N) ?size_iota // nth_iota.
Qed.

(** Dimensions. *)
Lemma dimQ h i : dim (charge_op_isolated h i) = hm h i.
Proof. by rewrite /charge_op_isolated; case: ifP => //= _; case: eqP. Qed.
Lemma dimF h i : dim (flux_op_isolated h i) = hm h i.
Proof. by rewrite /flux_op_isolated; case: ifP => //= _; case: eqP. Qed.
Lemma dimN h i : dim (num_op_isolated h i) = hm h i.
Proof. by rewrite /num_op_isolated; case: ifP. Qed.

Definition total (h : hin) : nat := (\prod_(k < hn h) hm h k)%N.

Lemma dim_one h X i : (forall k, dim (X k) = hm h k) -> dim (T (one_fam h X i) (hn h)) = total h.
Proof. by move=> H; rewrite T_dim; apply: eq_bigr => k _; rewrite /one_fam; case: ifP. Qed.
Lemma dim_two h X i j : (forall k, dim (X k) = hm h k) -> dim (T (two_fam h X i j) (hn h)) = total h.
Proof. by move=> H; rewrite T_dim; apply: eq_bigr => k _; rewrite /two_fam; do 2!case: ifP => //= _. Qed.

Lemma prod_delta (n : nat) (P : pred nat) (x : nat -> C) (b : nat -> bool) :
  \prod_(k < n) (if P k then x k else if b k then 1 else 0) =
  if [forall k : 'I_n, P k || b k] then \prod_(k < n | P k) x k else 0.
Proof.
case: ifP => [/forallP H|/negbT].
  rewrite [RHS]big_mkcond /=; apply: eq_bigr => k _; have := H k; by case: ifP => //= _ ->.
rewrite negb_forall => /existsP [k]; rewrite negb_or => /andP[/negbTE hP /negbTE hb].
by rewrite (bigD1 k) //= hP hb mul0r.
Qed.

Lemma one_acts h X i : (i < hn h)%N -> (forall k, dim (X k) = hm h k) ->
  acts_on (hn h) (hm h) i (ent (X i)) (T (one_fam h X i) (hn h)).
Proof.
move=> hi HX; split; first exact: dim_one.
move=> d d' Hd Hd'; rewrite (T_ent (dims := hm h)) //; last first.
  by move=> k _; rewrite /one_fam; case: ifP.
transitivity (\prod_(k < hn h) (if (k : nat) == i then ent (X i) (d i) (d' i) else
                                if d k == d' k then 1 else 0)).
  by apply: eq_bigr => k _; rewrite /one_fam; case: eqP => [->|].
rewrite (@prod_delta _ (fun k => k == i) (fun=> ent (X i) (d i) (d' i)) (fun k => d k == d' k)).
by case: ifP => // _; rewrite (big_pred1 (Ordinal hi)).
Qed.

Lemma two_acts h X i j : (i < hn h)%N -> (j < hn h)%N -> i != j -> (forall k, dim (X k) = hm h k) ->
  acts_on2 (hn h) (hm h) i j (ent (X i)) (ent (X j)) (T (two_fam h X i j) (hn h)).
Proof.
move=> hi hj ne HX; split; first exact: dim_two.
move=> d d' Hd Hd'; rewrite (T_ent (dims := hm h)) //; last first.
  by move=> k _; rewrite /two_fam; do 2!case: ifP => //= _.
transitivity (\prod_(k < hn h) (if ((k : nat) == i) || ((k : nat) == j) then ent (X k) (d k) (d' k) else
                                if d k == d' k then 1 else 0)).
  apply: eq_bigr => k _; rewrite /two_fam; case: eqP => [->|] /=; last by case: eqP.
  by rewrite (negbTE ne).
rewrite (@prod_delta _ (fun k => (k == i) || (k == j)) (fun k => ent (X k) (d k) (d' k))
                     (fun k => d k == d' k)).
have -> : [forall k : 'I_(hn h), [|| ((k : nat) == i) || ((k : nat) == j) | d k == d' k]] =
          [forall k : 'I_(hn h), [|| (k : nat) == i, (k : nat) == j | d k == d' k]].
  by apply: eq_forallb => k; rewrite orbA.
case: ifP => // _; rewrite (bigD1 (Ordinal hi)) /=; last by rewrite eqxx.
congr (_ * _); rewrite (big_pred1 (Ordinal hj)) // => k /=.
rewrite -!val_eqE /=; have [->|] := eqVneq (k : nat) i; first by rewrite andbF (negbTE ne).
by rewrite andbT.
Qed.

(** ** Products, commutation *)
Lemma fam_mul h X Y i j : (forall k, dim (X k) = hm h k) -> (forall k, dim (Y k) = hm h k) ->
  eqop (omul (T (one_fam h X i) (hn h)) (T (one_fam h Y j) (hn h)))
       (T (fun k => if k == i then (if k == j then omul (X k) (Y k) else X k)
                    else if k == j then Y k else oeye (hm h k)) (hn h)).
Proof.
move=> HX HY; apply: eqop_trans (T_mul _) _.
  by move=> k _; rewrite /one_fam; do 2!case: ifP => _ //=; rewrite ?HX ?HY.
apply: T_eq => k _; rewrite /one_fam.
case: ifP => _; case: ifP => _ //; [exact: omulA1|exact: omul1|exact: omul1].
Qed.

Lemma one_two h X i j : (forall k, dim (X k) = hm h k) ->
  eqop (omul (T (one_fam h X i) (hn h)) (T (one_fam h X j) (hn h))) (T (two_fam h X i j) (hn h)).
Proof. by move=> H; apply: fam_mul. Qed.

Lemma fam_commute h X Y i j : i != j -> (forall k, dim (X k) = hm h k) -> (forall k, dim (Y k) = hm h k) ->
  commute (T (one_fam h X i) (hn h)) (T (one_fam h Y j) (hn h)).
Proof.
move=> ne HX HY; apply: eqop_trans (fam_mul _ _ HX HY) _.
apply: eqop_trans _ (eqop_sym (fam_mul _ _ HY HX)).
apply: T_eq => k _; case: eqP => [->|_]; case: eqP => // E.
by rewrite E eqxx in ne.
Qed.

(** ** Hermitian operators *)
Lemma herm_Qiso h i : herm (charge_op_isolated h i).
Proof.
rewrite /charge_op_isolated; case: ifP => _.
  by apply: herm_scale; apply: herm_sub => //; [exact: herm_diag|apply: herm_scale; exact: herm_eye].
case: ifP => _; first exact: herm_zero.
split=> // a b ha hb.
set z := - 'i * _; set s := destroy _.
change (z * (ent s a b - (ent s b a)^*) = (z * (ent s b a - (ent s a b)^*))^*).
rewrite cjM cjB cjK /z cjM cjR cjN cji opprK.
by rewrite -(opprB (ent s a b)) mulrN -!mulNr.
Qed.
Lemma herm_Fiso h i : herm (flux_op_isolated h i).
Proof.
rewrite /flux_op_isolated; case: ifP => _; first exact: herm_eye.
case: ifP => _; first exact: herm_zero.
apply: herm_scale; split=> // a b ha hb; set s := destroy _.
change (ent s a b + (ent s b a)^* = (ent s b a + (ent s a b)^*)^*).
by rewrite cjD cjK addrC.
Qed.
Lemma herm_Niso h i : herm (num_op_isolated h i).
Proof. by rewrite /num_op_isolated; case: ifP => _; apply: herm_diag. Qed.

Lemma herm_one h X i : (forall k, herm (X k)) -> herm (T (one_fam h X i) (hn h)).
Proof. by move=> H; apply: herm_T => k _; rewrite /one_fam; case: ifP => // _; apply: herm_eye. Qed.
Lemma herm_two h X i j : (forall k, herm (X k)) -> herm (T (two_fam h X i j) (hn h)).
Proof.
move=> H; apply: herm_T => k _; rewrite /two_fam.
by do 2!case: ifP => // _; [apply: herm_sq|apply: herm_eye].
Qed.

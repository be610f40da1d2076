(** LinearLevels.v -- the energies of a diagonal operator. *)
From Coq Require Import Reals ZArith Lia.
From Verif.Model Require Import Base Units HamConst.
From mathcomp Require Import all_ssreflect all_algebra.
From mathcomp Require Import complex zify.
From Verif.Numerics Require Import RStruct Bridge.
From Verif.Model Require Import Op.
From Verif.Spec Require Import OpSpec LevelsSpec LinearSpec.
From Verif.Proofs Require Import OpProofs.

Set Implicit Arguments.
Unset Strict Implicit.
Unset Printing Implicit Defensive.
Import GRing.Theory.
Local Open Scope ring_scope.
Local Open Scope complex_scope.

(** ** The basis states in order *)
Lemma states_size dims n s : s \in states dims n -> size s = n.
Proof. by elim: n s => [|n IH] s /=; [rewrite inE => /eqP ->|move=> /allpairsP [[t x] [/= /IH e _ ->]]; rewrite size_rcons e]. Qed.
Lemma states_legal dims n s : s \in states dims n -> legal dims (nth 0%N s) n.
Proof.
elim: n s => [|n IH] s //= /allpairsP [[t x] [/= ht hx ->]] k; rewrite nth_rcons (states_size ht) ltnS leq_eqVlt => /orP [/eqP ->|hk].
  by rewrite ltnn eqxx; move: hx; rewrite mem_iota.
by rewrite hk; exact: IH.
Qed.
Lemma flat_iota m k : flatten [seq iota (a * m) m | a <- iota 0 k] = iota 0 (k * m).
Proof.
elim: k => [|k IH] //; rewrite -addn1 iotaD map_cat flatten_cat IH /= cats0 add0n mulnDl mul1n [RHS]iotaD; congr (_ ++ _).
Qed.
Lemma states_pos dims n : [seq posn dims (nth 0%N s) n | s <- states dims n] = iota 0 (\prod_(k < n) dims k)%N.
Proof.
elim: n => [|n IH]; first by rewrite big_ord0.
rewrite big_ord_recr /= -flat_iota -IH map_flatten -!map_comp; congr flatten; apply/eq_in_map => s hs /=.
rewrite -map_comp -[(_ * dims n)%N]addn0 iotaDl; apply/eq_in_map => x hx /=; rewrite nth_rcons (states_size hs) ltnn eqxx.
by congr (_ * _ + _)%N; apply: posn_ext => k hk; rewrite nth_rcons (states_size hs) hk.
Qed.

(** ** Diagonal operators *)
Section Diagonal.
Variables (A : op) (f : nat -> R).
Hypothesis dA : forall a b, (a < dim A)%N -> (b < dim A)%N -> ent A a b = if a == b then (f a)%:C else 0.
Let N := dim A.
Let s := sort (fun a b => Num.Def.ler (f a) (f b)) (iota 0 N).

Lemma diagonal_energies : energies A (fun i => f (nth 0%N s i)).
Proof.
have sz : size s = N by rewrite size_sort size_iota.
have lt i : (i < N)%N -> (nth 0%N s i < N)%N.
  move=> hi; have : nth 0%N s i \in s by apply: mem_nth; rewrite sz.
  by rewrite mem_sort mem_iota.
have us : uniq s by rewrite sort_uniq iota_uniq.
have so : sorted (fun a b => Num.Def.ler (f a) (f b)) s by apply: sort_sorted => x y; exact: Order.TotalTheory.le_total.
exists (fun i a => if a == nth 0%N s i then 1 else 0); split.
- move=> i j /andP [ij hj]; apply/RleP.
  have tr : transitive (fun a b => Num.Def.ler (f a) (f b)) by move=> y x z; exact: Order.POrderTheory.le_trans.
  have rf : reflexive (fun a b => Num.Def.ler (f a) (f b)) by move=> x; exact: Order.POrderTheory.lexx.
  by apply: (sorted_leq_nth tr rf 0%N so); rewrite ?inE ?sz //; exact: leq_ltn_trans ij hj.
- move=> i a hi ha; rewrite (bigD1 (Ordinal (lt i hi))) //= eqxx mulr1 big1 ?addr0; last first.
    by move=> b; rewrite -val_eqE /= => /negbTE ->; rewrite mulr0.
  by rewrite dA ?lt //; case: eqP => [->|_]; rewrite ?mulr1 ?mulr0.
move=> i j hi hj; rewrite (bigD1 (Ordinal (lt j hj))) //= eqxx mulr1 big1 ?addr0; last first.
  by move=> b; rewrite -val_eqE /= => /negbTE ->; rewrite mulr0.
by rewrite nth_uniq ?sz // eq_sym; case: eqP; rewrite ?rmorph1 ?rmorph0.
Qed.
Lemma diagonal_list : [seq f (nth 0%N s i) | i <- iota 0 N] = ascending [seq f a | a <- iota 0 N].
Proof.
rewrite -[iota 0 N]/(iota 0 N) map_comp; have -> : [seq nth 0%N s i | i <- iota 0 N] = s.
  by rewrite -[RHS](mkseq_nth 0%N) /mkseq size_sort size_iota.
by rewrite /ascending /s sort_map.
Qed.
End Diagonal.

(** OrderProofs2.v -- the capacitance matrices of circuits whose elements differ in their
    capacitances, and the inductive elements they share. *)
From Coq Require Import Reals ZArith Lia Lra String List.
From Verif.Model Require Import Base Units Edge Elements LCWB Accuracy HamConst.
From Verif.Spec Require Import GraphSpec CircuitSpec.
From Verif.Proofs Require Import LCWBProofs BookProofs.
From mathcomp Require Import all_ssreflect all_algebra.
From mathcomp Require Import complex.
From Verif.Numerics Require Import RStruct Bridge.
From Verif.Model Require Import Op Transform Ham.
From Verif.Spec Require Import OrderSpec.

Set Implicit Arguments.
Unset Strict Implicit.
Unset Printing Implicit Defensive.
Import GRing.Theory.
Local Open Scope ring_scope.

Lemma quad_bilin n A y : quad n A y = bilin n A y y.
Proof.
rewrite /bilin sumnE; apply: eq_bigr => i _; rewrite sumnE; apply: eq_bigr => j _.
by rewrite !RmultE mulrA [A _ _ * _]mulrC.
Qed.

Lemma suml_le (T : Type) (l : seq T) (f g : T -> R) : (forall x, List.In x l -> Rle (f x) (g x)) -> Rle (suml l f) (suml l g).
Proof.
elim: l => [|x l IH] H /=; first exact: Rle_refl.
by apply: Rplus_le_compat; [apply: H; left|apply: IH => y hy; apply: H; right].
Qed.

Section Matrices.
Variables (optim : bool) (s s' : store) (fd fd' : string) (n : nat) (lobj lobj' : nat -> lrec).
Variables (d : seq (edge * seq nat)) (c c' : cst).
Hypothesis E : get_LCWB optim s fd (Z.of_nat n) lobj d = Ok c.
Hypothesis E' : get_LCWB optim s' fd' (Z.of_nat n) lobj' d = Ok c'.
Hypothesis wired : proper_dict n d.

Lemma matrix_pos : (forall e els, List.In (e, els) d -> Rle 0 (edge_cap s els)) -> below n (fun _ _ => 0) (c_C c).
Proof.
move=> p y; have [H _] := LCWB_forms _ _ _ _ _ _ _ E wired; rewrite [quad n (c_C c) y]quad_bilin H.
have -> : quad n (fun _ _ => 0) y = suml d (fun=> R0).
  rewrite /quad big1 => [|i _]; last by rewrite big1 // => j _; rewrite mul0r.
  by elim: (d) => //= a l <-; rewrite RplusE addr0.
by apply: suml_le => -[e els] hin /=; apply: Rmult_le_pos; [apply: p hin|apply: Rle_0_sqr].
Qed.

Lemma matrix_below : (forall e els, List.In (e, els) d -> Rle (edge_cap s els) (edge_cap s' els)) -> below n (c_C c) (c_C c').
Proof.
move=> p y; have [H _] := LCWB_forms _ _ _ _ _ _ _ E wired; have [H' _] := LCWB_forms _ _ _ _ _ _ _ E' wired.
rewrite !quad_bilin H H'.
by apply: suml_le => -[e els] hin /=; apply: Rmult_le_compat_r; [apply: Rle_0_sqr|apply: p hin].
Qed.

Lemma matrix_sym : symmetric n (c_C c).
Proof.
by move=> i j hi hj; have [_ [_ H]] := LCWB_forms _ _ _ _ _ _ _ E wired; have [] := H i j (ltP hi) (ltP hj).
Qed.

Hypothesis kinds : ekind s' = ekind s.
Lemma same_keys : c_keys_jj c' = c_keys_jj c /\ c_keys_ind c' = c_keys_ind c.
Proof.
have [_ _ _ _ i j _] := LCWB_book _ _ _ _ _ _ _ E; have [_ _ _ _ i' j' _] := LCWB_book _ _ _ _ _ _ _ E'.
have D : forall k d0, occs_from s' k d0 = occs_from s k d0.
  by move=> k d0; elim: d0 k => [//|[e xs] d0 IH] k /=; rewrite IH /inductive_el /is_jj kinds.
by rewrite i j i' j' /keys_jj /keys_ind /is_jj /is_ind /occs D kinds.
Qed.

Lemma no_ind_keys : (forall e els el, List.In (e, els) d -> List.In el els -> ekind s el <> KInd) -> c_keys_ind c = [::].
Proof.
move=> no; have [_ _ _ _ -> _ _] := LCWB_book _ _ _ _ _ _ _ E.
have none : forall o, List.In o (occs s d) -> is_ind s (occ_el o) = false.
  rewrite /occs; clear E E' wired; elim: (d) 0%N no => [|[e xs] d0 IH] k no o //=.
  case/List.in_app_iff => [/List.in_map_iff [el [<- /List.filter_In [hel _]]]|hin].
    by rewrite /is_ind /occ_el /=; have := no e xs el (or_introl erefl) hel; case: ekind.
  by apply: (IH _ _ _ hin) => e' els' el' h1; apply: no; right; exact: h1.
rewrite /keys_ind; case Ef: (List.filter _ _) => [//|o l].
have : List.In o (List.filter (fun bo => is_ind s (occ_el bo.2)) (CircuitSpec.enum (occs s d))) by rewrite Ef; left.
by case/List.filter_In; case: o {Ef} => b o /enum_In /= H; rewrite none //; exact: (nth_error_In _ _ H).
Qed.
End Matrices.

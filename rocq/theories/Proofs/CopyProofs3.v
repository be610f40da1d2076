(** CopyProofs3.v -- the Hamiltonian of a copy; what safecopy returns. *)
From Coq Require Import Reals ZArith String.
From Verif.Model Require Import Base Units Elements Edge LCWB HamConst.
From mathcomp Require Import all_ssreflect all_algebra.
From mathcomp Require Import complex.
From mathcomp Require Import zify.
From Verif.Numerics Require Import RStruct Bridge.
From Verif.Model Require Import Transform Op Ham Diag CircuitSM Copy.
From Verif.Spec Require Import CopySpec.
From Verif.Proofs Require Import CopyProofs CopyProofs2.

Set Implicit Arguments.
Unset Strict Implicit.
Unset Printing Implicit Defensive.
Import GRing.Theory.
Local Open Scope ring_scope.
Local Open Scope complex_scope.

Definition ind_vals (s : store) (K : seq (edge * nat * nat)) : seq (edge * R * nat) :=
  [seq (k.1.1, evalue s k.1.2, k.2) | k <- K].
Definition jj_vals (s : store) (K : seq (edge * nat * nat * nat)) : seq (R * nat * nat) :=
  [seq (evalue s k.1.1.2, k.1.2, k.2) | k <- K].
Definition loop_vals (s : store) (x : circ) : seq R := [seq lvalue s l | l <- c_loops (x_c x)].

Lemma same_hof x x' : same_numbers x x' -> hof x' = hof x.
Proof. by case=> _ eC _ est eis em _ _ _ _; rewrite /hof /ng_of /isl est eis em eC. Qed.

Section Same.
Variables (s s' : store) (x x' : circ).
Hypothesis N : same_numbers x x'.

Lemma ind_same loops K K' : ind_vals s' K' = ind_vals s K ->
  forall M M' r, same_ops M M' ->
  same_ops (foldl (ind_step s loops x) (M, r) K).1 (foldl (ind_step s' loops x') (M', r) K').1 /\
  (foldl (ind_step s' loops x') (M', r) K').2 = (foldl (ind_step s loops x) (M, r) K).2.
Proof.
elim: K K' => [|[[e el] b] K IH] [|[[e' el'] b'] K'] //= [-> ev ->] EK M M' r O.
case: r => [H|z]; last by apply: IH.
have -> : coupling_mem x' M' e = coupling_mem x M e.
  by rewrite /coupling_mem (same_hof N) /x_n (n_st N) (o_phi O).
case: (coupling_mem x M e) => [A|z]; last by apply: IH.
by rewrite ev (n_B N); apply: IH => //; case: O => *; split.
Qed.

Lemma jj_same loops K K' : jj_vals s' K' = jj_vals s K ->
  forall M M' r, same_ops M M' ->
  same_ops (foldl (jj_step s loops x) (M, r) K).1 (foldl (jj_step s' loops x') (M', r) K').1 /\
  (foldl (jj_step s' loops x') (M', r) K').2 = (foldl (jj_step s loops x) (M, r) K).2.
Proof.
elim: K K' => [|[[[e el] b] w] K IH] [|[[[e' el'] b'] w'] K'] //= [ev -> ->] EK M M' r O.
case: r => [H|z]; last by apply: IH.
rewrite (o_exp O) (o_root O); case: ifP => _; first by apply: IH.
by rewrite ev (n_B N); apply: IH => //; case: O => *; split.
Qed.

Lemma hamil_same : same_ops (x_mem x) (x_mem x') -> loop_vals s' x' = loop_vals s x ->
  ind_vals s' (c_keys_ind (x_c x')) = ind_vals s (c_keys_ind (x_c x)) ->
  jj_vals s' (c_keys_jj (x_c x')) = jj_vals s (c_keys_jj (x_c x)) ->
  (hamil s' x').2 = (hamil s x).2.
Proof.
move=> O EL EI EJ; rewrite /hamil (n_m N); case: ifP => // _.
rewrite -/(loop_vals s x) -/(loop_vals s' x') EL.
set a := foldl (ind_step s _ x) _ _; set a' := foldl (ind_step s' _ x') _ _.
have [Oa Ra] : same_ops a.1 a'.1 /\ a'.2 = a.2 by apply: ind_same.
case: a Oa Ra => M r; case: a' => M' r' /= Oa ->.
have [_] := jj_same (loop_vals s x) EJ r Oa.
by case: (foldl _ (M', r) _) => M1 r1; case: (foldl _ (M, r) _) => M2 r2 /= ->; rewrite (n_LC N).
Qed.
End Same.

(** ** Deep copies *)
Lemma deep_hamil hp x :
  (hamil (deep_store hp) (deep_circ (hp_e hp) (hp_l hp) x)).2 = (hamil (hp_s hp) x).2.
Proof.
have ne i e : (i + e < e)%N = false by rewrite ltnNge leq_addl.
apply: hamil_same; rewrite //=.
- by rewrite /loop_vals /= -map_comp; apply/eq_map => i /=; rewrite ne addnK.
- by rewrite /ind_vals -map_comp; apply/eq_map => i /=; rewrite ne addnK.
- by rewrite /jj_vals -map_comp; apply/eq_map => i /=; rewrite ne addnK.
Qed.

(** ** The copies made before *)
Lemma safe_hamil hp x : lookups_ok hp x ->
  (hamil (safe_store hp x) (safe_circ hp x)).2 = (hamil (hp_s hp) x).2.
Proof.
rewrite /lookups_ok => /andP [/andP [_ kI] kJ].
have val i : i \in placed x -> evalue (safe_store hp x) (repl0 (hp_e hp) (placed x) i) = evalue (hp_s hp) i.
  by case/(repl0_val (hp_e hp)) => k [hk <- ->]; have [_ -> _ _ _] := @safe_new hp x k hk.
apply: hamil_same; [by split|by split| | |].
- rewrite /loop_vals /=; apply: (@eq_from_nth _ 0); first by rewrite !size_map size_iota.
  move=> k; rewrite size_map size_iota => hk.
  rewrite (nth_map 0%N) ?size_iota // (nth_map 0%N) // nth_iota //.
  by rewrite leq_addr ltn_add2l hk addKn.
- rewrite /ind_vals [c_keys_ind _]/= -map_comp; move: kI; elim: (c_keys_ind _) => [//|k K IH] /andP [].
  rewrite repl_in => hk /IH E; rewrite [LHS]map_cons [RHS]map_cons {}E; congr (_ :: _).
  by have := val _ hk => E; congr (_, _, _).
- rewrite /jj_vals [c_keys_jj _]/= -map_comp; move: kJ; elim: (c_keys_jj _) => [//|k K IH] /andP [].
  rewrite repl_in => hk /IH E; rewrite [LHS]map_cons [RHS]map_cons {}E; congr (_ :: _).
  by have := val _ hk => E; congr (_, _, _).
Qed.

(** ** What safecopy returns *)
Definition copied_eigs (save_eigs : bool) (x : circ) : eigres :=
  if save_eigs then x_eig x else mkE [::] [::].
Lemma put_hamil s x e : (hamil s (put_eig x e)).2 = (hamil s x).2.
Proof. exact: hamil_same. Qed.

Lemma put_eig_right s x s' x' fe fl e' : same_circuit s x s' x' fe fl ->
  same_circuit s x s' (put_eig x' e') fe fl.
Proof.
case=> a1 a2 a3 a4 a5 a6 a7 a8 a9 [b1 b2 b3 b4 b5 b6 b7 b8 b9 b0] c1 c2 c3 c4.
by split=> //; split.
Qed.

Lemma safecopy_values optim save_eigs hp ob hp' ob' :
  lives (hp_e hp) (hp_l hp) (hp_s hp) (ob_x ob) ->
  safecopy optim save_eigs hp ob = Ok (hp', ob') ->
  [/\ shows (hp_s hp') (ob_x ob') = shows (hp_s hp) (ob_x ob),
      (hamil (hp_s hp') (ob_x ob')).2 = (hamil (hp_s hp) (ob_x ob)).2,
      same_numbers (ob_x ob) (ob_x ob') /\ same_ops (x_mem (ob_x ob)) (x_mem (ob_x ob')),
      x_eig (ob_x ob') = copied_eigs save_eigs (ob_x ob) &
      apart (hp_e hp) (hp_l hp) (hp_s hp') (ob_x ob') /\
      untouched (hp_e hp) (hp_l hp) (hp_s hp) (hp_s hp')].
Proof.
move=> liv; rewrite /safecopy; case: optim => /=.
  case: (boolP (lookups_ok _ _)) => //= ok; case: ifP => // _; case: ifP => // _; case: ifP => // _ [<- <-] /=.
  set x := ob_x ob; set hp1 := safe_heap hp x.
  set y := (if save_eigs then safe_circ hp x else _).
  have ly : lives (hp_e hp1) (hp_l hp1) (hp_s hp1) y by rewrite /y; case: (save_eigs); exact: safe_lives.
  have K := shown_shift ly.
  split.
  - have -> := same_shows K; have -> : shows (hp_s hp1) y = shows (hp_s hp1) (safe_circ hp x).
      by rewrite /y; case: (save_eigs).
    exact: safe_shows.
  - rewrite -[deep_store _]/(deep_store hp1) (deep_hamil hp1 y).
    have -> : (hamil (hp_s hp1) y).2 = (hamil (hp_s hp1) (safe_circ hp x)).2.
      by rewrite /y; case: (save_eigs) => //; exact: put_hamil.
    exact: safe_hamil.
  - by rewrite /y; case: (save_eigs); split; split.
  - by rewrite /y /copied_eigs; case: (save_eigs).
  - split; first by apply: (apart_weak _ _ (shift_apart hp1 y)); exact: leq_addr.
    apply: (untouched_trans (leq_addr (size (placed x)) _) (leq_addr (size (c_loops (x_c x))) _)
             (safe_untouched hp x)).
    exact: (shift_untouched hp1).
case: save_eigs => //= -[<- <-] /=; set x := ob_x ob.
have K := shown_shift (liv : lives _ _ _ (put_eig x (mkE [::] [::]))).
split=> //.
- exact: (same_shows K).
- by rewrite (deep_hamil hp (put_eig x _)) put_hamil.
- by split; [exact: (shift_apart hp (put_eig x _))|exact: shift_untouched].
Qed.

(** A renaming that keeps the sharing. *)
Lemma safecopy_numpy hp ob hp' ob' :
  lives (hp_e hp) (hp_l hp) (hp_s hp) (ob_x ob) ->
  safecopy false false hp ob = Ok (hp', ob') ->
  exists fe fl, same_circuit (hp_s hp) (ob_x ob) (hp_s hp') (ob_x ob') fe fl.
Proof.
move=> liv [<- <-] /=; exists (addn^~ (hp_e hp)), (addn^~ (hp_l hp)).
exact: (put_eig_right (mkE [::] [::]) (shown_shift liv)).
Qed.

Lemma safecopy_torch save_eigs hp ob hp' ob' :
  lives (hp_e hp) (hp_l hp) (hp_s hp) (ob_x ob) ->
  uniq (placed (ob_x ob)) -> uniq (c_loops (x_c (ob_x ob))) ->
  (forall el, el \in placed (ob_x ob) -> inductive_el (hp_s hp) el ->
     ecap (hp_s hp) el \notin placed (ob_x ob)) ->
  safecopy true save_eigs hp ob = Ok (hp', ob') ->
  exists fe fl, same_circuit (hp_s hp) (ob_x ob) (hp_s hp') (ob_x ob') fe fl.
Proof.
move=> liv uE uL capsN; rewrite /safecopy /=.
case: (boolP (lookups_ok _ _)) => //= ok; case: ifP => // _; case: ifP => // _; case: ifP => // _ [<- <-] /=.
set x := ob_x ob; set hp1 := safe_heap hp x.
have K1 := safe_same liv ok uE uL capsN.
have K2 := @shown_shift hp1 (safe_circ hp x) (safe_lives liv ok).
have K := same_trans K1 K2.
eexists; eexists; case: save_eigs; first exact: K.
exact: (put_eig_right (mkE [::] [::]) K).
Qed.

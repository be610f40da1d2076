(** CopyProofs2.v -- the whole of safecopy. *)
From Coq Require Import Reals ZArith String.
From Verif.Model Require Import Base Units Elements Edge LCWB HamConst.
From mathcomp Require Import all_ssreflect all_algebra.
From mathcomp Require Import complex.
From mathcomp Require Import zify.
From Verif.Numerics Require Import RStruct Bridge.
From Verif.Model Require Import Transform Op Ham Diag CircuitSM Copy.
From Verif.Spec Require Import CopySpec.
From Verif.Proofs Require Import CopyProofs.

Set Implicit Arguments.
Unset Strict Implicit.
Unset Printing Implicit Defensive.
Import GRing.Theory.
Local Open Scope ring_scope.
Local Open Scope complex_scope.

(** ** Composition *)
Lemma sc_on s x s' x' fe fl i : same_circuit s x s' x' fe fl -> on_edge x i -> on_edge x' (fe i).
Proof.
move=> K [p [hp hi]]; exists (p.1, [seq fe j | j <- p.2]); split; last by apply: map_f.
by rewrite (sc_dict K); apply: List.in_map (fun p => (p.1, [seq fe j | j <- p.2])) _ _ hp.
Qed.
Lemma sc_ind_el s x s' x' fe fl i : same_circuit s x s' x' fe fl -> in_circ s x i ->
  inductive_el s' (fe i) = inductive_el s i.
Proof. by move=> K hi; rewrite /inductive_el; have [-> _] := sc_vals K hi. Qed.
Lemma sc_in s x s' x' fe fl i : same_circuit s x s' x' fe fl -> in_circ s x i -> in_circ s' x' (fe i).
Proof.
move=> K [hi|[el [h1 h2 ->]]]; first by left; apply: sc_on K hi.
right; exists (fe el); split; first exact: sc_on K h1.
  by rewrite (sc_ind_el K) //; left.
by have [-> _] := sc_refs K h1 h2.
Qed.
Lemma sc_loop s x s' x' fe fl j : same_circuit s x s' x' fe fl -> loop_of s x j -> loop_of s' x' (fl j).
Proof.
move=> K [hj|[el [h1 h2 h3]]]; first by left; rewrite (sc_loops K) map_f.
right; exists (fe el); split; first exact: sc_on K h1.
  by rewrite (sc_ind_el K) //; left.
by have [_ ->] := sc_refs K h1 h2; rewrite map_f.
Qed.

Lemma same_trans s x s1 x1 s2 x2 fe fl ge gl : same_circuit s x s1 x1 fe fl ->
  same_circuit s1 x1 s2 x2 ge gl -> same_circuit s x s2 x2 (ge \o fe) (gl \o fl).
Proof.
move=> K K1; split.
- by rewrite (sc_dict K1) (sc_dict K) -map_comp; apply/eq_map => p /=; rewrite -map_comp.
- by move=> i hi /=; have [-> ->] := sc_vals K1 (sc_in K hi); exact: (sc_vals K hi).
- move=> i hi ki /=; have ki' : inductive_el s1 (fe i) by rewrite (sc_ind_el K) //; left.
  have [-> ->] := sc_refs K1 (sc_on K hi) ki'; have [-> ->] := sc_refs K hi ki.
  by rewrite -map_comp.
- by rewrite (sc_loops K1) (sc_loops K) -map_comp.
- by move=> j hj /=; have [-> ->] := sc_lvals K1 (sc_loop K hj); exact: (sc_lvals K hj).
- by rewrite (sc_ind K1) (sc_ind K) -map_comp.
- by rewrite (sc_jj K1) (sc_jj K) -map_comp.
- rewrite (sc_par K1) (map_comp (ren ge gl) fst) (sc_par K) -map_comp; apply/eq_map => p /=.
  by case: (p.1).
- by move=> i hi /=; rewrite (sc_pm K1 (sc_in K hi)); exact: sc_pm K _ hi.
- case: (sc_num K) (sc_num K1) => e1 e2 e3 e4 e5 e6 e7 e8 e9 e0 [f1 f2 f3 f4 f5 f6 f7 f8 f9 f0].
  by split; rewrite (f1, f2, f3, f4, f5, f6, f7, f8, f9, f0).
- case: (sc_ops K) (sc_ops K1) => e1 e2 e3 e4 e5 e6 [f1 f2 f3 f4 f5 f6].
  by split; rewrite (f1, f2, f3, f4, f5, f6).
- move=> i b hi /=; have [-> -> -> ->] := sc_dic K1 b (sc_on K hi); exact: (sc_dic K b hi).
- by move=> i j hi hj /= /(sc_injE K1 (sc_in K hi) (sc_in K hj)); exact: sc_injE K _ _ hi hj.
- by move=> i j hi hj /= /(sc_injL K1 (sc_loop K hi) (sc_loop K hj)); exact: sc_injL K _ _ hi hj.
Qed.

Lemma same_shows s x s' x' fe fl : same_circuit s x s' x' fe fl -> shows s' x' = shows s x.
Proof.
move=> K; rewrite /shows (sc_dict K) -map_comp.
have : forall p, List.In p (x_dict x) -> forall i, i \in p.2 -> on_edge x i by move=> p hp i hi; exists p.
elim: (x_dict x) => //= p d IH H; rewrite IH; last by move=> q hq; apply: H; right.
congr ((_, _) :: _); rewrite -map_comp; apply/eq_in_map => i hi /=.
have hi' := H p (or_introl erefl) i hi; have ci : in_circ s x i by left.
rewrite /describe (sc_ind_el K ci); have [-> ->] := sc_vals K ci.
case: ifP => // ki; have [-> ->] := sc_refs K hi' ki.
have [_ ->] := sc_vals K (or_intror (ex_intro _ i (And3 hi' ki erefl)) : in_circ s x (ecap s i)).
congr (_, _, _, _); rewrite -map_comp; apply/eq_in_map => j hj /=.
by have [-> _] := sc_lvals K (or_intror (ex_intro _ i (And3 hi' ki hj)) : loop_of s x j).
Qed.

Lemma untouched_trans e l e' l' s s1 s2 : (e <= e')%N -> (l <= l')%N ->
  untouched e l s s1 -> untouched e' l' s1 s2 -> untouched e l s s2.
Proof.
move=> he hl [U1 U2] [V1 V2]; split=> i hi.
  have [-> -> -> -> [-> ->]] := V1 i (leq_trans hi he); exact: U1.
by have [-> -> ->] := V2 i (leq_trans hi hl); exact: U2.
Qed.
Lemma apart_weak e l e' l' s x : (e <= e')%N -> (l <= l')%N -> apart e' l' s x -> apart e l s x.
Proof.
move=> he hl [A1 A2 A3 A4 A5]; split.
- by move=> i /A1; exact: leq_trans.
- by move=> i /A2; exact: leq_trans.
- by move=> c /A3; case: c => i; exact: leq_trans.
- by move=> k /A4; exact: leq_trans.
- by move=> k /A5; exact: leq_trans.
Qed.

Lemma safe_untouched hp x : untouched (hp_e hp) (hp_l hp) (hp_s hp) (safe_store hp x).
Proof.
split=> i hi /=; rewrite leqNgt hi //=.
Qed.

Lemma safe_lives hp x : lives (hp_e hp) (hp_l hp) (hp_s hp) x -> lookups_ok hp x ->
  lives (hp_e (safe_heap hp x)) (hp_l (safe_heap hp x)) (safe_store hp x) (safe_circ hp x).
Proof.
move=> liv ok; set e := hp_e hp; set l := hp_l hp; set ps := placed x; set ls := c_loops (x_c x).
have oe i : on_edge (safe_circ hp x) i -> exists k, (k < size ps)%N /\ i = (e + k)%N.
  move/on_edgeP; rewrite /placed /= flatten_relabel mem_iota => /andP [h1 h2].
  exists (i - e)%N; rewrite subnKC //; split=> //.
  by rewrite ltn_subLR.
have kindE k : (k < size ps)%N -> inductive_el (safe_store hp x) (e + k)%N = inductive_el (hp_s hp) (nth 0%N ps k).
  by move=> hk; rewrite /inductive_el; have [-> _ _ _ _] := @safe_new hp x k hk.
split=> i.
- case=> [/oe [k [hk ->]]|[el [/oe [k [hk ->]] ki ->]]] /=; first by rewrite ltn_add2l.
  have [_ _ _ E _] := @safe_new hp x k hk; rewrite -[X in (X < _)%N]/(ecap (safe_store hp x) (e + k)%N) E.
  by rewrite kindE // in ki; apply: ltn_addr; apply: (cap_live liv) ki; apply: mem_nth.
- case=> [|[el [/oe [k [hk ->]] ki]]] /=; first by rewrite mem_iota => /andP [].
  rewrite kindE // in ki; have hel : nth 0%N ps k \in ps by apply: mem_nth.
  have [_ _ _ _ E] := @safe_new hp x k hk; rewrite -[X in i \in X]/(eloops (safe_store hp x) (e + k)%N) E.
  case/mapP => j hj ->; have hjl := loops_in ok hel ki hj.
  by have [k' [hk' _ ->]] := repl0_val l hjl; rewrite ltn_add2l.
Qed.

(** ** Results *)
Lemma put_eig_same s x s' x' fe fl e e' : same_circuit s x s' x' fe fl ->
  same_circuit s (put_eig x e) s' (put_eig x' e') fe fl.
Proof.
case=> a1 a2 a3 a4 a5 a6 a7 a8 a9 [b1 b2 b3 b4 b5 b6 b7 b8 b9 b0] c1 c2 c3 c4.
by split=> //; split.
Qed.

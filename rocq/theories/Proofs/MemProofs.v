(** MemProofs.v -- what the memory holds after the Hamiltonian was formed. *)
From Coq Require Import Reals ZArith String Permutation.
From Verif.Model Require Import Base Units Settings Edge LCWB Rounding Accuracy HamConst Trunc.
From Verif.Spec Require Import GraphSpec CircuitSpec.
From Verif.Proofs Require Import LCWBProofs BookProofs SMBook.
From mathcomp Require Import all_ssreflect all_algebra.
From mathcomp Require Import complex.
From Verif.Numerics Require Import RStruct Bridge.
From Verif.Model Require Import FluxDist Transform Op Ham Diag CircuitSM Partial DecRate.
From Verif.Spec Require Import SessionSpec.
From Verif.Proofs Require Import TransProofs TransProofs3 SMProofs SMProofs2 SMProofs3.

Set Implicit Arguments.
Unset Strict Implicit.
Unset Printing Implicit Defensive.
Import GRing.Theory.
Local Open Scope ring_scope.
Local Open Scope complex_scope.

Section Mem.
Variable disp : nat -> C -> op.
Variable optim : bool.

(** ** B rows identify the keys *)
Definition keys_ok (c : cst) : Prop :=
  (forall k k', List.In k (c_keys_ind c) -> List.In k' (c_keys_ind c) -> k.2 = k'.2 -> k = k') /\
  (forall k k', List.In k (c_keys_jj c) -> List.In k' (c_keys_jj c) -> k.1.2 = k'.1.2 -> k = k').

Lemma NoDup_inj (A B : Type) (f : A -> B) l : List.NoDup (List.map f l) ->
  forall a b, List.In a l -> List.In b l -> f a = f b -> a = b.
Proof.
elim: l => [|y l IH] //= /List.NoDup_cons_iff [N Hl] a b [<-|Ha] [<-|Hb] // E.
- by case: N; rewrite E; apply: List.in_map.
- by case: N; rewrite -E; apply: List.in_map.
- exact: IH.
Qed.

Lemma NoDup_appl (A : Type) (l l' : list A) : List.NoDup (l ++ l')%list -> List.NoDup l /\ List.NoDup l'.
Proof.
elim: l => [|y l IH] /=; first by split=> //; constructor.
move=> /List.NoDup_cons_iff [N /IH [H1 H2]]; split=> //; constructor=> // Hy; apply: N.
by apply: List.in_or_app; left.
Qed.

Lemma get_keys s fd n lobj d c : get_LCWB optim s fd n lobj d = Ok c -> keys_ok c.
Proof.
move=> /key_perm /Permutation_sym P; have := Permutation_NoDup P (List.seq_NoDup _ _).
move=> /NoDup_appl [H1 H2]; split=> k k'.
  exact: (@NoDup_inj _ _ (fun k => snd k) _ H1).
exact: (@NoDup_inj _ _ (fun k => snd (fst k)) _ H2).
Qed.

(** ** The bookkeeping of the circuit is that of a build from its dictionary *)
Definition booked (w : world) : Prop :=
  exists s lobj n, get_LCWB optim s (x_fd (w_x w)) n lobj (x_dict (w_x w)) = Ok (x_c (w_x w)) /\
    ekind s = ekind (w_s w).

Lemma booked_construct o s lobj fd d x u : construct optim o s lobj fd d = Some (Ok x) -> booked (mkW s u x).
Proof.
move=> /constructP [n [c [B [st [[st0 [Ec _ _ _]] [_ ->]]]]]].
by exists s, lobj, (Z.of_nat n).
Qed.

Lemma assign_kind ks : forall vs s, ekind (assign ks vs s).1 = ekind s.
Proof. by elim: ks => [|c ks IH] [|v vs] s //=; rewrite IH; case: c. Qed.

Lemma booked_step w c w1 r : booked w -> step disp optim w c = Some (w1, r) ->
  ~~ update_failed optim w c r -> booked w1.
Proof.
have upd o s u x x' : update disp optim o s x = Some (x', None) -> booked (mkW s u x').
  move=> /update_okP [c0 [B [st [[st0 [Ec _ _ _]] [_ ->]]]]].
  by exists s, (c_lobj (x_c x)), (Z.of_nat (x_n x)).
case: w => s u x; case: c => [nums|m a|m a|c p|u'|vs o|o| |eigs argsort k|rd] /= Hb.
- by rewrite /set_trunc; case: nums => [l|]; [case: ifP => _; [|case: mem_err => [e|]]|] => -[<- _].
- rewrite /set_offset; case: island_of => [i|]; last by case=> <- _.
  by case: ifP => _; [|case: mem_err => [e|]] => -[<- _].
- by rewrite /set_charge_noise; case: island_of => [i|] -[<- _].
- by case=> <- _ _; case: Hb => s0 [lo [n [E K]]]; exists s0, lo, n; split=> //; rewrite K; case: (c).
- by case=> <- _.
- rewrite /set_params; case Eo: (~~ optim); first by case=> <- _.
  move: Eo => /negbFE Eo; have := assignE [seq q.1 | q <- c_params (x_c x)] vs s.
  have := assign_kind [seq q.1 | q <- c_params (x_c x)] vs s.
  case: assign => s1 e /= Ek ->; rewrite size_map; case: ifP => Hle; last first.
    by case=> <- _ _; case: Hb => s0 [lo [n [E K]]]; exists s0, lo, n; split=> //=; rewrite K -Ek.
  case EU: CircuitSM.update => [[x1 [e1|]]|] // [<- <-] /=; first by rewrite Eo.
  by move=> _; apply: upd EU.
- by case EU: CircuitSM.update => [[x1 [e1|]]|] // [<- <-] //= _; apply: upd EU.
- by rewrite /hamil; case: ifP => _; [|case: foldl => M h] => -[<- _].
- rewrite /diag_sm; case: ifP => _; first by case=> <- _.
  case: k => [k|]; last by case=> <- _.
  by rewrite /hamil; case: ifP => _; [|case: foldl => M h]; case: diag => e h' -[<- _].
- by case=> <- _.
Qed.

Lemma booked_run cs : forall w tr, booked w -> run disp optim w cs = Some tr -> updates_ok optim w cs tr ->
  booked (final w tr).
Proof.
elim: cs => [|c cs IH] w tr G; first by case=> <-.
move=> /run_cons [w1 [r [tr' [Es Er ->]]]] /andP [Hu Hus].
by rewrite /final /=; apply: (IH w1) Er Hus; apply: booked_step Es Hu.
Qed.

Lemma booked_keys w : booked w -> keys_ok (x_c (w_x w)).
Proof. by case=> s [lo [n [E _]]]; apply: get_keys E. Qed.

(** ** Contents of the memory *)
Definition loop_vals (s : store) (x : circ) : seq R := [seq lvalue s l | l <- c_loops (x_c x)].

Record filled (s : store) (x : circ) (M : mems) : Prop := mkFilled {
  fl_ind : forall e el b, List.In (e, el, b) (c_keys_ind (x_c x)) ->
    exists2 A, coupling_op (hof x) (Some Inductive_) e = Ok A & M_ind M el b = Some A;
  fl_jj : forall e el b w, List.In (e, el, b, w) (c_keys_jj (x_c x)) ->
    let phi := ext_flux (loop_vals s x) (x_B x) b in
    [/\ M_cos M el b = Some (jj_cos (jj_exp disp (hof x) phi w)),
        M_sin M el b = Some (jj_sin (jj_exp disp (hof x) phi w)) &
        M_half M el b = Some (jj_sin (jj_root disp (hof x) phi w))] }.

Lemma put_same f el b A : dict_put f el b A el b = Some A.
Proof. by rewrite /dict_put !eqxx. Qed.
Lemma put_other f el b A el' b' : b' <> b -> dict_put f el b A el' b' = f el' b'.
Proof. by move=> /eqP/negbTE N; rewrite /dict_put N andbF. Qed.

Lemma ind_filled s loops x ks : forall M H M' H',
  M_phi M = [seq opPhi (hof x) i | i <- iota 0 (x_n x)] ->
  (forall k k', List.In k ks -> List.In k' ks -> k.2 = k'.2 -> k = k') ->
  foldl (ind_step s loops x) (M, H) ks = (M', Ok H') ->
  [/\ forall e el b, List.In (e, el, b) ks ->
      exists2 A, coupling_op (hof x) (Some Inductive_) e = Ok A & M_ind M' el b = Some A,
     (forall el b, (forall k, List.In k ks -> k.2 <> b) -> M_ind M' el b = M_ind M el b),
      M_cos M' = M_cos M /\ M_sin M' = M_sin M, M_half M' = M_half M & same_ops M M'].
Proof.
elim: ks => [|[[e el] b] ks IH] M H M' H' EM Hk; first by case=> -> _; split.
case: H => [H|z]; last first.
  have K l : foldl (ind_step s loops x) (M, Err z) l = (M, Err z) by elim: l.
  by rewrite K.
cbn [foldl ind_step]; rewrite (coupling_memE _ EM); case Ec: coupling_op => [A|z]; last first.
  have K l : foldl (ind_step s loops x) (M, Err z) l = (M, Err z) by elim: l.
  by rewrite K.
set M1 := mkM _ _ _ _ _ _ _ _ _ _ => E.
have Hk' k k' : List.In k ks -> List.In k' ks -> k.2 = k'.2 -> k = k'.
  by move=> hk hk'; apply: Hk; right.
have [P1 P2 P3 P4 P5] := IH M1 _ _ _ EM Hk' E; split=> //.
- move=> e' el' b' [[<- <- <-]|Hin]; last exact: P1.
  case: (List.in_dec Nat.eq_dec b (List.map snd ks)) => [/List.in_map_iff [k [Ek Hin]]|Hb].
    by apply: P1; rewrite (Hk (e, el, b) k) //; [left | right].
  exists A => //; rewrite P2 => [|k Hki Ek]; first by rewrite /= put_same.
  case: Hb; rewrite -Ek; exact: (List.in_map snd).
- move=> el' b' Hb; rewrite P2 => [|k hk]; last by apply: Hb; right.
  by apply: put_other => Eb; case: (Hb (e, el, b)) => //; left.
Qed.

Lemma jj_filled s loops x ks : forall M H M' H',
  M_exp M = [seq opExp disp (hof x) i | i <- iota 0 (t_m (x_st x))] ->
  M_root M = [seq opRoot disp (hof x) i | i <- iota 0 (t_m (x_st x))] ->
  (forall k, List.In k ks -> (k.2 < t_m (x_st x))%N) ->
  (forall k k', List.In k ks -> List.In k' ks -> k.1.2 = k'.1.2 -> k = k') ->
  foldl (jj_step s loops x) (M, Ok H) ks = (M', Ok H') ->
  [/\ forall e el b w, List.In (e, el, b, w) ks -> let phi := ext_flux loops (x_B x) b in
       [/\ M_cos M' el b = Some (jj_cos (jj_exp disp (hof x) phi w)),
           M_sin M' el b = Some (jj_sin (jj_exp disp (hof x) phi w)) &
           M_half M' el b = Some (jj_sin (jj_root disp (hof x) phi w))],
      (forall el b, (forall k, List.In k ks -> k.1.2 <> b) ->
        [/\ M_cos M' el b = M_cos M el b, M_sin M' el b = M_sin M el b & M_half M' el b = M_half M el b]),
      M_ind M' = M_ind M & same_ops M M'].
Proof.
elim: ks => [|[[[e el] b] w] ks IH] M H M' H' EM ER Hw Hk; first by case=> -> _; split.
have w0 : (w < t_m (x_st x))%N by apply: (Hw (e, el, b, w)); left.
cbn [foldl jj_step]; rewrite EM ER !size_map !size_iota leqNgt w0 /= !nth_ops //.
set M1 := mkM _ _ _ _ _ _ _ _ _ _ => E.
have Hk' k k' : List.In k ks -> List.In k' ks -> k.1.2 = k'.1.2 -> k = k'.
  by move=> hk hk'; apply: Hk; right.
have Hw' k : List.In k ks -> (k.2 < t_m (x_st x))%N by move=> hk; apply: Hw; right.
have [//|//|P1 P2 P3 P4] := IH M1 _ _ _ _ _ Hw' Hk' E.
split=> //.
- move=> e' el' b' w' [[_ <- <- <-]|Hin]; last exact: P1 Hin.
  case: (List.in_dec Nat.eq_dec b (List.map (fun k => k.1.2) ks)) => [/List.in_map_iff [k [Ek Hin]]|Hb].
    by apply: (P1 e); rewrite (Hk (e, el, b, w) k) //; [left | right].
  have N k : List.In k ks -> k.1.2 <> b.
    by move=> hk Ek; case: Hb; rewrite -Ek; exact: (List.in_map (fun k => k.1.2)).
  by have [-> -> ->] := P2 el b N; rewrite /= !put_same.
- move=> el' b' Hb; have [|-> -> ->] := P2 el' b' => [k hk|]; first by apply: Hb; right.
  have N : b' <> b by move=> Eb; case: (Hb (e, el, b, w)) => //; left.
  by rewrite /= !put_other.
- by move: P4; rewrite /same_ops /= EM ER.
Qed.

(** After a successful hamiltonian() every operator is in the memory. *)
Lemma hamil_filled s x x1 H : good disp x -> keys_ok (x_c x) -> hamil s x = (x1, Ok H) ->
  exists M, [/\ x1 = put_mem x M (x_LC x), filled s x M, same_ops (x_mem x) M & fresh_ops disp x].
Proof.
move=> G [K1 K2]; rewrite /hamil; case: ifP => // /eqP m0.
case: (g_ops G) => [E|F]; first by case: m0; rewrite E.
rewrite -/(loop_vals s x); set loops := loop_vals s x.
case E1: (foldl (ind_step _ _ _) _ _) => [M1 [H1|z]]; last first.
  have K l : foldl (jj_step s loops x) (M1, Err z) l = (M1, Err z) by elim: l.
  by rewrite K.
have [P1 P2 [P3 P3'] P4 P5] := ind_filled (fo_phi F) K1 E1.
case E2: (foldl (jj_step _ _ _) _ _) => [M2 [H2|z]] //.
have X1 : M_exp M1 = [seq opExp disp (hof x) i | i <- iota 0 (t_m (x_st x))].
  by case: P5 => _ [-> _]; apply: (fo_exp F).
have X2 : M_root M1 = [seq opRoot disp (hof x) i | i <- iota 0 (t_m (x_st x))].
  by case: P5 => _ [_ ->]; apply: (fo_root F).
have [Q1 Q2 Q3 Q4] := jj_filled X1 X2 (g_wid G) K2 E2.
case=> <- _; exists M2; split=> //.
- by split=> // e el b Hin; rewrite Q3; apply: P1.
- case: P5 Q4 => [[a1 a2 a3 a4] [a5 a6]] [[b1 b2 b3 b4] [b5 b6]].
  by rewrite /same_ops b1 b2 b3 b4 b5 b6.
Qed.
End Mem.

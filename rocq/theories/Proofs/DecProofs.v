(** DecProofs.v -- decoherence rates. *)
From Coq Require Import Reals ZArith Lra.
From Verif.Model Require Import Base Units Noise Edge Elements LCWB HamConst PartialConst Thermal RateConst.
From Verif.Proofs Require Import ThermalProofs.
From mathcomp Require Import all_ssreflect all_algebra.
From mathcomp Require Import complex.
From mathcomp Require Import ring.
From Verif.Numerics Require Import RStruct Bridge.
From Verif.Model Require Import Transform Op Ham Diag CircuitSM Partial DecRate.
From Verif.Spec Require Import OpSpec DecSpec.
From Verif.Proofs Require Import OpProofs HamProofs HamProofs2 SMProofs SMProofs3.

Set Implicit Arguments.
Unset Strict Implicit.
Unset Printing Implicit Defensive.
Import GRing.Theory.
Local Open Scope ring_scope.
Local Open Scope complex_scope.

(** ** Matrix elements of Hermitian operators *)
Lemma innerE v A w : inner v A w = braket v A w.
Proof.
by apply: eq_bigr => i _; rewrite mulr_sumr; apply: eq_bigr => j _; rewrite mulrA.
Qed.

Lemma conj_sum n (F : 'I_n -> C) : (\sum_(i < n) F i)^* = \sum_(i < n) (F i)^*.
Proof. exact: rmorph_sum. Qed.

Lemma inner_swap v A w : herm A -> inner w A v = (inner v A w)^*.
Proof.
move=> [_ H]; rewrite !innerE /braket conj_sum exchange_big /=; apply: eq_bigr => i _.
rewrite conj_sum; apply: eq_bigr => j _.
rewrite (H j i) // !rmorphM /= conjcK.
set a := v i; set b := (ent A i j)^*; set c := (w j)^*; clearbody a b c.
by rewrite mulrC mulrA mulrAC.
Qed.

Lemma abs2_conj z : abs2 z^* = abs2 z.
Proof. case: z => a b; rewrite /abs2 /=; congr (_ + _); exact: (mulrNN b b). Qed.
Lemma abs2_ge0 z : Rle 0 (abs2 z).
Proof.
case: z => a b; rewrite /abs2 /=; apply: Rplus_le_le_0_compat; exact: Rle_0_sqr.
Qed.
Lemma abs2E z : abs2 z = modulus2 z.
Proof. by rewrite /abs2 /modulus2 !expr2. Qed.
Lemma cabs_sub a b : cabs (a - b) = cabs (b - a).
Proof.
rewrite -opprB /cabs; congr sqrt; case: (b - a) => c d; rewrite /abs2 /=.
by congr (_ + _); [exact: (mulrNN c c) | exact: (mulrNN d d)].
Qed.

(** ** Operators in the memory are Hermitian *)
Definition herm_mem (M : mems) : Prop :=
  [/\ exists D, forall A, List.In A (M_Q M) \/ List.In A (M_phi M) -> dim A = D /\ herm A,
      forall el b A, M_ind M el b = Some A -> herm A &
      forall el b A, M_half M el b = Some A -> herm A].

Lemma herm_mem0 : herm_mem mem0.
Proof. by split=> //; exists 0%N => A [[]|[]]. Qed.

Lemma In_map (T U : Type) (f : T -> U) l y : List.In y [seq f i | i <- l] -> exists2 i, List.In i l & y = f i.
Proof. by elim: l => //= i l IH [<-|/IH [j Hj ->]]; [exists i => //; left | exists j => //; right]. Qed.
Lemma In_mem_map (T U : Type) (f : T -> U) k l : List.In k l -> List.In (f k) [seq f i | i <- l].
Proof. by elim: l => //= i l IH [->|/IH]; [left | right]. Qed.
Lemma In_nth (T : Type) (x0 : T) l i : (i < size l)%N -> List.In (nth x0 l i) l.
Proof. by elim: l i => // y l IH [|i] /= H; [left | right; apply: IH]. Qed.

Lemma herm_ops x : herm_mem (x_mem x) -> herm_mem (x_mem (build_ops x)).
Proof.
case=> _ H1 H2; split=> //; exists (total (hof x)) => A [H|H].
  have [i _ ->] := In_map H; exact: (mode_op_ok (hof x) Capacitive i).
have [i _ ->] := In_map H; exact: (mode_op_ok (hof x) Inductive_ i).
Qed.

Lemma herm_exp disp x : herm_mem (x_mem x) -> herm_mem (x_mem (build_exp disp x)).
Proof. by case=> H0 H1 H2; split. Qed.

Lemma acc_herm D (P : seq op) (k : nat -> R) l acc : (forall A, List.In A P -> dim A = D /\ herm A) ->
  (forall i, i \in l -> (i < size P)%N) -> okacc D acc ->
  okacc D (foldl (fun acc i => acc_add acc (oscale (k i)%:C (nth (ozero 0) P i))) acc l).
Proof.
move=> HP Hl Ha; apply: (@foldl_in _ _ (okacc D)) Ha => i a hi Ha.
have [dA hA] := HP _ (In_nth (ozero 0) (Hl i hi)).
by apply: ok_add => //; apply: herm_scale.
Qed.

Lemma coupling_mem_herm x M e A : herm_mem M -> coupling_mem x M e = Ok A -> herm A.
Proof.
case=> -[D HD] _ _; rewrite /coupling_mem; case: coupling_coef => // k.
case: ltnP => // Hs; case E: foldl => [A'|] // [<-].
have := @acc_herm D (M_phi M) k (iota 0 (x_n x)) None; rewrite E => K.
have [] // : okacc D (Some A').
apply: K => // [B HB|i]; first by apply: HD; right.
by rewrite mem_iota add0n => /= Hi; apply: leq_trans Hs.
Qed.

Lemma coupling_cap_herm x e A : herm_mem (x_mem x) -> coupling_cap x e = Ok A -> herm A.
Proof.
case=> -[D HD] _ _; rewrite /coupling_cap; case: coupling_coef => // k.
case: ltnP => // Hs; case E: foldl => [A'|] // [<-].
have := @acc_herm D (M_Q (x_mem x)) k (iota 0 (x_n x)) None; rewrite E => K.
have [] // : okacc D (Some A').
apply: K => // [B HB|i]; first by apply: HD; left.
by rewrite mem_iota add0n => /= Hi; apply: leq_trans Hs.
Qed.

Lemma dict_put_some f el b A el' b' B : dict_put f el b A el' b' = Some B -> B = A \/ f el' b' = Some B.
Proof. by rewrite /dict_put; case: ifP => _; [case=> ->; left | right]. Qed.

Lemma herm_ind_steps s loops x ks : forall a, herm_mem a.1 -> herm_mem (foldl (ind_step s loops x) a ks).1.
Proof.
elim: ks => [|[[e el] b] ks IH] [M [H|z]] HM //; apply: IH => //.
cbn [ind_step]; case E: coupling_mem => [A|z] //=; case: (HM) => H0 H1 H2; split=> //= el' b' B.
by case/dict_put_some => [->|/H1 //]; apply: coupling_mem_herm E.
Qed.

Lemma herm_jj_steps s loops x ks : forall a, herm_mem a.1 -> herm_mem (foldl (jj_step s loops x) a ks).1.
Proof.
elim: ks => [|[[[e el] b] w] ks IH] [M [H|z]] HM //; apply: IH => //.
cbn [jj_step]; case: ifP => // _; case: (HM) => H0 H1 H2; split=> //= el' b' B.
by case/dict_put_some => [->|/H2 //]; apply: herm_sin.
Qed.

Lemma herm_hamil s x : herm_mem (x_mem x) -> herm_mem (x_mem (hamil s x).1).
Proof.
move=> HM; rewrite /hamil; case: ifP => // _; set lp := [seq _ | _ <- _].
have := herm_jj_steps s lp x (c_keys_jj (x_c x)) (@herm_ind_steps s lp x (c_keys_ind (x_c x)) (x_mem x, Ok None) HM).
by case: foldl.
Qed.

Lemma herm_update disp optim o s x x' e : herm_mem (x_mem x) -> update disp optim o s x = Some (x', e) ->
  herm_mem (x_mem x').
Proof.
move=> HM; rewrite /update; case: lcwb_run => c0 [e0|]; first by case=> <- _.
case: b_of => [B|e0]; last by case=> <- _.
case: t_init => [st0|e0]; last by case=> <- _.
case: transform_run => [[st1 [e0|]]|] //; first by case=> <- _.
case: mem_err => [e0|] [<- _] /=; first exact: herm_mem0.
apply: (@herm_exp disp (build_ops _)); apply: herm_ops; exact: herm_mem0.
Qed.

Lemma herm_step disp optim w c w1 r : herm_mem (x_mem (w_x w)) -> step disp optim w c = Some (w1, r) ->
  herm_mem (x_mem (w_x w1)).
Proof.
case: w => s u x /= HM; case: c => [nums|m a|m a|c p|u'|vs o|o| |eigs argsort k|rd] /=.
- rewrite /set_trunc; case: nums => [l|]; last by case=> <- _.
  case: ifP => _; first by case=> <- _.
  by case: mem_err => [e|] -[<- _] //=; apply: (@herm_exp disp (build_ops _)); apply: herm_ops.
- rewrite /set_offset; case: island_of => [i|]; last by case=> <- _.
  by case: ifP => _; [|case: mem_err => [e|]] => -[<- _] //=; apply: herm_ops.
- by rewrite /set_charge_noise; case: island_of => [i|] -[<- _].
- by case=> <- _.
- by case=> <- _.
- rewrite /set_params; case: (~~ optim); first by case=> <- _.
  case: assign => s1 [e|]; first by case=> <- _.
  by case EU: update => [[x1 r1]|] // [<- _]; apply: herm_update EU.
- by case EU: update => [[x1 r1]|] // [<- _]; apply: herm_update EU.
- by have := herm_hamil s HM; case: hamil => x1 r1 H1 [<- _].
- rewrite /diag_sm; case: ifP => _; first by case=> <- _.
  case: k => [k|]; last by case=> <- _.
  by have := herm_hamil s HM; case: hamil => x1 r1 H1; case: diag => e h' -[<- _].
- by case=> <- _.
Qed.

Lemma herm_run disp optim cs : forall w tr, herm_mem (x_mem (w_x w)) -> run disp optim w cs = Some tr ->
  herm_mem (x_mem (w_x (final w tr))).
Proof.
elim: cs => [|c cs IH] w tr HM; first by case=> <-.
move=> /run_cons [w1 [r [tr' [Es Er ->]]]].
by rewrite /final /=; apply: (IH w1) Er; apply: herm_step Es.
Qed.

Lemma herm_construct optim o s lobj fd d x : construct optim o s lobj fd d = Some (Ok x) ->
  herm_mem (x_mem x).
Proof.
rewrite /construct; case: build => [[nz c]|e] //; case: b_of => [B|e] //; case: t_init => [st0|e] //.
by case: transform_run => [[st1 [e|]]|] // [<-]; apply: herm_mem0.
Qed.

(** ** The rates *)
Definition rmap (t : R) (r : res (option R)) : res (option R) :=
  match r with Ok (Some y) => Ok (Some (t * y)) | r => r end.

Lemma fold_rate K (f g : K -> res (option R)) l : (forall k, List.In k l -> f k = g k) ->
  forall a, foldl (rate_add f) a l = foldl (rate_add g) a l.
Proof.
move=> H a; elim: l a H => //= k l IH a H; rewrite IH; last by move=> j hj; apply: H; right.
by congr foldl; rewrite /rate_add H //; left.
Qed.

Lemma fold_rmap K (f g : K -> res (option R)) t l : (forall k, f k = rmap t (g k)) ->
  forall a, foldl (rate_add f) (rmap t a) l = rmap t (foldl (rate_add g) a l).
Proof.
move=> H; elim: l => //= k l IH a; rewrite -IH; congr foldl; rewrite /rate_add H.
by case: a (g k) => [[y|]|e] [[z|]|e'] //=; rewrite mulrDr.
Qed.

Lemma rmap0 t : rmap t (Ok (Some 0)) = Ok (Some 0).
Proof. by rewrite /= mulr0. Qed.

Lemma cap_scale s q x t omega m n k :
  cap_term s q x (Some t) omega m n k = rmap t (cap_term s q x (Some 1) omega m n k).
Proof.
rewrite /cap_term; case: q_cap => [Q|]; last by rewrite rmap0.
case: matrix_elements => [z|e] //=; rewrite /fdiv; case: ifP => //= _.
by rewrite !mulrA mulr1.
Qed.
Lemma ind_scale s q T t omega v w k :
  ind_rate s q T (Some t) omega v w k = rmap t (ind_rate s q T (Some 1) omega v w k).
Proof.
rewrite /ind_rate; case: q_ind => [Q|]; last by rewrite rmap0.
rewrite /with_factor /fdiv; case: ifP => //= _; case: ifP => //= _.
by rewrite div1r !mulrA.
Qed.
Lemma qp_scale s q T t omega v w k :
  qp_rate s q T (Some t) omega v w k = rmap t (qp_rate s q T (Some 1) omega v w k).
Proof.
rewrite /qp_rate; case: q_jj => [Y|]; last by rewrite rmap0.
by rewrite /= /qp_factor -!RmultE !Rmult_assoc Rmult_1_l.
Qed.

(** The rate for a unit thermal factor. *)
Definition unit_rate (E : env) (s : store) (q : quality) (x : circ) (dt : option dec_type) (m n : Z)
    : res (option R) :=
  (do w1 <- efreq x m;
   do w2 <- efreq x n;
   do v <- evec x m;
   do w <- evec x n;
   let omega := abs_diff w2 w1 in
   match dt with
   | Some DCap => foldl (rate_add (cap_term s q x (Some 1%R) omega m n)) (Ok (Some 0)) (placements x)
   | Some DInd => foldl (rate_add (ind_rate s q (Noise.T E) (Some 1%R) omega v w)) (Ok (Some 0)) (ind_mem x)
   | Some DQp => foldl (rate_add (qp_rate s q (Noise.T E) (Some 1%R) omega v w)) (Ok (Some 0)) (half_mem x)
   | _ => Err ValueError
   end)%res.

Lemma dec_unit E s q x dt m n total w1 w2 du : thermal_type dt -> size (e_freqs (x_eig x)) <> 0%N ->
  efreq x m = Ok w1 -> efreq x n = Ok w2 -> thermal E (abs_diff w2 w1) = Some du ->
  dec_rate E s q x dt m n total = rmap (temp_factor total m n du) (unit_rate E s q x dt m n).
Proof.
move=> Ht /eqP/negbTE Hs E1 E2 Eth; rewrite /dec_rate /unit_rate Hs E1 E2; cbn [bind].
case: (evec x m) => [v|e] //; cbn [bind]; case: (evec x n) => [w|e] //; cbn [bind]; rewrite Eth.
cbn [omap obind oapp]; set t := temp_factor _ _ _ _; rewrite -{1 2 3}(rmap0 t).
case: dt Ht => [[]|] // _; apply: fold_rmap => k; [exact: cap_scale | exact: ind_scale | exact: qp_scale].
Qed.

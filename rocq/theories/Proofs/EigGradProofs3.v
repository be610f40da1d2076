(** EigGradProofs3.v -- the gradients of a copy are those of the original. *)
From Coq Require Import Reals ZArith String.
From Verif.Model Require Import Base Units Elements Edge LCWB HamConst PartialConst.
From mathcomp Require Import all_ssreflect all_algebra.
From mathcomp Require Import complex.
From Verif.Numerics Require Import RStruct Bridge.
From Verif.Model Require Import Transform Op Ham Diag CircuitSM Copy Partial TorchDiag.
From Verif.Spec Require Import CopySpec.
From Verif.Proofs Require Import CopyProofs CopyProofs2 CopyProofs3 CopyProofs4.

Set Implicit Arguments.
Unset Strict Implicit.
Unset Printing Implicit Defensive.
Import GRing.Theory.
Local Open Scope ring_scope.
Local Open Scope complex_scope.

Section Fold.
Variables (T T' : Type) (g : T -> T') (f : T -> res op) (f' : T' -> res op).
Lemma racc_map K a : (forall k, List.In k K -> f' (g k) = f k) ->
  foldl (racc f') a [seq g k | k <- K] = foldl (racc f) a K.
Proof.
elim: K a => [//|k K IH] a H /=; rewrite IH; last by move=> j hj; apply: H; right.
by congr foldl; case: a => [A|//]; rewrite /racc H //; left.
Qed.
Lemma filter_map_in (p : pred T) (p' : pred T') K : (forall k, List.In k K -> p' (g k) = p k) ->
  [seq k <- [seq g k | k <- K] | p' k] = [seq g k | k <- K & p k].
Proof.
elim: K => [//|k K IH] H /=; rewrite H; last by left.
by rewrite IH; [case: (p k)|move=> j hj; apply: H; right].
Qed.
Lemma In_filter (p : pred T) K k : List.In k [seq k <- K | p k] -> List.In k K.
Proof. by elim: K => [//|j K IH] /=; case: (p j) => /= [[->|/IH]|/IH]; auto. Qed.
End Fold.

(** [x'] in [s'] is what partial_H reads of [x] in [s], names changed. *)
Record carries (s : store) (x : circ) (s' : store) (x' : circ) (fe fl : nat -> nat) : Prop := {
  ca_num : same_numbers x x';
  ca_ops : same_ops (x_mem x) (x_mem x');
  ca_ind : c_keys_ind (x_c x') = [seq (k.1.1, fe k.1.2, k.2) | k <- c_keys_ind (x_c x)];
  ca_jj : c_keys_jj (x_c x') = [seq (k.1.1.1, fe k.1.1.2, k.1.2, k.2) | k <- c_keys_jj (x_c x)];
  ca_ival : forall k, List.In k (c_keys_ind (x_c x)) -> evalue s' (fe k.1.2) = evalue s k.1.2 /\
    M_ind (x_mem x') (fe k.1.2) k.2 = M_ind (x_mem x) k.1.2 k.2;
  ca_jval : forall k, List.In k (c_keys_jj (x_c x)) -> [/\ evalue s' (fe k.1.1.2) = evalue s k.1.1.2,
    M_cos (x_mem x') (fe k.1.1.2) k.1.2 = M_cos (x_mem x) k.1.1.2 k.1.2 &
    M_sin (x_mem x') (fe k.1.1.2) k.1.2 = M_sin (x_mem x) k.1.1.2 k.1.2];
  ca_loops : loop_values s' x' = loop_values s x }.
(** ... and of the component. *)
Definition carries_comp (s : store) (x : circ) (s' : store) (x' : circ) (fe fl : nat -> nat) (c : LCWB.comp) : Prop :=
  match c with
  | CEl el => [/\ ekind s' (fe el) = ekind s el, evalue s' (fe el) = evalue s el,
      c_pm (x_c x') (fe el) = c_pm (x_c x) el,
      forall k, List.In k (c_keys_ind (x_c x)) -> fe k.1.2 = fe el -> k.1.2 = el &
      forall k, List.In k (c_keys_jj (x_c x)) -> fe k.1.1.2 = fe el -> k.1.1.2 = el]
  | CLoop l => loop_index x' (fl l) = loop_index x l
  end.

Section Carry.
Variables (s : store) (x : circ) (s' : store) (x' : circ) (fe fl : nat -> nat).
Hypothesis H : carries s x s' x' fe fl.

Let nE : x_n x' = x_n x. Proof. by rewrite /x_n (n_st (ca_num H)). Qed.

Lemma fe_eq k el : (fe k = fe el -> k = el) -> (fe k == fe el) = (k == el).
Proof. by move=> E; apply/eqP/eqP => [/E|->]. Qed.

Lemma carry_H c b : carries_comp s x s' x' fe fl c -> partial_H s' x' (ren fe fl c) b = partial_H s x c b.
Proof.
have [N O ki kj vi vj lo] := H.
case: c => [el|l] /=.
  case=> -> Ev Ep Ii Ij; case: (ekind s el).
  - rewrite Ep (n_st N) (n_C N); case: inv => [ci|//]; case: c_pm => [P|//].
    rewrite /cap_grad (n_st N) (n_C N); case: inv => [ci'|//].
    by rewrite /quad_Q nE (o_QQ O).
  - rewrite Ep; case: c_pm => [P|//]; rewrite ki (@filter_map_in _ _ _ (fun k => k.1.2 == el)); last first.
      by move=> k hk; exact: (fe_eq (Ii k hk)).
    have -> : quad_phi x' (ind_grad x' P) = quad_phi x (ind_grad x P).
      by rewrite /quad_phi nE (o_phi O) /ind_grad (n_st N).
    apply: racc_map => -[[e el'] b'] /= hk; rewrite lo (n_B N) Ev.
    have E : el' = el by move: hk; elim: (c_keys_ind _) => [//|j K IH] /=; case: eqP => [Ej|_] /= => [[Eq|/IH]|/IH] //; rewrite -Ej Eq.
    by have [_ /= E2] := vi _ (In_filter hk); rewrite /fetch -E E2.
  - rewrite kj (@filter_map_in _ _ _ (fun k => (k.1.1.2 == el) && (if b is Some b' then b' == k.1.2 else true))); last first.
      by move=> k hk /=; congr andb; exact: (fe_eq (Ij k hk)).
    apply: racc_map => -[[[e el'] b'] w] /= hk.
    have E : el' = el by move: hk; elim: (c_keys_jj _) => [//|j K IH] /=; case: eqP => [Ej|_] /=; [case: ifP => _ /= => [[Eq|/IH]|/IH] //; rewrite -Ej Eq|exact: IH].
    by have [_ /= E2 _] := vj _ (In_filter hk); rewrite /fetch -E E2.
move=> ->; case: loop_index => [j|//]; rewrite ki kj.
rewrite (@racc_map _ _ _ (fun k : edge * nat * nat => let '(_, el, b) := k in
   rscale (loop_coef (x_B x b j) (evalue s el)) (fetch (M_ind (x_mem x)) el b))).
  apply: racc_map => -[[[e el'] b'] w] /= hk; rewrite (n_B N).
  by have [/= E1 _ E2] := vj _ hk; rewrite /fetch E1 E2.
move=> -[[e el'] b'] /= hk; rewrite (n_B N).
by have [/= E1 E2] := vi _ hk; rewrite /fetch E1 E2.
Qed.
End Carry.

(** ** The two steps of safecopy *)
Lemma deep_carries hp x y : x_c y = x_c x -> x_mem y = x_mem x -> same_numbers x y ->
  carries (hp_s hp) x (deep_store hp) (deep_circ (hp_e hp) (hp_l hp) y) (addn^~ (hp_e hp)) (addn^~ (hp_l hp)).
Proof.
have ne i e : (i + e < e)%N = false by rewrite ltnNge leq_addl.
move=> Ec Em N; split; rewrite /= ?Ec ?Em //.
- by case: N => *; split=> //=; rewrite Ec.
- by move=> k _; rewrite /= /shift_key2 ne addnK.
- by move=> k _; rewrite /= /shift_key2 ne addnK.
- by rewrite /loop_values /= Ec -map_comp; apply/eq_map => i /=; rewrite ne addnK.
Qed.
Lemma deep_carries_comp hp x y c : x_c y = x_c x ->
  carries_comp (hp_s hp) x (deep_store hp) (deep_circ (hp_e hp) (hp_l hp) y) (addn^~ (hp_e hp)) (addn^~ (hp_l hp)) c.
Proof.
have ne i e : (i + e < e)%N = false by rewrite ltnNge leq_addl.
move=> Ec; case: c => [el|l] /=.
  by split; rewrite /= ?Ec /shift_key ?ne ?addnK // => k _ /addIn.
by rewrite /loop_index /= Ec (mem_map (@addIn _)) (index_map (@addIn _)).
Qed.

Section Safe.
Variables (hp : heap) (x : circ).
Let e := hp_e hp.
Let l := hp_l hp.
Let ps := placed x.
Let ls := c_loops (x_c x).
Hypothesis ok : lookups_ok hp x.

Lemma move_here (T : Type) keep (f : nat -> option T) i : i \in ps -> move_key e ps keep f (repl0 e ps i) = f i.
Proof.
move=> hi; have [k [hk Ek Er]] := replP e hi; rewrite /repl0 Er /= /move_key ltnNge leq_addr /=.
by rewrite addKn ltn_add2l hk Ek Er eqxx.
Qed.
Lemma safe_val i : i \in ps -> evalue (safe_store hp x) (repl0 e ps i) = evalue (hp_s hp) i.
Proof. by case/(repl0_val e) => k [hk <- ->]; have [_ -> _ _ _] := @safe_new hp x k hk. Qed.
Lemma repl0_inj i j : i \in ps -> j \in ps -> repl0 e ps i = repl0 e ps j -> i = j.
Proof. by case/(repl0_val e) => k [hk <- ->]; case/(repl0_val e) => k' [hk' <- ->] /addnI ->. Qed.

Lemma safe_carries : carries (hp_s hp) x (safe_store hp x) (safe_circ hp x) (repl0 e ps) (repl0 l ls).
Proof.
move: (ok); rewrite /lookups_ok => /andP [/andP [_ kI] kJ].
have pI k : List.In k (c_keys_ind (x_c x)) -> k.1.2 \in ps.
  move: kI; rewrite /all_in; elim: (c_keys_ind _) => [//|j K IH] /= /andP [hj /IH H] [<-|/H //].
  by move: hj; rewrite repl_in.
have pJ k : List.In k (c_keys_jj (x_c x)) -> k.1.1.2 \in ps.
  move: kJ; rewrite /all_in; elim: (c_keys_jj _) => [//|j K IH] /= /andP [hj /IH H] [<-|/H //].
  by move: hj; rewrite repl_in.
split=> //.
- by move=> k /pI h; rewrite safe_val //= move_here.
- by move=> k /pJ h; rewrite safe_val //= !move_here.
- rewrite /loop_values /=; apply: (@eq_from_nth _ 0); first by rewrite !size_map size_iota.
  move=> k; rewrite size_map size_iota => hk.
  rewrite (nth_map 0%N) ?size_iota // (nth_map 0%N) // nth_iota //.
  by rewrite leq_addr ltn_add2l hk addKn.
Qed.
Lemma safe_carries_comp c : uniq ls -> comp_in hp x c ->
  carries_comp (hp_s hp) x (safe_store hp x) (safe_circ hp x) (repl0 e ps) (repl0 l ls) c.
Proof.
move: (ok); rewrite /lookups_ok => /andP [/andP [_ kI] kJ] uL.
have pI k : List.In k (c_keys_ind (x_c x)) -> k.1.2 \in ps.
  move: kI; rewrite /all_in; elim: (c_keys_ind _) => [//|j K IH] /= /andP [hj /IH H] [<-|/H //].
  by move: hj; rewrite repl_in.
have pJ k : List.In k (c_keys_jj (x_c x)) -> k.1.1.2 \in ps.
  move: kJ; rewrite /all_in; elim: (c_keys_jj _) => [//|j K IH] /= /andP [hj /IH H] [<-|/H //].
  by move: hj; rewrite repl_in.
case: c => [el|j] /=; rewrite repl_in => hc.
  split.
  - case/(repl0_val e): hc => k [hk <- ->]; by have [E _ _ _ _] := @safe_new hp x k hk; exact: E.
  - exact: safe_val.
  - exact: move_here.
  - by move=> k /pI h1; apply: repl0_inj.
  - by move=> k /pJ h1; apply: repl0_inj.
rewrite /loop_index /= (repl_uniq l uL hc) mem_iota leq_addr ltn_add2l index_mem hc /=.
have hj : (index j ls < size ls)%N by rewrite index_mem.
congr Ok; have <- : nth 0%N (iota l (size ls)) (index j ls) = (l + index j ls)%N by rewrite nth_iota.
by rewrite index_uniq ?iota_uniq // size_iota.
Qed.
End Safe.

(** ** Gradients from the copy *)
Lemma levels_same s s' ctx ctx' eps len gval gvec c c' ks : ec_max ctx' = ec_max ctx ->
  x_eig (ec_x ctx') = x_eig (ec_x ctx) -> partial_H s' (ec_x ctx') c' None = partial_H s (ec_x ctx) c None ->
  levels_grad s' ctx' eps len gval gvec c' ks = levels_grad s ctx eps len gval gvec c ks.
Proof.
move=> Em Ee EP; elim: ks => [//|k ks IH] /=; rewrite IH; congr bind.
rewrite /level_grad Em; have -> : get_partial_omega s' (ec_x ctx') c' (Z.of_nat k) false None =
    get_partial_omega s (ec_x ctx) c (Z.of_nat k) false None.
  by rewrite /get_partial_omega /evec Ee EP.
suff -> : get_partial_vec s' (ec_x ctx') c' (Z.of_nat k) eps = get_partial_vec s (ec_x ctx) c (Z.of_nat k) eps by [].
rewrite /get_partial_vec /evec /efreq Ee EP.
suff E P v w m a n : vec_term (ec_x ctx') P v w eps m a n = vec_term (ec_x ctx) P v w eps m a n.
  case: (size _ == _) => //; case: py_nth => [v|//]; cbn [bind]; case: partial_H => [P|//]; cbn [bind].
  case: py_nth => [w|//]; cbn [bind]; elim: (iota _ _) (Ok _) => [//|n ns IHn] a /=.
  by rewrite E IHn.
by rewrite /vec_term /efreq Ee.
Qed.

(** SystemDimsProofs.v -- when the sums of operators of a system have equal dimensions. *)
From Coq Require Import Reals ZArith String Lia.
From Verif.Model Require Import Base Units Elements Edge LCWB HamConst.
From mathcomp Require Import all_ssreflect all_algebra.
From mathcomp Require Import complex.
From Verif.Numerics Require Import RStruct Bridge.
From Verif.Model Require Import Transform Op Ham Diag CircuitSM Partial System SystemDims.
From Verif.Spec Require Import OpSpec SystemSpec.
From Verif.Proofs Require Import SystemProofs SystemProofs2.

Set Implicit Arguments.
Unset Strict Implicit.
Unset Printing Implicit Defensive.
Import GRing.Theory.
Local Open Scope ring_scope.
Local Open Scope complex_scope.

(** The matrices without their dimensions. *)
Definition bare (r : res (option qobj)) : res (option op) :=
  match r with Ok a => Ok (omap q_op a) | Err e => Err e end.
Definition bare1 (r : res qobj) : res op := match r with Ok a => Ok (q_op a) | Err e => Err e end.
Definition sized (D : seq nat) (r : res (option qobj)) : Prop :=
  forall X, r = Ok (Some X) -> q_dims X = D.

Lemma qplus_sized D a b : sized D (Ok a) -> sized D (Ok b) ->
  bare (qplus a b) = Ok (acc_acc (omap q_op a) (omap q_op b)) /\ sized D (qplus a b).
Proof.
case: a => [A|] ha; case: b => [B|] hb; split=> //=.
  by rewrite /qadd (ha A erefl) (hb B erefl) eqxx.
by rewrite /qadd (ha A erefl) (hb B erefl) eqxx => X [<-].
Qed.

Lemma qracc_sized D (K : Type) (f : K -> res qobj) g a b k : sized D a -> bare a = b -> bare1 (f k) = g k ->
  (forall X, f k = Ok X -> q_dims X = D) ->
  bare (qracc f a k) = racc g b k /\ sized D (qracc f a k).
Proof.
rewrite /qracc /racc => ha <- <-; case: a ha => [a|e] ha //= hf; case E: (f k) => [X|e] //=.
have hX : sized D (Ok (Some X)) by move=> Y [<-]; exact: hf.
have [-> h] := qplus_sized ha hX; split=> //; by case: (a).
Qed.

Section Fresh.
Variables (circs : nat -> circ) (u : ustate) (cps : seq couple) (S : sys) (s : store).
Hypothesis made : system circs u cps = Ok S.
Hypothesis same : forall c, c \in s_ids S -> size (e_vecs (x_eig (circs c))) = size (e_freqs (x_eig (circs c))).

Let trE i : (i < s_sub S)%N -> nth 0%N (s_tr S) i = size (e_freqs (x_eig (circs (nth 0%N (s_ids S) i)))).
Proof. by have [_ _ _ -> _] := systemP made; move=> hi; rewrite (nth_map 0%N). Qed.
Let str : size (s_tr S) = s_sub S.
Proof. by have [_ _ _ -> _] := systemP made; rewrite size_map. Qed.

Lemma all_tr (f : nat -> nat) : (forall i, (i < s_sub S)%N -> f i = nth 0%N (s_tr S) i) ->
  [seq f i | i <- iota 0 (s_sub S)] = s_tr S.
Proof.
move=> h; apply: (@eq_from_nth _ 0%N); rewrite size_map size_iota ?str // => i hi.
by rewrite (nth_map 0%N) ?size_iota // nth_iota // add0n h.
Qed.

Lemma in_sys_dims A k : dim A = nth 0%N (s_tr S) k -> q_dims (q_in_sys S A k) = s_tr S.
Proof. by move=> E; apply: all_tr => i hi; case: eqP => [->|]. Qed.

Lemma charge_dims i Q : (i < s_N S)%N -> node_charge circs S i = Ok Q ->
  dim Q = nth 0%N (s_tr S) (sub_idx circs S i).2.
Proof.
move=> hi; have h := pos_lt made hi; rewrite /node_charge (sub_idxE made) //; cbn [fst snd].
rewrite trE // /charge_op_eig; case: eqP => // _; case: py_nth => // X; case: eqP => // _ [<-] /=.
by apply: same; rewrite mem_nth.
Qed.

Lemma QQ_dims i j X : (i < s_N S)%N -> (j < s_N S)%N -> q_QQ circs S i j = Ok X -> q_dims X = s_tr S.
Proof.
move=> hi hj; rewrite /q_QQ; case E1: node_charge => [A|//]; case E2: node_charge => [B|//] [<-].
have d1 := charge_dims hi E1; have d2 := charge_dims hj E2.
rewrite /q_times_q; case: eqP => [E|ne]; first exact: in_sys_dims.
by apply: all_tr => k hk; case: eqP => [->|_] //; case: eqP => [->|_].
Qed.

Lemma QQ_bare i j : bare1 (q_QQ circs S i j) = QQ_op circs S i j.
Proof.
rewrite /q_QQ /QQ_op; case: node_charge => // A; case: node_charge => // B /=.
by rewrite /q_times_q /op_times_op; case: eqP.
Qed.

Lemma rscale_bare c r : bare1 (qrscale c r) = rscale c (bare1 r).
Proof. by case: r. Qed.

Lemma quad_term_sized A i a b j : (i < s_N S)%N -> (j < s_N S)%N -> sized (s_tr S) a -> bare a = b ->
  bare (q_quad_term circs S A i a j) = quad_term circs S A i b j /\ sized (s_tr S) (q_quad_term circs S A i a j).
Proof.
move=> hi hj ha hb; rewrite /q_quad_term /quad_term; case: eqP => _; last case: ifP => _; last by [].
  apply: (qracc_sized ha hb); first by rewrite rscale_bare QQ_bare.
  by move=> X; case E: q_QQ => [Y|//] [<-]; apply: (QQ_dims hi hj E).
apply: (qracc_sized ha hb); first by rewrite rscale_bare QQ_bare.
by move=> X; case E: q_QQ => [Y|//] [<-]; apply: (QQ_dims hi hj E).
Qed.

Lemma quad_row_sized A i a b js : (i < s_N S)%N -> (forall j, j \in js -> (j < s_N S)%N) -> sized (s_tr S) a -> bare a = b ->
  bare (foldl (q_quad_term circs S A i) a js) = foldl (quad_term circs S A i) b js /\
  sized (s_tr S) (foldl (q_quad_term circs S A i) a js).
Proof.
move=> hi; elim: js a b => //= j js IH a b hjs ha hb.
have [e1 e2] := quad_term_sized A hi (hjs _ (mem_head _ _)) ha hb.
by apply: IH => // k hk; apply: hjs; rewrite inE hk orbT.
Qed.

Lemma quadratic_sized A : bare (q_quadratic circs S A) = quadratic_Q circs S A /\ sized (s_tr S) (q_quadratic circs S A).
Proof.
rewrite /q_quadratic /quadratic_Q; set L := iota 0 (s_N S).
have hL j : j \in L -> (j < s_N S)%N by rewrite mem_iota add0n => /andP [].
have aux is_ a b : (forall i, i \in is_ -> (i < s_N S)%N) -> sized (s_tr S) a -> bare a = b ->
  bare (foldl (fun acc i => foldl (q_quad_term circs S A i) acc L) a is_) =
    foldl (fun acc i => foldl (quad_term circs S A i) acc L) b is_ /\
  sized (s_tr S) (foldl (fun acc i => foldl (q_quad_term circs S A i) acc L) a is_).
  elim: is_ a b => //= i is_ IH a b hi ha hb.
  have [e1 e2] := quad_row_sized A (hi _ (mem_head _ _)) hL ha hb.
  by apply: IH => // k hk; apply: hi; rewrite inE hk orbT.
exact: aux.
Qed.

Lemma local_sized : bare (q_H_local circs u S) = H_local circs u S /\ sized (s_tr S) (q_H_local circs u S).
Proof.
rewrite /q_H_local /H_local; set L := iota 0 _.
have hL j : j \in L -> (j < s_sub S)%N by rewrite mem_iota add0n => /andP [].
have aux is_ a b : (forall i, i \in is_ -> (i < s_sub S)%N) -> sized (s_tr S) a -> bare a = b ->
  bare (foldl (qracc (q_local_term circs u S)) a is_) = foldl (racc (local_term circs u S)) b is_ /\
  sized (s_tr S) (foldl (qracc (q_local_term circs u S)) a is_).
  elim: is_ a b => //= i is_ IH a b hi ha hb.
  have [] := qracc_sized (f := q_local_term circs u S) (g := local_term circs u S) (k := i) ha hb.
  - by rewrite /q_local_term /local_term; case: efreqs.
  - move=> X; rewrite /q_local_term; case E: efreqs => [f|//] [<-]; apply: in_sys_dims.
    rewrite /= trE; last exact: (hi _ (mem_head _ _)).
    by move: E; rewrite /efreqs; case: eqP => // _ [<-]; rewrite size_map.
  by move=> e1 e2; apply: IH => // k hk; apply: hi; rewrite inE hk orbT.
exact: aux.
Qed.

Lemma hamiltonian_sized : bare (q_hamiltonian circs s u S) = s_hamiltonian circs s u S /\
  sized (s_tr S) (q_hamiltonian circs s u S).
Proof.
rewrite /q_hamiltonian /s_hamiltonian /q_H_int /H_int; have [<- h1] := local_sized.
case: q_H_local h1 => [a|//] h1 /=; case: int_coef => // A; have [<- h2] := quadratic_sized A.
case: q_quadratic h2 => [q|//] h2 /=.
have h3 : sized (s_tr S) (Ok (omap (qscale (in_unit u 1)%:C) q)).
  by case: q h2 => // X h2 Y [<-]; apply: (h2 X).
have [-> h4] := qplus_sized h1 h3; split=> //; congr (Ok (acc_acc _ _)); by case: (q).
Qed.
End Fresh.

Lemma mem_In (ks : seq nat) k : List.In k ks <-> k \in ks.
Proof.
elim: ks => //= x ks IH; rewrite inE; split=> [[->|/IH ->]|/orP [/eqP ->|/IH]]; rewrite ?eqxx ?orbT; by [|left|right].
Qed.

(** Sums that succeed were of operators of equal dimensions. *)
Lemma fold_dims (K : Type) (f : K -> res qobj) ks A r : foldl (qracc f) (Ok (Some A)) ks = Ok r ->
  [/\ exists2 X, r = Some X & q_dims X = q_dims A & forall k, List.In k ks -> exists2 X, f k = Ok X & q_dims X = q_dims A].
Proof.
have err e l : foldl (qracc f) (Err e) l = Err e by elim: l.
elim: ks A => [|k ks IH] A /=; first by case=> <-; split=> //; exists A.
case E: (f k) => [X|e]; last by rewrite err.
rewrite /= /qadd; case: eqP => [e|_]; last by rewrite err.
move=> /IH [[Y -> eY] h]; split; first by exists Y.
by move=> k' [<-|/h //]; exists X.
Qed.

(** The only errors are those of the terms and of unequal dimensions. *)
Lemma fold_error (K : Type) (f : K -> res qobj) ks a e : (forall k, List.In k ks -> exists X, f k = Ok X) ->
  foldl (qracc f) (Ok a) ks = Err e -> e = TypeError.
Proof.
have err e' l : foldl (qracc f) (Err e') l = Err e' by elim: l.
elim: ks a => //= k ks IH a h; have [X ->] := h k (or_introl erefl).
have h' k' : List.In k' ks -> exists X, f k' = Ok X by move=> hk; apply: h; right.
case: a => [A|] /=; last by apply: IH.
by rewrite /qadd; case: eqP => _; [apply: IH | rewrite err => -[<-]].
Qed.

Section Later.
Variables (circs : nat -> circ) (u : ustate) (cps : seq couple) (S : sys).
Variables (circs' : nat -> circ) (u' : ustate).
Hypothesis made : system circs u cps = Ok S.
Variable tr' : seq nat.
Hypothesis now : num_eigs circs' u' (s_ids S) = Ok tr'.

Lemma local_later i : (i < s_sub S)%N -> exists2 A : op, dim A = nth 0%N tr' i &
  q_local_term circs' u' S i = Ok (q_in_sys S A i).
Proof.
move=> hi; have [El nz] := num_eigsP now; rewrite /q_local_term /efreqs.
have := nz _ (mem_nth 0%N hi); case: eqP => // _ _; eexists; last by reflexivity.
by rewrite /= size_map El (nth_map 0%N).
Qed.

Lemma later_equal r : (1 < s_sub S)%N -> q_H_local circs' u' S = Ok r -> tr' = s_tr S.
Proof.
move=> h2; rewrite /q_H_local; have h0 : (0 < s_sub S)%N by apply: ltn_trans h2.
have [El _] := num_eigsP now; have [_ _ _ Et _] := systemP made.
have [A0 d0 E0] := local_later h0.
have -> : iota 0 (s_sub S) = 0%N :: iota 1 (s_sub S).-1 by rewrite -[in LHS](prednK h0).
rewrite /= E0 => /fold_dims [_ H].
have all_eq i : (i < s_sub S)%N -> exists2 A : op, dim A = nth 0%N tr' i & q_dims (q_in_sys S A i) = q_dims (q_in_sys S A0 0).
  move=> hi; case: i hi => [|i] hi; first by exists A0.
  have [A dA EA] := local_later hi; exists A => //.
  have [|X] := H i.+1; last by rewrite EA => -[<-].
  by apply/mem_In; rewrite mem_iota /= add1n prednK.
apply: (@eq_from_nth _ 0%N); first by rewrite El Et !size_map.
move=> k hk0; have hk : (k < s_sub S)%N by move: hk0; rewrite El size_map.
clear hk0.
have [j hj jk] : exists2 j, (j < s_sub S)%N & j != k by case: k hk => [|k] hk; [exists 1%N|exists 0%N].
have [A dA EA] := all_eq k hk; have [B dB EB] := all_eq j hj.
have := congr1 (nth 0%N ^~ k) (etrans EA (esym EB)).
by rewrite /= !(nth_map 0%N) ?size_iota // !nth_iota // !add0n eqxx [k == j]eq_sym (negbTE jk) dA => ->.
Qed.

Lemma later_refused s : (1 < s_sub S)%N -> tr' <> s_tr S -> q_hamiltonian circs' s u' S = Err TypeError.
Proof.
move=> h2 ne; rewrite /q_hamiltonian; case E: q_H_local => [r|e].
  by case: ne; apply: (later_equal h2 E).
congr Err; apply: (fold_error _ E) => k /mem_In; rewrite mem_iota add0n => /andP [_ hk].
by have [A _ ->] := local_later hk; eexists.
Qed.
End Later.

(** A system of one circuit does not use the recorded number. *)
Definition with_tr (S : sys) (t : seq nat) : sys := mkSys (s_cps S) (s_ids S) (s_N S) t.

Section Single.
Variables (circs : nat -> circ) (S : sys) (t : seq nat).
Hypothesis one : (s_sub S <= 1)%N.
Let S' := with_tr S t.

Lemma single_idx i : (sub_idx circs S i).2 = 0%N.
Proof.
move: one; rewrite /s_sub /sub_idx; case: (s_ids S) => [|c [|//]] _ //=.
by case: ifP => _ //=; rewrite eqxx.
Qed.

Lemma single_in A : q_in_sys S A 0 = q_in_sys S' A 0.
Proof.
rewrite /q_in_sys /op_in_sys /S' /with_tr /s_sub; cbn [s_ids s_tr].
by move: one; rewrite /s_sub; case: (s_ids S) => [|c [|//]] _.
Qed.

Lemma single_QQ i j : q_QQ circs S i j = q_QQ circs S' i j.
Proof.
rewrite /q_QQ; change (node_charge circs S') with (node_charge circs S); change (sub_idx circs S') with (sub_idx circs S).
by rewrite !single_idx; case: node_charge => // A; case: node_charge => // B; rewrite /q_times_q eqxx single_in.
Qed.

Lemma single_local u i : (i < s_sub S)%N -> q_local_term circs u S i = q_local_term circs u S' i.
Proof.
move=> hi; have -> : i = 0%N by move: hi one; case: (s_sub S) => [|[|]] //; case: i.
rewrite /q_local_term; change (s_ids S') with (s_ids S).
by case: efreqs => // f; rewrite single_in.
Qed.

Lemma foldl_eq_in (T : eqType) (B : Type) (f g : B -> T -> B) a l : (forall b x, x \in l -> f b x = g b x) ->
  foldl f a l = foldl g a l.
Proof.
elim: l a => //= x l IH a h; rewrite h ?mem_head //; apply: IH => b y hy; apply: h; by rewrite inE hy orbT.
Qed.

Lemma single_hamiltonian s u : q_hamiltonian circs s u S = q_hamiltonian circs s u S'.
Proof.
rewrite /q_hamiltonian.
have -> : q_H_local circs u S = q_H_local circs u S'.
  rewrite /q_H_local; change (s_sub S') with (s_sub S); apply: foldl_eq_in => b i; rewrite mem_iota add0n => /andP [_ hi].
  by rewrite /qracc single_local.
case: q_H_local => // a.
have -> // : q_H_int circs s u S = q_H_int circs s u S'.
rewrite /q_H_int; change (int_coef circs s S') with (int_coef circs s S); case: int_coef => // A.
have -> // : q_quadratic circs S A = q_quadratic circs S' A.
rewrite /q_quadratic; change (s_N S') with (s_N S); apply: foldl_eq_in => b i _; apply: foldl_eq_in => b' j _.
by rewrite /q_quad_term /qracc !single_QQ.
Qed.
End Single.

Lemma num_eigs_ok circs u ids : (forall c, c \in ids -> size (e_freqs (x_eig (circs c))) <> 0%N) ->
  num_eigs circs u ids = Ok [seq size (e_freqs (x_eig (circs c))) | c <- ids].
Proof.
elim: ids => //= c ids IH h; rewrite /efreqs; case: eqP => [E|_]; first by case: (h c (mem_head _ _)).
by rewrite IH ?size_map // => k hk; apply: h; rewrite inE hk orbT.
Qed.

(** P_Composite.v -- C74: the Hamiltonian of a system and the Hamiltonian of the
    whole. *)
From Coq Require Import Reals ZArith String Lia.
From Verif.Model Require Import Base Units Elements Edge LCWB HamConst.
From mathcomp Require Import all_ssreflect all_algebra.
From mathcomp Require Import complex.
From Verif.Numerics Require Import RStruct Bridge.
From Verif.Model Require Import Transform Op Ham Diag CircuitSM Partial System.
From Verif.Spec Require Import OpSpec EigSpec PerturbSpec SessionSpec SystemSpec CompositeSpec.
From Verif.Proofs Require Import OpProofs HamProofs HamProofs2 HamProofs3 HamConstProofs SMProofs SystemProofs SystemProofs2.
From Verif.Proofs Require Import CompositeProofs CompositeProofs2 CompositeProofs3.
From Verif.Proofs Require Import SessionCase CapCase SystemCase SystemCase2 SystemCase3 SystemCase4.
From Verif.Properties Require Import P_System P_SystemHam.

Set Implicit Arguments.
Unset Strict Implicit.
Unset Printing Implicit Defensive.
Import GRing.Theory.
Local Open Scope ring_scope.
Local Open Scope complex_scope.

Section Composite.
Variables (disp : nat -> C -> op) (optim : bool) (circs : nat -> circ) (s : store) (u : ustate) (cps : seq couple) (S : sys).
Hypothesis made : system circs u cps = Ok S.
Hypothesis al : aligned circs (s_ids S).
Hypothesis ok : links_ok s (fun c => x_n (circs c)) (s_ids S) cps.
(** The k-th circuit was diagonalised for the Hamiltonian [Hm k]. *)
Variable Hm : nat -> op.
Let n := s_sub S.
Let N := s_N S.
Let circ_at (k : nat) : circ := circs (nth 0%N (s_ids S) k).
Hypothesis dg : forall k, (k < n)%N -> diagonalised_as disp optim (circ_at k) (Hm k).
Let D (k : nat) : nat := dim (Hm k).
Let kept (k : nat) : nat := nth 0%N (s_tr S) k.
Let vs (k : nat) : seq cvec := e_vecs (x_eig (circ_at k)).
Let nd (i : nat) : nat * nat := nth (0, 0)%N (node_list (fun c => x_n (circs c)) (s_ids S)) i.
(** The charge of node [i] of the system, on the space of its circuit; that circuit. *)
Let Q (i : nat) : op := opQ (hof (circs (nd i).1)) (nd i).2.-1.
Let at_ (i : nat) : nat := index (nd i).1 (s_ids S).
(** The product of the kept levels with numbers [d]. *)
Let levels (d : nat -> nat) : cvec := product_state D (fun k => nth (fun=> 0) (vs k) (d k)) n.

Let ids_at c : c \in s_ids S -> diagonalised_as disp optim (circs c) (Hm (index c (s_ids S))).
Proof. by move=> hc; have := dg (k := index c (s_ids S)); rewrite /circ_at nth_index // /n /s_sub index_mem; apply. Qed.
Let rdy c : c \in s_ids S -> ready disp (circs c).
Proof. by move=> hc; have [] := as_facts (ids_at hc). Qed.
Let mat c : c \in s_ids S -> matched optim (circs c).
Proof. by move=> hc; exact: as_matched (ids_at hc). Qed.
Let tot k : (k < n)%N -> total (hof (circ_at k)) = D k.
Proof. by move=> hk; have [_ [-> _]] := as_facts (dg hk). Qed.
Let onb k : (k < n)%N -> orthonormal (D k) (vs k).
Proof. by move=> hk; have [] := as_facts (dg hk). Qed.
Let eig k a : (k < n)%N -> (a < size (vs k))%N ->
  eigenpair (Hm k) (nth 0 (e_freqs (x_eig (circ_at k))) a)%:C (nth (fun=> 0) (vs k) a).
Proof. by move=> hk; have [_ _ _] := as_facts (dg hk); apply. Qed.

(** The interaction with the circuits' own charging energies is the charging
    energy of the whole: the inverse of its capacitance matrix, in the circuits'
    coordinates.  The interaction is symmetric. *)
Theorem C74_charging A : int_coef circs s S = Ok A -> exists M V : nat -> nat -> R, [/\ cap_matrix circs s S = Ok M,
  (forall p q, (p < N)%N -> (q < N)%N ->
     (\sum_(k < N) M p k * V k q = if p == q then 1 else 0) /\ \sum_(k < N) V p k * M k q = if p == q then 1 else 0),
  (forall i j, (i < N)%N -> (j < N)%N ->
  A i j + own_entry (fun c => t_cI (x_st (circs c))) (nd i) (nd j) =
  \sum_(p < N) \sum_(q < N) own_entry (fun c => t_R (x_st (circs c))) (nd p) (nd i) * V p q *
                            own_entry (fun c => t_R (x_st (circs c))) (nd q) (nd j)) &
  forall i j, (i < N)%N -> (j < N)%N -> A i j = A j i].
Proof.
move=> EA; have [M [V [EM HV HE]]] := int_energy made al mat EA; exists M, V; split=> // i j.
exact: (int_sym made al ok mat EA).
Qed.

(** [HH k] is the Hamiltonian of circuit [k], [QQ i] the charge of node [i], as
    operators of the whole. *)
Variables HH QQ : nat -> op.
Hypothesis aH : forall k, (k < n)%N -> acts_on n D k (ent (Hm k)) (HH k).
Hypothesis aQ : forall i, (i < N)%N -> acts_on n D (at_ i) (ent (Q i)) (QQ i).

(** The entries of System.hamiltonian(): matrix elements of the Hamiltonian of the
    whole between products of kept levels, less what leaks out of the kept levels
    between two charges of the same circuit. *)
Theorem C74_compression A H d d' : int_coef circs s S = Ok A -> s_hamiltonian circs s u S = Ok (Some H) ->
  legal kept d n -> legal kept d' n ->
  ent H (posn kept d n) (posn kept d' n) =
  (in_unit u 1)%:C * (inner (levels d) (composite n N D HH QQ A) (levels d') -
    \sum_(i < N) \sum_(j < N) (if i == j then halfR (A i i) else if (i < j)%N then A i j else 0)%:C *
      (if (at_ i == at_ j) && [forall k : 'I_n, ((k : nat) == at_ i) || (d k == d' k)]
       then leak (vs (at_ i)) (Q i) (Q j) (d (at_ i)) (d' (at_ i)) else 0)).
Proof.
move=> EA EH Ld Ld'; rewrite mulrBr.
have SA i j : (i < N)%N -> (j < N)%N -> A i j = A j i by exact: (int_sym made al ok mat EA).
have E := compress_all made rdy tot onb eig Ld Ld' (fun i _ => erefl (Q i)) aH aQ SA EA EH.
by apply/eqP; rewrite eq_sym subr_eq; apply/eqP.
Qed.

(** Nothing leaks when every level is kept: the two Hamiltonians agree. *)
Theorem C74_all_levels A H d d' : int_coef circs s S = Ok A -> s_hamiltonian circs s u S = Ok (Some H) ->
  (forall k, (k < n)%N -> kept k = D k) -> legal kept d n -> legal kept d' n ->
  ent H (posn kept d n) (posn kept d' n) = (in_unit u 1)%:C * inner (levels d) (composite n N D HH QQ A) (levels d').
Proof.
move=> EA EH full Ld Ld'; rewrite (C74_compression EA EH Ld Ld') big1 ?subr0 // => i _; rewrite big1 // => j _.
have hi := pos_lt made (ltn_ord i); have dQ l : (l < N)%N -> dim (Q l) = D (at_ l).
  exact: (dim_Q made tot (Q := Q) (fun i _ => erefl (Q i))).
case: (boolP (at_ i == at_ j)) => [/eqP Ea|_]; last by rewrite mulr0.
have -> : leak (vs (at_ i)) (Q i) (Q j) (d (at_ i)) (d' (at_ i)) = 0.
  apply: (leak_full (m := D (at_ i))); [exact: onb| |exact: dQ|by rewrite Ea dQ].
  by rewrite -full // /kept (tr_vs made rdy).
by rewrite if_same mulr0.
Qed.

(** What leaks between a charge and itself at one level: the squared length of the
    part of Q v outside the span of the kept levels.  It is not negative, and it is
    zero exactly when that part vanishes. *)
Theorem C74_leak i a : (i < N)%N -> let v := nth (fun=> 0) (vs (at_ i)) in
  let out x := apply_to (D (at_ i)) (ent (Q i)) (v a) x -
    \sum_(l < size (vs (at_ i))) inner (v l) (Q i) (v a) * v l x in
  let lost := \sum_(x < D (at_ i)) (complex.Re (out x) ^+ 2 + complex.Im (out x) ^+ 2) in
  [/\ leak (vs (at_ i)) (Q i) (Q i) a a = lost%:C, Rle R0 lost &
      lost = 0 <-> forall x, (x < D (at_ i))%N -> out x = 0].
Proof.
move=> hi v out lost; have hp := pos_lt made hi.
have hQ : herm (Q i) by rewrite /Q opQE; apply: herm_one => k; apply: herm_Qiso.
have dQ : dim (Q i) = D (at_ i) by exact: (dim_Q made tot (Q := Q) (fun i _ => erefl (Q i))).
have sq (z : C) : z^* * z = (complex.Re z ^+ 2 + complex.Im z ^+ 2)%:C.
  by case: z => x y; simpc; rewrite [y * x]mulrC subrr !expr2.
have pos x : 0 <= complex.Re (out x) ^+ 2 + complex.Im (out x) ^+ 2 by rewrite Num.Theory.addr_ge0 // Num.Theory.sqr_ge0.
split.
- rewrite (leak_self a (onb hp) dQ hQ) /dot rmorph_sum; apply: eq_bigr => x _; exact: sq.
- by apply/RleP; apply: Num.Theory.sumr_ge0.
- split=> [E x hx|H]; last by rewrite /lost big1 // => x _; rewrite H //= expr0n addr0.
  have /eqP := E; rewrite Num.Theory.psumr_eq0 // => /allP /(_ (Ordinal hx) (mem_index_enum _)).
  rewrite Num.Theory.paddr_eq0 ?Num.Theory.sqr_ge0 // !sqrf_eq0 => /andP [/eqP h1 /eqP h2].
  by move: h1 h2 => /=; case: (out x) => x1 x2 /= -> ->.
Qed.
End Composite.
Print Assumptions C74_charging.
Print Assumptions C74_compression.
Print Assumptions C74_all_levels.
Print Assumptions C74_leak.

Lemma posn_dims (D D' e : nat -> nat) n : (forall k, (k < n)%N -> D k = D' k) -> posn D e n = posn D' e n.
Proof. by elim: n => // n IH H /=; rewrite H // IH // => k hk; apply: H; exact: leqW. Qed.

(** The operators of the whole exist. *)
Lemma whole_ops (D : nat -> nat) (n : nat) (F : nat -> op) (p : nat -> nat) (m : nat) :
  (forall i, (i < m)%N -> (p i < n)%N /\ dim (F i) = D (p i)) ->
  exists X : nat -> op, forall i, (i < m)%N -> acts_on n D (p i) (ent (F i)) (X i).
Proof.
move=> HF; pose S' := mkSys [::] (iota 0 n) 0 [seq D k | k <- iota 0 n].
have sn : s_sub S' = n by rewrite /s_sub /= size_iota.
have nD k : (k < n)%N -> nth 0%N (s_tr S') k = D k by move=> hk; rewrite (nth_map 0%N) ?size_iota // nth_iota.
exists (fun i => op_in_sys S' (F i) (p i)) => i hi; have [hp dF] := HF i hi.
have := lift_acts (S := S') (A := F i) (k := p i); rewrite sn => /(_ hp); rewrite nD // => /(_ dF) [h1 h2]; split.
  by rewrite h1; apply: eq_bigr => k _; exact: nD.
move=> d d' Ld Ld'; have E e : posn D e n = posn (fun k => nth 0%N (s_tr S') k) e n.
  by apply: posn_dims => k hk; rewrite nD.
rewrite !E; apply: h2; move=> k hk; rewrite nD //; [exact: Ld|exact: Ld'].
Qed.

(** The Hamiltonians of a session with a system of two circuits. *)
Section Pair.
Variables (disp : nat -> C -> op) (optim : bool).
Hypothesis dd : forall m a, dim (disp m a) = m.
Variables (circs : nat -> circ) (u : ustate) (cps : seq couple) (S : sys).
Hypothesis made : system circs u cps = Ok S.
Hypothesis two : s_ids S = [:: 0; 1]%N.
Hypothesis d0 : diagonalised disp optim (circs 0%N).
Hypothesis d1 : diagonalised disp optim (circs 1%N).
Let nd (i : nat) : nat * nat := nth (0, 0)%N (node_list (fun c => x_n (circs c)) (s_ids S)) i.
Let Q (i : nat) : op := opQ (hof (circs (nd i).1)) (nd i).2.-1.

Lemma pair_whole : exists Hm HH QQ : nat -> op, let D (k : nat) := dim (Hm k) in
  [/\ forall k, (k < s_sub S)%N -> diagonalised_as disp optim (circs (nth 0%N (s_ids S) k)) (Hm k),
      forall k, (k < s_sub S)%N -> acts_on (s_sub S) D k (ent (Hm k)) (HH k) &
      forall i, (i < s_N S)%N -> acts_on (s_sub S) D (index (nd i).1 (s_ids S)) (ent (Q i)) (QQ i)].
Proof.
have [H0 e0] := diagonalised_some dd d0; have [H1 e1] := diagonalised_some dd d1.
pose Hm (k : nat) := if k == 0%N then H0 else H1.
have n2 : s_sub S = 2%N by rewrite /s_sub two.
have dg k : (k < s_sub S)%N -> diagonalised_as disp optim (circs (nth 0%N (s_ids S) k)) (Hm k).
  by rewrite n2 two; case: k => [|[|//]].
have rdy c : c \in s_ids S -> ready disp (circs c).
  by rewrite two !inE => /orP [] /eqP ->; [have [] := as_facts e0|have [] := as_facts e1].
have tot k : (k < s_sub S)%N -> total (hof (circs (nth 0%N (s_ids S) k))) = dim (Hm k).
  by move=> hk; have [_ [-> _]] := as_facts (dg k hk).
have [HH aH] := @whole_ops (fun k => dim (Hm k)) (s_sub S) Hm id (s_sub S) (fun i hi => conj hi erefl).
have [QQ aQ] : exists QQ : nat -> op, forall i, (i < s_N S)%N ->
    acts_on (s_sub S) (fun k => dim (Hm k)) (index (nd i).1 (s_ids S)) (ent (Q i)) (QQ i).
  apply: whole_ops => i hi; split; first exact: (pos_lt made hi).
  exact: (dim_Q made tot (Q := Q) (fun i _ => erefl (Q i))).
by exists Hm, HH, QQ.
Qed.
End Pair.

(** The system of SystemCase4, whose Hamiltonian is not Hermitian. *)
Lemma tw_system disp optim (lobj : nat -> lrec) : exists x y S A H, let circs := two_circs x y in
  [/\ diagonalised disp optim x /\ diagonalised disp optim y, system circs ustate_init two_cps = Ok S /\ s_ids S = [:: 0; 1]%N,
      aligned circs (s_ids S) /\ links_ok (cap_store 1) (fun c => x_n (circs c)) (s_ids S) two_cps,
      int_coef circs (cap_store 1) S = Ok A /\ s_hamiltonian circs (cap_store 1) ustate_init S = Ok (Some H) &
      A 0%N 1%N = 8%:R^-1 /\ ~ herm H].
Proof.
have [x [dx [nx n0x] [Cx Rx] fx HQ]] := tw_diag disp optim lobj.
have [y [dy [ny n0y] [Cy Ry] fy]] := one_diag disp optim lobj.
have [A EA HA] := two_coef nx n0x Cx Rx ny n0y Cy Ry.
have made := two_made ustate_init nx fx ny fy.
set S := mkSys _ _ _ _ in made EA.
have dd c : c \in s_ids S -> diagonalised disp optim (two_circs x y c) by rewrite /two_circs; case: eqP.
have [H EH] := C55_total made dd (isT : (0 < s_sub S)%N) EA.
exists x, y, S, A, H; split=> //; first by split; [exact: two_aligned|exact: two_links].
split=> //; have [Q1 E1 [d1 e1]] := HQ 0%N isT; have [Q2 E2 [d2 e2]] := HQ 1%N isT.
have u0 : in_unit ustate_init 1 <> 0.
  by move=> E; have := in_unit_back ustate_init 1 unit_init; rewrite E Rmult_0_l => /esym; exact: R1_neq_R0.
apply: (C55_not_hermitian made dd (c := 0%N) _ nx _ E1 E2 _ EA _ u0 EH) => //.
- by move=> c; rewrite !inE => /orP [] /eqP -> // _; rewrite /two_circs /= ny.
- move=> [_ /(_ 1%N 2%N)]; rewrite /= d1 d2 => /(_ isT isT).
  rewrite !big_ord_recr !big_ord0 /= !e1 // !e2 //.
  rewrite (@tw_Q0 0 1 0) // (@tw_Q0 1 1 0) // !cR0 !mul0r !add0r -!cRM -!cRD => /(congr1 (@complex.Re R)); exact: tw_noncommuting.
- by rewrite /node_idx /= /two_circs /= HA; apply/eqP; rewrite invr_eq0 Num.Theory.pnatr_eq0.
Qed.

(** The two Hamiltonians need not agree: the circuit of two capacitors of
    SystemCase4, kept to three levels, coupled to a single capacitor.  The
    Hamiltonian of the whole is Hermitian, that of the system is not.  The system
    meets all the assumptions above. *)
Theorem C74_refuted disp optim (lobj : nat -> lrec) : (forall m a, dim (disp m a) = m) -> exists x y S A H Hm HH QQ,
  let circs := two_circs x y in let n := s_sub S in let D k := dim (Hm k) in
  let kept k := nth 0%N (s_tr S) k in
  let nd i := nth (0, 0)%N (node_list (fun c => x_n (circs c)) (s_ids S)) i in
  let levels d := product_state D (fun k => nth (fun=> 0) (e_vecs (x_eig (circs (nth 0%N (s_ids S) k)))) (d k)) n in
  [/\ system circs ustate_init two_cps = Ok S /\ (aligned circs (s_ids S) /\
      links_ok (cap_store 1) (fun c => x_n (circs c)) (s_ids S) two_cps),
      forall k, (k < n)%N -> diagonalised_as disp optim (circs (nth 0%N (s_ids S) k)) (Hm k),
      (forall k, (k < n)%N -> acts_on n D k (ent (Hm k)) (HH k)) /\
      (forall i, (i < s_N S)%N -> acts_on n D (index (nd i).1 (s_ids S)) (ent (opQ (hof (circs (nd i).1)) (nd i).2.-1)) (QQ i)),
      (int_coef circs (cap_store 1) S = Ok A /\ A 0%N 1%N = 8%:R^-1) /\
      s_hamiltonian circs (cap_store 1) ustate_init S = Ok (Some H) &
      ~ forall d d', legal kept d n -> legal kept d' n ->
          ent H (posn kept d n) (posn kept d' n) =
          (in_unit ustate_init 1)%:C * inner (levels d) (composite n (s_N S) D HH QQ A) (levels d')].
Proof.
move=> dd; have [x [y [S [A [H [[dx dy] [made two] [al ok] [EA EH] [HA nH]]]]]]] := tw_system disp optim lobj.
have [Hm [HH [QQ [dg aH aQ]]]] := pair_whole dd made two dx dy.
exists x, y, S, A, H, Hm, HH, QQ => circs n D kept nd levels; split=> // E; apply: nH.
have dH : dim H = (\prod_(k < n) kept k)%N.
  by rewrite (hamiltonian_dim made EH) // /n /s_sub two.
have tot k : (k < n)%N -> total (hof (circs (nth 0%N (s_ids S) k))) = D k.
  by move=> hk; have [_ [-> _]] := as_facts (dg k hk).
have hC : herm (composite n (s_N S) D HH QQ A).
  apply: (composite_herm made tot (Q := fun i => opQ (hof (circs (nd i).1)) (nd i).2.-1) (fun i _ => erefl) aH aQ).
  by move=> k hk; have [_ [_ hh]] := as_facts (dg k hk).
split=> // a b; rewrite dH => ha hb; have [d [Ld <-]] := posn_surj ha; have [d' [Ld' <-]] := posn_surj hb.
rewrite /oadj /=; rewrite !E // cjM cjR; congr (_ * _); exact: inner_herm.
Qed.
Print Assumptions C74_refuted.

(** In that system some charges of the circuit of two nodes do leak. *)
Example C74_case (lobj : nat -> lrec) : exists x y S A,
  let circs := two_circs x y in
  let vs k := e_vecs (x_eig (circs (nth 0%N (s_ids S) k))) in
  let nd i := nth (0, 0)%N (node_list (fun c => x_n (circs c)) (s_ids S)) i in
  let Q i := opQ (hof (circs (nd i).1)) (nd i).2.-1 in
  [/\ system circs ustate_init two_cps = Ok S, int_coef circs (cap_store 1) S = Ok A, A 0%N 1%N = 8%:R^-1 &
      ~ forall i j a b, leak (vs (index (nd i).1 (s_ids S))) (Q i) (Q j) a b = 0].
Proof.
have [x [y [S [A [H [Hm [HH [QQ]]]]]]]] := @C74_refuted (fun m _ => ozero m) false lobj (fun _ _ => erefl).
move=> [[made [al ok]] dg [aH aQ] [[EA HA] EH] nE]; exists x, y, S, A => circs vs nd Q; split=> // L; apply: nE => d d' Ld Ld'.
rewrite (C74_compression made al ok dg aH aQ EA EH Ld Ld') big1 ?subr0 // => i _; rewrite big1 // => j _.
by rewrite L if_same mulr0.
Qed.

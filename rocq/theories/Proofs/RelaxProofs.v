(** RelaxProofs.v -- the relaxation rates as losses of the levels. *)
From Coq Require Import Reals ZArith String Lra.
From Verif.Spec Require Import ThermalSpec.
From Verif.Proofs Require Import ThermalProofs CDeriv.
From Verif.Model Require Import Base Units Noise Edge Elements LCWB HamConst PartialConst Thermal RateConst.
From mathcomp Require Import all_ssreflect all_algebra.
From mathcomp Require Import complex ring.
From Verif.Numerics Require Import RStruct Bridge.
From Verif.Model Require Import Transform Op Ham Diag CircuitSM Partial DecRate.
From Verif.Spec Require Import OpSpec GradSpec PerturbSpec DecSpec RateGradSpec EigGradSpec RelaxSpec.
From Verif.Proofs Require Import OpProofs HamProofs HamProofs2 SMProofs MemProofs GradProofs PerturbProofs PerturbProofs2
  SecondOrder RateGradProofs RateGradProofs2 RateGradProofs3 RateGradProofs4 DecProofs DecProofs2 DecProofs3 GradCalc EigGradProofs HalfProofs.

Set Implicit Arguments.
Unset Strict Implicit.
Unset Printing Implicit Defensive.
Import GRing.Theory.
Local Open Scope ring_scope.
Local Open Scope complex_scope.

Lemma efreq_results X M w v k : (k < M)%N -> efreq (put_eig X (results M w v)) (Z.of_nat k) = Ok (w k).
Proof. by move=> hk; rewrite /efreq py_nthE /= ?size_mkseq // nth_mkseq. Qed.
Lemma evec_results X M w v k : (k < M)%N -> evec (put_eig X (results M w v)) (Z.of_nat k) = Ok (v k).
Proof. by move=> hk; rewrite /evec py_nthE /= ?size_mkseq // nth_mkseq. Qed.

(** The operators of the rates. *)
Definition rate_ops (X : circ) (dt : dec_type) (A : op) : Prop :=
  match dt with
  | DCap => exists e, coupling_cap X e = Ok A
  | DInd => exists el, List.In (el, A) (ind_mem X)
  | DQp => exists el, List.In (el, A) (half_mem X)
  | _ => False
  end.

Lemma fold_ext (K : Type) (f g : K -> res (option R)) l a : (forall k, List.In k l -> f k = g k) ->
  foldl (rate_add f) a l = foldl (rate_add g) a l.
Proof.
elim: l a => [|k l IH] a H //=.
have -> : rate_add f a k = rate_add g a k by rewrite /rate_add H //; left.
by apply: IH => j hj; apply: H; right.
Qed.

(** The levels read from results. *)
Definition reads (X : circ) (ev : eigres) (m n : Z) (w1 w2 : R) (v1 v2 : cvec) : Prop :=
  [/\ size (e_freqs ev) != 0%N, size (e_vecs ev) != 0%N & levels (put_eig X ev) m n w1 w2 v1 v2].
Lemma reads_results X M w v m n : (m < M)%N -> (n < M)%N ->
  reads X (results M w v) (Z.of_nat m) (Z.of_nat n) (w m) (w n) (v m) (v n).
Proof.
move=> hm hn; have M0 : (0 < M)%N by apply: leq_ltn_trans hm.
by split; rewrite /= ?size_mkseq -?lt0n //; split; rewrite ?efreq_results ?evec_results.
Qed.
Lemma reads_nth X ev m n : (m < size (e_freqs ev))%N -> (n < size (e_freqs ev))%N ->
  (m < size (e_vecs ev))%N -> (n < size (e_vecs ev))%N ->
  reads X ev (Z.of_nat m) (Z.of_nat n) (nth 0 (e_freqs ev) m) (nth 0 (e_freqs ev) n)
    (nth (fun=> 0) (e_vecs ev) m) (nth (fun=> 0) (e_vecs ev) n).
Proof.
move=> h1 h2 h3 h4; split; rewrite -?lt0n; try exact: leq_ltn_trans h1; try exact: leq_ltn_trans h3.
by split; rewrite /efreq /evec py_nthE.
Qed.

(** The rate depends on the levels through the frequencies and the matrix elements
    of these operators. *)
Lemma rate_same E s q X ev ev' m n total dt w1 w2 v1 v2 v1' v2' : thermal_type (Some dt) ->
  reads X ev m n w1 w2 v1 v2 -> reads X ev' m n w1 w2 v1' v2' ->
  (forall A, rate_ops X dt A -> abs2 (inner v1 A v2) = abs2 (inner v1' A v2')) ->
  dec_rate E s q (put_eig X ev) (Some dt) m n total = dec_rate E s q (put_eig X ev') (Some dt) m n total.
Proof.
move=> Ht [/negbTE f0 /negbTE v0 [a1 a2 a3 a4]] [/negbTE f0' /negbTE v0' [b1 b2 b3 b4]] H.
rewrite /dec_rate -[x_eig (put_eig X ev)]/ev -[x_eig (put_eig X ev')]/ev' f0 f0' a1 a2 a3 a4 b1 b2 b3 b4; cbn [bind].
set om := abs_diff _ _; set tS := ssrfun.Option.map _ _.
case: dt Ht H => //= _ H; apply: fold_ext => k hk.
- rewrite /cap_term; case: q_cap => // Q.
  rewrite /matrix_elements -[x_eig (put_eig X ev)]/ev -[x_eig (put_eig X ev')]/ev' v0 v0' a3 a4 b3 b4; cbn [bind].
  rewrite -[coupling_cap (put_eig X ev) _]/(coupling_cap X k.1) -[coupling_cap (put_eig X ev') _]/(coupling_cap X k.1).
  by case EA: coupling_cap => [A|//]; cbn [bind]; rewrite H //; exists k.1.
- rewrite /ind_rate; case: q_ind => // Q; rewrite H //; exists k.1; by case: k hk.
- rewrite /qp_rate; case: q_jj => // Y; rewrite H //; exists k.1; by case: k hk.
Qed.

Section Mem.
Variables (disp : nat -> C -> op) (s : store) (x : circ).
Hypothesis dims : forall m a, dim (disp m a) = m.
Hypothesis Rg : regular disp s x.
Let N := HamProofs.total (hof x).
Let X := (hamil s x).1.

(** The operator of an inductor, of a capacitor, and of a junction. *)
Definition flux_op (e : edge) : op := if coupling_op (hof x) (Some Inductive_) e is Ok A then A else ozero 0.
Definition half_op (k : edge * nat * nat * nat) : op :=
  jj_sin (jj_root disp (hof x) (ext_flux (loop_vals s x) (x_B x) k.1.2) k.2).

Lemma mems : [/\ placements X = placements x, forall e, coupling_cap X e = coupling_op (hof x) (Some Capacitive) e,
  ind_mem X = [seq (k.1.2, flux_op k.1.1) | k <- c_keys_ind (x_c x)],
  (forall k, List.In k (c_keys_ind (x_c x)) -> coupling_op (hof x) (Some Inductive_) k.1.1 = Ok (flux_op k.1.1)) &
  half_mem X = [seq (k.1.1.2, half_op k) | k <- c_keys_jj (x_c x)]].
Proof.
have [H Er] := rg_ham Rg; have Ex : hamil s x = (X, Ok H) by rewrite [LHS]surjective_pairing Er.
have [M [E0 FL S F]] := hamil_filled (rg_good Rg) (rg_keys Rg) Ex.
rewrite E0; split=> //.
- move=> e; rewrite -(coupling_capE _ F) /coupling_cap -[hof (put_mem _ _ _)]/(hof x).
  by case: S => -[S _ _ _] _; rewrite -S.
- rewrite /ind_mem -[x_mem _]/M -[x_c (put_mem _ _ _)]/(x_c x).
  have : forall k, List.In k (c_keys_ind (x_c x)) -> M_ind M k.1.2 k.2 = Some (flux_op k.1.1).
    by move=> [[e el] b] Hin; have [Y EX ->] := fl_ind FL Hin; rewrite /flux_op EX.
  elim: (c_keys_ind (x_c x)) => //= k l IH Hl; rewrite Hl; last by left.
  by rewrite /= IH // => j hj; apply: Hl; right.
- by move=> [[e el] b] Hin; have [Y EX _] := fl_ind FL Hin; rewrite /flux_op EX.
- rewrite /half_mem -[x_mem _]/M -[x_c (put_mem _ _ _)]/(x_c x).
  have : forall k, List.In k (c_keys_jj (x_c x)) -> M_half M k.1.1.2 k.1.2 = Some (half_op k).
    by move=> [[[e el] b] u] Hin; have [_ _ ->] := fl_jj FL Hin.
  elim: (c_keys_jj (x_c x)) => //= k l IH Hl; rewrite Hl; last by left.
  by rewrite /= IH // => j hj; apply: Hl; right.
Qed.

Lemma ops_dim dt A : rate_ops X dt A -> dim A = N.
Proof.
have [_ h1 h2 h3 h4] := mems; case: dt => //=.
- by move=> [e]; rewrite h1 => /couplingP [_ [_ _ d _ _]].
- move=> [el]; rewrite h2 => hk'; have [k hk [_ ->]] := In_map hk'.
  by have /couplingP [_ [_ _ d _ _]] := h3 k hk.
- move=> [el]; rewrite h4 => hk'; have [k hk [_ ->]] := In_map hk'.
  exact: root_dim.
Qed.
End Mem.

Lemma fold_sum (K : Type) (f : K -> res (option R)) (g : K -> R) l a : (forall k, List.In k l -> f k = Ok (Some (g k))) ->
  foldl (rate_add f) (Ok (Some a)) l = Ok (Some (a + \sum_(k <- l) g k)).
Proof.
elim: l a => [|k l IH] a H; cbn [foldl]; first by rewrite big_nil addr0.
have -> : rate_add f (Ok (Some a)) k = Ok (Some (a + g k)) by rewrite /rate_add; cbn [bind]; rewrite H //; left.
by rewrite IH ?big_cons ?addrA // => j hj; apply: H; right.
Qed.
Lemma near_list (K : Type) t0 (Q : K -> R -> Prop) l : (forall k, List.In k l -> near t0 (Q k)) ->
  near t0 (fun t => forall k, List.In k l -> Q k t).
Proof.
elim: l => [|k l IH] H; first by exists 1; split; [exact: Rlt_0_1|].
have := near_and (H k (or_introl erefl)) (IH (fun j hj => H j (or_intror hj))); apply: near_mono => t [H1 H2] j.
by case=> [<-|/H2].
Qed.
Lemma near_comp (g : R -> R) t0 d P : has_derivative g t0 d -> near (g t0) P -> near t0 (fun t => P (g t)).
Proof.
move=> D [r [r0 Hr]]; have [de [de0 H]] := hd_cont _ _ _ _ D r0.
by exists de; split=> // t /H; exact: Hr.
Qed.
Lemma near_neq0 (g : R -> R) t0 d : has_derivative g t0 d -> g t0 <> 0 -> near t0 (fun t => g t <> 0).
Proof.
move=> D N0; apply: (near_comp (P := fun y => y <> 0) D); exists (Rabs (g t0)); split; first exact: Rabs_pos_lt.
move=> y hy y0; move: hy; rewrite y0 /Rminus Rplus_0_l Rabs_Ropp; exact: Rlt_irrefl.
Qed.

Section Loss.
Variables (disp : nat -> C -> op) (E : env) (q : quality) (s : store) (x : circ) (c : LCWB.comp).
Hypothesis dims : forall m a, dim (disp m a) = m.
Hypothesis Rg : regular disp s x.
Variables (dt : dec_type) (m n : nat) (total : bool) (M : nat).
Hypothesis Ht : thermal_type (Some dt).
Hypothesis hm : (m < M)%N.
Hypothesis hn : (n < M)%N.
Let N := HamProofs.total (hof x).
Let t0 := comp_value s c.
Let loss := rate_loss E q s x c dt m n total M.
Let Rt t : regular disp (changed s c t) x.
Proof. by apply: regular_store Rg _; apply: changed_kind. Qed.

Lemma rate_looks t : looks_at M N (loss t).
Proof.
move=> w w' v v' Hw Hv; rewrite /loss /rate_loss /rate_at; congr rate_number.
have r1 := reads_results (hamil (changed s c t) x).1 w v hm hn.
have r2 := reads_results (hamil (changed s c t) x).1 w' v' hm hn; rewrite -!Hw // in r2.
apply: (rate_same _ _ _ _ Ht r1 r2) => A /(ops_dim dims (Rt t)) dA; congr abs2.
rewrite /inner dA; apply: eq_bigr => i _; rewrite Hv //; congr (_ * _).
by apply: eq_bigr => j _; rewrite Hv.
Qed.

Lemma abs2_phase (a b y : C) : a^* * a = 1 -> b^* * b = 1 -> abs2 (a^* * b * y) = abs2 y.
Proof.
have N2 (z : C) : z^* * z = (abs2 z)%:C.
  by case: z => u w; rewrite /abs2; simpc; congr (_ +i* _); rewrite ?expr2; ring.
move=> ha hb; apply: (@complexI R_rcfType); rewrite -!N2 !cjM conjcK.
have -> : a * b^* * y^* * (a^* * b * y) = (a^* * a) * (b^* * b) * (y^* * y) by ring.
by rewrite ha hb !mul1r.
Qed.

Lemma rate_free t : phase_free M (loss t).
Proof.
move=> w v z Hz; rewrite /loss /rate_loss /rate_at; congr rate_number.
have r1 := reads_results (hamil (changed s c t) x).1 w (fun k i => z k * v k i) hm hn.
have r2 := reads_results (hamil (changed s c t) x).1 w v hm hn.
apply: (rate_same _ _ _ _ Ht r1 r2) => A _.
rewrite -[RHS](abs2_phase _ (Hz m hm) (Hz n hn)); congr abs2.
rewrite /inner mulr_sumr; apply: eq_bigr => i _; rewrite cjM.
have -> : \sum_(j < dim A) ent A i j * (z n * v n j) = z n * \sum_(j < dim A) ent A i j * v n j.
  by rewrite mulr_sumr; apply: eq_bigr => j _; rewrite mulrCA.
by ring.
Qed.

Lemma py_nth_lt T (a : T) l k y : py_nth a l (Z.of_nat k) = Ok y -> (k < size l)%N.
Proof.
rewrite /py_nth /np_row /py_index.
have -> : Z.leb Z0 (Z.of_nat k) = true by apply/Z.leb_le; exact: Nat2Z.is_nonneg.
case: Z.ltb_spec => [h _|_ //]; by apply/ltP/Nat2Z.inj_lt.
Qed.
Lemma rate_results t ev y : rate_at E q s x c dt m n total t ev = Ok y ->
  rate_at E q s x c dt m n total t (results M (nth 0 (e_freqs ev)) (nth (fun=> 0) (e_vecs ev))) = Ok y.
Proof.
move=> H; rewrite -H /rate_at.
have r1 := reads_results (hamil (changed s c t) x).1 (nth 0 (e_freqs ev)) (nth (fun=> 0) (e_vecs ev)) hm hn.
have r2 : reads (hamil (changed s c t) x).1 ev (Z.of_nat m) (Z.of_nat n) (nth 0 (e_freqs ev) m) (nth 0 (e_freqs ev) n)
    (nth (fun=> 0) (e_vecs ev) m) (nth (fun=> 0) (e_vecs ev) n).
  move: H; rewrite /rate_at /dec_rate; case: ifP => // _.
  rewrite /efreq /evec -[x_eig (put_eig _ _)]/ev.
  case E1: py_nth => [w1|//]; cbn [bind]; case E2: py_nth => [w2|//]; cbn [bind].
  case E3: py_nth => [v1|//]; cbn [bind]; case E4: py_nth => [v2|//] _.
  by apply: reads_nth; [exact: py_nth_lt E1|exact: py_nth_lt E2|exact: py_nth_lt E3|exact: py_nth_lt E4].
exact: (rate_same _ _ _ _ Ht r1 r2).
Qed.
End Loss.

(** ** The half-angle operators depend smoothly on a loop *)
Lemma half_deriv disp s x c k : uniq (c_loops (x_c x)) ->
  exists A' : nat -> nat -> C, forall i j,
    cderiv (fun t => ent (half_op disp (changed s c t) x k) i j) (comp_value s c) (A' i j).
Proof.
move=> U; case: c => [el|l].
  exists (fun _ _ => 0) => i j; apply: (@cd_ext (fun=> ent (half_op disp s x k) i j)); last exact: cd_const.
  by [].
have [hl|hl] := boolP (l \in c_loops (x_c x)); last first.
  exists (fun _ _ => 0) => i j; apply: (@cd_ext (fun=> ent (half_op disp s x k) i j)); last exact: cd_const.
  move=> t; rewrite /half_op; congr (ent (jj_sin (jj_root _ _ (ext_flux _ _ _) _)) _ _).
  apply/eq_in_map => j' hj; rewrite /=; case: Nat.eqb_spec => // El; by move: hl; rewrite -El hj.
have D := hd_flux s k.1.2 U hl.
have DE i j := cd_scaler (ent (opRoot disp (hof x) k.2) i j) (cd_expi (hd_scal (/ 2) _ _ _ D)).
eexists => i j; apply: cd_ext (cd_scale (2%:R * 'i)^-1 (cd_add (DE i j) (cd_opp (cd_conj (DE j i))))).
by move=> t; rewrite /half_op /jj_sin /jj_root; cbn [ent oscale osub oadj]; rewrite /halfR /Rdiv Rmult_comm.
Qed.

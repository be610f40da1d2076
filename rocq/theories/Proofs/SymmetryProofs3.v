(** SymmetryProofs3.v -- matrix elements and rates under reversal of the fluxes. *)
From Coq Require Import Reals ZArith String Lia.
From Verif.Model Require Import Base Units Noise Edge Elements LCWB HamConst PartialConst Thermal RateConst.
Lemma loop_half x : halfR (Ropp x) = Ropp (halfR x).
Proof. unfold halfR, Rdiv. ring. Qed.
Lemma sq1 (a b : R) : (a * a + - b * - b)%R = (a * a + b * b)%R. Proof. ring. Qed.
Lemma sq2 (a b : R) : (- a * - a + - - b * - - b)%R = (a * a + b * b)%R. Proof. ring. Qed.
From mathcomp Require Import all_ssreflect all_algebra.
From mathcomp Require Import complex ring.
From Verif.Numerics Require Import RStruct Bridge.
From Verif.Model Require Import Transform Op Ham Diag CircuitSM Partial DecRate.
From Verif.Spec Require Import OpSpec GradSpec EigSpec DecSpec SymmetrySpec.
From Verif.Proofs Require Import OpProofs HamProofs HamProofs2 HamProofs5 HamProofs6 SMProofs MemProofs GradProofs PerturbProofs
  RateGradProofs2 NgProofs DecProofs DecProofs2 RelaxProofs HalfProofs SymmetryProofs SymmetryProofs2.

Set Implicit Arguments.
Unset Strict Implicit.
Unset Printing Implicit Defensive.
Import GRing.Theory.
Local Open Scope ring_scope.
Local Open Scope complex_scope.

Section Elements.
Variable h : hin.
Let N := total h.

Definition rev2 (sg : C) (A A' : op) : Prop := reversed h sg A A' /\ dim A = N.

Lemma inner_rev sg A A' v w : rev2 sg A A' ->
  inner (rev_state h v) A' (rev_state h w) = sg * (inner v A w)^*.
Proof.
move=> [[d E] dA]; rewrite /inner d cj_sum mulr_sumr; apply: eq_bigr => i _.
have hi : (i < total h)%N by move: (ltn_ord i); rewrite [X in (_ < X)%N]dA.
rewrite [in RHS]cjM cj_sum mulr_sumr mulr_sumr mulr_sumr; apply: eq_bigr => j _.
have hj : (j < total h)%N by move: (ltn_ord j); rewrite [X in (_ < X)%N]dA.
rewrite E // /rev_state !(cjM, cjK) (par_real hi).
have -> : par h i * v i * (sg * (par h i * par h j * (ent A i j)^*) * (par h j * (w j)^*)) =
  (par h i * par h i) * (par h j * par h j) * (sg * (v i * ((ent A i j)^* * (w j)^*))).
  by move: (par h i) (par h j) (v i) ((ent A i j)^*) ((w j)^*) => a b c d' e; ring.
by rewrite !par_sq // !mul1r.
Qed.

Lemma rev2_scale sg (x x' : R) A A' : x' = x -> rev2 sg A A' -> rev2 sg (oscale x%:C A) (oscale x'%:C A').
Proof.
move=> -> [[d E] dA]; split; [split=> // I J hI hJ; rewrite !e_scale E // cjM cjR|by []].
by move: (par h I) (par h J) ((ent A I J)^*) => a b c; ring.
Qed.
Lemma rev2_add sg A A' B B' : rev2 sg A A' -> rev2 sg B B' -> rev2 sg (oadd A B) (oadd A' B').
Proof.
move=> [[d E] dA] [[d2 E2] dB]; split; [split=> // I J hI hJ; rewrite !e_add E // E2 ?cjD|by []].
- by move: (par h I) (par h J) ((ent A I J)^*) ((ent B I J)^*) => a b c e; ring.
- by rewrite dB -dA.
by rewrite dB -dA.
Qed.
Definition orev (sg : C) (a a' : option op) : Prop :=
  match a, a' with Some A, Some A' => rev2 sg A A' | None, None => True | _, _ => False end.
Lemma orev_add sg a a' X X' : orev sg a a' -> rev2 sg X X' -> orev sg (acc_add a X) (acc_add a' X').
Proof. by case: a a' => [A|] [A'|] //= r g; apply: rev2_add. Qed.

Lemma racc_rev (K : Type) sg (f f' : K -> res op) ks a a' :
  (forall k, List.In k ks -> exists A A', [/\ f k = Ok A, f' k = Ok A' & rev2 sg A A']) -> orev sg a a' ->
  exists P P', [/\ foldl (racc f) (Ok a) ks = Ok P, foldl (racc f') (Ok a') ks = Ok P' & orev sg P P'].
Proof.
elim: ks a a' => [|k ks IH] a a' H r; first by exists a, a'.
have [A [A' [E E' r1]]] := H k (or_introl erefl).
rewrite /= E E'; apply: IH; last exact: orev_add.
by move=> j hj; apply: H; right.
Qed.

(** Exponentials. *)
Variable disp : nat -> C -> op.
Hypothesis D : displaces disp.
Definition selfc (E : op) : Prop := dim E = N /\ forall I J, (I < N)%N -> (J < N)%N ->
  (ent E I J)^* = par h I * par h J * ent E I J.
Lemma selfc_of E : reversed h 1 E E -> dim E = N -> selfc E.
Proof.
move=> [_ H] d; split=> // I J hI hJ; rewrite [in RHS]H ?d // mul1r.
have -> : par h I * par h J * (par h I * par h J * (ent E I J)^*) = (par h I * par h I) * (par h J * par h J) * (ent E I J)^*.
  by move: (par h I) (par h J) ((ent E I J)^*) => a b c; ring.
by rewrite !par_sq // !mul1r.
Qed.
Lemma exp_self w : selfc (opExp disp h w).
Proof. by apply: selfc_of; [exact: (rev_of (tExp h D w)) | have [] := tExp h D w]. Qed.

Lemma tR i k : lrel true (fun k : nat => hm h k) (par1 (hcharge h)) (fun k a => a) k 1
  (root_iso disp h i k) (root_iso disp h i k).
Proof.
have dk : dim (root_iso disp h i k) = hm h k.
  by rewrite /root_iso; case: ifP => // _; case: eqP => [-> //|_]; exact: D.1.
split=> // a b ha hb; rewrite mul1r /par1 /root_iso.
case: ifP => _; first by rewrite !mul1r /cc e_diag; case: ifP => _; rewrite ?cj0 ?cj1.
case: eqP => [m1|_]; first by move: ha hb; rewrite m1; case: a b => [|//] [|//] _ _; rewrite /cc e_diag eqxx cj1 !mulr1.
rewrite /alpha; have -> : 'i * (hphi_zp h k * t_wT (h_st h) i k)%:C / 2%:R = 'i * (hphi_zp h k * t_wT (h_st h) i k / 2%:R)%:C :> C.
  by rewrite (rmorphM _ _ (2%:R)^-1) fmorphV rmorph_nat mulrA.
have [_ E2 E3] := D.2 (hm h k) (hphi_zp h k * t_wT (h_st h) i k / 2%:R).
rewrite /cc -E2 // E3 // mulrA -[_ * _ * (_ * _)]mulrACA.
by rewrite -!expr2 -!exprM mulnC exprM sqrrN expr1n expr1n mulnC exprM sqrrN expr1n expr1n !mul1r.
Qed.
Lemma root_self w : selfc (opRoot disp h w).
Proof.
have R : grel true (hn h) (fun k => hm h k) (par1 (hcharge h)) (fun k a => a) 1 (opRoot disp h w) (opRoot disp h w).
  have := @grel_T true (hn h) (fun k => hm h k) (par1 (hcharge h)) (fun k a => a) (fun k a e => e) (fun=> 1) (root_iso disp h w) (root_iso disp h w).
  by rewrite big1 //; apply=> k hk; exact: tR.
by apply: selfc_of; [exact: (rev_of R) | case: R].
Qed.

Lemma cos_rev E z : selfc E -> rev2 1 (jj_cos (oscale z E)) (jj_cos (oscale z^* E)).
Proof.
move=> [d H]; split=> //; split=> // I J; rewrite [dim _]d => hI hJ.
rewrite /jj_cos !(e_scale, e_add, e_adj) !(cjM, cjD, cjK) half_conj mul1r.
rewrite !H //; have x2 := par_sq hI; have y2 := par_sq hJ.
move: (par h I) (par h J) (ent E I J) (ent E J I) x2 y2 (2%:R^-1) (z^*) => x y a b x2 y2 t u.
have E1 : x * y * (t * (u * (x * y * a) + z * b)) = t * (u * ((x * x) * (y * y) * a) + z * (y * x * b)) by ring.
by rewrite E1 x2 y2 !mul1r.
Qed.
Lemma sin_conj : ((2%:R * 'i)^-1)^* = - (2%:R * 'i)^-1 :> C.
Proof.
have ci : ('i : C)^* = - 'i by apply/eqP; rewrite eq_complex /= oppr0 !eqxx.
by rewrite -[(2%:R * 'i)^-1]opprK -i_half cjN cjM half_conj ci mulNr.
Qed.
Lemma sin_rev E z : selfc E -> rev2 (-1) (jj_sin (oscale z E)) (jj_sin (oscale z^* E)).
Proof.
move=> [d H]; split=> //; split=> // I J; rewrite [dim _]d => hI hJ.
rewrite /jj_sin !(e_scale, e_sub, e_adj) !(cjM, cjB, cjK) sin_conj.
rewrite !H //; have x2 := par_sq hI; have y2 := par_sq hJ.
move: (par h I) (par h J) (ent E I J) (ent E J I) x2 y2 ((_ * 'i)^-1) (z^*) => x y a b x2 y2 t u.
have E1 : -1 * (x * y * (- t * (u * (x * y * a) - z * b))) = t * (u * ((x * x) * (y * y) * a) - z * (y * x * b)) by ring.
by rewrite E1 x2 y2 !mul1r.
Qed.
Lemma cap_rev e A : coupling_op h (Some Capacitive) e = Ok A -> rev2 1 A A.
Proof.
move=> E; have [_ [_ _ d _ _]] := couplingP E; split=> //; apply: rev_of; split=> // a b L L'.
exact: (charge_rel (par1_sq (hcharge h)) (fun k a e => e) (fun k a e => erefl) erefl (frefl _) erefl erefl
  (fun k _ => tQ h k) erefl L L' E E).
Qed.
Lemma Q_rev i : (i < hn h)%N -> rev2 1 (opQ h i) (opQ h i).
Proof.
move=> hi; have R := Q_rel (par1_sq (hcharge h)) (fun k a e => e) (fun k a e => erefl) (h := h) (h' := h) erefl (frefl _) erefl erefl
  (fun k _ => tQ h k) hi.
by split; [apply: rev_of R | case: R].
Qed.
Lemma flux_rev e k A : coupling_op h (Some Inductive_) e = Ok A -> coupling_coef h Inductive_ e = Ok k ->
  (forall i, (i < hn h)%N -> hcharge h i -> k i = 0) -> rev2 (-1) A A.
Proof.
move=> E Ek kz; have [_ [_ _ d _ _]] := couplingP E; split=> //; apply: rev_of; split=> // a b L L'.
have := flux_rel (par1_sq (hcharge h)) (fun k a e => e) (fun k a e => erefl) erefl (frefl _) erefl erefl
  (fun k _ => @tF h k) erefl L L' Ek kz.
by rewrite /cpl E mulN1r.
Qed.
End Elements.

Lemma py_map (T U : Type) (f : T -> U) x0 y0 l z : py_nth y0 [seq f i | i <- l] z =
  match py_nth x0 l z with Ok i => Ok (f i) | Err e => Err e end.
Proof.
rewrite /py_nth size_map; case E: np_row => [i|//]; congr Ok; apply: nth_map.
move: E; rewrite /np_row /py_index.
case: Z.leb_spec => l1; [case: Z.ltb_spec => // l2 [<-]|case: Z.leb_spec => // l2 [<-]].
  by apply/ltP; apply/Nat2Z.inj_lt; rewrite Z2Nat.id.
by apply/ltP; apply/Nat2Z.inj_lt; rewrite Z2Nat.id //; Lia.lia.
Qed.

Lemma abs2_rev (sg z : C) : sg = 1 \/ sg = -1 -> abs2 (sg * z^*) = abs2 z.
Proof.
case=> ->; [rewrite mul1r|rewrite mulN1r]; case: z => a b; [exact: sq1|exact: sq2].
Qed.
Lemma elem_back h sg A A' v w : sg = 1 \/ sg = -1 -> rev2 h sg A A' ->
  abs2 (inner (rev_state h v) A' (rev_state h w)) = abs2 (inner v A w).
Proof. by move=> hs r; rewrite (inner_rev _ _ r) abs2_rev. Qed.


Section Abs.
Variables (h : hin) (X X' : circ) (s s' : store) (ev : eigres).
Let Y := put_eig X ev.
Let Y' := put_eig X' (rev_levels h ev).
Variables (K : Type) (ks : seq K) (g : K -> nat) (Hf Hf' : K -> op).
Hypothesis es : evalue s' = evalue s.
Hypothesis ec : ecap s' = ecap s.
Hypothesis ek : ekind s' = ekind s.
Hypothesis pl : placements X' = placements X.
Hypothesis ce : forall e, coupling_cap X' e = coupling_cap X e.
Hypothesis cr : forall e A, coupling_cap X e = Ok A -> rev2 h 1 A A.
Hypothesis ie : ind_mem X' = ind_mem X.
Hypothesis ir : forall el A, List.In (el, A) (ind_mem X) -> rev2 h (-1) A A.
Hypothesis he : half_mem X = [seq (g k, Hf k) | k <- ks].
Hypothesis he' : half_mem X' = [seq (g k, Hf' k) | k <- ks].
Hypothesis hr : forall k, rev2 h (-1) (Hf k) (Hf' k).
Hypothesis est : x_st X' = x_st X.
Hypothesis eis : x_isl X' = x_isl X.
Hypothesis exc : x_c X' = x_c X.
Hypothesis ngr : forall i, match partial_H_ng Y i, partial_H_ng Y' i with
  | Ok P, Ok P' => orev h 1 P P' | Err e, Err e' => e = e' | _, _ => False end.
Hypothesis cme : cos_mem X' = cos_mem X.
Hypothesis wj : forall m n el b, List.In (el, b) (cos_mem X) ->
  match partial_omega_mn s Y (CEl el) m n (Some b), partial_omega_mn s' Y' (CEl el) m n (Some b) with
  | Ok p, Ok p' => p' = p \/ p' = - p | Err e, Err e' => e = e' | _, _ => False end.
Hypothesis wl : forall m n l,
  match partial_omega_mn s Y (CLoop l) m n None, partial_omega_mn s' Y' (CLoop l) m n None with
  | Ok p, Ok p' => p' = p \/ p' = - p | Err e, Err e' => e = e' | _, _ => False end.

Lemma rate_abs E q dt m n tot : dec_rate E s' q Y' dt m n tot = dec_rate E s q Y dt m n tot.
Proof.
have fr : e_freqs (x_eig Y') = e_freqs (x_eig Y) by [].
have f1 z : efreq Y' z = efreq Y z by [].
have v1 z : evec Y' z = match evec Y z with Ok v => Ok (rev_state h v) | Err e => Err e end by exact: py_map.
have sz : size (e_vecs (x_eig Y')) = size (e_vecs (x_eig Y)) by exact: size_map.
rewrite /dec_rate fr; case: (size _ == 0%N) => //; rewrite !f1 !v1.
case: (efreq Y m) => [w1|//]; case: (efreq Y n) => [w2|//]; cbn [bind].
case Em: (evec Y m) => [v|//]; case En: (evec Y n) => [w|//]; cbn [bind].
set om := abs_diff _ _; set tS := ssrfun.Option.map _ _.
case: dt => [[]|] //.
- have -> : placements Y' = placements Y by exact: pl.
  apply: fold_ext => k _; rewrite /cap_term /cap_of_el ek ec es; case: q_cap => // Q.
  rewrite /matrix_elements sz; case: (size _ == 0%N) => //; rewrite !v1 Em En; cbn [bind].
  have -> : coupling_cap Y' k.1 = coupling_cap Y k.1 by exact: ce.
  case EA: (coupling_cap Y k.1) => [A|//]; cbn [bind].
  by rewrite (elem_back v w (or_introl erefl) (cr EA)).
- have -> : ind_mem Y' = ind_mem Y by exact: ie.
  apply: fold_ext => -[el A] hk; rewrite /ind_rate; cbn [fst snd]; rewrite es; case: q_ind => // Q.
  by rewrite (elem_back v w (or_intror erefl) (ir hk)).
- have -> : half_mem Y' = [seq (g k, Hf' k) | k <- ks] by exact: he'.
  have -> : half_mem Y = [seq (g k, Hf k) | k <- ks] by exact: he.
  move: (ks) => ks0; elim: ks0 (Ok (Some 0)) => [//|k l IH] a; rewrite /= -IH; congr foldl.
  rewrite /rate_add; case: a => [a|//]; cbn [bind]; rewrite /qp_rate; cbn [fst snd]; case: q_jj => // Q.
  by rewrite es (elem_back v w (or_intror erefl) (hr k)).
- have -> : x_n Y' = x_n Y by rewrite /x_n -[x_st Y']/(x_st X') est.
  apply: fold_ext => i _; rewrite /charge_rate.
  have -> : x_st Y' = x_st Y by exact: est.
  case: (~~ _) => //.
  have := ngr i; case: (partial_H_ng Y i) => [P|e]; case: (partial_H_ng Y' i) => [P'|e'] //; last by move=> ->.
  case: P P' => [P|] [P'|] //= r; rewrite !(inner_rev _ _ r).
  have -> : isl Y' i = isl Y i by rewrite /isl -[x_isl Y']/(x_isl X') eis.
  case: isl => [p|//]; congr (Ok (dephasing _ _ (sqrt _))).
  by rewrite !mul1r -cjB -[(_ - _)^*]mul1r abs2_rev //; left.
- have -> : cos_mem Y' = cos_mem Y by exact: cme.
  apply: fold_ext => -[el b] hk; rewrite /cc_rate; cbn [fst snd].
  have := wj m n hk; case: (partial_omega_mn s Y _ _ _ _) => [p|e]; case: (partial_omega_mn s' _ _ _ _ _) => [p'|e'] //; last by move=> ->.
  by rewrite es; case=> ->; cbn [bind]; rewrite ?dephasing_opp.
- have -> : x_c Y' = x_c Y by exact: exc.
  apply: fold_ext => l _; rewrite /flux_rate.
  have := wl m n l; case: (partial_omega_mn s Y _ _ _ _) => [p|e]; case: (partial_omega_mn s' _ _ _ _ _) => [p'|e'] //; last by move=> ->.
  by case=> ->; cbn [bind]; rewrite ?dephasing_opp.
Qed.
End Abs.

Section Session.
Variables (disp : nat -> C -> op) (s : store) (x : circ).
Hypothesis D : displaces disp.
Hypothesis Rg : regular disp s x.
Hypothesis F : inductor_free (hof x) (mkKeys (c_keys_ind (x_c x)) (c_keys_jj (x_c x))).
Let h := hof x.
Let s' := back_flux s.
Let Rg' : regular disp s' x. Proof. exact: regular_store Rg _. Qed.
Let X := (hamil s x).1.
Let X' := (hamil s' x).1.
Variable ev : eigres.
Let Y := put_eig X ev.
Let Y' := put_eig X' (rev_levels h ev).

Lemma loops_back : loop_vals s' x = minus_flux (loop_vals s x).
Proof. by rewrite /loop_vals /minus_flux -map_comp. Qed.
Lemma flux_back b : ext_flux (loop_vals s' x) (x_B x) b = GRing.opp (ext_flux (loop_vals s x) (x_B x) b).
Proof. by rewrite loops_back ext_opp. Qed.

Lemma evec_back z : evec Y' z = match evec Y z with Ok v => Ok (rev_state h v) | Err e => Err e end.
Proof. exact: py_map. Qed.

Lemma half_back phi w : rev2 h (-1) (jj_sin (jj_root disp h phi w)) (jj_sin (jj_root disp h (GRing.opp phi) w)).
Proof.
rewrite /jj_root (_ : expi (halfR (GRing.opp phi)) = (expi (halfR phi))^*); last by rewrite -RoppE loop_half RoppE expi_opp.
by apply: sin_rev; apply: root_self.
Qed.
Lemma sin_back phi w : rev2 h (-1) (jj_sin (jj_exp disp h phi w)) (jj_sin (jj_exp disp h (GRing.opp phi) w)).
Proof. by rewrite /jj_exp expi_opp; apply: sin_rev; apply: exp_self. Qed.
Lemma cos_back phi w : rev2 h 1 (jj_cos (jj_exp disp h phi w)) (jj_cos (jj_exp disp h (GRing.opp phi) w)).
Proof. by rewrite /jj_exp expi_opp; apply: cos_rev; apply: exp_self. Qed.
Lemma ind_back k A : List.In k (c_keys_ind (x_c x)) -> coupling_op h (Some Inductive_) k.1.1 = Ok A -> rev2 h (-1) A A.
Proof. by move=> hk E; have [c Ec cz] := F hk; apply: flux_rev E Ec cz. Qed.

Lemma H_loop l : match partial_H s Y (CLoop l) None, partial_H s' Y' (CLoop l) None with
  | Ok P, Ok P' => orev h (-1) P P' | Err e, Err e' => e = e' | _, _ => False end.
Proof.
have [M [E FM]] := filledP Rg; have [M' [E' FM']] := filledP Rg'; rewrite /Y /Y' /X /X' E E'.
rewrite /partial_H -[loop_index (put_eig (put_mem _ _ _) _) _]/(loop_index x l) -[loop_index (put_eig _ (rev_levels _ _)) _]/(loop_index x l).
case: loop_index => [j|//].
rewrite -[x_c _]/(x_c x) -[x_c (put_eig _ (rev_levels _ _))]/(x_c x) -[x_mem _]/M -[x_mem (put_eig _ (rev_levels _ _))]/M'.
have [|P [P' [-> -> r]]] := @racc_rev h _ (-1) (fun k : edge * nat * nat => let '(_, el, b) := k in
    rscale (loop_coef (x_B x b j) (evalue s el)) (fetch (M_ind M) el b))
  (fun k : edge * nat * nat => let '(_, el, b) := k in
    rscale (loop_coef (x_B x b j) (evalue s' el)) (fetch (M_ind M') el b)) (c_keys_ind (x_c x)) None None _ I.
  move=> [[e el] b] hk; have [A EA EM] := fl_ind FM hk; have [A' EA' EM'] := fl_ind FM' hk.
  rewrite /fetch EM EM' /=; eexists; eexists; split; try by [].
  move: EA'; rewrite EA => -[<-]; apply: rev2_scale => //; exact: (ind_back hk EA).
have [|Q [Q' [-> -> //]]] := @racc_rev h _ (-1) (fun k : edge * nat * nat * nat => let '(_, el, b, _) := k in
    rscale (x_B x b j * evalue s el) (fetch (M_sin M) el b))
  (fun k : edge * nat * nat * nat => let '(_, el, b, _) := k in
    rscale (x_B x b j * evalue s' el) (fetch (M_sin M') el b)) (c_keys_jj (x_c x)) P P' _ r.
move=> [[[e el] b] w] hk; have [_ EM _] := fl_jj FM hk; have [_ EM' _] := fl_jj FM' hk.
rewrite /fetch EM EM' flux_back /=; eexists; eexists; split; try by [].
by apply: rev2_scale => //; apply: sin_back.
Qed.

Lemma H_jj el b0 : ekind s el = KJJ -> match partial_H s Y (CEl el) b0, partial_H s' Y' (CEl el) b0 with
  | Ok P, Ok P' => orev h 1 P P' | Err e, Err e' => e = e' | _, _ => False end.
Proof.
move=> hl; have [M [E FM]] := filledP Rg; have [M' [E' FM']] := filledP Rg'; rewrite /Y /Y' /X /X' E E'.
rewrite /partial_H -[ekind s' el]/(ekind s el) hl.
rewrite -[x_c _]/(x_c x) -[x_c (put_eig _ (rev_levels _ _))]/(x_c x) -[x_mem _]/M -[x_mem (put_eig _ (rev_levels _ _))]/M'.
have [|P [P' [-> -> //]]] := @racc_rev h _ 1 (fun k : edge * nat * nat * nat => let '(_, _, b, _) := k in rscale (- 1) (fetch (M_cos M) el b))
  (fun k : edge * nat * nat * nat => let '(_, _, b, _) := k in rscale (- 1) (fetch (M_cos M') el b))
  [seq k <- c_keys_jj (x_c x) | sel_jj el b0 k] None None _ I.
move=> [[[e el'] b] w] /filter_In [hk /andP [/eqP /= Ee _]]; rewrite Ee in hk.
have [EM _ _] := fl_jj FM hk; have [EM' _ _] := fl_jj FM' hk.
rewrite /fetch EM EM' flux_back /=; eexists; eexists; split; try by [].
by apply: rev2_scale => //; apply: cos_back.
Qed.

Lemma H_ng i : match partial_H_ng Y i, partial_H_ng Y' i with
  | Ok P, Ok P' => orev h 1 P P' | Err e, Err e' => e = e' | _, _ => False end.
Proof.
rewrite -[partial_H_ng Y' i]/(partial_H_ng X' i) -[partial_H_ng Y i]/(partial_H_ng X i) /X' (ng_const s' i Rg).
have G := rg_good Rg; have [E0 [M [E1 [[SQ _ _ _] _]]]] := hamilE s G.
rewrite /X E1 /partial_H_ng -[x_st _]/(x_st x) -[x_n _]/(x_n x); case: ifP => // _.
have Fr : fresh_ops disp x.
  by case: (g_ops G) => // m0; have [H] := rg_ham Rg; rewrite E0 /ham_of /hamiltonian /= m0.
set f := (Z in racc Z).
have [|P [P' [E2 E3 r]]] := @racc_rev h _ 1 f f (iota 0 (x_n x)) None None _ I.
  move=> j hj; have {}hj : (j < x_n x)%N by have /inP := hj; rewrite mem_iota.
  rewrite /f -[x_mem _]/M SQ (fo_Q Fr) -map_comp (nth_map 0%N) ?size_iota // nth_iota // add0n.
  eexists; eexists; split; try by []; by apply: rev2_scale => //; apply: Q_rev.
by rewrite E2; move: E3 r; rewrite E2 => -[<-].
Qed.

Lemma omega_back c m n b0 : match c with CLoop _ => b0 = None | CEl el => ekind s el = KJJ end ->
  match partial_omega_mn s Y c m n b0, partial_omega_mn s' Y' c m n b0 with
  | Ok p, Ok p' => p' = p \/ p' = - p | Err e, Err e' => e = e' | _, _ => False end.
Proof.
move=> hc; rewrite /partial_omega_mn !evec_back.
case: (evec Y m) => [v|//]; case: (evec Y n) => [w|//]; cbn [bind].
have : exists2 sg, sg = 1 \/ sg = -1 & match partial_H s Y c b0, partial_H s' Y' c b0 with
  | Ok P, Ok P' => orev h sg P P' | Err e, Err e' => e = e' | _, _ => False end.
  case: c hc => [el|l] hc; first by exists 1; [left|exact: H_jj].
  by exists (-1); [right|rewrite hc; exact: H_loop].
move=> [sg hs]; case: partial_H => [P|e]; case: partial_H => [P'|e'] //; cbn [bind].
case: P P' => [P|] [P'|] //= r; rewrite !(inner_rev _ _ r).
case: hs => ->; [left|right]; move: (inner v P v) (inner w P w) => [a b] [a' b']; rewrite /=; ring.
Qed.

Lemma rate_back E q dt m n tot : dec_rate E s' q Y' dt m n tot = dec_rate E s q Y dt m n tot.
Proof.
have [p1 c1 i1 j1 k1] := mems Rg; have [p2 c2 i2 j2 k2] := mems Rg'.
have [M [E0 FM]] := filledP Rg; have [M' [E0' FM']] := filledP Rg'.
have Ecm : cos_mem X = [seq (k.1.1.2, k.1.2) | k <- c_keys_jj (x_c x)].
  rewrite /X E0 /cos_mem -[x_c _]/(x_c x) -[x_mem _]/M.
  elim: (c_keys_jj (x_c x)) (fl_jj FM) => [//|[[[e el] b] u] l IH] H /=.
  have [-> _ _] := H e el b u (or_introl erefl); by rewrite /= (IH (fun e' el' b' w' hk' => H e' el' b' w' (or_intror hk'))).
have Ecm' : cos_mem X' = [seq (k.1.1.2, k.1.2) | k <- c_keys_jj (x_c x)].
  rewrite /X' E0' /cos_mem -[x_c _]/(x_c x) -[x_mem _]/M'.
  elim: (c_keys_jj (x_c x)) (fl_jj FM') => [//|[[[e el] b] u] l IH] H /=.
  have [-> _ _] := H e el b u (or_introl erefl); by rewrite /= (IH (fun e' el' b' w' hk' => H e' el' b' w' (or_intror hk'))).
apply: (@rate_abs h X X' s s' ev _ (c_keys_jj (x_c x)) (fun k => k.1.1.2) (half_op disp s x) (half_op disp s' x)).
- exact: erefl.
- exact: erefl.
- exact: erefl.
- by rewrite p1 p2.
- by move=> e; rewrite c1 c2.
- by move=> e A; rewrite c1; exact: cap_rev.
- by rewrite i1 i2.
- move=> el A; rewrite i1 => hA; have [k hk [_ ->]] := In_map hA; exact: (ind_back hk (j1 _ hk)).
- exact: k1.
- exact: k2.
- by move=> k; rewrite /half_op flux_back; apply: half_back.
- by rewrite /X /X' E0 E0'.
- by rewrite /X /X' E0 E0'.
- by rewrite /X /X' E0 E0'.
- exact: H_ng.
- by rewrite Ecm Ecm'.
- move=> m' n' el b; rewrite Ecm => hA; have [k hk [-> ->]] := In_map hA.
  by apply: omega_back; apply: (rg_jj Rg hk).
- by move=> m' n' l; apply: omega_back.
Qed.
End Session.

(** P_Operators.v -- C71: stored operators, and the sine of half the phase. *)
From Coq Require Import Reals ZArith String Lia Lra.
From Verif.Model Require Import Base Units Settings Noise Edge Elements LCWB HamConst.
From Verif.Proofs Require Import ThermalProofs BookProofs.
From mathcomp Require Import all_ssreflect all_algebra.
From mathcomp Require Import complex.
From Verif.Numerics Require Import RStruct Bridge.
From Verif.Model Require Import Transform Op Ham Diag CircuitSM Thermal Partial DecRate System Operators.
From Verif.Spec Require Import OpSpec SessionSpec DecSpec HalfSpec PerturbSpec.
From Verif.Proofs Require Import OpProofs DecProofs2 HamProofs HamProofs2 SMProofs SMProofs2 SMProofs3 MemProofs DecProofs3 FluxProofs2 PhaseMulti HalfProofs.

Set Implicit Arguments.
Unset Strict Implicit.
Unset Printing Implicit Defensive.
Import GRing.Theory.
Local Open Scope ring_scope.
Local Open Scope complex_scope.

Lemma find_in ks (e : edge) el b w : (forall k k', List.In k ks -> List.In k' ks -> k.1.2 = k'.1.2 -> k = k') ->
  List.In (e, el, b, w) ks -> find_w ks el b = Some w.
Proof.
elim: ks => [//|[[[e' el'] b'] w'] ks IH] Hu /= Hin; case: ifP => [/andP [_ /eqP Eb]|n0].
  by have := Hu (e', el', b', w') (e, el, b, w) (or_introl erefl) Hin Eb; case=> _ _ _ ->.
apply: IH; first by move=> k k' h h'; apply: Hu; right.
by case: Hin => // -[_ E1 E2 _]; rewrite E1 E2 !eqxx in n0.
Qed.
Lemma find_none ks el b : (forall (e : edge) w, ~ List.In (e, el, b, w) ks) -> find_w ks el b = None.
Proof.
elim: ks => [//|[[[e' el'] b'] w'] ks IH] H /=; case: ifP => [/andP [/eqP E1 /eqP E2]|_].
  by case: (H e' w'); left; rewrite E1 E2.
by apply: IH => e w h; apply: (H e w); right.
Qed.
Lemma row_bound optim s fd n lobj d c : get_LCWB optim s fd n lobj d = Ok c ->
  forall k, List.In k (c_keys_jj c) -> (k.1.2 < size (c_keys_ind c) + size (c_keys_jj c))%N.
Proof.
move=> /key_perm P k hk; have := Permutation.Permutation_length P.
rewrite List.app_length !List.map_length List.seq_length => L.
have h : List.In k.1.2 (List.map (fun k => snd k) (c_keys_ind c) ++ List.map (fun k => snd (fst k)) (c_keys_jj c))%list.
  by apply: List.in_or_app; right; apply: (List.in_map (fun k : edge * nat * nat * nat => k.1.2)).
have /List.in_seq [_] := Permutation.Permutation_in _ P h.
by rewrite -L => /ltP.
Qed.

(** Operators of another type are refused; so is a call without a junction or
    without its row. *)
Theorem C71_arguments optim s x typ kb kel :
  (typ <> "sin_half"%string -> op_get optim s x typ kb kel = Err ValueError) /\
  (kb = None \/ kel = None -> op_get optim s x "sin_half" kb kel = Err KeyError).
Proof.
split=> [n|]; first by rewrite /op_get; case: String.eqb_spec.
by case=> -> //; rewrite /op_get /=; case: kb.
Qed.
Print Assumptions C71_arguments.

Section Session.
Variables (disp : nat -> C -> op) (optim : bool) (o : oracle) (s0 : store) (lobj : nat -> lrec) (fd : string).
Variables (d : seq (edge * seq nat)) (x0 : circ) (u : ustate) (cs : seq call) (tr : seq (world * res unit)).
Hypothesis dims : forall m a, dim (disp m a) = m.
Hypothesis built_ok : construct optim o s0 lobj fd d = Some (Ok x0).
Hypothesis session : run disp optim (mkW s0 u x0) cs = Some tr.
Hypothesis updates : updates_ok optim (mkW s0 u x0) cs tr.
Let s := w_s (final (mkW s0 u x0) tr).
Let x := w_x (final (mkW s0 u x0) tr).
Let G : good disp x.
Proof. exact: good_run (good_construct disp built_ok : good disp (w_x (mkW s0 u x0))) session updates. Qed.
Let bk : booked optim (final (mkW s0 u x0) tr).
Proof. by apply: booked_run session updates; apply: booked_construct built_ok. Qed.

(** The circuit after a call of hamiltonian(). *)
Variables (x1 : circ) (H : op).
Hypothesis formed : hamil s x = (x1, Ok H).
Variables (e : edge) (el b w : nat).
Hypothesis key : List.In (e, el, b, w) (c_keys_jj (x_c x)).

(** cos(X) and sin(X/2) as stored satisfy 2 sin(X/2)^2 = 1 - cos X when the junction
    couples to no charge mode.  The displacement operators are unitary, and the one
    for half the amplitude is a square root, as for an exponential. *)
Theorem C71_half_angle : (forall m a, unitary (disp m a)) -> (forall m a, square_root (disp m (a / 2%:R)) (disp m a)) ->
  (forall j, (j < x_n x)%N -> is_charge (x_st x) j -> t_wT (x_st x) w j = 0) ->
  exists Cs Sn, [/\ M_cos (x_mem x1) el b = Some Cs, M_half (x_mem x1) el b = Some Sn & half_angle Cs Sn].
Proof.
move=> U S W; have [M [-> F _ _]] := hamil_filled G (booked_keys bk) formed.
have [h1 _ h3] := fl_jj F key; do 2!eexists; split; [exact: h1|exact: h3|].
exact: half_harmonic.
Qed.

(** When all modes are charge modes the stored sin(X/2) is the number
    sin(phi_ext/2) times the identity. *)
Theorem C71_charge_refuted : (forall j, (j < x_n x)%N -> is_charge (x_st x) j) ->
  exists Sn, [/\ M_half (x_mem x1) el b = Some Sn, dim Sn = dim H &
    multiple (sin (halfR (ext_flux [seq lvalue s l | l <- c_loops (x_c x)] (x_B x) b)))%:C Sn].
Proof.
move=> W; have [M [-> F _ _]] := hamil_filled G (booked_keys bk) formed.
have [_ _ h3] := fl_jj F key; eexists; have [h4 h5] := half_charge disp (ext_flux (loop_vals s x) (x_B x) b) w (W : forall j, (j < hn (hof x))%N -> hcharge (hof x) j).
split; [exact: h3| |exact: h5].
rewrite h4; have [] := hamilE s G; rewrite formed /= => EH _.
by have [] := hamiltonian_ok dims (esym EH).
Qed.

(** After hamiltonian() the PyTorch engine returns from op() what the NumPy engine
    returns; for any later values of the loops it returns what the NumPy engine
    would return after another call of hamiltonian(). *)
Theorem C71_op s' x2 H2 : hamil s' x1 = (x2, Ok H2) ->
  exists A, op_get true s' x1 "sin_half" (Some b) (Some el) = Ok A /\
            op_get false s' x2 "sin_half" (Some b) (Some el) = Ok A.
Proof.
have [M [E1 F1 S1 Fo]] := hamil_filled G (booked_keys bk) formed.
have G1 : good disp x1 by rewrite E1; apply: good_put_mem.
have K1 : keys_ok (x_c x1) by rewrite E1; exact: booked_keys bk.
move=> EH; have [M2 [E2 F2 _ Fo2]] := hamil_filled G1 K1 EH.
have key1 : List.In (e, el, b, w) (c_keys_jj (x_c x1)) by rewrite E1.
have [_ _ h3] := fl_jj F2 key1.
eexists; split; last first.
  by rewrite /op_get /= E2 /= h3.
have [ss [lo [nn [Eb _]]]] := bk; have lt := row_bound Eb key.
have -> : op_get true s' x1 "sin_half" (Some b) (Some el) =
  match get_w_id x1 el b with
  | None => Err TypeError
  | Some w => if (size (M_root (x_mem x1)) <= w)%N then Err IndexError
     else Ok (jj_sin (oscale (expi (halfR (ext_flux (loop_vals s' x1) (x_B x1) b))) (nth (ozero 0) (M_root (x_mem x1)) w)))
  end.
  rewrite /op_get [String.eqb _ _]/=; cbn [negb].
  have -> : (size (c_keys_ind (x_c x1)) + size (c_keys_jj (x_c x1)) <= b)%N = false.
    by apply/negbTE; rewrite -ltnNge E1.
  by rewrite andbF.
rewrite /get_w_id (find_in K1.2 key1).
have lw : (w < t_m (x_st x1))%N by have := g_wid G key; rewrite E1.
by rewrite (fo_root Fo2) size_map size_iota leqNgt lw (nth_map 0%N) ?size_iota // nth_iota.
Qed.

(** A pair of junction and row that is not in the circuit. *)
Theorem C71_unknown s' el' b' : (forall e w, ~ List.In (e, el', b', w) (c_keys_jj (x_c x))) ->
  op_get true s' x1 "sin_half" (Some b') (Some el') = Err TypeError \/
  op_get true s' x1 "sin_half" (Some b') (Some el') = Err IndexError.
Proof.
move=> N; have [M [E1 _ _ _]] := hamil_filled G (booked_keys bk) formed.
rewrite /op_get [String.eqb _ _]/=; cbn [negb]; case: ifP => _; first by right.
by left; rewrite /get_w_id E1 /= find_none.
Qed.

(** The junction of a circuit with a single charge mode to which it couples: no
    value of the external flux makes the stored operators satisfy the identity. *)
Theorem C71_transmon_refuted : x_n x = 1%N -> is_charge (x_st x) 0%N -> t_wT (x_st x) w 0%N <> 0 -> (1 < dim H)%N ->
  exists Cs Sn, [/\ M_cos (x_mem x1) el b = Some Cs, M_half (x_mem x1) el b = Some Sn & ~ half_angle Cs Sn].
Proof.
move=> n1 hc w0 d2; have [M [-> F _ _]] := hamil_filled G (booked_keys bk) formed.
have [h1 _ h3] := fl_jj F key; do 2!eexists; split; [exact: h1|exact: h3|].
have W : forall j, (j < hn (hof x))%N -> hcharge (hof x) j by move=> [|j] //; rewrite /hn -[t_n _]/(x_n x) n1.
set phi := ext_flux _ _ _; have [] := half_charge disp phi w W.
set A := jj_sin _ => h4 h5.
have dH : total (hof x) = dim H.
  by have [] := hamilE s G; rewrite formed /= => EH _; have [] := hamiltonian_ok dims (esym EH).
case=> _ /(_ 0%N 1%N); rewrite [dim _]/= h4 dH.
have l1 : (0 < dim H)%N by exact: ltnW.
move=> /(_ l1 d2); cbn [ent oscale omul osub oeye odiag]; rewrite big1; last first.
  move=> k _; have [lk|gk] := boolP (nat_of_ord k == 0%N).
    by rewrite [ent _ k 1%N]h5 ?(eqP lk) ?h4 ?dH //= mulr0.
  by rewrite [ent _ 0%N k]h5 ?h4 ?dH //= 1?eq_sym ?(negbTE gk) ?mul0r // -dH -h4.
rewrite mulr0 add0r => E.
have : expi phi * ent (opExp disp (hof x) w) 0%N 1%N + (expi phi * ent (opExp disp (hof x) w) 1%N 0%N)^* = 0.
  by apply/eqP; move/esym/eqP: E; rewrite oppr_eq0 mulf_eq0 invr_eq0 Num.Theory.pnatr_eq0.
rewrite opExpE (_ : hn (hof x) = 1%N) // T1 /exp_iso /hcharge hc /d_op_isolated.
have n0 : expi phi != 0.
  by apply/eqP => E0; have := expi_norm phi; rewrite E0 mul0r => /eqP; rewrite eq_sym oner_eq0.
case: eqP => // _; case: (Rlt_dec _ _) => ?; cbn [ent oadj is_left eq_op Equality.op nat_eqMixin]; rewrite ?eqxx ?conjc0 ?conjc1 !mulr1 !mulr0 ?conjc0 ?addr0 ?add0r.
  by move/eqP; rewrite (negbTE n0).
by move/eqP; rewrite conjc_eq0 (negbTE n0).
Qed.

(** The relaxation rate by quasiparticles between orthogonal states is zero for any
    circuit whose modes are all charge modes. *)
Theorem C71_lossless_refuted E sq q ev m n total v w' r : (forall j, (j < x_n x)%N -> is_charge (x_st x) j) ->
  evec (put_eig x1 ev) m = Ok v -> evec (put_eig x1 ev) n = Ok w' -> dot (dim H) v w' = 0 ->
  dec_rate E sq q (put_eig x1 ev) (Some DQp) m n total = Ok (Some r) -> r = 0.
Proof.
move=> W Ev Ew D; rewrite /dec_rate; case: ifP => // _.
case: efreq => [w1|z] //; case: efreq => [w2|z] //; rewrite Ev Ew; cbn [bind].
move=> /fold_val [_ ->]; rewrite add0r.
apply: etrans (_ : \sum_(k <- half_mem (put_eig x1 ev)) 0 = 0); last by rewrite big1.
apply: eq_big_In => k hk0; have [[[[e' el'] b'] w0] hk] := In_pmap hk0.
have [M [E1 F _ _]] := hamil_filled G (booked_keys bk) formed.
have hk' : List.In (e', el', b', w0) (c_keys_jj (x_c x)) by move: hk; rewrite E1.
have [_ _ h3] := fl_jj F hk'; rewrite -[x_mem _]/(x_mem x1) E1 /= h3 /= => -[<-].
have [] := half_charge disp (ext_flux (loop_vals s x) (x_B x) b') w0 (W : forall j, (j < hn (hof x))%N -> hcharge (hof x) j).
set A := jj_sin _ => h4 h5.
have dH : HamProofs.total (hof x) = dim H.
  by have [] := hamilE s G; rewrite formed /= => EH _; have [] := hamiltonian_ok dims (esym EH).
rewrite /qp_rate [snd _]/= [fst _]/=; case: q_jj => [Y|] //; case: thermal => [t|] //; cbn [Datatypes.option_map ssrfun.Option.map ssrfun.Option.bind ssrfun.Option.apply rate_val].
have -> : inner v A w' = 0; last first.
  by have -> : abs2 0 = 0; [rewrite /abs2; exact: (etrans (congr2 Rplus (Rmult_0_r _) (Rmult_0_r _)) (Rplus_0_r _))|exact: mulr0].
set z := (sin _)%:C in h5; have -> : inner v A w' = z * dot (dim H) v w'; last by rewrite D mulr0.
rewrite /inner h4 dH /dot mulr_sumr; apply: eq_bigr => i _; rewrite mulrCA; congr (_ * _); rewrite (bigD1 i) // big1 ?addr0 => [|j ji].
  by rewrite h5 ?h4 ?dH // eqxx; exact: addr0.
by rewrite h5 ?h4 ?dH //; rewrite eq_sym in ji; rewrite -[_ == _]/(i == j) (negbTE ji) mul0r.
Qed.

(** charge_op in the original basis, from set_trunc_nums on; modes count from 1. *)
Hypothesis truncated : x_m x <> [::].
Let opsE : M_Q (x_mem x) = [seq opQ (hof x) i | i <- iota 0 (x_n x)].
Proof. by case: (g_ops G) => // F; exact: fo_Q F. Qed.
Let readQ z : charge_op x z "original" = py_nth (ozero 0) [seq opQ (hof x) i | i <- iota 0 (x_n x)] (Z.sub z (Zpos xH)).
Proof. by rewrite /charge_op -opsE; case: eqP => [/size0nil|]. Qed.

Theorem C71_charge_op i : (i < x_n x)%N -> charge_op x (Z.of_nat i.+1) "original" = Ok (opQ (hof x) i).
Proof.
move=> hi; rewrite readQ /py_nth /np_row /py_index size_map size_iota.
have -> : Z.sub (Z.of_nat i.+1) (Zpos xH) = Z.of_nat i by lia.
have -> : Z.leb Z0 (Z.of_nat i) by apply/Z.leb_spec0; lia.
have -> : Z.ltb (Z.of_nat i) (Z.of_nat (x_n x)) by apply/Z.ltb_spec0; move/ltP: hi; lia.
by rewrite Nat2Z.id (nth_map 0%N) ?size_iota // nth_iota.
Qed.

(** Mode 0 is the last mode, mode -1 the one before, and so on. *)
Theorem C71_index_refuted i : (i < x_n x)%N ->
  charge_op x (Z.opp (Z.of_nat i)) "original" = Ok (opQ (hof x) ((x_n x).-1 - i)).
Proof.
move=> hi; rewrite readQ /py_nth /np_row /py_index size_map size_iota.
have -> : Z.leb Z0 (Z.sub (Z.opp (Z.of_nat i)) (Zpos xH)) = false by apply/Z.leb_spec0; lia.
have -> : Z.add (Z.sub (Z.opp (Z.of_nat i)) (Zpos xH)) (Z.of_nat (x_n x)) = Z.of_nat ((x_n x).-1 - i).
  by move/ltP: hi; rewrite -subn1 -!minusE; lia.
have -> : Z.leb Z0 (Z.of_nat ((x_n x).-1 - i)) by apply/Z.leb_spec0; lia.
have lt : ((x_n x).-1 - i < x_n x)%N by case: (x_n x) hi => // n _; rewrite ltnS leq_subr.
by rewrite Nat2Z.id (nth_map 0%N) ?size_iota // nth_iota.
Qed.

Theorem C71_index z : Z.lt (Z.of_nat (x_n x)) z \/ Z.lt z (Z.sub (Zpos xH) (Z.of_nat (x_n x))) ->
  charge_op x z "original" = Err IndexError.
Proof.
move=> hz; rewrite readQ /py_nth /np_row /py_index size_map size_iota.
case: Z.leb_spec0 => h1.
  by have -> : Z.ltb (Z.sub z (Zpos xH)) (Z.of_nat (x_n x)) = false by apply/Z.ltb_spec0; lia.
by have -> : Z.leb Z0 (Z.add (Z.sub z (Zpos xH)) (Z.of_nat (x_n x))) = false by apply/Z.leb_spec0; lia.
Qed.

(** In the eigenbasis: the matrix elements of that operator between the computed
    eigenstates.  Without eigenstates numpy's concatenate raises. *)
Theorem C71_charge_eig i : (i < x_n x)%N ->
  if e_vecs (x_eig x) is [::] then charge_op x (Z.of_nat i.+1) "eig" = Err ValueError
  else exists A, [/\ charge_op x (Z.of_nat i.+1) "eig" = Ok A, dim A = size (e_vecs (x_eig x)) &
    forall a c, ent A a c = let v k := nth (fun=> 0) (e_vecs (x_eig x)) k in
      dot (dim (opQ (hof x) i)) (v a) (apply_to (dim (opQ (hof x) i)) (ent (opQ (hof x) i)) (v c))].
Proof.
move=> hi; have := C71_charge_op hi; rewrite /charge_op /charge_op_eig; case: eqP => // _ /= ->.
by case Ev: (e_vecs _) => [|v vs] //; eexists; split=> //.
Qed.

Theorem C71_basis z basis : basis <> "original" -> basis <> "eig" -> charge_op x z basis = Err ValueError.
Proof.
by move=> /String.eqb_neq h1 /String.eqb_neq h2; rewrite /charge_op h1 h2; case: eqP => // /size0nil.
Qed.
End Session.

(** Before set_trunc_nums. *)
Theorem C71_untruncated x z basis : x_m x = [::] -> charge_op x z basis = Err CircuitStateError.
Proof. by rewrite /charge_op => ->. Qed.

Print Assumptions C71_half_angle.
Print Assumptions C71_charge_refuted.
Print Assumptions C71_op.
Print Assumptions C71_unknown.
Print Assumptions C71_transmon_refuted.
Print Assumptions C71_lossless_refuted.
Print Assumptions C71_charge_op.
Print Assumptions C71_index_refuted.
Print Assumptions C71_index.
Print Assumptions C71_charge_eig.
Print Assumptions C71_basis.
Print Assumptions C71_untruncated.

(** Operators for which the hypotheses of C71_half_angle hold: state k gets the
    phase k times the imaginary part of the amplitude. *)
Definition phase_disp (m : nat) (a : C) : op := odiag m (fun k => expi (INR k * Im a)%R).
Lemma diag_mul m (f g : nat -> C) : eqop (omul (odiag m f) (odiag m g)) (odiag m (fun k => f k * g k)).
Proof.
split=> // i j hi hj; rewrite /= in hi hj; cbn [ent omul odiag dim]; rewrite (bigD1 (Ordinal hi)) //= eqxx big1 ?addr0.
  by case: eqP => _; rewrite ?mulr0.
by move=> k ki; case: eqP => [E|_]; [case/eqP: ki; apply: val_inj|rewrite mul0r].
Qed.
Lemma diag_adj m (f : nat -> C) : eqop (oadj (odiag m f)) (odiag m (fun k => (f k)^*)).
Proof.
by split=> // i j _ _; cbn [ent oadj odiag]; rewrite eq_sym; case: eqP => [->|_] //; rewrite conjc0.
Qed.
Lemma diag_eye m (f : nat -> C) : (forall k, f k = 1) -> eqop (odiag m f) (oeye m).
Proof. by move=> H; split=> // i j _ _; cbn [ent oeye odiag]; rewrite H. Qed.
Example C71_case_phases : [/\ forall m a, dim (phase_disp m a) = m, forall m a, unitary (phase_disp m a) &
  forall m a, square_root (phase_disp m (a / 2%:R)) (phase_disp m a)].
Proof.
split=> // m a; rewrite /unitary /square_root.
  split.
    apply: eqop_trans (omul_eq (eqop_refl (phase_disp m a)) (diag_adj m _) erefl) _.
    by apply: eqop_trans (diag_mul _ _ _) _; apply: diag_eye => k; exact: expi_norm.
  apply: eqop_trans (omul_eq (diag_adj m _) (eqop_refl (phase_disp m a)) erefl) _.
  by apply: eqop_trans (diag_mul _ _ _) _; apply: diag_eye => k; rewrite mulrC; exact: expi_norm.
apply: eqop_trans (diag_mul _ _ _) _; split=> // i j _ _; cbn [ent phase_disp odiag].
case: eqP => // _; rewrite -expi_add; congr expi.
have -> : Im a = Rplus (Im (a / 2%:R)) (Im (a / 2%:R)).
  have {1}-> : a = a / 2%:R + a / 2%:R by rewrite -mulrDl -mulr2n -mulr_natr mulfK // Num.Theory.pnatr_eq0.
  by case: (a / _).
exact: esym (Rmult_plus_distr_l _ _ _).
Qed.

(** A transmon with three charge states at zero flux: sin(X/2) vanishes, while
    1 - cos X has diagonal 1 and off-diagonal -1/2. *)
Definition tr_st : tst := mkT 1 1 1 1 eye eye eye eye eye eye (fun=> 0).
Definition tr_circ : circ :=
  mkX [::] "junctions" (cst0 (fun=> mkL nil nil)) eye eye tr_st [:: Some (0, noise_default)] [:: 3%N] mem0 None (mkE [::] [::]).
Example C71_case_transmon disp : let h := hof tr_circ in
  let Sn := jj_sin (jj_root disp h 0 0) in let Cs := jj_cos (jj_exp disp h 0 0) in
  [/\ forall i j, (i < 3)%N -> (j < 3)%N -> ent Sn i j = 0,
      ent (osub (oeye 3) Cs) 0%N 0%N = 1 & ent (osub (oeye 3) Cs) 0%N 1%N = - 2%:R^-1].
Proof.
move=> h Sn Cs.
have W j : (j < hn h)%N -> hcharge h j by case: j => // _; rewrite /hcharge /is_charge /= eqxx.
have [h4 h5] := half_charge disp 0 0%N W.
have E : jj_exp disp h 0 0 = oscale (expi 0) (d_op_isolated 3 (eye 0%N 0%N)).
  by rewrite /jj_exp opExpE (_ : hn h = 1%N) // T1 /exp_iso W.
have e0 : expi 0 = 1 by rewrite /expi cos_0 sin_0.
have D : d_op_isolated 3 (eye 0%N 0%N) = oadj (Op 3 (fun k j => if j == k.+1 then 1 else 0)).
  rewrite /d_op_isolated /eye eqxx oner_eq0; case: (Rlt_dec _ _) => [h1|//].
  by case: (Rlt_asym _ _ h1 Rlt_0_1).
have dz : ent (d_op_isolated 3 (eye 0%N 0%N)) 0%N 0%N = 0 by rewrite D; exact: conjc0.
have d01 : ent (d_op_isolated 3 (eye 0%N 0%N)) 0%N 1%N = 0 by rewrite D; exact: conjc0.
have d10 : ent (d_op_isolated 3 (eye 0%N 0%N)) 1%N 0%N = 1 by rewrite D; exact: conjc1.
split.
- move=> i j hi hj; rewrite /Sn h5 ?h4 /HamProofs.total ?big_ord_recl ?big_ord0 //.
  by rewrite (_ : halfR 0 = R0) ?sin_0; [case: eqP|exact: (Rmult_0_l (/ 2))].
- rewrite /Cs E; cbn [ent osub oeye odiag jj_cos oscale oadd oadj]; rewrite !dz !mulr0 conjc0.
  by rewrite addr0 mulr0 subr0.
rewrite /Cs E; cbn [ent osub oeye odiag jj_cos oscale oadd oadj]; rewrite d10 d01.
by rewrite mulr0 !add0r e0 mul1r conjc1 mulr1.
Qed.
(** Its charge operator: the lowest state has -1 Cooper pair; modes 1 and 0 are the same. *)
Example C71_case_charge : let x := (build_ops tr_circ) in
  [/\ (exists Q, [/\ charge_op x (Zpos xH) "original" = Ok Q, ent Q 0%N 0%N = (charge_unit * (IZR (-1) - 0))%:C & charge_op x Z0 "original" = Ok Q]),
      charge_op x (Zpos (xO xH)) "original" = Err IndexError,
      charge_op x (Zpos xH) "eig" = Err ValueError & charge_op x (Zpos xH) "number" = Err ValueError].
Proof.
split=> //; eexists; split; first by reflexivity.
2: by reflexivity.
have c1 : charge_at 3 0 = IZR (-1) by rewrite /charge_at /=; lra.
have -> : nth (ozero 0) (M_Q (x_mem (build_ops tr_circ))) (Z.to_nat (Z.sub (Zpos xH) (Zpos xH))) = opQ (hof tr_circ) 0 by [].
rewrite /opQ /= /charge_op_isolated /hcharge /is_charge /= eqxx /= -[hm _ _]/3%N -c1.
by rewrite -[ng_of _ _]/(0 : R) mulr1 -cRB -cRM.
Qed.

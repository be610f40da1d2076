(** P_Loss.v -- C94: relaxation rates with one quality factor. *)
From Coq Require Import Reals ZArith Lia Lra String List.
From Verif.Model Require Import Base Units Settings Noise Edge Elements LCWB Accuracy HamConst Thermal.
From Verif.Spec Require Import GraphSpec CircuitSpec ThermalSpec.
From Verif.Proofs Require Import LCWBProofs LossKeys HamConstProofs.
From mathcomp Require Import all_ssreflect all_algebra.
From mathcomp Require Import complex.
From Verif.Numerics Require Import RStruct Bridge.
From Verif.Model Require Import FluxDist Transform Op Ham Diag CircuitSM DecRate.
From Verif.Spec Require Import OpSpec TransSpec DecSpec LossSpec.
From Verif.Proofs Require Import OpProofs HamProofs HamProofs2 HamProofs5 TransProofs TransProofs1 TransProofs2 TransProofs4.
From Verif.Proofs Require Import SMProofs SMProofs2 SMProofs3 DecProofs3 LossProofs LossPhotons LossSession SessionCase.
From Verif.Properties Require Import P_Decoherence.

Set Implicit Arguments.
Unset Strict Implicit.
Unset Printing Implicit Defensive.
Import GRing.Theory.
Local Open Scope ring_scope.
Local Open Scope complex_scope.

Lemma cap_edge s x e c : List.In (e, c) (capacitors s x) -> exists els, List.In (e, els) (x_dict x).
Proof.
rewrite /capacitors; elim: (x_dict x) => [|[e' els] d IH] //= /List.in_app_iff [|/IH [els' H]]; last by exists els'; right.
by elim: els => [|el els IHe] //= [[-> _]|/IHe [els' [[<- _]|H]]]; [exists (el :: els); left | exists (el :: els); left | exists els'; right].
Qed.
Section Loss.
Variables (disp : nat -> C -> op) (optim : bool) (o : oracle) (s : store) (lobj : nat -> lrec) (fd : string).
Variables (d : seq (edge * seq nat)) (x0 : circ) (u : ustate) (cs : seq call) (tr : seq (world * res unit)).
Hypothesis built_ok : construct optim o s lobj fd d = Some (Ok x0).
Hypothesis session : run disp optim (mkW s u x0) cs = Some tr.
Hypothesis kept : all leaves cs.
Let xf := w_x (final (mkW s u x0) tr).
Let n := x_n x0.
Let h := hof xf.
Let C0 := c_C (x_c x0).
Let L0 := c_L (x_c x0).
(** One mode for each node: no mode was removed. *)
Hypothesis modes : node_count (List.map fst d) = Ok (Z.of_nat n).
Hypothesis wired : proper_dict n d.
(** The matrices handed over by numpy are what they should be. *)
Variables lroot X : arr.
Hypothesis HC : root_of (toM n n C0) (toM n n (o_croot o)).
Hypothesis HL : root_of (toM n n L0) (toM n n lroot).
Hypothesis HA : svd_of (toM n n lroot *m invmx (toM n n (o_croot o))) (toM n n X) (toM n n (o_U o)) (toV n (o_D0 o)).

Lemma loss_facts : exists lo st0 k, [/\ get_LCWB optim s fd (Z.of_nat n) lo d = Ok (x_c x0),
  t_init n (size (c_W (x_c x0))) (c_njwi (x_c x0)) C0 L0 (rows (c_W (x_c x0))) = Ok st0,
  sing_locs n (o_D0 o) (o_eigL o) = iota (n - k) k, nf1 n k (o_D0 o) (x_st x0) & frame n C0 (x_st x0)] /\
  ((forall i, i \in sing_locs n (o_D0 o) (o_eigL o) -> o_D0 o i = 0) -> lT_exact n L0 (x_st x0)) /\
  [/\ x_C x0 = C0, x_dict x0 = d & toM n n C0 \in unitmx].
Proof.
have [n' [c [B [st [[st0 [El Eb Ei Et]] [En Ex]]]]]] := constructP built_ok.
have nn : n' = n by move: modes; rewrite En => -[] /Znat.Nat2Z.inj.
move: HC HL HA modes; rewrite /C0 /L0 Ex /=; subst n' => HC' HL' HA' modes'.
have bs : built optim o s fd d n lobj c B st by exists st0.
have [_ Etn _] := built_size bs.
have fid : finish_modes optim st = st by apply: finish_id; rewrite Etn /n /x_n Ex.
rewrite fid; have uC : toM n n (c_C c) \in unitmx by move: Ei; rewrite /t_init /inv; case: ifP.
have [k [Ek nf fr ex _]] := transform_all Ei HC' HL' HA' (proj1 (transform_runE o st0 st) Et).
by exists lobj, st0, k.
Qed.

Lemma loss_frame : [/\ x_st xf = x_st x0, x_c xf = x_c x0, x_C xf = C0 & x_dict xf = d].
Proof.
have [lo [st0 [k [_ [_ [EC Ed _]]]]]] := loss_facts.
by have [_ [e1 e2 e3 e4]] := leave_run kept session; split; rewrite ?e1 ?e2 ?e3 ?e4.
Qed.

Lemma loss_ops ct e els : List.In (e, els) d -> exists A, coupling_op h (Some ct) e = Ok A.
Proof.
move=> He; have [lo [st0 [k [[_ _ _ _ [[En En0] _ _]] [_ [_ _ uC]]]]]] := loss_facts.
have [Est _ EC _] := loss_frame.
have n0 : t_n0 (h_st h) = n by rewrite /h /hof /= Est.
have hnE : hn h = n by rewrite /hn /h /hof /= Est.
have [K EK] : exists K, coupling_mat h ct = Ok K by apply: mat_total; rewrite n0 /h /hof /= EC.
have [ha [hb ab]] := wired He; case: e ha hb ab {He} => a b /= ha hb ab.
have pn : (0 < hn h)%N by rewrite hnE; apply/ssrnat.ltP; lia.
case: (Z.eq_dec a Z0) => [a0|na].
  have nb : isnode b (t_n0 (h_st h)) by rewrite n0; split; lia.
  by rewrite a0; have [_ Ek] := coef_ground EK nb; apply: coupling_total Ek pn.
have na' : isnode a (t_n0 (h_st h)) by rewrite n0; split; lia.
case: (Z.eq_dec b Z0) => [b0|nb].
  by rewrite b0; have [Ek _] := coef_ground EK na'; apply: coupling_total Ek pn.
have nb' : isnode b (t_n0 (h_st h)) by rewrite n0; split; lia.
by have [k' [Ek _]] := coef_edge EK na' nb'; apply: coupling_total Ek pn.
Qed.

Let B ct (e : edge) : op := if coupling_op h (Some ct) e is Ok A then A else oscale 0 (opN h 0).
Lemma BE ct e els : List.In (e, els) d -> coupling_op h (Some ct) e = Ok (B ct e).
Proof. by move=> /(loss_ops ct) [A E]; rewrite /B E. Qed.

(** ** The sums over the capacitors and the inductors *)
Variables (v w : cvec).

(** For every transition, the squared amplitudes across the capacitors weighted by the
    capacitances are the form of the capacitive energy in the amplitudes of the charges. *)
Theorem C94_capacitors : exists A, (forall e els, List.In (e, els) d -> coupling_op h (Some Capacitive) e = Ok (A e)) /\
  \sum_(k <- capacitors s xf) evalue s k.2 * modulus2 (braket v (A k.1) w) =
  form n (t_cI (x_st x0)) (fun i => braket v (opQ h i) w).
Proof.
exists (B Capacitive); split; first by move=> e els; exact: BE.
have [lo [st0 [k [[El _ _ _ fr] [_ [_ _ uC]]]]]] := loss_facts; have [Est _ EC Ed] := loss_frame.
have fr' : frame n (c_C (x_c x0)) (h_st h) by rewrite /h /hof /= Est.
have EC' : h_C h = c_C (x_c x0) := EC.
have := cap_total v w El wired EC' fr' uC (fun e els => @BE Capacitive e els).
rewrite /h /hof /= Est => <-; rewrite -(capacitors_sum s (fun e => modulus2 (braket v (B Capacitive e) w))) sumlE.
rewrite /capacitors Ed; elim: (d) => [|[e els] d' IH]; first by rewrite !big_nil.
rewrite /= !big_cat /= IH; congr (_ + _); rewrite !big_map; elim: els => [|el els IHe]; first by rewrite !big_nil.
by rewrite !big_cons IHe /= /cap_of; case: ekind.
Qed.

(** Likewise for the inductors, with the inverse inductances and the fluxes. *)
Hypothesis zero : forall i, i \in sing_locs n (o_D0 o) (o_eigL o) -> o_D0 o i = 0.
Theorem C94_inductors : exists A, (forall e els, List.In (e, els) d -> coupling_op h (Some Inductive_) e = Ok (A e)) /\
  \sum_(k <- c_keys_ind (x_c xf)) (evalue s k.1.2)^-1 * modulus2 (braket v (A k.1.1) w) =
  form n (t_lT (x_st x0)) (fun i => braket v (opPhi h i) w).
Proof.
exists (B Inductive_); split; first by move=> e els; exact: BE.
have [lo [st0 [k [[El _ _ _ fr] [ex [_ _ uC]]]]]] := loss_facts; have [Est Ec EC Ed] := loss_frame.
have fr' : frame n (c_C (x_c x0)) (h_st h) by rewrite /h /hof /= Est.
have ex' : lT_exact n (c_L (x_c x0)) (h_st h) by rewrite /h /hof /= Est; exact: ex zero.
have := ind_total v w El wired fr' ex' (fun e els => @BE Inductive_ e els).
rewrite /h /hof /= Est => <-.
rewrite -(inductors_sum _ _ _ _ _ _ _ (fun e => modulus2 (braket v (B Inductive_ e) w)) El) sumlE Ec.
by apply: eq_bigr => i _; rewrite RmultE RinvE.
Qed.

(** ** Transitions of one photon *)
Variables (p q : nat -> nat) (i : nat).
Let N := (\prod_(k < n) nth 0 (x_m xf) k)%N.
Hypothesis state_v : legal (nth 0%N (x_m xf)) p n /\ only_at (posn (nth 0%N (x_m xf)) p n) N v.
Hypothesis state_w : legal (nth 0%N (x_m xf)) q n /\ only_at (posn (nth 0%N (x_m xf)) q n) N w.

Lemma loss_product ct A : form n A (fun j => braket v (mode_op h ct j) w) =
  form n A (fun j => ent (mode_op h ct j) (posn (hm h) p n) (posn (hm h) q n)).
Proof.
have [Est _ _ _] := loss_frame.
have [lo [st0 [k [[_ _ _ _ [[En En0] _ _]] _]]]] := loss_facts.
have hnE : hn h = n by rewrite /hn /h /hof /= Est.
have [Lp Sp] := state_v; have [Lq Sq] := state_w; set a := posn _ p n; set b := posn _ q n.
have NE : total h = N by rewrite /total hnE.
have ha : (a < N)%N by exact: posn_lt Lp.
have hb : (b < N)%N by exact: posn_lt Lq.
have mp : modulus2 ((v a)^* * w b) = 1 by rewrite mod_mul mod_conj (proj1 Sp) (proj1 Sq) mulr1.
rewrite -[RHS](phase_form _ _ _ mp) /form; apply: eq_bigr => j _; apply: eq_bigr => j' _.
have E j0 : braket v (mode_op h ct j0) w = (v a)^* * w b * ent (mode_op h ct j0) a b.
  by apply: (braket_at (N := N)) => //; rewrite -NE; case: (mode_op_ok h ct j0).
by rewrite !E.
Qed.

Lemma loss_energy ct : (i < n)%N -> ~~ is_charge (x_st x0) i ->
  (if ct is Capacitive then t_cI (x_st x0) i i else t_lT (x_st x0) i i) * (zp h ct i * zp h ct i) = halfR (t_om (x_st x0) i).
Proof.
move=> hi hc; have [Est _ _ _] := loss_frame.
have [lo [st0 [k [[_ _ _ nf _] _]]]] := loss_facts.
have := nf1_charge nf hi; rewrite (negbTE hc) => /esym /negbFE ik.
have [_ _ _ cp [_ [lp [_ [sq om]]]]] := nf; rewrite om // ik -sq //.
have {}cp := cp i hi; have {}lp := lp i ik.
have E : himp h i = Accuracy.impedance (t_cI (x_st x0) i i) (t_lT (x_st x0) i i) by rewrite /himp /h /hof /= Est.
rewrite /zp E; case: (ct).
  exact: q_energy _ _ cp lp.
exact: f_energy _ _ cp lp.
Qed.

(** No mode has a photon more or less: nothing. *)
Theorem C94_no_photon ct A : (exists k, (k < n)%N /\ p k <> q k) ->
  (forall k, (k < n)%N -> ~~ is_charge (x_st x0) k -> ~ one_more n p q k /\ ~ one_more n q p k) ->
  form n A (fun j => braket v (mode_op h ct j) w) = 0.
Proof.
case=> k [hk ne] no; have [Est _ _ _] := loss_frame; have [Lp _] := state_v; have [Lq _] := state_w.
have [lo [st0 [k' [[_ _ _ _ [[En En0] _ _]] _]]]] := loss_facts.
have hnE : hn h = n by rewrite /hn /h /hof /= Est.
rewrite loss_product; have := @form_none h ct A p q k; rewrite hnE => -> // j hj.
by rewrite /hcharge /h /hof /= Est; exact: no.
Qed.

(** The states differ by a photon in mode [i]: either sum is half the frequency of the mode
    times the larger number of photons. *)
Hypothesis harmonic : (i < n)%N /\ ~~ is_charge (x_st x0) i.
Hypothesis photon : one_more n p q i \/ one_more n q p i.
Theorem C94_photon_capacitors : form n (t_cI (x_st x0)) (fun j => braket v (opQ h j) w) =
  halfR (t_om (x_st x0) i) * INR (maxn (p i) (q i)).
Proof.
have [hi hc] := harmonic; have [Est _ _ _] := loss_frame; have [Lp _] := state_v; have [Lq _] := state_w.
have [lo [st0 [k [[_ _ _ _ [[En En0] _ _]] _]]]] := loss_facts.
have hnE : hn h = n by rewrite /hn /h /hof /= Est.
rewrite (loss_product Capacitive) -(loss_energy Capacitive hi hc).
have := @form_one h Capacitive (t_cI (x_st x0)) p q i; rewrite hnE => -> //.
by rewrite /hcharge /h /hof /= Est.
Qed.
Theorem C94_photon_inductors : form n (t_lT (x_st x0)) (fun j => braket v (opPhi h j) w) =
  halfR (t_om (x_st x0) i) * INR (maxn (p i) (q i)).
Proof.
have [hi hc] := harmonic; have [Est _ _ _] := loss_frame; have [Lp _] := state_v; have [Lq _] := state_w.
have [lo [st0 [k [[_ _ _ _ [[En En0] _ _]] _]]]] := loss_facts.
have hnE : hn h = n by rewrite /hn /h /hof /= Est.
rewrite (loss_product Inductive_) -(loss_energy Inductive_ hi hc).
have := @form_one h Inductive_ (t_lT (x_st x0)) p q i; rewrite hnE => -> //.
by rewrite /hcharge /h /hof /= Est.
Qed.


(** ** Rates with one quality factor *)
Variables (eigs : eigs_fun) (argsort : seq C -> seq nat) (uu : ustate) (kk : option Z) (x : circ) (dr : seq R * seq cvec).
Hypothesis diagonalised : diag_sm eigs argsort uu kk s xf = (x, Ok dr).
Variables (E : env) (qf : quality) (m1 m2 : Z) (w1 w2 r Qf : R).
Hypothesis HT : Rlt 0 (Noise.T E).
Hypothesis levels_ok : levels x m1 m2 w1 w2 v w.
Hypothesis apart : w1 <> w2.
Hypothesis warm : Rle (thermal_ratio (Rabs (w2 - w1)) (Noise.T E)) (IZR 709).

Theorem C94_capacitive both : (forall k, List.In k (capacitors s x0) -> exists f, q_cap qf k.2 = Some f /\ f (Rabs (w2 - w1)) = Qf) ->
  dec_rate E s qf x (Some DCap) m1 m2 both = Ok (Some r) ->
  r = weight both m1 m2 (Rabs (w2 - w1)) (Noise.T E) * (form n (t_cI (x_st x0)) (fun j => braket v (opQ h j) w) / Qf).
Proof.
move=> Hq Hr; have [es [Est Ec EC Ed]] := leave_run kept session.
have ds : diag_sm eigs argsort uu kk (w_s (final (mkW s u x0) tr)) (w_x (final (mkW s u x0) tr)) = (x, Ok dr) by rewrite es.
have [A [HA' ->]] := C61_capacitive built_ok session (leave_updates kept session) ds HT levels_ok Hr apart warm.
congr (_ * _); have [B' [HB <-]] := C94_capacitors.
rewrite -/xf in HA' *; rewrite big_distrl /=; apply: eq_big_In => -[e c] He.
have He0 : List.In (e, c) (capacitors s x0) by move: He; rewrite /capacitors Ed.
have [f [Ef <-]] := Hq _ He0; have [els Hels] := cap_edge He.
have Nf : q_cap qf c <> None by rewrite Ef.
have -> : B' e = A e by have := HA' e c He Nf; rewrite (HB e els) => [[<-]|] //; have [_ _ _ Edf] := loss_frame; rewrite -Edf.
by rewrite Ef /= mulrAC.
Qed.

Theorem C94_inductive both : (forall k, List.In k (c_keys_ind (x_c x0)) -> q_ind qf k.1.2 (Rabs (w2 - w1)) (Noise.T E) = Some Qf) ->
  dec_rate E s qf x (Some DInd) m1 m2 both = Ok (Some r) ->
  r = weight both m1 m2 (Rabs (w2 - w1)) (Noise.T E) * (form n (t_lT (x_st x0)) (fun j => braket v (opPhi h j) w) / Qf).
Proof.
move=> Hq Hr; have [es [Est Ec EC Ed]] := leave_run kept session.
have ds : diag_sm eigs argsort uu kk (w_s (final (mkW s u x0) tr)) (w_x (final (mkW s u x0) tr)) = (x, Ok dr) by rewrite es.
have [A [HA' ->]] := C61_inductive built_ok session (leave_updates kept session) ds HT levels_ok Hr apart warm.
congr (_ * _); have [B' [HB <-]] := C94_inductors.
rewrite -/xf in HA' *; rewrite big_distrl /=; apply: eq_big_In => -[[e el] b] He.
have He0 : List.In (e, el, b) (c_keys_ind (x_c x0)) by move: He; rewrite Ec.
rewrite Hq //; have [lo [st0 [k' [[El _ _ _ _] _]]]] := loss_facts.
have [els Hels] := ind_edge _ _ _ _ _ _ _ _ _ _ El He0.
have -> : B' e = A e by have := HA' _ He; rewrite (HB e els) //= => -[->].
by rewrite /= invfM [Qf^-1 * _]mulrC mulrAC.
Qed.

(** A photon given off, or taken up, by a mode: its rate is frequency over quality factor
    times photons times occupation of the environment (plus one when given off), whether the
    losses are those of the capacitors or of the inductors. *)
Let occ := Rplus (occupation (Rabs (w2 - w1)) (Noise.T E)) (if Z.ltb m2 m1 then R1 else R0).
Lemma loss_weight : weight false m1 m2 (Rabs (w2 - w1)) (Noise.T E) = Rmult (IZR (Zpos (xO xH))) occ.
Proof. by rewrite /weight /occ; case: Z.ltb; rewrite ?Rplus_0_r. Qed.
Theorem C94_photon_capacitive :
  (forall k, List.In k (capacitors s x0) -> exists f, q_cap qf k.2 = Some f /\ f (Rabs (w2 - w1)) = Qf) ->
  dec_rate E s qf x (Some DCap) m1 m2 false = Ok (Some r) ->
  r = t_om (x_st x0) i * INR (maxn (p i) (q i)) * occ / Qf.
Proof.
move=> Hq Hr; rewrite (C94_capacitive Hq Hr) loss_weight C94_photon_capacitors.
exact: photon_rate.
Qed.
Theorem C94_photon_inductive :
  (forall k, List.In k (c_keys_ind (x_c x0)) -> q_ind qf k.1.2 (Rabs (w2 - w1)) (Noise.T E) = Some Qf) ->
  dec_rate E s qf x (Some DInd) m1 m2 false = Ok (Some r) ->
  r = t_om (x_st x0) i * INR (maxn (p i) (q i)) * occ / Qf.
Proof.
move=> Hq Hr; rewrite (C94_inductive Hq Hr) loss_weight C94_photon_inductors.
exact: photon_rate.
Qed.
End Loss.
Print Assumptions C94_capacitors.
Print Assumptions C94_inductors.
Print Assumptions C94_no_photon.
Print Assumptions C94_photon_capacitors.
Print Assumptions C94_photon_inductors.
Print Assumptions C94_capacitive.
Print Assumptions C94_inductive.
Print Assumptions C94_photon_capacitive.
Print Assumptions C94_photon_inductive.

(** An oscillator of capacitance 1 and inductance l^2 with three states: between one and two
    photons both sums are 1/l. *)
Definition basis (a : nat) : cvec := fun b => (b == a)%:R.
Example C94_case disp optim l lobj u : Rlt 0 l -> exists x0 tr,
  [/\ construct optim (lc_or l) (lc_store l) lobj "junctions" lc_dict = Some (Ok x0),
      run disp optim (mkW (lc_store l) u x0) [:: SetTrunc (Some [:: 3%N])] = Some tr &
      let h := hof (w_x (final (mkW (lc_store l) u x0) tr)) in
      form 1 (t_cI (x_st x0)) (fun j => braket (basis 1) (opQ h j) (basis 2)) = l^-1 /\
      form 1 (t_lT (x_st x0)) (fun j => braket (basis 1) (opPhi h j) (basis 2)) = l^-1].
Proof.
move=> l0; have [x0 [Ex n1 ch ki]] := lc_construct optim lobj l0; exists x0.
have [c [Ec _ EC EL _]] := lc_lcwb optim lobj l0.
have [n' [c' [B [st [[st0 [El _ _ _]] [En E0]]]]]] := constructP Ex.
have nn : n' = 1%N by move: En => /= -[]; lia.
have cc : x_c x0 = c by move: El; rewrite nn Ec E0 => -[->].
have lp := lc_pos l0.
have EMC : toM 1 1 (c_C c) = toM 1 1 eye by apply/matrixP => i j; rewrite !mxE !ord1 EC.
have EML : toM 1 1 (c_L c) = toM 1 1 (dg (fun=> l^-1 * l^-1)) by apply/matrixP => i j; rewrite !mxE !ord1 EL.
have root : root_of (toM 1 1 (c_C c)) (toM 1 1 eye) by rewrite EMC toM_eye; split; rewrite ?trmx1 ?mulmx1.
have lroot : root_of (toM 1 1 (c_L c)) (toM 1 1 (dg (fun=> l^-1))).
  rewrite EML !toM_dg; split; first exact: tr_diag_mx.
  by rewrite mulmx_diag; congr diag_mx; apply/rowP => i; rewrite !mxE.
have svd : svd_of (toM 1 1 (dg (fun=> l^-1)) *m invmx (toM 1 1 eye)) (toM 1 1 eye) (toM 1 1 eye) (toV 1 (fun=> l^-1)).
  rewrite toM_eye toM_dg; split; rewrite ?trmx1 ?invmx1 ?mulmx1 ?mul1mx //.
  by move=> i; rewrite mxE; apply: Rlt_le.
case Er: (run disp optim (mkW (lc_store l) u x0) [:: SetTrunc (Some [:: 3%N])]) => [tr|]; last first.
  by move: Er; rewrite /run /step; case: set_trunc.
exists tr; split=> //.
have xm : x_m (w_x (final (mkW (lc_store l) u x0) tr)) = [:: 3%N].
  move: Er => /=; rewrite /set_trunc n1 /= ch /=; by case: mem_err => [e|] [<-].
have wired : proper_dict (x_n x0) lc_dict by rewrite n1 => e els [[<- _]|//]; split=> /=; lia.
have node : node_count (List.map fst lc_dict) = Ok (Z.of_nat (x_n x0)) by rewrite n1.
have HC : root_of (toM (x_n x0) (x_n x0) (c_C (x_c x0))) (toM (x_n x0) (x_n x0) (o_croot (lc_or l))) by rewrite cc n1.
have HL : root_of (toM (x_n x0) (x_n x0) (c_L (x_c x0))) (toM (x_n x0) (x_n x0) (dg (fun=> l^-1))) by rewrite cc n1.
have HA : svd_of (toM (x_n x0) (x_n x0) (dg (fun=> l^-1)) *m invmx (toM (x_n x0) (x_n x0) (o_croot (lc_or l))))
  (toM (x_n x0) (x_n x0) eye) (toM (x_n x0) (x_n x0) (o_U (lc_or l))) (toV (x_n x0) (o_D0 (lc_or l))) by rewrite n1.
have [lo [st1 [k [[_ _ _ nf _] _]]]] := loss_facts Ex node HC HL HA; rewrite n1 in nf.
have := nf1_charge nf (isT : (0 < 1)%N); rewrite ch => /esym /negbFE ik.
have om : t_om (x_st x0) 0%N = l^-1 by have [_ _ _ _ [_ [_ [_ [_ ->]]]]] := nf; rewrite ?ik.
have at_ a : (a < 3)%N -> legal (nth 0%N [:: 3%N]) (fun=> a) (x_n x0) /\ only_at (posn (nth 0%N [:: 3%N]) (fun=> a) (x_n x0)) (\prod_(k < x_n x0) nth 0 [:: 3] k)%N (basis a).
  move=> ha; rewrite n1; split; first by case.
  rewrite /= big_ord1 /=; split; first by rewrite /basis mul0n add0n eqxx /modulus2 /= RplusE expr1n expr0n addr0.
  by move=> b _; rewrite /basis mul0n add0n => /negbTE ->.
have more : one_more (x_n x0) (fun=> 1%N) (fun=> 2%N) 0 \/ one_more (x_n x0) (fun=> 2%N) (fun=> 1%N) 0.
  by left; split=> // -[|j]; rewrite n1.
have half : halfR (l^-1) * INR (maxn 1 2) = l^-1 by rewrite /halfR /=; exact: half_two.
have [sv sw] := (at_ 1%N isT, at_ 2%N isT); rewrite -xm in sv sw.
have har : (0 < x_n x0)%N /\ ~~ is_charge (x_st x0) 0 by rewrite n1 ch.
have P1 := C94_photon_capacitors Ex Er isT node HC HL HA sv sw har more.
have P2 := C94_photon_inductors Ex Er isT node HC HL HA sv sw har more.
by split; rewrite ?n1 om half in P1 P2.
Qed.

(** P_Order.v -- C97: more capacitance lowers the energies of circuits of islands. *)
From Coq Require Import Reals ZArith Lia Lra String List.
From Verif.Model Require Import Base Units Settings Edge Elements LCWB Rounding Accuracy HamConst.
From Verif.Spec Require Import GraphSpec CircuitSpec ThermalSpec.
From Verif.Proofs Require Import ElementsProofs AccProofs LCWBProofs OneNode.
From mathcomp Require Import all_ssreflect all_algebra.
From mathcomp Require Import complex.
From Verif.Numerics Require Import RStruct Bridge.
From Verif.Model Require Import FluxDist Op Transform Ham Diag CircuitSM.
From Verif.Spec Require Import OpSpec TransSpec SymmetrySpec OneNodeSpec PerturbSpec LevelsSpec SessionSpec LossSpec OrderSpec.
From Verif.Proofs Require Import OpProofs HamProofs HamProofs2 HamProofs6 MinMaxProofs ExpProofs2 TransProofs TransProofs4 OneNodeTrans OneNodeHam ChargeShiftProofs HamProofs5.
From Verif.Proofs Require Import SMProofs SMProofs2 SMProofs3 LossSession CapCase OrderProofs OrderProofs2.
From Verif.Properties Require Import P_OneNode.

Set Implicit Arguments.
Unset Strict Implicit.
Unset Printing Implicit Defensive.
Import GRing.Theory.
Local Open Scope ring_scope.
Local Open Scope complex_scope.

(** Operators of one size with ordered expectation values have ordered energies. *)
Lemma expect_order A A' E E' k : dim A' = dim A -> (forall u, Rle (expect A' u) (expect A u)) ->
  energies A E -> energies A' E' -> (k < dim A)%N -> Rle (E' k) (E k).
Proof.
move=> dA bl HE HE' hk; pose J (i j : nat) : C := if i == j then 1 else 0.
have JE u a : (a < dim A)%N -> apply_to (dim A) J u a = u a.
  move=> ha; rewrite /apply_to (bigD1 (Ordinal ha)) //= /J eqxx mul1r big1 ?addr0 // => b ne.
  by rewrite ifF ?mul0r //; apply/negbTE; rewrite eq_sym -(inj_eq val_inj) in ne.
suff P : Rle (E' k) (E k + 0) by move: P; rewrite ?addr0 ?Rplus_0_r.
apply: (minmax (J := J) HE HE') => // [u|u|]; last by rewrite dA.
  by rewrite /weight dA; congr complex.Re; apply: eq_bigr => a _; rewrite JE.
rewrite ?mul0r ?Rmult_0_l ?addr0 ?Rplus_0_r; apply: Rle_trans (bl u); apply: Req_le; rewrite /expect dA; congr complex.Re.
by apply: eq_bigr => a _; rewrite JE //; congr (_ * _); apply: eq_bigr => b _; rewrite JE.
Qed.

(** Two sets of attributes with the same charge states, gate charges and couplings to the
    junctions, the same junctions and external phases, and no inductor: a smaller inverse
    capacitance matrix gives smaller energies. *)
Theorem C97_levels disp h h' val val' loops loops' B B' ks A A' E E' k :
  (forall m a, dim (disp m a) = m) -> same_islands h h' -> k_ind ks = [::] ->
  hamiltonian disp h val loops B ks = Ok A -> hamiltonian disp h' val' loops' B' ks = Ok A' ->
  (forall j, List.In j (k_jj ks) -> val' j.1.1.2 = val j.1.1.2 /\ ext_flux loops' B' j.1.2 = ext_flux loops B j.1.2) ->
  symmetric (hn h) (t_cI (h_st h)) -> symmetric (hn h) (t_cI (h_st h')) ->
  below (hn h) (t_cI (h_st h')) (t_cI (h_st h)) ->
  energies A E -> energies A' E' -> (k < dim A)%N -> Rle (E' k) (E k).
Proof. by move=> *; eapply islands_sink; eauto. Qed.
Print Assumptions C97_levels.

(** Larger capacitances give a larger capacitance matrix, and in the same coordinates a
    smaller inverse. *)
Theorem C97_matrix optim s s' fd fd' n lobj lobj' d c c' :
  get_LCWB optim s fd (Z.of_nat n) lobj d = Ok c -> get_LCWB optim s' fd' (Z.of_nat n) lobj' d = Ok c' -> proper_dict n d ->
  (forall e els, List.In (e, els) d -> Rle 0 (edge_cap s els) /\ Rle (edge_cap s els) (edge_cap s' els)) ->
  below n (c_C c) (c_C c') /\
  forall ci ci', inv n (c_C c) = Ok ci -> inv n (c_C c') = Ok ci' -> below n ci' ci.
Proof.
move=> H H' w le; have le1 e els (h : List.In (e, els) d) := (le _ _ h).1; have le2 e els (h : List.In (e, els) d) := (le _ _ h).2.
have bl := matrix_below H H' w le2; split=> // ci ci' /invP [u E] /invP [u' E'] y.
rewrite !quad_qf E E'; apply: (qf_inverse u u') => //; [exact: matrix_sym H w|exact: matrix_sym H' w|exact: matrix_pos H w le1].
Qed.
Print Assumptions C97_matrix.

(** ** Two circuits of one netlist *)
Lemma made_facts disp optim d n o1 s1 l1 f1 y u1 cs1 tr1 : node_count (List.map fst d) = Ok (Z.of_nat n) ->
  construct optim o1 s1 l1 f1 d = Some (Ok y) -> all leaves cs1 ->
  run disp optim (mkW s1 u1 y) cs1 = Some tr1 ->
  let z := w_x (final (mkW s1 u1 y) tr1) in x_n z = n ->
  [/\ good disp z, get_LCWB optim s1 f1 (Z.of_nat n) l1 d = Ok (x_c z), frame n (c_C (x_c z)) (x_st z) &
      toM n n (c_C (x_c z)) \in unitmx].
Proof.
move=> nodes Ec lv Er z nz; have [_ [est ec _ _]] := leave_run lv Er; rewrite -/z in est ec.
have G0 : good disp (w_x (mkW s1 u1 y)) := good_construct disp Ec.
have G : good disp z := good_run G0 Er (leave_updates lv Er).
have [n1 [c [B [st [Hb [En Ey]]]]]] := constructP Ec.
have n1E : n1 = n by move: En; rewrite nodes => -[H]; lia.
subst n1; have [_ tn _] := built_size Hb.
have [st0 [EL _ EI Et]] := Hb.
have fin : finish_modes optim st = st.
  by apply: finish_id; rewrite tn -nz /x_n est Ey.
have cE : x_c z = c by rewrite ec Ey.
have sE : x_st z = st by rewrite est Ey /= fin.
rewrite cE sE; split=> //.
  by apply: (transform_frame ((transform_runE _ _ _).1 Et)); exact: (frame0 EI).
by move: EI; rewrite /t_init; case Ei: inv => [ci|//] _; have [] := invP Ei.
Qed.

Section Netlist.
Variables (disp : nat -> C -> op) (optim : bool) (o o' : oracle) (s s' : store) (lobj lobj' : nat -> lrec) (fd fd' : string).
Variables (d : seq (edge * seq nat)) (n : nat) (x0 y0 : circ) (u u' : ustate) (cs cs' : seq call) (tr tr' : seq (world * res unit)).
Hypothesis disp_dim : forall m a, dim (disp m a) = m.
(** The same elements on the same edges; calls that set truncation numbers, charges and
    units, and compute. *)
Hypothesis made : construct optim o s lobj fd d = Some (Ok x0).
Hypothesis made' : construct optim o' s' lobj' fd' d = Some (Ok y0).
Hypothesis calls : all leaves cs /\ all leaves cs'.
Hypothesis session : run disp optim (mkW s u x0) cs = Some tr.
Hypothesis session' : run disp optim (mkW s' u' y0) cs' = Some tr'.
Let x := w_x (final (mkW s u x0) tr).
Let x' := w_x (final (mkW s' u' y0) tr').
(** No mode has been removed, and the netlist has [n] nodes besides ground. *)
Hypothesis nodes : node_count (List.map fst d) = Ok (Z.of_nat n).
Hypothesis whole : x_n x = n /\ x_n x' = n.
Hypothesis wired : proper_dict n d.
(** Junctions and capacitors only; the junctions and their external phases agree. *)
Hypothesis kinds : ekind s' = ekind s.
Hypothesis no_inductor : forall e els el, List.In (e, els) d -> List.In el els -> ekind s el <> KInd.
Hypothesis junctions : forall j, List.In j (c_keys_jj (x_c x)) -> evalue s' j.1.1.2 = evalue s j.1.1.2 /\
  ext_flux [seq lvalue s' l | l <- c_loops (x_c x')] (x_B x') j.1.2 = ext_flux [seq lvalue s l | l <- c_loops (x_c x)] (x_B x) j.1.2.
(** The islands are the same nodes with the same charge states and gate charges. *)
Hypothesis islands_agree : same_islands (hof x) (hof x').
Hypothesis coordinates : forall i j, (i < n)%N -> (j < n)%N -> t_R (x_st x') i j = t_R (x_st x) i j.
(** More capacitance. *)
Hypothesis more : forall e els, List.In (e, els) d -> Rle 0 (edge_cap s els) /\ Rle (edge_cap s els) (edge_cap s' els).

Theorem C97_netlist A A' E E' k : (hamil s x).2 = Ok A -> (hamil s' x').2 = Ok A' ->
  energies A E -> energies A' E' -> (k < dim A)%N -> Rle (E' k) (E k).
Proof.
have [lv lv'] := calls; have [w w'] := whole.
have [G EL f uC] := made_facts nodes made lv session w; have [G' EL' f' uC'] := made_facts nodes made' lv' session' w'.
rewrite -/x in G EL f uC; rewrite -/x' in G' EL' f' uC'.
have [-> _] := hamilE s G; have [-> _] := hamilE s' G'; rewrite /ham_of => EA EA' HE HE' hk.
have [kj ki] := same_keys EL EL' kinds; rewrite kj ki in EA'.
have sC := matrix_sym EL wired; have sC' := matrix_sym EL' wired.
have hnE : hn (hof x) = n by rewrite /hn /hof /=; exact: w.
have le1 e els (h : List.In (e, els) d) := (more h).1; have le2 e els (h : List.In (e, els) d) := (more h).2.
apply: (C97_levels disp_dim islands_agree _ EA EA' _ _ _ _ HE HE' hk); rewrite ?hnE.
- exact: no_ind_keys EL no_inductor.
- exact: junctions.
- exact: frame_sym f sC.
- exact: frame_sym f' sC'.
apply: (frame_below f f' _ uC uC' sC sC' (matrix_pos EL wired le1) (matrix_below EL EL' wired le2)).
by apply/matrixP => i j; rewrite !mxE; apply: coordinates.
Qed.
End Netlist.
Print Assumptions C97_netlist.

Lemma Re_add (x y : C) : complex.Re (x + y) = complex.Re x + complex.Re y.
Proof. by case: x y => ? ? []. Qed.

(** ** One island *)
Lemma charging_le c c' ng m : Rlt 0 c -> Rle c c' -> Rle (charging c' ng m) (charging c ng m).
Proof.
move=> p le; rewrite /charging /Rdiv.
apply: Rmult_le_compat_r; first by apply: Rlt_le; apply: Rinv_0_lt_compat; exact: ElementsProofs.hbar_pos.
apply: Rmult_le_compat_r; first exact: Rle_0_sqr.
apply: Rmult_le_compat_l; first exact: Rle_0_sqr.
by apply: Rinv_le_contravar; lra.
Qed.

(** The textbook island: with [c <= c'] every energy is lower. *)
Lemma island_order A A' c c' ng jjs m E E' k : Rlt 0 c -> Rle c c' -> dim A = m -> dim A' = m ->
  (forall a b, (a < m)%N -> (b < m)%N -> ent A a b = island c ng jjs m a b) ->
  (forall a b, (a < m)%N -> (b < m)%N -> ent A' a b = island c' ng jjs m a b) ->
  energies A E -> energies A' E' -> (k < m)%N -> Rle (E' k) (E k).
Proof.
move=> p le dA dA' eA eA' HE HE' hk; apply: (expect_order _ _ HE HE'); rewrite ?dA ?dA' // => u.
have step (z : C) a (y y' : R) : Rle y' y -> Rle (complex.Re ((u a)^* * (y'%:C * u a + z))) (complex.Re ((u a)^* * (y%:C * u a + z))).
  have E1 (v : R) : complex.Re ((u a)^* * (v%:C * u a + z)) = v * nrm (u a) + complex.Re ((u a)^* * z).
    rewrite mulrDr mulrCA nrmE -[nrm (u a) in RHS]/(complex.Re (nrm (u a))%:C) -Re_scale.
    by move: ((u a)^* * z) (v%:C * _) => [? ?] [? ?].
  move=> h; rewrite !E1; apply: Rplus_le_compat_r; apply: Rmult_le_compat_r => //.
  by apply/RleP; exact: nrm_ge0.
rewrite /expect dA dA' !Re_sum.
elim/big_ind2: _ => [|x1 x2 y1 y2 h1 h2|a _]; [exact: Rle_refl|exact: Rplus_le_compat|].
have split_row (B : op) cc : (forall a b, (a < m)%N -> (b < m)%N -> ent B a b = island cc ng jjs m a b) ->
   \sum_(j < m) ent B a j * u j = (charging cc ng (Rminus (INR a) (centre m)))%:C * u a +
   \sum_(j < m) (- \sum_(i <- jjs) (Rdiv i.1 2)%:C * (if (a : nat) == j.+1 then expi i.2 else if (j : nat) == a.+1 then (expi i.2)^* else 0)) * u j.
  move=> eB; rewrite (bigD1 a) //= [in RHS](bigD1 a) //= addrA; congr (_ + _).
    by rewrite eB // /island eqxx mulrBl mulNr.
  apply: eq_bigr => j ne; rewrite eB // /island ifF ?sub0r //; apply/negbTE; by rewrite eq_sym.
by rewrite (split_row _ _ eA) (split_row _ _ eA'); apply: step; exact: charging_le.
Qed.

(** Junctions and capacitors between one node and ground, and the same with more
    capacitance: the junctions, their external phases, the gate charge and the charge
    states agree. *)
Theorem C97_island optim s s' fd fd' lobj lobj' els c c' st0 st0' st st' croot croot' lroot lroot' X X' U U' D0 D0' eigL eigL'
    tries tries' fuel fuel' sv sv' order order' draw draw' disp m ng loops loops' B B' A A' E E' k :
  exponential disp ->
  constructed optim s fd lobj els c st0 st croot lroot X U D0 eigL tries fuel sv order draw ->
  constructed optim s' fd' lobj' els c' st0' st' croot' lroot' X' U' D0' eigL' tries' fuel' sv' order' draw' ->
  existsb (is_jj s) els -> existsb (is_ind s) els = false -> existsb (is_jj s') els -> existsb (is_ind s') els = false ->
  part_list (is_jj s') s' els (ext_flux loops' B') = part_list (is_jj s) s els (ext_flux loops B) ->
  Rle (edge_cap s els) (edge_cap s' els) ->
  one_ham optim s c st disp m ng loops B = Ok A -> one_ham optim s' c' st' disp m ng loops' B' = Ok A' ->
  energies A E -> energies A' E' -> (k < m)%N -> Rle (E' k) (E k).
Proof.
move=> ex K K' jj ni jj' ni' same le EA EA' HE HE' hk.
have [_ [A1 E1 [dA eA]]] := C90_island m ng loops B ex K jj ni.
have [_ [A2 E2 [dA' eA']]] := C90_island m ng loops' B' ex K' jj' ni'.
move: E1 E2; rewrite EA EA' => -[e1] [e2]; subst A1 A2; rewrite same in eA'.
have [EG EI [HC _] _ _] := K; have [cE _] := o_mats _ _ _ _ _ _ EG.
have p : Rlt 0 (edge_cap s els) by rewrite -cE; exact: (c_pos EI HC).
exact: (island_order p le dA dA' eA eA' HE HE' hk).
Qed.
Print Assumptions C97_island.

(** ** Ground energies are concave in the energies of the junctions *)
Lemma ground_below A E u : (0 < dim A)%N -> energies A E -> Rle (E 0%N * weight (dim A) u) (expect A u).
Proof.
move=> n0 [v [As EV ON]].
have [W X] := combination (c := fun j => PerturbSpec.dot (dim A) (v j) u) EV ON (fun a ha => complete u ON ha).
rewrite /weight /expect W X !ReR; apply/RleP; rewrite RmultE mulr_sumr; apply: Num.Theory.ler_sum => i _.
rewrite [E 0%N * _]mulrC; apply: Num.Theory.ler_wpmul2l; first exact: nrm_ge0.
by apply/RleP; apply: As; rewrite leq0n ltn_ord.
Qed.

Theorem C97_concave disp h val0 val1 val loops B ks A0 A1 A E0 E1 E t :
  (forall m a, dim (disp m a) = m) -> Rle 0 t -> Rle t 1 ->
  hamiltonian disp h val0 loops B ks = Ok A0 -> hamiltonian disp h val1 loops B ks = Ok A1 ->
  hamiltonian disp h val loops B ks = Ok A ->
  (forall j, List.In j (k_ind ks) -> val0 j.1.2 = val j.1.2 /\ val1 j.1.2 = val j.1.2) ->
  (forall j, List.In j (k_jj ks) -> val j.1.1.2 = Rplus (Rmult (Rminus 1 t) (val0 j.1.1.2)) (Rmult t (val1 j.1.1.2))) ->
  energies A0 E0 -> energies A1 E1 -> energies A E -> (0 < dim A)%N ->
  Rle (Rplus (Rmult (Rminus 1 t) (E0 0%N)) (Rmult t (E1 0%N))) (E 0%N).
Proof.
move=> D t0 t1 H0 H1 H ind jj HE0 HE1 HE n0.
have [d0 _] := hamiltonian_ok D H0; have [d1 _] := hamiltonian_ok D H1; have [dA _] := hamiltonian_ok D H.
have mix a b : ent A a b = (1 - t)%:C * ent A0 a b + t%:C * ent A1 a b.
  rewrite (hamiltonian_entry _ _ H0) (hamiltonian_entry _ _ H1) (hamiltonian_entry _ _ H).
  set L := oent _ _ _.
  set I := \sum_(k <- k_ind ks) _; set I0 := \sum_(k <- k_ind ks) _; set I1 := \sum_(k <- k_ind ks) _.
  have e0 : I0 = I by apply: eq_sum_In => j /ind [-> _].
  have e1 : I1 = I by apply: eq_sum_In => j /ind [_ ->].
  have -> : \sum_(k <- k_jj ks) (val k.1.1.2)%:C * jjent disp h (ext_flux loops B k.1.2) k.2 a b =
     (1 - t)%:C * (\sum_(k <- k_jj ks) (val0 k.1.1.2)%:C * jjent disp h (ext_flux loops B k.1.2) k.2 a b) +
     t%:C * (\sum_(k <- k_jj ks) (val1 k.1.1.2)%:C * jjent disp h (ext_flux loops B k.1.2) k.2 a b).
    rewrite !mulr_sumr -big_split /=; apply: eq_sum_In => j /jj ->.
    by rewrite cRD !cRM mulrDl !mulrA.
  rewrite e0 e1 {e0 e1 I0 I1} !mulrBr addrACA -mulrDl -cRD subrK mul1r.
  by rewrite opprD.
have dA0 : dim A0 = dim A by rewrite d0 dA. have dA1 : dim A1 = dim A by rewrite d1 dA.
have [v LV] := HE; have [_ EV ON] := LV.
have me : expect A (v 0%N) = E 0%N.
  rewrite /expect; have -> : \sum_(i < dim A) (v 0%N i)^* * (\sum_(j < dim A) ent A i j * v 0%N j) = (E 0%N)%:C.
    rewrite (eq_bigr (fun i : 'I_(dim A) => (E 0%N)%:C * ((v 0%N i)^* * v 0%N i))); last by move=> i _; rewrite EV // mulrCA.
    by rewrite -mulr_sumr ON // mulr1.
  by [].
have me1 : weight (dim A) (v 0%N) = 1 by rewrite /weight ON.
have ex : expect A (v 0%N) = (1 - t) * expect A0 (v 0%N) + t * expect A1 (v 0%N).
  rewrite /expect dA0 dA1 -!Re_scale -[RHS]Re_add; congr complex.Re.
  rewrite !mulr_sumr -big_split /=; apply: eq_bigr => i _.
  rewrite ![_%:C * ((v 0%N i)^* * _)]mulrCA -mulrDr; congr (_ * _); rewrite !mulr_sumr -big_split /=.
  by apply: eq_bigr => j _; rewrite mix mulrDl !mulrA.
rewrite -me ex; apply: Rplus_le_compat; apply: Rmult_le_compat_l; rewrite ?RminusE -?RminusE; try lra.
- by have := ground_below (v 0%N) (ltac:(by rewrite dA0) : (0 < dim A0)%N) HE0; rewrite dA0 me1 Rmult_1_r.
- by have := ground_below (v 0%N) (ltac:(by rewrite dA1) : (0 < dim A1)%N) HE1; rewrite dA1 me1 Rmult_1_r.
Qed.
Print Assumptions C97_concave.

(** ** Without junctions the capacitance has no effect *)
(** One capacitor between node 1 and ground, three charge states: the charging energy is that
    of one farad, whatever the capacitance. *)
Theorem C97_refuted disp optim lobj u r : (forall m a, dim (disp m a) = m) -> Rlt 0 r -> exists x0 x A,
  [/\ construct optim (cap_or r) (cap_store r) lobj "junctions" cap_dict = Some (Ok x0),
      run disp optim (mkW (cap_store r) u x0) [:: SetTrunc (Some [:: 2%N])] = Some [:: (mkW (cap_store r) u x, Ok tt)],
      (hamil (cap_store r) x).2 = Ok A /\ dim A = 3%N &
      forall a b, (a < 3)%N -> (b < 3)%N -> ent A a b =
        if a == b then (charging 1 0 (Rminus (INR a) 1))%:C else 0].
Proof.
move=> D r0; have [x0 [E0 [n0 n00] ch [HR [HC _]] [Ed [Ei Ej]]]] := cap_construct r0 optim lobj.
have [x1 [Es G1 [est ec] [eC ed] [n1 m1 g1]]] := cap_set disp E0 n0 ch.
have [A EA] : exists A, (hamil (cap_store r) x1).2 = Ok A.
  have [-> _] := hamilE (cap_store r) G1; apply: hamiltonian_total => /=; first by rewrite m1.
    by rewrite /hn -[t_n _]/(x_n x1) n1.
  by rewrite ec Ei.
exists x0, x1, A; split=> //; first by cbn [run step w_x w_s w_u]; rewrite Es.
  split=> //; move: EA; have [-> _] := hamilE (cap_store r) G1; rewrite /ham_of => EA.
  by have [-> _] := hamiltonian_ok D EA; rewrite /total /hn -[t_n _]/(x_n x1) n1 big_ord1 /hm -[h_m _]/(x_m x1) m1.
move=> a b ha hb; move: EA; have [-> _] := hamilE (cap_store r) G1; rewrite /ham_of => EA.
have n1' : hn (hof x1) = 1%N by rewrite /hn -[t_n _]/(x_n x1).
have Er : run disp optim (mkW (cap_store r) u x0) [:: SetTrunc (Some [:: 2%N])] = Some [:: (mkW (cap_store r) u x1, Ok tt)].
  by cbn [run step w_x w_s w_u]; rewrite Es.
have [_ _ [_ _ f] _] := made_facts (d := cap_dict) (n := 1) (cs1 := [:: SetTrunc (Some [:: 2%N])]) erefl E0 isT Er n1.
have [? [? [? [? [_ [_ Ex]]]]]] := constructP E0.
have cC : c_C (x_c x1) 0%N 0%N = r * r by rewrite ec -HC Ex.
have rn : r != 0 by apply/eqP => e; apply: (Rlt_not_eq _ _ r0).
have cI : t_cI (x_st x1) 0%N 0%N = 1.
  move: f; rewrite -[w_x _]/x1 !one_mx cC est HR invmx_scalar tr_scalar_mx -!scalar_mxM.
  move/matrixP/(_ 0 0); rewrite !mxE eqxx !mulr1n => ->.
  by rewrite invfM mulrA mulfV // mul1r mulVf.
have ch1 : hcharge (hof x1) 0 by rewrite /hcharge /= est.
rewrite (hamiltonian_entry _ _ EA) [k_ind _]/= [k_jj _]/= ec Ei Ej !big_nil subr0 addr0 LC1 // ch1 QQ1 // [t_cI _ _ _]cI.
have hm1 : hm (hof x1) 0 = 3%N by rewrite /hm -[h_m _]/(x_m x1) m1.
have -> : ent (omul (charge_op_isolated (hof x1) 0) (charge_op_isolated (hof x1) 0)) a b =
     if a == b then (charge_unit%:C * (Rminus (charge_at 3 a) 0)%:C) ^+ 2 else 0.
  have ha' : (a < hm (hof x1) 0)%N by rewrite hm1.
  rewrite /= dimQ (bigD1 (Ordinal ha')) //= big1 ?addr0.
    by rewrite !Qdiag ?hm1 // g1 eqxx; case: eqP => [->|_]; rewrite ?mulr0 // expr2.
  by move=> i ne; rewrite [X in X * _]Qdiag // eq_sym -val_eqE /= in ne *; rewrite (negbTE ne) mul0r.
case: eqP => _; last by rewrite mulr0.
rewrite expr2 -!cRM; congr (_%:C); have -> : charge_at 3 a = Rminus (INR a) 1 by rewrite /charge_at /=; lra.
have := charge_sq 1 (Rminus (INR a) 1) 0 (ltac:(lra)); rewrite Rinv_1; exact.
Qed.
Print Assumptions C97_refuted.

(** ** Case: a junction of 3 rad/s with 1 F and with 4 F *)
Definition two2 : arr := fun _ _ => IZR 2.
Definition half : R := Rinv 2.
Lemma two_nz : IZR 2 <> R0. Proof. lra. Qed.
Lemma four_nz : IZR 4 <> R0. Proof. lra. Qed.
Lemma half_two : half * IZR 2 = 1. Proof. exact: (Rinv_l _ two_nz). Qed.
Lemma charge_total4 C L W st0 draw : W 0%N 0%N = 1 -> t_init 1 1 1 C L W = Ok st0 ->
  exists st, transform_hamil two2 (fun=> 0) eye (fun=> 0) 1 2 sv1 in_order draw st0 = Some (Ok st).
Proof.
move=> w1; rewrite /t_init; case: inv => [cI|//] [<-]; rewrite /transform_hamil /trans1 /=.
have mx : rmax 1 (fun=> 0) == 0 by rewrite /= eqxx.
have e0 : two2 0%N 0%N <> 0 by exact: two_nz.
have [cri Ei] := inv_some e0; rewrite Ei; have := inv1 Ei; rewrite {1}/two2 => cri1'.
have cri1 : cri 0%N 0%N = half.
  have h := half_two; rewrite mulrC in h; apply: (mulfI (x := IZR 2)); first by apply/eqP; exact: e0.
  by rewrite h.
rewrite /sing_locs /scale_of mx; set s1 := mmul _ _ _.
have s11 : s1 0%N 0%N = half by rewrite /s1 !mmul1 cri1 /tr /eye /dg /= sqrt_1 !mulr1.
have hp : Rlt 0 half by rewrite /half; lra.
have s10 : s1 0%N 0%N <> 0 by rewrite s11 => z; move: hp; rewrite z; exact: Rlt_irrefl.
have [s1i E1] := inv_some s10; rewrite E1 /=; set st1 := set_omega _.
have ch : is_charge st1 0 by rewrite /is_charge /st1 /set_omega /= /zero_diag /= Rmult_0_r sqrt_0.
have cm : charge_modes st1 = [:: 0%N] by rewrite /charge_modes /= ch.
have sel : kept_columns sv1 1 1 (tr W) = [:: 0%N].
  rewrite /kept_columns; have -> : nzcols 1 1 (tr W) = [:: 0%N].
    by rewrite /nzcols /= ifT //; apply/forallPn; exists ord0; rewrite /tr /= w1 oner_eq0.
  rewrite /sv1 /where_big /=; rewrite ifT //; apply/RltbP; rewrite Rabs_R1 /Rounding.tol; lra.
have wE : w_charge sv1 s1 st1 = [:: fun j => mmul 1 W s1 0%N (nth 0%N [:: 0%N] j)].
  by rewrite /w_charge cm /= sel.
have EA : exists s2 r2, [/\ attempt2 2 sv1 in_order s1 (draw 0%N) st1 = Some (Ok (s2, r2)) & s2 0%N 0%N = IZR 2].
  set w := (fun j => mmul 1 W s1 0%N (nth 0%N [:: 0%N] j)) in wE *.
  rewrite /attempt2 cm wE [basis_loop]lock /= -lock /=.
  have w0 : w 0%N = half by rewrite /w /= mmul1 w1 s11 mul1r.
  have vn : vnorm 1 w = half by rewrite /vnorm w0 Rplus_0_l; apply: sqrt_square; lra.
  set e := gs_resid 1 (fun k => w k / (Rplus (vnorm 1 w) gs_reg)) [::].
  have e0' : Rlt acc_gs (Rabs (e 0%N)).
    have -> : e 0%N = Rdiv half (Rplus half gs_reg) by rewrite /e /gs_resid big_nil subr0 w0 vn -RinvE.
    rewrite Rabs_pos_eq.
      apply: (Rmult_lt_reg_r (Rplus half gs_reg)); first by rewrite /gs_reg; lra.
      rewrite /Rdiv Rmult_assoc Rinv_l /acc_gs /gs_reg /half; lra.
    by apply: Rlt_le; apply: Rdiv_lt_0_compat; rewrite /gs_reg; lra.
  have IR : independent_rows in_order 1 [:: w] = ([:: 0%N], [:: fun k => e k / vnorm 1 e]).
    rewrite /independent_rows /in_order /= /gs_step [nth _ _ _]/= -/e ifT //.
    by have : any_big 1 e by rewrite /=; case: Rlt_dec.
  rewrite IR /=.
  have wn : w 0%N <> 0 by rewrite w0 => z; move: hp; rewrite z; exact: Rlt_irrefl.
  have [fi Ef] : exists fi, inv 1 (fun i => nth (fun=> 0) [:: w] i) = Ok fi.
    by apply: (@inv_some (fun i => nth (fun=> 0) [:: w] i)); rewrite /=.
  have f1 : fi 0%N 0%N = IZR 2.
    have := inv1 Ef; rewrite /= => h; apply: (mulfI (x := w 0%N)); first by apply/eqP.
    by rewrite h w0 half_two.
  rewrite Ef; have [r2 Er] : exists r2, inv 1 (tr (block_low 1 1 fi)) = Ok r2.
    by apply: inv_some; rewrite /tr /block_low /= f1; exact: two_nz.
  by rewrite Er; exists (block_low 1 1 fi), r2.
have [s2 [r2 [-> s21]]] := EA.
have gs : gs_successful st1 s2.
  rewrite /gs_successful /= ch /= /round_zero_one ch /= mmul1 s21 mmul1 w1 s11 mul1r half_two round1.
  by rewrite Rabs_R1 eqxx orbT.
rewrite gs; set st3 := set_wT _ _.
have ch3 : is_charge st3 0 by exact: ch.
rewrite /trans3 -[t_n st3]/1%N /= /scale3 ch3 /=.
have [r3 E3] : exists r3, inv 1 (tr (dg (fun k => if k == 0%N then 1 else 1))) = Ok r3.
  by apply: inv_some; rewrite /tr /dg /=; apply/eqP; rewrite oner_eq0.
by rewrite E3; eexists.
Qed.

(** The same junction, its capacitor 4 F. *)
Definition four_s : store :=
  mkStore (ekind one_s) (fun i => if i == 0%N then IZR 3 else if i == 2%N then IZR 4 else R1) (fun=> false) (fun=> true)
          (fun=> 2)%N (fun=> nil) (fun=> R0) (fun=> false) (fun=> true).
Lemma four_run i : exists c, get_LCWB false four_s "junctions" (Zpos xH) (fun=> mkL nil nil) [:: ((Z0, Zpos xH), [:: i])] = Ok c.
Proof.
refine (run_edges_total false four_s "junctions" 1%N [:: ((Z0, Zpos xH), [:: i])] (cst0 (fun=> mkL nil nil)) _ _).
- by move=> e els [[<- _]|[]]; split; [split|split; [split|]].
- move=> e els _ [el [_ [K Z]]]; move: K Z; rewrite /=; case: el => [|[|[|el]]] //= _ z; lra.
Qed.

Lemma charging_four m : charging 1 0 m = Rmult 4 (charging 4 0 m).
Proof. by rewrite /charging /Rdiv; field; have := hbar_pos; lra. Qed.

(** Construction ends when the capacitances add up to 4 F. *)
Lemma built4 s els c draw : get_LCWB false s "junctions" (Zpos xH) (fun=> mkL nil nil) [:: ((Z0, Zpos xH), els)] = Ok c ->
  edge_cap s els = IZR 4 -> existsb (is_jj s) els -> existsb (is_ind s) els = false ->
  exists st0 st, constructed false s "junctions" (fun=> mkL nil nil) els c st0 st two2 zero2 eye eye (fun=> 0) (fun=> 0) 1 2 sv1 in_order draw.
Proof.
move=> Ec cap4 jj ni; have [cE [lE [wE kE]]] := o_mats _ _ _ _ _ _ Ec.
have c4 : c_C c 0%N 0%N = IZR 4 by rewrite cE cap4.
have l0 : c_L c 0%N 0%N = 0 by rewrite lE; exact: no_ind0.
rewrite jj in wE; rewrite /junc_without_ind jj ni /= in kE.
have c0 : c_C c 0%N 0%N <> 0 by rewrite c4; exact: four_nz.
have [ci Ei] := inv_some c0.
have [st0 EI] : exists st0, t_init 1 (size (c_W c)) (c_njwi c) (c_C c) (c_L c) (rows (c_W c)) = Ok st0.
  by rewrite /t_init Ei; eexists.
have w1 : rows (c_W c) 0%N 0%N = 1 by rewrite wE.
have EI' := EI; rewrite {1}wE kE in EI'.
have [st Et] := charge_total4 draw w1 EI'; exists st0, st; split=> //.
- split; first by split; rewrite !toM1 /two2 ?tr_scalar_mx // -scalar_mxM c4; congr (_%:M); rewrite -RmultE; lra.
  by split; rewrite !toM1 /zero2 ?tr_scalar_mx // -scalar_mxM mulr0 l0.
- split; rewrite ?toM1 /eye /= ?tr_scalar_mx -?scalar_mxM ?mulr1 //.
    have -> : diag_mx (toV 1 (fun=> 0)) = 0%:M :> 'M[R]_1 by apply/matrixP => i j; rewrite !mxE !ord1 eqxx.
    by rewrite /zero2 invmx_scalar -!scalar_mxM mul0r mulr0 mul0r.
  by move=> i; rewrite mxE; exact: Rle_refl.
Qed.

Example C97_case disp draw ng B : exponential disp -> exists c c' st0 st0' st st' A A',
  [/\ constructed false one_s "junctions" (fun=> mkL nil nil) [:: 0%N] c st0 st eye zero2 eye eye (fun=> 0) (fun=> 0) 1 2 sv1 in_order draw,
      constructed false four_s "junctions" (fun=> mkL nil nil) [:: 0%N] c' st0' st' two2 zero2 eye eye (fun=> 0) (fun=> 0) 1 2 sv1 in_order draw,
      one_ham false one_s c st disp 3 ng [::] B = Ok A /\ one_ham false four_s c' st' disp 3 ng [::] B = Ok A',
      ent A 2 1 = ent A' 2 1 /\ (ng 0%N = 0 -> ent A 2 2 = (IZR 4)%:C * ent A' 2 2) &
      forall E E', energies A E -> energies A' E' -> forall k, (k < 3)%N -> Rle (E' k) (E k)].
Proof.
move=> ex; have [c [st0 [st [K [A EA [dA _]]]]]] := C90_island_case draw ng B ex.
have [c' Ec] := four_run 0.
have cap4 : edge_cap four_s [:: 0%N] = IZR 4 by rewrite /edge_cap /= /cap_of /=; exact: Rplus_0_r.
have cap1 : edge_cap one_s [:: 0%N] = IZR 1 by rewrite /edge_cap /= /cap_of /=; exact: Rplus_0_r.
have [st0' [st' K']] := built4 draw Ec cap4 isT erefl.
have [_ [A1 E1 [_ eA]]] := C90_island 3 ng [::] B ex K isT erefl.
have [_ [A' EA' [dA' eA']]] := C90_island 3 ng [::] B ex K' isT erefl.
move: E1; rewrite EA => -[e1]; subst A1.
exists c, c', st0, st0', st, st', A, A'; split=> //.
- split; first by rewrite eA // eA'.
  move=> g0; rewrite eA // eA' // /island /part_list /= !big_seq1 /= !mulr0 !subr0 cap1 cap4 g0.
  by rewrite -cRM; congr (_%:C); exact: charging_four.
move=> E E' HE HE' k hk; apply: (C97_island ex K K' _ _ _ _ _ _ EA EA' HE HE' hk) => //.
by rewrite cap1 cap4; apply: IZR_le.
Qed.

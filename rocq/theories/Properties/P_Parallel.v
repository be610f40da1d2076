(** P_Parallel.v -- C98: elements in parallel. *)
From Coq Require Import Reals ZArith Lia Lra String List FunctionalExtensionality.
From Verif.Model Require Import Base Units Settings Edge Elements LCWB Rounding Accuracy HamConst.
From Verif.Spec Require Import GraphSpec CircuitSpec ThermalSpec.
From Verif.Proofs Require Import ElementsProofs AccProofs LCWBProofs OneNode.

Lemma squid_re E p q : (E * cos p + E * cos q = 2 * E * cos ((p - q) / 2) * cos ((p + q) / 2))%R.
Proof.
  set (a := ((p + q) / 2)%R). set (b := ((p - q) / 2)%R).
  replace (cos p) with (cos (a + b)) by (f_equal; unfold a, b; field).
  replace (cos q) with (cos (a - b)) by (f_equal; unfold a, b; field).
  rewrite cos_plus, cos_minus. ring.
Qed.
Lemma squid_im E p q : (E * sin p + E * sin q = 2 * E * cos ((p - q) / 2) * sin ((p + q) / 2))%R.
Proof.
  set (a := ((p + q) / 2)%R). set (b := ((p - q) / 2)%R).
  replace (sin p) with (sin (a + b)) by (f_equal; unfold a, b; field).
  replace (sin q) with (sin (a - b)) by (f_equal; unfold a, b; field).
  rewrite sin_plus, sin_minus. ring.
Qed.
Lemma squid_sq E F p q : ((E * cos p + F * cos q) * (E * cos p + F * cos q) + (E * sin p + F * sin q) * (E * sin p + F * sin q) =
  E * E + F * F + 2 * E * F * cos (p - q))%R.
Proof.
  rewrite cos_minus. pose proof (sin2_cos2 p) as H. pose proof (sin2_cos2 q) as H'. unfold Rsqr in *.
  replace (E * E)%R with (E * E * (sin p * sin p + cos p * cos p))%R by (rewrite H; ring).
  replace (F * F)%R with (F * F * (sin q * sin q + cos q * cos q))%R by (rewrite H'; ring). ring.
Qed.

Section Matrices.
Variables (optim : bool) (s s' : store) (fd fd' : string) (n : Z) (lobj lobj' : nat -> lrec) (d d' : list (edge * list nat)) (c c' : cst).
Hypothesis H : get_LCWB optim s fd n lobj d = Ok c.
Hypothesis H' : get_LCWB optim s' fd' n lobj' d' = Ok c'.
Hypothesis edges : Forall2 (fun p q => fst p = fst q /\ edge_cap s (snd p) = edge_cap s' (snd q) /\
  edge_invind s (snd p) = edge_invind s' (snd q) /\ existsb (is_jj s) (snd p) = existsb (is_jj s') (snd q) /\
  existsb (is_ind s) (snd p) = existsb (is_ind s') (snd q)) d d'.
Lemma same_mats : c_C c = c_C c' /\ c_L c = c_L c' /\ c_W c = c_W c' /\ c_njwi c = c_njwi c'.
Proof.
  apply get_LCWB_run in H as [_ R]. apply get_LCWB_run in H' as [_ R'].
  apply run_edges_mats in R as (HC & HL & HW & _ & HN). apply run_edges_mats in R' as (HC' & HL' & HW' & _ & HN').
  rewrite HW, HW', HN, HN'.
  assert (S : (forall i j, suml d (fun ee => edge_cap s (snd ee) * mrep n (fst ee) i j) =
                           suml d' (fun ee => edge_cap s' (snd ee) * mrep n (fst ee) i j))%R /\
     (forall i j, suml d (fun ee => edge_invind s (snd ee) * mrep n (fst ee) i j) =
                  suml d' (fun ee => edge_invind s' (snd ee) * mrep n (fst ee) i j))%R /\
     jj_edges s d = jj_edges s' d' /\
     length (filter (fun ee => junc_without_ind s (snd ee)) d) = length (filter (fun ee => junc_without_ind s' (snd ee)) d')).
  { clear -edges. unfold jj_edges, junc_without_ind.
    induction edges as [|[e x] [e' x'] d d' (E1 & E2 & E3 & E4 & E5) Q (I1 & I2 & I3 & I4)]; simpl in *; auto.
    rewrite <- E1, <- E2, <- E3, <- E4, <- E5. repeat split; intros; rewrite ?I1, ?I2; auto.
    - destruct (existsb (is_jj s) x); simpl; rewrite I3; auto.
    - destruct (existsb (is_jj s) x && negb (existsb (is_ind s) x))%bool; simpl; rewrite I4; auto. }
  destruct S as (S1 & S2 & S3 & S4). rewrite S3, S4.
  split; [|split]; auto; apply functional_extensionality; intros i; apply functional_extensionality; intros j.
  - rewrite HC, HC', S1; auto.
  - rewrite HL, HL', S2; auto.
Qed.
End Matrices.

From mathcomp Require Import all_ssreflect all_algebra.
From mathcomp Require Import complex ring.
From mathcomp Require Import ssrZ.
From Verif.Numerics Require Import RStruct Bridge.
From Verif.Model Require Import FluxDist Op Transform Ham Diag CircuitSM.
From Verif.Spec Require Import OpSpec TransSpec SymmetrySpec OneNodeSpec PerturbSpec LevelsSpec SessionSpec LossSpec ParallelSpec.
From Verif.Proofs Require Import OpProofs HamProofs HamProofs2 HamProofs5 HamProofs6 MinMaxProofs ExpProofs2 TransProofs.
From Verif.Proofs Require Import SMProofs SMProofs2 SMProofs3 LossSession ParallelProofs.
From Verif.Properties Require Import P_OneNode P_Order.

Set Implicit Arguments.
Unset Strict Implicit.
Unset Printing Implicit Defensive.
Import GRing.Theory.
Local Open Scope ring_scope.
Local Open Scope complex_scope.

(** The capacitance and susceptance matrices and the rows of the junctions depend on each
    edge through its total capacitance, its total inverse inductance and whether it has
    junctions and inductors. *)
Theorem C98_matrices optim s s' fd fd' n lobj lobj' d d' c c' :
  get_LCWB optim s fd n lobj d = Ok c -> get_LCWB optim s' fd' n lobj' d' = Ok c' -> List.Forall2 (same_edge s s') d d' ->
  [/\ c_C c = c_C c', c_L c = c_L c', c_W c = c_W c' & c_njwi c = c_njwi c'].
Proof.
move=> H H' F.
have [] : c_C c = c_C c' /\ c_L c = c_L c' /\ c_W c = c_W c' /\ c_njwi c = c_njwi c'.
  eapply same_mats; [exact: H|exact: H'|].
  clear H H'; elim: F => [|p q d0 d0' [? ? ? ? ?] _ IH]; constructor => //.
by move=> ? [? []].
Qed.
Print Assumptions C98_matrices.

(** The Hamiltonian depends on the junctions of an edge through the sum of E e^(i phase), and
    on its inductors through the sum of phase / L. *)
Theorem C98_hamiltonian disp h s s' loops loops' B B' ks ks' A A' :
  hamiltonian disp h (evalue s) loops B ks = Ok A -> hamiltonian disp h (evalue s') loops' B' ks' = Ok A' ->
  (forall w, amplitude s (ext_flux loops B) (k_jj ks) w = amplitude s' (ext_flux loops' B') (k_jj ks') w) ->
  (forall e, pull s (ext_flux loops B) (k_ind ks) e = pull s' (ext_flux loops' B') (k_ind ks') e) ->
  forall a b, ent A a b = ent A' a b.
Proof.
move=> E E' am pu a b; rewrite (hamiltonian_entry _ _ E) (hamiltonian_entry _ _ E').
by rewrite (amplitudes_suffice disp h a b am) (pulls_suffice h a b pu).
Qed.
Print Assumptions C98_hamiltonian.

(** ** Two netlists with the same edges *)
Section Netlists.
Variables (disp : nat -> C -> op) (optim : bool) (o : oracle) (s s' : store) (lobj lobj' : nat -> lrec) (fd fd' : string).
Variables (d d' : seq (edge * seq nat)) (x0 y0 : circ) (u u' : ustate) (cs cs' : seq call) (tr tr' : seq (world * res unit)).
Hypothesis disp_dim : forall m a, dim (disp m a) = m.
(** The same routines return the same decompositions of the same matrices ([o]). *)
Hypothesis made : construct optim o s lobj fd d = Some (Ok x0).
Hypothesis made' : construct optim o s' lobj' fd' d' = Some (Ok y0).
Hypothesis calls : all leaves cs /\ all leaves cs'.
Hypothesis session : run disp optim (mkW s u x0) cs = Some tr.
Hypothesis session' : run disp optim (mkW s' u' y0) cs' = Some tr'.
Let x := w_x (final (mkW s u x0) tr).
Let x' := w_x (final (mkW s' u' y0) tr').
Hypothesis edges : List.Forall2 (same_edge s s') d d'.

(** The same modes. *)
Theorem C98_modes : x_st x = x_st x' /\ x_C x = x_C x'.
Proof.
have [lv lv'] := calls.
have [_ [-> _ -> _]] := leave_run lv session; have [_ [-> _ -> _]] := leave_run lv' session'.
have [n [c [B [st [Hb [En ->]]]]]] := constructP made; have [n' [c' [B' [st' [Hb' [En' ->]]]]]] := constructP made'.
have nE : n = n'.
  have ee : List.map fst d = List.map fst d' by elim: edges => [//|p q ? ? [e _ _ _ _] _ IH] /=; rewrite e IH.
  by move: En En'; rewrite ee => -> [H]; lia.
subst n'; have [st0 [EL _ EI Et]] := Hb; have [st0' [EL' _ EI' Et']] := Hb'.
have [eC eL eW eN] := C98_matrices EL EL' edges.
have e0 : st0 = st0' by move: EI EI'; rewrite eC eL eW eN => -> [].
by move: Et Et'; rewrite e0 => -> [->] /=.
Qed.

(** The same charge states and gate charges, the same sums: the same Hamiltonian. *)
Hypothesis states : x_m x = x_m x' /\ forall i, h_ng (hof x) i = h_ng (hof x') i.
Hypothesis amplitudes : forall w,
  amplitude s (ext_flux [seq lvalue s l | l <- c_loops (x_c x)] (x_B x)) (c_keys_jj (x_c x)) w =
  amplitude s' (ext_flux [seq lvalue s' l | l <- c_loops (x_c x')] (x_B x')) (c_keys_jj (x_c x')) w.
Hypothesis pulls : forall e,
  pull s (ext_flux [seq lvalue s l | l <- c_loops (x_c x)] (x_B x)) (c_keys_ind (x_c x)) e =
  pull s' (ext_flux [seq lvalue s' l | l <- c_loops (x_c x')] (x_B x')) (c_keys_ind (x_c x')) e.

Theorem C98_netlists A A' : (hamil s x).2 = Ok A -> (hamil s' x').2 = Ok A' ->
  dim A = dim A' /\ (forall a b, ent A a b = ent A' a b) /\ forall E, energies A E <-> energies A' E.
Proof.
have [lv lv'] := calls.
have G0 : good disp (w_x (mkW s u x0)) := good_construct disp made.
have G : good disp x := good_run G0 session (leave_updates lv session).
have G0' : good disp (w_x (mkW s' u' y0)) := good_construct disp made'.
have G' : good disp x' := good_run G0' session' (leave_updates lv' session').
have [-> _] := hamilE s G; have [-> _] := hamilE s' G'; rewrite /ham_of => EA EA'.
have hE : hof x = hof x'.
  have [es eC] := C98_modes; have [em eg] := states.
  have ge : h_ng (hof x) = h_ng (hof x') by apply: functional_extensionality.
  by move: ge; rewrite /hof /= => ge; rewrite es em eC ge.
rewrite -hE in EA'; have e := C98_hamiltonian EA EA' amplitudes pulls.
have dE : dim A = dim A' by have [-> _] := hamiltonian_ok disp_dim EA; have [-> _] := hamiltonian_ok disp_dim EA'.
suff -> : A' = A by [].
case: A A' {EA EA'} e dE => n f [n' f'] /= e ->; congr Op.
by apply: functional_extensionality => a; apply: functional_extensionality => b; rewrite e.
Qed.
End Netlists.
Print Assumptions C98_modes.
Print Assumptions C98_netlists.

(** ** Interference *)
(** Two equal junctions: one of 2 E cos of half the difference of the phases. *)
Theorem C98_squid E p q :
  total_amplitude [:: (E, p); (E, q)] = (Rmult (Rmult 2 E) (cos (Rdiv (Rminus p q) 2)))%:C * expi (Rdiv (Rplus p q) 2).
Proof.
rewrite /total_amplitude big_cons big_seq1 /expi /=; apply/eqP; rewrite eq_complex; apply/andP; split; apply/eqP => /=.
  by rewrite !mul0r !subr0; exact: squid_re.
by rewrite !mul0r !addr0; exact: squid_im.
Qed.
Print Assumptions C98_squid.

(** Two junctions: squared energy E^2 + F^2 + 2 E F cos(phase). *)
Theorem C98_squid_energy E F p q : let z := total_amplitude [:: (E, p); (F, q)] in
  complex.Re z * complex.Re z + complex.Im z * complex.Im z =
  Rplus (Rplus (Rmult E E) (Rmult F F)) (Rmult (Rmult (Rmult 2 E) F) (cos (Rminus p q))).
Proof.
rewrite /total_amplitude big_cons big_seq1 /expi /= !mul0r !subr0 !addr0; exact: squid_sq.
Qed.
Print Assumptions C98_squid_energy.

(** ** One node *)
Lemma island_amplitude c ng jjs m a b : island c ng jjs m a b =
  (if a == b then (charging c ng (Rminus (INR a) (centre m)))%:C else 0) -
  2%:R^-1 * (if a == b.+1 then total_amplitude jjs else if b == a.+1 then (total_amplitude jjs)^* else 0).
Proof.
rewrite /island; congr (_ - _); rewrite /total_amplitude; elim: jjs => [|j jjs IH].
  by rewrite !big_nil cj0 !if_same mulr0.
rewrite !big_cons IH half_C; case: ifP => _; first by rewrite mulrDr mulrA.
by case: ifP => _; rewrite ?mulr0 ?addr0 // cjD cjM cjR mulrDr mulrA.
Qed.

(** Only the modulus of the sum matters for the energies. *)
Section Turn.
Variables (A A' : op) (c ng : R) (j j' : seq (R * R)) (m : nat) (z : C).
Hypothesis dA : dim A = m.
Hypothesis dA' : dim A' = m.
Hypothesis eA : forall a b, (a < m)%N -> (b < m)%N -> ent A a b = island c ng j m a b.
Hypothesis eA' : forall a b, (a < m)%N -> (b < m)%N -> ent A' a b = island c ng j' m a b.
Hypothesis unit : z^* * z = 1.
Hypothesis turned : total_amplitude j' = z * total_amplitude j.

Lemma turn_entry a b : (a < m)%N -> (b < m)%N -> ent A' a b = z ^+ a * ent A a b * (z ^+ b)^*.
Proof.
have un k : z ^+ k * (z ^+ k)^* = 1.
  by rewrite -[(z ^+ k)^*]/(conjc (z ^+ k)) rmorphX -exprMn mulrC unit expr1n.
move=> ha hb; rewrite eA // eA' // !island_amplitude turned mulrBr mulrBl; congr (_ - _).
  by case: eqP => [->|_]; [rewrite mulrAC un mul1r|rewrite mulr0 mul0r].
set h := 2%:R^-1; case: eqP => [->|_].
  by have e := un b; rewrite exprS -[LHS]mulr1 -e; move: h (z ^+ b) ((z ^+ b)^*) (total_amplitude j) => ? ? ? ?; ring.
case: eqP => [->|_]; last by rewrite !mulr0 mul0r.
have e := un a; rewrite exprS !cjM -[LHS]mulr1 -e; move: h (z ^+ a) ((z ^+ a)^*) (z^*) ((total_amplitude j)^*) => ? ? ? ? ?; ring.
Qed.

Lemma turn_le E E' k : energies A E -> energies A' E' -> (k < m)%N -> Rle (E' k) (E k).
Proof.
have un i : (z ^+ i)^* * z ^+ i = 1.
  by rewrite -[(z ^+ i)^*]/(conjc (z ^+ i)) rmorphX -exprMn unit expr1n.
move=> HE HE' hk; pose J (a b : nat) : C := if a == b then z ^+ a else 0.
have JE u a : (a < m)%N -> apply_to m J u a = z ^+ a * u a.
  move=> ha; rewrite /apply_to (bigD1 (Ordinal ha)) //= /J eqxx big1 ?addr0 // => b ne.
  by rewrite ifF ?mul0r //; apply/negbTE; rewrite eq_sym -(inj_eq val_inj) in ne.
suff P : Rle (E' k) (E k + 0) by move: P; rewrite ?addr0 ?Rplus_0_r.
apply: (minmax (J := J) HE HE'); rewrite ?dA ?dA' // => u.
  by rewrite /weight; congr complex.Re; apply: eq_bigr => a _; rewrite JE // cjM mulrACA un mul1r.
rewrite ?mul0r ?Rmult_0_l ?addr0 ?Rplus_0_r; apply: Req_le; rewrite /expect dA dA'; congr complex.Re.
apply: eq_bigr => a _; rewrite JE // cjM mulr_sumr [RHS]mulr_sumr.
apply: eq_bigr => b _; rewrite JE // turn_entry //; have ea := un a; have eb := un b.
rewrite -[RHS]mulr1 -[X in _ = _ * X]mulr1 -[X in _ = _ * (X * _)]ea -[X in _ = _ * (_ * X)]eb.
by move: (z ^+ a) ((z ^+ a)^*) (z ^+ b) ((z ^+ b)^*) (u a)^* (u b) (ent A a b) => *; ring.
Qed.
End Turn.

Definition modulus2_of (x : C) : R := complex.Re x * complex.Re x + complex.Im x * complex.Im x.
Lemma turn_exists (x y : C) : modulus2_of x = modulus2_of y -> exists2 z : C, z^* * z = 1 & y = z * x.
Proof.
have nE w : modulus2_of w = nrm w by rewrite nrm2 !expr2.
rewrite !nE => e; case: (eqVneq x 0) => [x0|xn].
  by exists 1; rewrite ?mulr1 ?rmorph1 //; rewrite x0 mulr0; apply: nrm_eq0; rewrite -e x0 nrm0.
exists (y / x); last by rewrite divfK.
have cn : x^* != 0 by rewrite conjc_eq0.
have E : x^* * x = y^* * y by rewrite !nrmE e.
rewrite cjM -[(x^-1)^*]/(conjc x^-1) fmorphV mulrACA -E -[conjc x]/(x^*).
by rewrite mulrACA mulfV // mulfV // mulr1.
Qed.

(** Junctions and capacitors between one node and ground: with the same capacitance, gate
    charge and charge states, the energies are a function of the modulus of the sum of
    E e^(i phase). *)
Theorem C98_one optim s s' fd fd' lobj lobj' els els' c c' st0 st0' st st' croot croot' lroot lroot' X X' U U' D0 D0' eigL eigL'
    tries tries' fuel fuel' sv sv' order order' draw draw' disp m ng loops loops' B B' A A' E E' k :
  exponential disp ->
  constructed optim s fd lobj els c st0 st croot lroot X U D0 eigL tries fuel sv order draw ->
  constructed optim s' fd' lobj' els' c' st0' st' croot' lroot' X' U' D0' eigL' tries' fuel' sv' order' draw' ->
  existsb (is_jj s) els -> existsb (is_ind s) els = false -> existsb (is_jj s') els' -> existsb (is_ind s') els' = false ->
  edge_cap s els = edge_cap s' els' ->
  modulus2_of (total_amplitude (part_list (is_jj s) s els (ext_flux loops B))) =
  modulus2_of (total_amplitude (part_list (is_jj s') s' els' (ext_flux loops' B'))) ->
  one_ham optim s c st disp m ng loops B = Ok A -> one_ham optim s' c' st' disp m ng loops' B' = Ok A' ->
  energies A E -> energies A' E' -> (k < m)%N -> E' k = E k.
Proof.
move=> ex K K' jj ni jj' ni' same am EA EA' HE HE' hk.
have [_ [A1 E1 [dA eA]]] := C90_island m ng loops B ex K jj ni.
have [_ [A2 E2 [dA' eA']]] := C90_island m ng loops' B' ex K' jj' ni'.
move: E1 E2; rewrite EA EA' => -[e1] [e2]; subst A1 A2; rewrite -same in eA'.
have [z u t] := turn_exists am; have [z' u' t'] := turn_exists (esym am).
apply: Rle_antisym; first exact: (turn_le dA dA' eA eA' u t HE HE' hk).
exact: (turn_le dA' dA eA' eA u' t' HE' HE hk).
Qed.
Print Assumptions C98_one.

(** ** Case: two junctions of 3 rad/s and 2 F against one of 6 rad/s and 4 F *)
Definition pair_s : store :=
  mkStore (fun i => if (i < 2)%N then KJJ else KCap)
          (fun i => if i == 0%N then IZR 3 else if i == 1%N then IZR 6 else if i == 2%N then IZR 2 else IZR 4)
          (fun=> false) (fun=> true) (fun i => if i == 0%N then 2 else 3)%N (fun=> nil) (fun=> R0) (fun=> false) (fun=> true).
Lemma pair_run els : exists c, get_LCWB false pair_s "junctions" (Zpos xH) (fun=> mkL nil nil) [:: ((Z0, Zpos xH), els)] = Ok c.
Proof.
refine (run_edges_total false pair_s "junctions" 1%N [:: ((Z0, Zpos xH), els)] (cst0 (fun=> mkL nil nil)) _ _).
- by move=> e l [[<- _]|[]]; split; [split|split; [split|]].
- by move=> e l _ [el [_ [K _]]]; move: K => /=; case: (el < 2)%N.
Qed.
Example C98_case disp draw ng B : exponential disp -> exists c c' st0 st0' st st' A A',
  [/\ constructed false pair_s "junctions" (fun=> mkL nil nil) [:: 0; 0]%N c st0 st two2 zero2 eye eye (fun=> 0) (fun=> 0) 1 2 sv1 in_order draw,
      constructed false pair_s "junctions" (fun=> mkL nil nil) [:: 1]%N c' st0' st' two2 zero2 eye eye (fun=> 0) (fun=> 0) 1 2 sv1 in_order draw,
      one_ham false pair_s c st disp 3 ng [::] B = Ok A /\ one_ham false pair_s c' st' disp 3 ng [::] B = Ok A',
      ent A 1 0 = - (IZR 3)%:C &
      forall E E', energies A E -> energies A' E' -> forall k, (k < 3)%N -> E' k = E k].
Proof.
move=> ex; have [c Ec] := pair_run [:: 0; 0]%N; have [c' Ec'] := pair_run [:: 1]%N.
have cap : edge_cap pair_s [:: 0; 0]%N = IZR 4 by rewrite /edge_cap /= /cap_of /=; lra.
have cap' : edge_cap pair_s [:: 1]%N = IZR 4 by rewrite /edge_cap /= /cap_of /=; lra.
have [st0 [st K]] := built4 draw Ec cap isT erefl; have [st0' [st' K']] := built4 draw Ec' cap' isT erefl.
have [_ [A EA [dA eA]]] := C90_island 3 ng [::] B ex K isT erefl.
have [_ [A' EA' [dA' _]]] := C90_island 3 ng [::] B ex K' isT erefl.
have ph i : expi (ext_flux [::] B i) = 1.
  by rewrite (_ : ext_flux _ _ _ = 0) ?/expi ?cos_0 ?sin_0 // /ext_flux big_ord0.
have am : total_amplitude (part_list (is_jj pair_s) pair_s [:: 0; 0]%N (ext_flux [::] B)) = (IZR 6)%:C.
  rewrite /total_amplitude /part_list /= big_cons big_seq1 /= !ph !mulr1 -cRD; congr (_%:C).
  by rewrite -RplusE; lra.
have am' : total_amplitude (part_list (is_jj pair_s) pair_s [:: 1]%N (ext_flux [::] B)) = (IZR 6)%:C.
  by rewrite /total_amplitude /part_list /= big_seq1 /= !ph !mulr1.
exists c, c', st0, st0', st, st', A, A'; split=> //.
  rewrite eA // island_amplitude am /= sub0r; congr (- _); rewrite -half_C; congr (_%:C); lra.
move=> E E' HE HE' k hk; apply: (C98_one ex K K' _ _ _ _ _ _ EA EA' HE HE' hk) => //.
  by rewrite cap cap'.
by rewrite am am'.
Qed.

(** P_Sweep.v -- C56: sweeps over external fluxes and charge offsets. *)
From Coq Require Import Reals ZArith String Lia.
From Verif.Model Require Import Base Units Noise Edge Elements LCWB HamConst.
From mathcomp Require Import all_ssreflect all_algebra.
From mathcomp Require Import complex.
From Verif.Numerics Require Import RStruct Bridge.
From Verif.Model Require Import Transform Op Ham Diag CircuitSM DecRate Sweep.
From Verif.Spec Require Import SweepSpec.
From Verif.Proofs Require Import OpProofs HamProofs HamProofs2 HamProofs3 HamProofs4 HamProofs6 SMProofs NgProofs.
From Verif.Proofs Require Import SessionCase CapCase SystemCase2 SystemCase4 SweepProofs.
From Verif.Properties Require Import P_Diag.

Set Implicit Arguments.
Unset Strict Implicit.
Unset Printing Implicit Defensive.
Import GRing.Theory.
Local Open Scope ring_scope.

(** What a one-dimensional sweep with the setter [p] over [g] amounts to. *)
Lemma sweep_line eigs argsort E q loss k p ps g w : forgets p ->
  let a := sweep eigs argsort E q loss k (p :: ps) [:: g] w in
  (a.2 = Ok tt <-> Z.le 0 k /\ forall i, (i < size g)%N -> exists wi fr,
     [/\ diag_at (eigs i) (argsort i) k p (nth 0 g i) w wi fr, size fr = Z.to_nat k
       & loss -> exists D, rates E q wi D]) /\
  (a.2 = Ok tt -> nd_shape (sw_f a.1) = [:: Z.to_nat k; size g] /\ (g = [::] -> sw_w a.1 = w) /\
   forall i, (i < size g)%N -> exists wi fr,
     [/\ diag_at (eigs i) (argsort i) k p (nth 0 g i) w wi fr, size fr = Z.to_nat k,
         forall r, (r < Z.to_nat k)%N -> nd_at (sw_f a.1) [:: r; i] = nth 0 fr r,
         loss -> rates E q wi (fun t => sw_d a.1 t [:: i]) & i.+1 = size g -> sw_w a.1 = wi]).
Proof.
move=> fp; rewrite /sweep; case: Z.ltb_spec => [k0|k0]; first by split=> //; split=> // [[/Z.le_ngt]].
rewrite -[grid_dims _]/[:: size g] product1.
set a0 := mkSw _ _ _; have R0 : reach p w (sw_w a0) by left; apply: wlike_refl.
have [H1 H2] := @pointsE eigs argsort E q loss k p ps g w fp (size g) 0 a0 R0 erefl (leqnn _).
split; last first.
  move=> /H1 [_ [_ [g0 [sh J]]]]; split=> //; split; last by move=> i hi; apply: J.
  by move=> e; rewrite g0 // e.
split; last by case=> _ H; apply: H2 => i hi; apply: H.
move=> /H1 [_ [_ [_ [_ J]]]]; split=> // i hi.
have [|wi [fr [h1 h2 _ h4 _]]] := J i; first by rewrite hi.
by exists wi, fr; split=> // /h4; eexists; eassumption.
Qed.

(** A one-dimensional flux sweep returns exactly when each grid value, set by
    itself on the circuit the sweep was given, lets diag() return that many
    frequencies (and dec_rate() a number, with 'loss').  Then column i of the
    table holds these frequencies and the circuit is left as after setting the
    last value and calling diag(). *)
Theorem C56_flux eigs argsort E q loss k l ls g w :
  let at_ i := diag_at (eigs i) (argsort i) k (flux_setter l) (nth 0 g i) w in
  let a := sweep_flux eigs argsort E q loss k (l :: ls) [:: g] w in
  (a.2 = Ok tt <-> Z.le 0 k /\ forall i, (i < size g)%N -> exists wi fr,
     [/\ at_ i wi fr, size fr = Z.to_nat k & loss -> exists D, rates E q wi D]) /\
  (a.2 = Ok tt -> nd_shape (sw_f a.1) = [:: Z.to_nat k; size g] /\ (g = [::] -> sw_w a.1 = w) /\
   forall i, (i < size g)%N -> exists wi fr, [/\ at_ i wi fr, size fr = Z.to_nat k,
     forall r, (r < Z.to_nat k)%N -> nd_at (sw_f a.1) [:: r; i] = nth 0 fr r,
     loss -> rates E q wi (fun t => sw_d a.1 t [:: i]) & i.+1 = size g -> sw_w a.1 = wi]).
Proof. exact: (@sweep_line eigs argsort E q loss k _ [seq flux_setter j | j <- ls] g w (@flux_forgets l)). Qed.
Print Assumptions C56_flux.

(** The same with set_charge_offset. *)
Theorem C56_charge eigs argsort E q loss k m ms g w :
  let at_ i := diag_at (eigs i) (argsort i) k (charge_setter m) (nth 0 g i) w in
  let a := sweep_charge eigs argsort E q loss k (m :: ms) [:: g] w in
  (a.2 = Ok tt <-> Z.le 0 k /\ forall i, (i < size g)%N -> exists wi fr,
     [/\ at_ i wi fr, size fr = Z.to_nat k & loss -> exists D, rates E q wi D]) /\
  (a.2 = Ok tt -> nd_shape (sw_f a.1) = [:: Z.to_nat k; size g] /\ (g = [::] -> sw_w a.1 = w) /\
   forall i, (i < size g)%N -> exists wi fr, [/\ at_ i wi fr, size fr = Z.to_nat k,
     forall r, (r < Z.to_nat k)%N -> nd_at (sw_f a.1) [:: r; i] = nth 0 fr r,
     loss -> rates E q wi (fun t => sw_d a.1 t [:: i]) & i.+1 = size g -> sw_w a.1 = wi]).
Proof. exact: (@sweep_line eigs argsort E q loss k _ [seq charge_setter j | j <- ms] g w (@charge_forgets m)). Qed.
Print Assumptions C56_charge.

(** The last flux stays set, and nothing else about the components changes. *)
Theorem C56_last_flux eigs argsort E q loss k l ls g w :
  let a := sweep_flux eigs argsort E q loss k (l :: ls) [:: g] w in let s := w_s (sw_w a.1) in
  a.2 = Ok tt -> (0 < size g)%N ->
  [/\ lvalue s l = last 0 g * (2%:R * PI), forall j, j <> l -> lvalue s j = lvalue (w_s w) j,
      forall j, evalue s j = evalue (w_s w) j & forall j, ng_of (w_x (sw_w a.1)) j = ng_of (w_x w) j].
Proof.
move=> a s ok g0; have [_ H] := C56_flux eigs argsort E q loss k l ls g w; have [_ [_ J]] := H ok.
have [|wi [fr [[w1 [x [ve [E1 Ed Ew]]]] _ _ _]]] := J (size g).-1; first by rewrite prednK.
rewrite prednK // => /(_ erefl) ew; rewrite /s /a ew {}Ew; case: E1 => E1; subst w1 => /=.
have lk := like_diag (eigs (size g).-1) (argsort (size g).-1) (w_u w) (Some k) (set_flux_of (w_s w) l (nth 0 g (size g).-1)) (w_x w).
split=> [||//|j].
- rewrite eqxx nth_last -[Rmult _ PI]/(_ * PI) -[Rmult (last 0 g) _]/(last 0 g * _) -mulrA.
  have -> : 2%:R = IZR 2 :> R by rewrite -[2%:R]/(Rplus (IZR 1) (IZR 1)) -plus_IZR.
  by [].
- by move=> j jl; case: eqP.
- by move: lk; cbn [w_u w_s w_x] in Ed; rewrite Ed => -[[M [e /= ->]]].
Qed.
Print Assumptions C56_last_flux.

(** A grid of two or more dimensions, none of them empty, always raises.  When the
    first point can be set and diagonalised it is a ValueError, and the circuit is
    left there. *)
Theorem C56_grid eigs argsort E q loss k ps grid w : (forall i, sized (eigs i)) -> (1 < size grid)%N ->
  all (fun g => 0 < size g)%N grid ->
  let a := sweep eigs argsort E q loss k ps grid w in
  (exists e, a.2 = Err e) /\
  forall w1 x r, Z.le 0 k -> set_point ps grid (nseq (size grid) 0%N) w = (w1, Ok tt) ->
    diag_sm (eigs 0%N) (argsort 0%N) (w_u w1) (Some k) (w_s w1) (w_x w1) = (x, Ok r) ->
    a.2 = Err ValueError /\ sw_w a.1 = mkW (w_s w1) (w_u w1) x.
Proof.
move=> sz g2 g0; rewrite /sweep; case: Z.ltb_spec => [k0|k0].
  by split; [exists ValueError | move=> w1 x r /Z.le_ngt].
have [l ->] : exists l, product (grid_dims grid) = nseq (size grid) 0%N :: l.
  by have := @product_first (grid_dims grid); rewrite size_map all_map; apply.
cbn [points]; rewrite /point; cbn [sw_w sw_f sw_d].
case: (set_point _ _ _ _) => w1 [[]|e]; last by split=> //; exists e.
case Ed: (diag_sm _ _ _ _ _ _) => [x [[fr ve]|e]]; last first.
  split; first by exists e.
  by move=> w1' x' r' _ [<-]; rewrite Ed.
have [sf kp] := diag_sized (sz 0%N) Ed.
have -> : (do sh <- sel_shape (nd_zeros (Z.to_nat k :: grid_dims grid)) (nseq (size grid) 0%N); reshape fr sh)%res = Err ValueError.
  rewrite /sel_shape; case: grid g2 g0 Ed => [|g grid] //= g2 /andP [hg g0] Ed.
  rewrite hg all_nseq hg orbT /= /reshape sf; case: eqP => // e.
  move: e; rewrite /nd_size big_cons -[LHS]muln1 => /eqP; rewrite eqn_pmul2l // big_cons size_nseq.
  case: grid g2 g0 {Ed} => [//|g' grid] _ /= /andP [hg' g0]; rewrite big_cons.
  by rewrite eq_sym muln_eq1.
split; first by exists ValueError.
move=> w1' x' r' _ [<-]; rewrite Ed => -[<- _]; by [].
Qed.
Print Assumptions C56_grid.

(** So does the grid without dimensions. *)
Theorem C56_no_axis eigs argsort E q loss k ps w : exists e, (sweep eigs argsort E q loss k ps [::] w).2 = Err e.
Proof.
rewrite /sweep; case: Z.ltb; first by exists ValueError.
cbn [grid_dims map product points]; rewrite /point; cbn [sw_w].
have -> : set_point ps [::] [::] w = (w, Ok tt) by case: (ps).
case: (diag_sm _ _ _ _ _ _) => x [[fr ve]|e]; last by exists e.
by exists IndexError.
Qed.
Print Assumptions C56_no_axis.

(** With an empty axis nothing is visited, so nothing raises whatever the number
    of dimensions: "always" fails there. *)
Theorem C56_empty_refuted eigs argsort E q loss k ps g w : Z.le 0 k ->
  sweep eigs argsort E q loss k ps [:: g; [::]] w =
  (mkSw w (nd_zeros [:: Z.to_nat k; size g; 0%N]) (fun _ _ => Some 0), Ok tt).
Proof.
move=> k0; rewrite /sweep; case: Z.ltb_spec => [/Z.lt_nge //|_]; rewrite -[grid_dims _]/[:: size g; 0%N].
suff -> : product [:: size g; 0%N] = [::] by [].
by rewrite /=; elim: (iota 0 (size g)).
Qed.
Print Assumptions C56_empty_refuted.

(** One capacitor: the lowest level over two charge offsets, and the offset left. *)
Definition mid_eigs : eigs_fun := fun H _ _ => EigsOk [:: ent H 1 1] (fun i _ => if i == 1%N then 1 else 0).
Example C56_case disp (optim : bool) (lobj : nat -> lrec) (v v' : R) E q : exists x1 c,
  let w := mkW (cap_store 1) ustate_init x1 in
  let a := sweep_charge (fun=> mid_eigs) (fun=> argsort0) E q false 1 [:: Some (Zpos xH)] [:: [:: v; v']] w in
  let f t := in_unit ustate_init (halfR c * (charge_unit * (0 - t) * (charge_unit * (0 - t)))) in
  [/\ good disp x1, a.2 = Ok tt, nd_at (sw_f a.1) [:: 0; 0]%N = f v, nd_at (sw_f a.1) [:: 0; 1]%N = f v'
    & ng_of (w_x (sw_w a.1)) 0 = v'].
Proof.
have [x0 [E0 [n0 nn0] ch [HR [HC _]] [_ [Ki Kj]]]] := cap_construct lt01 optim lobj.
have [x1 [E1 G1 [S1 c1] [C1 _] [n1 m1 g1]]] := cap_set disp E0 n0 ch.
exists x1, (t_cI (x_st x1) 0%N 0%N); set w := mkW _ _ x1; set c := t_cI _ _ _.
have ch1 : is_charge (x_st x1) 0 by rewrite S1.
have is1 : island_of (Some (Zpos xH)) x1 = Some 0%N.
  rewrite /island_of /=; have := g_charge G1 (i := 0); rewrite n1 => /(_ isT ch1) ->; by [].
have at_ t : exists wi, diag_at mid_eigs argsort0 1 (charge_setter (Some (Zpos xH))) t w wi
    [:: in_unit ustate_init (halfR c * (charge_unit * (0 - t) * (charge_unit * (0 - t))))] /\ ng_of (w_x wi) 0 = t.
  have G2 := good_set_offset (Some (Zpos xH)) t G1; have h2 := hof_offset t is1.
  have [k1 k2] := offset_keeps (Some (Zpos xH)) t x1.
  have e2 : (set_offset (Some (Zpos xH)) t x1).2 = Ok tt.
    have hi := island_of_has is1; rewrite /set_offset is1 m1 /= (mem_err_island _ hi) mem_err_none //.
      by rewrite n1 m1.
    by move=> i hi' hc; have := g_charge G1 hi' hc.
  move: G2 h2 k1 k2 e2; case Eo: (set_offset _ t x1) => [x2 r2] /= G2 h2 k1 k2 e2; subst r2.
  have n2 : x_n x2 = 1%N by rewrite -[x_n x2]/(hn (hof x2)) h2.
  have m2 : x_m x2 = [:: 3%N] by rewrite -[x_m x2]/(h_m (hof x2)) h2 -m1.
  have m20 : x_m x2 <> [::] by rewrite m2.
  have np : (0 < x_n x2)%N by rewrite n2.
  have ki : c_keys_ind (x_c x2) = [::] by rewrite k1 c1.
  have kj : c_keys_jj (x_c x2) = [::] by rewrite k1 c1.
  have [A EL EH] := cap_ham (cap_store 1) G2 m20 np ki kj.
  have tot : total (hof x2) = 3%N by rewrite /total -[hn _]/(x_n x2) n2 big_ord1 /hm -[h_m _]/(x_m x2) m2.
  have c2 : hcharge (hof x2) 0 by rewrite h2; apply: ch1.
  have EA : ent A 1 1 = (halfR c * (charge_unit * (0 - t) * (charge_unit * (0 - t))))%:C%C.
    have EE := LC_entry (h := hof x2) (a := 1) (b := 1); rewrite tot EL /= in EE.
    rewrite EE // /half_sum -[hn _]/(x_n x2) n2 !big_ord1 big_mkcond !big_ord1 /= /prodQ.
    have DQ : is_diag 3 (opQ (hof x2) 0) (fun k => charge_unit * (charge_at 3 k - t)).
      rewrite opQE -[hn _]/(x_n x2) n2 T1 /one_fam eqxx /charge_op_isolated c2 /hm -[h_m _]/(x_m x2) m2; split=> // a b ha hb.
      cbn [ent oscale osub qcharge oeye odiag nth].
      have -> : h_ng (hof x2) 0 = t by rewrite h2.
      by case: eqP => _; rewrite ?mulr1 ?mulr0 ?subr0 ?mulr0 // -rmorphB -rmorphM.
    have [_ HQ] := diag_mul DQ DQ; rewrite HQ // c2 /= addr0.
    have -> : t_cI (h_st (hof x2)) 0%N 0%N = c by rewrite h2.
    by have [_ [-> _]] := charge3; rewrite -rmorphM.
  have [x3 [r [Ed Ee S3 C3 [h3 m3]]]] := diag_ok ustate_init (eigs := mid_eigs) (k := Zpos xH) G2 m20 EH erefl.
  exists (mkW (cap_store 1) ustate_init x3); split; last by rewrite -[ng_of _]/(h_ng (hof x3)) h3 h2.
  case: r Ed => fr ve Ed; exists (mkW (cap_store 1) ustate_init x2), x3, ve; split=> //.
    by rewrite /charge_setter Eo.
  rewrite -[w_u _]/ustate_init -[w_s _]/(cap_store 1) -[w_x _]/x2 Ed; congr (_, Ok (_, _)).
  move: Ed; rewrite /diag_sm; case: ifP => // _; case: hamil EH => xh H /= -> /= [_ <- _].
  by rewrite EA.
have [ok store] := C56_charge (fun=> mid_eigs) (fun=> argsort0) E q false 1 (Some (Zpos xH)) [::] [:: v; v'] w.
set a := sweep_charge _ _ _ _ _ _ _ _ _ in ok store *.
have ok2 : a.2 = Ok tt.
  apply/ok; split=> // i hi; have [wi [h _]] := at_ (nth 0 [:: v; v'] i).
  by exists wi; eexists; split; [exact: h | by [] | by []].
have same t wi fr : diag_at mid_eigs argsort0 1 (charge_setter (Some (Zpos xH))) t w wi fr ->
    fr = [:: in_unit ustate_init (halfR c * (charge_unit * (0 - t) * (charge_unit * (0 - t))))] /\ ng_of (w_x wi) 0 = t.
  have [wj [[w1 [y [ve [p1 p2 p3]]]] p4]] := at_ t.
  by case=> w1' [y' [ve' []]]; rewrite p1 => -[<-]; rewrite p2 => -[<- <- _] ->; rewrite -p4 p3.
have [_ [_ J]] := store ok2.
have [wi [fr [D1 _ F1 _ _]]] := J 0%N isT; have [wj [fr' [D2 _ F2 _ L]]] := J 1%N isT.
have [e1 _] := same _ _ _ D1; have [e2 e3] := same _ _ _ D2; split=> //.
- by rewrite F1 // e1.
- by rewrite F2 // e2.
- by rewrite L // e3.
Qed.

(** SymmetryProofs2.v -- Hamiltonian and states under reversal of fluxes and charges. *)
From Coq Require Import Reals ZArith Lia.
From Verif.Model Require Import Base Units Edge Accuracy HamConst.
Lemma ind_coef_opp L x : ind_coef L (Ropp x) = Ropp (ind_coef L x).
Proof. unfold ind_coef, Rdiv. ring. Qed.
Lemma cos_opp x : cos (Ropp x) = cos x. Proof. apply cos_neg. Qed.
From mathcomp Require Import all_ssreflect all_algebra.
From mathcomp Require Import complex ring.
From Verif.Numerics Require Import RStruct Bridge.
From Verif.Model Require Import Op Transform Ham.
From Verif.Spec Require Import OpSpec EigSpec SymmetrySpec.
From Verif.Proofs Require Import OpProofs HamProofs HamProofs2 HamProofs5 HamProofs6 SymmetryProofs.

Set Implicit Arguments.
Unset Strict Implicit.
Unset Printing Implicit Defensive.
Import GRing.Theory.
Local Open Scope ring_scope.
Local Open Scope complex_scope.

Lemma expi_opp (x : R) : expi (GRing.opp x) = (expi x)^*.
Proof. by rewrite /expi /conjc -RoppE cos_neg sin_neg. Qed.
Lemma ext_opp loops B b : ext_flux (minus_flux loops) B b = - ext_flux loops B b.
Proof.
rewrite /ext_flux /minus_flux size_map -sumrN; apply: eq_bigr => i _.
by rewrite (nth_map 0) // mulNr.
Qed.
Lemma ind_opp L x : (ind_coef L (GRing.opp x))%:C = - (ind_coef L x)%:C.
Proof. by rewrite -RoppE ind_coef_opp -cRN. Qed.

Section Flat.
Variable h : hin.
Let cg := hcharge h.
Let idp (k a : nat) : nat := a.
Notation n := (hn h).
Notation dims := (hm h).
Notation tgrel := (grel true n dims (par1 cg) idp).
Notation mgrel := (grel false n dims (par1 cg) (mir1 cg dims)).
Let s2 k a : par1 cg k a * par1 cg k a = 1. Proof. exact: par1_sq. Qed.
Let mb k a : (a < dims k)%N -> (mir1 cg dims k a < dims k)%N. Proof. exact: mir1_lt. Qed.
Let mK k a : (a < dims k)%N -> mir1 cg dims k (mir1 cg dims k a) = a. Proof. exact: mir1K. Qed.

Lemma par_at d : legal dims d n -> par h (posn dims d n) = S n (par1 cg) d.
Proof. exact: parity_posn. Qed.
Lemma mir_at d : legal dims d n -> mir h (posn dims d n) = posn dims (P (mir1 cg dims) d) n.
Proof. exact: mirror_posn. Qed.

Lemma S2 d : S n (par1 cg) d * S n (par1 cg) d = 1.
Proof. rewrite /S -big_split big1 // => k _; exact: s2. Qed.
Lemma par_sq I : (I < total h)%N -> par h I * par h I = 1.
Proof.
move=> /posn_surj [d [L <-]]; rewrite par_at // /S -big_split big1 // => k _; exact: s2.
Qed.
Lemma par_real I : (I < total h)%N -> (par h I)^* = par h I.
Proof.
move=> /posn_surj [d [L <-]]; rewrite par_at // /S; elim/big_rec: _ => [|k x _ IH]; first exact: conjc1.
rewrite cjM IH /par1; case: ifP => _; first by rewrite cj1.
by congr (_ * _); elim: (d k) => [|m IH']; [rewrite expr0 cj1|rewrite exprS cjM IH' cjN cj1].
Qed.
Lemma mir_lt I : (I < total h)%N -> (mir h I < total h)%N.
Proof. by move=> /posn_surj [d [L <-]]; rewrite mir_at //; apply: posn_lt => k hk; apply: mb; apply: L. Qed.
Lemma mirK I : (I < total h)%N -> mir h (mir h I) = I.
Proof.
move=> /posn_surj [d [L <-]]; have LP : legal dims (P (mir1 cg dims) d) n by move=> k hk; apply: mb; apply: L.
by rewrite !mir_at //; apply: posn_ext => k hk; rewrite /P mK //; apply: L.
Qed.
Lemma par_mir I : (I < total h)%N -> par h (mir h I) = par h I.
Proof.
move=> /posn_surj [d [L <-]]; have LP : legal dims (P (mir1 cg dims) d) n by move=> k hk; apply: mb; apply: L.
by rewrite mir_at // !par_at // /S; apply: eq_bigr => k _; rewrite /par1 /P /mir1; case: (cg k).
Qed.

Lemma rev_of sg A A' : tgrel sg A A' -> reversed h sg A A'.
Proof.
move=> [d1 d2 E]; split; first by rewrite d2.
move=> I J; rewrite d1 => /posn_surj [d [L <-]] /posn_surj [d' [L' <-]].
by rewrite !par_at //; exact: (E d d' L L').
Qed.
Lemma mir_of sg A A' : mgrel sg A A' -> mirrored h sg A A'.
Proof.
move=> [d1 d2 E]; split; first by rewrite d2.
move=> I J; rewrite d1 => /posn_surj [d [L <-]] /posn_surj [d' [L' <-]].
by rewrite !par_at // !mir_at //; exact: (E d d' L L').
Qed.

Variables (disp : nat -> C -> op) (val : nat -> R) (B : arr) (ks : keys).
Hypothesis D : displaces disp.
Hypothesis F : inductor_free h ks.

Lemma expE w : opExp disp h w = T (exp_iso disp h w) n. Proof. by []. Qed.
Lemma tExp w : tgrel 1 (opExp disp h w) (opExp disp h w).
Proof.
have := @grel_T true n dims (par1 cg) idp (fun k a e => e) (fun=> 1) (exp_iso disp h w) (exp_iso disp h w).
by rewrite big1 //; apply=> k hk; apply: tE.
Qed.
Lemma mExp w : mgrel 1 (oadj (opExp disp h w)) (opExp disp (minus_charge h) w).
Proof.
have := @grel_T false n dims (par1 cg) (mir1 cg dims) mb (fun=> 1)
  (fun k => oadj (exp_iso disp h w k)) (exp_iso disp (minus_charge h) w).
rewrite big1 // => H; have [d1 d2 E] := H (fun k hk => mE h D w k).
have [e1 e2] := T_adj (exp_iso disp h w) n.
split; [by rewrite e1 d1|by []|move=> d d' L L'; rewrite E //; congr (_ * (_ * cc _ _))].
rewrite e2 //; rewrite e1 d1; by apply: posn_lt.
Qed.

(** Reversal of the fluxes. *)
Lemma ham_reversed loops A A' : hamiltonian disp h val loops B ks = Ok A ->
  hamiltonian disp h val (minus_flux loops) B ks = Ok A' -> reversed h 1 A A'.
Proof.
move=> EA EA'; apply: rev_of.
have Ed X loops' : hamiltonian disp h val loops' B ks = Ok X -> dim X = total h.
  by move=> EX; have [] := hamiltonian_ok D.1 EX.
split; [exact: Ed EA|exact: Ed EA'|move=> d d' L L'].
rewrite (hamiltonian_entry _ _ EA) (hamiltonian_entry _ _ EA').
set I := at_ _ _ d; set J := at_ _ _ d'.
rewrite mul1r.
have LC := orel_ent (orel_LC s2 (fun k a e => e) (fun k a e => erefl) erefl (frefl _) erefl erefl (mulr1 1)
  (fun k _ => tQ h k) (fun k _ => @tN h k)) L L'.
rewrite mul1r -/I -/J in LC; rewrite {1}LC -!mulrA /cc cjB cjD !cj_sum.
rewrite !(mulrBr, mulrDr) !mulr_sumr; congr (_ + _ - _).
  apply: sum_in => k hk; rewrite ext_opp ind_opp.
  have [c Ec cz] := F hk.
  have := flux_rel s2 (fun k a e => e) (fun k a e => erefl) erefl (frefl _) erefl erefl
    (fun k _ => @tF h k) erefl L L' Ec cz.
  rewrite -/I -/J => E; rewrite {1}E cjM cjR /cc.
  by move: (S _ _ d) (S _ _ d') ((ind_coef _ _)%:C) ((cpl _ _ _ _)^*) => x y z w; ring.
apply: sum_in => k hk; rewrite ext_opp cjM cjR /jjent expi_opp.
have [_ _ E1] := tExp k.2; have E2 := E1 d' d L' L; have {}E1 := E1 d d' L L'.
rewrite -/I -/J !mul1r /cc in E1 E2.
rewrite !(cjM, cjD, cjK) half_conj {1}E1.
have -> : (ent (opExp disp h k.2) J I)^* = S n (par1 cg) d * S n (par1 cg) d' * ent (opExp disp h k.2) J I.
  rewrite [in RHS]E2; have x2 := S2 d; have y2 := S2 d'.
  move: (S _ _ d) (S _ _ d') ((ent _ _ _)^*) x2 y2 => x y z x2 y2.
  by have -> : x * y * (y * x * z) = (x * x) * (y * y) * z by [ring]; rewrite x2 y2 !mul1r.
by move: (S _ _ d) (S _ _ d') (expi _) ((expi _)^*) (ent _ _ _) ((ent _ _ _)^*) (2%:R^-1) => x y z w u v t; ring.
Qed.

(** Reversal of fluxes and charges. *)
Lemma ham_mirrored loops A A' : hamiltonian disp h val loops B ks = Ok A ->
  hamiltonian disp (minus_charge h) val (minus_flux loops) B ks = Ok A' -> mirrored h 1 A A'.
Proof.
move=> EA EA'; apply: mir_of; set h' := minus_charge h in EA' *.
have Ed X g loops' : hamiltonian disp g val loops' B ks = Ok X -> dim X = total g.
  by move=> EX; have [] := hamiltonian_ok D.1 EX.
split; [exact: Ed EA|exact: Ed EA'|move=> d d' L L'].
rewrite (hamiltonian_entry _ _ EA) (hamiltonian_entry _ _ EA').
set I := at_ n dims d; set J := at_ n dims d'.
set I' := at_ n dims (P _ d); set J' := at_ n dims (P _ d').
rewrite mul1r.
have one2 : -1 * -1 = 1 :> C by rewrite mulrNN mulr1.
have LC := orel_ent (orel_LC s2 mb mK (h := h) (h' := h') erefl (frefl _) erefl erefl one2
  (fun k _ => mQ h k) (fun k _ => @mN h k)) L L'.
rewrite mul1r -/I -/J -/I' -/J' in LC; rewrite LC -!mulrA /cc.
rewrite !(mulrBr, mulrDr) !mulr_sumr; congr (_ + _ - _).
  apply: sum_in => k hk; rewrite ext_opp ind_opp.
  have [c Ec cz] := F hk.
  have := flux_rel s2 mb mK (h := h) (h' := h') erefl (frefl _) erefl erefl
    (fun k _ => @mF h k) erefl L L' Ec cz.
  rewrite -/I -/J -/I' -/J' => ->; rewrite /cc.
  by move: (S _ _ d) (S _ _ d') ((ind_coef _ _)%:C) (cpl _ _ _ _) => x y z w; ring.
apply: sum_in => k hk; rewrite ext_opp /jjent expi_opp.
have [_ _ E1] := mExp k.2; have E2 := E1 d' d L' L; have {}E1 := E1 d d' L L'.
rewrite -/I -/J -/I' -/J' !mul1r /cc !e_adj in E1 E2.
have sR x : (S n (par1 cg) x)^* = S n (par1 cg) x.
  rewrite /S; elim/big_rec: _ => [|i y _ IH]; first exact: conjc1.
  rewrite cjM IH /par1; case: ifP => _; first by rewrite cj1.
  by congr (_ * _); elim: (x i) => [|m IH']; [rewrite expr0 cj1|rewrite exprS cjM IH' cjN cj1].
rewrite E1 E2 !(cjM, cjK) !sR.
by move: (S _ _ d) (S _ _ d') (expi _) ((expi _)^*) (ent _ I J) ((ent _ _ _)^*) (2%:R^-1) => x y z w u v t; ring.
Qed.
End Flat.

(** ** States *)
Section States.
Variables (h : hin) (A A' : op).
Hypothesis dA : dim A = total h.
Lemma rev_eigen z v : reversed h 1 A A' -> eigenpair A z%:C v -> eigenpair A' z%:C (rev_state h v).
Proof.
move=> [d E] [Hv [i hi nz]]; split; last first.
  exists i; rewrite ?d // /rev_state => e0; apply: nz.
  move: (congr1 (fun y => par h i * y) e0); rewrite mulrA par_sq -?dA // mul1r mulr0.
  by move/(congr1 (@conjc _)); rewrite cjK conjc0.
rewrite d => I hI; have pI := par_sq (h := h) (I := I); rewrite -dA in pI.
transitivity (par h I * (\sum_(j < dim A) ent A I j * v j)^*).
  rewrite cj_sum mulr_sumr; apply: eq_bigr => j _; rewrite E // mul1r /rev_state cjM.
  have pj := par_sq (h := h) (I := j); rewrite -dA in pj.
  move: (par h I) (par h j) ((ent A I j)^*) ((v j)^*) (pj (ltn_ord j)) => x y a b y2.
  by have -> : x * y * a * (y * b) = x * (y * y) * (a * b) by [ring]; rewrite y2 mulr1.
by rewrite Hv // /rev_state cjM cjR mulrCA.
Qed.
Lemma mir_eigen z v : mirrored h 1 A A' -> eigenpair A z v -> eigenpair A' z (mir_state h v).
Proof.
move=> [d E] [Hv [i hi nz]]; rewrite dA in d E Hv hi.
split; rewrite d; last first.
  exists (mir h i); first exact: mir_lt.
  rewrite /mir_state par_mir // mirK // => e0; apply: nz.
  by move: (congr1 (fun y => par h i * y) e0); rewrite mulrA par_sq // mul1r mulr0.
move=> I hI; have hI' := mir_lt hI.
have E' J : (J < total h)%N -> ent A' I J = par h I * par h J * ent A (mir h I) (mir h J).
  move=> hJ; have := E _ _ hI' (mir_lt hJ); rewrite !mirK // !par_mir // mul1r; by [].
transitivity (par h I * (\sum_(j < total h) ent A (mir h I) j * v j)); last first.
  by rewrite Hv // /mir_state mulrCA.
have hinj : injective (fun i : 'I_(total h) => Ordinal (mir_lt (ltn_ord i))).
  move=> x y /(congr1 val) /= /(congr1 (mir h)); rewrite !mirK // => e; exact: val_inj.
rewrite [in RHS](reindex_inj hinj) /= mulr_sumr; apply: eq_bigr => j _; rewrite E' // /mir_state.
move: (par h I) (par h j) (ent A _ _) (v _) (par_sq (ltn_ord j)) => x y a b y2.
by have -> : x * y * a * (y * b) = x * (y * y) * (a * b) by [ring]; rewrite y2 mulr1.
Qed.
End States.

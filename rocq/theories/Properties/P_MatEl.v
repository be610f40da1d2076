(** P_MatEl.v -- C81: matrix elements of the branch operators. *)
From Coq Require Import Reals ZArith String Lia Lra.
From Verif.Model Require Import Base Units Settings Noise Edge Elements LCWB HamConst.
From Verif.Proofs Require Import ThermalProofs BookProofs.
From mathcomp Require Import all_ssreflect all_algebra.
From mathcomp Require Import complex.
From Verif.Numerics Require Import RStruct Bridge.
From Verif.Model Require Import Transform Op Ham Diag CircuitSM Thermal Partial DecRate.
From Verif.Spec Require Import OpSpec SessionSpec DecSpec.
From Verif.Proofs Require Import OpProofs HamProofs HamProofs2 HamProofs5 SMProofs SMProofs2 SMProofs3 MemProofs
  DecProofs DecProofs2 DecProofs3.
From Verif.Properties Require Import P_Ops P_Decoherence.

Set Implicit Arguments.
Unset Strict Implicit.
Unset Printing Implicit Defensive.
Import GRing.Theory.
Local Open Scope ring_scope.
Local Open Scope complex_scope.

(** Before a diagonalisation, for states that do not exist (negative numbers count
    from the end), and for another coupling type; in this order. *)
Theorem C81_errors x ct e m n :
  (e_vecs (x_eig x) = [::] -> matrix_elements x ct e m n = Err CircuitStateError) /\
  (e_vecs (x_eig x) <> [::] ->
     let k := Z.of_nat (size (e_vecs (x_eig x))) in
     let inside z := Z.le (Z.opp k) z /\ Z.lt z k in
     (~ inside m \/ ~ inside n -> matrix_elements x ct e m n = Err IndexError) /\
     (inside m -> inside n -> matrix_elements x None e m n = Err ValueError)).
Proof.
split=> [e0|ne k inside]; rewrite /matrix_elements; first by rewrite e0.
have -> : size (e_vecs (x_eig x)) == 0%N = false by apply/negbTE/eqP => /size0nil.
have E z : (inside z -> exists v, evec x z = Ok v) /\ (~ inside z -> evec x z = Err IndexError).
  rewrite /evec /py_nth /np_row /py_index /inside -/k; split.
    move=> [h1 h2]; case: (Z.leb_spec 0 z) => h; first by rewrite (proj2 (Z.ltb_lt _ _) h2); eexists.
    by rewrite (proj2 (Z.leb_le 0 (z + k))); [eexists|lia].
  move=> ni; case: (Z.leb_spec 0 z) => h; first by rewrite (proj2 (Z.ltb_ge _ _)) //; lia.
  by rewrite (proj2 (Z.leb_gt 0 (z + k))) //; lia.
split; last by move=> /(proj1 (E m)) [v ->] /(proj1 (E n)) [w ->].
have dec z : inside z \/ ~ inside z by rewrite /inside; lia.
case=> [/(proj2 (E m)) -> //|nn]; case: (dec m) => [/(proj1 (E m)) [v ->]|/(proj2 (E m)) -> //].
by cbn [bind]; rewrite (proj2 (E n) nn).
Qed.
Print Assumptions C81_errors.

(** A session (any calls of the setters, of diag and of the other methods) that ends
    in a diagonalisation. *)
Section Session.
Variables (disp : nat -> C -> op) (optim : bool) (o : oracle) (s0 : store) (lobj : nat -> lrec) (fd : string).
Variables (d : seq (edge * seq nat)) (x0 : circ) (u : ustate) (cs : seq call) (tr : seq (world * res unit)).
Hypothesis built_ok : construct optim o s0 lobj fd d = Some (Ok x0).
Hypothesis session : run disp optim (mkW s0 u x0) cs = Some tr.
Hypothesis updates : updates_ok optim (mkW s0 u x0) cs tr.
Let wf := final (mkW s0 u x0) tr.
Let xf := w_x wf.
Variables (eigs : eigs_fun) (argsort : seq C -> seq nat) (uu : ustate) (kk : option Z).
Variables (x : circ) (dr : seq R * seq cvec).
Hypothesis diagonalised : diag_sm eigs argsort uu kk (w_s wf) xf = (x, Ok dr).
Variables (m n : Z) (v w : cvec).
Hypothesis state1 : evec x m = Ok v.
Hypothesis state2 : evec x n = Ok w.

Lemma mat_elE ct e : matrix_elements x (Some ct) e m n =
  match coupling_op (hof xf) (Some ct) e with Ok A => Ok (braket v A w) | Err z => Err z end.
Proof.
have G : good disp xf by exact: good_run (good_construct disp built_ok : good disp (w_x (mkW s0 u x0))) session updates.
have K : keys_ok (x_c xf) by apply: booked_keys; apply: booked_run session updates; apply: booked_construct built_ok.
have [xh [H [ev [Hh Ex]]]] := diag_put diagonalised.
have [M [Eh FL S F]] := hamil_filled G K Hh.
have Fx : fresh_ops disp x.
  rewrite Ex Eh; case: S => [[e1 e2 e3 e4] [e5 e6]].
  by case: F => F1 F2 F3 F4 F5 F6 F7 F8; split=> //=; rewrite ?e1 ?e2 ?e3 ?e4 ?e5 ?e6.
have hx : hof x = hof xf by rewrite Ex Eh.
rewrite /matrix_elements; case: ifP => [/eqP /size0nil e0|_].
  by move: state1; rewrite /evec /py_nth e0 /np_row /py_index /=; case: m => // p.
rewrite state1 state2; cbn [bind]; rewrite -hx.
case: ct; rewrite ?(coupling_capE _ Fx) ?(coupling_memE _ (fo_phi Fx)); by case: coupling_op => //= A; rewrite innerE.
Qed.

(** The matrix element is <m|A|n> with the operator of the branch charge or flux. *)
Theorem C81_value ct e A : coupling_op (hof xf) (Some ct) e = Ok A ->
  matrix_elements x (Some ct) e m n = Ok (braket v A w).
Proof. by rewrite mat_elE => ->. Qed.

Lemma braketE A (K : nat -> nat -> C) : (forall i j, ent A i j = K i j) ->
  braket v A w = \sum_(i < dim A) \sum_(j < dim A) (v i)^* * K i j * w j.
Proof. by move=> H; apply: eq_bigr => i _; apply: eq_bigr => j _; rewrite H. Qed.

(** Along a path of nodes the matrix elements add up, and going back changes the
    sign.  Ground as one of the nodes: see C51. *)
Theorem C81_kirchhoff ct a b c z1 z2 z3 : let n0 := t_n0 (x_st xf) in isnode a n0 -> isnode b n0 -> isnode c n0 ->
  matrix_elements x (Some ct) (a, b) m n = Ok z1 -> matrix_elements x (Some ct) (b, c) m n = Ok z2 ->
  matrix_elements x (Some ct) (a, c) m n = Ok z3 -> z1 + z2 = z3.
Proof.
move=> n0 Ha Hb Hc; rewrite !mat_elE.
case E1: coupling_op => [A1|//] -[<-]; case E2: coupling_op => [A2|//] -[<-]; case E3: coupling_op => [A3|//] -[<-].
have K := @C51_kirchhoff (hof xf) ct a b c A1 A2 A3 Ha Hb Hc E1 E2 E3.
have [_ [_ _ d1 _ _]] := couplingP E1; have [_ [_ _ d2 _ _]] := couplingP E2; have [_ [_ _ d3 _ _]] := couplingP E3.
rewrite /braket d1 d2 d3 -big_split; apply: eq_bigr => i _; rewrite -big_split; apply: eq_bigr => j _ /=.
by rewrite -K mulrDr mulrDl.
Qed.
Theorem C81_back ct a b z1 z2 : let n0 := t_n0 (x_st xf) in isnode a n0 -> isnode b n0 ->
  matrix_elements x (Some ct) (a, b) m n = Ok z1 -> matrix_elements x (Some ct) (b, a) m n = Ok z2 -> z1 = - z2.
Proof.
move=> n0 Ha Hb; rewrite !mat_elE.
case E1: coupling_op => [A1|//] -[<-]; case E2: coupling_op => [A2|//] -[<-].
have K := @C51_swap (hof xf) ct a b A1 A2 Ha Hb E1 E2.
have [_ [_ _ d1 _ _]] := couplingP E1; have [_ [_ _ d2 _ _]] := couplingP E2.
rewrite /braket d1 d2 -sumrN; apply: eq_bigr => i _; rewrite -sumrN; apply: eq_bigr => j _ /=.
by rewrite K mulrN mulNr.
Qed.
End Session.
Print Assumptions C81_value.
Print Assumptions C81_kirchhoff.
Print Assumptions C81_back.

(** Exchanging the two states conjugates the matrix element. *)
Theorem C81_exchange disp optim o s0 lobj fd d x0 u cs tr eigs argsort uu kk x dr m n v w ct e A :
  construct optim o s0 lobj fd d = Some (Ok x0) -> run disp optim (mkW s0 u x0) cs = Some tr ->
  updates_ok optim (mkW s0 u x0) cs tr ->
  let wf := final (mkW s0 u x0) tr in
  diag_sm eigs argsort uu kk (w_s wf) (w_x wf) = (x, Ok dr) -> evec x m = Ok v -> evec x n = Ok w ->
  coupling_op (hof (w_x wf)) (Some ct) e = Ok A ->
  exists z, matrix_elements x (Some ct) e m n = Ok z /\ matrix_elements x (Some ct) e n m = Ok z^*.
Proof.
move=> b r up wf di Ev Ew EA; exists (braket v A w); split; first exact: (C81_value b r up di Ev Ew EA).
rewrite (C81_value b r up di Ew Ev EA); congr Ok.
have [_ [_ _ _ hA _]] := couplingP EA.
rewrite /braket cj_sum exchange_big; apply: eq_bigr => i _; rewrite cj_sum; apply: eq_bigr => j _.
rewrite !cjM conjcK; have -> : ent A j i = (ent A i j)^* by apply: (proj2 hA).
by rewrite mulrC [X in _ * X]mulrC mulrA.
Qed.
Print Assumptions C81_exchange.

(** A harmonic and a charge mode on two nodes: between the states with no and with
    one photon (and the same charge) the flux from node 1 to node 2 has the
    zero-point flux as matrix element, and the opposite one from node 2 to node 1. *)
Definition case_x (x : circ) : circ := put_eig (put_mem (put_build x (x_c x) eye (x_B x) case_tst)
    (mkM [::] [::] [:: opPhi case_h 0; opPhi case_h 1] [::] [::] [::] (fun _ _ => None) (fun _ _ => None)
       (fun _ _ => None) (fun _ _ => None)) None)
  (mkE [:: 0; 1] [:: (fun i => (i == 2%N)%:R); (fun i => (i == 5%N)%:R)]).
Lemma inner_unit A p q : (p < dim A)%N -> (q < dim A)%N ->
  inner (fun i => (i == p)%:R) A (fun i => (i == q)%:R) = ent A p q.
Proof.
move=> hp hq; rewrite /inner (bigD1 (Ordinal hp)) //= eqxx [X in _ + X]big1 ?addr0; last first.
  by move=> i; rewrite -val_eqE /= => /negbTE ->; rewrite cj0 mul0r.
rewrite cj1 mul1r (bigD1 (Ordinal hq)) //= eqxx mulr1 [X in _ + X]big1 ?addr0 // => i.
by rewrite -val_eqE /= => /negbTE ->; rewrite mulr0.
Qed.
Example C81_case x : let el a b := matrix_elements (case_x x) (Some Inductive_) (a, b) Z0 (Zpos xH) in
  exists z, [/\ z = (f_zp (himp case_h 0%N))%:C * ((sqrt (INR 1))%:C + 0),
     el (Zpos xH) (Zpos (xO xH)) = Ok z & el (Zpos (xO xH)) (Zpos xH) = Ok (- z)].
Proof.
move=> el; have [d0 _] := C33_flux (isT : (0 < hn case_h)%N).
have [d1 HF] := C33_flux (isT : (1 < hn case_h)%N).
have z0 : ent (opPhi case_h 1) 2 5 = 0.
  pose d i j := fun k : nat => if k == 0%N then i else j : nat.
  have L i j : (i < 2)%N -> (j < 3)%N -> legal (hm case_h) (d i j) (hn case_h) by move=> hi hj [|[|k]].
  have := HF _ _ (L 0%N 2%N isT isT) (L 1%N 2%N isT isT); rewrite [hn case_h]/= !case_posn => ->.
  by rewrite ifF //; apply/negbTE/forallP => /(_ (Ordinal (isT : (0 < 2)%N))).
have e0 : dim (opPhi case_h 0) = 6%N by rewrite d0 !big_ord_recl !big_ord0.
pose B r t := oadd (oscale (eye r 0%N - eye t 0%N)%:C (opPhi case_h 0)) (oscale (eye r 1%N - eye t 1%N)%:C (opPhi case_h 1)).
have eB r t : dim (B r t) = 6%N := e0.
have BE r t : ent (B r t) 2%N 5%N = (eye r 0%N - eye t 0%N)%:C * ent (opPhi case_h 0) 2%N 5%N.
  transitivity ((eye r 0%N - eye t 0%N)%:C * ent (opPhi case_h 0) 2%N 5%N +
                (eye r 1%N - eye t 1%N)%:C * ent (opPhi case_h 1) 2%N 5%N); first by [].
  by rewrite z0 mulr0 addr0.
have [_ [<- _]] := C33_case; eexists; split; first by [].
- transitivity (Ok (inner (fun i => (i == 2%N)%:R) (B 0%N 1%N) (fun i => (i == 5%N)%:R))); first by [].
  by rewrite inner_unit ?eB // BE /eye eqxx subr0 mul1r.
- transitivity (Ok (inner (fun i => (i == 2%N)%:R) (B 1%N 0%N) (fun i => (i == 5%N)%:R))); first by [].
  by rewrite inner_unit ?eB // BE /eye eqxx sub0r cRN mulN1r.
Qed.

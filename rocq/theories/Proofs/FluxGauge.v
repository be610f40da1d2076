(** FluxGauge.v -- two flux distributions of the same circuit differ by node
    variables. *)
From Coq Require Import Reals ZArith String.
From Verif.Model Require Import Base Elements Edge LCWB.
From Verif.Spec Require Import GraphSpec CircuitSpec FluxSpec.
From Verif.Proofs Require Import LCWBProofs BookProofs FluxBook.
From mathcomp Require Import all_ssreflect all_algebra.
From Verif.Numerics Require Import RStruct Bridge.
From Verif.Model Require Import FluxDist.
From Verif.Spec Require Import LinSpec.
From Verif.Proofs Require Import FluxProofs FluxProofs2.
From Verif.Properties Require Import P_Circuit P_Flux.

Set Implicit Arguments.
Unset Strict Implicit.
Unset Printing Implicit Defensive.
Import GRing.Theory.
Local Open Scope ring_scope.

(** Weighted projection on the columns of [M]. *)
Lemma wnull (N p : nat) (w : 'rV[R]_N) (Y : 'M[R]_(N, p)) : (forall b, 0 < w 0 b) ->
  Y^T *m diag_mx w *m Y = 0 -> Y = 0.
Proof.
move=> w0 H; apply/matrixP => b j; have /matrixP /(_ j j) := H; rewrite !mxE => E.
have sq i : true -> 0 <= (Y^T *m diag_mx w) j i * Y i j.
  move=> _; rewrite mul_mx_diag !mxE mulrAC; apply: Num.Theory.mulr_ge0; last exact: Order.POrderTheory.ltW.
  by rewrite -expr2 Num.Theory.sqr_ge0.
have := Num.Theory.psumr_eq0P sq E (i:=b) isT; rewrite mul_mx_diag !mxE => /eqP.
by rewrite mulrAC !mulf_eq0 orbb (negbTE (Num.Theory.lt0r_neq0 (w0 b))) orbF => /eqP.
Qed.

Lemma projection (N n : nat) (M : 'M[R]_(N, n)) (w : 'rV[R]_N) (D : 'cV[R]_N) : (forall b, 0 < w 0 b) ->
  exists x : 'cV[R]_n, M^T *m diag_mx w *m (D - M *m x) = 0.
Proof.
move=> w0; pose A := M^T *m diag_mx w *m M.
have sA : A^T = A by rewrite /A !trmx_mul trmxK tr_diag_mx mulmxA.
have K : M *m cokermx A = 0.
  apply: (wnull w0); rewrite trmx_mul -!mulmxA [M^T *m _]mulmxA [M^T *m _ *m _]mulmxA -/A.
  by rewrite mulmx_coker mulmx0.
have /submxP [y Ey] : (D^T *m diag_mx w *m M <= A)%MS by rewrite submxE -[_ *m M *m _]mulmxA K mulmx0.
exists y^T; rewrite mulmxBr; apply/eqP; rewrite subr_eq0; apply/eqP.
have e1 : (D^T *m diag_mx w *m M)^T = M^T *m diag_mx w *m D by rewrite !trmx_mul trmxK tr_diag_mx mulmxA.
by rewrite -e1 Ey trmx_mul sA /A mulmxA.
Qed.

Section Two.
Variables (sv : svd_fun) (optim : bool) (s : store) (fd fd' : string) (n : nat)
  (lobj lobj' : nat -> lrec) (d : list (edge * list nat)) (c c' : cst).
Hypothesis Hc : get_LCWB optim s fd (Z.of_nat n) lobj d = Ok c.
Hypothesis Hc' : get_LCWB optim s fd' (Z.of_nat n) lobj' d = Ok c'.
Hypothesis Hp : proper_dict n d.
Hypothesis Hv : valid_dist fd.
Hypothesis Hv' : valid_dist fd'.
Hypothesis Hs : simple_loops s d.
Hypothesis pos : fd = "all"%string -> forall b, (b < nbranch s d)%N -> Rlt 0 (evalue s (ecap s (occ_el (branch s d b)))).
Variables (sv' : svd_fun).
Hypothesis Hsv : svd_right sv n c.
Hypothesis Hsv' : svd_right sv' n c'.

Lemma same_loops : c_loops c' = c_loops c.
Proof. by have [-> _] := C17_loop_registration _ _ _ _ _ _ _ Hc; have [-> _] := C17_loop_registration _ _ _ _ _ _ _ Hc'. Qed.

Lemma bdropM b (x : nat -> R) : (b < nbranch s d)%N -> bdrop s d b x = \sum_(j < n) rows (c_kmat c) b j * x j.
Proof. by move=> hb; rewrite (rowE Hc Hp). Qed.

Lemma potential B B' k : flux_dist sv n c = Ok (Some B) -> flux_dist sv' n c' = Ok (Some B') ->
  (k < size (c_loops c))%N ->
  exists x, forall b, (b < nbranch s d)%N -> ofM B' b k - ofM B b k = bdrop s d b x.
Proof.
move=> HB HB' hk; have [q1 [q2 [q3 q4]]] := C22_flux_distribution Hc Hp Hv Hs Hsv HB.
have [p1 [p2 [p3 _]]] := C22_flux_distribution Hc' Hp Hv' Hs Hsv' HB'.
move: p1 p2 p3; move: (ofM B') => Bf; rewrite same_loops => p1 p2 p3.
pose N := nbranch s d; pose M := \matrix_(b < N, j < n) rows (c_kmat c) b j.
pose w := \row_(b < N) dist_weight s fd (occ_el (branch s d b)).
pose D := \col_(b < N) (Bf b k - ofM B b k).
have w0 b : 0 < w 0 b by rewrite mxE; apply/RltP; apply: dist_weight_pos => // e; exact: pos.
have [x0 Ex] := projection M D w0; pose x j : R := if insub j is Some i then x0 i 0 else 0.
have xE (j : 'I_n) : x j = x0 j 0 by rewrite /x valK.
pose r b : R := Bf b k - ofM B b k - bdrop s d b x.
have rE (b : 'I_N) : (D - M *m x0) b 0 = r b.
  rewrite !mxE /r bdropM //; congr (_ - _); apply: eq_bigr => j _; by rewrite mxE xE.
have rw y : \sum_(b < N) dist_weight s fd (occ_el (branch s d b)) * bdrop s d b y * r b = 0.
  have H : forall j, (j < n)%N -> \sum_(b < N) (dist_weight s fd (occ_el (branch s d b)) * r b) * rows (c_kmat c) b j = 0.
    move=> j hj; have /matrixP /(_ (Ordinal hj) 0) := Ex; rewrite [LHS]mxE [RHS]mxE => e0; rewrite -[RHS]e0.
    apply: eq_bigr => b _; rewrite rE mul_mx_diag !mxE /=; by rewrite mulrC mulrA.
  have := (columns_iff Hc Hp (fun b => dist_weight s fd (occ_el (branch s d b)) * r b)).1 H y; rewrite sumnE => e0; rewrite -[RHS]e0; apply: eq_bigr => b _; by rewrite ?RmultE mulrAC.
have rG l G : (l < size (c_loops c))%N -> closed_walk s d (List.nth l (c_loops c) 0%N) G -> \sum_(b < N) G b * r b = 0.
  move=> hl cw; have L1 := p3 l k G (elimT ltP hl) (elimT ltP hk) cw; have L2 := q3 l k G (elimT ltP hl) (elimT ltP hk) cw.
  have [_ [_ cl]] := cw; have := cl x; rewrite !sumnE in L1 L2 *; move=> L3.
  transitivity (\sum_(b < N) Rmult (G b) (Bf b k) - \sum_(b < N) Rmult (G b) (ofM B b k) - \sum_(b < N) Rmult (G b) (bdrop s d b x)).
    by rewrite -!sumrB; apply: eq_bigr => b _; rewrite /r !mulrBr.
  by rewrite L1 L2 L3 subrr subr0.
pose B2 b l : R := ofM B b l + (if l == k then r b else 0).
have n2 : no_induced_charge s fd d (List.length (c_loops c)) B2.
  move=> l y hl; have := q1 l y hl; rewrite !sumnE => e1.
  transitivity (\sum_(b < N) (Rmult (Rmult (dist_weight s fd (occ_el (branch s d b))) (bdrop s d b y)) (ofM B b l)
     + dist_weight s fd (occ_el (branch s d b)) * bdrop s d b y * (if l == k then r b else 0))).
    by apply: eq_bigr => b _; rewrite /B2 !RmultE mulrDr.
  rewrite big_split /= e1 add0r; case: (l == k); first exact: rw.
  by rewrite big1 // => b _; rewrite mulr0.
have l2 : loop_sums s d (c_loops c) B2.
  move=> l l' G hl hl' cw; have := q3 l l' G hl hl' cw; rewrite !sumnE => e1.
  transitivity (\sum_(b < N) (Rmult (G b) (ofM B b l') + G b * (if l' == k then r b else 0))).
    by apply: eq_bigr => b _; rewrite /B2 !RmultE mulrDr.
  rewrite big_split /= e1; case: (l' == k); last by rewrite big1 ?addr0 // => b _; rewrite mulr0.
  by rewrite (rG l G) ?addr0 //; apply/ltP.
have u := q4 B2 n2 l2; exists x => b hb; have := u b k (elimT ltP hb) (elimT ltP hk).
by rewrite /B2 eqxx => /eqP; rewrite -subr_eq0 addrAC subrr add0r /r subr_eq0 => /eqP.
Qed.
End Two.

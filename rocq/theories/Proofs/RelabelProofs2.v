(** RelabelProofs2.v -- frequencies under renumbering of the nodes. *)
From Coq Require Import Reals ZArith List Lia Lra.
From Verif.Model Require Import Base Elements Edge LCWB.
From Verif.Spec Require Import GraphSpec CircuitSpec RelabelSpec.
From Verif.Proofs Require Import EdgeProofs LCWBProofs RelabelProofs.
From mathcomp Require Import all_ssreflect all_algebra.
From mathcomp Require Import zify.
From Verif.Numerics Require Import RStruct Bridge.
From Verif.Spec Require Import TransSpec.

Set Implicit Arguments.
Unset Strict Implicit.
Unset Printing Implicit Defensive.
Import GRing.Theory Order.TTheory.
Local Open Scope ring_scope.

(** ** Matrices of equal quadratic form *)
Lemma form_eq n (A B : 'M[R]_n) : (forall x y : 'rV_n, (x *m A *m y^T) 0 0 = (x *m B *m y^T) 0 0) -> A = B.
Proof.
move=> H; apply/matrixP => i j; have := H (delta_mx 0 i) (delta_mx 0 j).
by rewrite -!rowE trmx_delta -!colE !mxE.
Qed.
Lemma act_one n (A : 'M[R]_n) : (forall x : 'rV_n, x *m A = x) -> A = 1%:M.
Proof. by move=> H; apply/row_matrixP => i; rewrite rowE H row1. Qed.

(** ** The change of coordinates *)
Definition step (q : Z -> Z) (i k : nat) : int :=
  (if Z.eqb (q (Z.add (Z.of_nat k) (Zpos xH))) (Z.add (Z.of_nat i) (Zpos xH)) then 1 else 0) - (if Z.eqb (q Z0) (Z.add (Z.of_nat i) (Zpos xH)) then 1 else 0).
Definition change (n : nat) (q : Z -> Z) : 'M[int]_n := \matrix_(i, k) step q i k.
Definition changeR (n : nat) (q : Z -> Z) : 'M[R]_n := map_mx (fun z : int => z%:~R) (change n q).

Lemma pot_sum n (x : nat -> R) k : Z.le Z0 k -> Z.le k (Z.of_nat n) ->
  pot x k = \sum_(i < n) x i * (if Z.eqb k (Z.add (Z.of_nat i) (Zpos xH)) then 1 else 0).
Proof.
move=> k0 kn; rewrite /pot; case: Z.eqb_spec => [->|nk].
  by rewrite big1 // => i _; case: Z.eqb_spec => [e|_]; rewrite ?mulr0 //; lia.
have hk : (Z.to_nat k - 1 < n)%N by lia.
rewrite (bigD1 (Ordinal hk)) //= big1 ?addr0 => [|i].
  by case: Z.eqb_spec => [_|e]; rewrite ?mulr1 //; lia.
rewrite -val_eqE /= => /eqP ne; case: Z.eqb_spec => [e|_]; rewrite ?mulr0 //; lia.
Qed.

Lemma coords_pot x i : coords (pot x) i = x i.
Proof. by rewrite /coords /pot; case: Z.eqb_spec => [|_]; [lia|]; rewrite Rminus_0_r; congr (x _); lia. Qed.

Lemma coords_change n p q (x : nat -> R) : renumbers n p q ->
  toV n (coords (fun k => pot x (q k))) = toV n x *m changeR n q.
Proof.
move=> pq; apply/rowP => k; rewrite !mxE /coords.
have [|_ [[a b] _]] := pq (Z.add (Z.of_nat k) (Zpos xH)); first by have := ltn_ord k; lia.
have [|_ [[c d] _]] := pq Z0; first by lia.
rewrite (pot_sum x a b) (pot_sum x c d) RminusE -sumrB; apply: eq_bigr => i _.
rewrite !mxE /step rmorphB /= mulrBr; by do 2!case: ifP.
Qed.

Lemma change_inv n p q : renumbers n p q -> changeR n q *m changeR n p = 1%:M.
Proof.
move=> pq; apply: act_one => x; have qp := renumbers_inv _ _ _ pq.
rewrite -[x]toV_ofV mulmxA -(coords_change _ pq) -(coords_change _ qp); apply/rowP => k; rewrite !mxE.
have K : Z.le Z0 (Z.add (Z.of_nat k) (Zpos xH)) /\ Z.le (Z.add (Z.of_nat k) (Zpos xH)) (Z.of_nat n) by have := ltn_ord k; lia.
have [B [_ [E _]]] := pq _ K; have [B0 [_ [E0 _]]] := pq Z0 ltac:(lia).
set y := ofV x.
have P j : Z.le Z0 j /\ Z.le j (Z.of_nat n) -> pot (coords (fun l => pot y (q l))) j = Rminus (pot y (q j)) (pot y (q Z0)).
  by move=> [j0 jn]; rewrite pot_coords.
rewrite /coords -/(coords _) !P // E E0 /pot /=; case: Z.eqb_spec => [|_]; first by lia.
rewrite (_ : (Z.to_nat _ - 1)%coq_nat = k); last by lia.
by rewrite RminusE !RminusE; case: Z.eqb => //; rewrite opprB addrA subrK subr0.
Qed.

Lemma congruent n p q (A A' : nat -> nat -> R) : renumbers n p q ->
  (forall v u, bilin n A' (coords (fun k => v (q k))) (coords (fun k => u (q k))) = bilin n A (coords v) (coords u)) ->
  toM n n A = changeR n q *m toM n n A' *m (changeR n q)^T.
Proof.
move=> pq H; apply: form_eq => x y; have := H (pot (ofV x)) (pot (ofV y)); rewrite !bilinE !(coords_change _ pq).
have E z : toV n (coords (pot (ofV z))) = z :> 'rV[R]_n by rewrite -[RHS]toV_ofV; apply/rowP => i; rewrite !mxE coords_pot.
by rewrite !E !toV_ofV trmx_mul !mulmxA => ->.
Qed.

Lemma change_det n p q : renumbers n p q -> \det (changeR n q) ^+ 2 = 1.
Proof.
move=> pq; have := congr1 determinant (change_inv pq); rewrite det_mulmx det1.
rewrite /changeR !(det_map_mx (intmul1_rmorphism _)) -rmorphM /=; set a := \det _; set b := \det _.
move/eqP; rewrite -[1]/(1%:~R) eqr_int => /eqP e.
have : (absz a * absz b == 1)%N by rewrite -abszM e.
rewrite muln_eq1 => /andP [/eqP aa _]; have {aa} : a = 1 \/ a = - 1 by lia.
by case=> ->; rewrite ?rmorphN /= ?sqrrN rmorph1 expr1n.
Qed.

(** ** Roots of characteristic polynomials *)
Lemma roots_eq (s t : seq R) : \prod_(x <- s) ('X - x%:P) = \prod_(x <- t) ('X - x%:P) -> perm_eq s t.
Proof.
elim: s t => [|x s IH] t H.
  have := congr1 (fun u : {poly R} => size u) H; rewrite /= !size_prod_XsubC /= => -[e]; by rewrite -(size0nil (esym e)).
have xt : x \in t by rewrite -root_prod_XsubC -H big_cons rootM root_XsubC eqxx.
rewrite perm_sym (perm_trans (perm_to_rem xt)) // perm_cons perm_sym; apply: IH.
have nz : ('X - x%:P : {poly R}) != 0 by rewrite polyXsubC_eq0.
apply: (mulfI nz).
by move: H; rewrite big_cons => ->; rewrite (perm_big _ (perm_to_rem xt)) big_cons.
Qed.

Lemma char_poly_conj n (P A Q : 'M[R]_n) : Q *m P = 1%:M -> char_poly (P *m A *m Q) = char_poly A.
Proof.
move=> PQ; have QP := mulmx1C PQ; rewrite /char_poly.
have M (u v : 'M[R]_n) : map_mx polyC (u *m v) = map_mx polyC u *m map_mx polyC v by exact: map_mxM.
have -> : char_poly_mx (P *m A *m Q) = map_mx polyC P *m char_poly_mx A *m map_mx polyC Q.
  by rewrite /char_poly_mx mulmxBr mulmxBl !M; congr (_ - _); rewrite -scalemx1 -scalemxAr -scalemxAl mulmx1 -M QP map_mx1.
by rewrite !det_mulmx mulrC mulrA -det_mulmx -M PQ map_mx1 det1 mul1r.
Qed.

Lemma char_poly_diag n (d : 'rV[R]_n) : char_poly (diag_mx d) = \prod_(x <- [seq d 0 i | i <- enum 'I_n]) ('X - x%:P).
Proof.
rewrite char_poly_trig ?diag_mx_is_trig // big_map big_enum /=; apply: eq_bigr => i _; by rewrite mxE eqxx.
Qed.

Lemma svd_char n (C L Cr Lr X U : 'M[R]_n) D : C \in unitmx -> root_of C Cr -> root_of L Lr ->
  svd_of (Lr *m invmx Cr) X U D ->
  char_poly (invmx C *m L) = \prod_(x <- [seq D 0 i ^+ 2 | i <- enum 'I_n]) ('X - x%:P).
Proof.
move=> uC [sC rC] [sL rL] [XX UU AE _].
have uCr : Cr \in unitmx by move: uC; rewrite -rC unitmx_mul andbb.
have iC : invmx C = invmx Cr *m invmx Cr.
  have e : (invmx Cr *m invmx Cr) *m C = 1%:M by rewrite -rC mulmxA mulmxKV // mulVmx.
  by rewrite -[LHS]mul1mx -e mulmxK.
pose A := Lr *m invmx Cr.
have AA : A^T *m A = invmx Cr *m L *m invmx Cr by rewrite /A trmx_mul trmx_inv sC sL -rL !mulmxA.
have DD : A^T *m A = U^T *m diag_mx (\row_i (D 0 i ^+ 2)) *m U.
  rewrite /A AE !trmx_mul tr_diag_mx; rewrite -!mulmxA; congr (_ *m _); rewrite !mulmxA; congr (_ *m _).
  rewrite -[_ *m X^T *m X]mulmxA XX mulmx1 mulmx_diag; congr diag_mx; apply/rowP => i; by rewrite !mxE expr2.
have -> : invmx C *m L = invmx Cr *m (A^T *m A) *m Cr by rewrite AA iC !mulmxA mulmxKV.
rewrite char_poly_conj ?mulmxV // DD char_poly_conj // char_poly_diag; congr bigop; apply: eq_map => i; by rewrite mxE.
Qed.

Lemma congruent_char n (C L C' L' G H : 'M[R]_n) : C' \in unitmx -> G *m H = 1%:M ->
  C = G *m C' *m G^T -> L = G *m L' *m G^T -> char_poly (invmx C *m L) = char_poly (invmx C' *m L').
Proof.
move=> uC' GH -> ->; have HG := mulmx1C GH.
have TT : H^T *m G^T = 1%:M by rewrite -trmx_mul GH trmx1.
have TT' : G^T *m H^T = 1%:M by rewrite -trmx_mul HG trmx1.
have uG : G *m C' *m G^T \in unitmx.
  by rewrite !unitmx_mul uC' unitmx_tr andbT andbb; have [] := mulmx1_unit GH.
have -> : invmx (G *m C' *m G^T) = H^T *m invmx C' *m H.
  have e : (H^T *m invmx C' *m H) *m (G *m C' *m G^T) = 1%:M.
    by rewrite !mulmxA -[_ *m H *m G]mulmxA HG mulmx1 mulmxKV.
  by rewrite -[LHS]mul1mx -e mulmxK.
have -> : H^T *m invmx C' *m H *m (G *m L' *m G^T) = H^T *m (invmx C' *m L') *m G^T.
  by rewrite !mulmxA -[_ *m H *m G]mulmxA HG mulmx1.
exact: char_poly_conj.
Qed.

Lemma sorted_values n (D D' : 'rV[R]_n) : (forall i, Rle R0 (D 0 i)) -> (forall i, Rle R0 (D' 0 i)) ->
  (forall i j : 'I_n, (i <= j)%N -> Rle (D 0 j) (D 0 i)) -> (forall i j : 'I_n, (i <= j)%N -> Rle (D' 0 j) (D' 0 i)) ->
  perm_eq [seq D 0 i ^+ 2 | i <- enum 'I_n] [seq D' 0 i ^+ 2 | i <- enum 'I_n] -> D = D'.
Proof.
move=> p p' s s' P.
have S (F : 'rV[R]_n) : (forall i, Rle R0 (F 0 i)) -> (forall i j : 'I_n, (i <= j)%N -> Rle (F 0 j) (F 0 i)) ->
  sorted (fun x y : R => y <= x) [seq F 0 i ^+ 2 | i <- enum 'I_n].
  move=> pos mono; rewrite sorted_map; apply: (@sub_sorted _ (relpre (@nat_of_ord n) leq)).
    by move=> i j /= le; rewrite Num.Theory.ler_sqr ?qualifE /=; apply/RleP; [exact: mono|exact: pos|exact: pos].
  by rewrite -sorted_map val_enum_ord; apply: iota_sorted.
have e : [seq D 0 i ^+ 2 | i <- enum 'I_n] = [seq D' 0 i ^+ 2 | i <- enum 'I_n].
  apply: (@sorted_eq _ (fun x y : R => y <= x)) => //; [|move=> x y /andP [a b]|exact: S|exact: S].
    by move=> y x z a b; apply: (le_trans b a).
  by apply/eqP; rewrite eq_le a b.
apply/rowP => i; have := congr1 (fun l => nth 0 l i) e; rewrite !(nth_map i) -?enumT ?size_enum_ord // !nth_ord_enum => /eqP.
rewrite Num.Theory.eqr_expn2 //; [by move/eqP|apply/RleP; exact: p|apply/RleP; exact: p'].
Qed.

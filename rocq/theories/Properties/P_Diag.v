(** P_Diag.v -- C40, C41: eigenpairs and the frequency unit. *)
From Coq Require Import Reals ZArith Lra.
From Verif.Model Require Import Base Units HamConst.
From Verif.Proofs Require Import UnitsProofs HamConstProofs.
From mathcomp Require Import all_ssreflect all_algebra.
From mathcomp Require Import complex.
From Verif.Numerics Require Import RStruct Bridge.
From Verif.Model Require Import Op Diag Transform Ham.
From Verif.Spec Require Import OpSpec EigSpec UnitSpec.
From Verif.Proofs Require Import OpProofs DiagProofs.
From Verif.Properties Require Import P_Ops.

Set Implicit Arguments.
Unset Strict Implicit.
Unset Printing Implicit Defensive.
Import GRing.Theory.
Local Open Scope ring_scope.
Local Open Scope complex_scope.

(** An argsort that meets the contract exists. *)
Definition cleb (a b : C) : bool :=
  Rltb (complex.Re a) (complex.Re b) || ((complex.Re a == complex.Re b) && Rleb (complex.Im a) (complex.Im b)).
Lemma clebP a b : reflect (cle a b) (cleb a b).
Proof.
apply: (iffP orP) => [[/RltbP|/andP [/eqP e /RlebP]]|[/RltbP|[e /RlebP l]]]; try by [left].
- by right.
- by right; rewrite e eqxx.
Qed.
Lemma cleb_total : total cleb.
Proof.
move=> a b; apply/orP.
case: (Rtotal_order (complex.Re a) (complex.Re b)) => [h|[h|h]].
- by left; apply/clebP; left.
- case: (Rle_dec (complex.Im a) (complex.Im b)) => [h'|h'].
    by left; apply/clebP; right.
  right; apply/clebP; right; split; first by rewrite h.
  exact/Rlt_le/Rnot_le_lt.
- by right; apply/clebP; left.
Qed.
Lemma cleb_trans : transitive cleb.
Proof.
move=> b a c /clebP ab /clebP bc; apply/clebP; case: ab bc => [h|[e h]] [h'|[e' h']].
- by left; exact: Rlt_trans h h'.
- by left; rewrite -e'.
- by left; rewrite e.
- by right; rewrite e; split=> //; exact: Rle_trans h h'.
Qed.
Lemma cleb_refl : reflexive cleb.
Proof. by move=> a; apply/clebP; right; split=> //; exact: Rle_refl. Qed.
Definition argsort0 (l : seq C) : seq nat :=
  sort (fun i j => cleb (nth 0 l i) (nth 0 l j)) (iota 0 (size l)).
Lemma argsort0_sorts : sorts argsort0.
Proof.
move=> l; split; first by rewrite perm_sort.
move=> i j /andP [ij js]; apply/clebP.
pose r : rel nat := fun i j => cleb (nth 0 l i) (nth 0 l j).
have sz : size (argsort0 l) = size l by rewrite size_sort size_iota.
apply: (@sorted_leq_nth _ r _ _ 0%N (argsort0 l)) => //.
- by move=> a b c; exact: cleb_trans.
- by move=> a; exact: cleb_refl.
- by apply: sort_sorted => a b; exact: cleb_total.
- by rewrite inE sz (leq_ltn_trans ij).
- by rewrite inE sz.
Qed.

Lemma diag_np_inv eigs argsort H k r : diag_np eigs argsort H k = Ok r ->
  exists lam V ncv, eigs H k ncv = EigsOk lam V /\ r = sort_eigs argsort lam V.
Proof.
rewrite /diag_np; case E: (eigs H k None) => [lam V| |e] //.
  by case=> <-; exists lam, V, None.
case E': (eigs H k _) => [lam V| |e] //.
by case=> <-; exists lam, V, (Some (Z.mul 10 k)).
Qed.

(** ** C40 *)
(** The stored frequencies are the real parts the eigensolver returned, each as
    often as it was returned, ascending; and there is one rearrangement [p] of
    the solver's positions that yields frequencies and vectors alike. *)
Theorem C40_pairing eigs argsort H k r : sorts argsort -> diag_np eigs argsort H k = Ok r ->
  exists lam V ncv, eigs H k ncv = EigsOk lam V /\
    ascending (e_freqs r) /\ perm_eq (e_freqs r) [seq complex.Re z | z <- lam] /\
    exists p, perm_eq p (iota 0 (size lam)) /\
      size (e_freqs r) = size lam /\ size (e_vecs r) = size lam /\
      forall i, (i < size lam)%N ->
        nth 0 (e_freqs r) i = complex.Re (nth 0 lam (nth 0%N p i)) /\
        forall x, nth (fun=> 0) (e_vecs r) i x = V x (nth 0%N p i).
Proof.
move=> Ha /diag_np_inv [lam [V [ncv [E ->]]]]; exists lam, V, ncv; split=> //.
split; first exact: ascending_sort.
split; first by rewrite perm_sort.
have [Hp _] := Ha lam.
have sz : size (argsort lam) = size lam by rewrite (perm_size Hp) size_iota.
exists (argsort lam); rewrite (sort_eigsE lam V Ha) /= !size_map sz.
by split=> //; split=> //; split=> // i hi; split=> [|x]; rewrite (nth_map 0%N) ?sz.
Qed.
Print Assumptions C40_pairing.

(** If the solver's pairs are eigenpairs of a Hermitian matrix, so are the
    stored ones, with real eigenvalues. *)
Theorem C40_eigenpairs eigs argsort H k r : sorts argsort -> herm H ->
  (forall ncv lam V, eigs H k ncv = EigsOk lam V ->
     forall i, (i < size lam)%N -> eigenpair H (nth 0 lam i) (fun x => V x i)) ->
  diag_np eigs argsort H k = Ok r ->
  forall i, (i < size (e_freqs r))%N ->
    eigenpair H (nth 0 (e_freqs r) i)%:C (nth (fun=> 0) (e_vecs r) i).
Proof.
move=> Ha Hh He Hd i; have [lam [V [ncv [E [_ [_ [p [Hp [s1 [s2 Hn]]]]]]]]]] := C40_pairing Ha Hd.
rewrite s1 => hi; have [-> Hv] := Hn i hi.
have hp : (nth 0%N p i < size lam)%N.
  have : nth 0%N p i \in iota 0 (size lam).
    by rewrite -(perm_mem Hp) mem_nth // (perm_size Hp) size_iota.
  by rewrite mem_iota add0n.
have ep := He _ _ _ E _ hp.
have -> : (complex.Re (nth 0 lam (nth 0%N p i)))%:C = nth 0 lam (nth 0%N p i).
  have /= := herm_real Hh ep.
  by case: (nth 0 lam _) => a b /= ->.
case: ep => [ep1 [j hj nz]]; split.
  move=> x hx; rewrite Hv -ep1 //; by apply: eq_bigr => y _; rewrite Hv.
by exists j => //; rewrite Hv.
Qed.
Print Assumptions C40_eigenpairs.

(** In particular for the Hamiltonian of any circuit. *)
Theorem C40_circuit disp h val loops B ks H eigs argsort k r : (forall m a, dim (disp m a) = m) ->
  hamiltonian disp h val loops B ks = Ok H -> sorts argsort ->
  (forall ncv lam V, eigs H k ncv = EigsOk lam V ->
     forall i, (i < size lam)%N -> eigenpair H (nth 0 lam i) (fun x => V x i)) ->
  diag_np eigs argsort H k = Ok r ->
  ascending (e_freqs r) /\
  forall i, (i < size (e_freqs r))%N ->
    eigenpair H (nth 0 (e_freqs r) i)%:C (nth (fun=> 0) (e_vecs r) i).
Proof.
move=> Hd HH Ha He Hr; split.
  by have [lam [V [ncv [_ [? _]]]]] := C40_pairing Ha Hr.
have [_ Hh] := C35_hermitian Hd HH.
by apply: C40_eigenpairs Ha _ He Hr; split=> // i j hi hj; exact: Hh.
Qed.
Print Assumptions C40_circuit.

(** Before truncation numbers are set, or with a count that is not an int, diag
    raises and keeps the old results. *)
Theorem C40_guard eigs argsort u H k old :
  diag eigs argsort u false H k old = (old, Err CircuitStateError) /\
  diag eigs argsort u true H None old = (old, Err ValueError).
Proof. by []. Qed.
Print Assumptions C40_guard.

(** A failed first attempt is repeated once with ten Lanczos vectors per
    eigenvalue; any other exception, or a second failure, is raised and the
    stored results stay. *)
Theorem C40_retry eigs argsort u H k old :
  (eigs H k None = EigsNoConv -> forall lam V, eigs H k (Some (Z.mul 10 k)) = EigsOk lam V ->
     diag_np eigs argsort H k = Ok (sort_eigs argsort lam V)) /\
  (eigs H k None = EigsNoConv -> eigs H k (Some (Z.mul 10 k)) = EigsNoConv ->
     diag eigs argsort u true (Ok H) (Some k) old = (old, Err RuntimeError)) /\
  (forall e, eigs H k None = EigsErr e ->
     diag eigs argsort u true (Ok H) (Some k) old = (old, Err e)).
Proof.
by rewrite /diag /diag_np; split; [|split] => [-> lam V ->|-> ->|e ->].
Qed.
Print Assumptions C40_retry.

(** diag(H) with H = diag(2, 1), the solver answering (2, e0), (1, e1). *)
Definition case_H : op := odiag 2 (fun k => if k == 0%N then 2%:R else 1).
Definition case_eigs : eigs_fun := fun _ _ _ => EigsOk [:: 2%:R; 1] (fun i j => if i == j then 1 else 0).
Example C40_case : exists r, diag_np case_eigs argsort0 case_H 2 = Ok r /\ e_freqs r = [:: 1; 2%:R] /\
  eigenpair case_H 1 (nth (fun=> 0) (e_vecs r) 0) /\ nth (fun=> 0) (e_vecs r) 0 1%N = 1.
Proof.
have lt12 : cleb 2%:R 1 = false.
  apply/negP => /clebP; rewrite (_ : (2%:R : C) = (IZR 2)%:C); last first.
    by rewrite -[IZR 2]/(1 + 1 : R) cRD.
  case=> [H|[H _]].
    have : Rlt (IZR 2) (IZR 1) by exact: H. lra.
  have : IZR 2 = IZR 1 by exact: H. lra.
have E : argsort0 [:: 2%:R; 1] = [:: 1; 0]%N by rewrite /argsort0 /sort /= lt12.
exists (sort_eigs argsort0 [:: 2%:R; 1] (fun i j => if i == j then 1 else 0)).
split=> //; rewrite (sort_eigsE _ _ argsort0_sorts) E /=; split=> //; split=> //.
split; last by exists 1%N => //=; exact/eqP/oner_neq0.
by move=> i hi; rewrite big_ord_recl big_ord1 /=; case: i hi => [|[|i]] hi //=;
  rewrite ?mulr0 ?mul0r ?addr0 ?add0r ?mulr1.
Qed.

(** ** C41 *)
(** What diag returns is what efreqs and evecs return afterwards. *)
Theorem C41_returned eigs argsort u H k old r fr ve : diag eigs argsort u true (Ok H) (Some k) old = (r, Ok (fr, ve)) ->
  (e_freqs r <> [::] -> efreqs u r = Ok fr) /\ (e_vecs r <> [::] -> evecs r = Ok ve) /\
  size fr = size (e_freqs r) /\
  forall i, (i < size fr)%N ->
    nth 0 fr i * (Rmult (Rmult (IZR 2) PI) (get_unit_freq u)) = nth 0 (e_freqs r) i \/ get_unit_freq u = 0.
Proof.
rewrite /diag /=; case: diag_np => [r'|e] // -[<- <- <-]; rewrite /efreqs /evecs !size_map.
split; first by case: (e_freqs r').
split; first by case: (e_vecs r').
split=> // i hi; rewrite (nth_map 0) //.
case: (Req_dec (get_unit_freq u) 0) => [->|nz]; [by right|left].
exact: in_unit_back.
Qed.
Print Assumptions C41_returned.

(** After any history of unit changes, the same stored results read in the new
    unit: every value times the new unit is the old value times the old unit,
    and the new unit is the scale of the last valid name. *)
Theorem C41_rescale c1 c2 r l1 : let u1 := unit_run c1 ustate_init in let u2 := unit_run c2 u1 in
  efreqs u1 r = Ok l1 -> exists l2, efreqs u2 r = Ok l2 /\ size l2 = size l1 /\
  (exists k, (Z.le 0 k /\ Z.le k 12) /\ get_unit_freq u2 = scale k) /\
  forall i, (i < size l1)%N ->
    nth 0 l2 i * get_unit_freq u2 = nth 0 l1 i * get_unit_freq u1 /\
    nth 0 l1 i * (Rmult (Rmult (IZR 2) PI) (get_unit_freq u1)) = nth 0 (e_freqs r) i.
Proof.
move=> u1 u2; rewrite /efreqs; case: eqP => // _ [<-]; exists [seq in_unit u2 x | x <- e_freqs r].
have P : forall c, exists k, (Z.le 0 k /\ Z.le k 12) /\ get_unit_freq (unit_run c ustate_init) = scale k.
  by move=> c; have [_ [_ [_ H]]] := unit_always_valid c.
have E2 : u2 = unit_run (List.app c1 c2) ustate_init.
  by rewrite /u2 /u1 /unit_run List.fold_left_app.
have NZ c : get_unit_freq (unit_run c ustate_init) <> 0.
  have [k [_ ->]] := P c; apply: Rgt_not_eq; apply: powerRZ_lt; lra.
split=> //; split; first by rewrite !size_map.
split; first by rewrite E2; exact: P.
move=> i; rewrite size_map => hi; rewrite !(nth_map 0) //.
have n1 : get_unit_freq u1 <> 0 by exact: NZ.
have n2 : get_unit_freq u2 <> 0 by rewrite E2; exact: NZ.
by split; [exact: in_unit_rescale|exact: in_unit_back].
Qed.
Print Assumptions C41_rescale.

Example C41_case : let u2 := unit_run [:: CallFreq "MHz"; CallFreq "nope"]%string ustate_init in
  let r := mkE [:: Rmult (Rmult (IZR 2) PI) 5e9] [:: fun=> 1] in
  efreqs ustate_init r = Ok [:: IZR 5] /\ efreqs u2 r = Ok [:: IZR 5000].
Proof.
by split; rewrite /efreqs /=; congr (Ok [:: _]); apply: in_unit_case; rewrite /=; lra.
Qed.

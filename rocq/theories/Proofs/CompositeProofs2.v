(** CompositeProofs2.v -- what a diagonalised circuit brings to a system; the
    interaction matrix. *)
From Coq Require Import Reals ZArith String Lia.
From Verif.Model Require Import Base Units Elements Edge LCWB HamConst.
From mathcomp Require Import all_ssreflect all_algebra.
From mathcomp Require Import complex.
From Verif.Numerics Require Import RStruct Bridge.
From Verif.Model Require Import Transform Op Ham Diag CircuitSM Partial System.
From Verif.Spec Require Import OpSpec EigSpec PerturbSpec SessionSpec SystemSpec CompositeSpec.
From Verif.Proofs Require Import OpProofs HamProofs HamProofs2 HamProofs3 HamProofs4 SMProofs SMProofs2 SMProofs3.
From Verif.Proofs Require Import CapGrad SystemProofs SystemProofs2 SystemProofs3 CompositeProofs.
From Verif.Properties Require Import P_Ops P_Diag.

Set Implicit Arguments.
Unset Strict Implicit.
Unset Printing Implicit Defensive.
Import GRing.Theory.
Local Open Scope ring_scope.
Local Open Scope complex_scope.

Section Matched.
Variables (disp : nat -> C -> op) (optim : bool).

(** The matrices of a circuit belong together, whatever was assigned since. *)
Definition matched (x : circ) : Prop := exists s, synced optim s x.

Lemma matched_step w c w1 r : matched (w_x w) -> step disp optim w c = Some (w1, r) ->
  ~~ update_failed optim w c r -> matched (w_x w1).
Proof.
have M x x' : matched x -> x_fd x' = x_fd x -> x_st x' = x_st x -> x_dict x' = x_dict x ->
    x_c x' = x_c x -> x_C x' = x_C x -> matched x'.
  by move=> [s H] *; exists s; exact: synced_mats H _ _ _ _ _.
case: w => s u x; case: c => [nums|m a|m a|c p|u'|vs o|o| |eigs argsort k|rd] /= Hb.
- by rewrite /set_trunc; case: nums => [l|]; [case: ifP => _; [|case: mem_err => [e|]]|] => -[<- _] _ //=;
  exact: M Hb _ _ _ _ _.
- rewrite /set_offset; case: island_of => [i|]; last by case=> <- _ _.
  by case: ifP => _; [|case: mem_err => [e|]] => -[<- _] _; exact: M Hb _ _ _ _ _.
- by rewrite /set_charge_noise; case: island_of => [i|] -[<- _] _; [exact: M Hb _ _ _ _ _|].
- by case: c => [el|l] // [<- _] _.
- by case=> <- _ _.
- rewrite /set_params; case Eo: (~~ optim); first by case=> <- <- _.
  move: Eo => /negbFE Eo; have := assignE [seq q.1 | q <- c_params (x_c x)] vs s.
  case: assign => s1 e /= ->; rewrite size_map; case: ifP => Hle; last by case=> <- <- _.
  case EU: CircuitSM.update => [[x1 [e1|]]|] // [<- <-] /=; first by rewrite Eo.
  by move=> _; exists s1; apply: synced_update EU.
- case EU: CircuitSM.update => [[x1 [e1|]]|] // [<- <-] //= _; exists s; exact: synced_update EU.
- rewrite /hamil; case: ifP => _; [|case: foldl => M' h] => -[<- _] _ //; exact: M Hb _ _ _ _ _.
- rewrite /diag_sm; case: ifP => _; first by case=> <- _ _.
  case: k => [k|]; last by case=> <- _ _.
  rewrite /hamil; case: ifP => _; [|case: foldl => M' h]; case: diag => e h' -[<- _] _;
  exact: M Hb _ _ _ _ _.
- by case=> <- _ _.
Qed.

Lemma matched_run cs : forall w tr, matched (w_x w) -> run disp optim w cs = Some tr -> updates_ok optim w cs tr ->
  matched (w_x (final w tr)).
Proof.
elim: cs => [|c cs IH] w tr Hb; first by case=> <-.
move=> /run_cons [w1 [r [tr' [Es Er ->]]]] /andP [Hu Hus].
by rewrite /final /=; apply: (IH w1 tr' _ Er Hus); exact: matched_step Hb Es Hu.
Qed.
End Matched.

Section Circuit.
Variables (disp : nat -> C -> op) (optim : bool) (x : circ) (H : op).
Hypothesis dg : diagonalised_as disp optim x H.

Lemma as_diagonalised : diagonalised disp optim x.
Proof.
have [o [s [lobj [fd [d [x0 [u [cs [tr [w [eigs [argsort [k [r [[E0 _] Er Hu [Ha [EH Hs]] Ed]]]]]]]]]]]]]]] := dg.
exists o, s, lobj, fd, d, x0, u, cs, tr, w, eigs, argsort, k, r; split=> //; split=> // H'.
by rewrite EH => -[<-].
Qed.

Lemma as_matched : matched optim x.
Proof.
have [o [s [lobj [fd [d [x0 [u [cs [tr [w [eigs [argsort [k [r [[E0 _] Er [Hu Ew] _ Ed]]]]]]]]]]]]]]] := dg.
have M0 : matched optim x0 by exists s; exact: synced_construct E0.
have := matched_run (w := mkW s u x0) M0 Er Hu; rewrite -Ew => M.
have St : step disp optim w (DiagC eigs argsort (Some k)) = Some (mkW (w_s w) (w_u w) x, Ok tt).
  by case: w Ed {Ew M} => s1 u1 x1 /= ->.
exact: (matched_step M St).
Qed.

Lemma as_facts : [/\ ready disp x, total (hof x) = dim H /\ herm H, orthonormal (dim H) (e_vecs (x_eig x)) &
  forall a, (a < size (e_vecs (x_eig x)))%N ->
    eigenpair H (nth 0 (e_freqs (x_eig x)) a)%:C (nth (fun=> 0) (e_vecs (x_eig x)) a)].
Proof.
have [o [s [lobj [fd [d [x0 [u [cs [tr [w [eigs [argsort [k [r [[E0 Hd] Er [Hu Ew] [Ha [EH Hs]] Ed]]]]]]]]]]]]]]] := dg.
have Rd := diagonalised_ready as_diagonalised.
have G : good disp (w_x w).
  by rewrite Ew; exact: (good_run (good_construct disp E0 : good disp (w_x (mkW s u x0))) Er Hu).
have [Eh [M [HM _]]] := hamilE (w_s w) G; rewrite EH in Eh.
have [dH Hh] := C35_hermitian Hd (esym Eh).
have hH : herm H by split=> // a b ha hb; exact: Hh.
move: Ed; rewrite /diag_sm; case: eqP => // m0; case Ehm: hamil => [xh Hr].
rewrite Ehm /= in HM EH; rewrite EH /diag /=; case En: diag_np => [e|//] [Ex _].
have ep := C40_eigenpairs Ha hH (fun ncv lam V Ee => (Hs ncv lam V Ee).1) En.
split=> //.
- by split; last exact: hH; rewrite dH -Ex HM.
- have [lam [V [ncv [Ee [_ [_ [p [Hp [s1 [s2 Hn]]]]]]]]]] := C40_pairing Ha En.
  have [_ On] := Hs _ _ _ Ee; rewrite -Ex /= => i j; rewrite s2 => hi hj.
  have hp l : (l < size lam)%N -> (nth 0%N p l < size lam)%N.
    move=> hl; have : nth 0%N p l \in iota 0 (size lam) by rewrite -(perm_mem Hp) mem_nth // (perm_size Hp) size_iota.
    by rewrite mem_iota add0n.
  transitivity (dot (dim H) (fun y => V y (nth 0%N p i)) (fun y => V y (nth 0%N p j))).
    by apply: eq_bigr => y _; rewrite (Hn i hi).2 (Hn j hj).2.
  have := On (nth 0%N p i) (nth 0%N p j); rewrite size_map size_iota => /(_ (hp _ hi) (hp _ hj)).
  rewrite !(nth_map 0%N) ?size_iota ?hp // !nth_iota ?hp // !add0n => ->.
  by rewrite nth_uniq ?(perm_size Hp) ?size_iota // (perm_uniq Hp) iota_uniq.
- by have := rd_size Rd; rewrite -Ex /= => Es a ha; apply: ep; rewrite -Es.
Qed.
End Circuit.

(** A diagonalised circuit was diagonalised for its Hamiltonian. *)
Lemma diagonalised_some disp optim x : (forall m a, dim (disp m a) = m) -> diagonalised disp optim x ->
  exists H, diagonalised_as disp optim x H.
Proof.
move=> Hd [o [s [lobj [fd [d [x0 [u [cs [tr [w [eigs [argsort [k [r [E0 Er [Hu Ew] [Ha Hs] Ed]]]]]]]]]]]]]]].
have [H EH] : exists H, (hamil (w_s w) (w_x w)).2 = Ok H.
  move: Ed; rewrite /diag_sm; case: eqP => // _; case: hamil => xh [H|e] //= _; by exists H.
exists H, o, s, lobj, fd, d, x0, u, cs, tr; exists w, eigs, argsort, k, r; split=> //; split=> //; split=> //.
exact: Hs.
Qed.

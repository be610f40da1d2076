(** P_SystemDims.v -- C96: a system whose circuits are diagonalised again. *)
From Coq Require Import Reals ZArith String Lia.
From Verif.Model Require Import Base Units Elements Edge LCWB HamConst.
From mathcomp Require Import all_ssreflect all_algebra.
From mathcomp Require Import complex.
From Verif.Numerics Require Import RStruct Bridge.
From Verif.Model Require Import Transform Op Ham Diag CircuitSM Partial System SystemDims.
From Verif.Spec Require Import OpSpec EigSpec PerturbSpec SessionSpec SystemSpec.
From Verif.Proofs Require Import OpProofs HamProofs HamProofs2 HamProofs4 SMProofs SMProofs3 SystemProofs SystemProofs2 SystemProofs3.
From Verif.Proofs Require Import TransProofs SessionCase CapCase SystemCase SystemCase2 SystemCase3 SystemCase4 SystemDimsProofs.
From Verif.Properties Require Import P_Diag P_System P_SystemHam.

Set Implicit Arguments.
Unset Strict Implicit.
Unset Printing Implicit Defensive.
Import GRing.Theory.
Local Open Scope ring_scope.
Local Open Scope complex_scope.

(** The number of levels of a circuit at some time. *)
Definition levels_of (circs : nat -> circ) (c : nat) : nat := size (e_freqs (x_eig (circs c))).

(** As long as the circuits keep the numbers of levels they had when the system was made,
    no sum is refused and the Hamiltonian is the one of C55. *)
Theorem C96_sums disp optim circs u cps S s : system circs u cps = Ok S ->
  (forall c, c \in s_ids S -> diagonalised disp optim (circs c)) ->
  match q_hamiltonian circs s u S, s_hamiltonian circs s u S with
  | Ok None, Ok None => True
  | Ok (Some X), Ok (Some H) => q_op X = H /\ q_dims X = [seq levels_of circs c | c <- s_ids S]
  | Err e, Err e' => e = e'
  | _, _ => False
  end.
Proof.
move=> made dz.
have [<- h] := hamiltonian_sized s made (fun c hc => rd_size (diagonalised_ready (dz c hc))).
case: q_hamiltonian h => [[X|]|e] h //=; split=> //.
by rewrite (h X erefl); have [_ _ _ -> _] := systemP made.
Qed.

(** A system made earlier and one made now from the same couplings. *)
Section Again.
Variables (circs circs' : nat -> circ) (u u' : ustate) (cps : seq couple) (S S' : sys) (s : store).
Hypothesis made : system circs u cps = Ok S.
Hypothesis anew : system circs' u' cps = Ok S'.
Hypothesis nodes : forall c, c \in s_ids S -> x_n (circs' c) = x_n (circs c).

(** With equal numbers of levels, or with a single circuit, both give the same Hamiltonian
    (or the same error): the system follows its circuits. *)
Theorem C96_follows : (forall c, c \in s_ids S -> levels_of circs' c = levels_of circs c) \/ (size (s_ids S) <= 1)%N ->
  q_hamiltonian circs' s u' S = q_hamiltonian circs' s u' S'.
Proof.
have -> : S' = with_tr S (s_tr S').
  have [_ E1] := (I, made); have E2 := anew; move: E1 E2; rewrite /system.
  case: num_eigs => // l [ES]; case: num_eigs => // l' [<-]; rewrite -ES /with_tr; congr mkSys.
  by congr sumn; apply/eq_in_map => c hc; apply: nodes; rewrite -ES.
case=> [H|one]; last by apply: single_hamiltonian.
suff -> : s_tr S' = s_tr S by case: (S).
have [_ E1 _ E3 _] := systemP made; have [_ E2 _ E4 _] := systemP anew.
rewrite E3 E4 E2 -E1; apply/eq_in_map => c hc; exact: H.
Qed.

(** With two or more circuits, one of which has another number of levels, it raises. *)
Theorem C96_refused c : (1 < size (s_ids S))%N -> c \in s_ids S -> levels_of circs' c <> levels_of circs c ->
  q_hamiltonian circs' s u' S = Err TypeError.
Proof.
move=> h2 hc ne; have [_ E1 _ E3 _] := systemP made; have [_ E2 _ E4 nz] := systemP anew.
have now : num_eigs circs' u' (s_ids S) = Ok [seq levels_of circs' c | c <- s_ids S].
  by apply: num_eigs_ok; rewrite E1 -E2.
apply: (later_refused made now s h2) => E; apply: ne.
by have := congr1 (nth 0%N ^~ (index c (s_ids S))) E; rewrite E3 !(nth_map 0%N) ?index_mem // nth_index.
Qed.
End Again.
Print Assumptions C96_sums.
Print Assumptions C96_follows.
Print Assumptions C96_refused.

(** One of the circuits of a system is diagonalised again. *)
Definition replace (circs : nat -> circ) (c : nat) (x : circ) : nat -> circ := fun k => if k == c then x else circs k.

Theorem C96_diag eigs argsort circs u cps S s s' c k x f vs :
  system circs u cps = Ok S -> (1 < size (s_ids S))%N -> c \in s_ids S ->
  diag_sm eigs argsort u (Some k) s (circs c) = (x, Ok (f, vs)) -> f <> [::] ->
  size f <> levels_of circs c -> q_hamiltonian (replace circs c x) s' u S = Err TypeError.
Proof.
move=> made h2 hc; rewrite /diag_sm; case: eqP => // _; case: hamil => x1 r; rewrite /diag /=.
case: r => // H; case: diag_np => // r [<- <- _] f0 ne.
have sf : levels_of (replace circs c (put_eig x1 r)) c = size [seq in_unit u x0 | x0 <- e_freqs r].
  by rewrite /levels_of /replace eqxx size_map.
have [_ E1 _ _ nz] := systemP made.
have [S' anew] : exists S', system (replace circs c (put_eig x1 r)) u cps = Ok S'.
  rewrite /system -E1 num_eigs_ok; first by eexists.
  move=> k' hk; rewrite -/(levels_of _ k'); case: (k' =P c) => [->|/eqP nk]; last first.
    by rewrite /levels_of /replace (negbTE nk); apply: nz.
  by rewrite sf => /size0nil.
by apply: (C96_refused s' made anew h2 hc); rewrite sf.
Qed.
Print Assumptions C96_diag.

(** A diagonalised circuit can be diagonalised again. *)
Lemma again disp optim x : diagonalised disp optim x -> exists s H, (hamil s x).2 = Ok H.
Proof.
move=> dz; have rx := diagonalised_ready dz; move: dz.
move=> [o [s [lobj [fd [d [x0 [u [cs [tr [w [eigs [argsort [k [r [E0 Er [Hu Ew] [Ha _] Ed]]]]]]]]]]]]]]].
have G0 := good_construct disp E0; have G := good_run (G0 : good disp (w_x (mkW s u x0))) Er Hu.
move: Ed; rewrite /diag_sm; case: eqP => // m0.
have [Eh [M [HM _]]] := hamilE (w_s w) G; rewrite -Ew in HM Eh.
case EH: hamil => [xh H]; rewrite EH /= in HM Eh.
rewrite /diag /=; case: H EH Eh => [H|e] EH Eh //; case En: diag_np => [e|//] [Ex _].
exists (w_s w), H; have [-> _] := hamilE (w_s w) (rd_good rx).
by rewrite Eh -Ex HM.
Qed.

(** A system follows its circuits? Not when they are diagonalised again with fewer
    levels: the two circuits of C55, the first diagonalised again. *)
Theorem C96_refuted disp optim (lobj : nat -> lrec) : exists x y S H s x' r,
  [/\ diagonalised disp optim x /\ diagonalised disp optim y,
      system (two_circs x y) ustate_init two_cps = Ok S,
      q_hamiltonian (two_circs x y) (cap_store 1) ustate_init S = Ok (Some H) /\ q_dims H = [:: 3; 1]%N,
      diag_sm one_eigs argsort0 ustate_init (Some (Zpos xH)) s x = (x', Ok r) &
      q_hamiltonian (replace (two_circs x y) 0 x') (cap_store 1) ustate_init S = Err TypeError].
Proof.
have [x [dx [nx n0x] [Cx Rx] fx HQ]] := tw_diag disp optim lobj.
have [y [dy [ny n0y] [Cy Ry] fy]] := one_diag disp optim lobj.
have [A EA HA] := two_coef nx n0x Cx Rx ny n0y Cy Ry.
have made := two_made ustate_init nx fx ny fy.
set S := mkSys _ _ _ _ in made EA.
have dd c : c \in s_ids S -> diagonalised disp optim (two_circs x y c) by rewrite /two_circs; case: eqP.
have [H EH] := C55_total made dd (isT : (0 < s_sub S)%N) EA.
have := C96_sums (cap_store 1) made dd; rewrite EH.
case EQ: q_hamiltonian => [[X|//]|//] [EX dX].
have rx := diagonalised_ready dx; have [s [K EK]] := again dx.
have [x' [r [Ed Ee _ _ _]]] := diag_ok ustate_init (eigs := one_eigs) (k := Zpos xH) (rd_good rx) (rd_m rx) EK erefl.
exists x, y, S, X, s, x', r; split=> //.
  by split=> //; rewrite dX /= /levels_of /two_circs /= fx fy.
case: r Ed => f vs Ed.
have sf : size f = 1%N.
  move: Ed Ee; rewrite /diag_sm; case: eqP => // _; case: hamil => x1 [h|//]; rewrite /diag /=.
  by case=> _ <- _ _.
apply: (C96_diag (cap_store 1) made (isT : (1 < size (s_ids S))%N) (c := 0%N) _ Ed) => //.
  by move=> E; rewrite E in sf.
by rewrite sf /levels_of /two_circs /= fx.
Qed.
Print Assumptions C96_refuted.

(** A system of one circuit coupled to itself follows it, whatever the number of levels. *)
Example C96_case circs circs' u u' S S' s : system circs u [:: mkCp 0 (ANode 1) 0 (ANode 2) 5] = Ok S ->
  system circs' u' [:: mkCp 0 (ANode 1) 0 (ANode 2) 5] = Ok S' -> x_n (circs' 0%N) = x_n (circs 0%N) ->
  q_hamiltonian circs' s u' S = q_hamiltonian circs' s u' S'.
Proof.
move=> E E' n; apply: (C96_follows s E E').
  by have [_ -> _ _ _] := systemP E; move=> c; rewrite inE => /eqP ->.
by right; have [_ -> _ _ _] := systemP E.
Qed.

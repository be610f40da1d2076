(** CopyCase.v -- the oscillator of SessionCase.v with components that require
    grad, and with the inductor placed twice. *)
From Coq Require Import Reals ZArith String Lra Lia.
From Verif.Model Require Import Base Units Settings Elements Edge LCWB Rounding Accuracy HamConst Trunc.
From Verif.Spec Require Import GraphSpec CircuitSpec.
From Verif.Proofs Require Import EdgeProofs LCWBProofs.
Lemma tw_sumL l : (0 < l -> 0 + (0 + 1 / (2 * (l * l)) + 1 / (2 * (l * l))) * 1 = / l * / l)%R.
Proof. intros H. field. lra. Qed.
Lemma tw_sumC : (0 + (0 + 1 + 0 + 0) * 1 = 1)%R. Proof. ring. Qed.
From mathcomp Require Import all_ssreflect all_algebra.
From mathcomp Require Import complex.
From Verif.Numerics Require Import RStruct Bridge.
From Verif.Model Require Import FluxDist Transform Op Ham Diag CircuitSM Copy.
From Verif.Spec Require Import TransSpec SessionSpec CopySpec.
From Verif.Proofs Require Import AccProofs TransProofs TransProofs1 TransProofs2 TransProofs3.
From Verif.Proofs Require Import TransProofs4 TransProofs6 RemovalCase SMProofs SessionCase.

Set Implicit Arguments.
Unset Strict Implicit.
Unset Printing Implicit Defensive.
Import GRing.Theory.
Local Open Scope ring_scope.

(** Capacitance 1 (element 0), an inductor (element 1) k times with own capacitor
    2; [rq] tells what requires grad. *)
Definition cp_store (v : R) (rq : nat -> bool) : store :=
  mkStore (fun i => if i == 1%N then KInd else KCap)
          (fun i => if i == 0%N then R1 else if i == 1%N then v else R0)
          rq (fun=> true) (fun=> 2%N) (fun=> [::]) (fun=> R0) (fun=> false) (fun=> true).
Definition cp_dict (twice : bool) : seq (edge * seq nat) :=
  [:: ((Z0, Zpos xH), if twice then [:: 0; 1; 1]%N else [:: 0; 1]%N)].
Definition cp_val (twice : bool) (l : R) : R := if twice then Rmult (IZR 2) (Rmult l l) else Rmult l l.

Lemma cp_lcwb optim l rq twice lobj : Rlt 0 l -> exists c,
  [/\ get_LCWB optim (cp_store (cp_val twice l) rq) "junctions" (Zpos xH) lobj (cp_dict twice) = Ok c,
      [/\ c_W c = [::], c_loops c = [::] & c_njwi c = 0%N], c_C c 0%N 0%N = 1 & c_L c 0%N 0%N = l^-1 * l^-1].
Proof.
move=> l0; have ll := Rmult_lt_0_compat _ _ l0 l0.
case: twice; rewrite /get_LCWB /= /eff_ind /= /pydiv.
  case: Req_EM_T => [E|_] /=; first by exfalso; lra.
  eexists; split; first by reflexivity.
  - by split.
  - exact: tw_sumC.
  - by rewrite -RinvE; exact: tw_sumL.
case: Req_EM_T => [E|_] /=; first by exfalso; lra.
eexists; split; first by reflexivity.
- by split.
- exact: lc_sumC.
- by rewrite -RinvE; exact: lc_sumL.
Qed.

Lemma cp_construct optim l rq twice lobj : Rlt 0 l -> exists x,
  construct optim (lc_or l) (cp_store (cp_val twice l) rq) lobj "junctions" (cp_dict twice) = Some (Ok x) /\
  x_dict x = cp_dict twice.
Proof.
move=> l0; have [c [Ec [EW El kj] EC EL]] := cp_lcwb optim rq twice lobj l0.
have [st0 Est0] : exists st0, t_init 1 (size (c_W c)) (c_njwi c) (c_C c) (c_L c) (rows (c_W c)) = Ok st0.
  rewrite /t_init /inv; have -> : toM 1 1 (c_C c) = 1%:M by apply/matrixP => i j; rewrite !mxE !ord1 EC eqxx.
  by rewrite unitmx1; eexists.
have Et := Est0; rewrite EW kj /= in Et.
have [st [Er [Hn Hm Hc]]] := lc_trans (W := rows [::]) l0 erefl EC EL Et.
have [B EB] : exists B, b_of 1 (o_sv (lc_or l)) c = Ok B.
  by rewrite /b_of /flux_dist El /=; eexists.
rewrite /construct /build.
have -> : node_count (List.map fst (cp_dict twice)) = Ok (Zpos xH) by case: (twice).
cbn [negb orb String.eqb bind]; rewrite /= in Ec *; rewrite Ec; cbn [bind].
rewrite -[Z.to_nat _]/1%N EB Est0 Er.
by eexists; split; first by reflexivity.
Qed.

(** The heap: elements 0, 1, 2; no loops. *)
Definition cp_heap (v : R) (rq : nat -> bool) : heap := mkHp (cp_store v rq) 3 0.
Lemma cp_on x twice i : x_dict x = cp_dict twice -> on_edge x i <-> i \in [:: 0; 1]%N.
Proof.
rewrite /on_edge => ->; split; first by case: twice => -[p [[<-|//] /=]]; rewrite !inE; do ?[case/orP]; move/eqP => ->.
move=> hi; eexists; split; first by left.
by move: hi; case: twice; rewrite !inE /=; case/orP => /eqP ->.
Qed.
Lemma cp_lives optim l rq twice lobj x : Rlt 0 l ->
  construct optim (lc_or l) (cp_store (cp_val twice l) rq) lobj "junctions" (cp_dict twice) = Some (Ok x) ->
  lives 3 0 (cp_store (cp_val twice l) rq) x.
Proof.
move=> l0 E; have [c [Ec [_ El _] _ _]] := cp_lcwb optim rq twice lobj l0.
have [n [c1 [B [st [[st0 [Ec1 _ _ _]] [En Ex]]]]]] := constructP E.
have D : x_dict x = cp_dict twice by rewrite Ex.
have n1 : Z.of_nat n = Zpos xH by move: En; case: (twice) => /= -[<-].
rewrite n1 Ec in Ec1; case: Ec1 => ?; subst c1.
have L0 : c_loops (x_c x) = [::] by rewrite Ex.
split=> i.
- case=> [/(cp_on _ D)|[el [_ _ ->]]] //; by rewrite !inE => /orP [] /eqP ->.
- by case; rewrite ?L0 // => -[el [_ _]].
Qed.

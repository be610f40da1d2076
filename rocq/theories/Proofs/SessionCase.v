(** SessionCase.v -- two circuits that are built: an oscillator on one node, and
    two uncoupled oscillators of which one is removed. *)
From Coq Require Import Reals ZArith String Lra Lia.
From Verif.Model Require Import Base Units Settings Elements Edge LCWB Rounding Accuracy HamConst Trunc.
From Verif.Spec Require Import GraphSpec CircuitSpec.
From Verif.Proofs Require Import EdgeProofs LCWBProofs.

Lemma lc_sumC : (0 + (0 + 1 + 0) * 1 = 1)%R. Proof. ring. Qed.
Lemma lc_sumL l : (0 < l -> 0 + (0 + 1 / (l * l)) * 1 = / l * / l)%R.
Proof. intros H. field. lra. Qed.
Lemma rm_sum1 : (0 + (0 + 1 + 0 + 0) * 0 + (0 + 1 + 0) * 1 = 1)%R. Proof. ring. Qed.
Lemma rm_sum0 : (0 + (0 + 1 + 0 + 0) * 0 + (0 + 1 + 0) * 0 = 0)%R. Proof. ring. Qed.
Lemma rm_sum2 : (0 + (0 + 1 + 0 + 0) * 1 + (0 + 1 + 0) * 0 = 1)%R. Proof. ring. Qed.
Lemma rm_sum4 : (0 + (0 + 1 / 1) * 0 + (0 + 1 / / 4) * 1 = 4)%R. Proof. field. Qed.
Lemma rm_sum5 : (0 + (0 + 1 / 1) * 0 + (0 + 1 / / 4) * 0 = 0)%R. Proof. field. Qed.
Lemma rm_sum6 : (0 + (0 + 1 / 1) * 1 + (0 + 1 / / 4) * 0 = 1)%R. Proof. field. Qed.

From mathcomp Require Import all_ssreflect all_algebra.
From mathcomp Require Import complex.
From Verif.Numerics Require Import RStruct Bridge.
From Verif.Model Require Import FluxDist Transform Op Ham Diag CircuitSM.
From Verif.Spec Require Import TransSpec SessionSpec.
From Verif.Proofs Require Import AccProofs TransProofs TransProofs1 TransProofs2 TransProofs3.
From Verif.Proofs Require Import TransProofs4 TransProofs6 RemovalCase SMProofs.

Set Implicit Arguments.
Unset Strict Implicit.
Unset Printing Implicit Defensive.
Import GRing.Theory.
Local Open Scope ring_scope.

(** Capacitance 1 and inductance l^2 between node 1 and ground. *)
Definition lc_store (l : R) : store :=
  mkStore (fun i => if i == 1%N then KInd else KCap)
          (fun i => if i == 0%N then R1 else if i == 1%N then l * l else R0)
          (fun=> false) (fun=> true) (fun=> 2%N) (fun=> [::]) (fun=> R0) (fun=> false) (fun=> true).
Definition lc_dict : seq (edge * seq nat) := [:: ((Z0, Zpos xH), [:: 0; 1]%N)].
Definition lc_or (l : R) : oracle :=
  mkO (fun _ _ _ => [::]) eye (fun=> l^-1) eye (fun=> l^-1 * l^-1) 1 0 (fun=> [::]) (fun _ _ => [::]).

Lemma lc_lcwb optim l lobj : Rlt 0 l -> exists c,
  [/\ get_LCWB optim (lc_store l) "junctions" (Zpos xH) lobj lc_dict = Ok c,
      c_W c = [::] /\ c_loops c = [::], c_C c 0%N 0%N = 1, c_L c 0%N 0%N = l^-1 * l^-1 &
      c_keys_ind c = [:: ((Z0, Zpos xH), 1%N, 0%N)] /\ c_keys_jj c = [::]].
Proof.
move=> l0; rewrite /get_LCWB /=.
have nz : Rmult l l <> R0 by move: (Rmult_lt_0_compat _ _ l0 l0) => h E; rewrite E in h; apply: Rlt_irrefl h.
rewrite /eff_ind /= /pydiv; case: Req_EM_T => [E|_]; first by case: nz.
eexists; split; first by reflexivity.
- by [].
- exact: lc_sumC.
- by rewrite -RinvE; exact: lc_sumL.
- by [].
Qed.

Lemma lc_pos l : Rlt 0 l -> Rlt 0 l^-1.
Proof. by move=> h; rewrite -RinvE; apply: Rinv_0_lt_compat. Qed.

Lemma lc_trans o l Cm Lm W st0 : Rlt 0 l -> o = lc_or l -> Cm 0%N 0%N = 1 -> Lm 0%N 0%N = l^-1 * l^-1 ->
  t_init 1 0 0 Cm Lm W = Ok st0 -> exists st, transform_run o st0 = Some (st, None) /\
    [/\ t_n st = 1%N, t_m st = 0%N & is_charge st 0%N = false].
Proof.
move=> l0 -> HC HL EI; have lp := lc_pos l0.
have EC : toM 1 1 Cm = toM 1 1 eye by apply/matrixP => i j; rewrite !mxE !ord1.
have EL : toM 1 1 Lm = toM 1 1 (dg (fun=> l^-1 * l^-1)) by apply/matrixP => i j; rewrite !mxE !ord1.
have root : root_of (toM 1 1 Cm) (toM 1 1 eye) by rewrite EC toM_eye; split; rewrite ?trmx1 ?mulmx1.
have lroot : root_of (toM 1 1 Lm) (toM 1 1 (dg (fun=> l^-1))).
  rewrite EL !toM_dg; split; first exact: tr_diag_mx.
  by rewrite mulmx_diag; congr diag_mx; apply/rowP => i; rewrite !mxE.
have svd : svd_of (toM 1 1 (dg (fun=> l^-1)) *m invmx (toM 1 1 eye)) (toM 1 1 eye) (toM 1 1 eye) (toV 1 (fun=> l^-1)).
  rewrite toM_eye toM_dg; split; rewrite ?trmx1 ?invmx1 ?mulmx1 ?mul1mx //.
  by move=> i; rewrite mxE; apply: Rlt_le.
have nz : l^-1 <> 0 by move=> E; rewrite E in lp; apply: Rlt_irrefl lp.
have [st1 [s1 [r1 E1]]] := trans1_total (eigL := fun=> l^-1 * l^-1) EI isT root svd (fun _ _ _ => nz).
have [k [Ek Hn Hf _ [[Em _] _]]] := trans1_all EI root lroot svd E1.
have [st2 [s3 [r3 E3]]] := trans3_total Hn Hf.
exists st2; rewrite /transform_run /= E1 Em /= E3; split=> //.
have [[Eom [Em2 [En2 _]]] _ _ _ _] := trans3E Hn Hf E3.
split.
- by rewrite En2; case: Hn => _ [].
- by rewrite Em2.
have k0 : k = 0%N.
  have := congr1 size Ek; rewrite size_iota /sing_locs.
  have rr (v : vec) : rmax 1 v = v 0%N by [].
  rewrite !rr; have -> : (l^-1 == 0) = false by apply/negbTE/eqP.
  set a := (l^-1 * l^-1); have nza : a <> 0 by move/eqP; rewrite mulf_eq0 orbb => /eqP.
  rewrite size_iota /=; case: RltbP => // h; exfalso; move: h.
  change (~ Rlt (Rmult a (Rinv a)) acc_sing); rewrite Rinv_r // /acc_sing; lra.
rewrite /is_charge Eom; case: Hn => _ [_ _] _ _ [_ [_ [_ [_ ->]]]] //.
by rewrite k0 /=; apply/negbTE/eqP.
Qed.

Lemma lc_built optim l lobj : Rlt 0 l -> exists c B st,
  built optim (lc_or l) (lc_store l) "junctions" lc_dict 1 lobj c B st /\
  [/\ t_n st = 1%N, t_m st = 0%N, is_charge st 0%N = false &
      c_keys_ind c = [:: ((Z0, Zpos xH), 1%N, 0%N)] /\ c_keys_jj c = [::] /\ c_loops c = [::]].
Proof.
move=> l0; have [c [Ec [EW El] EC EL [Ei Ej]]] := lc_lcwb optim lobj l0.
have [st0 Est0] : exists st0, t_init 1 (size (c_W c)) (c_njwi c) (c_C c) (c_L c) (rows (c_W c)) = Ok st0.
  rewrite /t_init /inv; have -> : toM 1 1 (c_C c) = 1%:M by apply/matrixP => i j; rewrite !mxE !ord1 EC eqxx.
  by rewrite unitmx1; eexists.
have kj : c_njwi c = 0%N by move: Ec; rewrite /get_LCWB /= /eff_ind /= /pydiv; case: Req_EM_T => [//|_] [<-].
have Et := Est0; rewrite EW kj /= in Et.
have [st [Er [Hn Hm Hc]]] := lc_trans (W := rows [::]) l0 erefl EC EL Et.
have [B EB] : exists B, b_of 1 (o_sv (lc_or l)) c = Ok B.
  by rewrite /b_of /flux_dist El /=; eexists.
by exists c, B, st; split=> //; exists st0.
Qed.

Lemma lc_construct optim l lobj : Rlt 0 l -> exists x,
  [/\ construct optim (lc_or l) (lc_store l) lobj "junctions" lc_dict = Some (Ok x),
      x_n x = 1%N, is_charge (x_st x) 0%N = false & c_keys_ind (x_c x) = [:: ((Z0, Zpos xH), 1%N, 0%N)]].
Proof.
move=> l0; have [c [B [st [[st0 [Ec EB Ei Et]] [Hn Hm Hc [Hk _]]]]]] := lc_built optim lobj l0.
rewrite /construct /build [node_count _]/= -[Zpos xH]/(Z.of_nat 1); cbn [negb orb String.eqb bind].
rewrite /= in Ec *; rewrite Ec /= EB Ei Et.
have -> : finish_modes optim st = st by rewrite /finish_modes Hm.
by eexists; split; first by reflexivity.
Qed.

(** Capacitance 1 at both nodes, inductance 1/4 at the first; inductance 1 and a
    junction at the second. *)
Definition rm_store : store :=
  mkStore (fun i => if i == 1%N then KInd else if i == 3%N then KInd else if i == 4%N then KJJ else KCap)
          (fun i => if i == 0%N then R1 else if i == 1%N then Rinv (IZR 4) else if i == 2%N then R1
                    else if i == 3%N then R1 else if i == 4%N then R1 else R0)
          (fun=> false) (fun=> true) (fun=> 5%N) (fun=> [::]) (fun=> R0) (fun=> false) (fun=> true).
Definition rm_dict : seq (edge * seq nat) :=
  [:: ((Z0, Zpos (xO xH)), [:: 2; 3; 4]%N); ((Z0, Zpos xH), [:: 0; 1]%N)].
Definition rm_or : oracle :=
  mkO (fun _ _ _ => [::]) eye rmD eye rmL 1 0 (fun=> [::]) (fun _ _ => [::]).

Lemma rm_lcwb lobj : exists c,
  [/\ get_LCWB false rm_store "junctions" (Zpos (xO xH)) lobj rm_dict = Ok c,
      [/\ size (c_W c) = 1%N, c_njwi c = 0%N & c_loops c = [::]],
      toM 2 2 (c_C c) = toM 2 2 eye, toM 2 2 (c_L c) = toM 2 2 (dg rmL) &
      (forall j, (j < 2)%N -> rows (c_W c) 0%N j = rmW 0%N j)].
Proof.
rewrite /get_LCWB /= /eff_ind /= /pydiv; case: Req_EM_T => [E|_]; first by case: R1_neq_R0.
case: Req_EM_T => [E|_] /=; first by exfalso; move: E; lra.
eexists; split; first by reflexivity.
- by [].
- apply/matrixP => -[[|[|i]] hi] [[|[|j]] hj] //; rewrite !mxE /=.
  + exact: rm_sum1.
  + exact: rm_sum0.
  + exact: rm_sum0.
  + exact: rm_sum2.
- apply/matrixP => -[[|[|i]] hi] [[|[|j]] hj] //; rewrite !mxE /=.
  + exact: rm_sum4.
  + exact: rm_sum5.
  + exact: rm_sum5.
  + exact: rm_sum6.
- by move=> [|[|j]].
Qed.

(** One mode is left of the two. *)
Lemma rm_construct lobj : exists x,
  [/\ construct false rm_or rm_store lobj "junctions" rm_dict = Some (Ok x), x_n x = 1%N,
      x_dict x = rm_dict & is_charge (x_st x) 0%N = false].
Proof.
have [c [Ec [Hm Hkj El] HC HL HW]] := rm_lcwb lobj.
have [st [Er [En [En0 Em]] _ [w0 w1] [_ [o1 _]]]] := rm_run HC HL HW (o_sv rm_or) (o_order rm_or) 0 0 (o_draw rm_or).
have Eun : uncoupled st = [:: 0%N].
  rewrite /uncoupled En Em /= w0 eqxx /=.
  by have -> : (t_wT st 0%N 1%N == 0) = false by apply/negbTE/eqP.
have Ekp : kept_modes st = [:: 1%N] by rewrite /kept_modes Eun En.
have EB : b_of 2 (o_sv rm_or) c = Ok (fun _ _ => 0) by rewrite /b_of /flux_dist El.
move/transform_runE: (Er : transform_hamil (o_croot rm_or) (o_D0 rm_or) (o_U rm_or) (o_eigL rm_or)
  (o_tries rm_or) (o_fuel rm_or) (o_sv rm_or) (o_order rm_or) (o_draw rm_or) _ = _) => Et.
exists (mkX rm_dict "junctions" c (c_C c) (fun _ _ => 0) (remove_uncoupled st)
  [seq (if is_charge (remove_uncoupled st) i then Some (0, noise_default) else None) | i <- iota 0 (t_n (remove_uncoupled st))]
  [::] mem0 None (mkE [::] [::])).
split=> //; last 2 first.
- by rewrite /x_n /= Eun En.
- by rewrite /is_charge /= Ekp /= o1; apply/negbTE/eqP; apply: R1_neq_R0.
rewrite /construct /build [node_count _]/=; cbn [negb orb String.eqb bind].
rewrite /= in Ec *; rewrite Ec /= -[Pos.to_nat _]/2%N EB Hm Hkj (rm_init _ _ HC) Et.
by rewrite /finish_modes Em.
Qed.

(** CapCase.v -- a single capacitor, which gives one charge mode with R = sqrt C. *)
From Coq Require Import Reals ZArith String Lra Lia.
From Verif.Model Require Import Base Units Settings Elements Edge LCWB Rounding Accuracy HamConst Trunc PartialConst.
From Verif.Spec Require Import GraphSpec CircuitSpec ThermalSpec.
From Verif.Proofs Require Import EdgeProofs LCWBProofs.

Lemma cap_sumC r : (0 + (0 + r * r) * 1 = r * r)%R. Proof. ring. Qed.
Lemma cap_sumL : (0 + 0 * 1 = 0)%R. Proof. ring. Qed.

From mathcomp Require Import all_ssreflect all_algebra.
From mathcomp Require Import complex.
From Verif.Numerics Require Import RStruct Bridge.
From Verif.Model Require Import FluxDist Transform Op Ham Diag CircuitSM.
From Verif.Spec Require Import TransSpec SessionSpec.
From Verif.Proofs Require Import AccProofs TransProofs TransProofs1 TransProofs2 TransProofs3.
From Verif.Proofs Require Import TransProofs4 TransProofs6 RemovalCase SMProofs SessionCase.

Set Implicit Arguments.
Unset Strict Implicit.
Unset Printing Implicit Defensive.
Import GRing.Theory.
Local Open Scope ring_scope.

(** Capacitance r^2 between node 1 and ground. *)
Definition cap_store (r : R) : store :=
  mkStore (fun=> KCap) (fun i => if i == 0%N then r * r else R0)
          (fun=> false) (fun=> true) (fun=> 1%N) (fun=> [::]) (fun=> R0) (fun=> false) (fun=> true).
Definition cap_dict : seq (edge * seq nat) := [:: ((Z0, Zpos xH), [:: 0]%N)].
Definition cap_or (r : R) : oracle :=
  mkO (fun _ _ _ => [::]) (fun _ _ => r) (fun=> 0) eye (fun=> 0) 1 0 (fun=> [::]) (fun _ _ => [::]).

Lemma one_mx (A : arr) : toM 1 1 A = (A 0%N 0%N)%:M.
Proof. by apply/matrixP => i j; rewrite !mxE !ord1 eqxx. Qed.

Section One.
Variable r : R.
Hypothesis r0 : Rlt 0 r.
Let rn : r != 0.
Proof. by apply/eqP => E; apply: (Rlt_not_eq _ _ r0). Qed.

Lemma cap_lcwb optim lobj : exists c,
  [/\ get_LCWB optim (cap_store r) "junctions" (Zpos xH) lobj cap_dict = Ok c,
      [/\ c_W c = [::], c_loops c = [::] & c_njwi c = 0%N], c_C c 0%N 0%N = r * r /\ c_L c 0%N 0%N = 0,
      c_keys_ind c = [::] /\ c_keys_jj c = [::] &
      exists2 P, c_pm c 0%N = Some P & P 0%N 0%N = 1].
Proof.
rewrite /get_LCWB /=; eexists; split; first by reflexivity.
- by [].
- split; [exact: cap_sumC | exact: cap_sumL].
- by [].
- by eexists; [reflexivity|]; rewrite /= Rplus_0_l.
Qed.

Lemma cap_trans Cm Lm W st0 : Cm 0%N 0%N = r * r -> Lm 0%N 0%N = 0 ->
  t_init 1 0 0 Cm Lm W = Ok st0 -> exists st, transform_run (cap_or r) st0 = Some (st, None) /\
    [/\ t_n st = 1%N /\ t_n0 st = 1%N, t_m st = 0%N, is_charge st 0%N & t_R st 0%N 0%N = r].
Proof.
move=> HC HL EI.
have root : root_of (toM 1 1 Cm) (toM 1 1 (fun _ _ => r)).
  by rewrite !one_mx HC; split; rewrite ?tr_scalar_mx // -scalar_mxM.
have lroot : root_of (toM 1 1 Lm) (toM 1 1 (fun _ _ => 0)).
  by rewrite !one_mx HL; split; rewrite ?tr_scalar_mx // -scalar_mxM mul0r.
have svd : svd_of (toM 1 1 (fun _ _ => 0) *m invmx (toM 1 1 (fun _ _ => r))) (toM 1 1 eye) (toM 1 1 eye) (toV 1 (fun=> 0)).
  rewrite toM_eye; split; rewrite ?trmx1 ?mulmx1 ?mul1mx //.
    by rewrite one_mx -scalemx1 scale0r mul0mx; apply/matrixP => i j; rewrite !mxE mul0rn.
  by move=> i; rewrite mxE; apply: Rle_refl.
have sl : sing_locs 1 (fun=> 0) (fun=> 0) = [:: 0%N] by rewrite /sing_locs /= eqxx.
have nz i : (i < 1)%N -> i \notin sing_locs 1 (fun=> 0) (fun=> 0) -> (0 : R) <> 0 by case: i => // _; rewrite sl.
have [st1 [s1 [r1 E1]]] := trans1_total (eigL := fun=> 0) EI isT root svd nz.
have [k [Ek Hn Hf _ [[Em _] _]]] := trans1_all EI root lroot svd E1.
have k1 : k = 1%N by have := congr1 size Ek; rewrite sl size_iota.
have [st2 [s3 [r3 E3]]] := trans3_total Hn Hf.
have [Hf2 _] := trans3_frame E3 Hf.
exists st2; rewrite /transform_run /= E1 Em /= E3; split=> //.
have [[Eom [Em2 [En2 [En02 _]]]] _ _ ES _] := trans3E Hn Hf E3.
have ch : is_charge (set_omega st1) 0%N by rewrite (nf1_charge Hn) // k1.
split=> //; first by rewrite Em2.
  by rewrite /is_charge Eom.
have S1 : t_S st1 0%N 0%N = r^-1.
  have [_ _ _ _ [_ [_ [ES1 _]]]] := trans1_diag EI root lroot svd E1.
  rewrite ES1 /mmul big_ord1 /eye eqxx mul1r.
  have [E0 E00] : t_n st0 = 1%N /\ True by move: EI; rewrite /t_init; case: inv => // ci [<-].
  move: E1; rewrite /trans1 E0; case Ei: inv => [cri|//]; case: inv => [si|//] [_ <- _].
  have [_ Ec] := invP Ei; rewrite !one_mx invmx_scalar in Ec.
  have := congr1 (fun M : 'M_1 => M 0 0) Ec; rewrite !mxE eqxx !mulr1n => E.
  by rewrite mmul_dg // /scale_of /= eqxx sqrt_1 mulr1 /mmul big_ord1 /tr /eye eqxx mulr1.
have : t_S st2 0%N 0%N = r^-1 by rewrite ES // /scale3 ch mulr1.
move=> S2; case: Hf2 => _; rewrite !one_mx tr_scalar_mx -scalar_mxM => /matrixP /(_ 0 0).
rewrite !mxE S2 eqxx !mulr1n => E _; apply: (mulfI (invr_neq0 rn)); by rewrite E mulVf.
Qed.

Lemma cap_construct optim lobj : exists x,
  [/\ construct optim (cap_or r) (cap_store r) lobj "junctions" cap_dict = Some (Ok x),
      x_n x = 1%N /\ t_n0 (x_st x) = 1%N, is_charge (x_st x) 0%N,
      t_R (x_st x) 0%N 0%N = r /\ (x_C x 0%N 0%N = r * r /\ exists2 P, c_pm (x_c x) 0%N = Some P & P 0%N 0%N = 1) &
      x_dict x = cap_dict /\ (c_keys_ind (x_c x) = [::] /\ c_keys_jj (x_c x) = [::])].
Proof.
have [c [Ec [EW El Ek] [EC EL] [Ei Ej] Ep]] := cap_lcwb optim lobj.
have [st0 Est0] : exists st0, t_init 1 (size (c_W c)) (c_njwi c) (c_C c) (c_L c) (rows (c_W c)) = Ok st0.
  rewrite /t_init /inv one_mx EC; set u := (_ \in _).
  have -> : u by rewrite /u unitmxE det_scalar1 unitfE mulf_neq0.
  by eexists.
have Et := Est0; rewrite EW Ek /= in Et.
have [st [Er [[Hn Hn0] Hm Hc HR]]] := cap_trans EC EL Et.
have EB : b_of 1 (o_sv (cap_or r)) c = Ok (fun _ _ => 0) by rewrite /b_of /flux_dist El.
have Eb : build optim (cap_store r) "junctions" lobj cap_dict = Ok (Zpos xH, c).
  rewrite /build -[negb _]/false -[node_count _]/(Ok (Zpos xH)); cbn [bind].
  by move: Ec; rewrite -[LCWB.get_LCWB _ _ _ _ _ _]/(get_LCWB _ _ _ _ _ _) => ->.
rewrite /construct Eb -[Z.to_nat (Zpos xH)]/1%N EB Est0 Er.
have -> : finish_modes optim st = st by rewrite /finish_modes Hm.
by eexists; split; first by reflexivity.
Qed.

(** After [set_trunc_nums([2])]: charges -1, 0 and 1. *)
Lemma cap_set disp optim lobj x0 : construct optim (cap_or r) (cap_store r) lobj "junctions" cap_dict = Some (Ok x0) ->
  x_n x0 = 1%N -> is_charge (x_st x0) 0%N ->
  exists x1, [/\ set_trunc disp (Some [:: 2%N]) x0 = (x1, Ok tt), good disp x1,
    x_st x1 = x_st x0 /\ x_c x1 = x_c x0, x_C x1 = x_C x0 /\ x_dict x1 = x_dict x0 &
    [/\ x_n x1 = 1%N, x_m x1 = [:: 3%N] & h_ng (hof x1) 0%N = 0]].
Proof.
move=> E0 n1 ch; have G0 := good_construct disp E0.
have i0 : x_isl x0 = [:: Some (0, noise_default)].
  move: n1 ch; have [? [? [? [? [_ [_ ->]]]]]] := constructP E0; rewrite /x_n /= => -> /=.
  by move=> ->.
move: (good_set_trunc (Some [:: 2%N]) G0); rewrite /set_trunc n1 /= ch; set x1 := put_m _ _.
have c1 i : (i < x_n x1)%N -> is_charge (x_st x1) i -> isl x1 i := g_charge G0 (i := i).
have s1 : size (x_m x1) = x_n x1 by rewrite -[x_n x1]/(x_n x0) n1.
rewrite (mem_err_none s1 c1) => G1; eexists; split; [reflexivity|exact: G1|by []|by []|].
split=> //; by rewrite /= /ng_of /isl /= i0.
Qed.
End One.

(** The circuit of [rm_construct]: coordinates and sensitivities. *)
Lemma rm_pm lobj c : get_LCWB false rm_store "junctions" (Zpos (xO xH)) lobj rm_dict = Ok c ->
  (exists2 P, c_pm c 0%N = Some P & [/\ P 0%N 0%N = 1, P 0%N 1%N = 0, P 1%N 0%N = 0 & P 1%N 1%N = 0]) /\
  (exists2 P, c_pm c 2%N = Some P & [/\ P 0%N 0%N = 0, P 0%N 1%N = 0, P 1%N 0%N = 0 & P 1%N 1%N = 1]).
Proof.
rewrite /get_LCWB /= /eff_ind /= /pydiv; case: Req_EM_T => [E|_]; first by case: R1_neq_R0.
case: Req_EM_T => [E|_] /=; first by exfalso; move: E; lra.
by case=> <-; split; eexists; try reflexivity; split; rewrite /= Rplus_0_l.
Qed.

Lemma rm_detail lobj x : construct false rm_or rm_store lobj "junctions" rm_dict = Some (Ok x) ->
  [/\ x_n x = 1%N /\ t_n0 (x_st x) = 2%N, is_charge (x_st x) 0%N = false /\ toM 2 2 (x_C x) = 1%:M,
      [/\ t_R (x_st x) 0%N 0%N <> 0, t_R (x_st x) 0%N 1%N = 0, t_R (x_st x) 1%N 0%N = 0 & t_R (x_st x) 1%N 1%N <> 0],
      t_cI (x_st x) 0%N 0%N = t_R (x_st x) 1%N 1%N ^+ 2 /\ Rlt 0 (t_cI (x_st x) 0%N 0%N) /\ Rlt 0 (t_lT (x_st x) 0%N 0%N) &
      (exists2 P, c_pm (x_c x) 0%N = Some P & [/\ P 0%N 0%N = 1, P 0%N 1%N = 0, P 1%N 0%N = 0 & P 1%N 1%N = 0]) /\
      (exists2 P, c_pm (x_c x) 2%N = Some P & [/\ P 0%N 0%N = 0, P 0%N 1%N = 0, P 1%N 0%N = 0 & P 1%N 1%N = 1])].
Proof.
move=> /constructP [n [c [B [st [Hb [Hnc ->]]]]]]; have [E0 E1 E2] := built_size Hb.
have n2 : n = 2%N by move: Hnc; cbn; case=> E; rewrite -[n]Nat2Z.id -E.
move: Hb E0 E1; rewrite n2 => -[st0 [Ec _ Ei Et]] _ _.
have [c' [Ec' [Hm Hkj El] HC HL HW]] := rm_lcwb lobj.
have Ecc : c' = c by have := etrans (esym Ec') Ec; case.
subst c'; rewrite Hm Hkj (rm_init _ _ HC) in Ei; case: Ei => Est; rewrite -Est in Et.
have [st' [Er [En [En0 Em]] [S10 [S11 S01]] [w0 w1] [_ [o1 [cp lp]]]]] := rm_run HC HL HW (o_sv rm_or) (o_order rm_or) 0 0 (o_draw rm_or).
have Est' : st' = st by have := etrans (esym Er) ((transform_runE rm_or _ _).1 Et); case.
subst st'.
have Fr : frame 2 (c_C c) st.
  by apply: transform_frame Er _; have [H1 H2 H3 _ _] := canonical_init (rm_init (c_L c) (rows (c_W c)) HC).
have Eun : uncoupled st = [:: 0%N].
  rewrite /uncoupled En Em /= w0 eqxx /=.
  by have -> : (t_wT st 0%N 1%N == 0) = false by apply/negbTE/eqP.
have Ekp : kept_modes st = [:: 1%N] by rewrite /kept_modes Eun En.
have Ef : finish_modes false st = remove_uncoupled st by rewrite /finish_modes Em.
have ER : t_R (remove_uncoupled st) = t_R st by [].
case: Fr => _ SR EcI.
have SRe i j : (toM 2 2 (t_S st))^T *m toM 2 2 (t_R st) = 1%:M -> 
   (i < 2)%N -> (j < 2)%N -> t_S st 0%N i * t_R st 0%N j + t_S st 1%N i * t_R st 1%N j = (i == j)%:R.
  move=> /matrixP E hi hj; have := E (Ordinal hi) (Ordinal hj).
  by rewrite !mxE !big_ord_recl big_ord0 !mxE addr0 /=.
have e00 := SRe 0%N 0%N SR isT isT; have e01 := SRe 0%N 1%N SR isT isT.
have e10 := SRe 1%N 0%N SR isT isT; have e11 := SRe 1%N 1%N SR isT isT.
rewrite S10 S01 ?mul0r ?addr0 ?add0r /= in e00 e01 e10 e11.
have s0 : t_S st 0%N 0%N != 0.
  by apply/eqP => E; move: e00; rewrite E mul0r => /esym/eqP; rewrite oner_eq0.
have s1 : t_S st 1%N 1%N != 0 by apply/eqP.
have r01 : t_R st 0%N 1%N = 0 by move/eqP: e01; rewrite mulf_eq0 (negbTE s0) => /eqP.
have r10 : t_R st 1%N 0%N = 0 by move/eqP: e10; rewrite mulf_eq0 (negbTE s1) => /eqP.
have r00 : t_R st 0%N 0%N <> 0 by move=> E; move: e00; rewrite E mulr0 => /esym/eqP; rewrite oner_eq0.
have r11 : t_R st 1%N 1%N <> 0 by move=> E; move: e11; rewrite E mulr0 => /esym/eqP; rewrite oner_eq0.
have [q0 q2] := rm_pm Ec'.
rewrite Ef; split=> //.
- by split=> //; rewrite /x_n /= Eun En.
- split; last by rewrite -toM_eye.
  by rewrite /is_charge /= Ekp /= o1; apply/negbTE/eqP; apply: R1_neq_R0.
cbn [x_st]; have [idx [_ _ _ [HcI _ _ _ _]]] := removal st.
have -> : t_cI (remove_uncoupled st) 0%N 0%N = t_cI st 1%N 1%N by rewrite /remove_uncoupled /= Ekp.
have -> : t_lT (remove_uncoupled st) 0%N 0%N = t_lT st 1%N 1%N by rewrite /remove_uncoupled /= Ekp.
split=> //.
have := congr1 (fun M : 'M_2 => M (lift ord0 ord0) (lift ord0 ord0)) EcI.
rewrite HC toM_eye invmx1 mulmx1 !mxE !big_ord_recl big_ord0 !mxE /= -[bump 0 0]/1%N => ->.
by rewrite r01 mul0r add0r addr0 expr2.
Qed.

Lemma rm_set disp lobj x0 : construct false rm_or rm_store lobj "junctions" rm_dict = Some (Ok x0) ->
  exists x1, [/\ set_trunc disp (Some [:: 2%N]) x0 = (x1, Ok tt), good disp x1,
    x_st x1 = x_st x0 /\ x_c x1 = x_c x0, x_C x1 = x_C x0 /\ x_dict x1 = x_dict x0 &
    x_n x1 = 1%N /\ x_m x1 = [:: 2%N]].
Proof.
move=> E0; have [[n1 _] [ch _] _ _ _] := rm_detail E0; have G0 := good_construct disp E0.
move: (good_set_trunc (Some [:: 2%N]) G0); rewrite /set_trunc n1 /= ch; set x1 := put_m _ _.
have c1 i : (i < x_n x1)%N -> is_charge (x_st x1) i -> isl x1 i := g_charge G0 (i := i).
have s1 : size (x_m x1) = x_n x1 by rewrite -[x_n x1]/(x_n x0) n1.
by rewrite (mem_err_none s1 c1) => G1; eexists; split; [reflexivity|exact: G1|by []|by []|].
Qed.

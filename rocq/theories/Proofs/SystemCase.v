(** SystemCase.v -- a circuit of two equal capacitors: two charge modes with
    R = 1 and a degenerate first excited level. *)
From Coq Require Import Reals ZArith String Lra Lia.
From Verif.Model Require Import Base Units Settings Elements Edge LCWB Rounding Accuracy HamConst Trunc PartialConst.
From Verif.Spec Require Import GraphSpec CircuitSpec ThermalSpec.
From Verif.Proofs Require Import EdgeProofs LCWBProofs.

Lemma tw_s10 : (0 + (0 + R1 * R1) * 1 + (0 + R1 * R1) * 0 = R1)%R. Proof. ring. Qed.
Lemma tw_s01 : (0 + (0 + R1 * R1) * 0 + (0 + R1 * R1) * 1 = R1)%R. Proof. ring. Qed.
Lemma tw_s00 : (0 + (0 + R1 * R1) * 0 + (0 + R1 * R1) * 0 = R0)%R. Proof. ring. Qed.
Lemma tw_l e f : (0 + 0 * e + 0 * f = R0)%R. Proof. ring. Qed.

From mathcomp Require Import all_ssreflect all_algebra.
From mathcomp Require Import complex.
From Verif.Numerics Require Import RStruct Bridge.
From Verif.Model Require Import FluxDist Transform Op Ham Diag CircuitSM.
From Verif.Spec Require Import TransSpec SessionSpec.
From Verif.Proofs Require Import AccProofs TransProofs TransProofs1 TransProofs2 TransProofs3.
From Verif.Proofs Require Import TransProofs4 TransProofs6 RemovalCase SMProofs SessionCase CapCase.

Set Implicit Arguments.
Unset Strict Implicit.
Unset Printing Implicit Defensive.
Import GRing.Theory.
Local Open Scope ring_scope.

(** Both edges carry the capacitor 0 of [cap_store 1]. *)
Definition tw_dict : seq (edge * seq nat) := [:: ((Z0, Zpos xH), [:: 0]%N); ((Z0, Zpos (xO xH)), [:: 0]%N)].
Definition tw_or : oracle :=
  mkO (fun _ _ _ => [::]) eye (fun=> 0) eye (fun=> 0) 1 0 (fun=> [::]) (fun _ _ => [::]).

Lemma tw_lcwb optim lobj : exists c,
  [/\ get_LCWB optim (cap_store 1) "junctions" (Zpos (xO xH)) lobj tw_dict = Ok c,
      [/\ c_W c = [::], c_loops c = [::] & c_njwi c = 0%N],
      toM 2 2 (c_C c) = 1%:M /\ toM 2 2 (c_L c) = 0 & c_keys_ind c = [::] /\ c_keys_jj c = [::]].
Proof.
rewrite /get_LCWB /=; eexists; split; first by reflexivity.
- by [].
- split; apply/matrixP => -[[|[|i]] hi] [[|[|j]] hj] //; rewrite !mxE /=.
  + exact: tw_s10.
  + exact: tw_s00.
  + exact: tw_s00.
  + exact: tw_s01.
  + exact: tw_l.
  + exact: tw_l.
  + exact: tw_l.
  + exact: tw_l.
- by [].
Qed.

(** Unit capacitances and no inductors: every mode is a charge mode, R = 1. *)
Lemma unit_trans n Cm Lm W st0 : (0 < n)%N -> toM n n Cm = 1%:M -> toM n n Lm = 0 ->
  t_init n 0 0 Cm Lm W = Ok st0 -> exists st, transform_run tw_or st0 = Some (st, None) /\
    [/\ t_n st = n /\ t_n0 st = n, t_m st = 0%N, forall i, (i < n)%N -> is_charge st i,
        toM n n (t_R st) = 1%:M & toM n n (t_cI st) = 1%:M].
Proof.
move=> n0 HC HL EI.
have root : root_of (toM n n Cm) (toM n n eye) by rewrite HC toM_eye; split; rewrite ?trmx1 ?mulmx1.
have lroot : root_of (toM n n Lm) (toM n n (fun _ _ => 0)).
  have -> : toM n n (fun _ _ => 0) = 0 by apply/matrixP => i j; rewrite !mxE.
  by rewrite HL; split; rewrite ?trmx0 ?mulmx0.
have svd : svd_of (toM n n (fun _ _ => 0) *m invmx (toM n n eye)) (toM n n eye) (toM n n eye) (toV n (fun=> 0)).
  rewrite toM_eye; split; rewrite ?trmx1 ?mulmx1 ?mul1mx ?invmx1 //.
    by rewrite mulmx1; apply/matrixP => i j; rewrite !mxE mul0rn.
  by move=> i; rewrite mxE; apply: Rle_refl.
have m0 : rmax n (fun=> 0) = 0.
  by clear -n; elim: n => //= -[|n] //= ->; rewrite Rmax_left //; apply: Rle_refl.
have sl : sing_locs n (fun=> 0) (fun=> 0) = iota 0 n by rewrite /sing_locs m0 eqxx.
have nz i : (i < n)%N -> i \notin sing_locs n (fun=> 0) (fun=> 0) -> (0 : R) <> 0 by rewrite sl mem_iota => ->.
have [st1 [s1 [r1 E1]]] := trans1_total (eigL := fun=> 0) EI n0 root svd nz.
have [k [Ek Hn Hf _ [[Em _] _]]] := trans1_all EI root lroot svd E1.
have k1 : k = n by have := congr1 size Ek; rewrite sl !size_iota.
have [st2 [s3 [r3 E3]]] := trans3_total Hn Hf.
have [Hf2 _] := trans3_frame E3 Hf.
exists st2; rewrite /transform_run /= E1 Em /= E3; split=> //.
have [[Eom [Em2 [En2 [En02 _]]]] _ _ ES _] := trans3E Hn Hf E3.
have ch i : (i < n)%N -> is_charge (set_omega st1) i by move=> hi; rewrite (nf1_charge Hn) // k1 subnn.
have S1 : toM n n (t_S st1) = 1%:M.
  have [_ _ _ _ [_ [_ [ES1 _]]]] := trans1_diag EI root lroot svd E1.
  rewrite ES1 toM_mmul toM_eye mul1mx.
  have E0 : t_n st0 = n by move: EI; rewrite /t_init; case: inv => // ci [<-].
  move: E1; rewrite /trans1 E0; case Ei: inv => [cri|//]; case: inv => [si|//] [_ <- _].
  have [_ Ec] := invP Ei; rewrite !toM_mmul toM_dg toM_tr toM_eye trmx1 mulmx1 Ec toM_eye invmx1 mul1mx.
  rewrite -diag_const_mx; congr diag_mx; apply/rowP => i; rewrite !mxE /scale_of m0 eqxx; exact: sqrt_1.
have S2 : toM n n (t_S st2) = 1%:M.
  rewrite -S1; apply/matrixP => i j; rewrite !mxE ES // /scale3 -/(is_charge _ _).
  by rewrite ch // mulr1.
have R2 : toM n n (t_R st2) = 1%:M by case: Hf2 => _; rewrite S2 trmx1 mul1mx.
split=> //; first by rewrite Em2.
- by move=> i hi; rewrite /is_charge Eom; apply: ch.
- by case: Hf2 => _ _ ->; rewrite R2 HC invmx1 trmx1 !mulmx1.
Qed.

Lemma tw_construct optim lobj : exists x,
  [/\ construct optim tw_or (cap_store 1) lobj "junctions" tw_dict = Some (Ok x),
      x_n x = 2%N /\ t_n0 (x_st x) = 2%N, forall i, (i < 2)%N -> is_charge (x_st x) i,
      [/\ toM 2 2 (t_R (x_st x)) = 1%:M, toM 2 2 (x_C x) = 1%:M & toM 2 2 (t_cI (x_st x)) = 1%:M] &
      x_dict x = tw_dict /\ (c_keys_ind (x_c x) = [::] /\ c_keys_jj (x_c x) = [::])].
Proof.
have [c [Ec [EW El Ek] [EC EL] [Ei Ej]]] := tw_lcwb optim lobj.
have [st0 Est0] : exists st0, t_init 2 (size (c_W c)) (c_njwi c) (c_C c) (c_L c) (rows (c_W c)) = Ok st0.
  by rewrite /t_init /inv EC unitmx1; eexists.
have Et := Est0; rewrite EW Ek /= in Et.
have [st [Er [[Hn Hn0] Hm Hc HR HI]]] := unit_trans (isT : (0 < 2)%N) EC EL Et.
have EB : b_of 2 (o_sv tw_or) c = Ok (fun _ _ => 0) by rewrite /b_of /flux_dist El.
have Eb : build optim (cap_store 1) "junctions" lobj tw_dict = Ok (Zpos (xO xH), c).
  rewrite /build -[negb _]/false -[node_count _]/(Ok (Zpos (xO xH))); cbn [bind].
  by move: Ec; rewrite -[LCWB.get_LCWB _ _ _ _ _ _]/(get_LCWB _ _ _ _ _ _) => ->.
rewrite /construct Eb -[Z.to_nat (Zpos (xO xH))]/2%N EB Est0 Er.
have -> : finish_modes optim st = st by rewrite /finish_modes Hm.
by eexists; split; first by reflexivity.
Qed.

(** After [set_trunc_nums([2, 2])]: charges -1, 0 and 1 in both modes. *)
Lemma tw_set disp optim lobj x0 : construct optim tw_or (cap_store 1) lobj "junctions" tw_dict = Some (Ok x0) ->
  x_n x0 = 2%N -> (forall i, (i < 2)%N -> is_charge (x_st x0) i) ->
  exists x1, [/\ set_trunc disp (Some [:: 2%N; 2%N]) x0 = (x1, Ok tt), good disp x1,
    x_st x1 = x_st x0 /\ x_c x1 = x_c x0, x_C x1 = x_C x0 /\ x_dict x1 = x_dict x0 &
    [/\ x_n x1 = 2%N, x_m x1 = [:: 3; 3]%N & forall i, h_ng (hof x1) i = 0]].
Proof.
move=> E0 n1 ch; have G0 := good_construct disp E0.
have i0 : x_isl x0 = [:: Some (0, noise_default); Some (0, noise_default)].
  have := ch 0%N isT; have := ch 1%N isT.
  move: n1; have [? [? [? [? [_ [_ ->]]]]]] := constructP E0; rewrite /x_n /= => -> /=.
  by move=> -> ->.
move: (good_set_trunc (Some [:: 2%N; 2%N]) G0); rewrite /set_trunc n1 /= !ch //; set x1 := put_m _ _.
have c1 i : (i < x_n x1)%N -> is_charge (x_st x1) i -> isl x1 i := g_charge G0 (i := i).
have s1 : size (x_m x1) = x_n x1 by rewrite -[x_n x1]/(x_n x0) n1.
rewrite (mem_err_none s1 c1) => G1; eexists; split; [reflexivity|exact: G1|by []|by []|].
split=> // i; rewrite /= /ng_of /isl /= i0; by case: i => [|[|i]] //=; rewrite nth_nil.
Qed.

(** SMProofs2.v -- sessions. *)
From Coq Require Import Reals ZArith String Lia.
From Verif.Model Require Import Base Units Settings Edge LCWB Rounding Accuracy HamConst Trunc.
From Verif.Spec Require Import GraphSpec CircuitSpec.
From Verif.Proofs Require Import EdgeProofs LCWBProofs BookProofs EdgeProofs2 SMBook.
From mathcomp Require Import all_ssreflect all_algebra.
From mathcomp Require Import complex.
From Verif.Numerics Require Import RStruct Bridge.
From Verif.Model Require Import FluxDist Transform Op Ham Diag CircuitSM.
From Verif.Spec Require Import SessionSpec.
From Verif.Proofs Require Import TransProofs TransProofs3 SMProofs.

Set Implicit Arguments.
Unset Strict Implicit.
Unset Printing Implicit Defensive.
Import GRing.Theory.
Local Open Scope ring_scope.

(** A build that succeeds covers all labels. *)
Lemma run_edges_labels optim s fd n d : forall c c', run_edges optim s fd (Z.of_nat n) c d = Ok c' ->
  (forall e els, List.In (e, els) d -> nonneg e) ->
  forall e els, List.In (e, els) d -> Z.le (Z.max e.1 e.2) (Z.of_nat n).
Proof.
elim: d => [|[e els] d IH] c c' // /run_edges_cons [c1 [E1 E2]] Hn e' els' [h|Hin].
- case: h => he _; subst e'; case: (Z_le_gt_dec (Z.max e.1 e.2) (Z.of_nat n)) => // Hgt.
  have := w_at_edge_out n e (Hn e els (or_introl erefl)) (Z.gt_lt _ _ Hgt).
  by move: E1; rewrite /process_edge => + E; rewrite E.
- by apply: (IH _ _ E2 _ e' els' Hin) => a b h; apply: (Hn a b); right.
Qed.

Lemma node_le optim s fd n n0 lobj d c : get_LCWB optim s fd (Z.of_nat n) lobj d = Ok c ->
  node_count (List.map fst d) = Ok (Z.of_nat n0) -> (forall e els, List.In (e, els) d -> nonneg e) ->
  (n0 <= n)%N.
Proof.
move=> /get_LCWB_run [_ E] En Hn; have [e [He [_ Ez]]] := proj1 (node_count_spec _ _) En.
have [[e0 els] [/= E0 Hin]] := proj1 (List.in_map_iff _ _ _) He; subst e0.
have H := run_edges_labels E Hn Hin; apply/leP; cbn [fst snd] in H; lia.
Qed.

Lemma assignE ks : forall vs s, (assign ks vs s).2 = if (size ks <= size vs)%N then None else Some ValueError.
Proof. by elim: ks => [|k ks IH] [|v vs] s //=; apply: IH. Qed.

Section Machine.
Variable disp : nat -> C -> op.
Variable optim : bool.
Variables (fd : string) (d : seq (edge * seq nat)) (n0 : nat).
Hypothesis count : node_count (List.map fst d) = Ok (Z.of_nat n0).
Hypothesis labels : forall e els, List.In (e, els) d -> nonneg e.
Variable y0 : circ.
Local Notation good := (good disp).
Local Notation built := (built optim).

Definition init_isl (x : circ) :=
  [seq (if is_charge (x_st x) i then Some (R0, noise_default) else None) | i <- iota 0 (x_n x)].
Definition dims (x : circ) (l : seq nat) : seq nat :=
  [seq (if is_charge (x_st x) i then (2 * nth 0 l i).-1 else nth 0 l i)%N | i <- iota 0 (x_n x)].

Lemma dims_kinds x y l : same_kinds x y -> dims x l = dims y l.
Proof.
case=> En Ek; rewrite /dims -En; apply/eq_in_map => i; rewrite mem_iota add0n => Hi; by rewrite Ek.
Qed.
Lemma isl_kinds x y : same_kinds x y -> init_isl x = init_isl y.
Proof.
case=> En Ek; rewrite /init_isl -En; apply/eq_in_map => i; rewrite mem_iota add0n => Hi; by rewrite Ek.
Qed.

(** The object reflects the view. *)
Record tracks (v : view) (x : circ) : Prop := {
  k_good : good x;
  k_dict : x_dict x = d;
  k_fd : x_fd x = fd;
  k_n : (x_n x <= n0)%N;
  k_build : exists lobj B st, built (v_or v) (v_store v) fd d n0 lobj (x_c x) B st /\
    [/\ x_C x = c_C (x_c x), x_B x = B & x_st x = finish_modes optim st \/ x_st x = st];
  k_m : x_m x = (if v_trunc v is Some l then dims y0 l else [::]);
  k_len : (if v_trunc v is Some l then size l = x_n x else True);
  k_isl : x_isl (offsets v y0) = x_isl x }.

Lemma tracks_ext v x x' : tracks v x -> good x' -> x_dict x' = x_dict x -> x_fd x' = x_fd x ->
  x_c x' = x_c x -> x_C x' = x_C x -> x_B x' = x_B x -> x_st x' = x_st x -> x_m x' = x_m x ->
  x_isl x' = x_isl x -> tracks v x'.
Proof.
case=> k1 k2 k3 k4 k5 k6 k7 k8 G e1 e2 e3 e4 e5 e6 e7 e8.
by split; rewrite // ?e1 ?e2 ?e3 ?e4 ?e5 ?e7 ?e8 /x_n ?e6.
Qed.

Lemma offsets_rcons or_ s_ t l p y : offsets (mkV or_ s_ t (rcons l p)) y =
  (set_offset p.1 p.2 (offsets (mkV or_ s_ t l) y)).1.
Proof. by rewrite /offsets /= foldl_rcons. Qed.
Lemma offsets_off v v' y : v_off v = v_off v' -> offsets v y = offsets v' y.
Proof. by rewrite /offsets => ->. Qed.

(** Without truncation numbers the offset setter only writes the island. *)
Lemma set_offset_plain m a y : x_m y = [::] -> (set_offset m a y).1 =
  if island_of m y is Some i then island_set y i (fun p => (a, p.2)) else y.
Proof. by move=> E; rewrite /set_offset E; case: island_of. Qed.

Lemma offsets_frame v y : x_m y = [::] ->
  [/\ x_m (offsets v y) = [::], x_st (offsets v y) = x_st y, x_c (offsets v y) = x_c y &
      x_C (offsets v y) = x_C y /\ x_B (offsets v y) = x_B y].
Proof.
rewrite /offsets => E; elim/last_ind: (v_off v) => [|l p IH]; first by split.
rewrite foldl_rcons; case: IH => e1 e2 e3 [e4 e5].
by rewrite (set_offset_plain _ _ e1); case: island_of => [i|]; split.
Qed.

Lemma good_offsets v y : good y -> good (offsets v y).
Proof.
rewrite /offsets => G; elim/last_ind: (v_off v) => [|l p IH] //.
by rewrite foldl_rcons; apply: good_set_offset.
Qed.

Lemma island_eq m x y : x_isl x = x_isl y -> island_of m x = island_of m y.
Proof. by rewrite /island_of /isl => ->. Qed.

Lemma tracks_update o s v x x' : tracks v x -> update disp optim o s x = Some (x', None) ->
  same_kinds x' y0 -> tracks (mkV o s (v_trunc v) (v_off v)) x'.
Proof.
move=> K U kinds; have [c [B [st [Hb]]]] := update_okP U; cbv zeta; case=> Em Ex.
have Hst : t_n st = x_n x by exact: built_n Hb.
have En : x_n x = n0.
  apply/eqP; rewrite eqn_leq (k_n K) /=; case: (Hb) => st0 [Ec _ _ _].
  by rewrite (k_dict K) in Ec; apply: node_le Ec count labels.
case: (K) => G e1 e2 e3 _ e5 e6 e7.
have G' := good_update G U; split=> //.
- by rewrite Ex /= e1.
- by rewrite Ex /= e2.
- by rewrite Ex -[x_n _]/(t_n st) Hst.
- exists (c_lobj (x_c x)), B, st; rewrite Ex /=; split; last by split=> //; right.
  by move: Hb; rewrite e1 e2 En.
- by rewrite Ex.
- by case: (v_trunc v) e6 => //= l ->; rewrite Ex -[x_n (put_eig _ _)]/(t_n st) Hst.
- by rewrite Ex (@offsets_off _ v).
Qed.

Lemma tracks_step v s u x c w1 r : tracks v x -> x_m y0 = [::] ->
  step disp optim (mkW s u x) c = Some (w1, r) ->
  ~~ update_failed optim (mkW s u x) c r -> same_kinds x y0 -> same_kinds (w_x w1) y0 ->
  tracks (view_step v c w1 r) (w_x w1).
Proof.
move=> K my0 + + kx; case: c => [nums|m a|m a|c p|u'|vs o|o| |eigs argsort k|rd] /=.
- have := good_set_trunc nums (k_good K); rewrite /set_trunc; case: nums => [l|]; last by move=> _ [<- <-].
  case: ifP => [_ _ [<- <-] //|/negbFE /eqP Hs]; set x1 := put_m _ _.
  have s1 : size (x_m x1) = x_n x1 by rewrite size_map size_iota.
  rewrite (mem_err_none s1 (g_charge (k_good K))) => /= G [<- <-] _ _ /=.
  case: (K) => _ e1 e2 e3 e4 _ _ e7; split=> //=; first by rewrite -(dims_kinds l kx).
- have := good_set_offset m a (k_good K); rewrite /set_offset.
  case Ei: island_of => [i|] /=; last by move=> _ [<- <-].
  have Hi := island_ofP Ei.
  set x1 := island_set _ _ _ => G E.
  have [xx [Exx [Ef Er]]] : exists xx, w1 = mkW s u xx /\
     [/\ x_dict xx = d, x_fd xx = fd, x_c xx = x_c x, x_st xx = x_st x & [/\ good xx, x_C xx = x_C x,
       x_B xx = x_B x, x_m xx = x_m x & x_isl xx = x_isl x1]] /\ r = Ok tt.
    move: G E; case: ifP => [m0 G [<- <-]|m0]; first by exists x1; case: (K) => ? e1 e2 *; split.
    have m1 : size (x_m x1) = x_n x1.
      by case: (g_ops (k_good K)) => [E|F]; [move: m0; rewrite E | exact: (fo_size F)].
    have c1 j : (j < x_n x1)%N -> is_charge (x_st x1) j -> isl x1 j.
      move=> Hj ch; rewrite isl_set; case: eqP => _; last exact: (g_charge (k_good K)).
      by case: isl Hi.
    by rewrite (mem_err_none m1 c1) => G [<- <-]; exists (build_ops x1); case: (K) => ? e1 e2 *; split.
  rewrite Exx Er /= => _ _; case: Ef => f1 f2 f3 f4 [f5 f6 f7 f8 f9].
  case: (K) => _ e1 e2 e3 e4 e5 e6 e7; split=> //; rewrite ?f3 ?f6 ?f7 ?f4 ?f8 //.
  + by rewrite /x_n f4.
  + by rewrite /x_n f4.
  + rewrite f9 offsets_rcons /=; have [m0 _ _ _] := offsets_frame v my0.
    have Ev : offsets (mkV (v_or v) (v_store v) (v_trunc v) (v_off v)) y0 = offsets v y0 by apply: offsets_off.
    by rewrite Ev set_offset_plain // (island_eq m e7) Ei /= /isl e7.
- rewrite /set_charge_noise; case: island_of => [i|] /= [<- <-] _ _ //.
- by case=> <- <- _ _.
- by case=> <- <- _ _.
- rewrite /set_params; case Eo: (~~ optim); first by case=> <- <- _ _.
  move: Eo => /negbFE Eo; have := assignE [seq q.1 | q <- c_params (x_c x)] vs s.
  case: assign => s1 e /= ->; rewrite size_map; case: ifP => Hle; last by case=> <- <-.
  case EU: update => [[x1 [e1|]]|] // [<- <-] /=; first by rewrite Eo.
  by move=> _ k1; rewrite /view_step /=; apply: tracks_update EU k1.
- case EU: update => [[x1 [e1|]]|] // [<- <-] //= _ k1.
  by rewrite /view_step /=; apply: tracks_update EU k1.
- have [_ [M [E HM]]] := hamilE s (k_good K); case: hamil E => x1 h /= -> [<- <-] _ _.
  suff : tracks v (put_mem x M (x_LC x)) by case: h.
  by apply: (tracks_ext K) => //; apply: good_put_mem (k_good K) HM.
- have G1 := good_diag eigs argsort u k s (k_good K).
  have : exists M e, (diag_sm eigs argsort u k s x).1 = put_eig (put_mem x M (x_LC x)) e.
    rewrite /diag_sm; have id : x = put_eig (put_mem x (x_mem x) (x_LC x)) (x_eig x) by case: (x).
    case: ifP => _; first by do 2 eexists; exact: id.
    case: k {G1} => [k|]; last by do 2 eexists; exact: id.
    have [_ [M [E HM]]] := hamilE s (k_good K); case: hamil E => x1 h /= ->.
    by case: diag => e r' /=; exists M, e.
  case: diag_sm G1 => x1 h /= G1 [M [e E]] [<- <-] _ _ /=.
  have : tracks v x1 by rewrite E; apply: (tracks_ext K) => //; rewrite -E.
  by case: h.
- by case=> <- <- _ _; rewrite /view_step; case: raised.
Qed.

Lemma tracks_run cs : forall v w tr, tracks v (w_x w) -> x_m y0 = [::] ->
  run disp optim w cs = Some tr -> updates_ok optim w cs tr ->
  same_kinds (w_x w) y0 -> (forall p, List.In p tr -> same_kinds (w_x p.1) y0) ->
  tracks (view_of v cs tr) (w_x (final w tr)).
Proof.
elim: cs => [|c cs IH] v w tr K my /=; first by case=> <-.
case Es: step => [[w1 r]|] //; case Er: run => [tr'|] // [<-] /= /andP [Hu Hus] kw kp.
have k1 : same_kinds (w_x w1) y0 by apply: (kp (w1, r)); left.
rewrite /final /=; apply: (IH (view_step v c w1 r) w1 tr') => //.
- by case: w Es Hu kw K {kp} => s u x /= Es Hu kw K; apply: tracks_step Es Hu kw k1.
- by move=> p hp; apply: kp; right.
Qed.
End Machine.

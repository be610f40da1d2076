(** C48: gradients of the Hamiltonian. *)
From Coq Require Import Reals ZArith String.
From Verif.Model Require Import Base Units Elements Edge LCWB HamConst PartialConst.
From Verif.Spec Require Import ThermalSpec.
From mathcomp Require Import all_ssreflect all_algebra.
From mathcomp Require Import complex.
From Verif.Numerics Require Import RStruct Bridge.
From Verif.Model Require Import Transform Op Ham Diag CircuitSM Partial.
From Verif.Spec Require Import OpSpec SessionSpec GradSpec.
From Verif.Proofs Require Import HamProofs6 CDeriv SMProofs SMProofs3 MemProofs GradProofs.

Set Implicit Arguments.
Unset Strict Implicit.
Unset Printing Implicit Defensive.
Import GRing.Theory.
Local Open Scope ring_scope.
Local Open Scope complex_scope.

(** After any history of calls in which no rebuild failed and the Hamiltonian can
    be formed. *)
Section Session.
Variables (disp : nat -> C -> op) (optim : bool) (o : oracle) (s0 : store) (lobj : nat -> lrec) (fd : string).
Variables (d : seq (edge * seq nat)) (x0 : circ) (u : ustate) (cs : seq call) (tr : seq (world * res unit)).
Hypothesis built_ok : construct optim o s0 lobj fd d = Some (Ok x0).
Hypothesis session : run disp optim (mkW s0 u x0) cs = Some tr.
Hypothesis updates : updates_ok optim (mkW s0 u x0) cs tr.
Let s := w_s (final (mkW s0 u x0) tr).
Let x := w_x (final (mkW s0 u x0) tr).
Variable H0 : op.
Hypothesis formed : (hamil s x).2 = Ok H0.

Let R : regular disp s x.
Proof. by apply: (session_regular built_ok session updates); exists H0. Qed.

(** The gradient with respect to a loop of the circuit is the derivative of every
    entry of the Hamiltonian, which exists for every value of the flux. *)
Theorem C48_loop l : l \in c_loops (x_c x) ->
  (forall t, exists A, (hamil (with_flux s l t) x).2 = Ok A) /\
  exists P, reported_grad s x (CLoop l) None = Ok P /\
    forall a b, cderiv (fun t => res_entry (hamil (with_flux s l t) x).2 a b) (lvalue s l) (opt_entry P a b).
Proof.
move=> hl; split; first by move=> t; apply: (@hamil_ok _ s _ _ (rg_good R)); exists H0.
have [P EP HP] := loop_gradP R hl; exists P; split=> // a b.
by rewrite HP; apply: loop_derivative.
Qed.

(** Other loops are refused. *)
Theorem C48_unknown_loop l : l \notin c_loops (x_c x) -> reported_grad s x (CLoop l) None = Err ValueError.
Proof.
move=> hl; have [M [E _]] := filledP R.
by rewrite /reported_grad E /partial_H /loop_index /= (negbTE hl).
Qed.

(** The Hamiltonian is affine in the energy of a junction, however many edges it
    is placed on, and the gradient is the coefficient. *)
Theorem C48_junction el : ekind s el = KJJ ->
  exists P, reported_grad s x (CEl el) None = Ok P /\
    forall v, exists A, (hamil (with_value s el v) x).2 = Ok A /\
      forall a b, ent A a b = ent H0 a b + (v - evalue s el)%:C * opt_entry P a b.
Proof.
move=> Ek; have [P EP HP] := jj_gradP None R Ek; exists P; split=> // v.
have Rv : regular disp (with_value s el v) x by apply: regular_store R _.
have [A EA] := rg_ham Rv; exists A; split=> // a b.
have -> : ent A a b = res_entry (hamil (with_value s el v) x).2 a b by rewrite EA.
have -> : ent H0 a b = res_entry (hamil s x).2 a b by rewrite formed.
by rewrite (ham_entryE a b Rv) (ham_entryE a b R) HP jj_affine.
Qed.

(** With [_B_idx] only the junction in that row of B: minus its cosine.  The
    gradients of all placements add up to that of the junction. *)
Theorem C48_placement e el b w : List.In (e, el, b, w) (c_keys_jj (x_c x)) ->
  exists P, reported_grad s x (CEl el) (Some b) = Ok P /\ forall a a', opt_entry P a a' =
    - ent (jj_cos (jj_exp disp (hof x) (ext_flux [seq lvalue s l | l <- c_loops (x_c x)] (x_B x) b) w)) a a'.
Proof.
move=> hk; have Ek := rg_jj R hk; have [P EP HP] := jj_gradP (Some b) R Ek; exists P; split=> // a a'.
by rewrite HP (jj_placement _ _ R hk).
Qed.

Theorem C48_placements el : ekind s el = KJJ ->
  exists P, reported_grad s x (CEl el) None = Ok P /\ forall a a', opt_entry P a a' =
    \sum_(k <- c_keys_jj (x_c x) | k.1.1.2 == el) grad_entry (reported_grad s x (CEl el) (Some k.1.2)) a a'.
Proof.
move=> Ek; have [P EP HP] := jj_gradP None R Ek; exists P; split=> // a a'.
rewrite HP (jj_placements _ _ _ R); apply: eq_bigr => k _.
by have [Q -> HQ] := jj_gradP (Some k.1.2) R Ek; rewrite /= HQ.
Qed.

(** Second derivatives: [partial_squared_H_phi] is the derivative of the loop
    gradient with respect to a loop, a junction and an inductor. *)
Theorem C48_loop_loop l l2 : l \in c_loops (x_c x) -> l2 \in c_loops (x_c x) ->
  exists P, partial_squared_H_phi s (hamil s x).1 l (CLoop l2) = Ok P /\
    forall a b, cderiv (fun t => grad_entry (reported_grad (with_flux s l2 t) x (CLoop l) None) a b) (lvalue s l2)
                       (opt_entry P a b).
Proof.
move=> hl hl2; have [P EP HP] := loop2_gradP R hl hl2; exists P; split=> // a b.
by rewrite HP; apply: loop2_derivative.
Qed.

Theorem C48_loop_junction l el : l \in c_loops (x_c x) -> ekind s el = KJJ ->
  exists P, partial_squared_H_phi s (hamil s x).1 l (CEl el) = Ok P /\
    forall v a b, grad_entry (reported_grad (with_value s el v) x (CLoop l) None) a b =
      grad_entry (reported_grad s x (CLoop l) None) a b + (v - evalue s el)%:C * opt_entry P a b.
Proof.
move=> hl Ek; have [P EP HP] := loop_jjP R hl Ek; exists P; split=> // v a b.
have Rv : regular disp (with_value s el v) x by apply: regular_store R _.
have [Q -> HQ] := loop_gradP Rv hl; have [Q' -> HQ'] := loop_gradP R hl.
by rewrite /= HQ HQ' HP loop_jj_affine.
Qed.

Theorem C48_loop_inductor l el : l \in c_loops (x_c x) -> ekind s el = KInd -> evalue s el <> 0 ->
  exists P, partial_squared_H_phi s (hamil s x).1 l (CEl el) = Ok P /\
    forall a b, cderiv (fun v => grad_entry (reported_grad (with_value s el v) x (CLoop l) None) a b) (evalue s el)
                       (opt_entry P a b).
Proof.
move=> hl Ek N; have [P EP HP] := loop_indP R hl Ek; exists P; split=> // a b.
rewrite HP; exact: (loop_ind_derivative a b R hl Ek N).
Qed.

(** [partial_squared_H_EJ] is the derivative of the gradient of one placement. *)
Theorem C48_placement_loop l e el b w : l \in c_loops (x_c x) -> List.In (e, el, b, w) (c_keys_jj (x_c x)) ->
  exists P, partial_squared_H_EJ (hamil s x).1 el b (CLoop l) = Ok P /\
    forall a a', cderiv (fun t => grad_entry (reported_grad (with_flux s l t) x (CEl el) (Some b)) a a')
                        (lvalue s l) (opt_entry P a a').
Proof.
move=> hl hk; have [P EP HP] := EJP R hl hk; exists P; split=> // a a'.
rewrite HP; exact: EJ_derivative hk.
Qed.

(** These are the values after a diagonalisation. *)
Theorem C48_after_diag eigs argsort k x1 r : diag_sm eigs argsort u k s x = (x1, Ok r) ->
  forall c b, partial_H s x1 c b = reported_grad s x c b.
Proof.
rewrite /diag_sm; case: ifP => // _; case: k => [k|] //; rewrite /reported_grad.
by case: hamil => xh h; case: diag => e r' [<- _].
Qed.
End Session.
Print Assumptions C48_loop.
Print Assumptions C48_unknown_loop.
Print Assumptions C48_junction.
Print Assumptions C48_placement.
Print Assumptions C48_placements.
Print Assumptions C48_loop_loop.
Print Assumptions C48_loop_junction.
Print Assumptions C48_loop_inductor.
Print Assumptions C48_placement_loop.
Print Assumptions C48_after_diag.

(** Case: a charge mode with three states and one junction placed on both sides
    of a loop; E_J = 2 and the flux is 0. *)
Definition squid_store : store :=
  mkStore (fun=> KJJ) (fun=> Rplus R1 R1) (fun=> false) (fun=> true) (fun=> 2%N) (fun=> [::]) (fun=> R0)
          (fun=> false) (fun=> true).
Definition squid_c : cst :=
  mkC [:: 7]%N (fun=> mkL [::] [::]) [::]
      [:: ((Z0, Zpos xH), 1%N, 0%N, 0%N); ((Z0, Zpos xH), 1%N, 1%N, 0%N)] [::] (fun=> None) 2 2 [::] [::]
      (fun _ _ => R1) (fun _ _ => R0) [::] 2.
Definition squid (disp : nat -> C -> op) : circ :=
  build_exp disp (build_ops (mkX [::] "junctions" squid_c (fun _ _ => R1) (fun b _ => if b == 0%N then R1 else R0)
    (mkT 1 1 2 2 (fun _ _ => R1) eye eye (fun _ _ => R1) (fun _ _ => R0) (fun _ _ => R1) (fun=> R0))
    [:: Some (R0, R0)] [:: 3]%N mem0 None (mkE [::] [::]))).
Lemma squid_regular disp : regular disp squid_store (squid disp).
Proof.
have ch : is_charge (x_st (squid disp)) 0%N by rewrite /is_charge /=.
have G : good disp (squid disp).
  split=> //; first by move=> k [<-|[<-|[]]].
  - by move=> [|i].
  by right; apply: good_rebuild.
split=> //.
- by split=> k k' //= [<-|[<-|[]]] [<-|[<-|[]]].
- by repeat constructor=> //=; case.
- have [-> _] := hamilE squid_store G; rewrite /ham_of /hamiltonian /ind_hamil /=.
  by case: LC_hamil => [A|] /=; eexists; reflexivity.
Qed.

Lemma squid_flux disp b : ext_flux (loop_vals squid_store (squid disp)) (x_B (squid disp)) b = 0.
Proof. by rewrite /ext_flux big_ord1 mul0r. Qed.
Lemma squid_exp disp w : ent (opExp disp (hof (squid disp)) w) 1%N 0%N = 1 /\ ent (opExp disp (hof (squid disp)) w) 0%N 1%N = 0.
Proof.
have ch : hcharge (hof (squid disp)) 0%N by rewrite /hcharge /is_charge /=.
have nz : (R1 == 0 :> R) = false by apply/negbTE/eqP; exact: R1_neq_R0.
rewrite /opExp /= /exp_iso ch /d_op_isolated /= nz /=; case: Rlt_dec => /= [h|_].
  by case: (Rlt_asym _ _ h Rlt_0_1).
by split; apply/eqP; rewrite eq_complex /= ?oppr0 !eqxx.
Qed.
Lemma expi00 : expi 0 = 1. Proof. by rewrite /expi cos_0 sin_0. Qed.
Example squid_gradients disp : exists P Q,
  reported_grad squid_store (squid disp) (CLoop 7) None = Ok P /\
  reported_grad squid_store (squid disp) (CEl 1) None = Ok Q /\
  opt_entry P 1 0 = - 'i /\ opt_entry Q 1 0 = - 1 /\
  forall b, (b < 2)%N -> grad_entry (reported_grad squid_store (squid disp) (CEl 1) (Some b)) 1 0 = - (2%:R)^-1.
Proof.
have Rg := squid_regular disp.
have [P EP HP] := @loop_gradP disp squid_store (squid disp) 7%N Rg isT.
have [Q EQ HQ] := @jj_gradP disp squid_store (squid disp) 1%N None Rg erefl.
have [E1 E2] := squid_exp disp 0.
have Cs : jjent disp (hof (squid disp)) 0 0 1 0 = (2%:R)^-1.
  by rewrite /jjent E1 E2 expi00 !mul1r conjc0 addr0 mulr1.
have Ss : sinent disp (hof (squid disp)) 0 0 1 0 = (2%:R * 'i)^-1.
  rewrite /sinent /jj_sin /jj_exp; cbn [ent oscale osub oadj].
  by rewrite E1 E2 expi00 !mul1r conjc0 subr0 mulr1.
have h2 : (2%:R : C) != 0 by rewrite Num.Theory.pnatr_eq0.
exists P, Q; split=> //; split=> //; split; last split.
- rewrite HP /loop_grad -[c_keys_ind _]/[::] big_nil add0r.
  rewrite -[c_keys_jj _]/(c_keys_jj squid_c) !big_cons big_nil !squid_flux; cbn [fst snd]; rewrite Ss.
  rewrite -[x_B _ 0%N _]/(1 : R) -[x_B _ 1%N _]/(0 : R) !mul0r add0r addr0 mul1r.
  rewrite -[evalue _ _]/(1 + 1 : R) rmorphD /= -mulr2n invfM mulrA divff // mul1r.
  by apply: (mulIf i_neq0); rewrite mulVf ?i_neq0 // mulNr i_sq opprK.
- rewrite HQ /jj_grad -[c_keys_jj _]/(c_keys_jj squid_c) !big_cons big_nil !squid_flux; cbn [fst snd].
  by rewrite /= Cs addr0 -mulr2n -[2%:R^-1 *+ 2]mulr_natr mulVf.
case=> [|[|//]] _.
  have [Q' -> HQ'] := @jj_gradP disp squid_store (squid disp) 1%N (Some 0%N) Rg erefl.
  rewrite /= HQ' /jj_grad -[c_keys_jj _]/(c_keys_jj squid_c) !big_cons big_nil !squid_flux; cbn [fst snd]. 
  by rewrite /= Cs addr0.
have [Q' -> HQ'] := @jj_gradP disp squid_store (squid disp) 1%N (Some 1%N) Rg erefl.
rewrite /= HQ' /jj_grad -[c_keys_jj _]/(c_keys_jj squid_c) !big_cons big_nil !squid_flux; cbn [fst snd].
by rewrite /= Cs addr0.
Qed.

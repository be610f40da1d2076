(** P_TorchDiag.v -- C69: diagonalisation in the PyTorch engine; C70: the gradients
    of EigenSolver. *)
From Coq Require Import Reals ZArith String Lra Lia.
From Verif.Model Require Import Base Units Settings Edge Elements LCWB HamConst.
From Verif.Spec Require Import ThermalSpec UnitHistory.
From Verif.Proofs Require Import ThermalProofs CDeriv UnitsProofs.
Lemma unit_nonzero c : get_unit_freq (unit_run c ustate_init) <> 0%R.
Proof.
  destruct (unit_always_valid c) as [_ [_ [_ [k [_ H]]]]]. rewrite H.
  apply Rgt_not_eq. apply powerRZ_lt. lra.
Qed.
Lemma one_not_minus_one : 1%R <> Ropp 1%R.
Proof. lra. Qed.
Lemma half_case : Rinv (Rplus 1 (Ropp (Ropp 1))) = Rdiv 1 2.
Proof. field. Qed.
From mathcomp Require Import all_ssreflect all_algebra.
From mathcomp Require Import complex.
From Verif.Numerics Require Import RStruct Bridge.
From Verif.Model Require Import Transform Op Ham Diag CircuitSM Copy Partial TorchDiag.
From Verif.Spec Require Import OpSpec SessionSpec CopySpec GradSpec PerturbSpec RateGradSpec EigGradSpec.
From Verif.Proofs Require Import OpProofs HamProofs HamProofs2 SMProofs MemProofs GradProofs PerturbProofs PerturbProofs2
  SecondOrder RateGradProofs RateGradProofs2 RateGradProofs3 HamProofs6 SMProofs2 CopyProofs CopyProofs3 CopyProofs4 SessionCase
  EigGradProofs EigGradProofs2 EigGradProofs3 EigGradProofs4.
From Verif.Properties Require Import P_Perturb P_RateGrad.

Set Implicit Arguments.
Unset Strict Implicit.
Unset Printing Implicit Defensive.
Import GRing.Theory.
Local Open Scope ring_scope.
Local Open Scope complex_scope.

(** ** C69 *)
Section Diag.
Variables (eigs : eigs_fun) (argsort : seq C -> seq nat) (units : seq unit_call) (maxg : option Z).
Let u := unit_run units ustate_init.
Notation torch := (diag_torch eigs argsort u maxg).
Notation numpy := (diag_sm eigs argsort u).

(** When diag returns, the circuit and what is returned are those of the NumPy
    engine on the same circuit. *)
Theorem C69_agrees k hp ob hp' ob' ctx out : torch k hp ob = (hp', ob', Ok (ctx, out)) ->
  numpy k (hp_s hp) (ob_x ob) = (ob_x ob', Ok out).
Proof.
case: k => [k|]; last by rewrite /diag_torch; case: ifP.
case/(diag_torchP (unit_nonzero units)) => H [r [copy [[m0 _ _ EH ED] _ _ -> [_ ->]]]].
by rewrite /diag_sm; case: eqP => // _; case: hamil EH => y rh /= ->; rewrite /diag /= ED.
Qed.

(** It returns iff the NumPy engine does, with at least two levels of at least two
    entries, and the circuit can be copied.  [ob] has all attributes. *)
Theorem C69_returns k hp ob H y fr ve : ob_mem ob -> ob_LC ob ->
  (hamil (hp_s hp) (ob_x ob)).2 = Ok H -> numpy (Some k) (hp_s hp) (ob_x ob) = (y, Ok (fr, ve)) ->
  (exists hp' ob' ctx out, torch (Some k) hp ob = (hp', ob', Ok (ctx, out))) <->
  [/\ size fr = size ve, (1 < size fr)%N, (1 < dim H)%N &
      exists hp' copy, safecopy true false hp (mkOb y true true (ob_descr ob) (ob_full ob)) = Ok (hp', copy)].
Proof.
move=> hm hl EH; rewrite {1}/diag_sm; case: eqP => // m0.
case E: hamil => [x1 rh]; rewrite E /= in EH; rewrite EH /diag /=; case ED: diag_np => [r|//] [<- <- <-].
have EH' : (hamil (hp_s hp) (ob_x ob)).2 = Ok H by rewrite E.
rewrite (diag_torchE maxg (unit_nonzero units) m0 hm hl EH' ED) E /= size_map /can_cat.
case: ifP => [/orP z|/negbT nz].
  split; first by case=> [? [? [? [? //]]]].
  by case=> e1 e2 _ _; exfalso; move: e2; case: z => /eqP z; [rewrite z|rewrite e1 z].
split.
  move=> [hp' [ob' [ctx [out]]]]; case ES: safecopy => [[hp2 copy]|//]; case: ifP => // /and3P [/eqP h1 h2 h3] _.
  by split=> //; exists hp2, copy.
move=> [h1 h2 h3 [hp' [copy ES]]]; rewrite ES h1 eqxx -h1 h2 h3 /=.
by do 4!eexists.
Qed.

(** What the NumPy engine raises is raised, and the circuit is the same after it. *)
Theorem C69_raises k hp ob y z : ob_mem ob -> ob_LC ob -> numpy k (hp_s hp) (ob_x ob) = (y, Err z) ->
  exists ob', torch k hp ob = (hp, ob', Err z) /\ ob_x ob' = y.
Proof.
move=> hm hl; rewrite /diag_sm /diag_torch; case: eqP => [_ [<- <-]|m0]; first by exists ob.
case: k => [k|]; last by case=> <- <-; exists ob.
rewrite /eigen_forward /ob_hamil hm hl; case: eqP => [//|_].
have [M] := hamil_mem (hp_s hp) (ob_x ob); case: hamil => x1 [H|z'] /= Ex1; rewrite /diag /=; last first.
  by case=> <- <-; eexists; split; [reflexivity|rewrite /= Ex1].
case: diag_np => [r|z'] //= -[<- <-]; eexists; split; first by reflexivity.
by rewrite /= Ex1.
Qed.

(** One level: never returned, though the NumPy engine returns it; the stored
    results have been replaced by then. *)
Theorem C69_one_refuted k hp ob y w v : ob_mem ob -> ob_LC ob ->
  numpy (Some k) (hp_s hp) (ob_x ob) = (y, Ok ([:: w], [:: v])) ->
  exists hp' ob' z, torch (Some k) hp ob = (hp', ob', Err z) /\ ob_x ob' = y.
Proof.
move=> hm hl; rewrite /diag_sm; case: eqP => // m0.
case E: hamil => [x1 [H|//]]; rewrite /diag /=; case ED: diag_np => [r|//] [<- Ef Ev].
have EH : (hamil (hp_s hp) (ob_x ob)).2 = Ok H by rewrite E.
have Sf : size (e_freqs r) = 1%N by have := congr1 size Ef; rewrite size_map.
rewrite (diag_torchE maxg (unit_nonzero units) m0 hm hl EH ED) E /= Ev Sf /=.
by case: safecopy => [[hp' copy]|z]; do 3!eexists.
Qed.

(** The context consists of new objects, and the old objects are as they were. *)
Theorem C69_context k hp ob hp' ob' ctx out : lives (hp_e hp) (hp_l hp) (hp_s hp) (ob_x ob) ->
  torch (Some k) hp ob = (hp', ob', Ok (ctx, out)) ->
  [/\ apart (hp_e hp) (hp_l hp) (hp_s hp') (ec_x ctx), untouched (hp_e hp) (hp_l hp) (hp_s hp) (hp_s hp'),
      shows (hp_s hp') (ec_x ctx) = shows (hp_s hp) (ob_x ob),
      (hamil (hp_s hp') (ec_x ctx)).2 = (hamil (hp_s hp) (ob_x ob')).2 &
      x_eig (ec_x ctx) = x_eig (ob_x ob')].
Proof.
move=> liv /(diag_torchP (unit_nonzero units)) [H [r [copy [_ ES _ -> [-> _]]]]] /=.
have [M EM] := hamil_mem (hp_s hp) (ob_x ob).
have liv' : lives (hp_e hp) (hp_l hp) (hp_s hp) (put_eig (hamil (hp_s hp) (ob_x ob)).1 r) by rewrite EM.
have [h1 h2 _ _ [h3 h4]] := safecopy_values (liv' : lives _ _ _ (ob_x (mkOb _ true true _ _))) ES.
split=> //; last by rewrite put_hamil.
by move: h1; rewrite /= EM.
Qed.
End Diag.
Print Assumptions C69_agrees.
Print Assumptions C69_returns.
Print Assumptions C69_raises.
Print Assumptions C69_one_refuted.
Print Assumptions C69_context.

(** Cases: a circuit with one mode truncated to 2 states.  Two levels are returned;
    with one level the NumPy engine returns and the PyTorch engine raises. *)
Definition dg_heap : heap := mkHp (lc_store 1) 3 0.
Definition dg_solver (n : nat) : eigs_fun := fun _ _ _ => EigsOk (nseq n 0) (fun _ _ => 0).
Definition returns A (r : res A) : bool := if r is Ok _ then true else false.
Example C69_case disp lobj units maxg n : (forall m a, dim (disp m a) = m) -> (0 < n)%N -> exists x0 x1,
  let u := unit_run units ustate_init in
  let np := diag_sm (dg_solver n) (fun=> iota 0 n) u (Some (Z.of_nat n)) (lc_store 1) x1 in
  let t := diag_torch (dg_solver n) (fun=> iota 0 n) u maxg (Some (Z.of_nat n)) dg_heap (mkOb x1 true true true true) in
  [/\ construct true (lc_or 1) (lc_store 1) lobj "junctions" lc_dict = Some (Ok x0),
      set_trunc disp (Some [:: 2%N]) x0 = (x1, Ok tt), returns np.2 & returns t.2 = (1 < n)%N /\ ob_x t.1.2 = np.1].
Proof.
move=> dims n0; set u := unit_run units ustate_init.
have [x0 [E0 m0 c0 K0]] := lc_construct true lobj Rlt_0_1.
have N0 : t_n0 (x_st x0) = 1%N.
  have [nn [cc [B0 [st0 [/built_size [h1 h2 _] [En Ex]]]]]] := constructP E0; rewrite Ex /= finish_n0 h1.
  by case: En => En; apply: Nat2Z.inj; rewrite -En.
have G0 := good_construct disp E0.
have Ec0 : exists nn, get_LCWB true (hp_s dg_heap) "junctions" (Z.of_nat nn) lobj (x_dict x0) = Ok (x_c x0).
  by have [nn [cc [B0 [st0 [[st1 [Ec _ _ _]] [En ->]]]]]] := constructP E0; exists nn.
have D0 : x_dict x0 = lc_dict by have [? [? [? [? [_ [_ ->]]]]]] := constructP E0.
have [x1 [Es G1 m1 [n1 C1 T1]]] : exists x1, [/\ set_trunc disp (Some [:: 2%N]) x0 = (x1, Ok tt), good disp x1, x_m x1 = [:: 2%N] &
   [/\ x_n x1 = 1%N, x_c x1 = x_c x0 /\ x_dict x1 = x_dict x0 & t_n0 (x_st x1) = t_n0 (x_st x0)]].
  have := good_set_trunc (Some [:: 2%N]) G0; rewrite /set_trunc m0 /= c0; set x1 := put_m _ _.
  have c1 i : (i < x_n x1)%N -> is_charge (x_st x1) i -> isl x1 i := g_charge G0 (i := i).
  have s1 : size (x_m x1) = x_n x1 by rewrite -[x_n x1]/(x_n x0) m0.
  by rewrite (mem_err_none s1 c1) => G1; eexists; split; first by reflexivity.
have [A EA] : exists A, ham_of disp (lc_store 1) x1 = Ok A.
  apply: hamiltonian_total; first by rewrite /= m1.
  - by rewrite /hn -[t_n _]/(x_n x1) n1.
  move=> kq /=; rewrite C1.1 K0 T1 N0 => -[<-|//] /=; right; split=> //; split; lia.
have [hE [M [hM hs]]] := hamilE (lc_store 1) G1; rewrite EA in hE.
exists x0, x1; set r := sort_eigs (fun=> iota 0 n) (nseq n 0) (fun _ _ => 0).
have ED : diag_np (dg_solver n) (fun=> iota 0 n) A (Z.of_nat n) = Ok r by [].
have [sf sv] : size (e_freqs r) = n /\ size (e_vecs r) = n by rewrite /r /= size_sort !size_map size_nseq size_iota.
have dA : dim A = 2%N.
  by have [-> _] := hamiltonian_ok dims EA; rewrite /HamProofs.total /hn -[t_n _]/(x_n x1) n1 big_ord_recl big_ord0 muln1 /hm /= m1.
have [hp' [copy ES]] : exists hp' copy, safecopy true false dg_heap
    (mkOb (put_eig (hamil (lc_store 1) x1).1 r) true true true true) = Ok (hp', copy).
  rewrite /safecopy; have -> : lookups_ok dg_heap (ob_x (mkOb (put_eig (hamil (lc_store 1) x1).1 r) true true true true)).
    have [nn Ec] := Ec0; rewrite hM /=; apply/(built_lookups (fd := "junctions") (n := Z.of_nat nn) (lobj := lobj)) => //=.
    by rewrite C1.1 C1.2.
  rewrite /=; have -> : has (fun el => inductive_el (lc_store 1) el && ~~ true) (placed (put_eig (hamil (lc_store 1) x1).1 r)) = false
    by apply/negbTE/hasPn => el _; rewrite andbF.
  by do 2!eexists.
have np : diag_sm (dg_solver n) (fun=> iota 0 n) u (Some (Z.of_nat n)) (lc_store 1) x1 =
   (put_eig (hamil (lc_store 1) x1).1 r, Ok ([seq in_unit u w | w <- e_freqs r], e_vecs r)).
  by rewrite /diag_sm m1 /=; case: hamil hE => z h /= ->.
split=> //; rewrite np // (@diag_torchE _ _ _ _ (unit_nonzero units) _ dg_heap _ A r) //=; last by rewrite m1.
by rewrite /can_cat !size_sort !size_map size_nseq size_iota (gtn_eqF n0) /= ES eqxx dA andbT; case: ltnP.
Qed.

(** ** C70 *)

(** Backward computes from the context what it would from the circuit at the time
    of diag. *)
Theorem C70_context eigs argsort units maxg k hp ob hp' ob' ctx out eps len gval gvec :
  diag_torch eigs argsort (unit_run units ustate_init) maxg (Some k) hp ob = (hp', ob', Ok (ctx, out)) ->
  uniq (c_loops (x_c (ob_x ob))) ->
  eigen_backward (hp_s hp') ctx eps len gval gvec =
  eigen_backward (hp_s hp) (mkCtx (ob_x ob') (Z.to_nat k) (if maxg is Some z then z else k)) eps len gval gvec.
Proof.
case/(diag_torchP (unit_nonzero units)) => H [r [copy [_ ES _ -> [-> _]]]] uL.
rewrite (copy_backward r (Z.to_nat k) (top_of maxg k) ES) //.
by rewrite /= hamil_c.
Qed.
Print Assumptions C70_context.

(** Whatever happens to the components of the circuit between diag and backward. *)
Theorem C70_isolated eigs argsort units maxg k hp ob hp' ob' ctx out s' eps len gval gvec :
  diag_torch eigs argsort (unit_run units ustate_init) maxg (Some k) hp ob = (hp', ob', Ok (ctx, out)) ->
  lives (hp_e hp) (hp_l hp) (hp_s hp) (ob_x ob) ->
  (forall i, (hp_e hp <= i)%N -> ekind s' i = ekind (hp_s hp') i /\ evalue s' i = evalue (hp_s hp') i) ->
  (forall j, (hp_l hp <= j)%N -> lvalue s' j = lvalue (hp_s hp') j) ->
  eigen_backward s' ctx eps len gval gvec = eigen_backward (hp_s hp') ctx eps len gval gvec.
Proof.
move=> E liv; have [ap _ _ _ _] := C69_context liv E.
exact: isolated_backward ap.
Qed.
Print Assumptions C70_isolated.

Section Session.
Variables (disp : nat -> C -> op) (o : oracle) (s0 : store) (lobj : nat -> lrec) (fd : string).
Variables (d : seq (edge * seq nat)) (x0 : circ) (u : ustate) (cs : seq call) (tr : seq (world * res unit)).
Hypothesis dims : forall m a, dim (disp m a) = m.
Hypothesis built_ok : construct true o s0 lobj fd d = Some (Ok x0).
Hypothesis session : run disp true (mkW s0 u x0) cs = Some tr.
Hypothesis updates : updates_ok true (mkW s0 u x0) cs tr.
Variables (eigs : eigs_fun) (argsort : seq C -> seq nat) (units : seq unit_call) (maxg : option Z) (k : Z).
Variables (hp hp' : heap) (ob ob' : cobj) (ctx : ectx) (out : seq R * seq cvec).
Let s := hp_s hp.
Let x := ob_x ob.
Hypothesis now : w_s (final (mkW s0 u x0) tr) = s /\ w_x (final (mkW s0 u x0) tr) = x.
Hypothesis diag : diag_torch eigs argsort (unit_run units ustate_init) maxg (Some k) hp ob = (hp', ob', Ok (ctx, out)).
Variable H0 : op.
Hypothesis formed : (hamil s x).2 = Ok H0.
Let N := dim H0.
Let R1 : regular disp s x.
Proof.
case: now => <- <-; apply: (session_regular built_ok session updates); exists H0.
by case: now => -> ->.
Qed.
Let dN : N = HamProofs.total (hof x).
Proof. by have [EH _] := hamilE s (rg_good R1); move: formed; rewrite EH => /(hamiltonian_ok dims) []. Qed.

(** The component of entry [j], a loop or a junction. *)
Variables (j : nat) (c : LCWB.comp).
Hypothesis entry : (j < size (c_params (x_c x)))%N /\ nth c [seq p.1 | p <- c_params (x_c x)] j = c.
Hypothesis kind : match c with CLoop l => l \in c_loops (x_c x) | CEl el => ekind s el = KJJ end.
Let t0 := comp_value s c.
Let h := ham_family s x c.

(** The results as a function of the value of the component; at its value those of
    this diag, the first [K] of all levels. *)
Variables (e : R -> eigres) (full : eigres) (M : nat).
Let K := Z.to_nat k.
Let top := if maxg is Some z then z else k.
Hypothesis results : e t0 = x_eig (ob_x ob').
Hypothesis stored : e t0 = first_levels K full.
Hypothesis all_levels : complete N (h t0) full.
Hypothesis MK : (M <= K)%N.
Hypothesis KN : (K <= N)%N.
Hypothesis fol : forall k, (k < M)%N -> followed N h t0 e k.
Hypothesis simple : forall k, (k < M)%N -> simple_level N full k.
Let vec k := nth (fun=> 0) (e_vecs full) k.
Let fr k := nth 0 (e_freqs full) k.

(** A loss of the first [M] levels, and possibly of the value of the component itself,
    that does not depend on phases.  [gdir] is the gradient that reaches the component
    without passing through diag, [gval] and [gvec] are those PyTorch hands to
    backward. *)
Variables (loss : R -> loss_fun) (gdir : R) (gval : nat -> C) (gvec : nat -> nat -> C) (eps : R) (gs : seq R).
Hypothesis looks : forall t, looks_at M N (loss t).
Hypothesis free : forall t, phase_free M (loss t).
Hypothesis grads : gradients M N loss t0 fr vec gdir gval gvec.
Hypothesis gval0 : forall k, (M <= k)%N -> gval k = 0.
Hypothesis gvec0 : forall k i, (M <= k)%N -> gvec k i = 0.
Hypothesis backward : eigen_backward (hp_s hp') ctx eps N gval gvec = Ok gs.

(** The derivative of the loss is what PyTorch accumulates, plus exactly the response
    of the eigenvectors that backward leaves out. *)
Theorem C70_gradient : exists A, partial_H s (ob_x ob') c None = Ok (Some A) /\
  has_derivative (fun t => loss_of (loss t) (e t)) t0
    (gdir + nth 0 gs j + \sum_(m < M) complex.Re (\sum_(i < N) vec_missing N K top vec fr eps (ent A) m i * (gvec m i)^*)).
Proof.
have [H [r [copy [[_ _ _ EH _] _ cc Eob _]]]] := diag_torchP (unit_nonzero units) diag.
have Ex : at_value s x c e t0 = ob_x ob'.
  by rewrite /at_value /t0 changed_same results Eob.
have cE : x_c (ob_x ob') = x_c x by rewrite Eob /= hamil_c.
move: backward; rewrite (C70_context _ _ _ _ diag (rg_uniq R1)) /eigen_backward /= cE.
have [j1 j2] := entry.
case/params_entry => _ /(_ j c); rewrite size_map j2 => /(_ j1) [a /= [Ea ->]].
move: Ea; rewrite -Ex dN => Ea.
move: all_levels fol simple looks grads KN; rewrite dN => al fo si lo gr kn.
apply: (backward_slope dims R1 kind al stored _ MK kn fo si lo free gr gval0 gvec0 Ea).
have : e t0 = r by rewrite results Eob.
rewrite stored; case: (K) => [|//] Er; exfalso.
by move: cc; rewrite -Er /can_cat /= !take0.
Qed.

(** With all levels, nothing added to the denominators and eigenvectors up to the
    last level used, it is the derivative. *)
Theorem C70_complete : K = N -> eps = 0 -> Z.le (Z.of_nat M) top ->
  has_derivative (fun t => loss_of (loss t) (e t)) t0 (gdir + nth 0 gs j).
Proof.
move=> EK e0 hM; have [A [_ D]] := C70_gradient; apply: hd_eq D _.
apply: plus_zero; apply: big1 => m _; rewrite big1 //= => i _.
rewrite /vec_missing EK e0; have /Z.ltb_lt -> : Z.lt (Z.of_nat m) top.
  by apply: (Z.lt_le_trans _ (Z.of_nat M)) => //; apply/inj_lt/ltP.
by rewrite subrr mul0r.
Qed.

(** A loss of the eigenvalues alone: always the derivative. *)
Theorem C70_values : (forall m i, gvec m i = 0) -> has_derivative (fun t => loss_of (loss t) (e t)) t0 (gdir + nth 0 gs j).
Proof.
move=> g0; have [A [_ D]] := C70_gradient; apply: hd_eq D _.
by apply: plus_zero; apply: big1 => m _; rewrite big1 //= => i _; rewrite g0 conjc0 mulr0.
Qed.
End Session.
Print Assumptions C70_gradient.
Print Assumptions C70_complete.
Print Assumptions C70_values.

(** Case: the rotating two-level Hamiltonian of P_Perturb and half of <v|sx|v> for
    its upper level.  The hypotheses hold, and the response of the eigenvector gives
    the slope 1/2 of sin t / 2; with the eigenvectors left out it would be 0. *)
Definition rot_loss : loss_fun := fun _ v => complex.Re ((v 0%N 0%N)^* * v 0%N 1%N).
Definition rot_gvec (k i : nat) : C := if (k == 0%N) && (i == 1%N) then 1 else 0.
Example C70_rotating :
  let vec k := nth (fun=> 0) (e_vecs (rot_e 0)) k in let fr k := nth 0 (e_freqs (rot_e 0)) k in
  [/\ looks_at 1 2 rot_loss, phase_free 1 rot_loss, gradients 1 2 (fun=> rot_loss) 0 fr vec 0 (fun=> 0) rot_gvec,
      followed 2 rot_h 0 rot_e 0 /\ simple_level 2 (rot_e 0) 0 &
      [/\ vec_response 2 2 vec fr 0 rot_P 0 0 = 0, vec_response 2 2 vec fr 0 rot_P 0 1 = onehalf%:C,
          has_derivative (fun t => loss_of rot_loss (rot_e t)) 0 onehalf &
          vec_missing 2 2 Z0 vec fr 0 rot_P 0 1 = onehalf%:C]].
Proof.
have [Cm Tr _ _] := C68_rotating; have [B Hh Dh _ _] := C49_rotating.
move=> vec fr.
have V0 : vec 0%N 0%N = 1 by rewrite /vec /= /rot_v hcos0.
have V1 : vec 0%N 1%N = 0 by rewrite /vec /= /rot_v hsin0.
have U0 : vec 1%N 0%N = 0 by rewrite /vec /= /rot_u hsin0 oppr0.
have U1 : vec 1%N 1%N = 1 by rewrite /vec /= /rot_u hcos0.
have L : looks_at 1 2 rot_loss by move=> w w' v v' _ H; rewrite /rot_loss !H.
have F : phase_free 1 rot_loss.
  move=> w v z H; rewrite /rot_loss rmorphM mulrACA H // mul1r //.
have G : gradients 1 2 (fun=> rot_loss) 0 fr vec 0 (fun=> 0) rot_gvec.
  move=> w v dw dv _ Hv _ Hd.
  have [D _] := cd_mul (cd_conj (Hd 0%N 0%N isT isT)) (Hd 0%N 1%N isT isT).
  apply: hd_eq D _; rewrite [RHS]Rplus_0_l !Hv // V0 V1 mulr0 add0r conjc1 mul1r.
  rewrite big_ord1 2!big_ord_recl big_ord0 -[rot_gvec _ _]/(0 : C) -[rot_gvec _ (lift _ _)]/(1 : C).
  by rewrite conjc0 conjc1 !mulr0 add0r add0r mulr1 addr0.
have S : simple_level 2 (rot_e 0) 0.
  by move=> [|[|//]] // _ _; exact: one_not_minus_one.
have Fo : followed 2 rot_h 0 rot_e 0.
  exists rot_v, (fun=> 1), rot_dv, 0; split=> //; exists 1; split=> [|t _] //; try exact: Rlt_0_1.
    by rewrite dot2 /rot_v !conjc_real -!rmorphM -rmorphD /=; congr (_%:C); exact: half_norm.
  by split=> //; exists 1; split=> [|i _]; rewrite ?conjc1 ?mulr1 ?mul1r.
have P01 : rot_P 0 1 = 1 by []. have P10 : rot_P 1 0 = 1 by [].
have P00 : rot_P 0 0 = 0 by []. have P11 : rot_P 1 1 = 0 by [].
pose simp := (V0, V1, U0, U1, P00, P01, P10, P11, conjc0, conjc1, mul0r, mulr0, mulr1, mul1r, addr0, add0r).
have R0' : vec_response 2 2 vec fr 0 rot_P 0 0 = 0.
  by rewrite /vec_response big_mkcond 2!big_ord_recl big_ord0 /= -[bump 0 0]/1%N !sandwich2 !simp.
have R1' : vec_response 2 2 vec fr 0 rot_P 0 1 = onehalf%:C.
  rewrite /vec_response big_mkcond 2!big_ord_recl big_ord0 /= -[bump 0 0]/1%N !sandwich2 !simp.
  by rewrite -fmorphV /= -?rmorphM /=; congr (_%:C); rewrite -RinvE; exact: half_case.
split=> //; split=> //; last by rewrite /vec_missing /= subr0.
have D : has_derivative (fun t => loss_of rot_loss (rot_e t)) 0 (0 + \sum_(k < 1)
   complex.Re ((complex.Re (sandwich 2 (vec k) rot_P (vec k)))%:C * 0^* +
               \sum_(i < 2) vec_response 2 2 vec fr 0 rot_P k i * (rot_gvec k i)^*)).
  by apply: (loss_slope (full := rot_e 0) (K := 2) Dh Hh Cm _ _ _ _ _ (fun=> L) (fun=> F) G) => // -[].
apply: hd_eq D _; rewrite [LHS]Rplus_0_l big_ord1 conjc0 mulr0 add0r 2!big_ord_recl big_ord0.
rewrite -[rot_gvec _ (lift _ _)]/(1 : C) -[rot_gvec _ _]/(0 : C) conjc0 conjc1 mulr0 add0r mulr1 addr0.
by rewrite R1'.
Qed.

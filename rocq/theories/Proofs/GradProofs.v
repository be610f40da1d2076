(** GradProofs.v -- derivatives of the Hamiltonian with respect to external fluxes
    and junction energies. *)
From Coq Require Import Reals ZArith String.
From Verif.Model Require Import Base Units Settings Elements Edge LCWB Rounding Accuracy HamConst PartialConst Trunc.
From Verif.Spec Require Import GraphSpec CircuitSpec ThermalSpec.
From Verif.Proofs Require Import LCWBProofs BookProofs ThermalProofs.

Lemma loop_coefE b L : loop_coef b L = ind_coef L b.
Proof. unfold loop_coef, ind_coef, Rdiv. ring. Qed.
Lemma ind_coef_lin L phi t u b : (ind_coef L (phi + (t - u) * b) = ind_coef L phi + (t - u) * ind_coef L b)%R.
Proof. unfold ind_coef, Rdiv. ring. Qed.
Lemma d_loop_coefE b L : (L <> 0 -> d_loop_coef b L = - ind_coef 1 b * / (L * L))%R.
Proof. intros H. unfold d_loop_coef, ind_coef, Rdiv. rewrite Rinv_1. replace (/ - L ^ 2)%R with (- / (L * L))%R by (field; exact H). ring. Qed.
Lemma ind_coef_inv b L : (ind_coef L b = / L * ind_coef 1 b)%R.
Proof. unfold ind_coef, Rdiv. rewrite Rinv_1. ring. Qed.

Lemma inv_slope c v : (c * (- 1 / (v * v)) = - c * / (v * v))%R.
Proof. unfold Rdiv. ring. Qed.

From mathcomp Require Import all_ssreflect all_algebra.
From mathcomp Require Import complex ring.
From Verif.Numerics Require Import RStruct Bridge.
From Verif.Model Require Import FluxDist Transform Op Ham Diag CircuitSM Partial.
From Verif.Spec Require Import OpSpec SessionSpec GradSpec.
From Verif.Proofs Require Import OpProofs HamProofs2 HamProofs6 CDeriv FluxProofs2 SMProofs SMProofs2 SMProofs3 MemProofs.

Set Implicit Arguments.
Unset Strict Implicit.
Unset Printing Implicit Defensive.
Import GRing.Theory.
Local Open Scope ring_scope.
Local Open Scope complex_scope.

(** ** Sums *)
Lemma racc_sum (K : Type) (f : K -> res op) (F : K -> op) ks acc :
  (forall k, List.In k ks -> f k = Ok (F k)) ->
  exists2 A, foldl (racc f) (Ok acc) ks = Ok A &
    forall a b, oent A a b = oent acc a b + \sum_(k <- ks) ent (F k) a b.
Proof.
elim: ks acc => [|k ks IH] acc H; first by exists acc => // a b; rewrite big_nil addr0.
have [|A EA HA] := IH (acc_add acc (F k)) => [j hj|]; first by apply: H; right.
exists A; first by rewrite /= H //; left.
by move=> a b; rewrite HA oent_add big_cons addrA.
Qed.

Lemma racc_inv (K : Type) (f : K -> res op) ks : forall acc A, foldl (racc f) acc ks = Ok A ->
  (exists B, acc = Ok B) /\ forall k, List.In k ks -> exists B, f k = Ok B.
Proof.
elim: ks => [|k ks IH] acc A /=; first by move=> ->; split=> //; exists A.
move=> /IH [[B +] H]; rewrite {1}/racc; case: acc => [D|] //; case E: (f k) => [X|] // _.
by split; [exists D | move=> j [<-|hj]; [exists X | apply: H]].
Qed.

Lemma filter_In (K : Type) (p : pred K) ks k : List.In k [seq k <- ks | p k] <-> List.In k ks /\ p k.
Proof.
elim: ks => [|j ks IH] /=; first by split=> [|[]].
case E: (p j) => /=; rewrite IH; split.
- by move=> [<-|[? ?]]; split=> //; [left | right].
- by move=> [[<-|?] ?]; [left | right].
- by move=> [? ?]; split=> //; right.
- by move=> [[<-|//] Q]; rewrite E in Q.
Qed.

(** ** Flux at an element as a function of one loop *)
Lemma flux_line s x l t b : uniq (c_loops (x_c x)) -> l \in c_loops (x_c x) ->
  ext_flux (loop_vals (with_flux s l t) x) (x_B x) b =
  ext_flux (loop_vals s x) (x_B x) b + (t - lvalue s l) * x_B x b (index l (c_loops (x_c x))).
Proof.
move=> U hl; rewrite /ext_flux /loop_vals !size_map; set ls := c_loops _.
have hi : (index l ls < size ls)%N by rewrite index_mem.
rewrite (bigD1 (Ordinal hi)) // [in RHS](bigD1 (Ordinal hi)) //=.
rewrite !(nth_map 0%N) // nth_index //= Nat.eqb_refl [in RHS]addrAC -mulrDl [lvalue s l + _]addrC subrK.
congr (_ + _); apply: eq_bigr => i ni; rewrite !(nth_map 0%N) //=.
case: Nat.eqb_spec => // E; case/eqP: ni; apply: val_inj => /=.
by rewrite -E index_uniq.
Qed.

Lemma flux_value_const s x el v b :
  ext_flux (loop_vals (with_value s el v) x) (x_B x) b = ext_flux (loop_vals s x) (x_B x) b.
Proof. by []. Qed.

(** ** cos and sin of the junction phase *)
Lemma jj_cosE disp h phi w a b : ent (jj_cos (jj_exp disp h phi w)) a b = jjent disp h phi w a b.
Proof. by []. Qed.
Definition sinent (disp : nat -> C -> op) (h : hin) (phi : R) (w a b : nat) : C :=
  ent (jj_sin (jj_exp disp h phi w)) a b.

Lemma i_neq0 : ('i : C) != 0.
Proof. by rewrite eq_complex /= oner_eq0 andbF. Qed.
Lemma i_sq : 'i * 'i = -1 :> C.
Proof. by rewrite -expr2 sqr_i. Qed.
Lemma i_half : 'i * (2%:R : C)^-1 = - (2%:R * 'i)^-1.
Proof.
have n2 : (2%:R : C) != 0 by rewrite Num.Theory.pnatr_eq0.
have ni := i_neq0.
apply: (mulIf (mulf_neq0 n2 ni)); rewrite mulNr mulVf ?mulf_neq0 //.
by rewrite mulrA -[_ * _ * 2%:R]mulrA mulVf // mulr1 i_sq.
Qed.

Lemma cd_cos disp h (f : R -> R) t d w a b : has_derivative f t d ->
  cderiv (fun u => jjent disp h (f u) w a b) t (- d%:C * sinent disp h (f t) w a b).
Proof.
move=> D; rewrite /jjent; have E := cd_expi D.
apply: cd_eq.
  apply: cd_scale; apply: cd_add; first exact: cd_scaler E.
  by apply: cd_conj; apply: cd_scaler E.
rewrite /sinent /jj_sin /jj_exp /oscale /osub /oadj /=.
rewrite -[('i * _ * _ * ent _ b a)]mulrA -[('i * _ * _ * ent _ a b)]mulrA.
set U := expi _ * ent _ a b; set V := expi _ * ent _ b a.
have -> : ('i * d%:C * V)^* = - ('i * d%:C * V^*) by rewrite !cjM cji cjR !mulNr.
by rewrite -mulrBr !mulrA [2%:R^-1 * 'i]mulrC i_half !mulNr [(2%:R * 'i)^-1 * _]mulrC.
Qed.

Lemma cd_sin disp h (f : R -> R) t d w a b : has_derivative f t d ->
  cderiv (fun u => sinent disp h (f u) w a b) t (d%:C * jjent disp h (f t) w a b).
Proof.
move=> D; rewrite /jjent /sinent /jj_sin /jj_exp /oscale /osub /oadj /=; have E := cd_expi D.
apply: cd_eq.
  apply: cd_scale; apply: cd_add; first exact: cd_scaler E.
  by apply: cd_opp; apply: cd_conj; apply: cd_scaler E.
rewrite -[('i * _ * _ * ent _ b a)]mulrA -[('i * _ * _ * ent _ a b)]mulrA.
set U := expi _ * ent _ a b; set V := expi _ * ent _ b a.
have -> : ('i * d%:C * V)^* = - ('i * d%:C * V^*) by rewrite !cjM cji cjR !mulNr.
rewrite opprK -mulrDr !mulrA; congr (_ * _); rewrite mulrC; congr (_ * _).
have ni := i_neq0.
by rewrite invfM -mulrA mulVf // mulr1.
Qed.

(** ** The Hamiltonian *)
Lemma hamiltonian_shape2 disp h val val' loops loops' B ks A : hamiltonian disp h val loops B ks = Ok A ->
  exists A', hamiltonian disp h val' loops' B ks = Ok A'.
Proof.
have Hi : forall x y, same_shape x y ->
   same_shape (foldl (ind_term h val loops B) x (k_ind ks)) (foldl (ind_term h val' loops' B) y (k_ind ks)).
  elim: (k_ind ks) => [//|[[e el] b] s IH] x y Hxy; cbn [foldl]; apply: IH.
  case: x y Hxy => [a|x] [b'|y] // Hab; cbn [ind_term].
  by case: (coupling_op h (Some Inductive_) e).
have Hj : forall a b, isSome a = isSome b ->
   isSome (foldl (jj_term disp h val loops B) a (k_jj ks)) = isSome (foldl (jj_term disp h val' loops' B) b (k_jj ks)).
  by elim: (k_jj ks) => [//|[[[e el] b] w] s IH] x y Hxy; cbn [foldl]; apply: IH.
rewrite /hamiltonian; case: ifP => // _; rewrite /ind_hamil.
have := Hi (Ok None) (Ok None) erefl; case: foldl => [a|//]; case: foldl => [b|//] /= /Hj.
case: foldl => [x|]; case: foldl => [y|] //= _; first by case: LC_hamil; eexists.
by case: LC_hamil => //; eexists.
Qed.

Record regular (disp : nat -> C -> op) (s : store) (x : circ) : Prop := mkReg {
  rg_good : good disp x;
  rg_keys : keys_ok (x_c x);
  rg_nodup : List.NoDup (List.map (fun k => snd (fst k)) (c_keys_jj (x_c x)));
  rg_uniq : uniq (c_loops (x_c x));
  rg_ind : forall k, List.In k (c_keys_ind (x_c x)) -> ekind s k.1.2 = KInd;
  rg_jj : forall k, List.In k (c_keys_jj (x_c x)) -> ekind s k.1.1.2 = KJJ;
  rg_ham : exists H, (hamil s x).2 = Ok H }.

Section Grad.
Variable disp : nat -> C -> op.

Lemma hamil_ok s s' x : good disp x -> (exists H, (hamil s x).2 = Ok H) -> exists H, (hamil s' x).2 = Ok H.
Proof.
move=> G [H]; have [-> _] := hamilE s G; have [-> _] := hamilE s' G; rewrite /ham_of.
exact: hamiltonian_shape2.
Qed.

Lemma regular_store s s' x : regular disp s x -> ekind s' = ekind s -> regular disp s' x.
Proof.
by case=> G K ND U I J R E; split=> //; rewrite ?E //; apply: hamil_ok R.
Qed.

(** Entries of the Hamiltonian. *)
Definition ham_entry (s : store) (x : circ) (a b : nat) : C :=
  oent (LC_hamil (hof x)) a b
  + \sum_(k <- c_keys_ind (x_c x))
      (ind_coef (evalue s k.1.2) (ext_flux (loop_vals s x) (x_B x) k.2))%:C * cpl (hof x) k.1.1 a b
  - \sum_(k <- c_keys_jj (x_c x))
      (evalue s k.1.1.2)%:C * jjent disp (hof x) (ext_flux (loop_vals s x) (x_B x) k.1.2) k.2 a b.
Lemma ham_entryE s x a b : regular disp s x -> res_entry (hamil s x).2 a b = ham_entry s x a b.
Proof.
move=> R; have [H E] := rg_ham R; rewrite E /=.
by move: E; have [-> _] := hamilE s (rg_good R); move=> /hamiltonian_entry ->.
Qed.

Lemma filledP s x : regular disp s x -> exists M, (hamil s x).1 = put_mem x M (x_LC x) /\ filled disp s x M.
Proof.
move=> R; have [H] := rg_ham R; case E: hamil => [x1 r] /= Er; rewrite Er in E.
by have [M [-> F _ _]] := hamil_filled (rg_good R) (rg_keys R) E; exists M.
Qed.

(** *** One loop *)
Definition loop_grad (s : store) (x : circ) (l : nat) (a b : nat) : C :=
  let j := index l (c_loops (x_c x)) in
  \sum_(k <- c_keys_ind (x_c x)) (ind_coef (evalue s k.1.2) (x_B x k.2 j))%:C * cpl (hof x) k.1.1 a b
  + \sum_(k <- c_keys_jj (x_c x)) (x_B x k.1.2 j * evalue s k.1.1.2)%:C *
      sinent disp (hof x) (ext_flux (loop_vals s x) (x_B x) k.1.2) k.2 a b.

Lemma loop_gradP s x l : regular disp s x -> l \in c_loops (x_c x) ->
  exists2 P, reported_grad s x (CLoop l) None = Ok P & forall a b, opt_entry P a b = loop_grad s x l a b.
Proof.
move=> R hl; have [M [E F]] := filledP R; rewrite /reported_grad E /partial_H /loop_index /= hl.
set j := index _ _.
have [k hk|P EP HP] := @racc_sum _ (fun k : edge * nat * nat => let '(_, el, b) := k in
    rscale (loop_coef (x_B x b j) (evalue s el)) (fetch (M_ind M) el b))
  (fun k => oscale (ind_coef (evalue s k.1.2) (x_B x k.2 j))%:C
     (if coupling_op (hof x) (Some Inductive_) k.1.1 is Ok A then A else ozero 0)) (c_keys_ind (x_c x)) None.
  case: k hk => [[e el] b] hk; have [A EA EM] := fl_ind F hk.
  by rewrite /fetch EM; cbn [fst snd rscale]; rewrite EA loop_coefE.
rewrite EP.
have [k hk|Q EQ HQ] := @racc_sum _ (fun k : edge * nat * nat * nat => let '(_, el, b, _) := k in
    rscale (x_B x b j * evalue s el) (fetch (M_sin M) el b))
  (fun k => oscale (x_B x k.1.2 j * evalue s k.1.1.2)%:C
     (jj_sin (jj_exp disp (hof x) (ext_flux (loop_vals s x) (x_B x) k.1.2) k.2))) (c_keys_jj (x_c x)) P.
  case: k hk => [[[e el] b] w] hk; have [_ EM _] := fl_jj F hk.
  by rewrite /fetch EM.
exists Q => // a b; rewrite -[opt_entry Q a b]/(oent Q a b) HQ HP (_ : oent None a b = 0) // add0r /loop_grad -/j.
congr (_ + _); apply: eq_bigr => k _; cbn [ent oscale]; rewrite /cpl; by case: coupling_op.
Qed.

Lemma hd_flux s x l b : uniq (c_loops (x_c x)) -> l \in c_loops (x_c x) ->
  has_derivative (fun t => ext_flux (loop_vals (with_flux s l t) x) (x_B x) b) (lvalue s l)
    (x_B x b (index l (c_loops (x_c x)))).
Proof. by move=> U hl; apply: hd_ext (hd_affine _ _ _ _) => u; rewrite flux_line. Qed.

Lemma flux_same s l : loop_vals (with_flux s l (lvalue s l)) =1 loop_vals s.
Proof. by move=> x; apply: eq_map => j /=; case: Nat.eqb_spec => // ->. Qed.

Lemma loop_derivative s x l a b : regular disp s x -> l \in c_loops (x_c x) ->
  cderiv (fun t => res_entry (hamil (with_flux s l t) x).2 a b) (lvalue s l) (loop_grad s x l a b).
Proof.
move=> R hl; have U := rg_uniq R.
apply: (@cd_ext (fun t => ham_entry (with_flux s l t) x a b)) => [u|].
  by rewrite ham_entryE //; apply: regular_store R _.
rewrite /ham_entry /loop_grad /=; set j := index _ _.
rewrite -[X in cderiv _ _ X]add0r addrA; apply: cd_add.
  apply: cd_add; first exact: cd_const.
  apply: cd_sum => k _ _; apply: cd_scaler; apply: cd_real.
  by apply: hd_ext (hd_affine _ _ _ _) => u; rewrite flux_line // ind_coef_lin.
rewrite -[X in cderiv _ _ X]opprK; apply: cd_opp; rewrite -sumrN.
apply: cd_sum => k _ _; apply: cd_eq.
  by apply: cd_scale; apply: cd_cos; apply: hd_flux.
by cbv beta; rewrite flux_same rmorphM mulNr mulrN mulrA [_%:C * _%:C]mulrC.
Qed.

(** *** Two loops *)
Definition loop2_grad (s : store) (x : circ) (l l2 : nat) (a b : nat) : C :=
  let j := index l (c_loops (x_c x)) in let j2 := index l2 (c_loops (x_c x)) in
  \sum_(k <- c_keys_jj (x_c x)) (evalue s k.1.1.2 * x_B x k.1.2 j2 * x_B x k.1.2 j)%:C *
      jjent disp (hof x) (ext_flux (loop_vals s x) (x_B x) k.1.2) k.2 a b.

Lemma loop2_gradP s x l l2 : regular disp s x -> l \in c_loops (x_c x) -> l2 \in c_loops (x_c x) ->
  exists2 P, partial_squared_H_phi s (hamil s x).1 l (CLoop l2) = Ok P &
    forall a b, opt_entry P a b = loop2_grad s x l l2 a b.
Proof.
move=> R hl hl2; have [M [E F]] := filledP R; rewrite E /partial_squared_H_phi /loop_index /= hl hl2.
set j := index l _; set j2 := index l2 _.
have [k hk|Q EQ HQ] := @racc_sum _ (fun k : edge * nat * nat * nat => let '(_, el, b, _) := k in
    rscale (evalue s el * x_B x b j2 * x_B x b j) (fetch (M_cos M) el b))
  (fun k => oscale (evalue s k.1.1.2 * x_B x k.1.2 j2 * x_B x k.1.2 j)%:C
     (jj_cos (jj_exp disp (hof x) (ext_flux (loop_vals s x) (x_B x) k.1.2) k.2))) (c_keys_jj (x_c x)) None.
  case: k hk => [[[e el] b] w] hk; have [EM _ _] := fl_jj F hk.
  by rewrite /fetch EM.
by exists Q => // a b; rewrite -[opt_entry Q a b]/(oent Q a b) HQ /= add0r.
Qed.

Lemma loop2_derivative s x l l2 a b : regular disp s x -> l \in c_loops (x_c x) -> l2 \in c_loops (x_c x) ->
  cderiv (fun t => grad_entry (reported_grad (with_flux s l2 t) x (CLoop l) None) a b) (lvalue s l2)
    (loop2_grad s x l l2 a b).
Proof.
move=> R hl hl2; have U := rg_uniq R.
apply: (@cd_ext (fun t => loop_grad (with_flux s l2 t) x l a b)) => [u|].
  by have [|//|P -> HP] := @loop_gradP (with_flux s l2 u) x l; [apply: regular_store R _ | rewrite /= HP].
rewrite /loop_grad /=; set j := index l _; rewrite -[X in cderiv _ _ X]add0r.
apply: cd_add; first exact: cd_const.
apply: cd_sum => k _ _; apply: cd_eq.
  by apply: cd_scale; apply: cd_sin; apply: hd_flux.
by cbv beta; rewrite flux_same -/j mulrA -rmorphM; congr (_%:C * _); rewrite mulrC mulrA mulrAC [_ * evalue _ _]mulrC.
Qed.

(** *** Junctions *)
Definition sel_jj (el : nat) (bsel : option nat) (k : edge * nat * nat * nat) : bool :=
  (k.1.1.2 == el) && (if bsel is Some b' then b' == k.1.2 else true).
Definition jj_grad (s : store) (x : circ) (el : nat) (bsel : option nat) (a b : nat) : C :=
  - \sum_(k <- c_keys_jj (x_c x) | sel_jj el bsel k)
      jjent disp (hof x) (ext_flux (loop_vals s x) (x_B x) k.1.2) k.2 a b.

Lemma jj_gradP s x el bsel : regular disp s x -> ekind s el = KJJ ->
  exists2 P, reported_grad s x (CEl el) bsel = Ok P & forall a b, opt_entry P a b = jj_grad s x el bsel a b.
Proof.
move=> R hl; have [M [E F]] := filledP R; rewrite /reported_grad E /partial_H hl /=.
have [k hk|Q EQ HQ] := @racc_sum _ (fun k : edge * nat * nat * nat => let '(_, _, b, _) := k in
    rscale (- 1) (fetch (M_cos M) el b))
  (fun k => oscale (- 1)%:C (jj_cos (jj_exp disp (hof x) (ext_flux (loop_vals s x) (x_B x) k.1.2) k.2)))
  [seq k <- c_keys_jj (x_c x) | sel_jj el bsel k] None.
  case: k hk => [[[e el'] b] w] /filter_In [hk /andP [/eqP /= Ee _]]; rewrite -Ee.
  by have [EM _ _] := fl_jj F hk; rewrite /fetch EM.
exists Q => // a b; rewrite -[opt_entry Q a b]/(oent Q a b) HQ (_ : oent None a b = 0) // add0r big_filter /jj_grad -sumrN.
by apply: eq_bigr => k _; cbn [ent oscale]; rewrite jj_cosE rmorphN mulN1r.
Qed.

Lemma value_jj s el v k : evalue (with_value s el v) k = if k == el then v else evalue s k.
Proof. by []. Qed.

Lemma neq_kind s i el k k' : ekind s i = k -> ekind s el = k' -> k <> k' -> (i == el) = false.
Proof. by move=> <- <- H; apply/eqP => E; apply: H; rewrite E. Qed.

Lemma sum_shift (K : Type) (ks : seq K) (p : pred K) (f g : K -> R) (h : K -> C) (d : R) :
  (forall k, List.In k ks -> f k = g k + (if p k then d else 0)) ->
  \sum_(k <- ks) (f k)%:C * h k = \sum_(k <- ks) (g k)%:C * h k + d%:C * \sum_(k <- ks | p k) h k.
Proof.
elim: ks => [|k ks IH] H; first by rewrite !big_nil mulr0 addr0.
rewrite !big_cons IH => [|j hj]; last by apply: H; right.
rewrite H; last by left.
case: (p k); first by rewrite rmorphD mulrDl mulrDr addrACA.
by rewrite addr0 addrA.
Qed.

Lemma jj_affine s x el v a b : regular disp s x -> ekind s el = KJJ ->
  ham_entry (with_value s el v) x a b = ham_entry s x a b + (v - evalue s el)%:C * jj_grad s x el None a b.
Proof.
move=> R Ek; rewrite /ham_entry /jj_grad -[loop_vals (with_value s el v) x]/(loop_vals s x).
have -> : \sum_(k <- c_keys_ind (x_c x))
   (ind_coef (evalue (with_value s el v) k.1.2) (ext_flux (loop_vals s x) (x_B x) k.2))%:C * cpl (hof x) k.1.1 a b =
  \sum_(k <- c_keys_ind (x_c x))
   (ind_coef (evalue s k.1.2) (ext_flux (loop_vals s x) (x_B x) k.2))%:C * cpl (hof x) k.1.1 a b.
  apply: sum_in => k hk; rewrite value_jj (neq_kind (rg_ind R hk) Ek) //.
rewrite (@sum_shift _ _ (sel_jj el None) _ (fun k => evalue s k.1.1.2) _ (v - evalue s el)).
  by rewrite opprD mulrN addrA.
move=> k _; rewrite value_jj /sel_jj andbT; case: eqP => [->|_]; last by rewrite addr0.
by rewrite addrC subrK.
Qed.

(** One placement. *)
Lemma jj_placement s x e el b w a a' : regular disp s x -> List.In (e, el, b, w) (c_keys_jj (x_c x)) ->
  jj_grad s x el (Some b) a a' =
  - jjent disp (hof x) (ext_flux (loop_vals s x) (x_B x) b) w a a'.
Proof.
move=> R; have := rg_nodup R; rewrite /jj_grad; elim: (c_keys_jj (x_c x)) => //= k ks IH /List.NoDup_cons_iff [N ND].
have Z : (forall j, List.In j ks -> j.1.2 <> b) ->
    \sum_(j <- ks | sel_jj el (Some b) j) jjent disp (hof x) (ext_flux (loop_vals s x) (x_B x) j.1.2) j.2 a a' = 0.
  elim: (ks) => [|j l IHl] H; first by rewrite big_nil.
  rewrite big_cons IHl => [|i hi]; last by apply: H; right.
  rewrite /sel_jj; case: eqP => //= _; case: eqP => // E; case: (H j) => //; by left.
rewrite big_cons; case=> [E|Hin].
  rewrite E /= /sel_jj !eqxx Z ?addr0 // => j hj Ej; apply: N; rewrite E /=; rewrite -Ej.
  exact: (List.in_map (fun k => snd (fst k))).
have Nk : sel_jj el (Some b) k = false.
  rewrite /sel_jj andbC; case: eqP => //= E; case: N; rewrite -E.
  exact: (List.in_map (fun k => snd (fst k)) ks (e, el, b, w)).
by rewrite Nk IH.
Qed.

Lemma jj_placements s x el a b : regular disp s x ->
  jj_grad s x el None a b =
  \sum_(k <- c_keys_jj (x_c x) | k.1.1.2 == el) jj_grad s x el (Some k.1.2) a b.
Proof.
move=> R; have H k : List.In k (c_keys_jj (x_c x)) -> k.1.1.2 == el ->
    jj_grad s x el (Some k.1.2) a b = - jjent disp (hof x) (ext_flux (loop_vals s x) (x_B x) k.1.2) k.2 a b.
  by case: k => [[[e el'] b'] w] hk /eqP /= E; rewrite E in hk; apply: jj_placement hk.
rewrite {1}/jj_grad -sumrN big_mkcond [in RHS]big_mkcond; apply: sum_in => k hk.
by rewrite /sel_jj andbT; case: ifP => // E; rewrite H.
Qed.

(** *** Loop and junction *)
Definition loop_jj_grad (s : store) (x : circ) (l el : nat) (a b : nat) : C :=
  \sum_(k <- c_keys_jj (x_c x) | k.1.1.2 == el) (x_B x k.1.2 (index l (c_loops (x_c x))))%:C *
      sinent disp (hof x) (ext_flux (loop_vals s x) (x_B x) k.1.2) k.2 a b.

Lemma racc_map (K L : Type) (g : K -> L) (f : L -> res op) ks : forall acc,
  foldl (racc f) acc (map g ks) = foldl (racc (fun k => f (g k))) acc ks.
Proof. by elim: ks => //= k ks IH acc; rewrite IH. Qed.

Lemma loop_jjP s x l el : regular disp s x -> l \in c_loops (x_c x) -> ekind s el = KJJ ->
  exists2 P, partial_squared_H_phi s (hamil s x).1 l (CEl el) = Ok P &
    forall a b, opt_entry P a b = loop_jj_grad s x l el a b.
Proof.
move=> R hl Ek; have [M [E F]] := filledP R.
rewrite E /partial_squared_H_phi /B_indices Ek /loop_index /= hl racc_map; set j := index l _.
have [k hk|Q EQ HQ] := @racc_sum _ (fun k : edge * nat * nat * nat =>
    rscale (x_B x k.1.2 j) (fetch (M_sin M) el k.1.2))
  (fun k => oscale (x_B x k.1.2 j)%:C
     (jj_sin (jj_exp disp (hof x) (ext_flux (loop_vals s x) (x_B x) k.1.2) k.2)))
  [seq k <- c_keys_jj (x_c x) | k.1.1.2 == el] None.
  case: k hk => [[[e el'] b] w] /filter_In [hk /eqP /= Ee]; rewrite -Ee.
  by have [_ EM _] := fl_jj F hk; rewrite /fetch EM.
exists Q => // a b; rewrite -[opt_entry Q a b]/(oent Q a b) HQ (_ : oent None a b = 0) // add0r.
by rewrite big_filter.
Qed.

Lemma sum_shift2 (K : Type) (ks : seq K) (p : pred K) (f g c : K -> R) (h : K -> C) (d : R) :
  (forall k, List.In k ks -> f k = g k + (if p k then d * c k else 0)) ->
  \sum_(k <- ks) (f k)%:C * h k = \sum_(k <- ks) (g k)%:C * h k + d%:C * \sum_(k <- ks | p k) (c k)%:C * h k.
Proof.
elim: ks => [|k ks IH] H; first by rewrite !big_nil mulr0 addr0.
rewrite !big_cons IH => [|j hj]; last by apply: H; right.
rewrite H; last by left.
case: (p k); first by rewrite rmorphD mulrDl mulrDr addrACA rmorphM mulrA.
by rewrite addr0 addrA.
Qed.

Lemma loop_jj_affine s x l el v a b : regular disp s x -> ekind s el = KJJ ->
  loop_grad (with_value s el v) x l a b =
  loop_grad s x l a b + (v - evalue s el)%:C * loop_jj_grad s x l el a b.
Proof.
move=> R Ek; rewrite /loop_grad /loop_jj_grad -[loop_vals (with_value s el v) x]/(loop_vals s x); set j := index l _.
have -> : \sum_(k <- c_keys_ind (x_c x))
   (ind_coef (evalue (with_value s el v) k.1.2) (x_B x k.2 j))%:C * cpl (hof x) k.1.1 a b =
  \sum_(k <- c_keys_ind (x_c x))
   (ind_coef (evalue s k.1.2) (x_B x k.2 j))%:C * cpl (hof x) k.1.1 a b.
  apply: sum_in => k hk; rewrite value_jj (neq_kind (rg_ind R hk) Ek) //.
rewrite -addrA; congr (_ + _).
apply: (@sum_shift2 _ _ (fun k => k.1.1.2 == el) _ (fun k => x_B x k.1.2 j * evalue s k.1.1.2) (fun k => x_B x k.1.2 j)).
move=> k _; rewrite value_jj; case: eqP => [->|_]; last by rewrite addr0.
by rewrite [_ * x_B _ _ _]mulrC -mulrDr addrC subrK.
Qed.

(** *** Loop and inductor *)
Definition loop_ind_grad (s : store) (x : circ) (l el : nat) (a b : nat) : C :=
  \sum_(k <- c_keys_ind (x_c x) | k.1.2 == el)
    (d_loop_coef (x_B x k.2 (index l (c_loops (x_c x)))) (evalue s el))%:C * cpl (hof x) k.1.1 a b.

Lemma loop_indP s x l el : regular disp s x -> l \in c_loops (x_c x) -> ekind s el = KInd ->
  exists2 P, partial_squared_H_phi s (hamil s x).1 l (CEl el) = Ok P &
    forall a b, opt_entry P a b = loop_ind_grad s x l el a b.
Proof.
move=> R hl Ek; have [M [E F]] := filledP R.
rewrite E /partial_squared_H_phi /B_indices Ek /loop_index /= hl racc_map; set j := index l _.
have [k hk|Q EQ HQ] := @racc_sum _ (fun k : edge * nat * nat =>
    rscale (d_loop_coef (x_B x k.2 j) (evalue s el)) (fetch (M_ind M) el k.2))
  (fun k => oscale (d_loop_coef (x_B x k.2 j) (evalue s el))%:C
     (if coupling_op (hof x) (Some Inductive_) k.1.1 is Ok A then A else ozero 0))
  [seq k <- c_keys_ind (x_c x) | k.1.2 == el] None.
  case: k hk => [[e el'] b] /filter_In [hk /eqP Ee]; cbn [fst snd] in Ee; rewrite -Ee.
  by have [A EA EM] := fl_ind F hk; rewrite /fetch EM; cbn [fst snd rscale]; rewrite EA.
exists Q => // a b; rewrite -[opt_entry Q a b]/(oent Q a b) HQ (_ : oent None a b = 0) // add0r big_filter.
by apply: eq_bigr => k _; cbn [ent oscale]; rewrite /cpl; case: coupling_op.
Qed.

Lemma loop_ind_derivative s x l el a b : regular disp s x -> l \in c_loops (x_c x) -> ekind s el = KInd ->
  evalue s el <> 0 ->
  cderiv (fun v => grad_entry (reported_grad (with_value s el v) x (CLoop l) None) a b) (evalue s el)
    (loop_ind_grad s x l el a b).
Proof.
move=> R hl Ek N.
apply: (@cd_ext (fun v => loop_grad (with_value s el v) x l a b)) => [u|].
  by have [|//|P -> HP] := @loop_gradP (with_value s el u) x l; [apply: regular_store R _ | rewrite /= HP].
rewrite /loop_grad /loop_ind_grad; set j := index l _; rewrite -[X in cderiv _ _ X]addr0.
apply: cd_add; last first.
  apply: (@cd_ext (fun=> \sum_(k <- c_keys_jj (x_c x)) (x_B x k.1.2 j * evalue s k.1.1.2)%:C *
     sinent disp (hof x) (ext_flux (loop_vals s x) (x_B x) k.1.2) k.2 a b)); last exact: cd_const.
  by move=> u; apply: sum_in => k hk; rewrite value_jj (neq_kind (rg_jj R hk) Ek).
rewrite big_mkcond; apply: cd_sum => k _ _; case: eqP => [Ee|Ne].
  apply: cd_scaler; apply: cd_real; rewrite d_loop_coefE //.
  apply: (@hd_ext (fun v => Rmult (ind_coef R1 (x_B x k.2 j)) (Rinv v))) => [u|].
    by rewrite value_jj Ee eqxx [RHS]ind_coef_inv Rmult_comm.
  apply: hd_eq; first by apply: hd_scal; apply: hd_inv N; apply: hd_id.
  exact: inv_slope.
apply: (@cd_ext (fun=> (ind_coef (evalue s k.1.2) (x_B x k.2 j))%:C * cpl (hof x) k.1.1 a b)); last exact: cd_const.
by move=> u; rewrite value_jj; move/eqP/negbTE: Ne => ->.
Qed.

(** *** One placement of a junction and a loop *)
Lemma EJP s x l e el b w : regular disp s x -> l \in c_loops (x_c x) -> List.In (e, el, b, w) (c_keys_jj (x_c x)) ->
  exists2 P, partial_squared_H_EJ (hamil s x).1 el b (CLoop l) = Ok P &
    forall a a', opt_entry P a a' = (x_B x b (index l (c_loops (x_c x))))%:C *
      sinent disp (hof x) (ext_flux (loop_vals s x) (x_B x) b) w a a'.
Proof.
move=> R hl hk; have [M [E F]] := filledP R.
rewrite E /partial_squared_H_EJ /loop_index /= hl; have [_ EM _] := fl_jj F hk; rewrite /fetch EM /=.
by eexists.
Qed.

Lemma EJ_derivative s x l e el b w a a' : regular disp s x -> l \in c_loops (x_c x) ->
  List.In (e, el, b, w) (c_keys_jj (x_c x)) ->
  cderiv (fun t => grad_entry (reported_grad (with_flux s l t) x (CEl el) (Some b)) a a') (lvalue s l)
    ((x_B x b (index l (c_loops (x_c x))))%:C * sinent disp (hof x) (ext_flux (loop_vals s x) (x_B x) b) w a a').
Proof.
move=> R hl hk; have U := rg_uniq R; have Ek : ekind s el = KJJ := rg_jj R hk.
apply: (@cd_ext (fun t => - jjent disp (hof x) (ext_flux (loop_vals (with_flux s l t) x) (x_B x) b) w a a')) => [u|].
  have Ru : regular disp (with_flux s l u) x by apply: regular_store R _.
  by have [P -> HP] := jj_gradP (Some b) Ru Ek; rewrite /= HP (jj_placement _ _ Ru hk).
apply: cd_eq.
  by apply: cd_opp; apply: cd_cos; apply: hd_flux.
by cbv beta; rewrite flux_same mulNr opprK.
Qed.
End Grad.

(** ** Sessions *)
Lemma booked_regular optim w disp : booked optim w -> good disp (w_x w) ->
  (exists H, (hamil (w_s w) (w_x w)).2 = Ok H) -> regular disp (w_s w) (w_x w).
Proof.
move=> B G R; have K := booked_keys B; case: B => s0 [lo [n [E Ek]]]; split=> //.
- have /Permutation.Permutation_sym P := key_perm _ _ _ _ _ _ _ E.
  by have [_ H] := NoDup_appl (Permutation.Permutation_NoDup P (List.seq_NoDup _ _)).
- by apply: NoDupP; case: (loops_characterised _ _ _ _ _ _ _ E) => _ [].
- move=> [[e el] b] hk; have [+ _] := ind_key_rows _ _ _ _ _ _ _ E _ _ _ hk.
  by rewrite /is_ind Ek /=; case: (ekind (w_s w) el).
- move=> [[[e el] b] v] hk; have [+ _] := jj_key_rows _ _ _ _ _ _ _ E _ _ _ _ hk.
  by rewrite /is_jj Ek /=; case: (ekind (w_s w) el).
Qed.

Lemma session_regular disp optim o s0 lobj fd d x0 u cs tr :
  construct optim o s0 lobj fd d = Some (Ok x0) -> run disp optim (mkW s0 u x0) cs = Some tr ->
  updates_ok optim (mkW s0 u x0) cs tr ->
  let w := final (mkW s0 u x0) tr in
  (exists H, (hamil (w_s w) (w_x w)).2 = Ok H) -> regular disp (w_s w) (w_x w).
Proof.
move=> E0 Er Hu w HH; apply: booked_regular HH.
  by apply: booked_run Er Hu; apply: booked_construct E0.
exact: good_run (good_construct disp E0 : good disp (w_x (mkW s0 u x0))) Er Hu.
Qed.

(** HamProofs6.v -- the terms of the Hamiltonian, when it exists, and what it does
    not depend on. *)
From Coq Require Import Reals ZArith Lra Lia String.
From Verif.Model Require Import Base Units Edge Accuracy HamConst.
From Verif.Proofs Require Import HamConstProofs.
From mathcomp Require Import all_ssreflect all_algebra.
From mathcomp Require Import complex ring.
From Verif.Numerics Require Import RStruct Bridge.
From Verif.Model Require Import Op Transform Ham.
From Verif.Spec Require Import OpSpec.
From Verif.Proofs Require Import OpProofs HamProofs HamProofs2 HamProofs3 HamProofs4 HamProofs5.

Set Implicit Arguments.
Unset Strict Implicit.
Unset Printing Implicit Defensive.
Import GRing.Theory.
Local Open Scope ring_scope.
Local Open Scope complex_scope.

(** Entry of the branch flux operator of an edge. *)
Definition cpl (h : hin) (e : edge) (a b : nat) : C :=
  match coupling_op h (Some Inductive_) e with Ok A => ent A a b | Err _ => 0 end.

Definition jjent (disp : nat -> C -> op) (h : hin) (phi : R) (w a b : nat) : C :=
  2%:R^-1 * (expi phi * ent (opExp disp h w) a b + (expi phi * ent (opExp disp h w) b a)^*).

Lemma ind_entry h val loops B l acc H a b :
  foldl (ind_term h val loops B) (Ok acc) l = Ok H ->
  oent H a b = oent acc a b + \sum_(k <- l)
    (ind_coef (val k.1.2) (ext_flux loops B k.2))%:C * cpl h k.1.1 a b.
Proof.
elim: l acc => [|[[e el] b'] l IH] acc; first by move=> [<-]; rewrite big_nil addr0.
cbn [foldl ind_term]; case E: (coupling_op h (Some Inductive_) e) => [A|x].
  by move=> Hf; rewrite (IH _ Hf) oent_add big_cons [in RHS]/cpl; cbn [fst snd]; rewrite E addrA.
move=> F; have : foldl (ind_term h val loops B) (Err x) l = Err x by elim: l {IH F} => //=.
by rewrite F.
Qed.

Lemma jj_entry disp h val loops B l acc a b :
  oent (foldl (jj_term disp h val loops B) acc l) a b = oent acc a b + \sum_(k <- l)
    (- val k.1.1.2)%:C * jjent disp h (ext_flux loops B k.1.2) k.2 a b.
Proof.
elim: l acc => [|[[[e el] b'] w] l IH] acc /=; first by rewrite big_nil addr0.
by rewrite IH oent_add big_cons addrA.
Qed.

Lemma hamiltonian_entry disp h val loops B ks A a b :
  hamiltonian disp h val loops B ks = Ok A ->
  ent A a b = oent (LC_hamil h) a b
    + \sum_(k <- k_ind ks) (ind_coef (val k.1.2) (ext_flux loops B k.2))%:C * cpl h k.1.1 a b
    - \sum_(k <- k_jj ks) (val k.1.1.2)%:C * jjent disp h (ext_flux loops B k.1.2) k.2 a b.
Proof.
rewrite /hamiltonian; case: ifP => // _; rewrite /ind_hamil.
case E: foldl => [H|//]; case EA: acc_acc => [A'|//] [<-].
have -> : ent A' a b = oent (acc_acc (foldl (jj_term disp h val loops B) H (k_jj ks)) (LC_hamil h)) a b by rewrite EA.
rewrite oent_acc jj_entry (ind_entry _ _ E) [oent None a b]/= add0r addrC addrA; congr (_ + _).
by rewrite -sumrN; apply: eq_bigr => k _; rewrite cRN mulNr.
Qed.

(** The Hamiltonian exists as soon as the truncation numbers are set. *)
Lemma LC_some h : (0 < hn h)%N -> isSome (LC_hamil h).
Proof.
move=> n0; rewrite /LC_hamil.
have step i acc : (i < hn h)%N -> isSome (foldl (LC_term h i) acc (iota 0 (hn h - i))).
  move=> hi; have -> : (hn h - i = (hn h - i).-1.+1)%N by rewrite prednK // subn_gt0.
  rewrite /=; have s0 : isSome (LC_term h i acc 0) by rewrite /LC_term eqxx; case: ifP.
  move: (LC_term _ _ _ _) s0 (iota _ _) => acc' s0 l; elim: l acc' s0 => //= j l IH acc' s0; apply: IH.
  by rewrite /LC_term; do ?case: ifP.
case: (hn h) n0 (step) => // n _ st; rewrite -[iota 0 n.+1]/(0%N :: iota 1 n); rewrite [foldl _ _ (_ :: _)]/foldl -/foldl.
have := st 0%N None isT; rewrite subn0; move: (foldl (LC_term h 0) _ _) => acc s0.
have : forall i, i \in iota 1 n -> (i < n.+1)%N by move=> i; rewrite mem_iota add1n => /andP[].
elim: (iota 1 n) acc s0 => //= i l IH acc s0 Hl; apply: IH.
  by apply: st; apply: Hl; rewrite inE eqxx.
by move=> j hj; apply: Hl; rewrite inE hj orbT.
Qed.

Lemma coupling_defined h e : (0 < hn h)%N ->
  (isnode e.1 (t_n0 (h_st h)) /\ (isnode e.2 (t_n0 (h_st h)) \/ e.2 = Z0)) \/
  (e.1 = Z0 /\ isnode e.2 (t_n0 (h_st h))) ->
  exists A, coupling_op h (Some Inductive_) e = Ok A.
Proof.
case: e => x y n0 /= H; have EK : coupling_mat h Inductive_ = Ok (t_S (h_st h)) by [].
case: H => [[Hx [Hy|->]]|[-> Hy]].
- by have [k [Ek _]] := coef_edge EK Hx Hy; apply: coupling_total Ek n0.
- by have [Ek _] := coef_ground EK Hx; apply: coupling_total Ek n0.
- by have [_ Ek] := coef_ground EK Hy; apply: coupling_total Ek n0.
Qed.

Lemma hamiltonian_total disp h val loops B ks : h_m h <> [::] -> (0 < hn h)%N ->
  (forall k, List.In k (k_ind ks) -> let e := k.1.1 in
    (isnode e.1 (t_n0 (h_st h)) /\ (isnode e.2 (t_n0 (h_st h)) \/ e.2 = Z0)) \/
    (e.1 = Z0 /\ isnode e.2 (t_n0 (h_st h)))) ->
  exists A, hamiltonian disp h val loops B ks = Ok A.
Proof.
move=> m0 n0 Hk; rewrite /hamiltonian ifF; last by apply/negbTE/eqP => /size0nil.
rewrite /ind_hamil; have [H E] : exists H, foldl (ind_term h val loops B) (Ok None) (k_ind ks) = Ok H.
  elim: (k_ind ks) None Hk => [|[[e el] b] l IH] acc Hk; first by exists acc.
  have [A EA] := coupling_defined n0 (Hk _ (or_introl erefl)); cbn [fst snd] in EA.
  cbn [foldl ind_term]; rewrite EA.
  by apply: IH => k hk; apply: Hk; right.
rewrite E; have := LC_some n0; case: LC_hamil => // L _.
by case: foldl => [X|]; eexists.
Qed.

(** ** External flux *)
Lemma expi_period (x : R) (k : Z) : expi (x + (IZR k * (PI + PI))%R) = expi x.
Proof. by rewrite /expi; have [-> ->] := trig_period x k. Qed.


(** One loop raised by z flux quanta. *)
Definition add_quanta (loops : seq R) (l : nat) (z : Z) : seq R :=
  set_nth 0 loops l (nth 0 loops l + (IZR z * (PI + PI))%R).

Lemma ext_flux_quanta loops B b l z : (l < size loops)%N ->
  ext_flux (add_quanta loops l z) B b = ext_flux loops B b + (IZR z * (PI + PI))%R * B b l.
Proof.
move=> hl; rewrite /ext_flux /add_quanta size_set_nth (maxn_idPr hl).
rewrite (bigD1 (Ordinal hl)) // [in RHS](bigD1 (Ordinal hl)) //=.
rewrite nth_set_nth /= eqxx mulrDl -!addrA; congr (_ + _); rewrite addrC; congr (_ + _).
apply: eq_bigr => i ne; rewrite nth_set_nth /= ifN //.
Qed.

Lemma sum_in (X : Type) (s : seq X) (F G : X -> C) : (forall k, List.In k s -> F k = G k) ->
  \sum_(k <- s) F k = \sum_(k <- s) G k.
Proof.
elim: s => [|x s IH] H; rewrite ?big_nil // !big_cons H; last by left.
by rewrite IH // => k hk; apply: H; right.
Qed.

Lemma hamiltonian_period disp h val loops B ks l z A A' : (l < size loops)%N ->
  (forall k, List.In k (k_ind ks) -> B k.2 l = 0) ->
  (forall k, List.In k (k_jj ks) -> exists n : Z, B k.1.2 l = IZR n) ->
  hamiltonian disp h val loops B ks = Ok A ->
  hamiltonian disp h val (add_quanta loops l z) B ks = Ok A' ->
  forall a b, ent A a b = ent A' a b.
Proof.
move=> hl Hi Hj /hamiltonian_entry E1 /hamiltonian_entry E2 a b; rewrite E1 E2; congr (_ + _ - _).
  apply: sum_in => k hk.
  by rewrite ext_flux_quanta // Hi // mulr0 addr0.
apply: sum_in => k hk.
rewrite ext_flux_quanta //; have [n ->] := Hj _ hk.
have -> : (IZR z * (PI + PI))%R * IZR n = (IZR (Z.mul z n) * (PI + PI))%R.
  have -> : IZR (Z.mul z n) = IZR z * IZR n :> R by exact: mult_IZR.
  by rewrite mulrAC.
by rewrite /jjent expi_period.
Qed.

(** Whether it exists does not depend on the fluxes. *)
Definition same_shape (x y : res (option op)) : Prop :=
  match x, y with Ok a, Ok b => isSome a = isSome b | Err _, Err _ => True | _, _ => False end.

Lemma hamiltonian_shape disp h val loops loops' B ks A : hamiltonian disp h val loops B ks = Ok A ->
  exists A', hamiltonian disp h val loops' B ks = Ok A'.
Proof.
have Hi : forall x y, same_shape x y ->
   same_shape (foldl (ind_term h val loops B) x (k_ind ks)) (foldl (ind_term h val loops' B) y (k_ind ks)).
  elim: (k_ind ks) => [//|[[e el] b] s IH] x y Hxy; cbn [foldl]; apply: IH.
  case: x y Hxy => [a|x] [b'|y] // Hab; cbn [ind_term].
  by case: (coupling_op h (Some Inductive_) e).
have Hj : forall a b, isSome a = isSome b ->
   isSome (foldl (jj_term disp h val loops B) a (k_jj ks)) = isSome (foldl (jj_term disp h val loops' B) b (k_jj ks)).
  by elim: (k_jj ks) => [//|[[[e el] b] w] s IH] x y Hxy; cbn [foldl]; apply: IH.
rewrite /hamiltonian; case: ifP => // _; rewrite /ind_hamil.
have := Hi (Ok None) (Ok None) erefl; case: foldl => [a|//]; case: foldl => [b|//] /= /Hj.
case: foldl => [x|]; case: foldl => [y|] //= _; first by case: LC_hamil; eexists.
by case: LC_hamil => //; eexists.
Qed.

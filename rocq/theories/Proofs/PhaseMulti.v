(** PhaseMulti.v -- integrals over all modes; operators in the phase representation. *)
From Coq Require Import Reals ZArith Lia Lra.
From Coquelicot Require Derive.
From Verif.Model Require Import Base Units Trunc Accuracy HamConst PhaseConst.
From Verif.Spec Require Import HermiteSpec LineSpec.
From Verif.Proofs Require Import PhaseProofs LineProofs PhaseNorm.
From mathcomp Require Import all_ssreflect all_algebra.
From mathcomp Require Import complex ring.
From Verif.Numerics Require Import RStruct.
From Verif.Model Require Import Transform Op Ham Diag PhaseCoord.
From Verif.Spec Require Import PhaseSpec.
From Verif.Proofs Require Import OpProofs PhaseArray.

Set Implicit Arguments.
Unset Strict Implicit.
Unset Printing Implicit Defensive.
Import GRing.Theory.
Local Open Scope ring_scope.
Local Open Scope complex_scope.

Lemma cline_ext p (G H : R -> C) I : (forall x, G x = H x) -> cline p G I -> cline p H I.
Proof. by move=> E [a b]; split; [apply: line_ext a|apply: line_ext b] => x; rewrite E. Qed.
Lemma cline_scal p (G : R -> C) I c : cline p G I -> cline p (fun x => c * G x) (c * I).
Proof.
move=> [a b]; case: c => cr ci; split.
  have K := line_plus _ _ _ _ _ (line_scal _ _ _ cr a) (line_scal _ _ _ (- ci) b).
  have -> : complex.Re ((cr +i* ci) * I) = (cr * complex.Re I + (- ci) * complex.Im I)%R.
    by case: (I) => x y /=; rewrite mulNr.
  by apply: line_ext K => x; case: (G x) => u v /=; rewrite -mulNr.
have K := line_plus _ _ _ _ _ (line_scal _ _ _ cr b) (line_scal _ _ _ ci a).
have -> : complex.Im ((cr +i* ci) * I) = (cr * complex.Im I + ci * complex.Re I)%R by case: (I) => x y /=.
by apply: line_ext K => x; case: (G x) => u v /=.
Qed.
Lemma cline_plus p (G H : R -> C) I J : cline p G I -> cline p H J -> cline p (fun x => G x + H x) (I + J).
Proof.
move=> [a b] [c d]; split.
  have -> : complex.Re (I + J) = (complex.Re I + complex.Re J)%R by case: (I) (J) => ? ? [? ?].
  by apply: line_ext (line_plus _ _ _ _ _ a c) => x; case: (G x) (H x) => ? ? [? ?].
have -> : complex.Im (I + J) = (complex.Im I + complex.Im J)%R by case: (I) (J) => ? ? [? ?].
by apply: line_ext (line_plus _ _ _ _ _ b d) => x; case: (G x) (H x) => ? ? [? ?].
Qed.
Lemma cline_zero p : cline p (fun=> 0) 0.
Proof. by split; apply: line_zero. Qed.

Lemma multi_ext ps : forall (F H : seq R -> C) I, (forall l, size l = size ps -> F l = H l) -> multi ps F I -> multi ps H I.
Proof.
elim: ps => [|p ps IH] F H I E /=; first by move=> <-; rewrite E.
case=> G [m c]; exists G; split=> // x; apply: IH (m x) => l sl; apply: E; by rewrite /= sl.
Qed.
Lemma multi_scal ps c : forall (F : seq R -> C) I, multi ps F I -> multi ps (fun l => c * F l) (c * I).
Proof.
elim: ps => [|p ps IH] F I /=; first by move=> ->.
case=> G [m h]; exists (fun x => c * G x); split=> [x|]; [exact: IH|exact: cline_scal].
Qed.
Lemma multi_plus ps : forall (F H : seq R -> C) I J, multi ps F I -> multi ps H J -> multi ps (fun l => F l + H l) (I + J).
Proof.
elim: ps => [|p ps IH] F H I J /=; first by move=> -> ->.
case=> G [m h] [G' [m' h']]; exists (fun x => G x + G' x); split=> [x|]; [exact: IH|exact: cline_plus].
Qed.
Lemma multi_zero ps : multi ps (fun=> 0) 0.
Proof. by elim: ps => [|p ps IH] //=; exists (fun=> 0); split=> //; apply: cline_zero. Qed.
Lemma multi_sum ps (T : Type) (r : seq T) (F : T -> seq R -> C) (I : T -> C) :
  (forall t, multi ps (F t) (I t)) -> multi ps (fun l => \sum_(t <- r) F t l) (\sum_(t <- r) I t).
Proof.
move=> H; elim: r => [|t r IH].
  rewrite big_nil; apply: multi_ext (multi_zero ps) => l _; by rewrite big_nil.
rewrite big_cons; apply: multi_ext (multi_plus (H t) IH) => l _; by rewrite big_cons.
Qed.
Lemma multi_prod ps : forall (f : nat -> R -> C) (I : nat -> C),
  (forall a, (a < size ps)%N -> cline (nth false ps a) (f a) (I a)) ->
  multi ps (fun l => \prod_(a < size ps) f a (nth 0%R l a)) (\prod_(a < size ps) I a).
Proof.
elim: ps => [|p ps IH] f I H; first by rewrite /= !big_ord0.
rewrite /= big_ord_recl; exists (fun x => f 0%N x * \prod_(a < size ps) I a.+1); split.
  move=> x; have K := multi_scal (f 0%N x) (IH (fun a => f a.+1) (fun a => I a.+1) (fun a h => H a.+1 h)).
  by apply: multi_ext K => l _; rewrite big_ord_recl.
rewrite mulrC; apply: cline_ext (cline_scal (\prod_(a < size ps) I a.+1) (H 0%N isT)) => x.
by rewrite mulrC.
Qed.

(** ** Normalisation *)
Lemma level_line (periodic : nat -> bool) (c : nat -> R) (q : nat -> nat -> Z) (a i j : nat) :
  (periodic a = false -> Rlt 0 (c a)) -> (forall i j, q a i = q a j -> i = j) ->
  cline (periodic a) (fun x => levels periodic c (fun a k => IZR (q a k)) a i x *
                               (levels periodic c (fun a k => IZR (q a k)) a j x)^*)
        (if i == j then 1 else 0).
Proof.
move=> cp qi; rewrite /levels; case: (periodic a) cp => cp.
  have K1 := wave_re (q a i) (q a j); have K2 := wave_im (q a i) (q a j).
  have E : Z.eqb (q a i) (q a j) = (i == j).
    case: eqP => [->|N]; first by rewrite Z.eqb_refl.
    by apply/Z.eqb_spec => /qi.
  rewrite E in K1; split.
    rewrite (_ : complex.Re _ = if i == j then 1%R else 0%R); last by case: (i == j).
    by apply: line_ext K1 => x; rewrite /plane charge_normE /= !mul0r !subr0 !addr0 mulrN opprK.
  rewrite (_ : complex.Im _ = 0%R); last by case: (i == j).
  apply: line_ext K2 => x; rewrite /plane charge_normE /= !mul0r !subr0 !addr0 mulrN addrC.
  by [].
have E : Nat.eqb i j = (i == j) by [].
have K := chi_line (c a) i j (cp erefl); rewrite E in K; split.
  rewrite (_ : complex.Re _ = if i == j then 1%R else 0%R); last by case: (i == j).
  by apply: line_ext K => x /=; rewrite oppr0 mulr0 subr0.
rewrite (_ : complex.Im _ = 0%R); last by case: (i == j).
by apply: line_ext (line_zero false) => x /=; rewrite oppr0 mulr0 mul0r addr0.
Qed.

Lemma prod_delta ms d e : d \in tuples ms -> e \in tuples ms ->
  \prod_(a < size ms) (if nth 0%N d a == nth 0%N e a then 1 else 0) = (d == e)%:R :> C.
Proof.
move=> /tuplesP [sd _] /tuplesP [se _]; case: eqP => [->|N].
  by rewrite big1 // => a _; rewrite eqxx.
have /existsP [a ne] : [exists a : 'I_(size ms), nth 0%N d a != nth 0%N e a].
  apply: contraT; rewrite negb_exists => /forallP H; case: N.
  apply: (@eq_from_nth _ 0%N); first by rewrite sd se.
  move=> i; rewrite sd => il; have := H (Ordinal il); by rewrite negbK => /eqP.
by rewrite (bigD1 a) //= (negbTE ne) mul0r.
Qed.

Lemma tuples_uniq ms : uniq (tuples ms).
Proof.
have: uniq [seq place ms d | d <- tuples ms] by rewrite place_iota iota_uniq.
exact: map_uniq.
Qed.

Lemma wave_norm (periodic : nat -> bool) (c : nat -> R) (q : nat -> nat -> Z) ms (v : nat -> C) :
  (forall a, (a < size ms)%N -> periodic a = false -> Rlt 0 (c a)) ->
  (forall a i j, q a i = q a j -> i = j) ->
  let Psi := fun l => wave (levels periodic c (fun a k => IZR (q a k))) ms v (nth 0%R l) in
  multi [seq periodic a | a <- iota 0 (size ms)] (fun l => Psi l * (Psi l)^*)
        (\sum_(i < prodn ms) v i * (v i)^*).
Proof.
move=> cp qi Psi; set b := levels _ _ _ in Psi *.
set ps := map _ _; have sps : size ps = size ms by rewrite size_map size_iota.
pose I d e : C := \prod_(a < size ms) (if nth 0%N d a == nth 0%N e a then 1 else 0).
have -> : \sum_(i < prodn ms) v i * (v i)^* =
  \sum_(d <- tuples ms) \sum_(e <- tuples ms) v (place ms d) * (v (place ms e))^* * I d e.
  rewrite -(big_mkord xpredT (fun i => v i * (v i)^*)) /index_iota subn0 -place_iota big_map.
  apply: eq_big_seq => d dT; rewrite (bigD1_seq d) ?tuples_uniq //= [I d d]prod_delta // eqxx mulr1.
  rewrite big_seq_cond big1 ?addr0 // => e /andP [eT ne].
  by rewrite /I prod_delta // eq_sym (negbTE ne) mulr0.
have K : multi ps (fun l => \sum_(d <- tuples ms) \sum_(e <- tuples ms) v (place ms d) * (v (place ms e))^* *
    \prod_(a < size ms) (b a (nth 0%N d a) (nth 0%R l a) * (b a (nth 0%N e a) (nth 0%R l a))^*))
  (\sum_(d <- tuples ms) \sum_(e <- tuples ms) v (place ms d) * (v (place ms e))^* * I d e).
  apply: multi_sum => d; apply: multi_sum => e; apply: multi_scal.
  rewrite /I -sps; apply: (@multi_prod ps (fun a x => b a (nth 0%N d a) x * (b a (nth 0%N e a) x)^*)
      (fun a => if nth 0%N d a == nth 0%N e a then 1 else 0)) => a; rewrite sps => al.
  rewrite (nth_map 0%N) ?size_iota // nth_iota // add0n.
  exact: level_line (cp a al) (qi a).
apply: multi_ext K => l _; rewrite /Psi /wave raddf_sum big_distrl; apply: eq_bigr => d _.
rewrite big_distrr; apply: eq_bigr => e _ /=.
by rewrite rmorphM rmorph_prod big_split /= mulrACA.
Qed.

(** ** Operators *)
Section Operators.
Variables (h : hin) (i : nat).
Hypothesis harm : hcharge h i = false.
Let cI := t_cI (h_st h) i i.
Let lT := t_lT (h_st h) i i.
Hypothesis cI0 : Rlt 0 cI.
Hypothesis lT0 : Rlt 0 lT.
Let c : R := Rdiv Phi0 (len0 cI lT).

Lemma ladder_sum M n (al be : C) (g : nat -> R) : (n.+1 < M)%N ->
  \sum_(k < M) (al * ent (destroy M) k n + be * ent (create M) k n) * (g k)%:C =
  al * ((if n is k.+1 then sqrt (INR n) * g k else 0)%R)%:C + be * ((sqrt (INR n.+1) * g n.+1)%R)%:C.
Proof.
move=> nM.
under eq_bigr => k _ do rewrite mulrDl.
rewrite big_split /=; congr (_ + _).
  case: n nM => [|n] nM.
    by rewrite big1 ?mulr0 // => k _; rewrite mulr0 mul0r.
  rewrite (bigD1 (Ordinal (ltnW (ltnW nM)))) //= eqxx big1 ?addr0.
    by rewrite -mulrA -rmorphM.
  move=> k nk; rewrite ifN ?mulr0 ?mul0r //.
  by apply: contra nk => /eqP [e]; apply/eqP/val_inj.
rewrite (bigD1 (Ordinal nM)) //= eqxx big1 ?addr0.
  by rewrite -mulrA conjc_real -rmorphM.
move=> k nk; rewrite ifN ?rmorph0 ?mulr0 ?mul0r //.
Qed.

Let low_up (n : nat) (x : R) :
  ((if n is k.+1 then sqrt (INR n) * chi c k x else 0)%R) = lower c n x.
Proof. by case: n. Qed.

Lemma flux_rep n x : (n.+1 < hm h i)%N ->
  \sum_(k < hm h i) ent (flux_op_isolated h i) k n * (chi c k x)%:C =
  ((Rmult (Rdiv (Rmult x Phi0) (sqrt hbar)) (chi c n x)))%:C.
Proof.
move=> nM; rewrite /flux_op_isolated harm (gtn_eqF (leq_ltn_trans _ nM)) //.
have K := flux_chi cI lT n x cI0 lT0; rewrite -/c in K; rewrite -K.
rewrite (eq_bigr (fun k : 'I_(hm h i) => ((f_zp (himp h i))%:C * ent (destroy (hm h i)) k n +
    (f_zp (himp h i))%:C * ent (create (hm h i)) k n) * (chi c k x)%:C)); last first.
  by move=> k _; rewrite /= mulrDr.
rewrite (ladder_sum _ _ (chi c ^~ x) nM) low_up -mulrDr -rmorphD addrC -rmorphM //.
Qed.

Lemma charge_rep n x : (n.+1 < hm h i)%N ->
  \sum_(k < hm h i) ent (charge_op_isolated h i) k n * (chi c k x)%:C =
  - 'i * ((Rmult (Rdiv (sqrt hbar) Phi0) (Derive.Derive (chi c n) x)))%:C.
Proof.
move=> nM; rewrite /charge_op_isolated harm (gtn_eqF (leq_ltn_trans _ nM)) //.
have K := charge_chi cI lT n x cI0 lT0; rewrite -/c in K; rewrite -K.
rewrite (eq_bigr (fun k : 'I_(hm h i) => (- 'i * (q_zp (himp h i))%:C * ent (destroy (hm h i)) k n +
    - (- 'i * (q_zp (himp h i))%:C) * ent (create (hm h i)) k n) * (chi c k x)%:C)); last first.
  by move=> k _; rewrite /= mulrBr mulNr.
rewrite (ladder_sum _ _ (chi c ^~ x) nM) low_up mulNr -mulrBr -rmorphB -mulrA -rmorphM //.
Qed.
End Operators.

(** The charge basis of the code against the charge eigenstates. *)
Lemma expi_add x y : expi (Rplus x y) = expi x * expi y.
Proof.
by rewrite /expi cos_plus sin_plus; apply/eqP; rewrite eq_complex /=; apply/andP; split; apply/eqP; rewrite // addrC.
Qed.
Lemma charge_factor_plane (m k : nat) x :
  charge_factor (Z.of_nat k) x = expi (Rmult x (offset m)) * plane (charge_at m k) x.
Proof.
rewrite /charge_factor /plane charge_normE -INR_IZR_INZ mulrCA -/(expi _) -expi_add; congr (_ * expi _).
exact: offsetE.
Qed.

(** The code's basis is the one of the charge eigenstates with a phase per charge mode. *)
Lemma wave_shift (charge : nat -> bool) (c : nat -> R) ms (v : nat -> C) phi :
  wave (levels charge c (fun _ k => INR k)) ms v phi =
  (\prod_(a < size ms) (if charge a then expi (Rmult (phi a) (offset (nth 0%N ms a))) else 1)) *
  wave (levels charge c (fun a k => charge_at (nth 0%N ms a) k)) ms v phi.
Proof.
rewrite /wave big_distrr; apply: eq_bigr => d _ /=.
rewrite mulrCA -big_split /=; congr (_ * _); apply: eq_bigr => a _.
rewrite /levels; case: (charge a); last by rewrite mul1r.
by rewrite -charge_factor_plane /charge_factor /plane charge_normE -INR_IZR_INZ.
Qed.
Lemma expi_norm x : expi x * (expi x)^* = 1.
Proof.
have H := sin2_cos2 x.
apply/eqP; rewrite eq_complex /=; apply/andP; split; apply/eqP.
  rewrite mulrN opprK -[RHS]H /Rsqr addrC //.
by rewrite mulrN mulrC addrC subrr.
Qed.
Lemma wave_density (charge : nat -> bool) (c : nat -> R) ms (v : nat -> C) phi :
  let A := wave (levels charge c (fun _ k => INR k)) ms v phi in
  let B := wave (levels charge c (fun a k => charge_at (nth 0%N ms a) k)) ms v phi in
  A * A^* = B * B^*.
Proof.
move=> A B; rewrite /A wave_shift -/B; set P := \prod_(_ < _) _.
have PP : P * P^* = 1.
  rewrite /P rmorph_prod -big_split big1 //= => a _.
  by case: ifP => _; [exact: expi_norm|rewrite rmorph1 mulr1].
by rewrite rmorphM mulrACA PP mul1r.
Qed.

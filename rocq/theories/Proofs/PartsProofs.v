(** PartsProofs.v -- the Hamiltonian of two groups of modes. *)
From Coq Require Import Reals ZArith Lia.
From Verif.Model Require Import Base Units Edge Accuracy HamConst.
From mathcomp Require Import all_ssreflect all_algebra.
From mathcomp Require Import complex ring zify.
From Verif.Numerics Require Import RStruct Bridge.
From Verif.Model Require Import Op Transform Ham.
From Verif.Spec Require Import OpSpec LevelsSpec PartsSpec.
From Verif.Proofs Require Import OpProofs HamProofs HamProofs2 HamProofs5 HamProofs6 ExpProofs2.

Set Implicit Arguments.
Unset Strict Implicit.
Unset Printing Implicit Defensive.
Import GRing.Theory.
Local Open Scope ring_scope.
Local Open Scope complex_scope.

Lemma kron_assoc A B D : eqop (kron (kron A B) D) (kron A (kron B D)).
Proof.
split=> [/=|i j _ _ /=]; first by rewrite mulnA.
have k1 k : (k %/ dim D %/ dim B = k %/ (dim B * dim D))%N by rewrite -divnMA mulnC.
have k2 k : (k %% (dim B * dim D) %% dim D = k %% dim D)%N by rewrite modn_dvdm // dvdn_mull.
have k3 k : (k %% (dim B * dim D) %/ dim D = k %/ dim D %% dim B)%N by rewrite modn_divl mulnC.
by rewrite !k1 !k2 !k3 mulrA.
Qed.
Lemma kron_one A : eqop (kron A (oeye 1)) A.
Proof. by split=> [/=|i j _ _ /=]; rewrite ?muln1 // !divn1 !modn1 mulr1. Qed.
Lemma one_kron A : eqop (kron (oeye 1) A) A.
Proof.
split=> [/=|i j /=]; rewrite mul1n // => hi hj; by rewrite !divn_small // !modn_small // mul1r.
Qed.

Lemma T_split F n1 n2 : eqop (T F (n1 + n2)) (kron (T F n1) (T (fun k => F (n1 + k)%N) n2)).
Proof.
case: n1 => [|n1]; first by rewrite add0n T0; apply: eqop_sym; exact: one_kron.
case: n2 => [|n2]; first by rewrite addn0 T0; apply: eqop_sym; exact: kron_one.
elim: n2 => [|n2 IH]; first by rewrite addn1 TS T1 addn0.
rewrite addnS addSn TS TS -addSn; apply: eqop_trans (kron_assoc _ _ _).
exact: kron_eq.
Qed.

Lemma T_left F G n1 n2 (m : nat -> nat) : (forall k, (k < n1)%N -> eqop (F k) (G k)) ->
  (forall k, (k < n2)%N -> eqop (F (n1 + k)%N) (oeye (m k))) ->
  eqop (T F (n1 + n2)) (kron (T G n1) (oeye (\prod_(k < n2) m k)%N)).
Proof.
move=> H1 H2; apply: eqop_trans (T_split _ _ _) _; apply: kron_eq; first exact: T_eq.
apply: eqop_trans (T_eye_prod _ _); exact: T_eq.
Qed.
Lemma T_right F G n1 n2 (m : nat -> nat) : (forall k, (k < n1)%N -> eqop (F k) (oeye (m k))) ->
  (forall k, (k < n2)%N -> eqop (F (n1 + k)%N) (G k)) ->
  eqop (T F (n1 + n2)) (kron (oeye (\prod_(k < n1) m k)%N) (T G n2)).
Proof.
move=> H1 H2; apply: eqop_trans (T_split _ _ _) _; apply: kron_eq; last exact: T_eq.
apply: eqop_trans (T_eye_prod _ _); exact: T_eq.
Qed.

(** The entries of the quadratic part. *)
Definition lcent (h : hin) (i j a b : nat) : C :=
  if j == 0%N then
    if hcharge h i then (quad_cI h i i)%:C * ent (opQQ h i j) a b else (t_om (h_st h) i)%:C * ent (opN h i) a b
  else (t_cI (h_st h) i (i + j)%N)%:C * ent (opQQ h i j) a b.
Lemma LC_entry h a b : oent (LC_hamil h) a b = \sum_(i <- iota 0 (hn h)) \sum_(j <- iota 0 (hn h - i)) lcent h i j a b.
Proof.
have inner i l acc : oent (foldl (LC_term h i) acc l) a b = oent acc a b + \sum_(j <- l) lcent h i j a b.
  elim: l acc => [|j l IH] acc; first by rewrite big_nil addr0.
  rewrite big_cons /= IH addrA; congr (_ + _); rewrite /LC_term /lcent.
  case: ifP => [_|j0]; first by case: ifP => _; rewrite oent_add.
  have -> : quad_cI h i (i + j)%N = t_cI (h_st h) i (i + j)%N by rewrite /quad_cI ifF //; apply/negbTE; lia.
  by case: eqP => [->|_]; [rewrite cR0 mul0r addr0|rewrite oent_add].
rewrite /LC_hamil; have outer l acc : oent (foldl (fun acc i => foldl (LC_term h i) acc (iota 0 (hn h - i))) acc l) a b =
  oent acc a b + \sum_(i <- l) \sum_(j <- iota 0 (hn h - i)) lcent h i j a b.
  by elim: l acc => [|i l IH] acc; rewrite ?big_nil ?addr0 // big_cons /= IH inner addrA.
by rewrite outer add0r.
Qed.

Lemma cpl_entry h e a b : cpl h e a b =
  match coupling_coef h Inductive_ e with Ok k => \sum_(i <- iota 0 (hn h)) (k i)%:C * ent (opPhi h i) a b | Err _ => 0 end.
Proof.
rewrite /cpl /coupling_op; case: coupling_coef => [k|//].
have H l acc : oent (foldl (fun acc i => acc_add acc (oscale (k i)%:C (mode_op h Inductive_ i))) acc l) a b =
  oent acc a b + \sum_(i <- l) (k i)%:C * ent (opPhi h i) a b.
  by elim: l acc => [|i l IH] acc; rewrite ?big_nil ?addr0 // big_cons /= IH oent_add addrA.
by have := H (iota 0 (hn h)) None; rewrite add0r => <-; case: foldl.
Qed.

(** *** A group of modes *)
Section Part.
Variables (h : hin) (s n : nat).
Let g := part h s n.
Lemma p_n : hn g = n. Proof. by []. Qed.
Lemma p_hm i : (i < n)%N -> hm g i = hm h (s + i)%N.
Proof. by move=> hi; rewrite /hm /= (nth_map 0%N) ?size_iota // nth_iota. Qed.
Lemma p_charge i : hcharge g i = hcharge h (s + i)%N. Proof. by []. Qed.
Lemma p_Q i : (i < n)%N -> charge_op_isolated g i = charge_op_isolated h (s + i)%N.
Proof. by move=> hi; rewrite /charge_op_isolated p_hm. Qed.
Lemma p_F i : (i < n)%N -> flux_op_isolated g i = flux_op_isolated h (s + i)%N.
Proof. by move=> hi; rewrite /flux_op_isolated p_hm. Qed.
Lemma p_N i : (i < n)%N -> num_op_isolated g i = num_op_isolated h (s + i)%N.
Proof. by move=> hi; rewrite /num_op_isolated p_hm. Qed.
Lemma p_exp disp w i : (i < n)%N -> exp_iso disp g w i = exp_iso disp h w (s + i)%N.
Proof. by move=> hi; rewrite /exp_iso p_hm. Qed.
Lemma p_one X Y i k : (forall k, (k < n)%N -> Y k = X (s + k)%N) -> (k < n)%N -> one_fam g Y i k = one_fam h X (s + i)%N (s + k)%N.
Proof. by move=> H hk; rewrite /one_fam eqn_add2l p_hm // H. Qed.
Lemma p_two X Y i j k : (forall k, (k < n)%N -> Y k = X (s + k)%N) -> (k < n)%N ->
  two_fam g Y i j k = two_fam h X (s + i)%N (s + j)%N (s + k)%N.
Proof. by move=> H hk; rewrite /two_fam !eqn_add2l p_hm // H. Qed.
Lemma p_total : total g = (\prod_(k < n) hm h (s + k))%N.
Proof. by apply: eq_bigr => k _; rewrite p_hm. Qed.
Lemma p_coef e : coupling_coef g Inductive_ e =
  match coupling_coef h Inductive_ e with Ok k => Ok (fun i => k (s + i)%N) | Err x => Err x end.
Proof.
rewrite /coupling_coef /=; case: e => a b; case: ifP => _; first by case: np_row.
by case: np_row => [ra|//]; case: np_row.
Qed.
End Part.

Section Two.
Variables (disp : nat -> C -> op) (h : hin) (n1 n2 : nat).
Hypothesis hN : hn h = (n1 + n2)%N.
Let h1 := part h 0 n1.
Let h2 := part h n1 n2.
Let D1 := total h1.
Let D2 := total h2.

Lemma tot : total h = (D1 * D2)%N.
Proof.
rewrite /D1 /D2 !p_total /total hN big_split_ord /=; congr (_ * _)%N.
Qed.

Lemma one_left X Y i : (i < n1)%N -> (forall k, (k < n1)%N -> Y k = X k) ->
  eqop (T (one_fam h X i) (hn h)) (kron (T (one_fam h1 Y i) n1) (oeye D2)).
Proof.
move=> hi H; rewrite hN /D2 p_total; apply: (@T_left _ _ _ _ (fun k => hm h (n1 + k)%N)) => k hk; first by rewrite (@p_one h 0 n1 X).
by rewrite /one_fam ifF //; apply/negbTE; lia.
Qed.
Lemma one_right X Y i : (i < n2)%N -> (forall k, (k < n2)%N -> Y k = X (n1 + k)%N) ->
  eqop (T (one_fam h X (n1 + i)%N) (hn h)) (kron (oeye D1) (T (one_fam h2 Y i) n2)).
Proof.
move=> hi H; rewrite hN /D1 p_total; apply: (@T_right _ _ _ _ (fun k => hm h k)) => k hk; last by rewrite (@p_one h n1 n2 X).
by rewrite /one_fam ifF //; apply/negbTE; lia.
Qed.
Lemma two_left X Y i j : (i < n1)%N -> (j < n1)%N -> (forall k, (k < n1)%N -> Y k = X k) ->
  eqop (T (two_fam h X i j) (hn h)) (kron (T (two_fam h1 Y i j) n1) (oeye D2)).
Proof.
move=> hi hj H; rewrite hN /D2 p_total; apply: (@T_left _ _ _ _ (fun k => hm h (n1 + k)%N)) => k hk; first by rewrite (@p_two h 0 n1 X).
by rewrite /two_fam !ifF //; apply/negbTE; lia.
Qed.
Lemma two_right X Y i j : (i < n2)%N -> (j < n2)%N -> (forall k, (k < n2)%N -> Y k = X (n1 + k)%N) ->
  eqop (T (two_fam h X (n1 + i)%N (n1 + j)%N) (hn h)) (kron (oeye D1) (T (two_fam h2 Y i j) n2)).
Proof.
move=> hi hj H; rewrite hN /D1 p_total; apply: (@T_right _ _ _ _ (fun k => hm h k)) => k hk; last by rewrite (@p_two h n1 n2 X).
by rewrite /two_fam !ifF //; apply/negbTE; lia.
Qed.

Hypothesis ddim : forall m a, dim (disp m a) = m.
Hypothesis disp0 : forall m, eqop (disp m 0) (oeye m).
Lemma iso_idle w k : t_wT (h_st h) w k = 0 -> eqop (exp_iso disp h w k) (oeye (hm h k)).
Proof.
move=> w0; rewrite /exp_iso; case: ifP => ch.
  by rewrite /d_op_isolated w0 eqxx.
by case: eqP => [->|_] //; rewrite /alpha w0 mulr0 mulr0.
Qed.
Lemma exp_left w : (forall j, (j < n2)%N -> t_wT (h_st h) w (n1 + j)%N = 0) ->
  eqop (opExp disp h w) (kron (opExp disp h1 w) (oeye D2)).
Proof.
move=> H; have E g : opExp disp g w = T (exp_iso disp g w) (hn g) by [].
rewrite !E hN /D2 p_total; apply: (@T_left _ _ _ _ (fun k => hm h (n1 + k)%N)) => k hk; first by rewrite p_exp.
by apply: iso_idle; exact: H.
Qed.
Lemma exp_right w : (forall i, (i < n1)%N -> t_wT (h_st h) w i = 0) ->
  eqop (opExp disp h w) (kron (oeye D1) (opExp disp h2 w)).
Proof.
move=> H; have E g : opExp disp g w = T (exp_iso disp g w) (hn g) by [].
rewrite !E hN /D1 p_total; apply: (@T_right _ _ _ _ (fun k => hm h k)) => k hk; last by rewrite p_exp.
by apply: iso_idle; exact: H.
Qed.

(** Positions x D2 + y. *)
Lemma at_left Z X x x' y y' : eqop Z (kron X (oeye D2)) -> dim X = D1 ->
  (x < D1)%N -> (x' < D1)%N -> (y < D2)%N -> (y' < D2)%N ->
  ent Z (x * D2 + y)%N (x' * D2 + y')%N = if y == y' then ent X x x' else 0.
Proof.
move=> [dZ eZ] dX hx hx' hy hy'; have b0 : (0 < D2)%N by lia.
have bd u v : (u < D1)%N -> (v < D2)%N -> (u * D2 + v < dim Z)%N.
  by move=> hu hv; rewrite dZ /= dX (@leq_trans (u.+1 * D2)%N) ?leq_mul2r ?hu ?orbT // mulSnr ltn_add2l.
rewrite eZ ?bd //= !divnMDl // !modnMDl !divn_small // !modn_small // !addn0.
by case: eqP => _; rewrite ?mulr1 ?mulr0.
Qed.
Lemma at_right Z X x x' y y' : eqop Z (kron (oeye D1) X) -> dim X = D2 ->
  (x < D1)%N -> (x' < D1)%N -> (y < D2)%N -> (y' < D2)%N ->
  ent Z (x * D2 + y)%N (x' * D2 + y')%N = if x == x' then ent X y y' else 0.
Proof.
move=> [dZ eZ] dX hx hx' hy hy'; have b0 : (0 < D2)%N by lia.
have bd u v : (u < D1)%N -> (v < D2)%N -> (u * D2 + v < dim Z)%N.
  by move=> hu hv; rewrite dZ /= dX (@leq_trans (u.+1 * D2)%N) ?leq_mul2r ?hu ?orbT // mulSnr ltn_add2l.
rewrite eZ ?bd //= dX !divnMDl // !modnMDl !divn_small // !modn_small // !addn0.
by case: eqP => _; rewrite ?mul1r ?mul0r.
Qed.

Section Entry.
Variables (x x' y y' : nat).
Hypothesis (hx : (x < D1)%N) (hx' : (x' < D1)%N) (hy : (y < D2)%N) (hy' : (y' < D2)%N).
Let a := (x * D2 + y)%N.
Let b := (x' * D2 + y')%N.
Let L (z : C) : C := if y == y' then z else 0.
Let Rt (z : C) : C := if x == x' then z else 0.
Let LD u v : L (u + v) = L u + L v. Proof. by rewrite /L; case: eqP; rewrite ?addr0. Qed.
Let LZ c u : L (c * u) = c * L u. Proof. by rewrite /L; case: eqP; rewrite ?mulr0. Qed.
Let RD u v : Rt (u + v) = Rt u + Rt v. Proof. by rewrite /Rt; case: eqP; rewrite ?addr0. Qed.
Let RZ c u : Rt (c * u) = c * Rt u. Proof. by rewrite /Rt; case: eqP; rewrite ?mulr0. Qed.
Let L0 : L 0 = 0. Proof. by rewrite /L; case: eqP. Qed.
Let R0' : Rt 0 = 0. Proof. by rewrite /Rt; case: eqP. Qed.
Lemma Lsum I (r : seq I) (F : I -> C) : L (\sum_(i <- r) F i) = \sum_(i <- r) L (F i).
Proof. by apply: big_morph. Qed.
Lemma Rsum I (r : seq I) (F : I -> C) : Rt (\sum_(i <- r) F i) = \sum_(i <- r) Rt (F i).
Proof. by apply: big_morph. Qed.

Hypothesis cI0 : forall i j, (i < n1)%N -> (j < n2)%N -> t_cI (h_st h) i (n1 + j)%N = 0.

Lemma lc_left i j : (i + j < n1)%N -> lcent h i j a b = L (lcent h1 i j x x').
Proof.
move=> hij; have hi : (i < n1)%N by lia.
have hh : (i + j < hn h)%N by rewrite hN; lia.
have qq : ent (opQQ h i j) a b = L (ent (opQQ h1 i j) x x').
  rewrite opQQE // opQQE // /L; apply: at_left => //; last by apply: dim_two => k; exact: dimQ.
  by apply: two_left => // k hk; rewrite p_Q.
rewrite /lcent; case: eqP => [j0|_]; last by rewrite LZ qq.
have nn : ent (opN h i) a b = L (ent (opN h1 i) x x').
  rewrite !opNE /L; apply: at_left => //; last by apply: dim_one => k; exact: dimN.
  by apply: one_left => // k hk; rewrite p_N.
have -> : hcharge h1 i = hcharge h i by [].
by case: ifP => _; rewrite LZ ?qq ?nn.
Qed.
Lemma lc_right i j : (i + j < n2)%N -> lcent h (n1 + i)%N j a b = Rt (lcent h2 i j y y').
Proof.
move=> hij; have hi : (i < n2)%N by lia.
have hh : (n1 + i + j < hn h)%N by rewrite hN; lia.
have qq : ent (opQQ h (n1 + i)%N j) a b = Rt (ent (opQQ h2 i j) y y').
  rewrite opQQE // opQQE // /Rt -addnA; apply: at_right => //; last by apply: dim_two => k; exact: dimQ.
  by apply: two_right => // k hk; rewrite p_Q.
rewrite /lcent; case: eqP => [j0|_]; last by rewrite RZ qq -addnA.
have nn : ent (opN h (n1 + i)%N) a b = Rt (ent (opN h2 i) y y').
  rewrite !opNE /Rt; apply: at_right => //; last by apply: dim_one => k; exact: dimN.
  by apply: one_right => // k hk; rewrite p_N.
have -> : hcharge h2 i = hcharge h (n1 + i)%N by [].
case: ifP => _; rewrite RZ ?qq ?nn //.
by rewrite /quad_cI !eqxx.
Qed.
Lemma lc_cross i j : (i < n1)%N -> (n1 <= i + j < n1 + n2)%N -> lcent h i j a b = 0.
Proof.
move=> hi hij; rewrite /lcent; case: eqP => [j0|_]; first by lia.
have e : (i + j = n1 + (i + j - n1))%N by lia.
have k : (i + j - n1 < n2)%N by lia.
by rewrite e cI0 // cR0 mul0r.
Qed.

Lemma LC_parts : oent (LC_hamil h) a b = L (oent (LC_hamil h1) x x') + Rt (oent (LC_hamil h2) y y').
Proof.
rewrite !LC_entry hN iotaD big_cat Lsum Rsum !p_n /=; congr (_ + _).
  apply: eq_big_seq => i; rewrite mem_iota add0n => /andP [_ hi].
  have -> : (n1 + n2 - i = (n1 - i) + n2)%N by lia.
  rewrite iotaD big_cat /= [X in _ + X]big1_seq ?addr0 => [|j].
    rewrite Lsum; apply: eq_big_seq => j; rewrite mem_iota add0n => /andP [_ hj]; apply: lc_left; lia.
  by rewrite mem_iota add0n => /andP [_ /andP [j1 j2]]; apply: lc_cross => //; lia.
rewrite add0n -{1}[n1]addn0 iotaDl big_map; apply: eq_big_seq => i; rewrite mem_iota add0n => /andP [_ hi].
have -> : (n1 + n2 - (n1 + i) = n2 - i)%N by lia.
rewrite Rsum; apply: eq_big_seq => j; rewrite mem_iota add0n => /andP [_ hj]; apply: lc_right; lia.
Qed.

Lemma cpl_parts e : cpl h e a b = L (cpl h1 e x x') + Rt (cpl h2 e y y').
Proof.
rewrite !cpl_entry !p_coef; case: coupling_coef => [k|_]; last by rewrite L0 R0' addr0.
rewrite hN iotaD big_cat Lsum Rsum !p_n /=; congr (_ + _).
  apply: eq_big_seq => i; rewrite mem_iota add0n => /andP [_ hi]; rewrite LZ; congr (_ * _).
  rewrite !opPhiE /L; apply: at_left => //; last by apply: dim_one => l; exact: dimF.
  by apply: one_left => // l hl; rewrite p_F.
rewrite add0n -{1}[n1]addn0 iotaDl big_map; apply: eq_big_seq => i; rewrite mem_iota add0n => /andP [_ hi].
rewrite RZ; congr (_ * _).
rewrite !opPhiE /Rt; apply: at_right => //; last by apply: dim_one => l; exact: dimF.
by apply: one_right => // l hl; rewrite p_F.
Qed.

Lemma jj_left w phi : (forall j, (j < n2)%N -> t_wT (h_st h) w (n1 + j)%N = 0) ->
  jjent disp h phi w a b = L (jjent disp h1 phi w x x').
Proof.
move=> H; have E := exp_left H; have dE : dim (opExp disp h1 w) = D1.
  rewrite -[opExp _ _ _]/(T (exp_iso disp h1 w) n1) T_dim; apply: eq_bigr => k _; exact: iso_dim.
rewrite /jjent /a /b (at_left E) // (at_left E) // [y' == y]eq_sym /L; case: eqP => _ //.
by rewrite !mulr0 cj0 addr0 mulr0.
Qed.
Lemma jj_right w phi : (forall i, (i < n1)%N -> t_wT (h_st h) w i = 0) ->
  jjent disp h phi w a b = Rt (jjent disp h2 phi w y y').
Proof.
move=> H; have E := exp_right H; have dE : dim (opExp disp h2 w) = D2.
  rewrite -[opExp _ _ _]/(T (exp_iso disp h2 w) n2) T_dim; apply: eq_bigr => k _; exact: iso_dim.
rewrite /jjent /a /b (at_right E) // (at_right E) // [x' == x]eq_sym /Rt; case: eqP => _ //.
by rewrite !mulr0 cj0 addr0 mulr0.
Qed.
End Entry.
End Two.

(** The Hamiltonian of a group of modes exists. *)
Lemma ham_part disp h a n val loops B ks jj A : (0 < n)%N -> hamiltonian disp h val loops B ks = Ok A ->
  exists A', hamiltonian disp (part h a n) val loops B (mkKeys (k_ind ks) jj) = Ok A'.
Proof.
move=> n0; set g := part h a n; rewrite /hamiltonian; case: ifP => // _; rewrite /ind_hamil.
have -> : (size (h_m g) == 0%N) = false by rewrite size_map size_iota; lia.
case E: foldl => [H|//] _.
have [H' E'] : exists H', foldl (ind_term g val loops B) (Ok None) (k_ind (mkKeys (k_ind ks) jj)) = Ok H'.
  rewrite [k_ind (mkKeys _ _)]/=; elim: (k_ind ks) (@None op) {2}(@None op) E => [|[[e el] b] l IH] u v; first by exists v.
  cbn [foldl ind_term]; rewrite /coupling_op p_coef; case: coupling_coef => [k|x]; last first.
    by rewrite (_ : forall l, foldl (ind_term h val loops B) (Err x) l = Err x) //; elim.
  case: (foldl _ None (iota 0 (hn h))) => [X|]; last by rewrite (_ : forall l, foldl (ind_term h val loops B) (Err AttributeError) l = Err AttributeError) //; elim.
  move=> E; have S : isSome (foldl (fun acc i => acc_add acc (oscale (k (a + i)%N)%:C (mode_op g Inductive_ i))) None (iota 0 (hn g))).
    have st m acc : isSome acc -> isSome (foldl (fun acc i => acc_add acc (oscale (k (a + i)%N)%:C (mode_op g Inductive_ i))) acc m).
      by elim: m acc => //= i m IHm acc _; apply: IHm.
    by rewrite p_n -[X in iota 0 X](prednK n0) [iota 0 _]/=; cbn [foldl]; apply: st.
  by case: (foldl _ None (iota 0 (hn g))) S => [Y|//] _; exact: IH E.
rewrite E'; have := @LC_some g n0; case: LC_hamil => // Y _; by case: foldl => [X|]; eexists.
Qed.

Lemma sum_filter (I : Type) (r : seq I) (P : I -> bool) (F : I -> C) :
  \sum_(i <- r) F i = \sum_(i <- [seq i <- r | P i]) F i + \sum_(i <- [seq i <- r | ~~ P i]) F i.
Proof. by rewrite !big_filter (bigID P). Qed.

Lemma ham_parts disp h n1 n2 side val loops B ks A : (forall m a, dim (disp m a) = m) ->
  (forall m, eqop (disp m 0) (oeye m)) -> separate h n1 n2 side (k_jj ks) -> (0 < n1)%N -> (0 < n2)%N ->
  hamiltonian disp h val loops B ks = Ok A -> exists A1 A2,
  [/\ hamiltonian disp (part h 0 n1) val loops B (keys_of side ks) = Ok A1,
      hamiltonian disp (part h n1 n2) val loops B (keys_of (fun k => ~~ side k) ks) = Ok A2 & without_interaction A A1 A2].
Proof.
move=> ddim disp0 [hN cI0 w1 w2] n10 n20 EA.
have [A1 E1] := ham_part 0 [seq k <- k_jj ks | side k] n10 EA.
have [A2 E2] := ham_part n1 [seq k <- k_jj ks | ~~ side k] n20 EA.
exists A1, A2; split=> //.
have [dA _] := hamiltonian_ok ddim EA; have [d1 _] := hamiltonian_ok ddim E1; have [d2 _] := hamiltonian_ok ddim E2.
split; first by rewrite dA d1 d2 (tot hN).
rewrite d1 d2 => x x' y y' hx hx' hy hy'.
rewrite (hamiltonian_entry _ _ EA) (hamiltonian_entry _ _ E1) (hamiltonian_entry _ _ E2) (LC_parts hN) //.
pose L (z : C) : C := if y == y' then z else 0; pose Rt (z : C) : C := if x == x' then z else 0.
rewrite -/(L _) -/(Rt _) -/(L _) -/(Rt _) [k_ind _]/= [X in _ = L (_ + \sum_(k <- X) _ - _) + _]/= .
have LD u v : L (u + v) = L u + L v by rewrite /L; case: eqP; rewrite ?addr0.
have LB u v : L (u - v) = L u - L v by rewrite /L; case: eqP; rewrite ?subr0.
have LZ c u : L (c * u) = c * L u by rewrite /L; case: eqP; rewrite ?mulr0.
have RD u v : Rt (u + v) = Rt u + Rt v by rewrite /Rt; case: eqP; rewrite ?addr0.
have RB u v : Rt (u - v) = Rt u - Rt v by rewrite /Rt; case: eqP; rewrite ?subr0.
have RZ c u : Rt (c * u) = c * Rt u by rewrite /Rt; case: eqP; rewrite ?mulr0.
have LS I (r : seq I) (F : I -> C) : L (\sum_(i <- r) F i) = \sum_(i <- r) L (F i).
  by apply: big_morph => //; rewrite /L; case: eqP.
have RS I (r : seq I) (F : I -> C) : Rt (\sum_(i <- r) F i) = \sum_(i <- r) Rt (F i).
  by apply: big_morph => //; rewrite /Rt; case: eqP.
rewrite LB RB LD RD !LS !RS.
have -> : \sum_(k <- k_ind ks) (ind_coef (val k.1.2) (ext_flux loops B k.2))%:C * cpl h k.1.1 (x * total (part h n1 n2) + y)%N (x' * total (part h n1 n2) + y')%N =
  \sum_(k <- k_ind ks) L ((ind_coef (val k.1.2) (ext_flux loops B k.2))%:C * cpl (part h 0 n1) k.1.1 x x') +
  \sum_(k <- k_ind ks) Rt ((ind_coef (val k.1.2) (ext_flux loops B k.2))%:C * cpl (part h n1 n2) k.1.1 y y').
  by rewrite -big_split /=; apply: eq_bigr => k _; rewrite (cpl_parts hN) // LZ RZ -mulrDr.
have inf (l : seq jj_key) P k : List.In k [seq k <- l | P k] -> List.In k l /\ P k.
  by elim: l => //= u l IH; case: ifP => Pu /=; [case=> [<-|/IH []]; auto|move=> /IH []; auto].
rewrite [X in _ - X = _](sum_filter _ side).
have -> : \sum_(k <- [seq k <- k_jj ks | side k]) (val k.1.1.2)%:C * jjent disp h (ext_flux loops B k.1.2) k.2 (x * total (part h n1 n2) + y)%N (x' * total (part h n1 n2) + y')%N =
  \sum_(k <- [seq k <- k_jj ks | side k]) L ((val k.1.1.2)%:C * jjent disp (part h 0 n1) (ext_flux loops B k.1.2) k.2 x x').
  apply: sum_in => k /inf [kin ks1]; rewrite LZ; congr (_ * _); apply: (jj_left hN) => // j hj; exact: w1.
have -> : \sum_(k <- [seq k <- k_jj ks | ~~ side k]) (val k.1.1.2)%:C * jjent disp h (ext_flux loops B k.1.2) k.2 (x * total (part h n1 n2) + y)%N (x' * total (part h n1 n2) + y')%N =
  \sum_(k <- [seq k <- k_jj ks | ~~ side k]) Rt ((val k.1.1.2)%:C * jjent disp (part h n1 n2) (ext_flux loops B k.1.2) k.2 y y').
  apply: sum_in => k /inf [kin ks1]; rewrite RZ; congr (_ * _); apply: (jj_right hN) => // j hj; exact: w2.
have alg (a b c d e f : C) : a + b + (c + d) - (e + f) = a + c - e + (b + d - f) by ring.
exact: alg.
Qed.

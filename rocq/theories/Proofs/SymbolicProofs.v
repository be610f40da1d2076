(** SymbolicProofs.v -- lemmas for the printed Hamiltonian. *)
From Coq Require Import Reals ZArith String Lra Lia.
From Verif.Model Require Import Base Units Edge Elements LCWB Rounding Accuracy HamConst Symbolic.
From Verif.Numerics Require Import Bridge.

Lemma round_even_int z : round_even (IZR z) = z.
Proof.
unfold round_even.
assert (E : (up (IZR z) = z + 1)%Z).
  { symmetry; apply tech_up; rewrite plus_IZR; lra. }
assert (f : Int_part (IZR z) = z) by (unfold Int_part; rewrite E; lia).
assert (d : frac_part (IZR z) = 0%R) by (unfold frac_part; rewrite f; lra).
rewrite f, d; destruct (Rlt_dec 0 (1 / 2)); [reflexivity|lra].
Qed.

Lemma pow10 d : pow (IZR 10) d <> 0%R.
Proof. apply pow_nonzero; lra. Qed.

Lemma np_roundE d x : (exists z, Rmult x (pow (IZR 10) d) = IZR z) -> np_round d x = x.
Proof.
intros [z E]; unfold np_round; rewrite E, round_even_int, <- E; field; apply pow10.
Qed.
Lemma np_round_int d x : exists z, Rmult (np_round d x) (pow (IZR 10) d) = IZR z.
Proof.
eexists; unfold np_round; field_simplify; [reflexivity|apply pow10].
Qed.
Lemma np_round_sub d x y : np_round d (Rminus (np_round d x) (np_round d y)) = Rminus (np_round d x) (np_round d y).
Proof.
apply np_roundE; destruct (np_round_int d x) as [a A]; destruct (np_round_int d y) as [b B].
exists (a - b)%Z; rewrite minus_IZR, <- A, <- B; ring.
Qed.
Lemma np_round_twice d x : np_round d (np_round d x) = np_round d x.
Proof. apply np_roundE, np_round_int. Qed.
Lemma np_round_z d z : np_round d (IZR z) = IZR z.
Proof.
apply np_roundE; exists (z * 10 ^ Z.of_nat d)%Z; rewrite mult_IZR, pow_IZR; reflexivity.
Qed.

Lemma Rinv_unit_comm x y : Rmult x y = Rmult (Rmult 1 y) x.
Proof. ring. Qed.

Lemma loop_back l : Rmult (Rmult 2 PI) (Rdiv (Rdiv l 2) PI) = l.
Proof. field; apply PI_neq0. Qed.

Lemma hbar_gt : Rlt 0 hbar. 
Proof. unfold hbar; lra. Qed.

Lemma EC_unit u c : hz_EC u c = in_unit u (Rmult c (Rmult charge_unit charge_unit)).
Proof.
unfold hz_EC, in_unit, charge_unit.
assert (s0 : sqrt hbar <> 0%R) by (apply Rgt_not_eq, sqrt_lt_R0, hbar_gt).
replace hbar with (Rmult (sqrt hbar) (sqrt hbar)) at 1 by (apply sqrt_sqrt, Rlt_le, hbar_gt).
unfold Rdiv; rewrite !Rinv_mult; ring.
Qed.

Lemma EL_unit u L phi ci l : Rmult (hz_EL u L) (Rmult phi (phi_zp ci l)) =
  in_unit u (Rmult (ind_coef L phi) (f_zp (impedance ci l))).
Proof.
unfold hz_EL, el_hz, in_unit, ind_coef, phi_zp, f_zp.
assert (z0 : Rle 0 (impedance ci l)) by apply sqrt_pos.
assert (s0 : sqrt hbar <> 0%R) by (apply Rgt_not_eq, sqrt_lt_R0, hbar_gt).
assert (P0 : Phi0 <> 0%R) by (unfold Phi0; lra).
assert (p0 := PI_neq0).
replace (hbar / 2 * impedance ci l)%R with (hbar * (1 / 2 * impedance ci l))%R by field.
assert (h0 := hbar_gt); rewrite sqrt_mult by lra.
assert (E : hbar = (sqrt hbar * sqrt hbar)%R) by (symmetry; apply sqrt_sqrt; lra).
rewrite E at 1; clear E.
unfold Rdiv; rewrite !Rinv_mult.
generalize dependent (sqrt hbar); intros s Hs.
generalize dependent Phi0; intros P HP; generalize dependent PI; intros p Hp.
generalize (/ L)%R (/ get_unit_freq u)%R (sqrt (1 * / 2 * impedance ci l)); intros x y z.
replace (P * / 2 * / p)%R with (P * (/ 2 * / p))%R by ring.
field_simplify; [|tauto|tauto]; f_equal; ring.
Qed.

From mathcomp Require Import all_ssreflect all_algebra.
From mathcomp Require Import complex ring.
From Verif.Numerics Require Import RStruct.
From Verif.Model Require Import Transform Op Ham CircuitSM.
From Verif.Spec Require Import OpSpec SymbolicSpec.
From Verif.Proofs Require Import OpProofs HamProofs HamProofs2 HamProofs3 HamProofs4 HamProofs5 HamProofs6.

Set Implicit Arguments.
Unset Strict Implicit.
Unset Printing Implicit Defensive.
Import GRing.Theory.
Local Open Scope ring_scope.
Local Open Scope complex_scope.

(** ** Meanings *)
Section Meaning.
Variable v : reading.
Local Notation N := (v_dim v).

Lemma number_meaning e r : number v e = Some r ->
  forall x y, (x < N)%N -> meaning v e x y = if x == y then r%:C else 0.
Proof.
elim: e r => //=.
- by move=> r' r [->].
- by move=> i r [->].
- by move=> i r [->].
- by move=> i j r [->].
- by move=> i r [->].
- by move=> i r [->].
- by move=> i r [->].
- move=> a IHa b IHb r; case Ea: (number v a) => [p|//]; case Eb: (number v b) => [q|//] [<-] x y hx.
  rewrite (IHa _ Ea) // (IHb _ Eb) //; case: eqP => _; [by rewrite cRD|by rewrite addr0].
- move=> a IHa b IHb r; case Ea: (number v a) => [p|//]; case Eb: (number v b) => [q|//] [<-] x y hx.
  rewrite (bigD1 (Ordinal hx)) //= (IHa _ Ea) // (IHb _ Eb) // eqxx big1 ?addr0.
    by case: eqP => _; [rewrite cRM|rewrite mulr0].
  by move=> k; rewrite -val_eqE /= eq_sym (IHa _ Ea) // => /negbTE->; rewrite mul0r.
- move=> a IHa r; case Ea: (number v a) => [p|//] [<-] x y hx; rewrite (IHa _ Ea) //.
  by case: eqP => _; [rewrite cRN|rewrite oppr0].
Qed.

Lemma meaning_numl a b r x y : number v a = Some r -> (x < N)%N ->
  meaning v (EMul a b) x y = r%:C * meaning v b x y.
Proof.
move=> Ea hx /=; rewrite (bigD1 (Ordinal hx)) //= (number_meaning Ea) // eqxx big1 ?addr0 //.
by move=> k; rewrite -val_eqE /= eq_sym (number_meaning Ea) // => /negbTE->; rewrite mul0r.
Qed.
Lemma meaning_numr a b r x y : number v b = Some r -> (y < N)%N ->
  meaning v (EMul a b) x y = r%:C * meaning v a x y.
Proof.
move=> Eb hy /=; rewrite (bigD1 (Ordinal hy)) //= (number_meaning Eb) // eqxx big1 ?addr0 1?mulrC //.
by move=> k; rewrite -val_eqE /= (number_meaning Eb) // => /negbTE->; rewrite mulr0.
Qed.

Lemma meaning_sum l x y : meaning v (esum l) x y = \sum_(e <- l) meaning v e x y.
Proof.
elim: l => [|e l IH] /=; first by rewrite big_nil cR0; case: eqP.
by rewrite big_cons IH.
Qed.

Lemma number_dot n c :
  number v (edot n c EPhiE) = Some (\sum_(i < n) c i * v_ext v i.+1).
Proof.
rewrite /edot -[X in _ = Some X](big_mkord xpredT (fun i => c i * v_ext v i.+1)) /index_iota subn0.
elim: (iota 0 n) => [|i l IH] /=; first by rewrite big_nil.
by rewrite IH big_cons.
Qed.

Lemma meaning_dot n c x y : (x < N)%N ->
  meaning v (edot n c EPhi) x y = \sum_(i < n) (c i)%:C * meaning v (EPhi i.+1) x y.
Proof.
move=> hx; rewrite /edot meaning_sum -(sum_iota n (fun i => (c i)%:C * meaning v (EPhi i.+1) x y)) big_map; apply: eq_bigr => i _.
exact: meaning_numl.
Qed.

Lemma linear_dot n c : exists p, linear v (edot n c EPhi) = Some p /\
  (forall i, (i < n)%N -> p.1 i.+1 = c i) /\ p.2 = 0.
Proof.
have H : forall l, uniq l -> exists p, linear v (esum [seq EMul (ENum (c i)) (EPhi i.+1) | i <- l]) = Some p /\
   (forall i, p.1 i.+1 = if i \in l then c i else 0) /\ p.2 = 0.
  elim=> [|i l IH] /=; first by move=> _; exists (fun=> 0, 0).
  move=> /andP[ni ul]; have [p [-> [E1 E2]]] := IH ul; eexists; split; first by reflexivity.
  split=> [k|] /=; last by rewrite E2 mulr0 addr0.
  rewrite E1 inE eqSS; case: eqP => [->|_] /=; last by rewrite mulr0 add0r.
  by rewrite (negbTE ni) mulr1 addr0.
have [p [E [E1 E2]]] := H (iota 0 n) (iota_uniq _ _); exists p; split=> //; split=> // i hi.
by rewrite E1 mem_iota add0n hi.
Qed.
Lemma linear_num n c : exists p, linear v (edot n c EPhiE) = Some p /\
  (forall i, p.1 i = 0) /\ p.2 = \sum_(i < n) c i * v_ext v i.+1.
Proof.
rewrite -[X in exists p, _ /\ _ /\ _ = X](big_mkord xpredT (fun i => c i * v_ext v i.+1)) /index_iota subn0 /edot.
elim: (iota 0 n) => [|i l IH] /=; first by exists (fun=> 0, 0); rewrite big_nil.
have [p [-> [E1 E2]]] := IH; eexists; split; first by reflexivity.
by split=> [k|] /=; rewrite ?E1 ?mulr0 ?addr0 // big_cons E2.
Qed.
End Meaning.

(** ** Operators of the reading *)
Section Ops.
Variable h : hin.
Local Notation n := (hn h).
Local Notation m := (hm h).

Lemma at_modeE i X : at_mode n m i X = emb h i X. Proof. by []. Qed.

Lemma dim_emb i X : (i < n)%N -> dim X = m i -> dim (emb h i X) = total h.
Proof. by move=> hi dX; have [-> _] := emb_acts hi dX. Qed.

Lemma emb_mul i X Y : dim X = m i -> dim Y = m i ->
  eqop (omul (emb h i X) (emb h i Y)) (emb h i (omul X Y)).
Proof.
move=> dX dY; apply: eqop_trans (T_mul _) _ => [k _|]; first by case: ifP => _ //; rewrite dX dY.
by apply: T_eq => k _; case: ifP => // _; exact: omul1.
Qed.

Lemma emb_adj i X : eqop (oadj (emb h i X)) (emb h i (oadj X)).
Proof.
apply: eqop_trans (T_adj _ _) _; apply: T_eq => k _; case: ifP => // _.
split=> // x y hx hy; change (((if y == x then 1 else 0) : C)^* = if x == y then 1 else 0).
by rewrite eq_sym; case: eqP => _; rewrite ?cj1 ?cj0.
Qed.

Lemma diag_emb i d f x y : (i < n)%N -> d = m i -> (x < total h)%N -> (y < total h)%N -> x != y ->
  ent (emb h i (odiag d f)) x y = 0.
Proof.
move=> hi -> /posn_surj [dx [Hx <-]] /posn_surj [dy [Hy <-]] ne.
rewrite /emb (T_ent (dims := m)) // => [|k _]; last by case: eqP => [->|].
have /existsP [k Hk] : [exists k : 'I_n, dx k != dy k].
  apply/contraT; rewrite negb_exists => /forallP H; case/eqP: ne; apply: posn_ext => k hk.
  by have := H (Ordinal hk); rewrite negbK => /eqP.
rewrite (bigD1 k) //=; case: ifP => _ /=; by rewrite (negbTE Hk) mul0r.
Qed.

(** Number of pairs of mode i in a basis state. *)
Definition pairs (i x : nat) : C := ent (emb h i (qcharge (m i))) x x.
Lemma pairsE i x y : (i < n)%N -> (x < total h)%N -> (y < total h)%N ->
  ent (emb h i (qcharge (m i))) x y = if x == y then pairs i x else 0.
Proof. by move=> hi hx hy; case: eqP => [->//|/eqP ne]; rewrite diag_emb. Qed.
Lemma pairs_at i d : (i < n)%N -> legal m d n -> pairs i (posn m d n) = (charge_at (m i) (d i))%:C.
Proof.
move=> hi Hd; rewrite /pairs; have [_ ->] := emb_acts hi (erefl : dim (qcharge (m i)) = m i) => //.
by rewrite ifT ?eqxx //=; [rewrite eqxx|apply/forallP => k; rewrite eqxx orbT].
Qed.

Lemma opQ_pairs i x y : (i < n)%N -> hcharge h i -> (x < total h)%N -> (y < total h)%N ->
  ent (opQ h i) x y = if x == y then charge_unit%:C * (pairs i x - (h_ng h i)%:C) else 0.
Proof.
move=> hi hc hx hy; rewrite opQE one_emb.
have dQ := dimQ h i; rewrite -[ent _ x y]mul1r.
rewrite (@emb_lin h i 1 charge_unit%:C (- (charge_unit * h_ng h i)%:C) 0 _ (qcharge (m i)) (oeye (m i)) (oeye (m i))) //; last first.
  move=> k l hk hl; rewrite /charge_op_isolated hc mul0r subr0 mul1r.
  change (charge_unit%:C * ((if k == l then (charge_at (m i) k)%:C else 0) - (h_ng h i)%:C * (if k == l then 1 else 0)) =
    charge_unit%:C * (if k == l then (charge_at (m i) k)%:C else 0) + - (charge_unit * h_ng h i)%:C * (if k == l then 1 else 0)).
  case: eqP => _; [by rewrite !mulr1 (cRM charge_unit) mulrBr|by rewrite !mulr0 subr0 mulr0 addr0].
rewrite mul0r subr0 pairsE //.
have -> : ent (emb h i (oeye (m i))) x y = if x == y then 1 else 0.
  case: eqP => [<-|/eqP ne]; last by rewrite diag_emb.
  case/posn_surj: hx => d [Hd <-]; have [_ ->] := emb_acts hi (erefl : dim (oeye (m i)) = m i) => //.
  by rewrite ifT ?eqxx //=; [rewrite eqxx|apply/forallP => k; rewrite eqxx orbT].
case: eqP => _; [by rewrite mulr1 (cRM charge_unit) mulrBr|by rewrite !mulr0 addr0].
Qed.

Lemma prodQ_pairs i j x y : (i < n)%N -> (j < n)%N -> hcharge h i -> hcharge h j ->
  (x < total h)%N -> (y < total h)%N ->
  prodQ h x y i j = if x == y then (charge_unit * charge_unit)%:C *
    ((pairs i x - (h_ng h i)%:C) * (pairs j x - (h_ng h j)%:C)) else 0.
Proof.
move=> hi hj ci cj hx hy; rewrite /prodQ /= dim_opQ (bigD1 (Ordinal hx)) //= big1 => [|k]; last first.
  by rewrite -val_eqE /= eq_sym => /negbTE ne; rewrite opQ_pairs // ne mul0r.
rewrite addr0 !opQ_pairs // eqxx; case: eqP => _; last by rewrite mulr0.
by rewrite (cRM charge_unit charge_unit) mulrACA.
Qed.

Lemma opN_a i x y : (i < n)%N -> ~~ hcharge h i -> (x < total h)%N -> (y < total h)%N ->
  \sum_(k < total h) (ent (emb h i (destroy (m i))) k x)^* * ent (emb h i (destroy (m i))) k y = ent (opN h i) x y.
Proof.
move=> hi hc hx hy; rewrite opNE one_emb /num_op_isolated (negbTE hc).
have E : eqop (omul (emb h i (create (m i))) (emb h i (destroy (m i)))) (emb h i (num (m i))).
  apply: (eqop_trans (emb_mul (erefl : dim (create (m i)) = m i) (erefl : dim (destroy (m i)) = m i))).
  by apply: emb_eq; split=> // k l hk hl; exact: ada.
have D : dim (emb h i (create (m i))) = total h by apply: dim_emb.
have [_ H] := E; rewrite -H; [|by rewrite [dim _]D|by rewrite [dim _]D].
rewrite /omul; cbn [ent]; rewrite D; apply: eq_bigr => k _; congr (_ * _).
have [dA HA] := emb_adj i (destroy (m i)); rewrite -HA //= ?dim_emb //.
Qed.

Lemma opPhi_a i x y : (i < n)%N -> ~~ hcharge h i -> (x < total h)%N -> (y < total h)%N ->
  ent (opPhi h i) x y = (f_zp (himp h i))%:C *
    (ent (emb h i (destroy (m i))) x y + (ent (emb h i (destroy (m i))) y x)^*).
Proof.
move=> hi hc hx hy; rewrite opPhiE one_emb -[LHS]mul1r.
have -> : (ent (emb h i (destroy (m i))) y x)^* = ent (emb h i (create (m i))) x y.
  by have [dA HA] := emb_adj i (destroy (m i)); rewrite -HA //= ?dim_emb.
rewrite (@emb_lin h i 1 (f_zp (himp h i))%:C (f_zp (himp h i))%:C 0 _ (destroy (m i)) (create (m i)) (oeye (m i))) ?dimF //.
  by rewrite mul0r subr0 mulrDr.
move=> k l hk hl; rewrite mul0r subr0 mul1r -mulrDr /flux_op_isolated (negbTE hc).
case: eqP => [m1|//]; move: hk hl; rewrite m1 !ltnS !leqn0 => /eqP-> /eqP->.
have -> : ent (destroy 1) 0 0 = 0 by [].
have -> : ent (create 1) 0 0 = 0 by exact: cj0.
by rewrite addr0 mulr0.
Qed.
End Ops.

Lemma sum_from n k (F : nat -> C) : (k <= n)%N ->
  \sum_(i <- iota k (n - k)) F i = \sum_(i < n | (k <= i)%N) F i.
Proof. by move=> le; rewrite -sum_shift // -[X in iota X]addn0 iotaDl big_map sum_iota. Qed.

Lemma count_first n k (p : pred nat) : (k <= n)%N -> (forall i, (i < n)%N -> p i = (i < k)%N) ->
  count p (iota 0 n) = k.
Proof.
move=> le H; rewrite -(subnKC le) iotaD count_cat add0n.
have -> : count p (iota 0 k) = k.
  rewrite -[RHS](size_iota 0 k) -count_predT; apply: eq_in_count => i; rewrite mem_iota add0n /= => hi.
  by rewrite H ?hi // (leq_trans hi).
rewrite (_ : count p _ = 0%N) ?addn0 //; apply/eqP; rewrite -leqn0 leqNgt -has_count -all_predC.
by apply/allP => i; rewrite mem_iota subnKC // => /andP[ki hi] /=; rewrite H // -leqNgt.
Qed.

Lemma in_unitE u x : in_unit u x = in_unit u 1 * x.
Proof. by rewrite /in_unit /Rdiv; change (x * / (2 * PI * get_unit_freq u) = 1 * / (2 * PI * get_unit_freq u) * x)%R; apply: Rinv_unit_comm. Qed.

Section LC.
Variables (h : hin) (ks : keys) (k : nat).
Hypothesis nf : normal h ks k.
Local Notation n := (hn h).

Lemma LC_split x y : (x < total h)%N -> (y < total h)%N ->
  oent (LC_hamil h) x y =
  \sum_(i < n | (i < k)%N) (t_om (h_st h) i)%:C * ent (opN h i) x y +
  \sum_(i < n | (k <= i)%N) \sum_(j < n | (i <= j)%N) (quad_cI h i j)%:C * prodQ h x y i j.
Proof.
move=> hx hy; rewrite LC_entry // /half_sum.
rewrite (bigID (fun i : 'I_n => (i < k)%N)) /= -addrA [X in _ + X]addrC addrA; congr (_ + _); last first.
  apply: eq_big => [i|i hi]; first by rewrite -leqNgt.
  by apply: eq_bigr => j _; rewrite /quad_cI; case: ifP.
rewrite [X in _ + X](eq_bigl (fun i : 'I_n => (i < k)%N)) => [|i]; last by rewrite (nf_first nf) // -ltnNge.
rewrite -big_split /=; apply: eq_bigr => i hi.
rewrite (bigD1 i) //= eqxx big1 => [|j /andP[le]]; last first.
  rewrite -val_eqE eq_sym => /negbTE ne; rewrite ne (nf_C nf) ?cR0 ?mul0r //.
  by rewrite ltn_neqAle ne le ltn_ord.
by rewrite addr0 addrC subrK.
Qed.
End LC.

Lemma five (F : comRingType) (r c z p q a b : F) :
  r * (c * z) * ((p - a) * (p - b)) = r * (c * (z * ((p - a) * (q - b)))) + r * (c * z) * ((p - a) * (p - q)).
Proof. ring. Qed.
Lemma six (F : comRingType) (w r s1 s2 s3 s4 e : F) :
  w * (r * s1) + (r * s2 + e + (r * s3 - r * s4)) = r * (s1 + s2 + s3 - s4) + (w - 1) * (r * s1) + e.
Proof. ring. Qed.

Lemma d_shift m w k l : unit_w w -> ent (d_op_isolated m w) k l = ent (charge_shift m w) k l.
Proof.
move=> H; rewrite d_entry /charge_shift; cbn [ent].
have Hn (a b : nat) (z : Z) : (Rminus (INR a) (INR b) == IZR z) = (Z.eqb (Z.of_nat a - Z.of_nat b) z).
  rewrite !INR_IZR_INZ -minus_IZR; apply/eqP/idP => [/eq_IZR/Z.eqb_eq //|/Z.eqb_eq -> //].
have neg : - (1 : R_ringType) = IZR (-1) by exact: (esym (opp_IZR (Zpos xH))).
have e0 : (0 : R) = IZR 0 by [].
have e1 : (1 : R) = IZR 1 by [].
case: H => [->|[->|->]].
- case: Rlt_dec => [z|z]; last by case: z; rewrite neg; apply: IZR_lt.
  rewrite [is_left _]/=; rewrite neg Hn; congr (if _ then _ else _); apply/idP/idP => [/eqP->|/Z.eqb_eq E]; [apply/Z.eqb_eq|apply/eqP]; lia.
- case: Rlt_dec => [z|z]; first by case: (Rlt_irrefl _ z).
  rewrite ![is_left _]/=; rewrite e0 Hn; congr (if _ then _ else _); apply/idP/idP => [/eqP->|/Z.eqb_eq E]; [apply/Z.eqb_eq|apply/eqP]; lia.
- case: Rlt_dec => [z|z]; first by case: (Rlt_asym _ _ z Rlt_0_1).
  case: Rlt_dec => [z'|z']; last by case: z'; exact: Rlt_0_1.
  rewrite ![is_left _]/=; rewrite e1 Hn; congr (if _ then _ else _); apply/idP/idP => [/eqP->|/Z.eqb_eq E]; [apply/Z.eqb_eq|apply/eqP]; lia.
Qed.

Lemma unit_round w : unit_w w -> np_round 6 w = w.
Proof.
have neg : - (1 : R_ringType) = IZR (-1) by exact: (esym (opp_IZR (Zpos xH))).
case=> [->|[->|->]]; [rewrite neg|change (0:R) with (IZR 0)|change (1:R) with (IZR 1)]; exact: np_round_z.
Qed.

Section Main.
Variables (disp : nat -> C -> op) (u : ustate) (h : hin) (val : nat -> R) (loops : seq R) (B : arr) (ks : keys) (k : nat).
Hypothesis dd : forall m a, dim (disp m a) = m.
Hypothesis nf : normal h ks k.
Variable w : R.
Local Notation n := (hn h).
Let D := descrip_vars u h val loops B ks.
Let V := reading_of disp D (hm h) w.

Lemma har_k : dv_har D = k.
Proof.
apply: count_first (nf_le nf) _ => i hi.
by rewrite -[_ == 0]/(hcharge h i) (nf_first nf) // -ltnNge.
Qed.

Lemma har_meaning x y : (x < total h)%N -> (y < total h)%N ->
  \sum_(e <- har_terms D) meaning V e x y =
  \sum_(i < n | (i < k)%N) (w * in_unit u (t_om (h_st h) i))%:C * ent (opN h i) x y.
Proof.
move=> hx hy; rewrite /har_terms har_k big_map sum_iota.
rewrite -(big_ord_widen n (fun i => (w * in_unit u (t_om (h_st h) i))%:C * ent (opN h i) x y) (nf_le nf)).
apply: eq_bigr => i _; rewrite (@meaning_numl V _ _ (w * in_unit u (t_om (h_st h) i))) //.
have hi : (i < n)%N by apply: leq_trans (ltn_ord i) (nf_le nf).
by rewrite -opN_a // (nf_first nf) // -ltnNge.
Qed.

Lemma ng_k i : (k <= i < n)%N -> v_ng V i.+1 = h_ng h i.
Proof.
move=> /andP[ki hi]; rewrite /V /reading_of; cbn [v_ng predn]; rewrite har_k.
have -> : dv_ng D = [seq h_ng h j | j <- iota (dv_har D) (n - dv_har D)] by []; rewrite har_k.
by rewrite (nth_map 0%N) ?nth_iota ?size_iota ?subnKC // ltn_sub2r // (leq_ltn_trans ki).
Qed.

Lemma charge_meaning x y : (x < total h)%N -> (y < total h)%N ->
  \sum_(e <- charge_terms D) meaning V e x y =
  \sum_(i < n | (k <= i)%N) \sum_(j < n | (i <= j)%N) (hz_EC u (quad_cI h i j))%:C *
    (if x == y then (pairs h i x - (h_ng h i)%:C) * (pairs h i x - (h_ng h j)%:C) else 0).
Proof.
move=> hx hy; rewrite /charge_terms big_flatten big_map har_k.
rewrite (sum_from (fun i => \sum_(e <- [seq _ | j <- iota i (n - i)]) meaning V e x y)) ?(nf_le nf) //.
apply: eq_bigr => i ki; rewrite big_map.
rewrite (sum_from (fun j => meaning V _ x y)) ?(ltnW (ltn_ord i)) //.
apply: eq_bigr => j ij.
have kj : (k <= j)%N by apply: leq_trans ij.
have E a b c z : (c < n)%N -> (k <= c)%N -> (b < n)%N -> (k <= b)%N -> (a < total h)%N -> (z < total h)%N ->
  meaning V (esub (EN c.+1) (ENg b.+1)) a z = if a == z then pairs h c a - (h_ng h b)%:C else 0.
  move=> hc kc hb kb ha hz; cbn [meaning esub number]; rewrite ng_k ?kb ?hb //.
  rewrite -[v_n V c.+1]/(emb h c (qcharge (hm h c))) pairsE //.
  by case: eqP => _; rewrite ?subr0 // oppr0 addr0.
have assoc e1 e2 e3 r : number V e1 = Some r ->
  meaning V (EMul (EMul e1 e2) e3) x y = r%:C * meaning V (EMul e2 e3) x y.
  move=> Er; cbn [meaning]; rewrite mulr_sumr; apply: eq_bigr => z _.
  by rewrite -[\sum_(k0 < _) _]/(meaning V (EMul e1 e2) x z) (meaning_numl _ _ Er) // mulrA.
rewrite (assoc _ _ _ (hz_EC u (quad_cI h i j))) //; congr (_ * _).
have -> a b : meaning V (EMul a b) x y = \sum_(z < total h) meaning V a x z * meaning V b z y by [].
rewrite (bigD1 (Ordinal hx)) // big1 => [|z]; last first.
  by rewrite -val_eqE => /negbTE ne; rewrite E // eq_sym [_ == _]ne mul0r.
etransitivity; first exact: addr0.
rewrite -[nat_of_ord (Ordinal hx)]/x !E // eqxx.
by case: eqP => _; rewrite ?mulr0.
Qed.

Lemma ext_of b : \sum_(j < dv_bcols D) dv_B D b j * v_ext V j.+1 = ext_flux loops (roundedB B) b.
Proof.
rewrite /D /descrip_vars /ext_flux; cbn [dv_bcols dv_B]; case: eqP => [z|/eqP z].
  by rewrite z big_ord0 big1 // => j _; rewrite mul0r.
apply: eq_bigr => j _; rewrite /V /reading_of; cbn [v_ext predn]; rewrite /D /descrip_vars; cbn [dv_loops].
by rewrite (nth_map 0) // [X in _ * X](loop_back (nth 0 loops j)) mulrC.
Qed.

Lemma no_flux_ext b : no_flux (dv_B D) (dv_bcols D) b -> ext_flux loops (roundedB B) b = 0.
Proof.
move=> /eqP z; rewrite -ext_of big1 // => j _.
have ge i : is_true (Num.Def.ler (0 : R_numDomainType) (Rabs (dv_B D b i))).
  by apply/RlebP; exact: Rabs_pos.
have /eqP := z; rewrite Num.Theory.psumr_eq0 // => /allP /(_ j (mem_index_enum _)) /= /eqP H.
have E : dv_B D b j = 0 by apply/eqP/negPn/negP => /eqP nz; exact: (Rabs_no_R0 _ nz H).
by rewrite [X in X * _]E mul0r.
Qed.

Lemma ind_coef0 L : ind_coef L 0 = 0.
Proof. by rewrite /ind_coef /Rdiv Rmult_0_r !Rmult_0_l. Qed.

Lemma ind_w_ok e f : ind_w (t_n0 (h_st h)) D e = Ok f ->
  exists g, coupling_coef (rounded h) Inductive_ e = Ok g /\ forall i, f i = g i.
Proof.
case: e => a b; rewrite /ind_w /coupling_coef; cbn [coupling_mat].
rewrite -[t_n0 (h_st (rounded h))]/(t_n0 (h_st h)).
case: ifP => _.
  case: (np_row _ _) => [r|//] [<-]; eexists; split; first by reflexivity.
  by move=> i; exact: np_round_twice.
case: (np_row _ _) => [ra|//]; case: (np_row _ _) => [rb|//] [<-]; eexists; split; first by reflexivity.
by move=> i; exact: np_round_sub.
Qed.

Lemma four_a (F : comRingType) (a b c d : F) : a * b * c * d = c * (b * (a * d)).
Proof. ring. Qed.
Lemma four_b (F : comRingType) (a b c d : F) : a * (b * (c * d)) = b * c * a * d.
Proof. ring. Qed.

(** One inductor. *)
Lemma ind_one e el b f i g x y : (x < total h)%N -> (y < total h)%N ->
  v_EL V i.+1 = hz_EL u (val el) -> (forall j, f j = g j) ->
  (forall j, (k <= j < n)%N -> g j = 0) -> coupling_coef (rounded h) Inductive_ e = Ok g -> (0 < n)%N ->
  meaning V (EMul (EMul (EEL i.+1) (edot (dv_har D) f EPhi)) (edot (dv_bcols D) (dv_B D b) EPhiE)) x y =
  (in_unit u (ind_coef (val el) (ext_flux loops (roundedB B) b)))%:C * cpl (rounded h) e x y.
Proof.
move=> hx hy Ei Ef z Eg n0.
rewrite (meaning_numr _ _ (number_dot V (dv_bcols D) (dv_B D b))) // ext_of.
rewrite (@meaning_numl V _ _ (hz_EL u (val el))) //; last exact: (congr1 Some Ei).
rewrite meaning_dot // har_k.
have [A EA] := coupling_total Eg n0; have [g' [Eg' _ _ _ HA]] := couplingP EA.
rewrite /cpl EA HA; move: Eg'; rewrite Eg => -[<-].
rewrite -[hn (rounded h)]/n (bigID (fun j : 'I_n => (j < k)%N)) /= [X in _ = _ * (_ + X)]big1 ?addr0; last first.
  move=> j; rewrite -leqNgt => kj; have hj : (k <= j < n)%N by rewrite kj ltn_ord.
  by rewrite (z _ hj) cR0 mul0r.
rewrite -(big_ord_widen n (fun j => (g j)%:C * ent (opPhi (rounded h) j) x y) (nf_le nf)).
rewrite !mulr_sumr; apply: eq_bigr => j _; rewrite Ef.
have hj : (j < n)%N by apply: leq_trans (ltn_ord j) (nf_le nf).
rewrite -[opPhi (rounded h) j]/(opPhi h j) opPhi_a //; last by rewrite (nf_first nf) // -ltnNge.
set s : C := (_ + (_)^*); set c := ext_flux _ _ _.
change (c%:C * ((hz_EL u (val el))%:C * ((g j)%:C * ((hphi_zp h j)%:C * s))) =
  (in_unit u (ind_coef (val el) c))%:C * ((g j)%:C * ((f_zp (himp h j))%:C * s))).
move: s => s.
rewrite !mulrA -!cRM; congr (_%:C * s).
have E := EL_unit u (val el) c (t_cI (h_st h) j j) (t_lT (h_st h) j j).
have R1 := in_unitE u (ind_coef (val el) c * f_zp (himp h j)).
have R2 := in_unitE u (ind_coef (val el) c).
rewrite [in RHS]R2; transitivity (g j * (hz_EL u (val el) * (c * hphi_zp h j))).
  exact: four_a.
rewrite [X in g j * X]E R1; exact: four_b.
Qed.

Lemma ind_meaning l s acc res x y : (x < total h)%N -> (y < total h)%N -> (0 < n)%N ->
  (forall q, List.In q l -> List.In q (k_ind ks)) ->
  [seq v_EL V i.+1 | i <- iota s (size l)] = [seq hz_EL u (val q.1.2) | q <- l] ->
  foldl (fun acc p =>
      let '(i, (e, _, b)) := p in
      do l <- acc;
      if no_flux (dv_B D) (dv_bcols D) b then Ok l
      else do w <- ind_w (t_n0 (h_st h)) D e;
           Ok (rcons l (EMul (EMul (EEL i.+1) (edot (dv_har D) w EPhi))
                             (edot (dv_bcols D) (dv_B D b) EPhiE))))%res
    (Ok acc) (zip (iota s (size l)) l) = Ok res ->
  \sum_(e <- res) meaning V e x y = \sum_(e <- acc) meaning V e x y +
  \sum_(q <- l) (in_unit u (ind_coef (val q.1.2) (ext_flux loops (roundedB B) q.2)))%:C * cpl (rounded h) q.1.1 x y.
Proof.
move=> hx hy n0; elim: l s acc => [|[[e el] b] l IH] s acc Hin; first by move=> _ /= [<-]; rewrite big_nil addr0.
move=> /= [E1 E2]; case nfl: (no_flux _ _ b).
  move=> H; rewrite (IH _ _ _ E2 H) => [|q hq]; last by apply: Hin; right.
  by rewrite big_cons /= no_flux_ext // ind_coef0 in_unitE mulr0 cR0 mul0r add0r.
case Ew: (ind_w _ _ _) => [f|x0] /=; last first.
  move=> H; have : Err x0 = Ok res; last by [].
  by rewrite -H; elim: (zip _ _) => //= -[i [[e' el'] b']] ll IHl; rewrite -IHl.
move=> H; rewrite (IH _ _ _ E2 H) => [|q hq]; last by apply: Hin; right.
rewrite big_cons -cats1 big_cat big_seq1 -addrA; congr (_ + _); congr (_ + _).
have [g [Eg Ef]] := ind_w_ok Ew.
apply: (@ind_one e el b f s g x y hx hy E1 Ef _ Eg n0) => j hj.
exact: (nf_L nf (Hin _ (or_introl erefl)) Eg hj).
Qed.

(** Junctions *)
Lemma jj_one e el b c i x y : (x < total h)%N -> (y < total h)%N ->
  v_EJ V i.+1 = in_unit u (val el) -> (forall j, (k <= j < n)%N -> unit_w (t_wT (h_st h) c j)) ->
  meaning V (let '(i, (_, _, b, w)) := (i, (e, el, b, c) : edge * nat * nat * nat) in
        EMul (ENeg (EEJ i.+1)) (ECos (EAdd (edot (dv_n D) (dv_W D w) EPhi) (edot (dv_bcols D) (dv_B D b) EPhiE)))) x y =
  - ((in_unit u (val el))%:C * jjent disp (rounded h) (ext_flux loops (roundedB B) b) c x y).
Proof.
move=> hx hy Ei Hw; rewrite (@meaning_numl V _ _ (- in_unit u (val el))) //; last first.
  by exact: (congr1 (fun r => Some (- r)) Ei).
rewrite cRN mulNr; congr (- (_ * _)).
have [p [E [Ep p0]]] := linear_dot V (dv_n D) (dv_W D c).
have [q [E' [Eq q0]]] := linear_num V (dv_bcols D) (dv_B D b).
cbn [meaning linear]; rewrite E E' p0 add0r q0 ext_of.
set t := ext_flux _ _ _; set cf : nat -> R := (fun k0 => _).
have P a b' : (a < total h)%N -> (b' < total h)%N ->
  ent (phase_exp disp n (dv_har D) (hm h) (dv_zp D) cf) a b' = ent (opExp disp (rounded h) c) a b'.
  move=> ha hb; rewrite har_k.
  have [dE HE] : eqop (phase_exp disp n k (hm h) (dv_zp D) cf) (opExp disp (rounded h) c).
    apply: T_eq => j hj; rewrite /exp_iso -[hcharge (rounded h) j]/(hcharge h j) (nf_first nf) //.
    rewrite -[hm (rounded h) j]/(hm h j).
    have -> : cf j.+1 = t_wT (h_st (rounded h)) c j by rewrite /cf Eq addr0 Ep.
    case: ifP => kj; last by [].
    have Hu : unit_w (t_wT (h_st h) c j) by apply: Hw; rewrite kj hj.
    rewrite -[t_wT (h_st (rounded h)) c j]/(np_round 6 (t_wT (h_st h) c j)) unit_round //.
    by split; [rewrite d_dim|move=> a' b'' _ _; rewrite d_shift].
  have dt : dim (phase_exp disp n k (hm h) (dv_zp D) cf) = total h by rewrite dE (exp_dim (rounded h) c dd).
  by apply: HE; rewrite dt.
rewrite /jjent -!P //; cbn [v_cos V reading_of]; by [].
Qed.

Lemma jj_meaning l s x y : (x < total h)%N -> (y < total h)%N ->
  (forall q, List.In q l -> List.In q (k_jj ks)) ->
  [seq v_EJ V i.+1 | i <- iota s (size l)] = [seq in_unit u (val q.1.1.2) | q <- l] ->
  \sum_(e <- [seq (let '(i, (_, _, b, w)) := p in
        EMul (ENeg (EEJ i.+1)) (ECos (EAdd (edot (dv_n D) (dv_W D w) EPhi) (edot (dv_bcols D) (dv_B D b) EPhiE))))
        | p <- zip (iota s (size l)) l]) meaning V e x y =
  - \sum_(q <- l) (in_unit u (val q.1.1.2))%:C * jjent disp (rounded h) (ext_flux loops (roundedB B) q.1.2) q.2 x y.
Proof.
move=> hx hy; elim: l s => [|[[[e el] b] c] l IH] s Hin; first by rewrite !big_nil oppr0.
move=> [E1 E2]; rewrite [zip _ _]/= map_cons !big_cons opprD; congr (_ + _); last first.
  by apply: IH E2 => q hq; apply: Hin; right.
by apply: jj_one E1 _ => // j hj; apply: (nf_W nf (Hin _ (or_introl erefl)) hj).
Qed.

(** Energy printed for two different charge modes in excess of the true one. *)
Definition excess (x : nat) : C :=
  \sum_(i < n | (k <= i)%N) \sum_(j < n | (i < j)%N)
    (hz_EC u (t_cI (h_st h) i j))%:C * ((pairs h i x - (h_ng h i)%:C) * (pairs h i x - pairs h j x)).

Lemma charge_excess x y : (x < total h)%N -> (y < total h)%N ->
  \sum_(e <- charge_terms D) meaning V e x y =
  (in_unit u 1)%:C * (\sum_(i < n | (k <= i)%N) \sum_(j < n | (i <= j)%N) (quad_cI h i j)%:C * prodQ h x y i j)
  + (if x == y then excess x else 0).
Proof.
move=> hx hy; rewrite charge_meaning //.
have -> : (if x == y then excess x else 0) = \sum_(i < n | (k <= i)%N) \sum_(j < n | (i <= j)%N)
   (if x == y then (hz_EC u (quad_cI h i j))%:C * ((pairs h i x - (h_ng h i)%:C) * (pairs h i x - pairs h j x)) else 0).
  case: eqP => _; last by rewrite big1 // => i _; rewrite big1.
  apply: eq_bigr => i _; rewrite [RHS](bigD1 i) //= subrr !mulr0 add0r.
  by apply: eq_big => [j|j ij]; rewrite ?ltn_neqAle 1?andbC -?val_eqE 1?eq_sym // /quad_cI (ltn_eqF ij).
rewrite mulr_sumr -big_split /=; apply: eq_bigr => i ki.
rewrite mulr_sumr -big_split /=; apply: eq_bigr => j ij.
have kj : (k <= j)%N by apply: leq_trans ij.
rewrite prodQ_pairs ?(nf_first nf) //; case: eqP => _; last by rewrite !mulr0 addr0.
rewrite EC_unit (in_unitE u (Rmult _ _)).
move: (pairs h i x) (pairs h j x) => p q; move: (in_unit u 1) (quad_cI h i j) => r c.
move: (h_ng h i)%:C (h_ng h j)%:C => a b; move: charge_unit => z.
have -> : (r * (c * (z * z))%R)%:C = r%:C * (c%:C * (z * z)%:C) by rewrite -!cRM.
move: r%:C c%:C (z * z)%:C => r' c' z'; exact: five.
Qed.

Lemma printed_meaning e A x y : construct_hamiltonian (t_n0 (h_st h)) D ks = Ok e ->
  hamiltonian disp (rounded h) val loops (roundedB B) ks = Ok A -> (0 < n)%N ->
  (x < total h)%N -> (y < total h)%N ->
  meaning V e x y = (in_unit u 1)%:C * ent A x y
    + (w - 1)%:C * (\sum_(i < n | (i < k)%N) (in_unit u (t_om (h_st h) i))%:C * ent (opN h i) x y)
    + (if x == y then excess x else 0).
Proof.
rewrite /construct_hamiltonian /ind_terms; case EI: foldl => [it|//] [<-] HA n0 hx hy.
rewrite meaning_sum !big_cat /= har_meaning // charge_excess //.
rewrite (ind_meaning hx hy n0 _ _ EI) //; last first.
  have -> : size (k_ind ks) = size (dv_EL D) by rewrite size_map.
  exact: (mkseq_nth 0 (dv_EL D)).
rewrite big_nil add0r (@jj_meaning (k_jj ks) 0 x y hx hy) //; last first.
  have -> : size (k_jj ks) = size (dv_EJ D) by rewrite size_map.
  exact: (mkseq_nth 0 (dv_EJ D)).
rewrite (hamiltonian_entry x y HA) -[LC_hamil (rounded h)]/(LC_hamil h) (LC_split nf) //.
set S1 := \sum_(i < n | (i < k)%N) _ * _; set S2 := \sum_(i < n | (k <= i)%N) _; set ex := (if _ then _ else _).
set S3 := \sum_(q <- k_ind ks) _; set S4 := \sum_(q <- k_jj ks) _.
set T1 := \sum_(i < n | (i < k)%N) _; set T3 := \sum_(q <- k_ind ks) _; set T4 := \sum_(q <- k_jj ks) _.
set U1 := \sum_(i < n | (i < k)%N) _.
have E1 : S1 = w%:C * U1 by rewrite mulr_sumr; apply: eq_bigr => i _; rewrite cRM mulrA.
have E2 : U1 = (in_unit u 1)%:C * T1.
  by rewrite mulr_sumr; apply: eq_bigr => i _; rewrite (in_unitE u (t_om _ _)) cRM mulrA.
have E3 : S3 = (in_unit u 1)%:C * T3.
  by rewrite mulr_sumr; apply: eq_bigr => q _; rewrite (in_unitE u (ind_coef _ _)) cRM mulrA.
have E4 : S4 = (in_unit u 1)%:C * T4.
  by rewrite mulr_sumr; apply: eq_bigr => q _; rewrite (in_unitE u (val _)) cRM mulrA.
rewrite E1 E3 E4 E2 cRB cR1; move: w%:C (in_unit u 1)%:C => w' r; exact: six.
Qed.
End Main.

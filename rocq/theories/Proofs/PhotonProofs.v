(** PhotonProofs.v -- the Hamiltonian in a larger space: without junctions on the
    harmonic modes it is a principal submatrix of the one with more states. *)
From Coq Require Import Reals ZArith Lia Lra.
From Verif.Model Require Import Base Units Edge Accuracy HamConst.
From mathcomp Require Import all_ssreflect all_algebra.
From mathcomp Require Import complex ring zify.
From Verif.Numerics Require Import RStruct Bridge.
From Verif.Model Require Import Op Transform Ham.
From Verif.Spec Require Import OpSpec LevelsSpec PhotonSpec.
From Verif.Proofs Require Import OpProofs HamProofs HamProofs2 HamProofs5 HamProofs6 ChargeShiftProofs LevelProofs.

Set Implicit Arguments.
Unset Strict Implicit.
Unset Printing Implicit Defensive.
Import GRing.Theory.
Local Open Scope ring_scope.
Local Open Scope complex_scope.

Section Wide.
Variables (h h' : hin) (disp : nat -> C -> op).
Hypothesis st : h_st h' = h_st h.
Hypothesis ddim : forall m a, dim (disp m a) = m.
Hypothesis disp0 : forall m, eqop (disp m 0) (oeye m).
Let hn' : hn h' = hn h. Proof. by rewrite /hn st. Qed.
Let hc' k : hcharge h' k = hcharge h k. Proof. by rewrite /hcharge st. Qed.
Notation pr := (pr h h').
Notation lr := (lr h h').
Notation gr := (gr h h').
Notation ogr := (ogr h h').
Notation rgr := (rgr h h').

Lemma wpr_eq k a a' b b' : pr k a a' -> pr k b b' -> [/\ (a' == b') = (a == b), (a' == b'.+1) = (a == b.+1) & (b' == a'.+1) = (b == a.+1)].
Proof.
rewrite /pr; case: ifP => [_ p1 p2|_ -> -> //]; have H := charge_diff _ _ _ _ _ _ _ _ p1 p2.
by clear -H; split; apply/eqP/eqP; lia.
Qed.
Lemma wlr_eye k : lr k (oeye (hm h k)) (oeye (hm h' k)).
Proof. by split=> // a b a' b' p q *; rewrite /=; have [-> _ _] := wpr_eq p q. Qed.

Lemma harmQ g k a b : ~~ hcharge g k -> (a < hm g k)%N -> (b < hm g k)%N -> ent (charge_op_isolated g k) a b =
  - 'i * (q_zp (himp g k))%:C * (ent (destroy 2) a b - (ent (destroy 2) b a)^*).
Proof.
move=> ch ha hb; rewrite /charge_op_isolated (negbTE ch); case: eqP => // e; rewrite e in ha hb.
case: a ha => // _; case: b hb => // _; rewrite [ent (ozero _) _ _]/= [ent (destroy 2) _ _]/= cj0 subrr mulr0 //.
Qed.
Lemma harmF g k a b : ~~ hcharge g k -> (a < hm g k)%N -> (b < hm g k)%N -> ent (flux_op_isolated g k) a b =
  (f_zp (himp g k))%:C * (ent (destroy 2) a b + (ent (destroy 2) b a)^*).
Proof.
move=> ch ha hb; rewrite /flux_op_isolated (negbTE ch); case: eqP => // e; rewrite e in ha hb.
case: a ha => // _; case: b hb => // _; rewrite [ent (ozero _) _ _]/= [ent (destroy 2) _ _]/= cj0 addr0 mulr0 //.
Qed.

Lemma wlr_Q k : (k < hn h)%N -> lr k (charge_op_isolated h k) (charge_op_isolated h' k).
Proof.
move=> hk; split; rewrite ?dimQ // => a b a' b' p q ha hb ha' hb'; have [e _ _] := wpr_eq p q.
case: (boolP (hcharge h k)) => ch; first by rewrite !Qdiag ?hc' // e; move: p; rewrite /pr ch => ->.
rewrite !harmQ ?hc' // /himp st; by move: p q; rewrite /pr (negbTE ch) => -> ->.
Qed.
Lemma wlr_QQ k : (k < hn h)%N -> hcharge h k -> lr k (omul (charge_op_isolated h k) (charge_op_isolated h k))
                                    (omul (charge_op_isolated h' k) (charge_op_isolated h' k)).
Proof.
move=> hk ch.
have sq g a b : hcharge g k -> (a < hm g k)%N -> ent (omul (charge_op_isolated g k) (charge_op_isolated g k)) a b =
  if a == b then (charge_unit%:C * (Rminus (charge_at (hm g k) a) (h_ng g k))%:C) ^+ 2 else 0.
  move=> cg ha /=; rewrite dimQ (bigD1 (Ordinal ha)) //= big1 ?addr0.
    by rewrite !Qdiag // eqxx; case: eqP => [->|_]; rewrite ?mulr0 // expr2.
  by move=> i ne; rewrite [X in X * _]Qdiag // eq_sym -val_eqE /= in ne *; rewrite (negbTE ne) mul0r.
split; [exact: dimQ|exact: dimQ|] => a b a' b' p q ha _ ha' _; have [e _ _] := wpr_eq p q.
rewrite (sq h) // (sq h') ?hc' // e; by move: p; rewrite /pr ch => ->.
Qed.
Lemma wlr_F k : (k < hn h)%N -> lr k (flux_op_isolated h k) (flux_op_isolated h' k).
Proof.
move=> hk; case: (boolP (hcharge h k)) => ch; first by rewrite /flux_op_isolated hc' ch; apply: wlr_eye.
split; rewrite ?dimF // => a b a' b' p q ha hb ha' hb'.
rewrite !harmF ?hc' // /himp st; by move: p q; rewrite /pr (negbTE ch) => -> ->.
Qed.
Lemma wlr_N k : (k < hn h)%N -> ~~ hcharge h k -> lr k (num_op_isolated h k) (num_op_isolated h' k).
Proof.
move=> hk ch; split; rewrite ?dimN // => a b a' b'; rewrite /pr (negbTE ch) => -> -> *.
by rewrite /num_op_isolated hc' (negbTE ch).
Qed.
Lemma wlr_exp i k : (k < hn h)%N -> (~~ hcharge h k -> t_wT (h_st h) i k = 0) ->
  lr k (exp_iso disp h i k) (exp_iso disp h' i k).
Proof.
move=> hk w0; split; rewrite ?iso_dim // => a b a' b' p q ha hb ha' hb'; have [e1 e2 e3] := wpr_eq p q.
case: (boolP (hcharge h k)) => ch; first by rewrite /exp_iso hc' ch st !d_entry e1 e2 e3.
have X g : h_st g = h_st h -> forall x y, (x < hm g k)%N -> (y < hm g k)%N -> ent (exp_iso disp g i k) x y = if x == y then 1 else 0.
  move=> eg x y hx hy; have cg : hcharge g k = false by rewrite /hcharge eg; exact: negbTE ch.
  rewrite /exp_iso cg.
  case: ifP => // _.
  rewrite /alpha eg w0 // mulr0 mulr0; have [_ ->] := disp0 (hm g k) => //; by rewrite ddim.
by rewrite !X // e1.
Qed.

Lemma wgr_one X X' i : (i < hn h)%N -> lr i (X i) (X' i) -> gr (T (one_fam h X i) (hn h)) (T (one_fam h' X' i) (hn h)).
Proof.
move=> hi r; apply: gr_T => k hk; rewrite /one_fam; case: eqP => [->//|_]; exact: wlr_eye.
Qed.
Lemma wgr_opQQ i j : (i + j < hn h)%N -> (j = 0%N -> hcharge h i) -> gr (opQQ h i j) (opQQ h' i j).
Proof.
move=> hij c; rewrite !opQQE ?hn' //; apply: gr_T => k hk; rewrite /two_fam.
case: eqP => [ei|ni]; case: eqP => [ej|nj]; [|exact: wlr_Q|exact: wlr_Q|exact: wlr_eye].
apply: wlr_QQ => //; rewrite ei; apply: c; lia.
Qed.

Lemma wogr_add a a' X X' : ogr a a' -> gr X X' -> ogr (acc_add a X) (acc_add a' X').
Proof. by case: a a' => [A|] [A'|] //= r g; apply: gr_add. Qed.

Lemma wogr_LC : ogr (LC_hamil h) (LC_hamil h').
Proof.
rewrite /LC_hamil hn'; apply: ogr_foldl => // i a a'; rewrite mem_iota add0n => /andP [_ hi] r.
apply: ogr_foldl r => j b b'; rewrite mem_iota add0n => /andP [_ hj] r.
have hij : (i + j < hn h)%N by rewrite -ltn_subRL.
have qc x y : quad_cI h' x y = quad_cI h x y by rewrite /quad_cI st.
rewrite /LC_term hc' st !qc; case: eqP => [j0|nj].
  case: ifP => ch; apply: wogr_add => //; apply: gr_scale; first exact: wgr_opQQ.
  by rewrite !opNE hn'; apply: wgr_one => //; apply: wlr_N; rewrite ?ch.
by case: ifP => // _; apply: wogr_add => //; apply: gr_scale; exact: wgr_opQQ.
Qed.

Lemma wcoefS e : coupling_coef h' Inductive_ e = coupling_coef h Inductive_ e.
Proof. by rewrite /coupling_coef /coupling_mat st. Qed.
Lemma wcoupling_shape e : match coupling_op h (Some Inductive_) e, coupling_op h' (Some Inductive_) e with
  | Ok A, Ok A' => gr A A' | Err x, Err y => x = y | _, _ => False end.
Proof.
rewrite /coupling_op wcoefS; case: coupling_coef => [k|//]; rewrite hn'.
have : ogr (foldl (fun acc i => acc_add acc (oscale (k i)%:C (mode_op h Inductive_ i))) None (iota 0 (hn h)))
           (foldl (fun acc i => acc_add acc (oscale (k i)%:C (mode_op h' Inductive_ i))) None (iota 0 (hn h))).
  apply: ogr_foldl => // i a a'; rewrite mem_iota add0n => /andP [_ hi] r; apply: wogr_add => //; apply: gr_scale.
  by rewrite /mode_op !opPhiE hn'; apply: wgr_one => //; exact: wlr_F.
by case: foldl => [A|]; case: foldl => [A'|].
Qed.
Lemma wgr_exp i : charge_only h i -> gr (opExp disp h i) (opExp disp h' i).
Proof.
have E g : opExp disp g i = T (exp_iso disp g i) (hn g) by [].
by move=> c; rewrite !E hn'; apply: gr_T => k hk; apply: wlr_exp => // ch; exact: c.
Qed.

Variables (val : nat -> R) (loops : seq R) (B : arr) (ks : keys).
Hypothesis jj : forall k, List.In k (k_jj ks) -> val k.1.1.2 = 0 \/ charge_only h k.2.

Lemma ham_wide A : h_m h' <> [::] -> hamiltonian disp h val loops B ks = Ok A ->
  exists2 A', hamiltonian disp h' val loops B ks = Ok A' & gr A A'.
Proof.
move=> m0; rewrite /hamiltonian; case: ifP => // _; have -> : (size (h_m h') == 0%N) = false by apply/negbTE/eqP => /size0nil.
have : rgr (ind_hamil disp h val loops B ks) (ind_hamil disp h' val loops B ks).
  rewrite /ind_hamil.
  have : forall x x', rgr x x' -> rgr (foldl (ind_term h val loops B) x (k_ind ks)) (foldl (ind_term h' val loops B) x' (k_ind ks)).
    elim: (k_ind ks) => [//|[[e el] b] l IH] x x' r; cbn [foldl]; apply: IH.
    case: x x' r => [a|z] [a'|z'] // r; cbn [ind_term]; have := wcoupling_shape e.
    case: coupling_op => [X|z]; case: coupling_op => [X'|z'] // g.
    by rewrite /rgr; apply: wogr_add => //; apply: gr_scale.
  move=> /(_ (Ok None) (Ok None) I); case: foldl => [a|z]; case: foldl => [a'|z'] // r.
  change (ogr (foldl (jj_term disp h val loops B) a (k_jj ks)) (foldl (jj_term disp h' val loops B) a' (k_jj ks))).
  elim: (k_jj ks) jj a a' r => [//|[[[e el] b] w] l IH] J a a' r; cbn [foldl]; apply: IH; first by move=> k hk; apply: J; right.
  cbn [jj_term]; apply: wogr_add => //.
  case: (J _ (or_introl erefl)) => /= [v0|c]; first by move=> *; rewrite /= v0 oppr0 !mul0r.
  apply: gr_scale; apply: gr_scale; apply: gr_add; first by apply: gr_scale; exact: wgr_exp.
  by apply: gr_adj; apply: gr_scale; exact: wgr_exp.
case: ind_hamil => [a|z]; case: ind_hamil => [a'|z'] // r; have := wogr_LC.
case: LC_hamil => [L|]; case: LC_hamil => [L'|] //; case: a a' r => [a|] [a'|] //= r g [<-]; eexists; try reflexivity; try by [].
exact: gr_add.
Qed.

Variable (f : nat -> nat -> nat).
Hypothesis cov : covers h h' f.
Lemma wide_le A A' E E' k : h_m h' <> [::] ->
  hamiltonian disp h val loops B ks = Ok A -> hamiltonian disp h' val loops B ks = Ok A' ->
  energies A E -> energies A' E' -> (k < dim A)%N -> (k < dim A')%N /\ Rle (E' k) (E k).
Proof.
move=> m0 EA EA' HE HE' hk.
have [A1 E1 g] := ham_wide m0 EA; move: E1; rewrite EA' => -[e1]; rewrite -{A1}e1 in g.
have [dA _] := hamiltonian_ok ddim EA; have [dA' _] := hamiltonian_ok ddim EA'.
have dT : dim A = (\prod_(i < hn h) hm h i)%N by rewrite dA.
have dT' : dim A' = (\prod_(i < hn h) hm h' i)%N by rewrite dA' /total hn'.
pose p := place f (hm h) (hm h') (hn h).
have lt a : (a < dim A)%N -> (p a < dim A')%N.
  rewrite dT => /posn_surj [d [L <-]]; rewrite /p place_posn // dT'; apply: posn_lt.
  by have [M _] := cov L.
have inj a b : (a < dim A)%N -> (b < dim A)%N -> p a = p b -> a = b.
  rewrite dT => /posn_surj [d [L <-]] /posn_surj [d' [L' <-]]; rewrite /p !place_posn // => e.
  have [M S] := cov L; have [M' S'] := cov L'; apply: posn_ext => i hi.
  have := posn_inj M M' e hi; have := S i hi; have := S' i hi; case: (boolP (hcharge h i)) => ch; last by move=> -> ->.
  move=> c2 c1 ee; have pa : pr i (d i) (f i (d i)) by rewrite /pr ch.
  have pb : pr i (d' i) (f i (d' i)) by rewrite /pr ch.
  by have [e3 _ _] := wpr_eq pa pb; apply/eqP; rewrite -e3 ee.
have sub a b : (a < dim A)%N -> (b < dim A)%N -> ent A' (p a) (p b) = ent A a b.
  rewrite dT => /posn_surj [d [L <-]] /posn_surj [d' [L' <-]]; rewrite /p !place_posn //.
  by have [M S] := cov L; have [M' S'] := cov L'; apply: g.
have ge : (dim A <= dim A')%N.
  pose P (a : 'I_(dim A)) : 'I_(dim A') := Ordinal (lt a (ltn_ord a)).
  have injP : injective P by move=> a b /(congr1 (@nat_of_ord _)) /= e; apply: ord_inj; exact: inj.
  by have := leq_card P injP; rewrite !card_ord.
have hk' : (k < dim A')%N by apply: leq_trans ge.
split=> //; exact: (embed_le HE HE' lt inj sub).
Qed.
End Wide.

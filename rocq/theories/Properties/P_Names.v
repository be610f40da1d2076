(** P_Names.v -- C105: names of the symbols of the printed Hamiltonian. *)
From Coq Require Import Reals ZArith Ascii String Lia List.
From Verif.Model Require Import Base Units Elements Edge LCWB HamConst Transform Op Ham CircuitSM Symbolic Texts Names.
From Verif.Spec Require Import TextSpec NameSpec.
From Verif.Proofs Require Import TextProofs.

Local Open Scope string_scope.

Lemma prefix_cancel p s t : p ++ s = p ++ t -> s = t.
Proof. induction p as [|c p IH]; simpl; intros H; [exact H|injection H; auto]. Qed.
Lemma suffix_cancel p s t : s ++ p = t ++ p -> s = t.
Proof.
  revert t; induction s as [|c s IH]; intros [|c' t] H; simpl in H; trivial.
  - apply (f_equal String.length) in H. simpl in H. rewrite sapp_len in H. lia.
  - apply (f_equal String.length) in H. simpl in H. rewrite sapp_len in H. lia.
  - injection H as -> H. f_equal. exact (IH _ H).
Qed.
Lemma decimal_inj i j : decimal i = decimal j -> i = j.
Proof.
  intros H. destruct (decimal_spec i) as (A & _), (decimal_spec j) as (B & _). rewrite H, B in A. now injection A.
Qed.
Lemma decimal_no_e i s : decimal i = String "e" s -> False.
Proof. intros H. destruct (decimal_spec i) as (A & _). rewrite H in A. discriminate A. Qed.

(** Two numbers written one after the other, read back when the first is at most the
    second and the second at most 110. *)
Definition num (s : string) : nat := match reads s with Some n => n | None => 0%nat end.
Definition split_at (k : nat) (s : string) : nat * nat :=
  (num (substring 0 k s), num (substring k (String.length s - k) s)).
Definition decode (s : string) : nat * nat :=
  match String.length s with
  | 2%nat | 3%nat => split_at 1 s
  | 4%nat => let p := split_at 2 s in if Nat.leb (fst p) (snd p) then p else split_at 1 s
  | 5%nat => split_at 2 s
  | _ => split_at 3 s
  end.
Definition read_back (j i : nat) : bool :=
  let p := decode (decimal i ++ decimal j) in Nat.eqb (fst p) i && Nat.eqb (snd p) j.
Lemma read_all : forallb (fun j => forallb (read_back j) (seq 1 j)) (seq 1 110) = true.
Proof. vm_compute. reflexivity. Qed.
Lemma all_pairs (f : nat -> nat -> bool) n : forallb (fun j => forallb (f j) (seq 1 j)) (seq 1 n) = true ->
  forall i j, (1 <= i <= j /\ j <= n)%nat -> f j i = true.
Proof.
  intros P i j H. rewrite forallb_forall in P. assert (Pj : In j (seq 1 n)) by (apply in_seq; lia).
  specialize (P j Pj). rewrite forallb_forall in P. apply P, in_seq. lia.
Qed.
Lemma decode_pair i j : (1 <= i <= j /\ j <= 110)%nat -> decode (decimal i ++ decimal j) = (i, j).
Proof.
  intros H. assert (P := all_pairs read_back 110 read_all i j H). unfold read_back in P. cbv zeta in P.
  apply Bool.andb_true_iff in P. destruct P as [P1 P2]. apply Nat.eqb_eq in P1, P2.
  destruct (decode _) as [x y]. cbn [fst snd] in P1, P2. congruence.
Qed.
Lemma pair_inj i j k l : (1 <= i <= j /\ j <= 110 -> 1 <= k <= l /\ l <= 110 ->
  decimal i ++ decimal j = decimal k ++ decimal l -> i = k /\ j = l)%nat.
Proof.
  intros H1 H2 E. assert (K := f_equal decode E). rewrite (decode_pair i j H1), (decode_pair k l H2) in K.
  injection K. auto.
Qed.

(** Subscripts of a charging energy in a circuit of [n] modes. *)
Definition ordered (n : nat) (e : expr) : Prop :=
  match e with EEC i j => (1 <= i <= j /\ j <= n)%nat | _ => True end.

Ltac peel H := repeat (injection H; clear H; intros H).
(** Symbols of circuits of at most 110 modes: the plain name tells them apart, and so does
    the LaTeX name. *)
Theorem C105_plain e e' : ordered 110 e -> ordered 110 e' -> plain_name e <> None -> plain_name e = plain_name e' -> e = e'.
Proof.
  intros O O' NZ H. destruct e; try (now destruct (NZ eq_refl)); destruct e'; cbn [plain_name] in H; try discriminate H;
    injection H as H; cbn [append] in H; try discriminate H;
    try (peel H; apply decimal_inj in H; congruence);
    try (peel H; exfalso; exact (decimal_no_e _ _ H));
    try (peel H; exfalso; exact (decimal_no_e _ _ (eq_sym H))).
  peel H. destruct (pair_inj _ _ _ _ O O' H) as [-> ->]. reflexivity.
Qed.
Theorem C105_latex e e' : ordered 110 e -> ordered 110 e' -> latex_name e <> None -> latex_name e = latex_name e' -> e = e'.
Proof.
  intros O O' NZ H. destruct e; try (now destruct (NZ eq_refl)); destruct e'; cbn [latex_name] in H; try discriminate H;
    injection H as H; cbn [append] in H; try discriminate H;
    try (peel H; first [apply suffix_cancel, decimal_inj in H | apply decimal_inj in H]; congruence).
  peel H. apply suffix_cancel in H. destruct (pair_inj _ _ _ _ O O' H) as [-> ->]. reflexivity.
Qed.
Print Assumptions C105_plain.
Print Assumptions C105_latex.

(** With one number no bound is needed. *)
Theorem C105_single e e' : (forall i j, e <> EEC i j) -> plain_name e <> None -> plain_name e = plain_name e' -> e = e'.
Proof.
  intros N1 NZ H.
  destruct e; try (now destruct (NZ eq_refl)); try (now destruct (N1 _ _ eq_refl)); destruct e'; cbn [plain_name] in H; try discriminate H;
    injection H as H; cbn [append] in H; try discriminate H;
    try (peel H; apply decimal_inj in H; congruence);
    try (peel H; exfalso; exact (decimal_no_e _ _ H));
    try (peel H; exfalso; exact (decimal_no_e _ _ (eq_sym H))).
Qed.
Print Assumptions C105_single.

Lemma atoms_named e z : In z (atoms e) -> plain_name z <> None /\ latex_name z <> None.
Proof.
  induction e; simpl; intros H; try contradiction; try (destruct H as [<-|[]]; split; discriminate);
    try (apply in_app_or in H; destruct H; auto); auto.
Qed.

From mathcomp Require Import all_ssreflect all_algebra.
From Verif.Numerics Require Import RStruct Bridge.
Set Implicit Arguments.
Unset Strict Implicit.
Unset Printing Implicit Defensive.
Local Open Scope nat_scope.

(** The charging energies in the printed Hamiltonian. *)
Definition charged (h n : nat) (e : expr) : Prop := forall i j, List.In (EEC i j) (atoms e) -> [/\ h < i, i <= j & j <= n].

Lemma in_sum x l : List.In x (atoms (esum l)) <-> exists2 e, List.In e l & List.In x (atoms e).
Proof.
elim: l => [|e l IH] /=; first by split=> // -[].
split=> [/List.in_app_iff [H|/IH [e' H1 H2]]|[e' [->|H1] H2]].
- by exists e => //; left.
- by exists e' => //; right.
- by apply/List.in_app_iff; left.
- by apply/List.in_app_iff; right; apply/IH; exists e'.
Qed.
Lemma in_map_iota (f : nat -> expr) a n x : List.In x [seq f i | i <- iota a n] <-> exists2 i, a <= i < a + n & x = f i.
Proof.
elim: n a => [|n IH] a /=; first by split=> // -[i /andP [h1 h2]]; rewrite addn0 ltnNge h1 in h2.
split=> [[<-|/IH [i /andP [h1 h2] ->]]|[i /andP [h1 h2] ex]].
- by exists a => //; rewrite leqnn -[ltnLHS]addn0 ltn_add2l.
- by exists i => //; rewrite (ltnW h1) addnS -addSn.
move: h1; rewrite leq_eqVlt => /orP [/eqP ->|h1]; first by left.
by right; apply/IH; exists i => //; rewrite h1 addSn -addnS.
Qed.
Lemma dot_charged h n m c f : (forall i a b, ~ List.In (EEC a b) (atoms (f i))) -> charged h n (edot m c f).
Proof. by move=> F i j /in_sum [e /in_map_iota [k _ ->]] /= /F. Qed.
Lemma jj_charged h n D ks e : List.In e (jj_terms D ks) -> charged h n e.
Proof.
rewrite /jj_terms; elim: (zip _ _) => [|[i [[[ed el] b] w]] l IH] //= [<-|H]; last exact: IH.
move=> a c /= [//|/List.in_app_iff [H|H]].
- by have := @dot_charged h n (dv_n D) (dv_W D w) EPhi; apply; [move=> k a' b' /= [|]|exact: H].
- by have := @dot_charged h n (dv_bcols D) (dv_B D b) EPhiE; apply; [move=> k a' b' /= [|]|exact: H].
Qed.
Lemma ind_charged h n n0 D ks l : ind_terms n0 D ks = Ok l -> forall e, List.In e l -> charged h n e.
Proof.
rewrite /ind_terms; set z := zip _ _; have : forall e, List.In e [::] -> charged h n e by [].
elim: z [::] => [|[i [[ed el] b]] z IH] acc Ha /=; first by case=> <-.
case: ifP => _; first exact: IH.
case: ind_w => [w|x] /=; last first.
  move=> E; exfalso; elim: z {IH} E => [|[i' [[ed' el'] b']] z IHz] //=.
apply: IH => e; rewrite -cats1 => /List.in_app_iff [/Ha //|[<-|[]]] a c /= H.
move: H => [//|/List.in_app_iff [H|H]].
- by have := @dot_charged h n (dv_har D) w EPhi; apply; [move=> k a' b' /= [|]|exact: H].
- by have := @dot_charged h n (dv_bcols D) (dv_B D b) EPhiE; apply; [move=> k a' b' /= [|]|exact: H].
Qed.
Lemma in_flatten (l : list (list expr)) x : List.In x (flatten l) <-> exists2 y, List.In y l & List.In x y.
Proof.
elim: l => [|y l IH] /=; first by split=> // -[].
split=> [/List.in_app_iff [H|/IH [y' H1 H2]]|[y' [->|H1] H2]].
- by exists y => //; left.
- by exists y' => //; right.
- by apply/List.in_app_iff; left.
- by apply/List.in_app_iff; right; apply/IH; exists y'.
Qed.
Lemma in_map_iota2 (f : nat -> list expr) a n x : List.In x [seq f i | i <- iota a n] <-> exists2 i, a <= i < a + n & x = f i.
Proof.
elim: n a => [|n IH] a /=; first by split=> // -[i /andP [h1 h2]]; rewrite addn0 ltnNge h1 in h2.
split=> [[<-|/IH [i /andP [h1 h2] ->]]|[i /andP [h1 h2] ex]].
- by exists a => //; rewrite leqnn -[ltnLHS]addn0 ltn_add2l.
- by exists i => //; rewrite (ltnW h1) addnS -addSn.
move: h1; rewrite leq_eqVlt => /orP [/eqP ->|h1]; first by left.
by right; apply/IH; exists i => //; rewrite h1 addSn -addnS.
Qed.
Definition charge_term (i j : nat) : expr :=
  EMul (EMul (EEC i.+1 j.+1) (esub (EN i.+1) (ENg i.+1))) (esub (EN i.+1) (ENg j.+1)).
Lemma in_charge D e : dv_har D <= dv_n D ->
  List.In e (charge_terms D) <-> exists2 i, dv_har D <= i & exists2 j, i <= j < dv_n D & e = charge_term i j.
Proof.
move=> hn; rewrite /charge_terms in_flatten; split=> [[y /in_map_iota2 [i /andP [h1 h2] ->] /in_map_iota [j /andP [h3 h4] ->]]|[i h1 [j /andP [h3 h4] ->]]].
  exists i => //; exists j => //; rewrite h3 /=; rewrite subnKC // in h2; by rewrite subnKC // in h4; exact: ltnW.
exists [seq charge_term i k | k <- iota i (dv_n D - i)].
  by apply/in_map_iota2; exists i => //; rewrite h1 subnKC //; exact: leq_ltn_trans h3 h4.
by apply/in_map_iota; exists j => //; rewrite h3 subnKC // ltnW //; exact: leq_ltn_trans h3 h4.
Qed.

(** The subscripts are ordered, and none exceeds the number of modes. *)
Theorem C105_subscripts n0 D ks e i j : dv_har D <= dv_n D -> construct_hamiltonian n0 D ks = Ok e ->
  List.In (EEC i j) (atoms e) -> [/\ dv_har D < i, i <= j & j <= dv_n D].
Proof.
move=> hn; rewrite /construct_hamiltonian; case E: ind_terms => [it|//] [<-].
move=> /in_sum [t]; rewrite !List.in_app_iff => -[|[|[|]]].
- by rewrite /har_terms => /in_map_iota [k _ ->] /= [|[|[|]]].
- by move=> /in_charge [//|k h1 [l /andP [h2 h3] ->]] /= [[<- <-]|[|[|[|[|]]]]].
- by move=> H; exact: (@ind_charged (dv_har D) (dv_n D) _ _ _ _ E _ H).
- by move=> H; exact: (@jj_charged (dv_har D) (dv_n D) _ _ _ H).
Qed.
Print Assumptions C105_subscripts.

(** So the printed Hamiltonian of at most 110 modes has a name of its own for every symbol. *)
Theorem C105_distinct n0 D ks e x y : dv_har D <= dv_n D -> dv_n D <= 110 -> construct_hamiltonian n0 D ks = Ok e ->
  List.In x (atoms e) -> List.In y (atoms e) ->
  (plain_name x = plain_name y -> x = y) /\ (latex_name x = latex_name y -> x = y).
Proof.
move=> hn n110 E Hx Hy.
have O z : List.In z (atoms e) -> ordered 110 z.
  case: z => // i j /(C105_subscripts hn E) [h1 h2 h3] /=.
  by split; [split|]; apply/leP => //; [exact: leq_ltn_trans h1|exact: leq_trans h3 n110].
have N z : List.In z (atoms e) -> plain_name z <> None /\ latex_name z <> None.
  exact: atoms_named.
have [nx mx] := N x Hx.
by split=> H; [exact: (C105_plain _ _ (O _ Hx) (O _ Hy) nx H)|exact: (C105_latex _ _ (O _ Hx) (O _ Hy) mx H)].
Qed.
Print Assumptions C105_distinct.

(** From 111 charge modes on, two charging energies are printed under one name. *)
Theorem C105_refuted n0 D ks e : dv_har D = 0 -> 110 < dv_n D -> construct_hamiltonian n0 D ks = Ok e ->
  exists x y, [/\ List.In x (atoms e), List.In y (atoms e), x <> y, plain_name x = plain_name y & latex_name x = latex_name y].
Proof.
move=> h0 n110; rewrite /construct_hamiltonian; case E: ind_terms => [it|//] [<-].
have I a b : a <= b < dv_n D -> List.In (EEC a.+1 b.+1) (atoms (esum (har_terms D ++ charge_terms D ++ it ++ jj_terms D (k_jj ks)))).
  move=> hb; apply/in_sum; exists (charge_term a b); last by left.
  rewrite !List.in_app_iff; right; left; apply/in_charge; first by rewrite h0.
  by exists a; [rewrite h0|exists b].
exists (EEC 1 111), (EEC 11 11); split=> //; try exact: I.
by apply: I; rewrite /=; apply: leq_trans n110.
Qed.
Print Assumptions C105_refuted.

(** Case: the charging energies of modes 1 and 12, and of modes 11 and 12. *)
Example C105_case : plain_name (EEC 1 12) = Some "EC_112"%string /\ plain_name (EEC 11 12) = Some "EC_1112"%string /\
  latex_name (EEC 11 12) = Some "E_{C_{1112}}"%string /\ plain_name (EPhiE 3) = Some "phi_e3"%string.
Proof. by []. Qed.

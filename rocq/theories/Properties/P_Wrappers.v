(** P_Wrappers.v -- C92: the functions that make matrices in either engine. *)
From Coq Require Import Reals ZArith.
From Verif.Model Require Import Base Units Noise Edge Elements LCWB.
From mathcomp Require Import all_ssreflect all_algebra.
From mathcomp Require Import complex.
From Verif.Numerics Require Import RStruct Bridge.
From Verif.Model Require Import Transform Op Matrix System Wrappers.
From Verif.Spec Require Import WrapperSpec.

Set Implicit Arguments.
Unset Strict Implicit.
Unset Printing Implicit Defensive.
Import GRing.Theory.
Local Open Scope ring_scope.
Local Open Scope complex_scope.

(** ** Filling *)
Lemma fill_before l : forall M r c i j, ((i < r) || (j < c))%N -> fill M r c l i j = M i j.
Proof.
elim: l => //= a l IH M r c i j h; rewrite IH; last first.
  by case/orP: h => h; apply/orP; [left|right]; rewrite (leq_trans h) // leq_addr.
by case: ifP => // /and4P [h1 _ h2 _]; move: h; rewrite ltnNge h1 ltnNge h2.
Qed.

Definition none : obj := Obj KOther [::] (fun _ _ => 0).
Section Fill.
Variables (rw cl : obj -> nat).
Definition offs (f : obj -> nat) (l : seq obj) (b : nat) : nat := above (fun i => f (nth none l i)) b.
Lemma offs0 f l : offs f l 0 = 0%N. Proof. by rewrite /offs /above big_ord0. Qed.
Lemma offsS f a l b : offs f (a :: l) b.+1 = (f a + offs f l b)%N.
Proof. by rewrite /offs /above big_ord_recl. Qed.
Lemma offs_sum f l : offs f l (size l) = sum_of f l.
Proof. by elim: l => [|a l IH]; rewrite ?offs0 // offsS IH. Qed.
End Fill.

Lemma fill_block l : forall M r c b i j, (b < size l)%N ->
  (i < rows_of (nth none l b))%N -> (j < cols_of (nth none l b))%N ->
  fill M r c l (r + (offs rows_of l b + i)) (c + (offs cols_of l b + j)) = ent2 (nth none l b) i j.
Proof.
elim: l => //= a l IH M r c [|b] i j hb hi hj.
  rewrite !offs0 !add0n fill_before; last by rewrite ltn_add2l hi.
  by rewrite !leq_addr !ltn_add2l hi hj /= !addKn.
by rewrite !offsS -!addnA !addnA -(addnA _ _ i) -(addnA _ _ j) IH.
Qed.
Lemma fill_off l : forall M r c b b' i j, (b < size l)%N -> (b' < size l)%N -> b <> b' ->
  (i < rows_of (nth none l b))%N -> (j < cols_of (nth none l b'))%N ->
  let I := (r + (offs rows_of l b + i))%N in let J := (c + (offs cols_of l b' + j))%N in
  fill M r c l I J = M I J.
Proof.
elim: l => // a l IH M r c [|b] [|b'] i j hb hb' nb hi hj //=.
- rewrite !offs0 offsS add0n fill_before; last by move: hi => /= hi; rewrite ltn_add2l hi.
  case: ifP => // /and4P [_ _ _]; by rewrite ltn_add2l -addnA -[X in (_ < X)%N]addn0 ltn_add2l.
- rewrite !offs0 offsS add0n fill_before; last by move: hj => /= hj; rewrite !ltn_add2l hj orbT.
  case: ifP => // /and4P [_]; by rewrite ltn_add2l -addnA -[X in (_ < X)%N]addn0 ltn_add2l.
have hh : b <> b' by move=> e; apply: nb; rewrite e.
rewrite !offsS.
have -> : (r + (rows_of a + offs rows_of l b + i) = (r + rows_of a) + (offs rows_of l b + i))%N by rewrite !addnA.
have -> : (c + (cols_of a + offs cols_of l b' + j) = (c + cols_of a) + (offs cols_of l b' + j))%N by rewrite !addnA.
rewrite IH //; case: ifP => // /and4P [_ h _ _]; move: h.
by rewrite -[X in (_ < X)%N]addn0 ltn_add2l.
Qed.

(** ** block_diag *)

(** It returns exactly for arguments of at most two dimensions that are not sparse
    (and tensors, in the PyTorch engine); the result has the arguments along its
    diagonal, vectors being rows. *)
Theorem C92_blocks optim l :
  ((exists M, Wrappers.block_diag optim l = Ok M) <->
   (forall a, List.In a l -> [/\ (size (o_shape a) <= 2)%N, ~~ is_sparse a & optim -> is_tensor a])) /\
  forall M, Wrappers.block_diag optim l = Ok M -> l <> [::] ->
    o_kind M = (if optim then KTen false else KArr) /\
    block_diagonal (size l) (fun b => rows_of (nth none l b)) (fun b => cols_of (nth none l b))
      (fun b => ent2 (nth none l b)) M.
Proof.
split; last first.
  move=> M; rewrite /Wrappers.block_diag => E nl.
  have EM : M = filled (if optim then KTen false else KArr) l.
    by move: E; case: (optim); do 2![case: ifP => // _]; case.
  rewrite {}EM {E M}; split; first by case: (l).
  have FE k : filled k l = Obj k [:: sum_of rows_of l; sum_of cols_of l] (fill (fun _ _ => 0) 0 0 l) by case: (l) nl.
  rewrite FE; split=> /=; first by rewrite -!offs_sum.
    by move=> b i j hb hi hj; have := fill_block (fun _ _ => 0) 0 0 hb hi hj; rewrite !add0n.
  by move=> b b' i j hb hb' nb hi hj; have := fill_off (fun _ _ => 0) 0 0 hb hb' nb hi hj; rewrite !add0n.
have In_has (P : pred obj) : has P l <-> exists a, List.In a l /\ P a.
  elim: (l) => [|a m IH] /=; first by split=> // [[a []]].
  split; first by case/orP => [h|/IH [b [h1 h2]]]; [exists a; split=> //; left | exists b; split=> //; right].
  by case=> b [[<- -> //|h1] h2]; apply/orP; right; apply/IH; exists b.
rewrite /Wrappers.block_diag; split.
  case=> M; rewrite -(has_predC _ l) => E a ha.
  have NH P : has P l = false -> P a = false by move=> h; apply/negbTE/negP => hp; move/negP: (negbT h); apply; apply/In_has; exists a.
  case: (optim) E; [case: ifP => // /NH /= /negbFE h1; case: ifP => // /negbT; rewrite negb_or => /andP [h2 h3] _
                   |case: ifP => // /NH h2; case: ifP => // /NH h3 _].
    by split=> //; [rewrite leqNgt; have /= -> := NH _ (negbTE h3) | rewrite (NH _ (negbTE h2))].
  by split=> //; [rewrite leqNgt h3 | rewrite h2].
move=> H.
have h1 : has is_sparse l = false by apply/negbTE/negP => /In_has [a [/H [_ /negbTE -> _]]].
have h2 : has (fun a => 2 < size (o_shape a))%N l = false.
  by apply/negbTE/negP => /In_has [a [/H [h _ _]]]; rewrite ltnNge h.
rewrite h1 h2 -has_predC.
case E: (optim) H => H; last by eexists.
have -> : has (predC is_tensor) l = false by apply/negbTE/negP => /In_has [a [/H [_ _ h]]] /=; rewrite h.
by eexists.
Qed.
Print Assumptions C92_blocks.

(** For square blocks of numbers it is the matrix the systems are built from. *)
Theorem C92_systems (l : seq (nat * arr)) (b : seq obj) :
  b = [seq Obj KArr [:: p.1; p.1] (fun i j => (p.2 i j)%:C) | p <- l] -> l <> [::] ->
  exists M, Wrappers.block_diag false b = Ok M /\
    forall i j, o_ent M i j = (System.block_diag l i j)%:C.
Proof.
move=> -> nl.
have h1 : has is_sparse [seq Obj KArr [:: p.1; p.1] (fun i j => (p.2 i j)%:C) | p <- l] = false by elim: (l).
have h2 : has (fun a => 2 < size (o_shape a))%N [seq Obj KArr [:: p.1; p.1] (fun i j => (p.2 i j)%:C) | p <- l] = false by elim: (l).
rewrite /Wrappers.block_diag h1 h2; eexists; split; first by reflexivity.
have FE k x : x <> [::] -> filled k x = Obj k [:: sum_of rows_of x; sum_of cols_of x] (fill (fun _ _ => 0) 0 0 x) by case: x.
rewrite FE; last by case: (l) nl.
move=> i j /=.
have G : forall (l0 : seq (nat * arr)) (M : nat -> nat -> C) r i j, (forall i j, (r <= i)%N -> (r <= j)%N -> M i j = 0) ->
  (r <= i)%N -> (r <= j)%N ->
  fill M r r [seq Obj KArr [:: p.1; p.1] (fun i j => (p.2 i j)%:C) | p <- l0] i j = (System.block_diag l0 (i - r)%N (j - r)%N)%:C.
  elim=> [|[n A] l0 IH] M r i' j' M0 hi hj /=; first by rewrite M0.
  rewrite /rows_of /cols_of /ent2 /= !ltn_subLR // !leq_subRL //.
  case: (ltnP i' (r + n)) => h3; case: (ltnP j' (r + n)) => h4 /=.
  - by rewrite fill_before; [rewrite hi hj h3 h4 | rewrite h3].
  - by rewrite fill_before; [rewrite hi hj h3 ltnNge h4 /= M0 | rewrite h3].
  - by rewrite fill_before; [rewrite hi hj h4 ltnNge h3 /= M0 | rewrite h4 orbT].
  rewrite IH //.
    by rewrite !subnDA.
  move=> i0 j0 hi0 hj0; rewrite ltnNge hi0 andbF /= M0 //; [exact: leq_trans (leq_addr _ _) hi0 | exact: leq_trans (leq_addr _ _) hj0].
by rewrite G // !subn0.
Qed.
Print Assumptions C92_systems.

(** ** The two engines *)

(** On the same numbers, tensors in one and arrays in the other, both engines give
    the same numbers, or both raise. *)
Theorem C92_engines inv (t a : obj) (ts xs : seq obj) : agree t a -> List.Forall2 agree ts xs ->
  [/\ agree_res (Wrappers.block_diag true ts) (Wrappers.block_diag false xs),
      agree_res (diag true t) (diag false a), agree_res (mat_inv inv t) (mat_inv inv a),
      agree_res (copy true t) (copy false a) &
      (forall i j, (complex.Re (o_ent a i j))%:C = o_ent a i j) -> forall rt,
        exists u v, [/\ array true rt t = Ok u, array false rt a = Ok v, o_shape u = o_shape v
                      & forall i j, o_ent u i j = o_ent v i j]].
Proof.
case: t => tk tsh te; case: a => ak ash ae [/= -> -> -> ->] H; split.
- have : filled (KTen false) ts = Obj (KTen false) (o_shape (filled KArr xs)) (o_ent (filled KArr xs)) /\
         [/\ all is_tensor ts, has is_sparse ts = has is_sparse xs &
             has (fun a => 2 < size (o_shape a))%N ts = has (fun a => 2 < size (o_shape a))%N xs].
    split; last first.
      elim: H => //= x y us vs [k1 k2 e1 _] _ [h1 h2 h3].
      by rewrite {1}/is_tensor {1 3}/is_sparse k1 k2 e1 h1 h2 h3.
    have S : sum_of rows_of ts = sum_of rows_of xs /\ sum_of cols_of ts = sum_of cols_of xs.
      rewrite /sum_of; elim: H => //= x y us vs [_ _ e1 _] _ [-> ->].
      by rewrite /rows_of /cols_of e1.
    have F : forall M r c, fill M r c ts = fill M r c xs.
      elim: H => //= x y us vs [_ _ e1 e2] _ IH M r c.
      by rewrite IH /rows_of /cols_of /ent2 e1 e2.
    by case: S => S1 S2; case: H F S1 S2 => //= x y us vs [_ _ e1 e2] _ F S1 S2; rewrite /filled S1 S2 F.
  case=> FE [h1 h2 h3]; rewrite /Wrappers.block_diag h1 h2 h3 /=.
  case: (has _ xs) => //=; case: (has _ xs) => //=; rewrite FE; split=> //.
  by case: (xs).
- by rewrite /diag /=; case: ash => [|n [|m []]].
- rewrite /mat_inv /inv_obj /=; case: ash => [|n [|m []]] //; case: ifP => // _.
  by case: inv.
- by [].
move=> re rt; do 2!eexists; split; [by reflexivity | by reflexivity | by [] |].
by move=> i j /=; case: rt; rewrite ?re.
Qed.
Print Assumptions C92_engines.

(** diag of a vector is the matrix with it on the diagonal, and diag of that is the
    vector; eye and zeros have their entries. *)
Theorem C92_diag (optim : bool) v n : o_kind v = (if optim then KTen false else KArr) -> o_shape v = [:: n] ->
  exists D w, [/\ diag optim v = Ok D, o_shape D = [:: n; n],
    forall i j, o_ent D i j = (if i == j then o_ent v i 0%N else 0), diag optim D = Ok w
    & o_shape w = [:: n] /\ forall i j, o_ent w i j = o_ent v i 0%N].
Proof.
move=> Ek Es; rewrite /diag /as_array /is_tensor /is_sparse Ek /diag_obj Es.
case: optim {Ek} => /=; do 2!eexists; split; try by reflexivity.
  by rewrite /= minnn; split=> // i j; rewrite eqxx.
by rewrite /= minnn; split=> // i j; rewrite eqxx.
Qed.
Print Assumptions C92_diag.

Theorem C92_create optim n sh : [/\ o_shape (eye optim n) = [:: n; n],
  forall i j, o_ent (eye optim n) i j = (if i == j then 1 else 0),
  o_shape (zeros optim sh) = sh /\ o_ent (zeros optim sh) = (fun _ _ => 0)
  & o_shape (zero optim) = [::] /\ o_ent (zero optim) 0%N 0%N = 0].
Proof. by split=> // i j /=; case: eqP. Qed.
Print Assumptions C92_create.

(** Of which kind they are: dense tensors in one engine; in the other a qutip object, an
    array and a plain number. *)
Theorem C92_kinds n sh : [/\ o_kind (eye true n) = KTen false, o_kind (zeros true sh) = KTen false & o_kind (zero true) = KTen false] /\
  [/\ exists f, o_kind (eye false n) = KQobj f, o_kind (zeros false sh) = KArr & o_kind (zero false) = KOther].
Proof. by split; split=> //; eexists. Qed.
Print Assumptions C92_kinds.

(** Without arguments block_diag gives one row of no columns. *)
Theorem C92_no_blocks optim : exists M, [/\ Wrappers.block_diag optim [::] = Ok M, o_shape M = [:: 1; 0]%N &
  o_kind M = if optim then KTen false else KArr].
Proof. by case: optim; eexists; split; reflexivity. Qed.
Print Assumptions C92_no_blocks.

(** Sparse tensors have no inverse in either engine, and are refused wherever an array is
    expected; qutip objects make no tensors. *)
Theorem C92_refused inv rt srt places t w : o_kind t = KTen true -> is_qobj w ->
  [/\ mat_inv inv t = Err RuntimeError, diag false t = Err TypeError /\ sort false srt places t = Err TypeError,
      array false rt t = Err TypeError, array true rt w = Err TypeError &
      copy true w = Ok w /\ copy false w = Ok w].
Proof.
case: t => tk tsh te; case: w => wk wsh we /= ->; by rewrite /is_qobj /=; case: wk.
Qed.
Print Assumptions C92_refused.

(** ** What fails *)

(** In the PyTorch engine sort returns a pair, not the sorted values. *)
Theorem C92_sort_refuted srt places t : is_tensor t ->
  sort true srt places t = Ok (ValuesAndPlaces (srt t) (places t)).
Proof. by rewrite /sort => ->. Qed.
Print Assumptions C92_sort_refuted.

(** Objects of the other engine: copy fails with arrays in the PyTorch engine and with
    tensors in the other; block_diag and diag with arrays in the PyTorch engine. *)
Theorem C92_mixed_refuted a t : o_kind a = KArr -> o_kind t = KTen false ->
  [/\ copy true a = Err AttributeError, copy false t = Err AttributeError,
      diag true a = Err TypeError & Wrappers.block_diag true [:: t; a] = Err TypeError].
Proof.
case: a => ak ash ae; case: t => tk tsh te /= -> ->.
by split; rewrite // /Wrappers.block_diag.
Qed.
Print Assumptions C92_mixed_refuted.

(** array drops the imaginary parts in the PyTorch engine (by default) and keeps
    them in the other. *)
Theorem C92_array_refuted : exists a u v, [/\ array true true a = Ok u, array false true a = Ok v,
  o_ent u 0%N 0%N = 1 & o_ent v 0%N 0%N = 1 +i* 1].
Proof.
exists (Obj KArr [:: 1%N] (fun _ _ => 1 +i* 1)); do 2!eexists; split; [by reflexivity | by reflexivity | by [] | by []].
Qed.
Print Assumptions C92_array_refuted.

(** A vector and a matrix. *)
Example C92_case :
  let v := Obj KArr [:: 2%N] (fun i _ => (i.+1)%:R) in
  let A := Obj KArr [:: 2; 1]%N (fun i _ => (i + 5)%N%:R) in
  exists M, [/\ Wrappers.block_diag false [:: v; A] = Ok M, o_shape M = [:: 3; 3]%N,
    o_ent M 0%N 1%N = 2%:R, o_ent M 2%N 2%N = 6%:R & o_ent M 0%N 2%N = 0].
Proof. by eexists; split; [by reflexivity | by [] | by [] | by [] | by []]. Qed.

(** P_Matrix.v -- C75: matrix operations on tensors, qutip objects and arrays. *)
From Coq Require Import Reals ZArith.
From Verif.Model Require Import Base.
From mathcomp Require Import all_ssreflect all_algebra.
From mathcomp Require Import complex.
From mathcomp Require Import ring.
From Verif.Numerics Require Import RStruct.
From Verif.Model Require Import Op Partial Matrix.
From Verif.Spec Require Import OpSpec MatrixSpec.
From Verif.Proofs Require Import OpProofs.

Set Implicit Arguments.
Unset Strict Implicit.
Unset Printing Implicit Defensive.
Import GRing.Theory.
Local Open Scope ring_scope.
Local Open Scope complex_scope.

Section Helpers.
Variables (tocoo : obj -> seq nat * seq nat * seq C) (ext : obj -> obj -> res obj).

Lemma prod2P e k a b n p m x y : holds a n p x -> holds b p m y -> exists2 c, prod2 e k a b = Ok c &
  holds c n m (fun i j => \sum_(l < p) x i l * y l j) /\ o_kind c = k.
Proof.
move=> [sa ea] [sb eb]; rewrite /prod2 sa sb eqxx; eexists; first by reflexivity.
by split=> //; split=> //= i j hi hj; apply: eq_bigr => l _; rewrite ea ?eb.
Qed.

Lemma coo_holds q n m : o_shape q = [:: n; m] -> coordinates tocoo q ->
  holds (let: (r, c, v) := tocoo q in sparse_coo r c v (o_shape q)) n m (o_ent q).
Proof.
rewrite /coordinates; case: (tocoo q) => [[r c] v] sq [sr sc H]; split=> //= i j hi hj; rewrite -(H _ _ sq) //.
rewrite (big_nth ((0%N, 0%N), 0)) size_zip size_zip sr sc !minnn big_mkcond big_mkord; apply: eq_bigr => k _.
by rewrite nth_zip ?size_zip ?sr ?sc ?minnn // nth_zip ?sr ?sc.
Qed.

(** qobj_to_tensor keeps shape and entries of the CSR, Dia and Dense layers and
    refuses every other with ValueError. *)
Theorem C75_convert q n m : is_qobj q -> o_shape q = [:: n; m] ->
  (usable tocoo q -> exists2 t, qobj_to_tensor tocoo q = Ok t & holds t n m (o_ent q) /\ is_tensor t) /\
  (o_kind q = KQobj Other -> qobj_to_tensor tocoo q = Err ValueError).
Proof.
move=> kq sq; split; last by rewrite /qobj_to_tensor => ->.
move: kq; rewrite /is_qobj /usable /qobj_to_tensor; case: o_kind => // -[] // _ H.
- have := coo_holds sq H; case: (tocoo q) => [[r c] v] hc; by eexists.
- have := coo_holds sq H; case: (tocoo q) => [[r c] v] hc; by eexists.
- by eexists; first reflexivity; split.
Qed.

(** dense, to_numpy and mat_to_op keep shape and entries. *)
Theorem C75_casts a n m x : holds a n m x -> [/\ holds (dense a) n m x, holds (to_numpy a) n m x & holds (mat_to_op a) n m x].
Proof.
by move=> [sa ea]; split; rewrite /dense /to_numpy /mat_to_op; case: o_kind => // -[]; split.
Qed.

(** The adjoint: of a matrix, except for numpy arrays; of a vector its conjugate. *)
Theorem C75_dag a n m x : holds a n m x ->
  [/\ (is_tensor a || is_qobj a -> exists2 d, dag a = Ok d & holds d m n (fun i j => (x j i)^*) /\ o_kind d = o_kind a),
      (o_kind a = KArr -> dag a = Err ValueError) &
      (o_kind a = KOther -> dag a = Err ValueError)].
Proof.
move=> [sa ea]; rewrite /dag sa /is_tensor /is_qobj /transpose sa; split=> [|->|->] //.
by case Ek: (o_kind a) => // _; eexists; try reflexivity; split=> //; split=> //= i j hi hj; rewrite ea.
Qed.
Theorem C75_dag_vector a n x : vector a n x -> is_tensor a || (if o_kind a is KArr then true else false) ->
  exists2 d, dag a = Ok d & vector d n (fun i => (x i)^*).
Proof.
move=> [sa ea]; rewrite /dag sa /is_tensor; case: o_kind => //= *; eexists; first reflexivity; split=> //= i hi; by rewrite ea.
Qed.

(** So the adjoint of no numpy matrix is returned. *)
Theorem C75_dag_refuted n m x : exists2 a, holds a n m x & forall d, dag a <> Ok d.
Proof. by exists (Obj KArr [:: n; m] x). Qed.

(** In the PyTorch engine the product of two matrices, unless the first is a
    tensor and the second a qutip object, or a tensor is multiplied by a dense
    qutip object (where torch.sparse.mm is called without a sparse argument). *)
Theorem C75_product a b n p m x y : usable tocoo a -> usable tocoo b -> holds a n p x -> holds b p m y ->
  ~~ (is_tensor a && is_qobj b) -> ~~ ((if o_kind a is KQobj Dense then true else false) && is_tensor b && ~~ is_sparse b) ->
  exists2 c, mat_mul true tocoo ext a b = Ok c & holds c n m (fun i j => \sum_(l < p) x i l * y l j) /\ is_tensor c.
Proof.
move=> ua ub ha hb h1 h2; rewrite /mat_mul.
have P e k a' b' : holds a' n p x -> holds b' p m y -> (if k is KTen _ then true else false) ->
  exists2 c, prod2 e k a' b' = Ok c & holds c n m (fun i j => \sum_(l < p) x i l * y l j) /\ is_tensor c.
  by move=> ha' hb'; have [c -> [hc ek]] := prod2P e k ha' hb'; exists c => //; split=> //; rewrite /is_tensor ek.
case Ta: (is_tensor a) h1; case Tb: (is_tensor b) => /=.
- move=> _; rewrite /sparse_mm; case Sa: (is_sparse a); case Sb: (is_sparse b) => /=; exact: P.
- by case Qb: (is_qobj b) => // _; move: ub Tb Qb; rewrite /usable /is_tensor /is_qobj; case: o_kind.
- move=> _; have Qa : is_qobj a by move: ua Ta; rewrite /usable /is_tensor /is_qobj; case: o_kind.
  rewrite Qa /=; have [t Et [ht tt]] := (C75_convert Qa ha.1).1 ua; rewrite Et.
  have hx : holds t n p x by case: ht => s1 e1; split=> // i j hi hj; rewrite e1 // ha.2.
  have sp : is_sparse t || is_sparse b.
    move: h2 Et; rewrite /qobj_to_tensor; move: Qa; rewrite /is_qobj; case: o_kind => // -[] //= _.
    + by move=> _; case: (tocoo a) => [[r c] v] [<-].
    + by move=> _; case: (tocoo a) => [[r c] v] [<-].
    + by rewrite Tb /= negbK => ->; rewrite orbT.
  by rewrite /sparse_mm sp; exact: P.
- move=> _; rewrite andbF /=; have [da _ _] := C75_casts ha; have [db _ _] := C75_casts hb.
  by rewrite da.1 db.1 /=; exact: P.
Qed.

(** A tensor times a qutip object: the transpose of the product in the other
    order, if the shapes fit that way; otherwise it raises. *)
Theorem C75_reversed a b n p m x y : is_tensor a -> is_qobj b -> usable tocoo b -> o_kind b <> KQobj Dense ->
  holds a n p x -> holds b p m y ->
  if m == n then exists2 c, mat_mul true tocoo ext a b = Ok c & holds c p p (fun i j => \sum_(l < n) y j l * x l i)
  else mat_mul true tocoo ext a b = Err RuntimeError.
Proof.
move=> Ta Qb ub nd ha hb; rewrite /mat_mul Ta Qb /=.
have Tb : is_tensor b = false by move: Qb; rewrite /is_qobj /is_tensor; case: o_kind.
rewrite Tb /=; have [t Et [ht tt]] := (C75_convert Qb hb.1).1 ub; rewrite Et.
have hy : holds t p m y by case: ht => s1 e1; split=> // i j hi hj; rewrite e1 // hb.2.
have sp : is_sparse t.
  move: nd Et; rewrite /qobj_to_tensor; move: Qb; rewrite /is_qobj; case: o_kind => // -[] //= _ _.
  + by case: (tocoo b) => [[r c] v] [<-].
  + by case: (tocoo b) => [[r c] v] [<-].
rewrite /sparse_mm sp /=; case: (m =P n) => [Emn|ne].
  rewrite Emn in hy; have [c -> [[sc ec] _]] := prod2P RuntimeError (KTen (is_sparse a)) hy ha.
  by rewrite /transpose sc; eexists; first reflexivity; split=> //= i j hi hj; rewrite ec.
by rewrite /prod2 hy.1 ha.1; case: eqP.
Qed.
End Helpers.
Print Assumptions C75_convert.
Print Assumptions C75_casts.
Print Assumptions C75_dag.
Print Assumptions C75_dag_vector.
Print Assumptions C75_dag_refuted.
Print Assumptions C75_product.
Print Assumptions C75_reversed.

(** It is not the product: the unit matrices E_01 and E_00. *)
Definition unit_mx (k : kind) (r c : nat) : obj :=
  Obj k [:: 2; 2]%N (fun i j => if (i == r) && (j == c) then 1 else 0).
Definition e00_coo (q : obj) : seq nat * seq nat * seq C := ([:: 0%N], [:: 0%N], [:: 1]).
Theorem C75_refuted ext : let a := unit_mx (KTen false) 0 1 in let b := unit_mx (KQobj CSR) 0 0 in
  usable e00_coo b /\ exists2 c, mat_mul true e00_coo ext a b = Ok c &
    o_ent c 1%N 0%N = 1 /\ \sum_(l < 2) o_ent a 1%N l * o_ent b l 0%N = 0.
Proof.
have u : usable e00_coo (unit_mx (KQobj CSR) 0 0).
  split=> // n m [<- <-] i j hi hj; rewrite /= big_ord1 /=.
  by rewrite [(0 == i)%N]eq_sym [(0 == j)%N]eq_sym.
split=> //; have := @C75_reversed e00_coo ext (unit_mx (KTen false) 0 1) (unit_mx (KQobj CSR) 0 0) 2 2 2 _ _
  isT isT u (fun h => ltac:(discriminate h)) (conj erefl (fun i j _ _ => erefl)) (conj erefl (fun i j _ _ => erefl)).
case=> c Ec [sc ec]; exists c => //; split.
  by rewrite ec // !big_ord_recr big_ord0 /= !(mulr0, mulr1, addr0, add0r).
by rewrite !big_ord_recr big_ord0 /= !(mulr0, mulr1, addr0, add0r).
Qed.
Print Assumptions C75_refuted.

(** In the NumPy engine the product of two qutip objects. *)
Theorem C75_product_numpy tocoo ext a b n p m x y : is_qobj a -> is_qobj b -> holds a n p x -> holds b p m y ->
  exists2 c, mat_mul false tocoo ext a b = Ok c & holds c n m (fun i j => \sum_(l < p) x i l * y l j).
Proof.
move=> qa qb ha hb; rewrite /mat_mul qa qb /=; have [c -> [hc _]] := prod2P TypeError (KQobj CSR) ha hb.
by exists c.
Qed.
Print Assumptions C75_product_numpy.

(** Matrix elements <v|A|w>: dense tensors of length n in the PyTorch engine, kets
    in the NumPy engine. *)
Theorem C75_inner tocoo ext a A v w : usable tocoo a -> o_kind a <> KQobj Dense -> holds a (dim A) (dim A) (ent A) ->
  (forall va vw, o_kind va = KTen false -> o_kind vw = KTen false -> vector va (dim A) v -> vector vw (dim A) w ->
     inner_product true tocoo ext va a vw = Ok (inner v A w)) /\
  (forall va vw, is_qobj a -> is_qobj va -> is_qobj vw ->
     holds va (dim A) 1 (fun i _ => v i) -> holds vw (dim A) 1 (fun i _ => w i) ->
     inner_product false tocoo ext va a vw = Ok (inner v A w)).
Proof.
move=> ua nd ha; split=> [va vw kv kw [sv ev] [sw ew]|va vw qa qv qw hv hw].
- rewrite /inner_product /unsqueeze /is_tensor kv kw sv sw.
  set v1 := Obj _ _ (o_ent va); set w1 := Obj _ _ (o_ent vw).
  have hw1 : holds w1 (dim A) 1 (fun i _ => w i) by split=> // i [|//] hi _; exact: ew.
  have hv1 : holds v1 (dim A) 1 (fun i _ => v i) by split=> // i [|//] hi _; exact: ev.
  have uw : usable tocoo w1 by rewrite /usable.
  have [||c Ec [hc tc]] := C75_product ext ua uw ha hw1; first by rewrite andbF.
    by move: nd; case: o_kind => // -[] // /(_ erefl).
  rewrite Ec; have [H _ _] := C75_dag hv1; have [//|d -> [hd kd]] := H.
  have ud : usable tocoo d by rewrite /usable kd.
  have uc : usable tocoo c by move: tc; rewrite /is_tensor /usable; case: o_kind.
  have nq : is_qobj c = false by move: tc; rewrite /is_tensor /is_qobj; case: o_kind.
  have [||e Ee [he _]] := C75_product ext ud uc hd hc; [by rewrite nq andbF|by rewrite kd|].
  rewrite Ee /unwrap he.1 /= he.2 //; congr Ok.
- have Q2 a' b' n p m x y : is_qobj a' -> is_qobj b' -> holds a' n p x -> holds b' p m y ->
    exists2 c, mat_mul false tocoo ext a' b' = Ok c & holds c n m (fun i j => \sum_(l < p) x i l * y l j) /\ is_qobj c.
    move=> q1 q2 h1 h2; rewrite /mat_mul q1 q2 /=; have [c -> [hc kc]] := prod2P TypeError (KQobj CSR) h1 h2.
    by exists c => //; rewrite /is_qobj kc.
  rewrite /inner_product; have [c -> [hc qc]] := Q2 _ _ _ _ _ _ _ qa qw ha hw.
  have [H _ _] := C75_dag hv; have [|d -> [hd kd]] := H; first by rewrite qv orbT.
  have [|e -> [he _]] := Q2 _ _ _ _ _ _ _ _ qc hd hc; first by move: qv; rewrite /is_qobj kd.
  by rewrite /unwrap he.1 /= he.2.
Qed.
Print Assumptions C75_inner.

(** tensor_product_torch: the left fold of Kronecker products, as qutip's; no
    value for an empty list.  The entry at digits d, d' is the product of the
    factors' entries. *)
Theorem C75_tensor l : (tensor_torch l = if l is [::] then None else Some (otensor l)) /\
  (l <> [::] -> exists2 A, tensor_torch l = Some A &
     forall d d', let dims k := dim (nth (oeye 1) l k) in legal dims d (size l) -> legal dims d' (size l) ->
     ent A (posn dims d (size l)) (posn dims d' (size l)) = \prod_(k < size l) ent (nth (oeye 1) l k) (d k) (d' k)).
Proof.
have E : tensor_torch l = if l is [::] then None else Some (otensor l).
  case: l => // x l; rewrite /tensor_torch /=; elim: l x => //= y l IH x; exact: IH.
split=> // ne; exists (otensor l); first by rewrite E; case: l ne {E}.
move=> d d' dims Ld Ld'.
have -> : otensor l = T (fun k => nth (oeye 1) l k) (size l).
  by rewrite /T; congr otensor; apply: (@eq_from_nth _ (oeye 1)) => [|k hk]; rewrite ?size_map ?size_iota // (nth_map 0%N) ?size_iota // nth_iota.
exact: T_ent.
Qed.
Print Assumptions C75_tensor.

(** Charge -1, 0, 1 as a Dia object, a tensor state: <v|Q|v> for v = (1, 0, 2). *)
Example C75_case ext : let Q := odiag 3 (fun k => (k%:R - 1) : C) in
  let q := Obj (KQobj Dia) [:: 3; 3]%N (ent Q) in
  let coo := fun _ => ([:: 0; 2]%N, [:: 0; 2]%N, [:: - 1; 1]) in
  let v := Obj (KTen false) [:: 3]%N (fun i _ => nth 0 [:: 1; 0; 2%:R] i) in
  usable coo q /\ inner_product true coo ext v q v = Ok 3%:R.
Proof.
move=> Q q coo v.
have u : usable coo q.
  split=> // n m [<- <-] i j hi hj; rewrite /= !big_ord_recr big_ord0 /= add0r.
  case: i hi => [|[|[|//]]] _; case: j hj => [|[|[|//]]] _ /=; rewrite ?add0r ?addr0 ?mulr0n ?sub0r ?subrr //.
  by ring.
split=> //; have [H _] := @C75_inner coo ext q Q (fun i => o_ent v i 0%N) (fun i => o_ent v i 0%N) u
  (fun h => ltac:(discriminate h)) (conj erefl (fun i j _ _ => erefl)).
rewrite H //; congr Ok; rewrite /inner /= !big_ord_recr !big_ord0 /=.
rewrite -[1 -i* 0]/((1 : C)^*) -[(_ + _) -i* _]/((2%:R : C)^*) -[complex.Complex 0 _]/((0 : C)^*).
have -> : (2%:R : C)^* = 2%:R by rewrite -[2%:R]/(1 + 1) cjD cj1.
by rewrite cj0 cj1; ring.
Qed.

(** SweepProofs.v -- a diagonalisation overwrites what the previous one left, so
    that a sweep forgets the grid points it has passed. *)
From Coq Require Import Reals ZArith FunctionalExtensionality Lia.
From Verif.Model Require Import Base Units Noise Edge Elements LCWB HamConst.
From mathcomp Require Import all_ssreflect all_algebra.
From Verif.Numerics Require Import RStruct Bridge.
From Verif.Model Require Import Transform Op Ham Diag CircuitSM DecRate Sweep.
From Verif.Spec Require Import SweepSpec.

Set Implicit Arguments.
Unset Strict Implicit.
Unset Printing Implicit Defensive.
Import GRing.Theory.
Local Open Scope ring_scope.

(** ** Memories that differ in entries about to be overwritten *)
Definition in_ind (ks : seq (edge * nat * nat)) (el b : nat) : bool :=
  has (fun k => (el == k.1.2) && (b == k.2)) ks.
Definition in_jj (ks : seq (edge * nat * nat * nat)) (el b : nat) : bool :=
  has (fun k => (el == k.1.1.2) && (b == k.1.2)) ks.

Record agree ki kj (M M' : mems) : Prop := mkA {
  ag_Q : M_Q M' = M_Q M; ag_QQ : M_QQ M' = M_QQ M; ag_phi : M_phi M' = M_phi M; ag_N : M_N M' = M_N M;
  ag_exp : M_exp M' = M_exp M; ag_root : M_root M' = M_root M;
  ag_ind : forall el b, ~~ in_ind ki el b -> M_ind M' el b = M_ind M el b;
  ag_cos : forall el b, ~~ in_jj kj el b -> M_cos M' el b = M_cos M el b;
  ag_sin : forall el b, ~~ in_jj kj el b -> M_sin M' el b = M_sin M el b;
  ag_half : forall el b, ~~ in_jj kj el b -> M_half M' el b = M_half M el b }.

Lemma agree_refl ki kj M : agree ki kj M M. Proof. by []. Qed.
Lemma agree_sym ki kj M M' : agree ki kj M M' -> agree ki kj M' M.
Proof. by case=> *; split=> // el b h; symmetry; auto. Qed.
Lemma agree_trans ki kj A B D : agree ki kj A B -> agree ki kj B D -> agree ki kj A D.
Proof.
case=> a1 a2 a3 a4 a5 a6 a7 a8 a9 a10 [b1 b2 b3 b4 b5 b6 b7 b8 b9 b10].
by split; rewrite ?b1 ?b2 ?b3 ?b4 ?b5 ?b6 // => el b h; rewrite ?b7 ?b8 ?b9 ?b10 // ?a7 ?a8 ?a9 ?a10.
Qed.

Lemma agree_eq M M' : agree [::] [::] M M' -> M' = M.
Proof.
case: M M' => q qq p n e r c s h i [q' qq' p' n' e' r' c' s' h' i'].
case=> /= -> -> -> -> -> -> H1 H2 H3 H4; congr mkM; do 2! (apply: functional_extensionality => ?); auto.
Qed.

Lemma coupling_agree x y M M' e : hof y = hof x -> x_n y = x_n x -> M_phi M' = M_phi M ->
  coupling_mem y M' e = coupling_mem x M e.
Proof. by move=> eh en ep; rewrite /coupling_mem eh ep en. Qed.

Section Steps.
Variables (s : store) (loops : seq R) (x y : circ).
Hypotheses (eh : hof y = hof x) (en : x_n y = x_n x) (eB : x_B y = x_B x).

Lemma ind_stuck ks M z : foldl (ind_step s loops x) (M, Err z) ks = (M, Err z).
Proof. by elim: ks => [|k ks IH]. Qed.
Lemma jj_stuck ks M z : foldl (jj_step s loops x) (M, Err z) ks = (M, Err z).
Proof. by elim: ks => [|k ks IH]. Qed.

Lemma ind_frame ki kj ks : (forall el b, in_ind ks el b -> in_ind ki el b) -> forall M r,
  agree ki kj M (foldl (ind_step s loops x) (M, r) ks).1.
Proof.
elim: ks => [|[[e el] b] ks IH] sub M r //.
cbn [foldl ind_step]; case: r => [H|z]; last by rewrite ind_stuck.
case: coupling_mem => [A|z]; last by rewrite ind_stuck.
apply: (agree_trans _ (IH _ _ _)); last by move=> el' b' h; apply: sub; rewrite /= h orbT.
split=> //= el' b' h; rewrite /dict_put; case: ifP => // h'; case/negP: h; apply: sub.
by rewrite /= h'.
Qed.

Lemma jj_frame ki kj ks : (forall el b, in_jj ks el b -> in_jj kj el b) -> forall M r,
  agree ki kj M (foldl (jj_step s loops x) (M, r) ks).1.
Proof.
elim: ks => [|[[[e el] b] w] ks IH] sub M r //.
cbn [foldl jj_step]; case: r => [H|z]; last by rewrite jj_stuck.
case: ifP => _; first by rewrite jj_stuck.
apply: (agree_trans _ (IH _ _ _)); last by move=> el' b' h; apply: sub; rewrite /= h orbT.
split=> //= el' b' h; rewrite /dict_put; case: ifP => // h'; case/negP: h; apply: sub; by rewrite /= h'.
Qed.

Lemma ind_same kj ks : forall M M' r, agree ks kj M M' ->
  let a := foldl (ind_step s loops x) (M, r) ks in let a' := foldl (ind_step s loops y) (M', r) ks in
  a'.2 = a.2 /\ (forall H, a.2 = Ok H -> agree [::] kj a.1 a'.1).
Proof.
elim: ks => [|[[e el] b] ks IH] M M' r ag; first by split.
cbn [foldl ind_step]; case: r => [H|z].
  rewrite (coupling_agree _ eh en (ag_phi ag)) eB; case: coupling_mem => [A|z].
    apply: IH; case: ag => h1 h2 h3 h4 h5 h6 h7 h8 h9 h10; split=> //= el' b' h.
    rewrite /dict_put; case: ifP => // h'; apply: h7; by rewrite /= h'.
  by split; elim: ks {IH ag} => [|k ks IH] //=.
by split; elim: ks {IH ag} => [|k ks IH] //=.
Qed.

Lemma jj_same ki ks : forall M M' r, agree ki ks M M' ->
  let a := foldl (jj_step s loops x) (M, r) ks in let a' := foldl (jj_step s loops y) (M', r) ks in
  a'.2 = a.2 /\ (forall H, a.2 = Ok H -> agree ki [::] a.1 a'.1).
Proof.
elim: ks => [|[[[e el] b] w] ks IH] M M' r ag; first by split.
cbn [foldl jj_step]; case: r => [H|z].
  rewrite (ag_exp ag) (ag_root ag) eB; case: ifP => _.
    by split; elim: ks {IH ag} => [|k ks IH] //=.
  apply: IH; case: ag => h1 h2 h3 h4 h5 h6 h7 h8 h9 h10; split=> //= el' b' h;
    rewrite /dict_put; case: ifP => // h'; [apply: h8|apply: h9|apply: h10]; by rewrite /= h'.
by split; elim: ks {IH ag} => [|k ks IH] //=.
Qed.
End Steps.

(** ** Circuits that differ in what the next diagonalisation overwrites *)
Record like (x y : circ) : Prop := mkLike {
  lk_eq : exists M e, y = put_eig (put_mem x M (x_LC x)) e;
  lk_mem : agree (c_keys_ind (x_c x)) (c_keys_jj (x_c x)) (x_mem x) (x_mem y) }.

Lemma like_refl x : like x x.
Proof. by split=> //; exists (x_mem x), (x_eig x); case: x. Qed.

Lemma like_trans x y z : like x y -> like y z -> like x z.
Proof.
case=> [[M [e ->]] a1] [[M' [e' ->]] a2]; split; first by exists M', e'.
by apply: agree_trans a1 a2.
Qed.

Lemma like_sym x y : like x y -> like y x.
Proof.
case=> [[M [e ->]] a1]; split; last exact: agree_sym a1.
by exists (x_mem x), (x_eig x); case: x a1.
Qed.

Lemma hamil_frame s x : exists M, (hamil s x).1 = put_mem x M (x_LC x) /\
  agree (c_keys_ind (x_c x)) (c_keys_jj (x_c x)) (x_mem x) M.
Proof.
rewrite /hamil; case: ifP => _; first by exists (x_mem x); split=> //; case: x.
set l := [seq _ | _ <- _]; case E: (foldl (jj_step s l x) _ _) => [M r]; exists M; split=> //.
have := @ind_frame s l x (c_keys_ind (x_c x)) (c_keys_jj (x_c x)) _ (fun el b h => h) (x_mem x) (Ok None).
move: E; case: (foldl (ind_step _ _ _) _ _) => M1 r1 E /agree_trans; apply.
by have := @jj_frame s l x (c_keys_ind (x_c x)) (c_keys_jj (x_c x)) _ (fun el b h => h) M1 r1; rewrite E.
Qed.

Lemma like_hamil s x : like x (hamil s x).1.
Proof.
by have [M [-> h]] := hamil_frame s x; split=> //; exists M, (x_eig x); case: x h.
Qed.

Lemma hamil_same s x y : like x y -> (hamil s y).2 = (hamil s x).2 /\
  (forall H, (hamil s x).2 = Ok H -> put_eig (hamil s y).1 (x_eig x) = (hamil s x).1).
Proof.
case=> [[M [e {y}->]]]; set y := put_eig _ _ => ag.
rewrite /hamil -[x_m y]/(x_m x); case: ifP => // _.
rewrite -[x_c y]/(x_c x) -[x_LC y]/(x_LC x) -[x_mem y]/M; set l := [seq _ | _ <- _].
have [] := @ind_same s l x y erefl erefl erefl (c_keys_jj (x_c x)) _ _ _ (Ok None) ag.
case: (foldl (ind_step s l x) _ _) => M1 r1; case: (foldl (ind_step s l y) _ _) => M1' r1' /= ->.
case: r1 => [H1|z] ag1; last first.
  by rewrite !jj_stuck /=; split.
have [] := @jj_same s l x y erefl [::] _ _ _ (Ok H1) (ag1 _ erefl).
case: (foldl (jj_step s l x) _ _) => M2 r2; case: (foldl (jj_step s l y) _ _) => M2' r2' /= -> ag2.
split=> // H; case: r2 ag2 => [H2|z] // ag2; case: acc_acc => // A _.
by rewrite (agree_eq (ag2 _ erefl)); case: x @y ag ag1 ag2 {l}.
Qed.

Lemma like_diag eigs argsort u k s x : like x (diag_sm eigs argsort u k s x).1.
Proof.
rewrite /diag_sm; case: ifP => _; first exact: like_refl.
case: k => [k|]; last exact: like_refl.
have := like_hamil s x; case: (hamil s x) => x1 H [[M [e e1]] ag].
case: (diag eigs argsort u true H (Some k) (x_eig x)) => e' r; split=> //; exists M, e'.
by rewrite -[x1]/(x1, H).1 e1.
Qed.

Lemma diag_same eigs argsort u k s x y : like x y ->
  (diag_sm eigs argsort u k s y).2 = (diag_sm eigs argsort u k s x).2 /\
  (forall r, (diag_sm eigs argsort u k s x).2 = Ok r -> (diag_sm eigs argsort u k s y).1 = (diag_sm eigs argsort u k s x).1).
Proof.
move=> lk; have [e2 e1] := hamil_same s lk.
rewrite /diag_sm; have -> : x_m y = x_m x by case: lk => [[M [e ->]]].
case: ifP => // _; case: k => [k|] //.
move: e1 e2; case Ex: (hamil s x) => [x1 H]; case Ey: (hamil s y) => [y1 H'] e1 e2.
rewrite -[H']/(y1, H').2 e2 /diag; case: H e1 {e2 Ex Ey} => [H|z] e1 //.
cbn [negb snd]; case: (diag_np eigs argsort H k) => [r|z] //=; split=> // _ _.
have := e1 _ erefl; rewrite /put_eig; case: (x1) => a1 a2 a3 a4 a5 a6 a7 a8 a9 a10 a11 [-> -> -> -> -> -> -> -> -> -> _] //.
Qed.

(** ** Charge offsets *)
Lemma like_mem_err x y : like x y -> mem_err y = mem_err x.
Proof. by case=> [[M [e ->]]]. Qed.

Lemma like_island x y i f : like x y -> like (island_set x i f) (island_set y i f).
Proof. by case=> [[M [e ->]]] ag; split; [exists M, e|]. Qed.

Lemma like_build x y : like x y -> like (build_ops x) (build_ops y).
Proof.
case=> [[M [e ->]]] ag; split.
  by exists (x_mem (build_ops (put_eig (put_mem x M (x_LC x)) e))), e.
by case: ag => h1 h2 h3 h4 h5 h6 h7 h8 h9 h10; split.
Qed.

Lemma offset_like m v x y : like x y ->
  (set_offset m v y).2 = (set_offset m v x).2 /\ like (set_offset m v x).1 (set_offset m v y).1.
Proof.
move=> lk; rewrite /set_offset.
have -> : island_of m y = island_of m x by case: lk => [[M [e ->]]].
case: island_of => [i|] //.
have -> : x_m y = x_m x by case: lk => [[M [e ->]]].
have lk1 := like_island i (fun p => (v, p.2)) lk.
case: ifP => _ //; rewrite (like_mem_err lk1); case: mem_err => [e|] //=.
by split=> //; apply: like_build.
Qed.

Lemma island_has x i f j : isSome (isl x i) -> isSome (isl (island_set x i f) j) = isSome (isl x j).
Proof.
move=> hi; rewrite /isl /island_set /= nth_set_nth /=; case: eqP => [->|] //.
by move: hi; rewrite /isl; case: nth.
Qed.

Lemma mem_err_island x i f : isSome (isl x i) -> mem_err (island_set x i f) = mem_err x.
Proof.
move=> hi; rewrite /mem_err -[x_n (island_set _ _ _)]/(x_n x) -[x_m (island_set _ _ _)]/(x_m x).
case: ifP => // _; rewrite island_has //; case: ifP => // _.
by rewrite (eq_has (a2 := fun j => is_charge (x_st x) j && ~~ isSome (isl x j))) // => j; rewrite island_has.
Qed.

Lemma island_of_has m x i : island_of m x = Some i -> isSome (isl x i).
Proof. by rewrite /island_of; case: m => // z; case: andP => // [[_ h]] [<-]. Qed.

Lemma island_of_set m x i f j : isSome (isl x i) -> island_of m (island_set x i f) = Some j ->
  island_of m x = Some j.
Proof. by move=> hi; rewrite /island_of; case: m => // z; rewrite island_has. Qed.

Lemma island_of_same m x i f : isSome (isl x i) -> island_of m (island_set x i f) = island_of m x.
Proof. by move=> hi; rewrite /island_of; case: m => // z; rewrite island_has. Qed.

Lemma island_twice x i v v' :
  island_set (island_set x i (fun p => (v', p.2))) i (fun p => (v, p.2)) = island_set x i (fun p => (v, p.2)).
Proof.
rewrite /island_set /put_isl /=; congr mkX.
rewrite set_set_nth eqxx; congr set_nth.
by rewrite /isl /= nth_set_nth /= eqxx; case: nth.
Qed.

Lemma build_twice x i v v' :
  island_set (build_ops (island_set x i (fun p => (v', p.2)))) i (fun p => (v, p.2))
  = put_mem (island_set x i (fun p => (v, p.2))) (x_mem (build_ops (island_set x i (fun p => (v', p.2)))))
      (x_LC (build_ops (island_set x i (fun p => (v', p.2))))).
Proof.
have := island_twice x i v v'; rewrite /island_set /put_isl /put_mem /build_ops /=.
by case=> e; rewrite /isl /= in e *; rewrite e.
Qed.

Lemma offset_twice m v v' x : (set_offset m v' x).2 = Ok tt ->
  set_offset m v (set_offset m v' x).1 = set_offset m v x.
Proof.
rewrite /set_offset; case Ei: island_of => [i|] //; have hi := island_of_has Ei.
set f' := fun p => (v', p.2); set f := fun p => (v, p.2).
case m0: (size (x_m x) == 0%N); cbn [fst snd].
  by move=> _; rewrite (island_of_same _ _ hi) Ei m0 island_twice.
rewrite (mem_err_island _ hi); case Em: mem_err => [e|] // _; cbn [fst snd].
have -> : island_of m (build_ops (island_set x i f')) = island_of m (island_set x i f') by [].
rewrite (island_of_same _ _ hi) Ei m0 build_twice.
have -> : mem_err (put_mem (island_set x i (fun p => (v, p.2))) (x_mem (build_ops (island_set x i f'))) (x_LC (build_ops (island_set x i f')))) = mem_err (island_set x i f) by [].
by rewrite !(mem_err_island _ hi) Em.
Qed.

(** ** One grid point *)
Record wlike (w v : world) : Prop := mkWl {
  wl_s : w_s v = w_s w; wl_u : w_u v = w_u w; wl_x : like (w_x w) (w_x v) }.
Lemma wlike_refl w : wlike w w. Proof. by split=> //; apply: like_refl. Qed.
Lemma wlike_trans a b c : wlike a b -> wlike b c -> wlike a c.
Proof. by case=> h1 h2 h3 [i1 i2 i3]; split; rewrite ?i1 ?i2 //; apply: like_trans h3 i3. Qed.

(** Where the world may be when the setter [p] is called again. *)
Definition reach (p : setter) (w v : world) : Prop :=
  wlike w v \/ exists t, (p t w).2 = Ok tt /\ wlike (p t w).1 v.
Definition forgets (p : setter) : Prop := forall t w v, reach p w v ->
  (p t v).2 = (p t w).2 /\ wlike (p t w).1 (p t v).1.

Lemma put_twice s c v v' : comp_put (comp_put s c v') c v = comp_put s c v.
Proof.
case: s => a1 a2 a3 a4 a5 a6 a7 a8 a9; case: c => i /=; congr mkStore;
  by apply: functional_extensionality => j; case: (j == i).
Qed.

Lemma flux_forgets l : forgets (flux_setter l).
Proof.
move=> t w v [[h1 h2 h3]|[t' [_ [h1 h2 h3]]]]; split=> //; split=> //=; rewrite ?h1 //.
by rewrite /= /set_flux_of put_twice.
Qed.

Lemma charge_forgets m : forgets (charge_setter m).
Proof.
move=> t w v R; rewrite /charge_setter.
have [e2 e1] : (set_offset m t (w_x v)).2 = (set_offset m t (w_x w)).2 /\
    like (set_offset m t (w_x w)).1 (set_offset m t (w_x v)).1.
  case: R => [[_ _ h3]|[t' []]]; first exact: offset_like.
  rewrite /charge_setter; case E: (set_offset m t' (w_x w)) => [x r] /= er [_ _ /= h3]; subst r.
  have := @offset_twice m t t' (w_x w); rewrite E /= => /(_ erefl) <-.
  exact: offset_like.
have [e3 e4] : w_s v = w_s w /\ w_u v = w_u w.
  by case: R => [[-> -> _]|[t' []]] //; rewrite /charge_setter; case: set_offset => x r /= _ [/= -> -> _].
move: e1 e2; case: (set_offset m t (w_x v)) => x' r'; case: (set_offset m t (w_x w)) => x r /= lk ->.
by split=> //; split.
Qed.

Section Points.
Variables (eigs : nat -> eigs_fun) (argsort : nat -> seq C -> seq nat).
Variables (E : env) (q : quality) (loss : bool) (k : Z).
Variables (p : setter) (ps : seq setter) (g : seq R) (w0 : world).
Hypothesis fp : forgets p.

Notation visited i wi fr := (diag_at (eigs i) (argsort i) k p (nth 0 g i) w0 wi fr).
Notation rates := (rates E q).

Lemma dec_fold w idx ts : forall D,
  let r := foldl (fun a t => match a with
                    | (D, Ok _) => match dec_rate E (w_s w) q (w_x w) (Some t) 1 0 true with
                                   | Ok v => (dec_put D t idx v, Ok tt)
                                   | Err e => (D, Err e)
                                   end
                    | _ => a
                    end) (D, Ok tt) ts in
  (r.2 = Ok tt -> forall t, (forall ix, ix != idx -> r.1 t ix = D t ix) /\
     (if has (fun t' => dec_no t == dec_no t') ts
      then dec_rate E (w_s w) q (w_x w) (Some t) 1 0 true = Ok (r.1 t idx) else r.1 t idx = D t idx)) /\
  ((forall t, has (fun t' => dec_no t == dec_no t') ts ->
      exists v, dec_rate E (w_s w) q (w_x w) (Some t) 1 0 true = Ok v) -> r.2 = Ok tt).
Proof.
elim: ts => [|t ts IH] D; first by split.
cbn [foldl]; case Er: dec_rate => [v|e].
  have [I1 I2] := IH (dec_put D t idx v); split.
    move=> /I1 I t'; have [i1 i2] := I t'; split.
      by move=> ix h; rewrite i1 // /dec_put (negbTE h) andbF.
    move: i2; cbn [has]; case: ifP => h /=; first by rewrite orbT.
    rewrite orbF /dec_put eqxx andbT => ->; case e: (dec_no t' == dec_no t) => //.
    have -> : t' = t by move: e; clear; case: t'; case: t.
    exact: Er.
  by move=> H; apply: I2 => t' h; apply: H; rewrite /= h orbT.
have -> : forall l D0, foldl (fun a t => match a with
                    | (D, Ok _) => match dec_rate E (w_s w) q (w_x w) (Some t) 1 0 true with
                                   | Ok v => (dec_put D t idx v, Ok tt)
                                   | Err e => (D, Err e)
                                   end
                    | _ => a
                    end) (D0, Err e) l = (D0, Err e) by elim=> [|a l IHl].
by split=> // /(_ t); rewrite /= eqxx => /(_ isT) [v]; rewrite Er.
Qed.

Lemma dec_pointE w i D : let r := dec_point E q loss [:: i] w D in
  (r.2 = Ok tt -> (forall t j, j != i -> r.1 t [:: j] = D t [:: j]) /\ (loss -> rates w (fun t => r.1 t [:: i]))) /\
  ((loss -> exists D', rates w D') -> r.2 = Ok tt).
Proof.
rewrite /dec_point; have [H1 H2] := dec_fold w [:: i] (if loss then dec_keys else [::]) D.
split.
  move=> /H1 H; split; first by move=> t j ji; apply: (H t).1; apply: contra ji => /eqP [->].
  by move=> l t; have := (H t).2; rewrite l; case: (t).
move=> H; apply: H2 => t; case: (loss) H => // /(_ isT) [D' HD] _; by exists (D' t); apply: HD.
Qed.

Definition kn : nat := Z.to_nat k.

Lemma pointE i (a : swept) : reach p w0 (sw_w a) -> nd_shape (sw_f a) = [:: kn; size g] -> (i < size g)%N ->
  let r := point eigs argsort E q loss k (p :: ps) [:: g] i [:: i] a in
  (r.2 = Ok tt -> exists wi fr, [/\ visited i wi fr, size fr = kn, sw_w r.1 = wi /\ reach p w0 wi,
     nd_shape (sw_f r.1) = [:: kn; size g] /\
     forall c j, (c < kn)%N -> nd_at (sw_f r.1) [:: c; j] = if j == i then nth 0 fr c else nd_at (sw_f a) [:: c; j]
     & (forall t j, j != i -> sw_d r.1 t [:: j] = sw_d a t [:: j]) /\ (loss -> rates wi (fun t => sw_d r.1 t [:: i]))]) /\
  ((exists wi fr, [/\ visited i wi fr, size fr = kn & loss -> exists D, rates wi D]) -> r.2 = Ok tt).
Proof.
move=> Ra sh ig; have [e2 wl] := fp (nth 0 g i) Ra.
rewrite /point; cbn [set_point].
move: e2 wl; case Ew: (p (nth 0 g i) w0) => [w1 r1]; case Ea: (p (nth 0 g i) (sw_w a)) => [v1 r] /= -> [/= hs hu hx].
case: r1 Ew => [[]|e] Ew /=; last first.
  by split=> // [[wi [fr [[w1' [x [ve []]]]]]]]; rewrite Ew.
have [d2 d1] := diag_same (eigs i) (argsort i) (w_u w1) (Some k) (w_s w1) hx.
have lk := like_diag (eigs i) (argsort i) (w_u w1) (Some k) (w_s w1) (w_x w1).
have -> : set_point ps [::] [::] v1 = (v1, Ok tt) by case: (ps).
cbn [snd fst]; rewrite hs hu; move: d2 d1 lk.
case Ed: (diag_sm _ _ _ _ _ (w_x w1)) => [x rx]; case: (diag_sm _ _ _ _ _ (w_x v1)) => [y ry] /= -> d1 lk.
case: rx Ed d1 => [[fr ve]|e] Ed d1 /=; last first.
  by split=> // [[wi [fr [[w1' [x' [ve []]]]]]]]; rewrite Ew => [[<-]]; rewrite Ed.
rewrite (d1 _ erefl) /sel_shape sh /= ig /= /reshape /nd_size !big_cons big_nil !muln1.
have vis fr' wi : visited i wi fr' -> fr' = fr /\ wi = mkW (w_s w1) (w_u w1) x.
  by case=> w1' [x' [ve' []]]; rewrite Ew => [[<-]]; rewrite Ed => [[<- <- _]] ->.
case: eqP => [sz|sz]; last first.
  by split=> // [[wi [fr' [/vis [-> _]]]]].
have := @dec_pointE (mkW (w_s w1) (w_u w1) x) i (sw_d a).
case: dec_point => D rD /= [D1 D2]; split; last first.
  by move=> [wi [fr' [/vis [_ ->] _ H]]]; apply: D2.
move=> /D1 [D3 D4]; exists (mkW (w_s w1) (w_u w1) x), fr; split=> //.
- by exists w1, x, ve.
- split=> //; right; exists (nth 0 g i); rewrite Ew; split=> //; by split.
- split=> // c j hc; rewrite mem_seq1; case: eqP => // ->; rewrite /= eqxx /=.
  by rewrite /nd_size !big_cons !big_nil !muln1 ?muln0 ?mul0n !addn0.
Qed.

Lemma pointsE n : forall i (a : swept), reach p w0 (sw_w a) -> nd_shape (sw_f a) = [:: kn; size g] ->
  (i + n <= size g)%N ->
  let r := points eigs argsort E q loss k (p :: ps) [:: g] i [seq [:: j] | j <- iota i n] a in
  (r.2 = Ok tt -> 
     (forall t j, ~~ (i <= j < i + n)%N -> sw_d r.1 t [:: j] = sw_d a t [:: j]) /\
     (forall c j, (c < kn)%N -> ~~ (i <= j < i + n)%N -> nd_at (sw_f r.1) [:: c; j] = nd_at (sw_f a) [:: c; j]) /\
     (n = 0%N -> r.1 = a) /\ nd_shape (sw_f r.1) = [:: kn; size g] /\
     forall j, (i <= j < i + n)%N -> exists wi fr, [/\ visited j wi fr, size fr = kn,
       forall c, (c < kn)%N -> nd_at (sw_f r.1) [:: c; j] = nth 0 fr c,
       loss -> rates wi (fun t => sw_d r.1 t [:: j]) & j.+1 = (i + n)%N -> sw_w r.1 = wi]) /\
  ((forall j, (i <= j < i + n)%N -> exists wi fr, [/\ visited j wi fr, size fr = kn & loss -> exists D, rates wi D]) -> r.2 = Ok tt).
Proof.
elim: n => [|n IH] i a Ra sh hn.
  by rewrite addn0 /=; split=> // _; do 4! split=> //; move=> j; case: ltngtP.
cbn [iota map points]; have hi : (i < size g)%N by apply: leq_trans hn; rewrite addnS ltnS leq_addr.
have := pointE Ra sh hi; case: point => a1 r1 /= [P1 P2].
case: r1 P1 P2 => [[]|e] P1 P2 /=; last first.
  split=> // H; apply: P2; apply: H; by rewrite leqnn addnS ltnS leq_addr.
have [wi [fr [V1 sz [ew Rw] [sh1 F1] [D1 D2]]]] := P1 erefl.
have hn1 : (i.+1 + n <= size g)%N by rewrite addSnnS.
have [] := IH i.+1 a1 _ sh1 hn1; first by rewrite ew.
case: points => a2 r2 /= I1 I2; split; last first.
  by move=> H; apply: I2 => j /andP [h1 h2]; apply: H; rewrite (ltnW h1) addnS -addSn.
move=> /I1 [J1 [J2 [J3 [J4 J5]]]].
split; [|split; [|split=> //; split=> //]].
- move=> t j h; rewrite J1; last by apply: contra h => /andP [h1 h2]; rewrite (ltnW h1) addnS -addSn.
  by apply: D1; apply: contra h => /eqP ->; rewrite leqnn addnS ltnS leq_addr.
- move=> c j hc h; rewrite J2 //; last by apply: contra h => /andP [h1 h2]; rewrite (ltnW h1) addnS -addSn.
  rewrite F1 //; case: eqP => // e; case/negP: h; by rewrite e leqnn addnS ltnS leq_addr.
move=> j /andP [h1 h2]; case: (ltngtP i j) h1 => // [hij _|ij _].
  by rewrite addnS -addSn; apply: J5; rewrite hij addSn -addnS.
subst j; exists wi, fr; split=> //.
- by move=> c hc; rewrite J2 ?F1 ?eqxx // ltnn.
- by move=> l t; rewrite J1 ?ltnn //; apply: D2.
- by move=> /eqP; rewrite addnS eqSS -[X in X == _]addn0 eqn_add2l => /eqP n0; rewrite J3.
Qed.
End Points.

Lemma product1 d : product [:: d] = [seq [:: j] | j <- iota 0 d].
Proof. by rewrite /=; elim: (iota 0 d) => [|i l IH] //=; rewrite IH. Qed.

Lemma product_first ds : all (fun d => 0 < d)%N ds -> exists l, product ds = nseq (size ds) 0%N :: l.
Proof.
elim: ds => [|[|d] ds IH] //=; first by exists [::].
by move=> /IH [l ->] /=; eexists.
Qed.

Lemma diag_sized eigs argsort u k s x x' fr ve : sized eigs ->
  diag_sm eigs argsort u (Some k) s x = (x', Ok (fr, ve)) -> size fr = Z.to_nat k /\ (0 < Z.to_nat k)%N.
Proof.
move=> sz; rewrite /diag_sm; case: ifP => // _; case: hamil => x1 [H|z] //.
rewrite /diag; cbn [negb]; case Ed: (diag_np _ _ _ _) => [r|z] // [_ <- _].
have {}Ed : exists ncv lam V, eigs H k ncv = EigsOk lam V /\ r = sort_eigs argsort lam V.
  move: Ed; rewrite /diag_np; case E1: (eigs H k None) => [lam V||e] //; first by case=> <-; exists None, lam, V.
  by case E2: (eigs H k _) => [lam V||e] // [<-]; exists (Some (Z.mul 10 k)), lam, V.
case: Ed => ncv [lam [V [/sz [ek k0] ->]]].
by rewrite size_map /= size_sort size_map; split; [rewrite -ek Nat2Z.id | apply/ltP; lia].
Qed.

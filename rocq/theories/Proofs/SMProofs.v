(** SMProofs.v -- invariants of the circuit object. *)
From Coq Require Import Reals ZArith String FunctionalExtensionality.
From Verif.Model Require Import Base Units Settings Edge LCWB Rounding Accuracy HamConst Trunc.
From Verif.Proofs Require Import LCWBProofs BookProofs SMBook.
From mathcomp Require Import all_ssreflect all_algebra.
From mathcomp Require Import complex.
From Verif.Numerics Require Import RStruct Bridge.
From Verif.Model Require Import FluxDist Transform Op Ham Diag CircuitSM.
From Verif.Proofs Require Import TransProofs TransProofs3.

Set Implicit Arguments.
Unset Strict Implicit.
Unset Printing Implicit Defensive.
Import GRing.Theory.
Local Open Scope ring_scope.

Section Machine.
Variable disp : nat -> C -> op.
Variable optim : bool.
Local Notation lcwb_run := (lcwb_run optim).
Local Notation build_exp := (build_exp disp).
Local Notation update := (update disp optim).
Local Notation construct := (construct optim).

(** ** The edge loop *)
Lemma run_edges_step s fd n c ee d : run_edges optim s fd n c (ee :: d) =
  match process_edge optim s fd n c ee with
  | Ok c1 => run_edges optim s fd n c1 d | Err e => Err e end.
Proof. by rewrite /run_edges /=; case: process_edge => //= e; rewrite fold_edges_err. Qed.

Lemma lcwb_runE s fd n d : forall c,
  match lcwb_run s fd n c d with
  | (c', None) => run_edges optim s fd n c d = Ok c'
  | (_, Some e) => run_edges optim s fd n c d = Err e
  end.
Proof.
elim: d => [|[e els] d IH] c //; cbn [CircuitSM.lcwb_run]; rewrite run_edges_step.
case Ew: w_at_edge => [w|x]; last by rewrite /process_edge Ew.
case Em: matrix_rep => [m|x]; last by rewrite /process_edge Ew Em.
by case Ep: process_edge => [c1|x]; first by apply: IH.
Qed.

Lemma lcwb_ok s fd n c d c' : run_edges optim s fd n c d = Ok c' -> lcwb_run s fd n c d = (c', None).
Proof. by move=> E; have := lcwb_runE s fd n d c; rewrite E; case: lcwb_run => ? [|] // [->]. Qed.
Lemma lcwb_err s fd n c d e : run_edges optim s fd n c d = Err e ->
  exists c', lcwb_run s fd n c d = (c', Some e).
Proof.
move=> E; have := lcwb_runE s fd n d c; rewrite E; case: lcwb_run => c' [x|] // [<-].
by exists c'.
Qed.
Lemma lcwb_lcwb s fd n lobj d c' : (Z.le 0 n) ->
  lcwb_run s fd n (cst0 lobj) d = (c', None) <-> get_LCWB optim s fd n lobj d = Ok c'.
Proof.
move=> Hn; split=> [E|/get_LCWB_run [_ /lcwb_ok //]].
have := lcwb_runE s fd n d (cst0 lobj); rewrite E /get_LCWB /run_edges.
by case: Z.ltb_spec => // Hlt; case: (Z.lt_irrefl n (Z.lt_le_trans _ _ _ Hlt Hn)).
Qed.

(** ** What the transformations keep *)
Definition same_size (a b : tst) := [/\ t_n0 b = t_n0 a, t_n b = t_n a & t_m b = t_m a].
Lemma same_trans a b c : same_size a b -> same_size b c -> same_size a c.
Proof. by case=> a1 a2 a3 [b1 b2 b3]; split; rewrite ?b1 ?b2 ?b3. Qed.
Lemma same_scales k st : same_size st (scales3 k st).1.
Proof. by have [w [-> _]] := scales3P k st; split. Qed.
Lemma same_trans1 croot D0 U eigL st st' sr : trans1 croot D0 U eigL st = Ok (st', sr) -> same_size st st'.
Proof. by rewrite /trans1; case: inv => // cri; case: inv => // s1i [<- _]; split. Qed.
Lemma same_trans2 tries fuel sv order S1 draw a st st' sr :
  trans2 tries fuel sv order S1 draw a st = Some (Ok (st', sr)) -> same_size st st'.
Proof.
elim: tries a => [|t IH] a //=; case: attempt2 => [[[s2 r2]|e]|] //.
by case: gs_successful => [[<- _]|]; [split | apply: IH].
Qed.
Lemma same_trans3 st st' sr : trans3 st = Ok (st', sr) -> same_size st st'.
Proof.
rewrite /trans3; have := same_scales (t_n st) st; case: scales3 => st1 v H; case: inv => // r3 [<- _].
by move: H => [] /=; split.
Qed.
Lemma same_run o st st' r : transform_run o st = Some (st', r) -> same_size st st'.
Proof.
rewrite /transform_run; case E1: trans1 => [[st1 [s1 r1]]|e]; last by case=> <- _; split.
have H1 := same_trans1 E1.
have H2 : same_size st (set_omega st1) by apply: same_trans H1 _; split.
case E0: (_ == _).
  case E3: trans3 => [[st4 sr]|e] [<- _]; first by apply: same_trans H2 (same_trans3 E3).
  by apply: same_trans H2 (same_scales _ _).
case E2: trans2 => [[[st3 sr2]|e]|] //; last by case=> <- _.
have H3 := same_trans H2 (same_trans2 E2).
case E3: trans3 => [[st4 sr]|e] [<- _]; first by apply: same_trans H3 (same_trans3 E3).
by apply: same_trans H3 (same_scales _ _).
Qed.

(** Agreement with the transformation model. *)
Lemma transform_runE o st st' : transform_run o st = Some (st', None) <->
  transform_hamil (o_croot o) (o_D0 o) (o_U o) (o_eigL o) (o_tries o) (o_fuel o) (o_sv o) (o_order o)
    (o_draw o) st = Some (Ok st').
Proof.
rewrite /transform_run /transform_hamil; case: trans1 => [[st1 [s1 r1]]|e]; last by split.
case: (_ == _).
  by case: trans3 => [[st4 sr]|e]; split=> // -[<-].
case: trans2 => [[[st3 sr2]|e]|]; try by split.
by case: trans3 => [[st4 sr]|e]; split=> // -[<-].
Qed.

(** ** Operators up to date *)
Record fresh_ops (x : circ) : Prop := {
  fo_size : size (x_m x) = x_n x;
  fo_Q : M_Q (x_mem x) = [seq opQ (hof x) i | i <- iota 0 (x_n x)];
  fo_QQ : M_QQ (x_mem x) = [seq r_QQ (mem_row (hof x) i) | i <- iota 0 (x_n x)];
  fo_phi : M_phi (x_mem x) = [seq opPhi (hof x) i | i <- iota 0 (x_n x)];
  fo_N : M_N (x_mem x) = [seq opN (hof x) i | i <- iota 0 (x_n x)];
  fo_exp : M_exp (x_mem x) = [seq opExp disp (hof x) i | i <- iota 0 (t_m (x_st x))];
  fo_root : M_root (x_mem x) = [seq opRoot disp (hof x) i | i <- iota 0 (t_m (x_st x))];
  fo_LC : x_LC x = LC_hamil (hof x) }.

Record good (x : circ) : Prop := {
  g_wid : forall k, List.In k (c_keys_jj (x_c x)) -> (k.2 < t_m (x_st x))%N;
  g_isl : size (x_isl x) = x_n x;
  g_charge : forall i, (i < x_n x)%N -> is_charge (x_st x) i -> isl x i;
  g_ops : x_m x = [::] \/ fresh_ops x }.

Lemma mem_err_none x : size (x_m x) = x_n x -> (forall i, (i < x_n x)%N -> is_charge (x_st x) i -> isl x i) ->
  mem_err x = None.
Proof.
move=> Hs Hc; rewrite /mem_err Hs ltnn; case: ifP => // _; case: ifP => // /hasP [j].
by rewrite mem_iota add0n => Hj /andP [ch /negP []]; apply: Hc.
Qed.

Lemma mem_err_charge x : mem_err x = None -> (forall i, (i < x_n x)%N -> is_charge (x_st x) i -> isl x i).
Proof.
rewrite /mem_err => + i Hi ch; have -> : (x_n x == 0%N) = false by case: (x_n x) Hi.
case: ifP => // _; case: ifP => // /negP Hh _; apply: contraT => N; case: Hh; apply/hasP.
by exists i; rewrite ?mem_iota // ch.
Qed.
Lemma mem_err_m x : mem_err x = None -> (0 < x_n x)%N -> (x_n x <= size (x_m x))%N.
Proof.
rewrite /mem_err => + Hn; have -> : (x_n x == 0%N) = false by case: (x_n x) Hn.
by case: ltnP.
Qed.

Lemma hof_ops x : hof (build_ops x) = hof x. Proof. by []. Qed.
Lemma hof_exp x : hof (build_exp x) = hof x. Proof. by []. Qed.

Lemma good_rebuild x : size (x_m x) = x_n x -> fresh_ops (build_exp (build_ops x)).
Proof. by move=> Hs; split. Qed.

(** ** The setters *)
Lemma good_set_trunc nums x : good x -> good (set_trunc disp nums x).1.
Proof.
move=> G; rewrite /set_trunc; case: nums => [l|] //; case: ifP => // _.
set x1 := put_m _ _.
have s1 : size (x_m x1) = x_n x1 by rewrite size_map size_iota.
rewrite (mem_err_none s1 (g_charge G)); case: G => G1 G2 G3 _; split=> //=.
by right; apply: good_rebuild.
Qed.

Lemma isl_set x i f j : isl (island_set x i f) j = if j == i then omap f (isl x i) else isl x j.
Proof. by rewrite /isl /= nth_set_nth. Qed.

Lemma island_ofP m x i : island_of m x = Some i -> isl x i.
Proof. by rewrite /island_of; case: m => // z; case: ifP => // /andP [_ H] [<-]. Qed.

Lemma isl_in x i : isl x i -> (i < size (x_isl x))%N.
Proof. by move=> H; rewrite ltnNge; apply/negP => Hn; move: H; rewrite /isl nth_default. Qed.

Lemma good_set_offset m v x : good x -> good (set_offset m v x).1.
Proof.
move=> G; rewrite /set_offset; case Ei: island_of => [i|] //.
have Hi := island_ofP Ei; have Hin := isl_in Hi.
set x1 := island_set _ _ _.
have s1 : size (x_isl x1) = x_n x1.
  by rewrite size_set_nth (maxn_idPr Hin) (g_isl G).
have c1 j : (j < x_n x1)%N -> is_charge (x_st x1) j -> isl x1 j.
  move=> Hj ch; rewrite isl_set; case: eqP => _; last exact: g_charge.
  by case: isl Hi.
case: G => G1 G2 G3 G4.
case: ifP => [/eqP m0|/eqP m0]; first by split=> //=; left; apply: size0nil.
case: G4 => [E|F]; first by case: m0; rewrite E.
have m1 : size (x_m x1) = x_n x1 by apply: (fo_size F).
rewrite (mem_err_none m1 c1); split=> //=; right.
case: F => F1 F2 F3 F4 F5 F6 F7 F8; split=> //.
Qed.

Lemma set_noise_same m a x : (set_charge_noise m a x).1 = x.
Proof. by rewrite /set_charge_noise; case: island_of. Qed.

(** ** The Hamiltonian *)
Definition same_ops (a b : mems) :=
  [/\ M_Q b = M_Q a, M_QQ b = M_QQ a, M_phi b = M_phi a & M_N b = M_N a] /\
  M_exp b = M_exp a /\ M_root b = M_root a.
Lemma same_ops_refl a : same_ops a a. Proof. by []. Qed.

Lemma nth_ops (f : nat -> op) n i : (i < n)%N -> nth (ozero 0) [seq f j | j <- iota 0 n] i = f i.
Proof. by move=> Hi; rewrite (nth_map 0%N) ?size_iota // nth_iota. Qed.

Lemma coupling_memE x M e : M_phi M = [seq opPhi (hof x) i | i <- iota 0 (x_n x)] ->
  coupling_mem x M e = coupling_op (hof x) (Some Inductive_) e.
Proof.
move=> E; rewrite /coupling_mem /coupling_op; case: coupling_coef => // k.
rewrite E size_map size_iota ltnn.
have K l : forall acc, {subset l <= iota 0 (x_n x)} ->
   foldl (fun acc i => acc_add acc (oscale (k i)%:C%C
     (nth (ozero 0) [seq opPhi (hof x) i0 | i0 <- iota 0 (x_n x)] i))) acc l =
   foldl (fun acc i => acc_add acc (oscale (k i)%:C%C (mode_op (hof x) Inductive_ i))) acc l.
  elim: l => [|i l IH] acc Hl //=.
  rewrite nth_ops; last by have := Hl i (mem_head _ _); rewrite mem_iota.
  by apply: IH => j Hj; apply: Hl; rewrite inE Hj orbT.
by rewrite K.
Qed.

Lemma ind_stepsE s loops x ks : forall M H, M_phi M = [seq opPhi (hof x) i | i <- iota 0 (x_n x)] ->
  let a := foldl (ind_step s loops x) (M, H) ks in
  a.2 = foldl (ind_term (hof x) (evalue s) loops (x_B x)) H ks /\ same_ops M a.1.
Proof.
elim: ks => [|[[e el] b] ks IH] M H EM; first by split.
case: H => [H|z]; last first.
  by cbn [foldl ind_step ind_term]; apply: IH.
cbn [foldl ind_step ind_term]; rewrite (coupling_memE _ EM); case: coupling_op => [A|z].
  by apply: (IH (mkM _ _ _ _ _ _ _ _ _ _)).
by apply: IH.
Qed.

Lemma jj_stepsE s loops x ks : forall M H,
  M_exp M = [seq opExp disp (hof x) i | i <- iota 0 (t_m (x_st x))] ->
  M_root M = [seq opRoot disp (hof x) i | i <- iota 0 (t_m (x_st x))] ->
  (forall k, List.In k ks -> (k.2 < t_m (x_st x))%N) ->
  let a := foldl (jj_step s loops x) (M, Ok H) ks in
  a.2 = Ok (foldl (jj_term disp (hof x) (evalue s) loops (x_B x)) H ks) /\ same_ops M a.1.
Proof.
elim: ks => [|[[[e el] b] w] ks IH] M H EM ER Hk; first by split.
have Hw : (w < t_m (x_st x))%N by apply: (Hk (e, el, b, w)); left.
cbn [foldl jj_step jj_term]; rewrite EM ER !size_map !size_iota leqNgt Hw /= !nth_ops //.
set M2 := mkM _ _ _ _ _ _ _ _ _ _.
have [] := IH M2 (acc_add H (oscale (- evalue s el)%:C%C (jj_cos (jj_exp disp (hof x) (ext_flux loops (x_B x) b) w)))).
- by [].
- by [].
- by move=> k hk; apply: Hk; right.
move=> -> H2; split=> //.
by move: H2; rewrite /same_ops /= EM ER.
Qed.

Definition ham_of (s : store) (x : circ) : res op :=
  hamiltonian disp (hof x) (evalue s) [seq lvalue s l | l <- c_loops (x_c x)] (x_B x)
    (mkKeys (c_keys_ind (x_c x)) (c_keys_jj (x_c x))).

Lemma hamilE s x : good x ->
  (hamil s x).2 = ham_of s x /\
  exists M, (hamil s x).1 = put_mem x M (x_LC x) /\ same_ops (x_mem x) M.
Proof.
move=> G; rewrite /hamil /ham_of /hamiltonian -[h_m (hof x)]/(x_m x).
case: ifP => [/eqP m0|/eqP m0]; first by split=> //; exists (x_mem x); split; [case: x {G m0}|].
case: (g_ops G) => [E|F]; first by case: m0; rewrite E.
set loops := [seq _ | _ <- _].
have [] := ind_stepsE s loops (c_keys_ind (x_c x)) (Ok None) (fo_phi F).
case: (foldl (ind_step _ _ _) _ _) => M1 H1 /=; rewrite /ind_hamil /=.
case: H1 => [H1|z] <- S1; last first.
  have -> : foldl (jj_step s loops x) (M1, Err z) (c_keys_jj (x_c x)) = (M1, Err z).
    by elim: (c_keys_jj (x_c x)) => [|k ks IH] //=.
  by split=> //; exists M1.
have X1 : M_exp M1 = [seq opExp disp (hof x) i | i <- iota 0 (t_m (x_st x))].
  by case: S1 => _ [-> _]; apply: (fo_exp F).
have X2 : M_root M1 = [seq opRoot disp (hof x) i | i <- iota 0 (t_m (x_st x))].
  by case: S1 => _ [_ ->]; apply: (fo_root F).
have [] := jj_stepsE s loops H1 X1 X2 (g_wid G).
case: (foldl (jj_step _ _ _) _ _) => M2 H2 /= -> S2; split; first by rewrite (fo_LC F).
exists M2; split=> //.
by case: S1 S2 => [[a1 a2 a3 a4] [a5 a6]] [[b1 b2 b3 b4] [b5 b6]]; rewrite /same_ops b1 b2 b3 b4 b5 b6.
Qed.

Lemma good_put_mem x M : good x -> same_ops (x_mem x) M -> good (put_mem x M (x_LC x)).
Proof.
move=> [G1 G2 G3 G4] [[e1 e2 e3 e4] [e5 e6]]; split=> //.
case: G4 => [|[F1 F2 F3 F4 F5 F6 F7 F8]]; [by left | right; split=> //=]; rewrite ?e1 ?e2 ?e3 ?e4 ?e5 ?e6 //.
Qed.

Lemma good_hamil s x : good x -> good (hamil s x).1.
Proof. by move=> G; have [_ [M [-> HM]]] := hamilE s G; apply: good_put_mem. Qed.

Lemma good_put_eig x e : good x -> good (put_eig x e).
Proof. by case=> G1 G2 G3 [|[F1 F2 F3 F4 F5 F6 F7 F8]]; split=> //; [left | right; split]. Qed.

Lemma good_diag eigs argsort u k s x : good x -> good (diag_sm eigs argsort u k s x).1.
Proof.
move=> G; rewrite /diag_sm; case: ifP => // _; case: k => [k|] //.
have := good_hamil s G; case: hamil => x1 H /= G1; case: diag => e r /=; exact: good_put_eig.
Qed.

(** ** Builds *)
Lemma jj_wid s fd n lobj d c : get_LCWB optim s fd n lobj d = Ok c ->
  forall k, List.In k (c_keys_jj c) -> (k.2 < size (c_W c))%N.
Proof.
move=> E [[[e el] b] w] /(jj_key_rows _ _ _ _ _ _ _ E) [_ [_ [H _]]].
apply/ltP; rewrite -[size (c_W c)]/(List.length (c_W c)); apply: (proj1 (List.nth_error_Some (c_W c) w)).
by rewrite H.
Qed.

Lemma t_init_size n m k C L W st : t_init n m k C L W = Ok st -> [/\ t_n0 st = n, t_n st = n & t_m st = m].
Proof. by rewrite /t_init; case: inv => // cI [<-]. Qed.

Lemma finish_m st : t_m (finish_modes optim st) = t_m st.
Proof. by rewrite /finish_modes; case: ifP. Qed.
Lemma finish_n0 st : t_n0 (finish_modes optim st) = t_n0 st.
Proof. by rewrite /finish_modes; case: ifP. Qed.

(** If nothing is removed the modes are untouched. *)
Lemma finish_id st : t_n (finish_modes optim st) = t_n st -> finish_modes optim st = st.
Proof.
rewrite /finish_modes; case: ifP => // _ /=.
have Hs : (size (uncoupled st) <= t_n st)%N.
  by rewrite -[X in (_ <= X)%N](size_iota 0); rewrite size_filter count_size.
move=> E; have U0 : uncoupled st = [::].
  apply: size0nil; move: E Hs; case: (t_n st) (size (uncoupled st)) => [|n] [|u] // E Hs.
  by have := leq_subr u n; rewrite -subSS E ltnn.
have K : kept_modes st = iota 0 (t_n st).
  by rewrite /kept_modes U0; apply/all_filterP/allP => x _; rewrite in_nil.
have N i : nth i (iota 0 (t_n st)) i = i.
  by case: (ltnP i (t_n st)) => Hi; [rewrite nth_iota | rewrite nth_default // size_iota].
rewrite /remove_uncoupled U0 K subn0.
have -> : (fun i j => t_cI st (nth i (iota 0 (t_n st)) i) (nth j (iota 0 (t_n st)) j)) = t_cI st.
  by apply: functional_extensionality => i; apply: functional_extensionality => j; rewrite !N.
have -> : (fun i j => t_lT st (nth i (iota 0 (t_n st)) i) (nth j (iota 0 (t_n st)) j)) = t_lT st.
  by apply: functional_extensionality => i; apply: functional_extensionality => j; rewrite !N.
have -> : (fun i j => t_wT st i (nth j (iota 0 (t_n st)) j)) = t_wT st.
  by apply: functional_extensionality => i; apply: functional_extensionality => j; rewrite !N.
have -> : (fun i => t_om st (nth i (iota 0 (t_n st)) i)) = t_om st.
  by apply: functional_extensionality => i; rewrite !N.
by case: st {Hs E U0 K N}.
Qed.

(** What a build computes. *)
Definition built (o : oracle) (s : store) (fd : string) (d : seq (edge * seq nat)) (n : nat)
    (lobj : nat -> lrec) (c : cst) (B : arr) (st : tst) : Prop :=
  exists st0, [/\ get_LCWB optim s fd (Z.of_nat n) lobj d = Ok c, b_of n (o_sv o) c = Ok B,
    t_init n (size (c_W c)) (c_njwi c) (c_C c) (c_L c) (rows (c_W c)) = Ok st0 &
    transform_run o st0 = Some (st, None)].

Lemma built_size o s fd d n lobj c B st : built o s fd d n lobj c B st ->
  [/\ t_n0 st = n, t_n st = n & t_m st = size (c_W c)].
Proof.
case=> st0 [_ _ /t_init_size [a b c0] /same_run [e f g]].
by rewrite e f g.
Qed.

Lemma g_rows_agree sv n ls : forall lo lo', agree ls lo lo' -> g_rows sv n lo ls = g_rows sv n lo' ls.
Proof.
elim: ls => [|l ls IH] lo lo' H //=; rewrite (H l (or_introl erefl)).
by rewrite (IH lo lo') // => k hk; apply: H; right.
Qed.

Lemma b_of_agree n sv c lo : agree (c_loops c) (c_lobj c) lo -> b_of n sv (with_lobj c lo) = b_of n sv c.
Proof. by move=> A; rewrite /b_of /flux_dist /= (g_rows_agree sv n A). Qed.

(** Builds from the same data agree, whatever the loop objects recorded. *)
Lemma built_unique o s fd d n lobj lobj' c c' B B' st st' :
  built o s fd d n lobj c B st -> built o s fd d n lobj' c' B' st' ->
  [/\ B' = B, st' = st & exists lo, c' = with_lobj c lo].
Proof.
case=> st0 [E1 E2 E3 E4] [st0' [E1' E2' E3' E4']].
have [lo [El A]] := get_LCWB_agree optim s fd _ lobj lobj' d c E1.
move: E1'; rewrite El => -[Ec]; rewrite -Ec in E2' E3' *.
move: E2'; rewrite (b_of_agree _ _ A) E2 => -[->]; move: E3'; rewrite /= E3 => -[E0].
by move: E4'; rewrite -E0 E4 => -[->]; split=> //; exists lo.
Qed.

Lemma constructP o s lobj fd d x : construct o s lobj fd d = Some (Ok x) ->
  exists n c B st, built o s fd d n lobj c B st /\ node_count (List.map fst d) = Ok (Z.of_nat n) /\
    x = let st' := finish_modes optim st in
        mkX d fd c (c_C c) B st'
          [seq (if is_charge st' i then Some (0, noise_default) else None) | i <- iota 0 (t_n st')]
          [::] mem0 None (mkE [::] [::]).
Proof.
rewrite /construct; case Eb: build => [[nz c]|] //; move: Eb; rewrite /build.
case: negb => //; case En: node_count => [n|] //=; case Ec: get_LCWB => [c0|] //= [? ?]; subst nz c0.
have Hn : Z.le 0 n by have [] := get_LCWB_run _ _ _ _ _ _ _ Ec.
case EB: b_of => [B|] //; case Ei: t_init => [st0|] //; case Et: transform_run => [[st [e|]]|] // [<-].
exists (Z.to_nat n), c, B, st; split; last by rewrite Z2Nat.id.
by exists st0; rewrite Z2Nat.id.
Qed.

Lemma good_construct o s lobj fd d x : construct o s lobj fd d = Some (Ok x) -> good x.
Proof.
move=> /constructP [n [c [B [st [Hb [_ ->]]]]]] /=; have [_ En Em] := built_size Hb.
case: Hb => st0 [Ec _ _ _]; split=> /=.
- by rewrite finish_m Em; apply: jj_wid Ec.
- by rewrite size_map size_iota.
- move=> i Hi ch; rewrite /isl /= (nth_map 0%N) ?size_iota //.
  by rewrite nth_iota //= add0n ch.
- by left.
Qed.

Lemma update_okP o s x x' : update o s x = Some (x', None) ->
  exists c B st, built o s (x_fd x) (x_dict x) (x_n x) (c_lobj (x_c x)) c B st /\
    let x1 := put_mem (put_build x c (c_C c) B st) mem0 (x_LC x) in
    mem_err x1 = None /\ x' = put_eig (build_exp (build_ops x1)) (mkE [::] [::]).
Proof.
rewrite /update; case El: lcwb_run => [c [e|]] //.
have Ec : get_LCWB optim s (x_fd x) (Z.of_nat (x_n x)) (c_lobj (x_c x)) (x_dict x) = Ok c.
  by apply/lcwb_lcwb; first exact: Zle_0_nat.
case EB: b_of => [B|] //; case Ei: t_init => [st0|] //; case Et: transform_run => [[st [e|]]|] //.
set x1 := put_mem _ _ _; case Em: mem_err => //= -[<-].
by exists c, B, st; split=> //; exists st0.
Qed.

Lemma built_n o s fd d n lobj c B st : built o s fd d n lobj c B st -> t_n st = n.
Proof. by case/built_size. Qed.

Lemma good_update o s x x' : good x -> update o s x = Some (x', None) -> good x'.
Proof.
move=> G /update_okP [c [B [st [Hb]]]] /=; set x1 := put_mem _ _ _ => -[Em ->].
have [_ En Ewm] := built_size Hb.
have n1 : x_n x1 = x_n x by [].
apply: good_put_eig; split=> /=.
- by case: Hb => st0 [Ec _ _ _]; rewrite Ewm; apply: jj_wid Ec.
- by rewrite -[x_n _]/(t_n st) En; apply: (g_isl G).
- by move=> i Hi; apply: (mem_err_charge Em).
- case: (g_ops G) => [E|F]; first by left.
  right; apply: good_rebuild; rewrite -[x_m _]/(x_m x) -[x_n _]/(t_n st) En; exact: (fo_size F).
Qed.
End Machine.

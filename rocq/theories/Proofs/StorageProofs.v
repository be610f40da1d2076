(** StorageProofs.v -- plots, and unpickling behind the objects of a heap. *)
From Coq Require Import Reals ZArith String Lia.
From Verif.Model Require Import Base Units Noise Edge Elements LCWB.
From mathcomp Require Import all_ssreflect all_algebra.
From Verif.Numerics Require Import RStruct Bridge.
From Verif.Model Require Import Op Diag CircuitSM DecRate Copy Sweep Storage.
From Verif.Spec Require Import CopySpec SweepSpec StorageSpec.
From Verif.Proofs Require Import CopyProofs CopyProofs2 CopySession CopyProofs4.

Set Implicit Arguments.
Unset Strict Implicit.
Unset Printing Implicit Defensive.
Import GRing.Theory.
Local Open Scope ring_scope.

(** ** plot *)
Lemma rowP A i u : row A i = inl u -> exists r c, [/\ nd_shape A = [:: r; c], (i < r)%N
  & u = [seq nd_at A [:: i; j] | j <- iota 0 c]].
Proof.
by rewrite /row; case E: (nd_shape A) => [|r [|c []]] //; case: ltnP => // h [<-]; exists r, c.
Qed.
Lemma curveP d A i p : curve d A i = inl p <-> exists g gs r c,
  [/\ d_grid d = Some (g :: gs), nd_shape A = [:: r; c], (i < r)%N, size g = c
    & p = (g, [seq nd_at A [:: i; j] - nd_at A [:: 0%N; j] | j <- iota 0 c])].
Proof.
have zipE (f g : nat -> R) l : [seq a.1 - a.2 | a <- zip [seq f j | j <- l] [seq g j | j <- l]] = [seq f j - g j | j <- l].
  by elim: l => //= a l ->.
rewrite /curve; split.
  case: (d_grid d) => [[|g gs]|] //; case E1: row => [u|] //; case E2: row => [v|] //.
  have [r [c [sh hi ->]]] := rowP E1; have [r' [c' [sh' _ ->]]] := rowP E2.
  move: sh'; rewrite sh => -[_ <-]; rewrite zipE size_map size_iota; case: eqP => // sg [<-].
  by exists g, gs, r, c.
case=> g [gs [r [c [-> sh hi sg ->]]]]; rewrite /row sh hi (leq_ltn_trans _ hi) // zipE size_map size_iota.
by rewrite sg eqxx.
Qed.
Lemma curvesP d A l cs : curves d A l = inl cs ->
  size cs = size l /\ forall i, (i < size l)%N -> curve d A (nth 0%N l i) = inl (nth ([::], [::]) cs i).
Proof.
elim: l cs => [|a l IH] cs /=; first by case=> <-.
case E: curve => [c|] //; case Es: curves => [cs'|] // [<-].
have [sz H] := IH _ Es; split; first by rewrite /= sz.
by case.
Qed.
Lemma curves_some d A l : (forall i, i \in l -> exists c, curve d A i = inl c) -> exists cs, curves d A l = inl cs.
Proof.
elim: l => [|a l IH] H /=; first by exists [::].
have [c ->] := H a (mem_head _ _); have [|cs ->] := IH; last by eexists.
by move=> i hi; apply: H; rewrite inE hi orbT.
Qed.

Lemma plot_iff d t : (exists fig, plot d t = inl fig) <->
  exists A k, [/\ d_efreq d = Some A, d_num d = Some k, (size (nd_shape A) <= 2)%N
    & Z.le k 0 \/ exists g gs r c, [/\ d_grid d = Some (g :: gs), nd_shape A = [:: r; c], Z.le k (Z.of_nat r) & size g = c]].
Proof.
rewrite /plot; split.
  case=> fig; case: (d_efreq d) => [A|] //; case: ltnP => // h2; case: (d_num d) => [k|] //.
  case E: curves => [cs|] // _; exists A, k; split=> //.
  have [k0|k0] := Z.leb_spec k 0; first by left.
  right; have [sz H] := curvesP E; rewrite size_iota in H.
  have hk : ((Z.to_nat k).-1 < Z.to_nat k)%N by apply/ssrnat.ltP; lia.
  have := H _ hk; rewrite nth_iota // add0n => /curveP [g [gs [r [c [h1 h3 h4 h5 _]]]]].
  by exists g, gs, r, c; split=> //; move/ssrnat.ltP: h4; lia.
case=> A [k [-> -> h2 H]]; rewrite ltnNge h2 /=.
suff [cs ->] : exists cs, curves d A (iota 0 (Z.to_nat k)) = inl cs by eexists.
apply: curves_some => i; rewrite mem_iota add0n => /andP [_ hi].
case: H => [k0|[g [gs [r [c [h1 h3 h4 h5]]]]]]; first by move/ssrnat.ltP: hi; lia.
eexists; apply/curveP; exists g, gs, r, c; split=> //.
by apply/ssrnat.ltP; move/ssrnat.ltP: hi; lia.
Qed.

Lemma plot_draws d t fig A k g gs : plot d t = inl fig -> d_efreq d = Some A -> d_num d = Some k ->
  d_grid d = Some (g :: gs) -> draws fig g (Z.to_nat k) (fun i j => nd_at A [:: i; j]).
Proof.
rewrite /plot => E EA Ek Eg; move: E; rewrite EA Ek; case: ifP => // _.
case E: curves => [cs|] // [<-]; have [sz H] := curvesP E; rewrite size_iota in H sz.
split=> // i hi c; have := H i hi; rewrite nth_iota // add0n => /curveP [g' [gs' [r [c' [h1 h3 h4 h5 h6]]]]].
have := h1; rewrite Eg => -[eg _]; subst g'.
rewrite /c /= h6 /= size_map size_iota h5; split=> // j hj.
by rewrite /point_of /= h6 /= (nth_map 0%N) ?size_iota ?h5 // nth_iota ?h5.
Qed.

Lemma plot_label d t fig : plot d t = inl fig ->
  f_xlabel fig = (if String.eqb t "flux" then Some "$\Phi_{ext}/\Phi_0$"%string
                  else if String.eqb t "charge" then Some "$n_g$"%string else None) /\
  f_ylabel fig = "$f_i-f_0$[GHz]"%string.
Proof.
rewrite /plot; case: (d_efreq d) => [A|] //; case: ifP => // _; case: (d_num d) => [k|] //.
by case: curves => [cs|] // [<-].
Qed.

(** ** join *)
Section Join.
Variables (hp snap : heap) (x : circ).
Let e := hp_e hp. Let l := hp_l hp.

Lemma join_same : same_circuit (hp_s snap) x (hp_s (join hp snap)) (deep_circ e l x) (addn^~ e) (addn^~ l).
Proof.
have ne i : (i + e < e)%N = false by rewrite ltnNge leq_addl.
have nl i : (i + l < l)%N = false by rewrite ltnNge leq_addl.
split=> //=.
- by move=> i _; rewrite -/e ne addnK.
- by move=> i _ _; rewrite -/e -/l ne addnK.
- by move=> j _; rewrite -/l nl addnK.
- by rewrite -map_comp; apply/eq_map => -[[i|i] v].
- by move=> i _; rewrite /shift_key ne addnK.
- by move=> i b _; rewrite /shift_key2 ne addnK.
- by move=> i j _ _ /addIn.
- by move=> i j _ _ /addIn.
Qed.

Lemma join_apart : apart e l (hp_s (join hp snap)) (deep_circ e l x).
Proof.
have oe i : on_edge (deep_circ e l x) i -> (e <= i)%N.
  by case=> p [/= /List.in_map_iff [q [<- _]] /= /mapP [j _ ->]]; exact: leq_addl.
have ne i : (e <= i)%N -> (i < e)%N = false by rewrite ltnNge => ->.
split.
- move=> i [/oe//|[el [/oe hel _ ->]]] /=; rewrite -/e ne //; exact: leq_addl.
- move=> i [/= /mapP [j _ ->]|[el [/oe hel _ /=]]]; first exact: leq_addl.
  by rewrite -/e -/l ne // => /mapP [j _ ->]; exact: leq_addl.
- move=> c /=; rewrite -map_comp => /List.in_map_iff [[[i|i] v] [<- _]] /=; exact: leq_addl.
- by move=> k /= /List.in_map_iff [k' [<- _]]; exact: leq_addl.
- by move=> k /= /List.in_map_iff [k' [<- _]]; exact: leq_addl.
Qed.

Lemma join_untouched : untouched e l (hp_s hp) (hp_s (join hp snap)).
Proof. by split=> i hi /=; rewrite hi. Qed.

Lemma join_lives : lives (hp_e snap) (hp_l snap) (hp_s snap) x ->
  lives (hp_e (join hp snap)) (hp_l (join hp snap)) (hp_s (join hp snap)) (deep_circ e l x).
Proof.
case=> he hl.
have oe i : on_edge (deep_circ e l x) i -> exists2 j, on_edge x j & i = (j + e)%N.
  by case=> p [/= /List.in_map_iff [q [<- hq]] /= /mapP [j hj ->]]; exists j => //; exists q.
have ne i : (i + e < e)%N = false by rewrite ltnNge leq_addl.
split=> i /=; rewrite -/e -/l.
- rewrite [X in (_ < X)%N]addnC; case=> [/oe [j hj ->]|[el [/oe [j hj ->] /= hi]]].
    by rewrite ltn_add2r; apply: he; left.
  rewrite -/e ne addnK => ->; rewrite ltn_add2r; apply: he; right; exists j; split=> //.
  by move: hi; rewrite /inductive_el /= -/e ne addnK.
- rewrite [X in (_ < X)%N]addnC; case=> [/= /mapP [j hj ->]|[el [/oe [j hj ->] /=]]].
    by rewrite ltn_add2r; apply: hl; left.
  move=> hi; rewrite -/e -/l ne addnK => /mapP [k hk ->].
  rewrite ltn_add2r; apply: hl; right; exists j; split=> //.
  by move: hi; rewrite /inductive_el /= -/e ne addnK.
Qed.

Lemma join_twins u : closed (hp_s snap) x ->
  twins (mkW (hp_s snap) u x) (mkW (hp_s (join hp snap)) u (deep_circ e l x)) (addn^~ e) (addn^~ l).
Proof.
move=> Cl; split=> //=; first exact: join_same.
by move=> [i|i] _ /=; rewrite ltnNge leq_addl /= addnK.
Qed.
End Join.

(** ** Sweeping twins *)
Section Twins.
Variables (eigs : nat -> eigs_fun) (argsort : nat -> seq C -> seq nat) (E : env) (q q' : quality) (k : Z).
Variables (fe fl : nat -> nat).

(** What the setters of a sweep do to twins. *)
Definition goes (p p' : setter) (w : world) : Prop := forall v w1 w1', twins w1 w1' fe fl ->
  (forall c, reached (w_s w) (w_x w) c -> reached (w_s w1) (w_x w1) c) ->
  [/\ (p' v w1').2 = (p v w1).2, twins (p v w1).1 (p' v w1').1 fe fl
    & forall c, reached (w_s w1) (w_x w1) c -> reached (w_s (p v w1).1) (w_x (p v w1).1) c].

Lemma flux_goes l w : reached (w_s w) (w_x w) (CLoop l) -> goes (flux_setter l) (flux_setter (fl l)) w.
Proof.
move=> hl v [s u x] [s' u' x'] T /(_ _ hl) h1.
have := step_twins (fun _ _ => oeye 0) true (k := SetComp (CLoop l) (mkP (loop_val (set_flux v (mkLoop 0 0))) false true)) T h1.
by rewrite /flux_setter /set_flux_of /= => -[_ T1 R].
Qed.
Lemma charge_goes m w : goes (charge_setter m) (charge_setter m) w.
Proof.
move=> v [s u x] [s' u' x'] T _.
have := step_twins (fun _ _ => oeye 0) true (k := SetOffset m v) T I.
rewrite /charge_setter /=; case: set_offset => y r; case: set_offset => y' r' /= [-> T1 R].
by split.
Qed.

Lemma diag_twins eg ar w w' : twins w w' fe fl ->
  let a := diag_sm eg ar (w_u w) (Some k) (w_s w) (w_x w) in
  let a' := diag_sm eg ar (w_u w') (Some k) (w_s w') (w_x w') in
  [/\ a'.2 = a.2, twins (mkW (w_s w) (w_u w) a.1) (mkW (w_s w') (w_u w') a'.1) fe fl
    & forall c, reached (w_s w) (w_x w) c -> reached (w_s w) a.1 c].
Proof.
case: w => s u x; case: w' => s' u' x' T.
have := step_twins (fun _ _ => oeye 0) true (k := DiagC eg ar (Some k)) T I.
have := T => -[/= K _ Cl Ee Eu]; subst u'; rewrite /=.
have : (diag_sm eg ar u (Some k) s' x').2 = (diag_sm eg ar u (Some k) s x).2.
  rewrite /diag_sm (n_m (sc_num K)); case: ifP => // _.
  have [_ E1] := hamil_sim K Cl; move: E1.
  case: hamil => y r; case: hamil => y' r'; cbn [snd] => ->.
  by rewrite Ee; case: diag.
case: diag_sm => y r; case: diag_sm => y' r'; cbn [fst snd] => -> [_ T1 R].
by split.
Qed.

(** The setters of a list, one by one. *)
Fixpoint all_go (ps ps' : seq setter) (w : world) : Prop :=
  match ps, ps' with
  | [::], [::] => True
  | p :: ps, p' :: ps' => goes p p' w /\ all_go ps ps' w
  | _, _ => False
  end.

Lemma set_point_twins w0 grid : forall ps ps' idx w w', all_go ps ps' w0 -> twins w w' fe fl ->
  (forall c, reached (w_s w0) (w_x w0) c -> reached (w_s w) (w_x w) c) ->
  let a := set_point ps grid idx w in let a' := set_point ps' grid idx w' in
  [/\ a'.2 = a.2, twins a.1 a'.1 fe fl
    & forall c, reached (w_s w0) (w_x w0) c -> reached (w_s a.1) (w_x a.1) c].
Proof.
elim: grid => [|g grid IH] ps ps' idx w w' G T R; first by case: ps G; case: ps'.
case: idx => [|i idx]; first by case: ps G; case: ps'.
case: ps ps' G => [|p ps] [|p' ps'] //= [Gp G].
have [E1 T1 R1] := Gp (nth 0 g i) w w' T R.
case: (p _ w) E1 T1 R1 => w1 r; case: (p' _ w') => w1' r' /= -> T1 R1.
have R2 c : reached (w_s w0) (w_x w0) c -> reached (w_s w1) (w_x w1) c by move=> /R /R1.
case: r => [_|e] //; exact: IH.
Qed.

Lemma points_twins w0 ps ps' grid : all_go ps ps' w0 -> forall l p a a', twins (sw_w a) (sw_w a') fe fl ->
  sw_f a' = sw_f a -> sw_d a' = sw_d a ->
  (forall c, reached (w_s w0) (w_x w0) c -> reached (w_s (sw_w a)) (w_x (sw_w a)) c) ->
  let b := points eigs argsort E q false k ps grid p l a in
  let b' := points eigs argsort E q' false k ps' grid p l a' in
  [/\ b'.2 = b.2, sw_f b'.1 = sw_f b.1, sw_d b'.1 = sw_d b.1 & twins (sw_w b.1) (sw_w b'.1) fe fl].
Proof.
move=> G; elim=> [|idx l IH] p a a' T Ef Ed R //=.
rewrite /point; have [E1 T1 R1] := set_point_twins grid idx G T R.
case: (set_point ps grid idx _) E1 T1 R1 => w1 r; case: (set_point ps' grid idx _) => w1' r' /= -> T1 R1.
case: r => [_|e] //.
have [E2 T2 R2] := diag_twins (eigs p) (argsort p) T1.
case: (diag_sm _ _ (w_u w1) _ _ _) E2 T2 R2 => x d; case: (diag_sm _ _ (w_u w1') _ _ _) => x' d' /= -> T2 R2.
case: d => [[fr ve]|e]; last by split.
rewrite Ef; case: (do sh <- sel_shape (sw_f a) idx; reshape fr sh)%res => [B|e]; last by split.
cbn [dec_point foldl].
apply: IH => //= c /R1 /R2; by [].
Qed.
End Twins.

Lemma flux_all fl w ls : forall fe, (forall l, List.In l ls -> reached (w_s w) (w_x w) (CLoop l)) ->
  all_go fe fl [seq flux_setter l | l <- ls] [seq flux_setter l | l <- [seq fl i | i <- ls]] w.
Proof.
move=> fe; elim: ls => //= l ls IH H; split; first by apply: flux_goes; apply: H; left.
by apply: IH => i hi; apply: H; right.
Qed.
Lemma charge_all fe fl w ms : all_go fe fl [seq charge_setter l | l <- ms] [seq charge_setter l | l <- ms] w.
Proof. elim: ms => //= m ms IH; split=> //; exact: charge_goes. Qed.

Lemma sweep_twins eigs argsort E q q' k fe fl ps ps' grid w w' : all_go fe fl ps ps' w -> twins w w' fe fl ->
  let b := sweep eigs argsort E q false k ps grid w in
  let b' := sweep eigs argsort E q' false k ps' grid w' in
  [/\ b'.2 = b.2, sw_f b'.1 = sw_f b.1, sw_d b'.1 = sw_d b.1 & twins (sw_w b.1) (sw_w b'.1) fe fl].
Proof.
move=> G T; rewrite /sweep; case: Z.ltb => //.
by apply: (@points_twins eigs argsort E q q' k fe fl w ps ps' grid G _ 0%N (mkSw w _ _) (mkSw w' _ _)).
Qed.

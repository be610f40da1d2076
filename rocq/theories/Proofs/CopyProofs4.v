(** CopyProofs4.v -- copies of built circuits, pickles. *)
From Coq Require Import Reals ZArith String.
From Verif.Model Require Import Base Units Settings Elements Edge LCWB Rounding HamConst.
From Verif.Spec Require Import CircuitSpec.
From Verif.Proofs Require Import RenameProofs CopyBook.
From mathcomp Require Import all_ssreflect all_algebra.
From mathcomp Require Import complex.
From mathcomp Require Import zify.
From Verif.Numerics Require Import RStruct Bridge.
From Verif.Model Require Import FluxDist Transform Op Ham Diag CircuitSM Copy.
From Verif.Spec Require Import CopySpec.
From Verif.Proofs Require Import SMProofs CopyProofs CopyProofs2 CopyProofs3 CopySession.

Set Implicit Arguments.
Unset Strict Implicit.
Unset Printing Implicit Defensive.
Import GRing.Theory.
Local Open Scope ring_scope.
Local Open Scope complex_scope.

Lemma same_refl s x : same_circuit s x s x id id.
Proof.
have mi (T : Type) (f : T -> T) l : (forall a, f a = a) -> [seq f a | a <- l] = l.
  by move=> H; rewrite -[RHS]map_id; apply: eq_map.
split=> //; rewrite ?mi //.
- by case=> e l /=; rewrite map_id.
- by move=> i _ _; rewrite map_id.
- by case=> -[e i] b.
- by case=> -[[e i] b] w.
- by apply/eq_map => -[[i|i] v].
Qed.
Lemma flags_refl s x : same_flags s x s id id.
Proof. by case. Qed.

(** ** Every build leaves closed bookkeeping *)
Section Closed.
Variable disp : nat -> C -> op.
Variable optim : bool.

Lemma update_closed o s x y z : update disp optim o s x = Some (y, z) -> closed s y.
Proof.
move=> E; have := update_sim disp optim o (same_refl s x) (@flags_refl s x).
by rewrite E => -[].
Qed.

Lemma construct_closed o s lobj fd d x : construct optim o s lobj fd d = Some (Ok x) -> closed s x.
Proof.
move/constructP => [n [c [B [st [[st0 [Ec _ _ _]] [_ E]]]]]].
have Ed : x_dict x = d /\ x_c x = c by rewrite E.
have Er : lcwb_run optim s fd (Z.of_nat n) (cst0 lobj) d = (c, None) by apply/lcwb_lcwb; first exact: Zle_0_nat.
have H : forall p, List.In p (x_dict x) -> forall i, i \in p.2 -> on_edge x i by move=> p hp i hi; exists p.
have S0 : simC id id (on_edge x) (in_circ s x) (attached s x) True (cst0 lobj) (cst0 lobj) by split.
have := lcwb_sim (same_refl s x) (fun=> @flags_refl s x) optim fd (Z.of_nat n) H S0.
have -> : [seq (p.1, [seq id i | i <- p.2]) | p <- x_dict x] = d.
  by case: Ed => <- _; rewrite -[RHS]map_id; apply: eq_map => -[e l] /=; rewrite map_id.
case: Ed => -> Exc; rewrite Er /= => -[S _].
have [_ Cl _] := same_put (x_C x) (x_B x) (x_st x) (same_refl s x) S I.
by case: Cl; rewrite /= => c1 c2 c3; split; rewrite Exc // => p /c3; case: (p.1) => //= l; rewrite /loop_of /= Exc.
Qed.
End Closed.

(** ** Renamed by an offset *)
Lemma deep_flags hp x : lives (hp_e hp) (hp_l hp) (hp_s hp) x ->
  same_flags (hp_s hp) x (deep_store hp) (addn^~ (hp_e hp)) (addn^~ (hp_l hp)).
Proof.
by move=> _ [i|i] _ /=; rewrite ltnNge leq_addl /= addnK.
Qed.
Lemma deep_twins hp u x : lives (hp_e hp) (hp_l hp) (hp_s hp) x -> closed (hp_s hp) x ->
  twins (mkW (hp_s hp) u x) (mkW (deep_store hp) u (deep_circ (hp_e hp) (hp_l hp) x))
        (addn^~ (hp_e hp)) (addn^~ (hp_l hp)).
Proof.
move=> liv Cl; split=> //=; [exact: shown_shift|exact: deep_flags].
Qed.

(** ** Look-ups in a built circuit *)
Lemma In_on x el : sits (x_dict x) el <-> on_edge x el.
Proof. by split=> -[p [h1 h2]]; exists p; split=> //; [apply/mem_In|apply/(mem_In el p.2)]. Qed.

Lemma built_lookups hp fd n lobj x :
  get_LCWB true (hp_s hp) fd n lobj (x_dict x) = Ok (x_c x) ->
  lookups_ok hp x <->
  (forall el, on_edge x el -> inductive_el (hp_s hp) el -> tracked (hp_s hp) (CEl (ecap (hp_s hp) el)) ->
     on_edge x (ecap (hp_s hp) el)).
Proof.
move=> Ec; set s := hp_s hp.
have L := built_loops _ _ _ _ _ _ Ec; have P := built_params _ _ _ _ _ _ Ec.
have I := built_ind_sits _ _ _ _ _ _ Ec; have J := built_jj_sits _ _ _ _ _ _ Ec.
have inL l : (exists el, [/\ on_edge x el, inductive_el s el & l \in eloops s el]) -> l \in c_loops (x_c x).
  by case=> el [/In_on h1 h2 /mem_In h3]; apply/mem_In/L; exists el.
rewrite /lookups_ok -/s -!andbA; split.
  case/and4P => _ A _ _ el hel ki kt.
  have : List.In (CEl (ecap s el)) [seq p.1 | p <- c_params (x_c x)].
    by rewrite -mapE; apply/P; split=> //; right; exists el; split=> //; apply/In_on.
  rewrite -mapE => /List.in_map_iff [[c v] [/= Ecv hp0]].
  have allI (Q : LCWB.comp * R -> bool) l p : all Q l -> List.In p l -> Q p.
    by elim: l => //= a l IH /andP [h1 h2] [<-|/(IH h2)].
  by have := allI _ _ _ A hp0; rewrite /= Ecv /= repl_in => /on_edgeP.
move=> H; apply/and4P; split.
- apply/allP => el /on_edgeP hel; rewrite -implybE; apply/implyP => ki; apply/allP => l hl.
  by rewrite repl_in; apply: inL; exists el.
- have allI (Q : LCWB.comp * R -> bool) l : (forall p, List.In p l -> Q p) -> all Q l.
    by elim: l => //= a l IH h; rewrite h /=; [apply: IH => p hp0; apply: h; right|left].
  apply: allI => -[c v] hp0 /=.
  have /P [kt] : List.In c (List.map fst (c_params (x_c x))).
    by apply/List.in_map_iff; exists (c, v).
  case: c {hp0} kt => [i|l] kt /=; rewrite repl_in; last by move/mem_In.
  case=> [/In_on /on_edgeP //|[el [/In_on h1 [h2 h3]]]]; subst i.
  by apply/on_edgeP; apply: H.
- apply/allP => i; rewrite -mapE => /mem_In /List.in_map_iff [k [<- hk]].
  by rewrite repl_in; apply/on_edgeP/In_on; exact: I.
- apply/allP => i; rewrite -mapE => /mem_In /List.in_map_iff [k [<- hk]].
  by rewrite repl_in; apply/on_edgeP/In_on; exact: J.
Qed.

(** ** What the PyTorch copy does not keep *)
Lemma torch_ok save_eigs hp ob hp' ob' : safecopy true save_eigs hp ob = Ok (hp', ob') ->
  let x := ob_x ob in let hp1 := safe_heap hp x in
  [/\ lookups_ok hp x, hp_s hp' = deep_store hp1, x_dict (ob_x ob') = x_dict (deep_circ (hp_e hp1) (hp_l hp1) (safe_circ hp x)),
      x_c (ob_x ob') = deep_cst (hp_e hp1) (hp_l hp1) (safe_cst hp x) & ob_descr ob' = false].
Proof.
rewrite /safecopy /=; case: (boolP (lookups_ok _ _)) => //= ok.
case: ifP => // _; case: ifP => // _; case: ifP => // _ [<- <-].
by split=> //=; case: save_eigs.
Qed.

Lemma deep_placed e l x : placed (deep_circ e l x) = [seq (i + e)%N | i <- placed x].
Proof. by rewrite /placed /= -map_comp map_flatten -map_comp. Qed.

Section Torch.
Variables (save_eigs : bool) (hp : heap) (ob : cobj) (hp' : heap) (ob' : cobj).
Hypothesis E : safecopy true save_eigs hp ob = Ok (hp', ob').
Let x := ob_x ob. Let ps := placed x. Let e := hp_e hp. Let e1 := (hp_e hp + size (placed (ob_x ob)))%N.

Lemma torch_placed : placed (ob_x ob') = [seq (i + e1)%N | i <- iota e (size ps)].
Proof.
have [_ _ D _ _] := torch_ok E; rewrite /placed D -/(placed (deep_circ _ _ _)) deep_placed.
by rewrite /placed /= flatten_relabel.
Qed.
Lemma torch_uniq : uniq (placed (ob_x ob')).
Proof. by rewrite torch_placed map_inj_uniq ?iota_uniq // => i j /addIn. Qed.
Lemma torch_size : size (placed (ob_x ob')) = size ps.
Proof. by rewrite torch_placed size_map size_iota. Qed.

(** An element placed again later: the bookkeeping names the later copy only. *)
Lemma torch_lost i j : (i < j)%N -> (j < size ps)%N -> nth 0%N ps i = nth 0%N ps j ->
  let a := nth 0%N (placed (ob_x ob')) i in
  [/\ a != nth 0%N (placed (ob_x ob')) j,
      forall k, List.In k (c_keys_ind (x_c (ob_x ob'))) -> k.1.2 != a,
      forall k, List.In k (c_keys_jj (x_c (ob_x ob'))) -> k.1.1.2 != a &
      forall p, List.In p (c_params (x_c (ob_x ob'))) -> p.1 <> CEl a].
Proof.
move=> hij hj En; have hi := ltn_trans hij hj.
have nthE k : (k < size ps)%N -> nth 0%N (placed (ob_x ob')) k = (e + k + e1)%N.
  by move=> hk; rewrite torch_placed (nth_map 0%N) ?size_iota // nth_iota.
have [ok _ _ Ec _] := torch_ok E.
have key el : (el \in ps) -> (repl0 e ps el + e1 == e + i + e1)%N = false.
  move=> hel; have [k [hk hn Er last]] := replP e hel; rewrite /repl0 Er /= eqn_add2r eqn_add2l.
  apply/negbTE/eqP => Ek; subst k; have := last j hij hj; by rewrite -En hn eqxx.
have [oI oJ oP] : [/\ all_in ps e [seq k.1.2 | k <- c_keys_ind (x_c x)],
     all_in ps e [seq k.1.1.2 | k <- c_keys_jj (x_c x)] & all (fun p => comp_in hp x p.1) (c_params (x_c x))].
  by move: ok; rewrite /lookups_ok -!andbA => /and4P [].
rewrite /= nthE // nthE //; split; first by rewrite eqn_add2r eqn_add2l neq_ltn hij.
- move=> k; rewrite Ec /= -map_comp -mapE => /List.in_map_iff [k0 [<- hk0]] /=.
  rewrite key //; move: oI => /allP /(_ k0.1.2); rewrite repl_in; apply.
  by apply/mem_In; rewrite -mapE; apply/List.in_map_iff; exists k0.
- move=> k; rewrite Ec /= -map_comp -mapE => /List.in_map_iff [k0 [<- hk0]] /=.
  rewrite key //; move: oJ => /allP /(_ k0.1.1.2); rewrite repl_in; apply.
  by apply/mem_In; rewrite -mapE; apply/List.in_map_iff; exists k0.
- have allI (Q : LCWB.comp * R -> bool) l p : all Q l -> List.In p l -> Q p.
    by elim: l => //= a l IH /andP [h1 h2] [<-|/(IH h2)].
  move=> p; rewrite Ec /= -map_comp -mapE => /List.in_map_iff [p0 [<- hp0]] /=.
  have := allI _ _ _ oP hp0; case: (p0.1) => //= m; rewrite repl_in => hm [Em].
  by have := key m hm; rewrite Em eqxx.
Qed.

(** Nothing requires grad. *)
Lemma torch_detached : (forall i, on_edge (ob_x ob') i -> ereq (hp_s hp') i = false /\ eleaf (hp_s hp') i = true) /\
  (forall l, l \in c_loops (x_c (ob_x ob')) -> lreq (hp_s hp') l = false /\ lleaf (hp_s hp') l = true).
Proof.
have [ok Es _ Ec _] := torch_ok E; split.
  move=> i /on_edgeP; rewrite torch_placed => /mapP [j]; rewrite mem_iota => /andP [h1 h2] ->.
  by rewrite Es /= -/e -/e1 ltnNge leq_addl /= addnK -/x -/ps h1 h2.
move=> l; rewrite Ec /= => /mapP [j]; rewrite mem_iota => /andP [h1 h2] ->.
by rewrite Es /= ltnNge leq_addl /= addnK -/x h1 h2.
Qed.
End Torch.

(** Update drops what the copy cannot track any more. *)
Lemma update_params disp o s x y : update disp true o s x = Some (y, None) ->
  (forall i, on_edge x i -> ~~ tracked s (CEl i)) ->
  (forall l, (exists el, [/\ on_edge x el, inductive_el s el & l \in eloops s el]) -> ~~ tracked s (CLoop l)) ->
  forall p, List.In p (c_params (x_c y)) -> exists el, [/\ on_edge x el, inductive_el s el & p.1 = CEl (ecap s el)].
Proof.
move=> /update_okP [c [B [st [[st0 [Ec _ _ _]] /= [_ ->]]]]] H1 H2 p /= hp.
have P := built_params _ _ _ _ _ _ Ec.
have /P [kt] : List.In p.1 (List.map fst (c_params c)) by apply/List.in_map_iff; exists p.
case: (p.1) kt => [i|l] kt.
  case=> [/In_on hi|[el [/In_on h1 [h2 ->]]]]; first by have := H1 i hi; rewrite kt.
  by exists el.
move=> /(built_loops _ _ _ _ _ _ Ec) [el [/In_on h1 [h2 /mem_In h3]]].
have : ~~ tracked s (CLoop l) by apply: H2; exists el.
by rewrite kt.
Qed.

(** ** Pickles *)
Section Pickle.
Variable disp : nat -> C -> op.
Variable optim : bool.

(** update reads neither the operator memory nor the LC Hamiltonian. *)
Lemma update_mem o s x M LC : 
  match update disp optim o s x, update disp optim o s (put_mem x M LC) return Prop with
  | None, None => True
  | Some (y, None), Some (y', None) => y' = y
  | Some (_, Some z), Some (_, Some z') => z' = z
  | _, _ => False
  end.
Proof.
rewrite /update /= -/(x_n x); case: lcwb_run => c [e|] //.
case: b_of => [B|e] //; case: t_init => [st0|e] //; case: transform_run => [[st [e|]]|] //.
set y := put_mem _ _ _; set y' := put_mem _ _ _.
have -> : mem_err y' = mem_err y by [].
by case: mem_err.
Qed.
End Pickle.

(** GradsProofs.v -- lemmas for C77. *)
From Coq Require Import Reals.
From Verif.Model Require Import Base Units Settings Elements Edge LCWB.
From Verif.Spec Require Import CircuitSpec.
From Verif.Proofs Require Import BookProofs.
From mathcomp Require Import all_ssreflect all_algebra.
From Verif.Numerics Require Import RStruct Bridge.
From Verif.Model Require Import Grads.
From Verif.Spec Require Import GradsSpec.

Set Implicit Arguments.
Unset Strict Implicit.
Unset Printing Implicit Defensive.
Import GRing.Theory.
Local Open Scope seq_scope.
Local Open Scope ring_scope.

Lemma comp_eqbE (a b : LCWB.comp) : comp_eqb a b = (a == b).
Proof. by []. Qed.

(** ** First occurrences *)
Lemma mem_first (T : eqType) (l : seq T) x : (x \in first_of l) = (x \in l).
Proof. by rewrite /first_of mem_rev mem_undup mem_rev. Qed.
Lemma first_uniq (T : eqType) (l : seq T) : uniq (first_of l).
Proof. by rewrite /first_of rev_uniq undup_uniq. Qed.
Lemma first_rcons (T : eqType) (l : seq T) x :
  first_of (rcons l x) = if x \in l then first_of l else rcons (first_of l) x.
Proof.
rewrite /first_of rev_rcons /= mem_rev; case: ifP => // _.
by rewrite rev_cons.
Qed.

Lemma refillE h vs : refill h vs = [seq (c, th_of h c) | c <- first_of vs & wanted h c].
Proof.
elim/last_ind: vs => // vs c IH.
rewrite /refill foldl_rcons -/(refill h vs) IH first_rcons /add_param -/(wanted h c).
rewrite has_map.
have -> : has (preim (fun c0 => (c0, th_of h c0)) (fun p : LCWB.comp * nat => comp_eqb c p.1))
    [seq c0 <- first_of vs | wanted h c0] = wanted h c && (c \in vs).
  rewrite -(mem_first vs) -mem_filter -has_pred1.
  by apply: eq_has => d /=; rewrite comp_eqbE eq_sym.
case: (boolP (wanted h c)) => W /=; last by case: (c \in vs) => //; rewrite filter_rcons (negbTE W).
by case: (c \in vs) => //=; rewrite filter_rcons W map_rcons.
Qed.

(** ** Writing gradients *)
Lemma th_zero h ps y : th_t (zero_grad h ps) y =
  if y \in [seq p.2 | p <- ps] then with_grad (th_t h y) None else th_t h y.
Proof.
rewrite /zero_grad; elim: ps h => //= p ps IH h; rewrite IH in_cons /=.
by case: (y == p.2) /eqP => [->|]; rewrite ?orbF //=; case: ifP.
Qed.
Lemma zero_of h ps : th_of (zero_grad h ps) = th_of h /\ th_n (zero_grad h ps) = th_n h.
Proof. by rewrite /zero_grad; elim: ps h => //= p ps IH h; case: (IH (put h p.2 (with_grad (th_t h p.2) None))). Qed.

Lemma th_receive h l y : th_t (foldl receive h l) y =
  if tn_req (th_t h y) && (y \in [seq p.1 | p <- l])
  then with_grad (th_t h y) (Some (odflt 0 (tn_grad (th_t h y)) + \sum_(p <- l | p.1 == y) p.2))
  else th_t h y.
Proof.
elim: l h => [|p l IH] h /=; first by rewrite andbF.
rewrite IH in_cons big_cons.
rewrite /receive; case: (boolP (tn_req (th_t h p.1))) => rq /=.
  case: (y == p.1) /eqP => [->|ne] /=.
    rewrite rq eqxx /=.
    case: ifP => // yn; rewrite /with_grad /= ?addrA //.
    by rewrite big1_seq ?addr0 // => q /andP [/eqP e qi]; move: yn; rewrite -e map_f.
  by have -> : (p.1 == y) = false by apply/eqP => e; case: ne.
case: (y == p.1) /eqP => [->|ne] /=; first by rewrite (negbTE rq).
by have -> : (p.1 == y) = false by apply/eqP => e; case: ne.
Qed.
Lemma receive_of h l : th_of (foldl receive h l) = th_of h /\ th_n (foldl receive h l) = th_n h.
Proof.
elim: l h => //= p l IH h; case: (IH (receive h p)) => -> ->.
by rewrite /receive; case: ifP.
Qed.

Lemma sum_sent h ps gs y : \sum_(p <- sent h ps gs | p.1 == y) p.2 = flow h ps gs y.
Proof.
rewrite /sent /flow big_flatten big_map; apply: eq_bigr => q _.
by rewrite /scaled big_map /slope big_distrr.
Qed.
Lemma mem_sent h ps gs y : size gs = size ps ->
  (y \in [seq p.1 | p <- sent h ps gs]) = leads h ps y.
Proof.
rewrite /sent /leads; elim: ps gs => [|p ps IH] [|g gs] //= [sz].
rewrite map_cat mem_cat IH //; congr (_ || _).
by rewrite /scaled -map_comp.
Qed.

(** ** Assigning *)
Lemma assign_idsP cs xs h : uniq cs -> (size cs <= size xs)%N ->
  let r := assign_ids cs xs h in
  [/\ r.2 = Ok tt, th_t r.1 = th_t h, th_n r.1 = th_n h &
      forall c, th_of r.1 c = if c \in cs then nth 0%N xs (index c cs) else th_of h c].
Proof.
elim: cs xs h => [|c cs IH] [|x xs] h //= /andP [nc un] sz.
case: (IH xs (put_of h c x) un sz) => A B C D; split=> // d.
rewrite D /= comp_eqbE in_cons eq_sym; case: (c =P d) => [<-|ne] /=; last by [].
by rewrite (negbTE nc).
Qed.
Lemma assign_ids_short cs xs h : (size xs < size cs)%N -> (assign_ids cs xs h).2 = Err ValueError.
Proof. by elim: cs xs h => [|c cs IH] [|x xs] h //= sz; apply: IH. Qed.
Lemma assign_ids_held cs xs h : held h -> all (fun x => x < th_n h)%N xs ->
  let r := assign_ids cs xs h in [/\ held r.1, th_n r.1 = th_n h & th_t r.1 = th_t h].
Proof.
elim: cs xs h => [|c cs IH] [|x xs] h //= H /andP [lt ok].
have H' : held (put_of h c x) by move=> d /=; case: ifP.
by case: (IH xs (put_of h c x) H' ok).
Qed.

(** ** Sessions *)
Lemma held_step vs s k : held (se_h s) -> legal s k -> held (se_h (gstep vs s k).1).
Proof.
move=> H; case: k => //=.
- by move=> v r _ c; apply: leqW; apply: H.
- by move=> v xs _ c; apply: leqW; apply: H.
- by move=> c v _ d /=; case: ifP => // _; apply: leqW; apply: H.
- by move=> c x v _ d /=; case: ifP => // _; apply: leqW; apply: H.
- by move=> c f _; rewrite /set_req; case: ifP.
- move=> xs ok; case E: (assign_ids _ _ _) => [h' [ |e]] /=;
    by case: (assign_ids_held [seq p.1 | p <- se_p s] H ok); rewrite E.
- by move=> gs _; rewrite /backward; case: ifP => // _ c /=; case: (receive_of (se_h s) (sent (se_h s) (se_p s) gs)) => -> ->.
- by move=> _ c; case: (zero_of (se_h s) (se_p s)) => -> ->.
Qed.
Lemma held_run vs s ks : held (se_h s) -> legal_run vs s ks -> held (se_h (grun vs s ks)).
Proof.
elim: ks s => //= k ks IH s H /andP [l ls]; apply: IH => //; exact: held_step.
Qed.

(** What quiet calls keep. *)
Lemma quiet_keeps vs s k : held (se_h s) -> quiet k ->
  let s' := (gstep vs s k).1 in
  th_of (se_h s') = th_of (se_h s) /\
  forall c, wanted (se_h s') c = wanted (se_h s) c.
Proof.
move=> H; case: k => //=.
- by move=> v r _; split=> // c; rewrite /wanted /at_comp /= ltn_eqF.
- by move=> v xs _; split=> // c; rewrite /wanted /at_comp /= ltn_eqF.
- by move=> x v _; split=> // c; rewrite /wanted /at_comp /=; case: eqP => [->|].
- by move=> c g _; split=> // d; rewrite /wanted /at_comp /=; case: eqP => [->|].
- move=> gs _; rewrite /backward; case: ifP => //= _.
  case: (receive_of (se_h s) (sent (se_h s) (se_p s) gs)) => E _; rewrite E; split=> // c.
  by rewrite /wanted /at_comp E th_receive; case: ifP.
- case: (zero_of (se_h s) (se_p s)) => E _; rewrite E; split=> // c.
  by rewrite /wanted /at_comp E th_zero; case: ifP.
Qed.
Lemma sync_quiet vs s k : held (se_h s) -> quiet k -> in_sync vs s -> in_sync vs (gstep vs s k).1.
Proof.
move=> H Q S; case: (quiet_keeps vs H Q) => E W.
have K : se_p (gstep vs s k).1 = se_p s \/ k = GUpdate by case: k Q {E W} => //=; auto.
case: K => [K|->]; last by rewrite /in_sync /= refillE.
rewrite /in_sync K S E; congr map; apply: eq_filter => c; by rewrite W.
Qed.

(** ** Graphs *)
Lemma derivs_leaf h i : sound h -> (i < th_n h)%N ->
  all (fun p => (p.1 < th_n h)%N && tn_leaf (th_t h p.1)) (derivs h i).
Proof.
move=> S lt; rewrite /derivs; case: ifP => // _.
case E: (tn_fn (th_t h i)) => [l|]; first by case: (S i lt l E).
by rewrite /= lt /tn_leaf E.
Qed.
Lemma sound_alloc h t : sound h ->
  (forall l, tn_fn t = Some l -> tn_req t /\ all (fun p => (p.1 < th_n h)%N && tn_leaf (th_t h p.1)) l) ->
  sound (alloc h t).
Proof.
move=> S H i /=; rewrite ltnS leq_eqVlt => lt l.
have A l0 : all (fun p : nat * R => (p.1 < th_n h)%N && tn_leaf (th_t h p.1)) l0 ->
    all (fun p : nat * R => (p.1 < (th_n h).+1)%N &&
      tn_leaf (if p.1 == th_n h then t else th_t h p.1)) l0.
  by apply: sub_all => p /andP [lp lf]; rewrite (ltn_trans lp (ltnSn _)) ltn_eqF.
case: (i =P th_n h) lt => [_ _ /H [a b]|ne /= lt /(S i lt) [a b]]; by split=> //; apply: A.
Qed.
Lemma sound_computed h v xs : sound h -> all (fun p => p.1 < th_n h)%N xs ->
  forall l, tn_fn (computed h v xs) = Some l -> tn_req (computed h v xs) /\
    all (fun p => (p.1 < th_n h)%N && tn_leaf (th_t h p.1)) l.
Proof.
rewrite /computed => S ok l; case: ifP => //= _ [<-]; split=> //.
elim: xs ok => //= x xs IH /andP [lt ok]; rewrite all_cat IH // andbT.
rewrite /scaled all_map; apply: (sub_all _ (derivs_leaf S lt)) => p /=; by [].
Qed.
(** Tensors that keep their graph and flag. *)
Lemma sound_same h h' : sound h -> th_n h' = th_n h ->
  (forall i, tn_fn (th_t h' i) = tn_fn (th_t h i)) ->
  (forall i, tn_fn (th_t h i) <> None -> tn_req (th_t h i) -> tn_req (th_t h' i)) -> sound h'.
Proof.
move=> S En Ef Er i; rewrite En Ef => lt l fl; case: (S i lt l fl) => rq al; split.
  by apply: Er => //; rewrite fl.
by apply: (sub_all _ al) => p; rewrite /tn_leaf Ef.
Qed.
Lemma sound_step vs s k : sound (se_h s) -> legal s k -> sound (se_h (gstep vs s k).1).
Proof.
move=> S; case: k => //=.
- by move=> v r _; apply: sound_alloc.
- by move=> v xs ok; apply: sound_alloc => //; apply: sound_computed.
- by move=> x v _; apply: (sound_same S) => // i /=; case: eqP => [->|].
- move=> c v _; have S' : sound (alloc (se_h s) (mkTn v false None None)) by apply: sound_alloc.
  by move=> i; apply: S'.
- move=> c x v lt; rewrite /set_tensor; move: (match c with CLoop _ => _ | _ => _ end) => k.
  have S' : sound (alloc (se_h s) (computed (se_h s) v [:: (x, k)])).
    by apply: sound_alloc => //; apply: sound_computed => //=; rewrite lt.
  by move=> i; apply: S'.
- move=> c f _; rewrite /set_req; case: (boolP (_ && _)) => //= nf.
  apply: (sound_same S) => // i /=; case: eqP => [->|] //= fn rq.
  by move: nf; rewrite negb_and !negbK => /orP [] //; rewrite /tn_leaf /at_comp; case: (tn_fn _) fn.
- by move=> c g _; apply: (sound_same S) => // i /=; case: eqP => [->|].
- move=> xs ok; case E: (assign_ids _ _ _) => [h' r] /=.
  have K : th_t h' = th_t (se_h s) /\ th_n h' = th_n (se_h s).
    have := E; elim: [seq p.1 | p <- se_p s] xs (se_h s) {E S ok} => [|c cs IH] [|x xs] h /=;
      [by case=> <- _|by case=> <- _|by case=> <- _|by move/IH].
  have S' : sound h' by case: K => a b; apply: (sound_same S) => // i; rewrite a.
  by case: r {E} => /=.
- move=> gs _; rewrite /backward; case: ifP => //= _.
  case: (receive_of (se_h s) (sent (se_h s) (se_p s) gs)) => _ En.
  by apply: (sound_same S) => // i; rewrite th_receive; case: ifP.
- case: (zero_of (se_h s) (se_p s)) => _ En _.
  by apply: (sound_same S) => // i; rewrite th_zero; case: ifP.
Qed.

(** ** Leaves as parameters *)
Lemma flow_cons h p ps g gs y : flow h (p :: ps) (g :: gs) y = g * slope h p.2 y + flow h ps gs y.
Proof. by rewrite /flow /= big_cons. Qed.
Lemma slope_leaf h i y : tn_req (th_t h i) -> tn_leaf (th_t h i) ->
  slope h i y = if i == y then 1 else 0.
Proof.
rewrite /slope /derivs /tn_leaf => -> /=; case: (tn_fn _) => //= _.
by rewrite big_cons big_nil /=; case: ifP => _; rewrite ?addr0.
Qed.
Lemma flow_leaves h ps gs : size gs = size ps -> uniq [seq p.2 | p <- ps] ->
  all (fun p => tn_req (th_t h p.2) && tn_leaf (th_t h p.2)) ps ->
  [seq flow h ps gs p.2 | p <- ps] = gs.
Proof.
elim: ps gs => [|p ps IH] [|g gs] //= [sz] /andP [np un] /andP [/andP [rq lf] al].
have Z : forall ps0 gs0, size gs0 = size ps0 -> p.2 \notin [seq q.2 | q <- ps0] ->
    all (fun p => tn_req (th_t h p.2) && tn_leaf (th_t h p.2)) ps0 -> flow h ps0 gs0 p.2 = 0.
  elim=> [|q ps0 IH0] [|g0 gs0] //=; first by rewrite /flow /= big_nil.
  case=> sz0; rewrite inE negb_or => /andP [ne n0] /andP [/andP [rq0 lf0] al0].
  by rewrite flow_cons slope_leaf // eq_sym (negbTE ne) mulr0 add0r IH0.
rewrite flow_cons slope_leaf // eqxx mulr1 Z // addr0; congr (_ :: _).
rewrite -[RHS]IH //; apply/eq_in_map => q qi.
rewrite flow_cons slope_leaf //; case: eqP => [e|_]; last by rewrite mulr0 add0r.
by move: np; rewrite e map_f.
Qed.

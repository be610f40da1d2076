(** P_Grads.v -- C77: the parameters of a circuit and their gradients. *)
From Coq Require Import Reals Lra.
From Verif.Model Require Import Base Units Settings Elements Edge LCWB.
From Verif.Spec Require Import CircuitSpec.
From Verif.Proofs Require Import LCWBProofs BookProofs.
From mathcomp Require Import all_ssreflect all_algebra.
From Verif.Numerics Require Import RStruct Bridge.
From Verif.Model Require Import Grads.
From Verif.Spec Require Import GradsSpec.
From Verif.Proofs Require Import GradsProofs.

Set Implicit Arguments.
Unset Strict Implicit.
Unset Printing Implicit Defensive.
Import GRing.Theory.
Local Open Scope seq_scope.
Local Open Scope ring_scope.

(** After an update, and as long as no component is given another tensor or
    another flag, the dictionary is that of the components. *)
Theorem C77_sync vs s ks qs : held (se_h s) ->
  legal_run vs s (ks ++ GUpdate :: qs) -> all quiet qs ->
  in_sync vs (grun vs s (ks ++ GUpdate :: qs)).
Proof.
move=> H; have := @held_run vs s ks H.
rewrite /grun foldl_cat -/(grun vs s ks) /=.
have legal_cat : forall s0 l1 l2, legal_run vs s0 (l1 ++ l2) =
    legal_run vs s0 l1 && legal_run vs (grun vs s0 l1) l2.
  by move=> s0 l1 l2; elim: l1 s0 => //= k l IH s0; rewrite IH andbA.
rewrite legal_cat => Hk /andP [/Hk {}Hk /= L] Q.
set s1 := mkSe _ _.
have S1 : in_sync vs s1 by rewrite /in_sync /s1 /= refillE.
have {Hk} H1 : held (se_h s1) by [].
move: L; rewrite -/s1; elim: qs s1 Q S1 H1 => //= q qs IH s1 /andP [q1 Q] S1 H1 /andP [l L].
apply: IH => //; [exact: sync_quiet | exact: held_step].
Qed.
Print Assumptions C77_sync.

(** The views show each component of the circuit whose value takes part in
    gradients once, in the order in which they are met, with its value and type. *)
Theorem C77_views vs kd s : in_sync vs s ->
  let h := se_h s in let ps := se_p s in
  let cs := [seq c <- first_of vs | wanted h c] in
  [/\ parameters_elems true ps = Ok cs,
      parameters true h ps = Ok [seq tn_v (at_comp h c) | c <- cs],
      parameters_dict true ps = Ok (zip cs [seq th_of h c | c <- cs]),
      params_type true kd ps = Ok [seq type_of kd c | c <- cs] &
      parameters_grad true h ps =
        if cs is [::] then Err RuntimeError
        else let gs := [seq tn_grad (at_comp h c) | c <- cs] in
             if all isSome gs then Ok (GStack (pmap id gs)) else Ok (GList gs)].
Proof.
move=> S h ps cs; rewrite /ps S -/h -/cs; split.
- by rewrite /parameters_elems /= -map_comp map_id.
- by rewrite /parameters /= -map_comp.
- by rewrite /parameters_dict /= -{2}(map_id cs) zip_map.
- by rewrite /params_type /= -map_comp.
rewrite /parameters_grad /= -map_comp.
have -> : [seq ((fun p : LCWB.comp * nat => tn_grad (th_t h p.2)) \o (fun c => (c, th_of h c))) c | c <- cs] =
    [seq tn_grad (at_comp h c) | c <- cs] by [].
have -> g : has (fun g : option R => ~~ isSome g) g = ~~ all isSome g by rewrite -has_predC.
by case: cs => // c cs'; case: (all _ _).
Qed.
Print Assumptions C77_views.

(** They agree with the dictionary of the construction (C18). *)
Theorem C77_construction h st fd n lobj d c :
  get_LCWB true st fd n lobj d = Ok c -> shown h st ->
  [seq (p.1, tn_v (th_t h p.2)) | p <- refill h (visits st d)] = c_params c.
Proof.
move=> /get_LCWB_run [_ /run_edges_params ->] S.
rewrite /refill; move: (visits st d) => vs.
have G ps0 : [seq (p.1, tn_v (th_t h p.2)) | p <- foldl (add_param h) ps0 vs] =
    fold_left (fun p c0 => add_to_parameters st c0 p) vs [seq (p.1, tn_v (th_t h p.2)) | p <- ps0].
  elim: vs ps0 => //= v vs IH ps0; rewrite IH; congr fold_left.
  rewrite /add_param /add_to_parameters; case: (S v) => -> -> ->.
  have -> : existsb (fun p => comp_eqb v p.1) [seq (p.1, tn_v (th_t h p.2)) | p <- ps0] =
      has (fun p => comp_eqb v p.1) ps0 by elim: ps0 => //= p ps ->.
  case: ifP => _; first by rewrite map_rcons -cats1.
  by [].
exact: (G [::]).
Qed.
Print Assumptions C77_construction.

(** zero_grad clears the gradient of every component whose value takes part in
    gradients and leaves every other tensor alone. *)
Theorem C77_zero vs s : in_sync vs s ->
  let s' := (gstep vs s GZero).1 in
  [/\ forall c, c \in vs -> wanted (se_h s) c -> tn_grad (at_comp (se_h s') c) = None,
      forall y, (forall c, c \in vs -> wanted (se_h s) c -> th_of (se_h s) c != y) ->
        th_t (se_h s') y = th_t (se_h s) y &
      forall y, tn_v (th_t (se_h s') y) = tn_v (th_t (se_h s) y)].
Proof.
move=> S /=; case: (zero_of (se_h s) (se_p s)) => E _.
have M y : (y \in [seq p.2 | p <- se_p s]) =
    has (fun c => th_of (se_h s) c == y) [seq c <- first_of vs | wanted (se_h s) c].
  by rewrite S -map_comp -has_pred1 has_map; apply: eq_has => c /=.
split=> [c cv w|y ny|y]; rewrite /at_comp ?E th_zero.
- rewrite M ifT //; apply/hasP; exists c => //; by rewrite mem_filter w mem_first.
- rewrite M ifF //; apply/negP => /hasP [c]; rewrite mem_filter mem_first => /andP [w cv] /eqP e.
  by move: (ny c cv w); rewrite e eqxx.
- by case: ifP.
Qed.
Print Assumptions C77_zero.

(** backward on a loss of constants raises RuntimeError and changes nothing. *)
Theorem C77_backward_none vs s gs : ~~ has (fun p => tn_req (th_t (se_h s) p.2)) (se_p s) ->
  (gstep vs s (GBack gs)).2 = Err RuntimeError /\ se_h (gstep vs s (GBack gs)).1 = se_h s.
Proof. by move=> /negbTE rq; rewrite /= /backward rq. Qed.
Print Assumptions C77_backward_none.

(** backward adds to every leaf the derivative with respect to it. *)
Theorem C77_backward vs s gs : size gs = size (se_p s) ->
  has (fun p => tn_req (th_t (se_h s) p.2)) (se_p s) ->
  let s' := (gstep vs s (GBack gs)).1 in
  forall y, th_t (se_h s') y =
    if tn_req (th_t (se_h s) y) && leads (se_h s) (se_p s) y
    then with_grad (th_t (se_h s) y)
           (Some (odflt 0 (tn_grad (th_t (se_h s) y)) + flow (se_h s) (se_p s) gs y))
    else th_t (se_h s) y.
Proof.
by move=> sz rq /= y; rewrite /backward rq /= th_receive mem_sent // sum_sent.
Qed.
Print Assumptions C77_backward.

(** zero_grad followed by backward: the gradient of a parameter does not depend
    on what was there. *)
Theorem C77_fresh vs s gs : size gs = size (se_p s) ->
  has (fun p => tn_req (th_t (se_h s) p.2)) (se_p s) ->
  let s' := grun vs s [:: GZero; GBack gs] in
  forall p, p \in se_p s -> tn_grad (th_t (se_h s') p.2) =
    if tn_req (th_t (se_h s) p.2) && leads (se_h s) (se_p s) p.2
    then Some (flow (se_h s) (se_p s) gs p.2) else None.
Proof.
move=> sz rq s' p pin.
pose s1 := (gstep vs s GZero).1.
have D y : derivs (se_h s1) y = derivs (se_h s) y.
  by rewrite /derivs /s1 /= th_zero; case: (y \in _).
have Q y : tn_req (th_t (se_h s1) y) = tn_req (th_t (se_h s) y) by rewrite /s1 /= th_zero; case: (y \in _).
have rq1 : has (fun p => tn_req (th_t (se_h s1) p.2)) (se_p s1).
  by rewrite (eq_has (a2 := fun p => tn_req (th_t (se_h s) p.2))) // => q; rewrite Q.
rewrite /s' /grun /= -/s1 [th_t _ _](C77_backward vs (s := s1) sz rq1) Q.
have -> : leads (se_h s1) (se_p s1) p.2 = leads (se_h s) (se_p s) p.2.
  by rewrite /leads; apply: eq_has => q; rewrite D.
have -> : flow (se_h s1) (se_p s1) gs p.2 = flow (se_h s) (se_p s) gs p.2.
  by rewrite /flow; apply: eq_bigr => q _; rewrite /slope D.
have G : tn_grad (th_t (se_h s1) p.2) = None by rewrite /s1 /= th_zero map_f.
by case: ifP => //= _; rewrite G /= add0r.
Qed.
Print Assumptions C77_fresh.

(** Graphs keep ending in leaves. *)
Theorem C77_sound vs s ks : sound (se_h s) -> legal_run vs s ks -> sound (se_h (grun vs s ks)).
Proof. by elim: ks s => //= k ks IH s S /andP [l ls]; apply: IH => //; apply: sound_step. Qed.
Print Assumptions C77_sound.

(** Leaves with a tensor of their own: the stacked gradient is the derivative. *)
Theorem C77_step vs s gs : size gs = size (se_p s) -> se_p s <> [::] ->
  uniq [seq p.2 | p <- se_p s] ->
  all (fun p => tn_req (th_t (se_h s) p.2) && tn_leaf (th_t (se_h s) p.2)) (se_p s) ->
  let s' := grun vs s [:: GZero; GBack gs] in
  parameters_grad true (se_h s') (se_p s') = Ok (GStack gs).
Proof.
move=> sz ne un al s'.
have hr : has (fun p => tn_req (th_t (se_h s) p.2)) (se_p s).
  by move: ne al; case: (se_p s) => //= p ps _ /andP [/andP [-> _] _].
have F := C77_fresh vs sz hr.
have E : [seq tn_grad (th_t (se_h s') p.2) | p <- se_p s] = [seq Some g | g <- gs].
  rewrite -[in RHS](flow_leaves sz un al) -map_comp; apply/eq_in_map => p pin.
  rewrite F //; move/allP: al => /(_ p pin) /andP [rq lf]; rewrite rq ifT //=.
  apply/hasP; exists p => //; rewrite /derivs rq /=.
  by move: lf; rewrite /tn_leaf; case: (tn_fn _) => //= _; rewrite inE.
have P : se_p s' = se_p s by [].
rewrite /parameters_grad P E /=.
have -> : has (fun g : option R => ~~ isSome g) [seq Some g | g <- gs] = false.
  by rewrite has_map; apply/hasP => [[g]].
rewrite size_map sz ifF; last by move: ne; case: (se_p s).
by rewrite map_pK.
Qed.
Print Assumptions C77_step.

(** Of a circuit in step with its components a gradient is missing exactly for
    the parameters that are computed from other tensors. *)
Theorem C77_nonleaf vs s gs : held (se_h s) -> sound (se_h s) -> in_sync vs s ->
  size gs = size (se_p s) ->
  let s' := grun vs s [:: GZero; GBack gs] in
  forall p, p \in se_p s ->
    isSome (tn_grad (th_t (se_h s') p.2)) = tn_leaf (th_t (se_h s) p.2).
Proof.
move=> H So S sz s' p pin.
have W q : q \in se_p s -> (q.2 < th_n (se_h s))%N /\ tn_req (th_t (se_h s) q.2).
  rewrite S => /mapP [c]; rewrite mem_filter => /andP [w _] -> /=; split; first exact: H.
  move: w; rewrite /wanted /at_comp /tn_leaf.
  by case E: (tn_fn _) => [l|]; rewrite ?orbF //; case: (So _ (H c) _ E).
have hr : has (fun p => tn_req (th_t (se_h s) p.2)) (se_p s).
  by apply/hasP; exists p => //; case: (W p pin).
rewrite (C77_fresh vs sz hr) //; case: (W p pin) => lt rq; rewrite rq /=.
suff -> : leads (se_h s) (se_p s) p.2 = tn_leaf (th_t (se_h s) p.2) by case: (tn_leaf _).
apply/idP/idP.
  case/hasP=> q qin /mapP [r rin ->].
  by move/allP: (derivs_leaf So (W q qin).1) => /(_ r rin) /andP [].
move=> lf; apply/hasP; exists p => //; rewrite /derivs rq /=.
by move: lf; rewrite /tn_leaf; case: (tn_fn _) => //= _; rewrite inE.
Qed.
Print Assumptions C77_nonleaf.

(** A number assigned to a component (set_value, set_flux) takes it out of the
    parameters at the next update. *)
Theorem C77_lost vs s c v : held (se_h s) ->
  se_p (grun vs s [:: GSet c v; GUpdate]) =
  [seq (d, th_of (se_h s) d) | d <- first_of vs & (d != c) && wanted (se_h s) d].
Proof.
move=> H; rewrite /grun /= refillE.
have E d : wanted (set_number (se_h s) c v) d = (d != c) && wanted (se_h s) d.
  rewrite /wanted /at_comp /= comp_eqbE; case: (d =P c) => [->|_] /=; first by rewrite eqxx.
  by rewrite ltn_eqF.
rewrite (eq_filter E); apply/eq_in_map => d; rewrite mem_filter => /andP [/andP [ne _] _] /=.
by rewrite comp_eqbE (negbTE ne).
Qed.
Print Assumptions C77_lost.

(** Tensors without gradients assigned to .parameters: no parameter is left, and
    from then on every list is accepted and changes nothing. *)
Theorem C77_plain vs s xs : in_sync vs s -> (size (se_p s) <= size xs)%N ->
  (forall x, x \in xs -> tn_req (th_t (se_h s) x) = false /\ tn_leaf (th_t (se_h s) x)) ->
  let s' := (gstep vs s (GAssign xs)).1 in
  se_p s' = [::] /\ forall ys, gstep vs s' (GAssign ys) = (s', Ok tt).
Proof.
move=> S sz P s'.
have K : [seq p.1 | p <- se_p s] = [seq c <- first_of vs | wanted (se_h s) c].
  by rewrite S -map_comp map_id.
have un : uniq [seq p.1 | p <- se_p s] by rewrite K filter_uniq // first_uniq.
have sz1 : (size [seq p.1 | p <- se_p s] <= size xs)%N by rewrite size_map.
case: (assign_idsP (se_h s) un sz1) => A B _ D.
have E : se_p s' = [::].
  rewrite /s' /= A /= refillE; set h' := (assign_ids _ _ _).1.
  suff -> : [seq c <- first_of vs | wanted h' c] = [::] by [].
  apply/eqP; rewrite -(negbK (_ == _)) -has_filter; apply/hasPn => c; rewrite mem_first => cv.
  rewrite /wanted /at_comp /h' B D; case: ifP => ck.
    have xi : nth 0%N xs (index c [seq p.1 | p <- se_p s]) \in xs.
      by rewrite mem_nth // (leq_trans _ sz1) // index_mem.
    by case: (P _ xi) => -> ->.
  by move: ck; rewrite K mem_filter mem_first cv andbT => /negbT.
split=> // ys; rewrite /gstep E /=.
suff -> : refill (se_h s') vs = [::] by rewrite -E; case: (s').
by move: E; rewrite /s' /= A.
Qed.
Print Assumptions C77_plain.

(** Tensors that take part in gradients: the parameters stay, with the new
    tensors. *)
Theorem C77_kept vs s xs : in_sync vs s -> size xs = size (se_p s) ->
  (forall x, x \in xs -> tn_req (th_t (se_h s) x) || ~~ tn_leaf (th_t (se_h s) x)) ->
  se_p (gstep vs s (GAssign xs)).1 = zip [seq p.1 | p <- se_p s] xs.
Proof.
move=> S sz P.
have K : [seq p.1 | p <- se_p s] = [seq c <- first_of vs | wanted (se_h s) c].
  by rewrite S -map_comp map_id.
have un : uniq [seq p.1 | p <- se_p s] by rewrite K filter_uniq // first_uniq.
have sz1 : (size [seq p.1 | p <- se_p s] <= size xs)%N by rewrite size_map sz.
case: (assign_idsP (se_h s) un sz1) => A B _ D.
rewrite /= A /= refillE; set h' := (assign_ids _ _ _).1.
have -> : [seq c <- first_of vs | wanted h' c] = [seq p.1 | p <- se_p s].
  rewrite K; apply/eq_in_filter => c; rewrite mem_first => cv.
  rewrite /wanted /at_comp /h' B D; case: ifP => [ck|//].
  have xi : nth 0%N xs (index c [seq p.1 | p <- se_p s]) \in xs.
    by rewrite mem_nth // (leq_trans _ sz1) // index_mem.
  by rewrite P //; move: ck; rewrite K mem_filter => /andP [].
apply: (@eq_from_nth _ (CEl 0, 0%N)) => [|i]; rewrite size_map; first by rewrite size_zip !size_map sz minnn.
move=> lt; rewrite (nth_map (CEl 0)) // nth_zip ?size_map //; congr pair.
by rewrite /h' D mem_nth // index_uniq.
Qed.
Print Assumptions C77_kept.

(** A component whose value is given as a tensor: the gradient passes to the
    tensor of a loop and is 0 at that of an element. *)
Theorem C77_tensor s c x v : held (se_h s) -> (x < th_n (se_h s))%N ->
  tn_req (th_t (se_h s) x) -> tn_leaf (th_t (se_h s) x) ->
  let h := set_tensor (se_h s) c x v in
  [/\ tn_v (at_comp h c) = v, wanted h c &
      slope h (th_of h c) x = if c is CLoop _ then (2 * PI)%R else 0%R].
Proof.
move=> H lt rq lf h.
have E : at_comp h c = computed (se_h s) v [:: (x, if c is CLoop _ then (2 * PI)%R else 0%R)].
  by rewrite /at_comp /h /set_tensor /= comp_eqbE !eqxx.
have Ed : derivs (se_h s) x = [:: (x, 1)].
  by rewrite /derivs rq; move: lf; rewrite /tn_leaf; case: (tn_fn _).
have G k : computed (se_h s) v [:: (x, k)] = mkTn v true (Some [:: (x, k * 1)]) None.
  by rewrite /computed /= rq /= Ed.
move: E; rewrite G => E; split; rewrite ?E //; first by rewrite /wanted E.
rewrite /slope /derivs -/(at_comp h c) E /= big_cons big_nil /= eqxx mulr1 addr0; by [].
Qed.
Print Assumptions C77_tensor.

(** The result of an operation: if an input takes part in gradients it does, with
    the derivatives of the chain rule; otherwise it is a leaf that does not, and a
    component with such a value is no parameter. *)
Theorem C77_computed vs s v xs : let s' := (gstep vs s (GOp v xs)).1 in let i := th_n (se_h s) in
  all (fun p => p.1 < i)%N xs ->
  let t := th_t (se_h s') i in
  [/\ tn_v t = v, tn_grad t = None, tn_req t = has (fun p => tn_req (th_t (se_h s) p.1)) xs,
      (tn_leaf t <-> ~~ tn_req t) /\ (forall c x w, ~~ tn_req (th_t (se_h s) x) ->
         ~~ wanted (set_tensor (se_h s) c x w) c) &
      forall y, slope (se_h s') i y = \sum_(p <- xs) p.2 * slope (se_h s) p.1 y].
Proof.
move=> s' i ok t.
have -> : t = computed (se_h s) v xs by rewrite /t /s' /i /= eqxx.
have W c x w : ~~ tn_req (th_t (se_h s) x) -> ~~ wanted (set_tensor (se_h s) c x w) c.
  move=> /negbTE nr; rewrite /wanted /at_comp /set_tensor /= comp_eqbE !eqxx /computed /= nr /=.
  by [].
have Z p y : ~~ tn_req (th_t (se_h s) p) -> slope (se_h s) p y = 0.
  by move=> nr; rewrite /slope /derivs nr big_nil.
have SC k (l : seq (nat * R)) y : \sum_(p <- scaled k l | p.1 == y) p.2 = k * \sum_(p <- l | p.1 == y) p.2.
  by rewrite /scaled big_map mulr_sumr; apply: eq_bigr.
have SL y : slope (se_h s') i y = \sum_(p <- xs) p.2 * slope (se_h s) p.1 y.
  rewrite /slope {1}/derivs /s' /= /i eqxx {1 2}/computed; case Hh: (has _ xs); cbn [tn_req tn_fn negb].
    elim: xs {Hh ok s' t} => [|p xs IH] /=; first by rewrite !big_nil.
    by rewrite big_cat big_cons /= SC IH.
  move/negbT: Hh; rewrite -all_predC => /allP nr.
  rewrite big_nil big_seq big1 // => p /nr /= h.
  by rewrite -/(slope (se_h s) p.1 y) Z // mulr0.
rewrite /computed; case: (has _ _); split=> //; by split.
Qed.
Print Assumptions C77_computed.

(** In the NumPy engine nothing of this is available; without parameters there is
    no gradient to stack. *)
Theorem C77_errors h ps kd c :
  [/\ parameters false h ps = Err ModeError /\ parameters_grad false h ps = Err ModeError,
      parameters_dict false ps = Err ModeError /\ parameters_elems false ps = Err ModeError,
      params_type false kd ps = Err ModeError,
      [/\ requires_grad false h c = Err ModeError, is_leaf false h c = Err ModeError &
          grad false h c = Err ModeError] &
      parameters_grad true h [::] = Err RuntimeError].
Proof. by []. Qed.
Print Assumptions C77_errors.

(** The flag of a computed tensor cannot be cleared; otherwise the flag is set and
    nothing else changes. *)
Theorem C77_flag vs s c f :
  let r := gstep vs s (GReq c f) in
  if f || tn_leaf (at_comp (se_h s) c)
  then r.2 = Ok tt /\ requires_grad true (se_h r.1) c = Ok f /\
       forall d, th_of (se_h s) d <> th_of (se_h s) c -> at_comp (se_h r.1) d = at_comp (se_h s) d
  else r = (s, Err RuntimeError).
Proof.
rewrite /= /set_req; case: f => /=; last case: (boolP (tn_leaf _)) => _ /=; last by case: s.
all: rewrite /requires_grad /at_comp /= eqxx; split=> //; split=> // d /eqP ne; by rewrite (negbTE ne).
Qed.
Print Assumptions C77_flag.

(** ** Witnesses *)
Lemma two_two : IZR 2 + IZR 2 = IZR 4.
Proof. by rewrite -RplusE -plus_IZR. Qed.
Lemma one_four : IZR 1 + IZR 4 = IZR 5.
Proof. by rewrite -RplusE -plus_IZR. Qed.
Definition ex_c : LCWB.comp := CEl 0.
Definition ex_vs : seq LCWB.comp := [:: ex_c; CLoop 0].
(** A capacitor of 5 and a loop of 7, without gradients. *)
Definition ex_s : sess :=
  mkSe (mkTh (fun i => mkTn (if i == 0%N then IZR 5 else IZR 7) false None None) 2
             (fun c => if c is CEl _ then 0%N else 1%N)) [::].
Lemma ex_held : held (se_h ex_s).
Proof. by case. Qed.
Lemma ex_sound : sound (se_h ex_s).
Proof. by []. Qed.

(** A capacitor that is twice a tensor [x]: zero_grad does not clear the gradient
    of [x]; after two rounds it has both. *)
Definition ex_double : seq gcall :=
  [:: GReq ex_c true; GUpdate; GNew (IZR 3) true; GOp (IZR 6) [:: (2%N, IZR 2)]; GAssign [:: 3%N];
      GZero; GBack [:: 1]].
Theorem C77_source_refuted : exists s y, let s' := grun ex_vs s [:: GZero; GBack [:: 1]] in
  [/\ held (se_h s) /\ sound (se_h s), in_sync ex_vs s,
      leads (se_h s) (se_p s) y /\ tn_leaf (th_t (se_h s) y),
      flow (se_h s) (se_p s) [:: 1] y = IZR 2 & tn_grad (th_t (se_h s') y) = Some (IZR 4)].
Proof.
have L : legal_run ex_vs ex_s ex_double by [].
exists (grun ex_vs ex_s ex_double), 2%N; split.
- split; [exact: held_run ex_held L | exact: C77_sound ex_sound L].
- by [].
- by [].
- rewrite /flow /slope /= !big_cons !big_nil /= !(mul1r, mulr1, addr0); by [].
rewrite /=; congr Some; rewrite !(mul1r, mulr1, addr0, add0r); exact: two_two.
Qed.
Print Assumptions C77_source_refuted.

(** Between a new value and the next update zero_grad misses the component. *)
Definition ex_stale : seq gcall :=
  [:: GReq ex_c true; GUpdate; GSet ex_c (IZR 1); GReq ex_c true; GGrad ex_c (Some (IZR 1))].
Theorem C77_stale_refuted : exists s, let s' := (gstep ex_vs s GZero).1 in
  [/\ held (se_h s) /\ sound (se_h s), ex_c \in ex_vs /\ wanted (se_h s) ex_c,
      tn_grad (at_comp (se_h s') ex_c) = Some (IZR 1) &
      parameters true (se_h s') (se_p s') = Ok [:: IZR 5] /\ tn_v (at_comp (se_h s') ex_c) = IZR 1].
Proof.
have L : legal_run ex_vs ex_s ex_stale by [].
exists (grun ex_vs ex_s ex_stale); split=> //.
split; [exact: held_run ex_held L | exact: C77_sound ex_sound L].
Qed.
Print Assumptions C77_stale_refuted.

(** Setting a value that was a parameter and updating leaves no parameter. *)
Theorem C77_value_refuted : exists s,
  [/\ in_sync ex_vs s, parameters_elems true (se_p s) = Ok [:: ex_c] &
      parameters_elems true (se_p (grun ex_vs s [:: GSet ex_c (IZR 2); GUpdate])) = Ok [::]].
Proof. by exists (grun ex_vs ex_s [:: GReq ex_c true; GUpdate]). Qed.
Print Assumptions C77_value_refuted.

(** Two leaves, the loop and the capacitor: one optimiser step. *)
Example C77_case : let s := grun ex_vs ex_s [:: GReq ex_c true; GReq (CLoop 0) true; GUpdate] in
  [/\ parameters true (se_h s) (se_p s) = Ok [:: IZR 5; IZR 7],
      parameters_grad true (se_h s) (se_p s) = Ok (GList [:: None; None]),
      let s' := grun ex_vs s [:: GBack [:: IZR 8; IZR 9]; GZero; GBack [:: IZR 2; IZR 3]] in
      parameters_grad true (se_h s') (se_p s') = Ok (GStack [:: IZR 2; IZR 3]) &
      let s' := grun ex_vs s [:: GInPlace 0 (IZR 4)] in
      parameters true (se_h s') (se_p s') = Ok [:: IZR 4; IZR 7]].
Proof.
split=> //.
have -> : forall s ks gs, grun ex_vs s [:: GBack ks; GZero; GBack gs] =
  grun ex_vs (grun ex_vs s [:: GBack ks]) [:: GZero; GBack gs] by [].
exact: C77_step.
Qed.
(** One tensor for two components receives both derivatives. *)
Example C77_shared_case :
  let s := grun ex_vs ex_s [:: GReq ex_c true; GReq (CLoop 0) true; GUpdate; GNew (IZR 3) true;
                               GAssign [:: 2%N; 2%N]; GZero; GBack [:: IZR 1; IZR 4]] in
  parameters_grad true (se_h s) (se_p s) = Ok (GStack [:: IZR 5; IZR 5]).
Proof.
rewrite /=; congr (Ok (GStack [:: _; _])); rewrite !(mulr1, add0r); exact: one_four.
Qed.

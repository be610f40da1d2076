(** P_State.v -- C28, C37, C38, C39, C44: the circuit object over a history of
    calls. *)
From Coq Require Import Reals ZArith String Lra Lia FunctionalExtensionality.
From Verif.Model Require Import Base Units Settings Elements Edge LCWB Rounding Accuracy HamConst Trunc.
From Verif.Spec Require Import GraphSpec CircuitSpec.
From Verif.Proofs Require Import EdgeProofs LCWBProofs BookProofs.
From mathcomp Require Import all_ssreflect all_algebra.
From mathcomp Require Import complex.
From Verif.Numerics Require Import RStruct Bridge.
From Verif.Model Require Import FluxDist Transform Op Ham Diag CircuitSM.
From Verif.Spec Require Import SessionSpec OpSpec.
From Verif.Proofs Require Import HamProofs6 SMProofs SMProofs2 SMProofs3 SessionCase.

Set Implicit Arguments.
Unset Strict Implicit.
Unset Printing Implicit Defensive.
Import GRing.Theory.
Local Open Scope ring_scope.

(** ** C37 *)

(** After any session without a failing update() the Hamiltonian is that of a new
    circuit: built with the component values (and the numerical outcomes) of the
    last build, given the truncation numbers and charge offsets in force, and
    evaluated with the current component values and fluxes.  Premise: the builds
    of the session give modes of the same number and kinds; labels are not
    negative.  The new circuit may start with any loop objects. *)
Theorem C37_fresh disp optim o s lobj fd d x0 u cs tr lobj' y0 :
  construct optim o s lobj fd d = Some (Ok x0) ->
  (forall e els, List.In (e, els) d -> nonneg e) ->
  let w0 := mkW s u x0 in
  run disp optim w0 cs = Some tr -> updates_ok optim w0 cs tr ->
  let v := view_of (mkV o s None [::]) cs tr in
  let w := final w0 tr in
  construct optim (v_or v) (v_store v) lobj' fd d = Some (Ok y0) ->
  same_kinds x0 y0 -> (forall p, List.In p tr -> same_kinds (w_x p.1) y0) ->
  let y := replay disp v y0 in
  (hamil (w_s w) (w_x w)).2 = (hamil (w_s w) y).2 /\
  [/\ x_st (w_x w) = x_st y, x_m (w_x w) = x_m y, x_C (w_x w) = x_C y, x_B (w_x w) = x_B y &
      x_isl (w_x w) = x_isl y].
Proof.
move=> E0 labels w0 Er Hu v w Ey k0 kp y.
have [[Gx Gy] [Eh EB] Ei [El Ek Ej] _] := session_tracks E0 labels Er Hu Ey k0 kp.
have [-> _] := hamilE (w_s w) Gx; have [-> _] := hamilE (w_s w) Gy.
split; first exact: ham_of_eq.
by case: Eh => *; split.
Qed.
Print Assumptions C37_fresh.

(** Right after an update() the new circuit is built with the current values. *)
Theorem C37_after_update disp optim o s lobj fd d x0 u cs o1 tr w lobj' y0 :
  construct optim o s lobj fd d = Some (Ok x0) ->
  (forall e els, List.In (e, els) d -> nonneg e) ->
  let w0 := mkW s u x0 in
  run disp optim w0 (rcons cs (Update o1)) = Some (rcons tr (w, Ok tt)) ->
  updates_ok optim w0 (rcons cs (Update o1)) (rcons tr (w, Ok tt)) ->
  construct optim o1 (w_s w) lobj' fd d = Some (Ok y0) ->
  same_kinds x0 y0 -> (forall p, List.In p (rcons tr (w, Ok tt)) -> same_kinds (w_x p.1) y0) ->
  let v := view_of (mkV o s None [::]) (rcons cs (Update o1)) (rcons tr (w, Ok tt)) in
  (hamil (w_s w) (w_x w)).2 = (hamil (w_s w) (replay disp v y0)).2.
Proof.
move=> E0 labels w0 Er Hu Ey k0 kp v.
have [e1 e2] := view_after_update (mkV o s None [::]) Er; rewrite -/v in e1 e2.
have Ef : final w0 (rcons tr (w, Ok tt)) = w by rewrite /final map_rcons last_rcons.
have [] := C37_fresh E0 labels Er Hu _ k0 kp (lobj' := lobj').
  by rewrite -/v e1 e2.
by rewrite Ef.
Qed.
Print Assumptions C37_after_update.

(** Whatever the builds give, the operators in the memory are never out of date:
    hamiltonian() is the Hamiltonian of the current modes, truncation, offsets,
    fluxes and component values. *)
Theorem C37_memory disp optim o s lobj fd d x0 u cs tr :
  construct optim o s lobj fd d = Some (Ok x0) ->
  run disp optim (mkW s u x0) cs = Some tr -> updates_ok optim (mkW s u x0) cs tr ->
  let w := final (mkW s u x0) tr in let x := w_x w in
  (hamil (w_s w) x).2 =
    hamiltonian disp (hof x) (evalue (w_s w)) [seq lvalue (w_s w) l | l <- c_loops (x_c x)] (x_B x)
      (mkKeys (c_keys_ind (x_c x)) (c_keys_jj (x_c x))).
Proof.
move=> E0 Er Hu w x; have G := good_run (good_construct disp E0 : good disp (w_x (mkW s u x0))) Er Hu.
by have [] := hamilE (w_s w) G.
Qed.
Print Assumptions C37_memory.

(** An oscillator whose inductance goes from 1 to 4 before update(). *)
Lemma lc_changed : comp_put (lc_store 1) (CEl 1) (mkP (2%:R * 2%:R) false true) = lc_store 2%:R.
Proof.
rewrite /comp_put /lc_store /=; congr mkStore; apply: functional_extensionality => i //=.
- by case: eqP => [->|].
- by case: ifP.
- by case: ifP.
Qed.
Lemma two_pos : Rlt 0 2%:R. Proof. by change (Rlt R0 (Rplus R1 R1)); lra. Qed.
Definition lc_session (k : nat) : seq call :=
  [:: SetTrunc (Some [:: k]); SetComp (CEl 1) (mkP (2%:R * 2%:R) false true); Update (lc_or 2%:R)].
Lemma lc_run disp optim k lobj u x0 :
  construct optim (lc_or 1) (lc_store 1) lobj "junctions" lc_dict = Some (Ok x0) ->
  x_n x0 = 1%N -> is_charge (x_st x0) 0%N = false ->
  exists x1 x2, [/\ run disp optim (mkW (lc_store 1) u x0) (lc_session k) =
    Some [:: (mkW (lc_store 1) u x1, Ok tt); (mkW (lc_store 2%:R) u x1, Ok tt); (mkW (lc_store 2%:R) u x2, Ok tt)],
    same_kinds x1 x0 /\ same_kinds x2 x0, x_m x1 = [:: k] /\ x_m x2 = [:: k] &
    (good disp x1 /\ good disp x2) /\
    c_keys_ind (x_c x2) = [:: ((Z0, Zpos xH), 1%N, 0%N)] /\ t_n0 (x_st x2) = 1%N].
Proof.
move=> E0 n1 c0; have G0 := good_construct disp E0.
have Gt := good_set_trunc (Some [:: k]) G0; have [d0 f0] : x_dict x0 = lc_dict /\ x_fd x0 = "junctions"%string.
  by have [? [? [? [? [_ [_ ->]]]]]] := constructP E0.
have ET : exists x1, [/\ set_trunc disp (Some [:: k]) x0 = (x1, Ok tt), x_n x1 = 1%N /\ is_charge (x_st x1) 0%N = false,
   x_m x1 = [:: k], good disp x1 & x_dict x1 = lc_dict /\ x_fd x1 = "junctions"%string].
  move: Gt; rewrite /set_trunc n1 /= c0; set x1 := put_m _ _.
  have c1 i : (i < x_n x1)%N -> is_charge (x_st x1) i -> isl x1 i := g_charge G0 (i := i).
  have s1 : size (x_m x1) = x_n x1 by rewrite -[x_n x1]/(x_n x0) n1.
  by rewrite (mem_err_none s1 c1) => G1; eexists; split; first by reflexivity.
have [x1 [Es [n2 c2] m1 G1 [d1 f1]]] := ET.
have [c [B [st [Hb [Hn Hm Hc [Hk _]]]]]] := lc_built optim (c_lobj (x_c x1)) two_pos.
have [Hn0 _ _] := built_size Hb; have [st0 [Ec EB Ei Et]] := Hb.
have EU : exists x2, [/\ update disp optim (lc_or 2%:R) (lc_store 2%:R) x1 = Some (x2, None), x_n x2 = 1%N,
    is_charge (x_st x2) 0%N = false, x_m x2 = [:: k] &
    c_keys_ind (x_c x2) = [:: ((Z0, Zpos xH), 1%N, 0%N)] /\ t_n0 (x_st x2) = 1%N].
  rewrite /update n2 d1 f1.
  have /lcwb_lcwb -> : get_LCWB optim (lc_store 2%:R) "junctions" (Z.of_nat 1) (c_lobj (x_c x1)) lc_dict = Ok c by [].
    rewrite EB Ei Et; set y := put_mem _ _ _.
    have -> : mem_err y = None by apply: mem_err_none; rewrite -[x_n y]/(t_n st) Hn ?m1 // => -[|//] _; rewrite /= Hc.
    by eexists; split.
  exact: Zle_0_nat.
have [x2 [EU2 n3 c3 m2 K2]] := EU.
have kk x : x_n x = 1%N -> is_charge (x_st x) 0%N = false -> same_kinds x x0.
  by move=> nx cx; split; [rewrite nx n1 | rewrite nx => -[|//] _; rewrite cx c0].
exists x1, x2; split=> //; last by split=> //; split=> //; apply: good_update G1 EU2.
  by cbn [run step w_x w_s w_u lc_session]; rewrite Es lc_changed EU2.
by split; apply: kk.
Qed.

Example C37_case disp optim k lobj u : exists x0 y0 tr,
  [/\ construct optim (lc_or 1) (lc_store 1) lobj "junctions" lc_dict = Some (Ok x0),
      run disp optim (mkW (lc_store 1) u x0) (lc_session k) = Some tr,
      construct optim (lc_or 2%:R) (lc_store 2%:R) lobj "junctions" lc_dict = Some (Ok y0) &
      let w := final (mkW (lc_store 1) u x0) tr in
      exists A, (hamil (w_s w) (w_x w)).2 = Ok A /\
        (hamil (lc_store 2%:R) (set_trunc disp (Some [:: k]) y0).1).2 = Ok A].
Proof.
have [x0 [E0 n0 c0 _]] := lc_construct optim lobj Rlt_0_1.
have [y0 [Ey ny cy _]] := lc_construct optim lobj two_pos.
have [x1 [x2 [Er [k1 k2] [m1 m2] [[_ G2] K2]]]] := lc_run disp k u E0 n0 c0.
exists x0, y0; eexists; split; [exact: E0 | exact: Er | exact: Ey |].
have kk x : same_kinds x x0 -> same_kinds x y0.
  by move=> [a b]; split; [rewrite a n0 ny | move=> i hi; rewrite b //; move: hi; rewrite a n0; case: i => // _; rewrite c0 cy].
have [] := @C37_fresh disp optim _ _ _ _ _ _ u _ _ lobj y0 E0 _ Er isT.
- by move=> e els [[<- _]|//].
- exact: Ey.
- by apply: kk; split.
- by move=> p /= [<-|[<-|[<-|//]]]; apply: kk.
rewrite -[replay _ _ _]/(set_trunc disp (Some [:: k]) y0).1 -[w_s _]/(lc_store 2%:R) -[w_x _]/x2 => Eh _.
rewrite /= -Eh; have [-> _] := hamilE (lc_store 2%:R) G2.
have [A EA] : exists A, ham_of disp (lc_store 2%:R) x2 = Ok A; last by exists A.
have n2 : x_n x2 = 1%N by case: k2 => -> _.
apply: hamiltonian_total; first by rewrite /= m2.
- by rewrite /hn -[t_n _]/(x_n x2) n2.
move=> kq /=; move: K2.
by case=> -> -> [<-|//] /=; right; split=> //; split; lia.
Qed.

(** ** C28 *)

(** When truncation numbers are set, a build from the current values succeeds
    and its charge modes have islands, update() succeeds and leaves the matrices
    and modes of that build. *)
Theorem C28_refreshes disp optim o s x c B st : good disp x -> x_m x <> [::] ->
  built optim o s (x_fd x) (x_dict x) (x_n x) (c_lobj (x_c x)) c B st ->
  (forall i, (i < x_n x)%N -> is_charge st i -> isl x i) ->
  exists x', update disp optim o s x = Some (x', None) /\
    [/\ x_c x' = c, x_C x' = c_C c, x_B x' = B, x_st x' = st & good disp x'].
Proof.
move=> G m0 Hb ch; have En := built_n Hb; have [st0 [Ec EB Ei Et]] := Hb.
have [x' [EU Ef]] : exists x', update disp optim o s x = Some (x', None) /\
    [/\ x_c x' = c, x_C x' = c_C c, x_B x' = B & x_st x' = st].
  rewrite /update; have /lcwb_lcwb -> : get_LCWB optim s (x_fd x) (Z.of_nat (x_n x)) (c_lobj (x_c x)) (x_dict x) = Ok c by [].
    rewrite EB Ei Et; set y := put_mem _ _ _.
    have ny : x_n y = x_n x by rewrite -[x_n y]/(t_n st).
    have -> : mem_err y = None.
      apply: mem_err_none; rewrite ny //; case: (g_ops G) => [//|F]; exact: (fo_size F).
    by eexists; split; first by reflexivity.
  exact: Zle_0_nat.
exists x'; split=> //; case: Ef => *; split=> //; exact: good_update G EU.
Qed.
Print Assumptions C28_refreshes.

(** A removed mode: [n0] is the number of nodes.  From then on, over any session,
    no update() ever succeeds; with proper edges and nonzero inductances it
    raises IndexError. *)
Theorem C28_removed_refuted disp optim o s lobj fd d x0 u cs tr n0 :
  construct optim o s lobj fd d = Some (Ok x0) ->
  (forall e els, List.In (e, els) d -> nonneg e /\ fst e <> snd e) ->
  node_count (List.map fst d) = Ok (Z.of_nat n0) -> (x_n x0 < n0)%N ->
  run disp optim (mkW s u x0) cs = Some tr ->
  let w := final (mkW s u x0) tr in forall o1,
    (forall x1 r, update disp optim o1 (w_s w) (w_x w) = Some (x1, r) -> r <> None) /\
    ((forall e els, List.In (e, els) d -> ~ bad_ind (w_s w) els) ->
      exists x1, update disp optim o1 (w_s w) (w_x w) = Some (x1, Some IndexError)).
Proof.
move=> E0 Hd count Hn Er w o1.
have d0 : x_dict x0 = d by have [? [? [? [? [_ [_ ->]]]]]] := constructP E0.
have [nw dw] : x_n (w_x w) = x_n x0 /\ x_dict (w_x w) = d.
  rewrite /w /final; case: (lastP tr) Er => [|tr' p] Er; first by rewrite /=.
  rewrite map_rcons last_rcons.
  have Hp : List.In p (rcons tr' p) by rewrite -cats1; apply/List.in_or_app; right; left.
  by have [-> -> _] := frame_run Er Hp.
split=> [x1 r EU|Hb].
  apply: (update_removed EU (n0 := n0)); rewrite ?dw ?nw // => e els hin; exact: (Hd e els hin).1.
apply: (update_removed_index disp _ _ (n0 := n0)); rewrite ?dw ?nw // => e els hin.
by have [a b] := Hd e els hin; split=> //; split=> //; apply: Hb hin.
Qed.
Print Assumptions C28_removed_refuted.

(** Without truncation numbers no update() succeeds; if the build from the current
    values succeeds it raises IndexError. *)
Theorem C28_untruncated_refuted disp optim o s x : x_m x = [::] -> (0 < x_n x)%N ->
  (forall x' r, update disp optim o s x = Some (x', r) -> r <> None) /\
  (forall c B st, built optim o s (x_fd x) (x_dict x) (x_n x) (c_lobj (x_c x)) c B st ->
    (is_charge st 0 -> isl x 0) -> exists x', update disp optim o s x = Some (x', Some IndexError)).
Proof.
move=> m0 n0; split=> [x' r EU|c B st Hb ch]; first exact: update_untruncated m0 n0 EU.
exact: update_untruncated_index Hb ch.
Qed.
Print Assumptions C28_untruncated_refuted.

(** What the failing update() leaves behind when the first edge of the dictionary
    has a node beyond the remaining modes: no keys, loops or parameters.
    hamiltonian() does not complain, it returns the linear part alone, and the
    results of the last diagonalisation are still served. *)
Theorem C28_corrupted disp optim o s x e els d' : x_dict x = (e, els) :: d' -> nonneg e ->
  Z.lt (Z.of_nat (x_n x)) (Z.max e.1 e.2) -> x_m x <> [::] ->
  exists x', [/\ update disp optim o s x = Some (x', Some IndexError),
    c_keys_ind (x_c x') = [::] /\ c_keys_jj (x_c x') = [::],
    c_loops (x_c x') = [::] /\ c_params (x_c x') = [::],
    (forall s', (hamil s' x').2 = if x_LC x is Some A then Ok A else Err AttributeError) &
    x_eig x' = x_eig x].
Proof.
move=> Ed Hn Hg m0; rewrite (update_first_edge disp _ _ _ Ed Hn Hg); eexists; split; first by reflexivity.
- by [].
- by [].
- by move=> s'; apply: hamil_no_keys.
- by [].
Qed.
Print Assumptions C28_corrupted.

(** Two uncoupled oscillators, one removed: construction succeeds, one mode is
    left, and update() with unchanged values raises IndexError. *)
Example C28_removed_case disp lobj u k o1 : exists x0 x1 x2,
  [/\ construct false rm_or rm_store lobj "junctions" rm_dict = Some (Ok x0), x_n x0 = 1%N,
      step disp false (mkW rm_store u x0) (SetTrunc (Some [:: k])) = Some (mkW rm_store u x1, Ok tt),
      update disp false o1 rm_store x1 = Some (x2, Some IndexError) & c_keys_ind (x_c x2) = [::]].
Proof.
have [x0 [E0 n0 d0 c0]] := rm_construct lobj; exists x0.
have G0 := good_construct disp E0.
have [x1 [Es n1 m1 d1]] : exists x1, [/\ set_trunc disp (Some [:: k]) x0 = (x1, Ok tt), x_n x1 = 1%N,
   x_m x1 = [:: k] & x_dict x1 = rm_dict].
  rewrite /set_trunc n0 /= c0; set x1 := put_m _ _.
  have c1 i : (i < x_n x1)%N -> is_charge (x_st x1) i -> isl x1 i := g_charge G0 (i := i).
  have s1 : size (x_m x1) = x_n x1 by rewrite -[x_n x1]/(x_n x0) n0.
  by rewrite (mem_err_none s1 c1); eexists; split; first by reflexivity.
have mm : x_m x1 <> [::] by rewrite m1.
have nn : nonneg (Z0, Zpos (xO xH)) by split.
have gt : Z.lt (Z.of_nat (x_n x1)) (Z.max Z0 (Zpos (xO xH))) by rewrite n1.
have [x2 [EU [k2 _] _ _ _]] := C28_corrupted disp false o1 rm_store d1 nn gt mm.
by exists x1, x2; split=> //; rewrite /step Es.
Qed.

Example C28_untruncated_case disp optim lobj : exists x0 x1,
  [/\ construct optim (lc_or 1) (lc_store 1) lobj "junctions" lc_dict = Some (Ok x0),
      update disp optim (lc_or 1) (lc_store 1) x0 = Some (x1, Some IndexError) & x_n x0 = 1%N].
Proof.
have [x0 [E0 n0 c0 _]] := lc_construct optim lobj Rlt_0_1; exists x0.
have [m0 [d0 f0]] : x_m x0 = [::] /\ x_dict x0 = lc_dict /\ x_fd x0 = "junctions"%string.
  by have [? [? [? [? [_ [_ ->]]]]]] := constructP E0.
have [c [B [st [Hb [_ _ Hc _]]]]] := lc_built optim (c_lobj (x_c x0)) Rlt_0_1.
have [|_ /(_ c B st)] := C28_untruncated_refuted disp optim (lc_or 1) (lc_store 1) m0; first by rewrite n0.
rewrite d0 f0 n0 => /(_ Hb) []; first by rewrite Hc.
by move=> x1 EU; exists x1.
Qed.

(** ** C38 *)

(** Over any session from construction -- failing calls included -- a method that
    needs results raises CircuitStateError exactly when no diag() has succeeded
    since construction or the last successful update(). *)
Theorem C38_results disp optim o s lobj fd d x0 u cs tr :
  construct optim o s lobj fd d = Some (Ok x0) ->
  (forall c, List.In c cs -> solver_answers c) ->
  run disp optim (mkW s u x0) cs = Some tr ->
  forall rd, reader_guard rd (x_eig (w_x (final (mkW s u x0) tr))) =
    if served false cs tr then Ok tt else Err CircuitStateError.
Proof.
move=> E0 Hs Er rd; apply: reader_has; apply: (served_run Hs _ Er).
by have [? [? [? [? [_ [_ ->]]]]]] := constructP E0.
Qed.
Print Assumptions C38_results.

(** hamiltonian() and diag() raise it until set_trunc_nums has been called with
    one number per mode; afterwards hamiltonian() never raises it. *)
Theorem C38_truncation disp optim o s lobj fd d x0 u cs tr :
  construct optim o s lobj fd d = Some (Ok x0) -> (0 < x_n x0)%N ->
  run disp optim (mkW s u x0) cs = Some tr ->
  let w := final (mkW s u x0) tr in
  if truncated false (mkW s u x0) cs tr
  then (hamil (w_s w) (w_x w)).2 <> Err CircuitStateError
  else hamil (w_s w) (w_x w) = (w_x w, Err CircuitStateError) /\
       forall eigs argsort k, diag_sm eigs argsort (w_u w) k (w_s w) (w_x w) = (w_x w, Err CircuitStateError).
Proof.
move=> E0 n0 Er w.
have <- : (x_m (w_x w) != [::]) = truncated false (mkW s u x0) cs tr.
  by apply: trunc_run Er => //; have [? [? [? [? [_ [_ ->]]]]]] := constructP E0.
case: eqP => [m0|m0] /=; last exact: hamil_not_state.
by rewrite /hamil /diag_sm m0 /=; split.
Qed.
Print Assumptions C38_truncation.

(** New truncation numbers or offsets do not withdraw the results: those of the
    old settings are still served. *)
Theorem C38_stale disp x l m v : let x1 := (set_trunc disp l x).1 in let x2 := (set_offset m v x).1 in
  x_eig x1 = x_eig x /\ x_eig x2 = x_eig x.
Proof.
rewrite /set_trunc /set_offset; split.
  by case: l => [l|] //; case: ifP => // _; case: mem_err.
by case: island_of => [i|] //; case: ifP => // _; case: mem_err.
Qed.
Print Assumptions C38_stale.

Definition case_solver : eigs_fun := fun _ _ _ => EigsOk [:: 0] (fun _ _ => 0).
Definition case_calls : seq call :=
  [:: Read REfreqs; Hamil] ++ lc_session 2 ++ [:: DiagC case_solver (fun=> [:: 0%N]) (Some (Zpos xH)); Read RDecRate;
      Update (lc_or 2%:R); Read REvecs].
Example C38_case disp optim lobj u : exists x0 tr,
  [/\ construct optim (lc_or 1) (lc_store 1) lobj "junctions" lc_dict = Some (Ok x0),
      run disp optim (mkW (lc_store 1) u x0) case_calls = Some tr &
      [seq p.2 | p <- tr] = [:: Err CircuitStateError; Err CircuitStateError; Ok tt; Ok tt; Ok tt; Ok tt; Ok tt;
        Ok tt; Err CircuitStateError]].
Proof.
have [x0 [E0 n0 c0 _]] := lc_construct optim lobj Rlt_0_1.
have [m0 e0] : x_m x0 = [::] /\ x_eig x0 = mkE [::] [::].
  by have [? [? [? [? [_ [_ ->]]]]]] := constructP E0.
have [x1 [x2 [Er [k1 k2] [m1 m2] [[G1 G2] [K2 N2]]]]] := lc_run disp 2 u E0 n0 c0.
have n2 : x_n x2 = 1%N by case: k2 => -> _.
have [A EA] : exists A, ham_of disp (lc_store 2%:R) x2 = Ok A.
  apply: hamiltonian_total; first by rewrite /= m2.
  - by rewrite /hn -[t_n _]/(x_n x2) n2.
  by move=> kq /=; rewrite K2 N2 => -[<-|//] /=; right; split=> //; split; lia.
have [d2 f2] : x_dict x2 = lc_dict /\ x_fd x2 = "junctions"%string.
  have [? [? [? [? [_ [_ Ex]]]]]] := constructP E0.
  have [] := frame_run Er (or_intror (or_intror (or_introl erefl))); rewrite /= => _ -> ->; by rewrite Ex.
have [hE [M [hM hs]]] := hamilE (lc_store 2%:R) G2; rewrite EA in hE.
pose x3 := put_eig (put_mem x2 M (x_LC x2)) (sort_eigs (fun=> [:: 0%N]) [:: 0] (fun _ _ => 0)).
have ED : diag_sm case_solver (fun=> [:: 0%N]) u (Some (Zpos xH)) (lc_store 2%:R) x2 =
   (x3, Ok ([seq in_unit u f | f <- e_freqs (x_eig x3)], e_vecs (x_eig x3))).
  by rewrite /diag_sm m2 /=; case: hamil hE hM => z h /= -> ->.
have G3 : good disp x3 by apply: good_put_eig; apply: good_put_mem.
have [c [B [st [Hb [_ _ Hc _]]]]] := lc_built optim (c_lobj (x_c x3)) two_pos.
have [x4 [EU [e1 e2 e3 e4 G4]]] : exists x', update disp optim (lc_or 2%:R) (lc_store 2%:R) x3 = Some (x', None) /\
    [/\ x_c x' = c, x_C x' = c_C c, x_B x' = B, x_st x' = st & good disp x'].
  apply: (C28_refreshes G3); first by rewrite /= m2.
    by rewrite -[x_fd x3]/(x_fd x2) -[x_dict x3]/(x_dict x2) -[x_n x3]/(x_n x2) d2 f2 n2.
  by rewrite -[x_n x3]/(x_n x2) n2 => -[|//] _; rewrite Hc.
have e5 : x_eig x4 = mkE [::] [::].
  by have [c' [B' [st' [_ [_ ->]]]]] := update_okP EU.
have H0 : hamil (lc_store 1) x0 = (x0, Err CircuitStateError) by rewrite /hamil m0.
have [ET EU1] : set_trunc disp (Some [:: 2%N]) x0 = (x1, Ok tt) /\
    update disp optim (lc_or 2%:R) (lc_store 2%:R) x1 = Some (x2, None).
  move: Er; cbn [run step lc_session w_x w_s w_u]; case: set_trunc => z r.
  cbn [run step w_x w_s w_u]; rewrite lc_changed.
  case EU1: update => [[z1 r1]|] // [Ez Er1 _ Ez1 Er2]; move: EU1; rewrite Ez Er1 Ez1.
  by case: r1 Er2.
exists x0; eexists; split; first exact: E0.
  cbn [case_calls cat run step lc_session w_x w_s w_u]; rewrite H0.
  cbn [run step w_x w_s w_u]; rewrite ET; cbn [run step w_x w_s w_u]; rewrite lc_changed EU1.
  cbn [run step w_x w_s w_u]; rewrite ED; cbn [run step w_x w_s w_u]; rewrite EU.
  by reflexivity.
by rewrite /= e0 e5.
Qed.

(** ** C39 *)

(** set_charge_noise never succeeds and changes nothing. *)
Theorem C39_never_refuted mode amp x : exists e, set_charge_noise mode amp x = (x, Err e) /\
  (e = AttributeError <-> exists z, mode = Some z /\ Z.le 1 z /\ isl x (Z.to_nat (z - 1))) /\
  (e = ValueError \/ e = AttributeError).
Proof.
rewrite /set_charge_noise /island_of; case: mode => [z|]; last first.
  by exists ValueError; split=> //; split; [split=> // -[? []] | left].
case: (Z.leb_spec 1 z) => Hz /=; last first.
  exists ValueError; split=> //; split; last by left.
  by split=> // -[z' [[<-] [h _]]]; exfalso; lia.
case Ei: isSome; last first.
  exists ValueError; split=> //; split; last by left.
  by split=> // -[z' [[<-] [_ h]]]; rewrite h in Ei.
by exists AttributeError; split=> //; split; [split=> // _; exists z; rewrite Ei | right].
Qed.
Print Assumptions C39_never_refuted.

(** A transmon-like object: one charge mode. *)
Example C39_case amp : let x := mkX [::] "junctions" (cst0 (fun=> mkL nil nil)) eye eye
     (mkT 1 1 1 1 eye eye eye eye eye eye (fun=> 0)) [:: Some (0, noise_default)] [::] mem0 None (mkE [::] [::]) in
  set_charge_noise (Some (Zpos xH)) amp x = (x, Err AttributeError) /\
  set_charge_noise (Some (Zpos (xO xH))) amp x = (x, Err ValueError) /\
  (exists x', set_offset (Some (Zpos xH)) amp x = (x', Ok tt)).
Proof. by split=> //; split=> //; eexists. Qed.

(** ** C44 *)

(** At least as many values as parameters: the i-th parameter gets the i-th value
    with its flags, every other component and all other attributes keep theirs,
    and update() runs on the result.  The parameters are pairwise different
    (BookProofs), so each is set once. *)
Theorem C44_assigned disp o vs s x k0 v0 :
  let ks := [seq p.1 | p <- c_params (x_c x)] in
  List.NoDup ks -> (size ks <= size vs)%N ->
  exists s1, [/\ set_params disp true o vs s x =
                 (if update disp true o s1 x is Some (x1, r) then Some (s1, x1, r) else None),
    (forall i, (i < size ks)%N -> comp_get s1 (nth k0 ks i) = nth v0 vs i),
    (forall k, ~ List.In k ks -> comp_get s1 k = comp_get s k) &
    same_rest s1 s].
Proof.
move=> ks Nd Hs; exists (assign ks vs s).1.
have E2 := assignE ks vs s; rewrite Hs in E2.
split.
- by rewrite /set_params /= -/ks; case: assign E2 => s1 r /= ->.
- by move=> i Hi; apply: assign_nth => //; apply: leq_trans Hi Hs.
- by move=> k N; apply: assign_other; rewrite take_oversize.
- exact: assign_rest.
Qed.
Print Assumptions C44_assigned.

(** The parameters of every build are pairwise different. *)
Theorem C44_distinct optim s fd n lobj d c : get_LCWB optim s fd n lobj d = Ok c ->
  List.NoDup [seq p.1 | p <- c_params c].
Proof.
move/LCWB_params; case: optim => ->; last by constructor.
have -> : [seq p.1 | p <- List.map (fun k => (k, cvalue s k)) (firsts comp_eqb [::] (List.filter (tracked s) (visits s d)))] =
   firsts comp_eqb [::] (List.filter (tracked s) (visits s d)).
  by elim: firsts => //= a l ->.
by apply: firsts_NoDup; exact: comp_eqb_spec.
Qed.
Print Assumptions C44_distinct.

(** Too few values: ValueError, the circuit is not updated, but the components
    for which there were values have been overwritten. *)
Theorem C44_short_refuted disp o vs s x k0 v0 :
  let ks := [seq p.1 | p <- c_params (x_c x)] in
  List.NoDup ks -> (size vs < size ks)%N ->
  exists s1, [/\ set_params disp true o vs s x = Some (s1, x, Some ValueError),
    (forall i, (i < size vs)%N -> comp_get s1 (nth k0 ks i) = nth v0 vs i) &
    (forall i, (size vs <= i < size ks)%N -> comp_get s1 (nth k0 ks i) = comp_get s (nth k0 ks i))].
Proof.
move=> ks Nd Hs; exists (assign ks vs s).1.
have E2 := assignE ks vs s; rewrite leqNgt Hs in E2.
split.
- by rewrite /set_params /= -/ks; case: assign E2 => s1 r /= ->.
- by move=> i Hi; apply: assign_nth => //; apply: ltn_trans Hi Hs.
- move=> i /andP [Hi1 Hi2]; apply: assign_other => h.
  have [j [hj Ej]] : exists j, (j < size vs)%N /\ nth k0 ks j = nth k0 ks i.
    have : forall l, List.In (nth k0 ks i) l -> exists j, (j < size l)%N /\ nth k0 l j = nth k0 ks i.
      by elim=> [|a l IH] //= [->|/IH [j [a1 a2]]]; [exists 0%N | exists j.+1].
    case/(_ _ h) => j [hj ej]; move: hj; rewrite size_take Hs => hj; exists j; split=> //.
    by rewrite -ej nth_take.
  have Hj := ltn_trans hj Hs.
  have := proj1 (List.NoDup_nth ks k0) Nd j i.
  have nl (q : nat) : List.nth q ks k0 = nth k0 ks q by elim: (ks) q => [|a l IH] [|q] //=; rewrite IH.
  rewrite !nl => /(_ (elimT ltP Hj) (elimT ltP Hi2) Ej) Eji.
  by move: hj; rewrite Eji ltnNge Hi1.
Qed.
Print Assumptions C44_short_refuted.

(** Values beyond the last parameter are dropped silently. *)
Theorem C44_long_refuted disp o vs more s x : size vs = size (c_params (x_c x)) ->
  set_params disp true o (vs ++ more) s x = set_params disp true o vs s x.
Proof. by move=> E; rewrite /set_params /= assign_long // size_map. Qed.
Print Assumptions C44_long_refuted.

(** In the NumPy engine the assignment raises ModeError and changes nothing. *)
Theorem C44_numpy disp o vs s x : set_params disp false o vs s x = Some (s, x, Some ModeError).
Proof. by []. Qed.
Print Assumptions C44_numpy.

(** Assigning values that do not require a gradient: after the update that
    follows, these components are no parameters any more. *)
Theorem C44_dropped_refuted disp o vs s x s1 x1 k :
  List.NoDup [seq p.1 | p <- c_params (x_c x)] ->
  size vs = size (c_params (x_c x)) -> (forall v, List.In v vs -> p_req v = false /\ p_leaf v = true) ->
  List.In k [seq p.1 | p <- c_params (x_c x)] ->
  set_params disp true o vs s x = Some (s1, x1, None) -> ~ List.In k [seq p.1 | p <- c_params (x_c x1)].
Proof.
move=> Nd Es Hv Hk; set ks := [seq p.1 | p <- c_params (x_c x)] in Nd Hk *.
have Hsz : (size ks <= size vs)%N by rewrite Es size_map.
have [s2 [-> Hset _ _]] := C44_assigned disp o s (CEl 0) (mkP 0 false true) Nd Hsz.
case EU: update => [[x2 r]|] // [? ? ?]; subst s1 x1 r.
have [c [B [st [[st0 [Ec _ _ _]] [_ ->]]]]] := update_okP EU; rewrite /= (LCWB_params _ _ _ _ _ _ _ Ec) => Hin.
have [j [hj Ej]] : exists j, (j < size ks)%N /\ nth (CEl 0) ks j = k.
  by elim: (ks) Hk => [|a l IH] //= [->|/IH [j [a1 a2]]]; [exists 0%N | exists j.+1].
have := Hset j hj; rewrite Ej /comp_get.
have [|q1 q2] := Hv (nth (mkP 0 false true) vs j).
  have : (j < size vs)%N by apply: leq_trans hj Hsz.
  by elim: (vs) j {hj Ej} => [|a l IH] [|j] //= h; [left | right; apply: IH].
move=> /(congr1 (fun p => (p_req p, p_leaf p))) /=; rewrite q1 q2 => -[r1 r2].
have : List.In k (firsts comp_eqb [::] (List.filter (tracked s2) (visits s2 (x_dict x)))).
  move: Hin; elim: firsts => //= a l IH [<-|h]; [by left | by right; apply: IH].
move/(firsts_In comp_eqb comp_eqb_spec) => [/List.filter_In [_ +] _].
by rewrite /tracked r1 r2.
Qed.
Print Assumptions C44_dropped_refuted.

(** Two parameters. *)
Definition par_store : store :=
  mkStore (fun=> KCap) (fun=> 1) (fun i => (i < 2)%N) (fun=> true) (fun=> 2%N) (fun=> [::]) (fun=> 0) (fun=> false) (fun=> true).
Definition par_x : circ :=
  mkX [::] "junctions" (mkC nil (fun=> mkL nil nil) nil nil [:: (CEl 0, R1); (CEl 1, R1)] (fun=> None) 0 0 nil nil
        (fun _ _ => R0) (fun _ _ => R0) nil 0) eye eye
     (mkT 1 1 0 0 eye eye eye eye eye eye (fun=> 1)) [:: None] [::] mem0 None (mkE [::] [::]).
Example C44_case disp o : exists s1,
  [/\ set_params disp true o [:: mkP 2%:R true true] par_store par_x = Some (s1, par_x, Some ValueError),
      evalue s1 0%N = 2%:R & evalue s1 1%N = 1].
Proof. by eexists; split; first by reflexivity. Qed.

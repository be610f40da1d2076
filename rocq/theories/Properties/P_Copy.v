(** P_Copy.v -- claims C42 and C43: safecopy, picklecopy, pickling. *)
From Coq Require Import Reals ZArith String Lra.
From Verif.Model Require Import Base Units Settings Elements Edge LCWB Rounding HamConst.
From Verif.Spec Require Import CircuitSpec.
From mathcomp Require Import all_ssreflect all_algebra.
From mathcomp Require Import complex.
From Verif.Numerics Require Import RStruct Bridge.
From Verif.Model Require Import FluxDist Transform Op Ham Diag CircuitSM Copy.
From Verif.Spec Require Import CopySpec.
From Verif.Proofs Require Import SMProofs CopyProofs CopyProofs2 CopyProofs3 CopySession CopyProofs4.
From Verif.Proofs Require Import SessionCase CopyCase.
From Verif.Spec Require Import CopySpec.

Set Implicit Arguments.
Unset Strict Implicit.
Unset Printing Implicit Defensive.
Import GRing.Theory.
Local Open Scope ring_scope.

(** ** C42 *)

(** Whatever the engine, the sharing and the state: a copy that is returned shows
    the same elements with the same values on the same edges, has the same
    matrices, operators and Hamiltonian, has the eigenpairs or none, consists of
    new objects, and the old objects are as they were. *)
Theorem C42_values optim save_eigs hp ob hp' ob' :
  lives (hp_e hp) (hp_l hp) (hp_s hp) (ob_x ob) ->
  safecopy optim save_eigs hp ob = Ok (hp', ob') ->
  [/\ shows (hp_s hp') (ob_x ob') = shows (hp_s hp) (ob_x ob),
      (hamil (hp_s hp') (ob_x ob')).2 = (hamil (hp_s hp) (ob_x ob)).2,
      same_numbers (ob_x ob) (ob_x ob') /\ same_ops (x_mem (ob_x ob)) (x_mem (ob_x ob')),
      x_eig (ob_x ob') = (if save_eigs then x_eig (ob_x ob) else mkE [::] [::]) &
      apart (hp_e hp) (hp_l hp) (hp_s hp') (ob_x ob') /\
      untouched (hp_e hp) (hp_l hp) (hp_s hp) (hp_s hp')].
Proof. by move=> liv E; have [h1 h2 h3 h4 h5] := safecopy_values liv E. Qed.
Print Assumptions C42_values.

(** NumPy engine: safecopy always returns, the copy has the same sharing, and every
    later session goes with it as with the original without eigenpairs: every
    call returns or raises the same. *)
Theorem C42_numpy hp ob : lives (hp_e hp) (hp_l hp) (hp_s hp) (ob_x ob) ->
  exists hp' ob' fe fl, safecopy false false hp ob = Ok (hp', ob') /\
    same_circuit (hp_s hp) (ob_x ob) (hp_s hp') (ob_x ob') fe fl /\
    forall disp optim u ks, closed (hp_s hp) (ob_x ob) ->
      (forall k, List.In k ks -> call_in (hp_s hp) (ob_x ob) k) ->
      omap (fun tr => [seq p.2 | p <- tr])
           (run disp optim (mkW (hp_s hp') u (ob_x ob')) [seq ren_call fe fl k | k <- ks]) =
      omap (fun tr => [seq p.2 | p <- tr])
           (run disp optim (mkW (hp_s hp) u (put_eig (ob_x ob) (mkE [::] [::]))) ks).
Proof.
move=> liv; set x0 := put_eig (ob_x ob) (mkE [::] [::]).
do 2!eexists; exists (addn^~ (hp_e hp)), (addn^~ (hp_l hp)); split; first by reflexivity.
split; first exact: (put_eig_right (mkE [::] [::]) (shown_shift liv)).
move=> disp optim u ks Cl H.
have l0 : lives (hp_e hp) (hp_l hp) (hp_s hp) x0 by [].
have c0 : closed (hp_s hp) x0 by case: Cl => *; split.
have := run_twins disp optim (ks := ks) (deep_twins u l0 c0) H; rewrite /=.
by case: run => [tr|]; case: run => [tr'|] //= [->].
Qed.
Print Assumptions C42_numpy.

(** PyTorch engine: the copy has the same sharing when no element is placed twice
    and no own capacitor is also on an edge. *)
Theorem C42_torch save_eigs hp ob hp' ob' :
  lives (hp_e hp) (hp_l hp) (hp_s hp) (ob_x ob) ->
  uniq (flatten [seq p.2 | p <- x_dict (ob_x ob)]) -> uniq (c_loops (x_c (ob_x ob))) ->
  (forall el, on_edge (ob_x ob) el -> inductive_el (hp_s hp) el -> ~ on_edge (ob_x ob) (ecap (hp_s hp) el)) ->
  safecopy true save_eigs hp ob = Ok (hp', ob') ->
  exists fe fl, same_circuit (hp_s hp) (ob_x ob) (hp_s hp') (ob_x ob') fe fl.
Proof.
move=> liv uE uL H; apply: safecopy_torch => // el /on_edgeP h1 h2.
by apply/negP => /on_edgeP; exact: H.
Qed.
Print Assumptions C42_torch.

(** PyTorch engine, a circuit as it is constructed: safecopy returns iff the own
    capacitor of every inductive element is a leaf and is also on an edge when it
    requires grad. *)
Theorem C42_torch_returns hp o lobj fd d x :
  construct true o (hp_s hp) lobj fd d = Some (Ok x) ->
  (forall el, on_edge x el -> inductive_el (hp_s hp) el -> eleaf (hp_s hp) (ecap (hp_s hp) el)) ->
  (exists hp' ob', safecopy true false hp (new_obj x) = Ok (hp', ob')) <->
  (forall el, on_edge x el -> inductive_el (hp_s hp) el -> ereq (hp_s hp) (ecap (hp_s hp) el) ->
     on_edge x (ecap (hp_s hp) el)).
Proof.
move=> /constructP [n [c [B [st [[st0 [Ec _ _ _]] [_ E]]]]]] leaf.
have Ec' : get_LCWB true (hp_s hp) fd (Z.of_nat n) lobj (x_dict x) = Ok (x_c x) by rewrite E.
have L := built_lookups Ec'; split.
  case=> hp' [ob' /torch_ok [ok _ _ _ _]] el h1 h2 h3; apply: (L.1 ok) => //.
  by rewrite /tracked /= h3.
move=> H; have ok : lookups_ok hp x.
  apply/L => el h1 h2; rewrite /tracked /= (leaf el h1 h2) orbF; exact: H.
rewrite /safecopy /= ok /=; case: ifP => [/hasP [el /on_edgeP h1 /andP [h2]]|_].
  by rewrite (leaf el h1 h2).
by do 2!eexists.
Qed.
Print Assumptions C42_torch_returns.

(** An own capacitor that requires grad: KeyError. *)
Theorem C42_keyerror_refuted save_eigs hp o lobj fd d x el :
  construct true o (hp_s hp) lobj fd d = Some (Ok x) ->
  on_edge x el -> inductive_el (hp_s hp) el -> ereq (hp_s hp) (ecap (hp_s hp) el) ->
  ~ on_edge x (ecap (hp_s hp) el) ->
  safecopy true save_eigs hp (new_obj x) = Err KeyError.
Proof.
move=> /constructP [n [c [B [st [[st0 [Ec _ _ _]] [_ E]]]]]] h1 h2 h3 h4.
have Ec' : get_LCWB true (hp_s hp) fd (Z.of_nat n) lobj (x_dict x) = Ok (x_c x) by rewrite E.
rewrite /safecopy /=; case: (boolP (lookups_ok hp x)) => // /(built_lookups Ec') H.
by case: h4; apply: H => //; rewrite /tracked /= h3.
Qed.
Print Assumptions C42_keyerror_refuted.
Example C42_keyerror_case : exists x,
  construct true (lc_or 1) (cp_store (cp_val false 1) (pred1 2%N)) (fun=> mkL [::] [::]) "junctions" (cp_dict false)
    = Some (Ok x) /\
  safecopy true false (cp_heap (cp_val false 1) (pred1 2%N)) (new_obj x) = Err KeyError.
Proof.
have [x [E D]] := cp_construct true (pred1 2%N) false (fun=> mkL [::] [::]) Rlt_0_1.
exists x; split=> //.
apply: (C42_keyerror_refuted (hp := cp_heap _ _) (el := 1%N) _ E) => //; first by apply/(cp_on _ D).
by move/(cp_on _ D).
Qed.

(** An element placed twice: in the copy the two places hold different elements,
    and the one in the earlier place is named by no key and no parameter. *)
Theorem C42_shared_refuted save_eigs hp ob hp' ob' i j :
  safecopy true save_eigs hp ob = Ok (hp', ob') ->
  let places x := flatten [seq p.2 | p <- x_dict x] in
  (i < j)%N -> (j < size (places (ob_x ob)))%N -> nth 0%N (places (ob_x ob)) i = nth 0%N (places (ob_x ob)) j ->
  let a := nth 0%N (places (ob_x ob')) i in
  [/\ size (places (ob_x ob')) = size (places (ob_x ob)), a != nth 0%N (places (ob_x ob')) j,
      forall k, List.In k (c_keys_ind (x_c (ob_x ob'))) -> k.1.2 != a,
      forall k, List.In k (c_keys_jj (x_c (ob_x ob'))) -> k.1.1.2 != a &
      forall p, List.In p (c_params (x_c (ob_x ob'))) -> p.1 <> CEl a].
Proof.
move=> E places h1 h2 h3 a; have [e1 e2 e3 e4] := torch_lost E h1 h2 h3.
by split=> //; exact: torch_size E.
Qed.
Print Assumptions C42_shared_refuted.
Example C42_shared_case : exists x hp' ob',
  [/\ construct true (lc_or 1) (cp_store (cp_val true 1) xpred0) (fun=> mkL [::] [::]) "junctions" (cp_dict true)
        = Some (Ok x),
      safecopy true false (cp_heap (cp_val true 1) xpred0) (new_obj x) = Ok (hp', ob') &
      x_dict (ob_x ob') = [:: ((Z0, Zpos xH), [:: 9; 10; 11]%N)]].
Proof.
have [x [E D]] := cp_construct true xpred0 true (fun=> mkL [::] [::]) Rlt_0_1.
have [hp' [ob' E1]] : exists hp' ob', safecopy true false (cp_heap (cp_val true 1) xpred0) (new_obj x) = Ok (hp', ob').
  by apply/(C42_torch_returns (hp := cp_heap _ _) E).
exists x, hp', ob'; split=> //; have [_ _ -> _ _] := torch_ok E1.
by rewrite /= /relabel /placed D.
Qed.

(** In the PyTorch engine nothing on the edges of the copy requires grad; after
    the next update only own capacitors can be parameters. *)
Theorem C42_detached save_eigs hp ob hp' ob' disp o y :
  safecopy true save_eigs hp ob = Ok (hp', ob') ->
  [/\ forall i, on_edge (ob_x ob') i -> ereq (hp_s hp') i = false,
      forall l, l \in c_loops (x_c (ob_x ob')) -> lreq (hp_s hp') l = false &
      (forall el l, on_edge (ob_x ob') el -> inductive_el (hp_s hp') el -> l \in eloops (hp_s hp') el ->
         l \in c_loops (x_c (ob_x ob'))) ->
      update disp true o (hp_s hp') (ob_x ob') = Some (y, None) ->
      forall p, List.In p (c_params (x_c y)) ->
      exists el, [/\ on_edge (ob_x ob') el, inductive_el (hp_s hp') el & p.1 = CEl (ecap (hp_s hp') el)]].
Proof.
move=> E; have [D1 D2] := torch_detached E; split.
- by move=> i /D1 [].
- by move=> l /D2 [].
move=> HL Eu; apply: (update_params Eu) => [i /D1 [r1 r2]|l [el [h1 h2 h3]]].
  by rewrite /tracked /= r1 r2.
by have [r1 r2] := D2 l (HL el l h1 h2 h3); rewrite /tracked /= r1 r2.
Qed.
Print Assumptions C42_detached.

(** save_eigs=True in the NumPy engine. *)
Theorem C42_numpy_eigs_refuted hp ob : safecopy false true hp ob = Err AttributeError.
Proof. by []. Qed.
Print Assumptions C42_numpy_eigs_refuted.

(** description() of a copy. *)
Theorem C42_description_refuted optim save_eigs hp ob hp' ob' :
  safecopy optim save_eigs hp ob = Ok (hp', ob') -> description_start ob' = Err TypeError.
Proof.
case: optim; first by case/torch_ok => _ _ _ _; rewrite /description_start => ->.
by case: save_eigs => //= -[_ <-].
Qed.
Print Assumptions C42_description_refuted.

Example C42_case : exists x hp' ob',
  [/\ construct false (lc_or 2) (cp_store (cp_val false 2) xpred0) (fun=> mkL [::] [::]) "junctions" (cp_dict false)
        = Some (Ok x), lives 3 0 (cp_store (cp_val false 2) xpred0) x /\ closed (cp_store (cp_val false 2) xpred0) x,
      safecopy false false (cp_heap (cp_val false 2) xpred0) (new_obj x) = Ok (hp', ob'),
      x_dict (ob_x ob') = [:: ((Z0, Zpos xH), [:: 3; 4]%N)] &
      shows (hp_s hp') (ob_x ob') = [:: ((Z0, Zpos xH),
        [:: (KCap, R1, None, [::]); (KInd, Rmult 2 2, Some R0, [::])])]].
Proof.
have l2 : Rlt 0 2 by exact: Rlt_0_2.
have [x [E D]] := cp_construct false xpred0 false (fun=> mkL [::] [::]) l2.
exists x; do 2!eexists; split=> //; first split.
- exact: cp_lives l2 E.
- exact: construct_closed E.
- by rewrite /= D.
- by rewrite /shows /= D.
Qed.

(** ** C43 *)

(** Copying a circuit keeps every attribute; so does pickling it: the unpickled
    circuit has the same attributes with new component objects, and every session
    goes with it as with the original. *)
Theorem C43_pickle hp ob : ob_full ob -> shallow ob = ob /\
  (lives (hp_e hp) (hp_l hp) (hp_s hp) (ob_x ob) ->
   exists fe fl, let hp' := (pickle hp ob).1 in let ob' := (pickle hp ob).2 in
   [/\ same_circuit (hp_s hp) (ob_x ob) (hp_s hp') (ob_x ob') fe fl,
       x_eig (ob_x ob') = x_eig (ob_x ob),
       [/\ ob_mem ob' = ob_mem ob, ob_LC ob' = ob_LC ob, ob_descr ob' = ob_descr ob & ob_full ob' = ob_full ob] &
       forall disp optim u ks, closed (hp_s hp) (ob_x ob) ->
         (forall k, List.In k ks -> call_in (hp_s hp) (ob_x ob) k) ->
         omap (fun tr => [seq p.2 | p <- tr])
              (run disp optim (mkW (hp_s hp') u (ob_x ob')) [seq ren_call fe fl k | k <- ks]) =
         omap (fun tr => [seq p.2 | p <- tr])
              (run disp optim (mkW (hp_s hp) u (ob_x ob)) ks)]).
Proof.
case: ob => x bm bL bd [] // _; split; first by rewrite /shallow /setstate /getstate /= !andbT.
move=> liv; exists (addn^~ (hp_e hp)), (addn^~ (hp_l hp)); split=> //=.
- exact: shown_shift.
- by rewrite !andbT.
move=> disp optim u ks Cl H.
have := run_twins disp optim (ks := ks) (deep_twins u liv Cl) H; rewrite /=.
by case: run => [tr|]; case: run => [tr'|] //= [->].
Qed.
Print Assumptions C43_pickle.

(** A picklecopy has every attribute; its pickle lacks the operator memory and the
    LC Hamiltonian and nothing else. *)
Theorem C43_picklecopy hp ob : ob_full ob ->
  [/\ ob_x (picklecopy ob) = ob_x ob, ob_mem (picklecopy ob) = ob_mem ob & ob_LC (picklecopy ob) = ob_LC ob] /\
  (lives (hp_e hp) (hp_l hp) (hp_s hp) (ob_x ob) ->
   exists fe fl, let hp' := (pickle hp (picklecopy ob)).1 in let ob' := (pickle hp (picklecopy ob)).2 in
   [/\ same_circuit (hp_s hp) (ob_x ob) (hp_s hp') (ob_x ob') fe fl,
       x_eig (ob_x ob') = x_eig (ob_x ob), ob_descr ob' = ob_descr ob, ob_full ob' &
       ob_mem ob' = false /\ ob_LC ob' = false]).
Proof.
case: ob => x bm bL bd [] // _; split; first by rewrite /= !andbT.
move=> liv; exists (addn^~ (hp_e hp)), (addn^~ (hp_l hp)); split=> //=; last by rewrite !andbF.
exact: shown_shift.
Qed.
Print Assumptions C43_picklecopy.

(** Until then hamiltonian and set_trunc_nums of an unpickled picklecopy raise. *)
Theorem C43_before_update disp s ob nums : ob_mem ob = false ->
  (size (x_m (ob_x ob)) != 0%N -> exists z, (ob_hamil s ob).2 = Err z) /\
  exists z, (ob_set_trunc disp nums ob).2 = Err z.
Proof.
move=> Em; split.
  rewrite /ob_hamil Em => /negbTE -> /=; case: c_keys_ind => [|k ks]; first by exists AttributeError.
  by case: coupling_coef => [a|z]; [exists AttributeError|exists z].
rewrite /ob_set_trunc Em; case: nums => [l|]; last by exists ValueError.
by case: ifP => _; [exists ValueError|eexists].
Qed.
Print Assumptions C43_before_update.

(** update() of the unpickled picklecopy: it raises what update() of the original
    raises; when it succeeds, every attribute is there and equals that of the
    updated original. *)
Theorem C43_restore disp optim o hp ob : ob_full ob ->
  lives (hp_e hp) (hp_l hp) (hp_s hp) (ob_x ob) -> closed (hp_s hp) (ob_x ob) ->
  let hp' := (pickle hp (picklecopy ob)).1 in let ob' := (pickle hp (picklecopy ob)).2 in
  match update disp optim o (hp_s hp) (ob_x ob), ob_update disp optim o (hp_s hp') ob' return Prop with
  | None, None => True
  | Some (y, None), Some (ob1, None) =>
      [/\ ob_mem ob1, ob_LC ob1, x_eig (ob_x ob1) = x_eig y &
          exists fe fl, same_circuit (hp_s hp) y (hp_s hp') (ob_x ob1) fe fl]
  | Some (_, Some z), Some (_, Some z') => z' = z
  | _, _ => False
  end.
Proof.
case: ob => x bm bL bd [] //= _ liv Cl.
rewrite /ob_update /=; set x' := deep_circ _ _ _.
have := update_twins disp optim o (deep_twins ustate_init liv Cl).
case A: update => [[y [z|]]|]; case B: update => [[y' [z'|]]|] //= [T ez _] //; first by case: ez.
rewrite orbT; split=> //.
- apply/orP; right; move: B; rewrite /update /before_mem.
  case: lcwb_run => c [e|] //; case: b_of => [Bm|e] //; case: t_init => [st0|e] //.
  by case: transform_run => [[st [e|]]|].
- by have := tw_eig T.
- by exists (addn^~ (hp_e hp)), (addn^~ (hp_l hp)); have := tw_same T.
Qed.
Print Assumptions C43_restore.

(** and does not depend on the lost attributes. *)
Theorem C43_memory_unread disp optim o s x M LC :
  match update disp optim o s x, update disp optim o s (put_mem x M LC) return Prop with
  | None, None => True
  | Some (y, None), Some (y', None) => y' = y
  | Some (_, Some z), Some (_, Some z') => z' = z
  | _, _ => False
  end.
Proof. exact: update_mem. Qed.
Print Assumptions C43_memory_unread.

(** Without truncation numbers update() cannot restore anything: it raises. *)
Theorem C43_untruncated_refuted disp optim o s ob ob1 r :
  x_m (ob_x ob) = [::] -> (0 < x_n (ob_x ob))%N ->
  ob_update disp optim o s ob = Some (ob1, r) -> r <> None.
Proof.
move=> Em n0; rewrite /ob_update; case A: update => [[y z]|] // [_ <-] Ez; move: A; rewrite Ez.
move=> /update_okP [c [B [st [Hb /= [Ee _]]]]].
have := mem_err_m Ee; rewrite /= Em /x_n /= (built_n Hb) => H.
by have := H n0; rewrite leqNgt n0.
Qed.
Print Assumptions C43_untruncated_refuted.

Example C43_case : exists x,
  [/\ construct false (lc_or 2) (cp_store (cp_val false 2) xpred0) (fun=> mkL [::] [::]) "junctions" (cp_dict false)
        = Some (Ok x), x_m x = [::],
      ob_full (new_obj x), x_dict (ob_x (pickle (cp_heap (cp_val false 2) xpred0) (picklecopy (new_obj x))).2)
        = [:: ((Z0, Zpos xH), [:: 3; 4]%N)] &
      ob_mem (pickle (cp_heap (cp_val false 2) xpred0) (new_obj x)).2 /\
      ~~ ob_mem (pickle (cp_heap (cp_val false 2) xpred0) (picklecopy (new_obj x))).2].
Proof.
have l2 : Rlt 0 2 by exact: Rlt_0_2.
have [x [E D]] := cp_construct false xpred0 false (fun=> mkL [::] [::]) l2.
exists x; split=> //; last by rewrite /= D.
by have [n [c [B [st [_ [_ ->]]]]]] := constructP E.
Qed.

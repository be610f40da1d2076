(** SMProofs3.v -- sessions: the Hamiltonian, the results at hand, failing
    updates, assigned parameters. *)
From Coq Require Import Reals ZArith String Lia.
From Verif.Model Require Import Base Units Settings Edge LCWB Rounding Accuracy HamConst Trunc.
From Verif.Spec Require Import GraphSpec CircuitSpec.
From Verif.Proofs Require Import EdgeProofs LCWBProofs BookProofs EdgeProofs2 SMBook.
From mathcomp Require Import all_ssreflect all_algebra.
From mathcomp Require Import complex.
From Verif.Numerics Require Import RStruct Bridge.
From Verif.Model Require Import FluxDist Transform Op Ham Diag CircuitSM.
From Verif.Spec Require Import SessionSpec.
From Verif.Proofs Require Import TransProofs TransProofs3 SMProofs SMProofs2.

Set Implicit Arguments.
Unset Strict Implicit.
Unset Printing Implicit Defensive.
Import GRing.Theory.
Local Open Scope ring_scope.

Section Machine.
Variable disp : nat -> C -> op.
Variable optim : bool.
Local Notation good := (good disp).
Local Notation construct := (construct optim).
Local Notation update := (update disp optim).
Local Notation step := (step disp optim).
Local Notation run := (run disp optim).

Lemma run_cons w c cs tr : run w (c :: cs) = Some tr ->
  exists w1 r tr', [/\ step w c = Some (w1, r), run w1 cs = Some tr' & tr = (w1, r) :: tr'].
Proof.
by cbn [CircuitSM.run]; case E: step => [[w1 r]|] //; case Er: run => [tr'|] // [<-]; exists w1, r, tr'.
Qed.

(** ** The number of modes and the dictionary never change *)
Lemma frame_step w c w1 r : step w c = Some (w1, r) ->
  [/\ x_n (w_x w1) = x_n (w_x w), x_dict (w_x w1) = x_dict (w_x w) & x_fd (w_x w1) = x_fd (w_x w)].
Proof.
have upd o s x x' e : update o s x = Some (x', e) ->
    [/\ x_n x' = x_n x, x_dict x' = x_dict x & x_fd x' = x_fd x].
  rewrite /CircuitSM.update; case: lcwb_run => c0 [e0|]; first by case=> <- _.
  case: b_of => [B|e0]; last by case=> <- _.
  case Ei: t_init => [st0|e0]; last by case=> <- _.
  case Et: transform_run => [[st1 [e0|]]|] //; have [_ E1 _] := t_init_size Ei; have [_ E2 _] := same_run Et.
    by case=> <- _; rewrite /x_n /= E2 E1.
  by case: mem_err => [e0|] [<- _]; rewrite /x_n /= E2 E1.
case: w => s u x; case: c => [nums|m a|m a|c p|u'|vs o|o| |eigs argsort k|rd] /=.
- by rewrite /set_trunc; case: nums => [l|]; [case: ifP => _; [|case: mem_err => [e|]]|] => -[<- _].
- rewrite /set_offset; case: island_of => [i|]; last by case=> <- _.
  by case: ifP => _; [|case: mem_err => [e|]] => -[<- _].
- by rewrite /set_charge_noise; case: island_of => [i|] -[<- _].
- by case=> <- _.
- by case=> <- _.
- rewrite /set_params; case: (~~ optim); first by case=> <- _.
  case: assign => s1 [e|]; first by case=> <- _.
  by case EU: CircuitSM.update => [[x1 r1]|] // [<- _]; apply: upd EU.
- by case EU: CircuitSM.update => [[x1 r1]|] // [<- _]; apply: upd EU.
- by rewrite /hamil; case: ifP => _; [|case: foldl => M h] => -[<- _].
- rewrite /diag_sm; case: ifP => _; first by case=> <- _.
  case: k => [k|]; last by case=> <- _.
  by rewrite /hamil; case: ifP => _; [|case: foldl => M h]; case: diag => e h' -[<- _].
- by case=> <- _.
Qed.

Lemma frame_run cs : forall w tr, run w cs = Some tr -> forall p, List.In p tr ->
  [/\ x_n (w_x p.1) = x_n (w_x w), x_dict (w_x p.1) = x_dict (w_x w) & x_fd (w_x p.1) = x_fd (w_x w)].
Proof.
elim: cs => [|c cs IH] w tr; first by case=> <-.
move=> /run_cons [w1 [r [tr' [Es Er ->]]]] p [<-|Hp]; first exact: frame_step Es.
by have [-> -> ->] := IH _ _ Er p Hp; apply: frame_step Es.
Qed.

(** ** Nothing in the memory is out of date *)
Lemma good_step w c w1 r : good (w_x w) -> step w c = Some (w1, r) -> ~~ update_failed optim w c r ->
  good (w_x w1).
Proof.
case: w => s u x G; case: c => [nums|m a|m a|c p|u'|vs o|o| |eigs argsort k|rd]; rewrite /=.
- by have := good_set_trunc nums G; case: set_trunc => x1 r1 /= G1 [<- _].
- by have := good_set_offset m a G; case: set_offset => x1 r1 /= G1 [<- _].
- by have := set_noise_same m a x; case: set_charge_noise => x1 r1 /= -> [<- _].
- by case=> <- _.
- by case=> <- _.
- rewrite /set_params; case Eo: (~~ optim); first by case=> <- _.
  move: Eo => /negbFE Eo; have := assignE [seq q.1 | q <- c_params (x_c x)] vs s.
  case: assign => s1 e /= ->; rewrite size_map; case: ifP => Hle; last by case=> <- _.
  case EU: CircuitSM.update => [[x1 [e1|]]|] // [<- <-] /=; first by rewrite Eo.
  by move=> _; apply: good_update G EU.
- by case EU: CircuitSM.update => [[x1 [e1|]]|] // [<- <-] //= _; apply: good_update G EU.
- by have := good_hamil s G; case: hamil => x1 r1 /= G1 [<- _].
- by have := good_diag eigs argsort u k s G; case: diag_sm => x1 r1 /= G1 [<- _].
- by case=> <- _.
Qed.

Lemma good_run cs : forall w tr, good (w_x w) -> run w cs = Some tr -> updates_ok optim w cs tr ->
  good (w_x (final w tr)).
Proof.
elim: cs => [|c cs IH] w tr G; first by case=> <-.
move=> /run_cons [w1 [r [tr' [Es Er ->]]]] /andP [Hu Hus].
by rewrite /final /=; apply: (IH w1) Er Hus; apply: good_step Es Hu.
Qed.

(** ** A session against a new circuit *)
Lemma session_tracks o s lobj fd d x0 u cs tr lobj' y0 :
  construct o s lobj fd d = Some (Ok x0) ->
  (forall e els, List.In (e, els) d -> nonneg e) ->
  run (mkW s u x0) cs = Some tr -> updates_ok optim (mkW s u x0) cs tr ->
  let v := view_of (mkV o s None [::]) cs tr in
  let x := w_x (final (mkW s u x0) tr) in
  construct (v_or v) (v_store v) lobj' fd d = Some (Ok y0) ->
  same_kinds x0 y0 -> (forall p, List.In p tr -> same_kinds (w_x p.1) y0) ->
  let y := replay disp v y0 in
  [/\ good x /\ good y, hof x = hof y /\ x_B x = x_B y, x_isl x = x_isl y,
      [/\ c_loops (x_c x) = c_loops (x_c y), c_keys_ind (x_c x) = c_keys_ind (x_c y) &
          c_keys_jj (x_c x) = c_keys_jj (x_c y)] & (x_m x = [::] <-> v_trunc v = None) \/ x_n x = 0%N].
Proof.
move=> E0 labels Er Hu v x Ey k0 kp y.
have G0 := good_construct disp E0; have Gy := good_construct disp Ey.
have [n0 [c [B [st [Hb [count Ex0]]]]]] := constructP E0.
have [n1 [c1 [B1 [st1 [Hb1 [count1 Ey0]]]]]] := constructP Ey.
have {count1} En1 : n1 = n0 by move: count1; rewrite count => -[/Nat2Z.inj].
subst n1; have my0 : x_m y0 = [::] by rewrite Ey0.
have K0 : tracks disp optim fd d n0 y0 (mkV o s None [::]) x0.
  have [_ En Em] := built_size Hb.
  split=> //; rewrite ?Ex0 //=.
  - rewrite -[x_n _]/(t_n (finish_modes optim st)) -En /finish_modes; case: ifP => //= _; exact: leq_subr.
  - by exists lobj, B, st; split=> //; split=> //; left.
  - by rewrite Ey0 /=; have := isl_kinds k0; rewrite /init_isl Ex0 Ey0.
have K := @tracks_run disp optim fd d n0 count labels y0 cs _ (mkW s u x0) tr K0 my0 Er Hu k0 kp; rewrite -/v -/x in K.
have kx : same_kinds x y0.
  rewrite /x /final; case: (lastP tr) kp => [|tr' p] kp; first exact: k0.
  by rewrite map_rcons last_rcons; apply: kp; rewrite -cats1; apply/List.in_or_app; right; left.
have [m0 fst fc [fC fB]] := offsets_frame v my0.
have go := good_offsets v Gy.
have Gr : good y by apply: good_set_trunc.
(* the fields of the replayed circuit *)
have [ry1 ry2 ry3 [ry4 ry5] [ry6 ry7]] : [/\ x_st y = x_st y0, x_c y = x_c y0, x_isl y = x_isl (offsets v y0),
    x_C y = x_C y0 /\ x_B y = x_B y0 & x_m y = x_m x /\ ((x_m x = [::] <-> v_trunc v = None) \/ x_n x = 0%N)].
  have Em := k_m K; have El := k_len K.
  rewrite /y /replay /set_trunc; case: (v_trunc v) Em El => [l|] Em El; last by rewrite m0 Em; split=> //; split=> //; left.
  have Ekn : x_n x = x_n y0 by case: kx.
  have no : x_n (offsets v y0) = x_n y0 by rewrite /x_n fst.
  rewrite no -Ekn El eqxx /=; set x1 := put_m _ _.
  have s1 : size (x_m x1) = x_n x1 by rewrite size_map size_iota Ekn -no.
  rewrite (mem_err_none s1 (g_charge go)) /= fst fc fC fB; split=> //; split; first by rewrite Em Ekn.
  rewrite Em /dims -Ekn; case: (x_n x) => [|k]; [by right | by left].
have [lo [B2 [st2 [Hb2 [e1 e2 e3]]]]] := k_build K.
have [eB est [lo' ec]] := built_unique Hb2 Hb1.
have Est : x_st x = x_st y0.
  rewrite Ey0 /= est; case: e3 => // Es; rewrite Es.
  symmetry; apply: finish_id; case: kx; rewrite /x_n Ey0 /= est Es => <- //.
split=> //.
- by split=> //; apply: (k_good K).
- rewrite /hof ry1 Est ry6 e1 ry4 ry5 Ey0 /= ec e2 eB; split=> //.
  congr mkH; rewrite /ng_of /isl ry3 (k_isl K) //.
- by rewrite ry3 (k_isl K).
- by rewrite ry2 Ey0 /= ec.
Qed.

Lemma ham_of_eq s x y : hof x = hof y -> x_B x = x_B y -> c_loops (x_c x) = c_loops (x_c y) ->
  c_keys_ind (x_c x) = c_keys_ind (x_c y) -> c_keys_jj (x_c x) = c_keys_jj (x_c y) ->
  ham_of disp s x = ham_of disp s y.
Proof. by rewrite /ham_of => -> -> -> -> ->. Qed.

Lemma view_after_update v cs o w tr w1 : run w (rcons cs (Update o)) = Some (rcons tr (w1, Ok tt)) ->
  let v1 := view_of v (rcons cs (Update o)) (rcons tr (w1, Ok tt)) in v_or v1 = o /\ v_store v1 = w_s w1.
Proof.
elim: cs v w tr => [|c cs IH] v w tr.
  move=> /run_cons [w2 [r [tr' [Es [<-]]]]]; by case: tr => [|p [|q tr]].
move=> /run_cons [w2 [r [tr' [Es Er]]]]; case: tr => [|p tr] /=.
  case=> -> -> E; move: Er; rewrite -E.
  by case: cs {IH} => [|c' cs] /run_cons [w3 [r3 [t3 []]]].
by case=> -> E2; rewrite -E2 in Er; apply: IH Er.
Qed.

(** ** Results at hand *)
Definition has_eig (x : circ) (b : bool) : Prop :=
  (size (e_freqs (x_eig x)) != 0)%N = b /\ (size (e_vecs (x_eig x)) != 0)%N = b.

Lemma served_step w c w1 r b : solver_answers c -> has_eig (w_x w) b -> step w c = Some (w1, r) ->
  has_eig (w_x w1) (match c with
              | DiagC _ _ _ => b || ~~ raised r
              | Update _ | SetParams _ _ => b && raised r
              | _ => b
              end).
Proof.
have upd o s x x' e : has_eig x b -> update o s x = Some (x', e) -> has_eig x' (b && raised (unit_res e)).
  move=> H; rewrite /CircuitSM.update; case: lcwb_run => c0 [e0|]; first by case=> <- <-; rewrite andbT.
  case: b_of => [B|e0]; last by case=> <- <-; rewrite andbT.
  case Ei: t_init => [st0|e0]; last by case=> <- <-; rewrite andbT.
  case Et: transform_run => [[st1 [e0|]]|] //; first by case=> <- <-; rewrite andbT.
  by case: mem_err => [e0|] [<- <-]; rewrite ?andbT ?andbF.
case: w => s u x; case: c => [nums|m a|m a|c p|u'|vs o|o| |eigs argsort k|rd] /= Hs H.
- by rewrite /set_trunc; case: nums => [l|]; [case: ifP => _; [|case: mem_err => [e|]]|] => -[<- _].
- rewrite /set_offset; case: island_of => [i|]; last by case=> <- _.
  by case: ifP => _; [|case: mem_err => [e|]] => -[<- _].
- by rewrite /set_charge_noise; case: island_of => [i|] -[<- _].
- by case=> <- _.
- by case=> <- _.
- rewrite /set_params; case: (~~ optim); first by case=> <- <-; rewrite andbT.
  case: assign => s1 [e|]; first by case=> <- <-; rewrite andbT.
  by case EU: CircuitSM.update => [[x1 r1]|] // [<- <-]; apply: upd H EU.
- by case EU: CircuitSM.update => [[x1 r1]|] // [<- <-]; apply: upd H EU.
- by rewrite /hamil; case: ifP => _; [|case: foldl => M h] => -[<- _].
- have E1 : x_eig (hamil s x).1 = x_eig x by rewrite /hamil; case: ifP => _ //; case: foldl.
  rewrite /diag_sm; case: ifP => _; first by case=> <- <-; rewrite orbF.
  case: k => [k|]; last by case=> <- <-; rewrite orbF.
  case: hamil E1 => x1 h /= E1; rewrite /diag /=.
  case: h => [A|e]; last by case=> <- <-; rewrite orbF.
  have sorted lam V : (lam <> [::] /\ size (argsort lam) = size lam) ->
      has_eig (put_eig x1 (sort_eigs argsort lam V)) true.
    move=> [l0 sz]; by split=> /=; rewrite ?size_sort ?size_map ?sz; case: (lam) l0.
  rewrite /diag_np; case Ee: (eigs A k None) => [lam V||e].
  + by case=> <- <-; rewrite orbT; apply: sorted; apply: Hs Ee.
  + case Ee2: (eigs A k _) => [lam V||e]; case=> <- <-; rewrite ?orbF ?orbT //.
    by apply: sorted; apply: Hs Ee2.
  + by case=> <- <-; rewrite orbF.
- by case=> <- _.
Qed.

Lemma served_run cs : forall w tr b, (forall c, List.In c cs -> solver_answers c) -> has_eig (w_x w) b ->
  run w cs = Some tr -> has_eig (w_x (final w tr)) (served b cs tr).
Proof.
elim: cs => [|c cs IH] w tr b Hs H; first by case=> <-.
move=> /run_cons [w1 [r [tr' [Es Er ->]]]]; rewrite /final /=.
apply: (IH w1) => //; first by move=> c' Hc; apply: Hs; right.
by apply: served_step H Es; apply: Hs; left.
Qed.

Lemma reader_has x b rd : has_eig x b -> reader_guard rd (x_eig x) = if b then Ok tt else Err CircuitStateError.
Proof.
rewrite /has_eig /reader_guard => -[/negbRL -> /negbRL ->].
by case: rd b => -[].
Qed.

(** ** Truncation numbers *)
Lemma trunc_step w c w1 r b : (0 < x_n (w_x w))%N -> (x_m (w_x w) != [::]) = b -> step w c = Some (w1, r) ->
  (x_m (w_x w1) != [::]) = match c with SetTrunc (Some l) => b || (size l == x_n (w_x w)) | _ => b end.
Proof.
have upd o s x x' e : update o s x = Some (x', e) -> x_m x' = x_m x.
  rewrite /CircuitSM.update; case: lcwb_run => c0 [e0|]; first by case=> <- _.
  case: b_of => [B|e0]; last by case=> <- _.
  case Ei: t_init => [st0|e0]; last by case=> <- _.
  case Et: transform_run => [[st1 [e0|]]|] //; first by case=> <- _.
  by case: mem_err => [e0|] [<- _].
case: w => s u x /= n0; case: c => [nums|m a|m a|c p|u'|vs o|o| |eigs argsort k|rd] /= Hb.
- rewrite /set_trunc; case: nums => [l|]; last by case=> <- _.
  case: ifP => [/negbTE -> [<- _]|/negbFE ->]; first by rewrite orbF.
  rewrite orbT; case: mem_err => [e|] [<- _] /=; by case: (x_n x) n0.
- rewrite /set_offset; case: island_of => [i|]; last by case=> <- _.
  by case: ifP => _; [|case: mem_err => [e|]] => -[<- _].
- by rewrite /set_charge_noise; case: island_of => [i|] -[<- _].
- by case=> <- _.
- by case=> <- _.
- rewrite /set_params; case: (~~ optim); first by case=> <- _.
  case: assign => s1 [e|]; first by case=> <- _.
  by case EU: CircuitSM.update => [[x1 r1]|] // [<- _]; rewrite (upd _ _ _ _ _ EU).
- by case EU: CircuitSM.update => [[x1 r1]|] // [<- _]; rewrite (upd _ _ _ _ _ EU).
- by rewrite /hamil; case: ifP => _; [|case: foldl => M h] => -[<- _].
- rewrite /diag_sm; case: ifP => _; first by case=> <- _.
  case: k => [k|]; last by case=> <- _.
  by rewrite /hamil; case: ifP => _; [|case: foldl => M h]; case: diag => e h' -[<- _].
- by case=> <- _.
Qed.

Lemma trunc_run cs : forall w tr b, (0 < x_n (w_x w))%N -> (x_m (w_x w) != [::]) = b ->
  run w cs = Some tr -> (x_m (w_x (final w tr)) != [::]) = truncated b w cs tr.
Proof.
elim: cs => [|c cs IH] w tr b n0 Hb; first by case=> <-.
move=> /run_cons [w1 [r [tr' [Es Er ->]]]]; rewrite /final /=.
apply: (IH w1) => //; first by have [-> _ _] := frame_step Es.
by apply: trunc_step Es.
Qed.

Lemma coupling_not_state x M e z : coupling_mem x M e = Err z -> z <> CircuitStateError.
Proof.
rewrite /coupling_mem /coupling_coef /coupling_mat /np_row; case: e => a b.
have tail k : (if (size (M_phi M) < x_n x)%N then Err IndexError
      else match foldl (fun acc i => acc_add acc (oscale (k i)%:C%C (nth (ozero 0) (M_phi M) i))) None
                       (iota 0 (x_n x)) with
           | Some A => Ok A
           | None => Err AttributeError
           end) = Err z -> z <> CircuitStateError.
  by case: ifP => _; [case=> <- | case: foldl => [A|] // [<-]].
case: ifP => _; first by case: py_index => [i|]; [exact: tail | case=> <-].
by case: py_index => [i|]; [case: py_index => [j|]; [exact: tail | case=> <-] | case=> <-].
Qed.

Lemma hamil_not_state s x : x_m x <> [::] -> (hamil s x).2 <> Err CircuitStateError.
Proof.
move=> m0; rewrite /hamil; case: ifP => [/eqP /size0nil //|_].
set loops := [seq _ | _ <- _].
have I ks : forall M (H : res (option op)), H <> Err CircuitStateError ->
    (foldl (ind_step s loops x) (M, H) ks).2 <> Err CircuitStateError.
  elim: ks => [|[[e el] b] ks IH] M [H|z] N //; cbn [foldl ind_step]; last by apply: IH.
  case E: coupling_mem => [A|z]; apply: IH => //.
  by move=> [Ez]; apply: (coupling_not_state E).
have J ks : forall M (H : res (option op)), H <> Err CircuitStateError ->
    (foldl (jj_step s loops x) (M, H) ks).2 <> Err CircuitStateError.
  elim: ks => [|[[[e el] b] k] ks IH] M [H|z] N //; cbn [foldl jj_step]; last by apply: IH.
  by case: ifP => _; apply: IH.
have := I (c_keys_ind (x_c x)) (x_mem x) (Ok None) ltac:(by []).
case: (foldl (ind_step _ _ _) _ _) => M1 H1 /= N1; have := J (c_keys_jj (x_c x)) M1 H1 N1.
case: foldl => M2 [H2|z] /= N2; [by case: acc_acc | by move=> [Ez]; apply: N2; rewrite Ez].
Qed.

(** ** Updates that fail *)
Lemma update_removed o s x x' e n0 : update o s x = Some (x', e) ->
  node_count (List.map fst (x_dict x)) = Ok (Z.of_nat n0) -> (x_n x < n0)%N ->
  (forall ed els, List.In (ed, els) (x_dict x) -> nonneg ed) -> e <> None.
Proof.
move=> + count Hn labels E; rewrite E => /update_okP [c [B [st [[st0 [Ec _ _ _]] _]]]].
by have := node_le Ec count labels; rewrite leqNgt Hn.
Qed.

Lemma update_removed_index o s x n0 :
  node_count (List.map fst (x_dict x)) = Ok (Z.of_nat n0) -> (x_n x < n0)%N ->
  (forall e els, List.In (e, els) (x_dict x) -> nonneg e /\ fst e <> snd e /\ ~ bad_ind s els) ->
  exists x', update o s x = Some (x', Some IndexError).
Proof.
move=> count Hn Hd; have [e [He [_ Ez]]] := proj1 (node_count_spec _ _) count.
have [[e0 els] [/= E0 Hin]] := proj1 (List.in_map_iff _ _ _) He; subst e0.
have E : run_edges optim s (x_fd x) (Z.of_nat (x_n x)) (cst0 (c_lobj (x_c x))) (x_dict x) = Err IndexError.
  apply: too_small_n0 => //; exists e, els; split=> //; move/ltP: Hn => Hn.
  cbn [fst snd] in Ez; rewrite -Ez; lia.
have [c' E'] := lcwb_err E; rewrite /CircuitSM.update E'; by eexists.
Qed.

Lemma update_untruncated o s x x' e : x_m x = [::] -> (0 < x_n x)%N -> update o s x = Some (x', e) -> e <> None.
Proof.
move=> m0 n0 + E; rewrite E => /update_okP [c [B [st [Hb]]]] /=; set x1 := put_mem _ _ _ => -[Em _].
by have := mem_err_m Em; rewrite -[x_n x1]/(t_n st) (built_n Hb) -[x_m x1]/(x_m x) m0 => /(_ n0); rewrite leqNgt n0.
Qed.

Lemma update_untruncated_index o s x c B st : x_m x = [::] -> (0 < x_n x)%N ->
  built optim o s (x_fd x) (x_dict x) (x_n x) (c_lobj (x_c x)) c B st ->
  (is_charge st 0 -> isl x 0) -> exists x', update o s x = Some (x', Some IndexError).
Proof.
move=> m0 n0 Hb ch; have En := built_n Hb; case: Hb => st0 [Ec EB Ei Et].
have /lcwb_lcwb E : get_LCWB optim s (x_fd x) (Z.of_nat (x_n x)) (c_lobj (x_c x)) (x_dict x) = Ok c by [].
rewrite /CircuitSM.update E; last exact: Zle_0_nat.
rewrite EB Ei Et; set x1 := put_mem _ _ _.
have -> : mem_err x1 = Some IndexError; last by eexists.
rewrite /mem_err -[x_n x1]/(t_n st) En -[x_m x1]/(x_m x) m0 n0.
have -> : (x_n x == 0%N) = false by case: (x_n x) n0.
by rewrite -[isl x1]/(isl x) -[x_st x1]/st; case: is_charge ch => //= /(_ isT) ->.
Qed.

(** What such an update leaves behind. *)
Lemma update_first_edge o s x e els d' : x_dict x = (e, els) :: d' -> nonneg e ->
  Z.lt (Z.of_nat (x_n x)) (Z.max e.1 e.2) ->
  update o s x = Some (put_build x (cst0 (c_lobj (x_c x))) (x_C x) (x_B x) (x_st x), Some IndexError).
Proof.
by move=> Ed Hn Hg; rewrite /CircuitSM.update Ed /= w_at_edge_out.
Qed.

Lemma hamil_no_keys s x c : x_m x <> [::] -> c_keys_ind c = [::] -> c_keys_jj c = [::] ->
  (hamil s (put_build x c (x_C x) (x_B x) (x_st x))).2 = if x_LC x is Some A then Ok A else Err AttributeError.
Proof. by move=> m0 Ei Ej; rewrite /hamil /=; case: ifP => [/eqP/size0nil //|_]; rewrite Ei Ej /=; case: x_LC. Qed.

(** ** Assigned parameters *)
Definition comp_get (s : store) (c : LCWB.comp) : pval := mkP (cvalue s c) (creq s c) (cleaf s c).
Definition same_rest (a b : store) := [/\ ekind a = ekind b, ecap a = ecap b & eloops a = eloops b].

Lemma comp_put_get s c v c' : comp_get (comp_put s c v) c' = if comp_eqb c' c then v else comp_get s c'.
Proof.
case: c c' => i [j|j]; rewrite /comp_get /=; try by [].
  by case: (Nat.eqb_spec j i) => [->|/eqP/negbTE ->]; rewrite ?eqxx; case: v.
by case: (Nat.eqb_spec j i) => [->|/eqP/negbTE ->]; rewrite ?eqxx; case: v.
Qed.

Lemma comp_eqbP a b : reflect (a = b) (comp_eqb a b).
Proof. by apply: (iffP idP) => /comp_eqb_spec. Qed.

Lemma assign_rest ks : forall vs s, same_rest (assign ks vs s).1 s.
Proof.
elim: ks => [|k ks IH] [|v vs] s; try by split.
cbn [assign]; have [e1 e2 e3] := IH vs (comp_put s k v).
by split; rewrite ?e1 ?e2 ?e3; case: (k).
Qed.

Lemma assign_other ks : forall vs s k, ~ List.In k (take (size vs) ks) ->
  comp_get (assign ks vs s).1 k = comp_get s k.
Proof.
elim: ks => [|c ks IH] [|v vs] s k //= N; rewrite IH; last by move=> h; apply: N; right.
by rewrite comp_put_get; case: comp_eqbP => // E; case: N; left.
Qed.

Lemma assign_nth ks k0 v0 : forall vs s i, List.NoDup ks -> (i < size ks)%N -> (i < size vs)%N ->
  comp_get (assign ks vs s).1 (nth k0 ks i) = nth v0 vs i.
Proof.
elim: ks => [|c ks IH] [|v vs] s [|i] // /List.NoDup_cons_iff [Nc Nd] Hi Hv; last by rewrite /= IH.
rewrite /= assign_other ?comp_put_get; last first.
  by move=> h; apply: Nc; rewrite -(cat_take_drop (size vs) ks); apply/List.in_or_app; left.
by case: comp_eqbP.
Qed.

Lemma assign_long ks : forall vs more s, size vs = size ks -> assign ks (vs ++ more) s = assign ks vs s.
Proof. by elim: ks => [|c ks IH] [|v vs] more s //= [E]; apply: IH. Qed.
End Machine.

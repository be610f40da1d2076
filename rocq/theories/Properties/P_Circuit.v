(** P_Circuit.v -- C11 to C20: edges, circuit matrices and bookkeeping. *)
From Coq Require Import Lia Lra Permutation.
From Verif.Model Require Import Base Elements Edge LCWB.
From Verif.Spec Require Import GraphSpec CircuitSpec.
From Verif.Proofs Require Import EdgeProofs LCWBProofs BookProofs SensProofs EdgeProofs2.
Open Scope R_scope.
Open Scope list_scope.

(** A running example: three nodes, shared objects, all element kinds.
    Elements: 0, 3, 6.. capacitors, 1 an inductor, 2 and 5 junctions; the own
    capacitor of element i is i+10.  Loop 0 is mentioned by 1, 2 and 5. *)
Definition ex : store :=
  mkStore (fun i => match i with 1 => KInd | 2 | 5 => KJJ | _ => KCap end)%nat
          (fun i => INR (i + 1)) (fun i => Nat.eqb i 0 || Nat.eqb i 11) (fun _ => true)
          (fun i => i + 10)%nat (fun i => match i with 1 | 2 | 5 => [0] | _ => [] end)%nat
          (fun _ => 1) (fun _ => true) (fun _ => true).
Definition exd : list (edge * list nat) :=
  [((0, 1)%Z, [0; 2]%nat); ((1, 2)%Z, [1; 2; 0]%nat); ((2, 3)%Z, [3]%nat); ((3, 0)%Z, [5]%nat)].
Definition exl : nat -> lrec := fun _ => mkL [7; 8]%nat [].

Lemma ex_proper : proper_dict 3 exd.
Proof.
  intros e els H. simpl in H. unfold proper.
  repeat (destruct H as [[= <- <-]|H]; [simpl; lia|]). destruct H.
Qed.
Lemma ex_run optim : exists c, get_LCWB optim ex "junctions" 3 exl exd = Ok c.
Proof.
  apply (run_edges_total optim ex "junctions" 3 exd (cst0 exl)); [exact ex_proper|].
  intros e els H (el & Hel & K & Z). simpl in Z. pose proof (pos_INR el).
  rewrite plus_INR in Z. simpl in Z. lra.
Qed.

(** ** C11 *)
Theorem C11_incidence_and_edge_matrix n e : proper n e ->
  exists w m, w_at_edge (Z.of_nat n) e = Ok w /\ matrix_rep (Z.of_nat n) e = Ok m /\
    measures n e w /\
    (forall i j, (i < n)%nat -> (j < n)%nat -> entry m i j = (nth i w 0 * nth j w 0)%Z) /\
    (forall x y, bilin n (fun i j => IZR (entry m i j)) x y = drop e x * drop e y) /\
    exists m', matrix_rep (Z.of_nat n) (flip e) = Ok m' /\
      forall i j, (i < n)%nat -> (j < n)%nat -> entry m' i j = entry m i j.
Proof.
  intros H. destruct (w_measures n e H) as (w & Hw & Hm).
  destruct (matrix_rep_ok n e H) as (m & Hmm & _ & He).
  destruct (matrix_rep_ok n _ (proper_flip n e H)) as (m' & Hmm' & _ & He').
  exists w, m. split; [auto|]. split; [auto|]. split; [auto|].
  split; [exact (outer_product n e w m H Hw Hmm)|].
  split; [intros; apply mat_rep_bilin; auto|].
  exists m'; split; auto. intros. rewrite He, He', wc_flip by (auto; apply H). auto.
Qed.
Print Assumptions C11_incidence_and_edge_matrix.
Example C11_case : proper 3 (1, 3)%Z /\ w_at_edge 3 (1, 3)%Z = Ok [1; 0; -1]%Z /\
  matrix_rep 3 (1, 3)%Z = Ok [[1; 0; -1]; [0; 0; 0]; [-1; 0; 1]]%Z.
Proof. unfold proper; repeat split; simpl; lia || reflexivity. Qed.

(** The claim "every accepted edge matrix is positive semidefinite" fails for a
    self loop (k,k), and the edge (0,0) is booked on the last node. *)
Theorem C11_degenerate_edges_refuted n k : (1 <= k <= n)%nat ->
  (exists m, matrix_rep (Z.of_nat n) (Z.of_nat k, Z.of_nat k) = Ok m /\
     forall i j, (i < n)%nat -> (j < n)%nat ->
     entry m i j = if Nat.eqb i (k - 1) && Nat.eqb j (k - 1) then (-1)%Z else 0%Z) /\
  (exists m, matrix_rep (Z.of_nat n) (0, 0)%Z = Ok m /\
     w_at_edge (Z.of_nat n) (0, 0)%Z = Ok (repeat 0%Z n) /\
     forall i j, (i < n)%nat -> (j < n)%nat ->
     entry m i j = if Nat.eqb i (n - 1) && Nat.eqb j (n - 1) then 1%Z else 0%Z).
Proof.
  intros H. split; [apply matrix_rep_kk; auto|].
  destruct (matrix_rep_00 n) as (m & Hm & He); [lia|]. exists m. auto using w_at_edge_00.
Qed.
Print Assumptions C11_degenerate_edges_refuted.
Example C11_degenerate_case : matrix_rep 2 (1, 1)%Z = Ok [[-1; 0]; [0; 0]]%Z /\
  matrix_rep 2 (0, 0)%Z = Ok [[0; 0]; [0; 1]]%Z.
Proof. split; reflexivity. Qed.

(** ** C12 *)
(** The node count is the largest label exactly when the lexicographically last
    edge carries it. *)
Theorem C12_node_count_right_iff es N :
  (forall e, In e es -> (fst e <= N)%Z /\ (snd e <= N)%Z) ->
  (node_count es = Ok N <->
   exists e, In e es /\ (forall e', In e' es -> lex_le e' e) /\ (fst e = N \/ snd e = N)).
Proof.
  intros HN. rewrite node_count_spec. split; intros (e & He & Hm & HE); exists e;
    specialize (HN e He); repeat split; auto; lia.
Qed.
Print Assumptions C12_node_count_right_iff.
Example C12_case : node_count [(0, 1); (2, 3); (1, 2); (0, 3)]%Z = Ok 3%Z.
Proof. reflexivity. Qed.

Theorem C12_node_count_refuted : exists es n,
  node_count es = Ok n /\ (exists e, In e es /\ (n < snd e)%Z) /\
  (forall e, In e es -> (0 <= fst e < snd e)%Z).
Proof.
  exists [(0, 3); (1, 2)]%Z, 2%Z. split; [reflexivity|]. split.
  - exists (0, 3)%Z; simpl; split; [auto|lia].
  - intros e [<-|[<-|[]]]; simpl; lia.
Qed.
Print Assumptions C12_node_count_refuted.

(** Whenever the count misses a label, construction fails with IndexError. *)
Theorem C12_wrong_count_fails optim s fd lobj d n :
  In fd ["junctions"; "inductors"; "all"]%string ->
  node_count (map fst d) = Ok n ->
  (forall e els, In (e, els) d -> nonneg e /\ ~ bad_ind s els) ->
  (exists e els, In (e, els) d /\ (n < Z.max (fst e) (snd e))%Z) ->
  build optim s fd lobj d = Err IndexError.
Proof. apply wrong_node_count. Qed.
Print Assumptions C12_wrong_count_fails.
Example C12_wrong_count_case :
  build false ex "junctions" exl [((0, 3)%Z, [0]%nat); ((1, 2)%Z, [2]%nat)] = Err IndexError.
Proof.
  apply wrong_node_count with (n := 2%Z); [simpl; auto|reflexivity| |].
  - intros e els H. unfold nonneg.
    destruct H as [[= <- <-]|[[= <- <-]|[]]]; (split; [simpl; lia|]);
    intros (el & [<-|[]] & K & _); discriminate K.
  - exists (0, 3)%Z, [0%nat]. simpl; split; [auto|lia].
Qed.

(** ** C13 *)
Theorem C13_circuit_matrices optim s fd n lobj d c :
  get_LCWB optim s fd (Z.of_nat n) lobj d = Ok c -> proper_dict n d ->
  (forall x y, bilin n (c_C c) x y =
     suml d (fun ee => edge_cap s (snd ee) * (drop (fst ee) x * drop (fst ee) y))) /\
  (forall x y, bilin n (c_L c) x y =
     suml d (fun ee => edge_invind s (snd ee) * (drop (fst ee) x * drop (fst ee) y))) /\
  (forall i j, (i < n)%nat -> (j < n)%nat -> c_C c i j = c_C c j i /\ c_L c i j = c_L c j i).
Proof. apply LCWB_forms. Qed.
Print Assumptions C13_circuit_matrices.

Theorem C13_construction_total optim s fd n lobj d : proper_dict n d ->
  (exists c, get_LCWB optim s fd (Z.of_nat n) lobj d = Ok c) <->
  (forall e els, In (e, els) d -> ~ bad_ind s els).
Proof.
  intros Hp. split.
  - intros (c & H) e els Hin. apply get_LCWB_run in H as [_ H].
    apply (proj1 (run_edges_ok_iff optim s fd (Z.of_nat n) d (cst0 lobj)) (ex_intro _ c H) e els Hin).
  - intros Hb. unfold get_LCWB. destruct (Z.ltb_spec (Z.of_nat n) 0); [lia|].
    apply (run_edges_total optim s fd n d (cst0 lobj)); auto.
Qed.
Print Assumptions C13_construction_total.
Example C13_case : exists c, get_LCWB true ex "junctions" 3 exl exd = Ok c /\
  bilin 3 (c_C c) (fun i => INR i + 1) (fun i => INR i + 1) = 1 + 13 + (12 + 13 + 1) + 4 + 9 * 16.
Proof.
  destruct (ex_run true) as (c & H). exists c; split; auto.
  destruct (LCWB_forms _ _ _ 3 _ _ _ H ex_proper) as (HC & _). rewrite HC.
  unfold exd, edge_cap, cap_of, drop, pot; simpl. lra.
Qed.

(** ** C14 *)
Theorem C14_C_positive_definite optim s fd n lobj d c :
  get_LCWB optim s fd (Z.of_nat n) lobj d = Ok c -> proper_dict n d ->
  (forall e els, In (e, els) d -> 0 < edge_cap s els) -> connected n (map fst d) ->
  forall x, 0 <= bilin n (c_C c) x x /\
    (bilin n (c_C c) x x = 0 -> forall i, (i < n)%nat -> x i = 0).
Proof. apply C_posdef. Qed.
Print Assumptions C14_C_positive_definite.

Lemma ex_connected : connected 3 (map fst exd).
Proof.
  intros k Hk.
  assert (G1 : grounded (map fst exd) 1) by (apply (g_fwd _ 0); [constructor|simpl; auto]).
  assert (G2 : grounded (map fst exd) 2) by (apply (g_fwd _ 1); [auto|simpl; auto]).
  assert (G3 : grounded (map fst exd) 3) by (apply (g_bwd _ 0); [constructor|simpl; auto]).
  assert (C : (k = 0 \/ k = 1 \/ k = 2 \/ k = 3)%Z) by lia.
  destruct C as [->|[->|[->| ->]]]; auto. constructor.
Qed.
Example C14_case : exists c, get_LCWB false ex "junctions" 3 exl exd = Ok c /\
  proper_dict 3 exd /\ connected 3 (map fst exd) /\
  (forall e els, In (e, els) exd -> 0 < edge_cap ex els).
Proof.
  destruct (ex_run false) as (c & H). exists c. split; [auto|]. split; [exact ex_proper|].
  split; [exact ex_connected|]. intros e els Hin. simpl in Hin.
  repeat (destruct Hin as [[= <- <-]|Hin]; [unfold edge_cap, cap_of; simpl; lra|]). destruct Hin.
Qed.
(** The disconnected case: node 2 floats. *)
Example C14_disconnected_case :
  exists c, get_LCWB false ex "junctions" 2 exl [((0, 1)%Z, [0]%nat)] = Ok c /\
  c_C c 1%nat 1%nat = 0.
Proof.
  eexists. split; [reflexivity|]. simpl. unfold entry, eff_cap; simpl. lra.
Qed.

(** ** C15 *)
Theorem C15_susceptance_null_space optim s fd n lobj d c :
  get_LCWB optim s fd (Z.of_nat n) lobj d = Ok c -> proper_dict n d ->
  (forall e els el, In (e, els) d -> In el els -> ekind s el = KInd -> 0 < evalue s el) ->
  forall x, bilin n (c_L c) x x = 0 <->
    forall e els el, In (e, els) d -> In el els -> ekind s el = KInd -> drop e x = 0.
Proof. apply L_null. Qed.
Print Assumptions C15_susceptance_null_space.
Example C15_case : exists c, get_LCWB true ex "junctions" 3 exl exd = Ok c /\
  bilin 3 (c_L c) (fun i => if Nat.eqb i 2 then 5 else 1)
                  (fun i => if Nat.eqb i 2 then 5 else 1) = 0 /\
  bilin 3 (c_L c) (fun i => INR i) (fun i => INR i) <> 0.
Proof.
  destruct (ex_run true) as (c & H). exists c. split; [auto|].
  destruct (LCWB_forms _ _ _ 3 _ _ _ H ex_proper) as (_ & HL & _). rewrite !HL.
  unfold exd, edge_invind, invind_of, drop, pot; simpl. split; lra.
Qed.

(** ** C16 *)
(** Each inductive occurrence has the B row of its position in declaration
    order; all rows 0..N-1 are used once; every junction key points at the W row
    of its own edge, and W rows tell edges apart. *)
Theorem C16_row_bookkeeping optim s fd n lobj d c :
  get_LCWB optim s fd (Z.of_nat n) lobj d = Ok c -> proper_dict n d ->
  (forall b e el, nth_error (ind_occs s d) b = Some (e, el) <->
     (In (e, el, b) (c_keys_ind c) \/ exists w, In (e, el, b, w) (c_keys_jj c))) /\
  Permutation (map (fun k => snd k) (c_keys_ind c) ++ map (fun k => snd (fst k)) (c_keys_jj c))
              (seq 0 (length (ind_occs s d))) /\
  (forall e el b, In (e, el, b) (c_keys_ind c) -> ekind s el = KInd /\
     exists row, nth_error (c_kmat c) b = Some row /\ measures n e row) /\
  (forall e el b w, In (e, el, b, w) (c_keys_jj c) -> ekind s el = KJJ /\
     exists row, nth_error (c_kmat c) b = Some row /\ nth_error (c_W c) w = Some row /\
                 measures n e row) /\
  (NoDup (map fst d) -> forall e1 el1 b1 w1 e2 el2 b2 w2,
     In (e1, el1, b1, w1) (c_keys_jj c) -> In (e2, el2, b2, w2) (c_keys_jj c) ->
     (w1 = w2 <-> e1 = e2)).
Proof.
  intros H Hp.
  assert (Hedge : forall b e el, nth_error (ind_occs s d) b = Some (e, el) -> measures n e (wrow (Z.of_nat n) e)).
  { intros b e el Hb. apply nth_error_In in Hb. unfold ind_occs in Hb.
    apply in_flat_map in Hb as ([e' els] & Hin & Hb). simpl in Hb.
    apply in_map_iff in Hb as (el' & [= -> ->] & _).
    destruct (w_measures n e (Hp _ _ Hin)) as (w & Hw & Hm). unfold wrow. rewrite Hw. auto. }
  split; [exact (key_rows _ _ _ _ _ _ _ H)|].
  split; [exact (key_perm _ _ _ _ _ _ _ H)|]. split; [|split].
  - intros e el b Hin. destruct (ind_key_rows _ _ _ _ _ _ _ H _ _ _ Hin) as [K R].
    split; [unfold is_ind in K; destruct (ekind s el); auto; discriminate|].
    exists (wrow (Z.of_nat n) e). split; auto. eapply Hedge. apply (key_rows _ _ _ _ _ _ _ H). eauto.
  - intros e el b w Hin. destruct (jj_key_rows _ _ _ _ _ _ _ H _ _ _ _ Hin) as (K & _ & R1 & R2).
    split; [unfold is_jj in K; destruct (ekind s el); auto; discriminate|].
    exists (wrow (Z.of_nat n) e). repeat (split; auto); eapply Hedge;
      apply (key_rows _ _ _ _ _ _ _ H); eauto.
  - intros ND. apply (key_wid_inj _ _ _ _ _ _ _ H ND).
Qed.
Print Assumptions C16_row_bookkeeping.

(** The keys themselves, in order. *)
Theorem C16_keys_in_order optim s fd n lobj d c :
  get_LCWB optim s fd n lobj d = Ok c ->
  c_keys_ind c = map (fun bo => (occ_edge (snd bo), occ_el (snd bo), fst bo))
      (filter (fun bo => is_ind s (occ_el (snd bo))) (enum (occs s d))) /\
  c_keys_jj c = map (fun bo => (occ_edge (snd bo), occ_el (snd bo), fst bo, snd (snd bo)))
      (filter (fun bo => is_jj s (occ_el (snd bo))) (enum (occs s d))).
Proof. intros H. destruct (LCWB_book _ _ _ _ _ _ _ H); auto. Qed.
Print Assumptions C16_keys_in_order.
Example C16_case : exists c, get_LCWB false ex "junctions" 3 exl exd = Ok c /\
  c_keys_ind c = [((1, 2)%Z, 1%nat, 1%nat)] /\
  c_keys_jj c = [((0, 1)%Z, 2, 0, 0); ((1, 2)%Z, 2, 2, 1); ((3, 0)%Z, 5, 3, 2)]%nat.
Proof.
  destruct (ex_run false) as (c & H). exists c. split; [auto|].
  destruct (C16_keys_in_order _ _ _ _ _ _ _ H) as [-> ->]. split; reflexivity.
Qed.

(** The number of junction edges without a parallel inductor, which decides
    whether charge modes are normalised. *)
Theorem C16_bare_junctions optim s fd n lobj d c :
  get_LCWB optim s fd n lobj d = Ok c -> counted (bare_junction s) d (c_njwi c).
Proof.
  intros H. apply get_LCWB_run in H as [_ H].
  destruct (run_edges_mats _ _ _ _ _ _ _ H) as (_ & _ & _ & _ & ->). simpl. clear H.
  induction d as [|[e els] d IH]; simpl; [constructor|].
  destruct (junc_without_ind s els) eqn:E; simpl; constructor; auto.
  - unfold junc_without_ind in E. apply andb_prop in E as [E1 E2]. split; simpl.
    + apply existsb_exists in E1 as (el & Hi & Hk). exists el. split; auto.
      unfold is_jj in Hk. destruct (ekind s el); auto; discriminate.
    + intros el Hi Hk. apply negb_true_iff in E2.
      assert (existsb (is_ind s) els = true); [|congruence].
      apply existsb_exists. exists el. unfold is_ind. rewrite Hk. auto.
  - intros [(el & Hi & Hk) Hn]; simpl in *. unfold junc_without_ind in E.
    assert (existsb (is_jj s) els = true) as A.
    { apply existsb_exists. exists el. unfold is_jj. rewrite Hk. auto. }
    rewrite A in E. simpl in E. apply negb_false_iff in E.
    apply existsb_exists in E as (x & Hx & Kx). apply (Hn x Hx).
    unfold is_ind in Kx. destruct (ekind s x); auto; discriminate.
Qed.
Print Assumptions C16_bare_junctions.
Example C16_bare_case : exists c, get_LCWB false ex "junctions" 3 exl exd = Ok c /\ c_njwi c = 2%nat.
Proof.
  destruct (ex_run false) as (c & H). exists c. split; [auto|].
  apply get_LCWB_run in H as [_ H].
  destruct (run_edges_mats _ _ _ _ _ _ _ H) as (_ & _ & _ & _ & ->). reflexivity.
Qed.

(** ** C17 *)
Theorem C17_loop_registration optim s fd n lobj d c :
  get_LCWB optim s fd n lobj d = Ok c ->
  c_loops c = firsts Nat.eqb [] (mentioned s d) /\
  NoDup (c_loops c) /\ (forall l, In l (c_loops c) <-> In l (mentioned s d)) /\
  (forall l, In l (mentioned s d) ->
     l_indices (c_lobj c l) = mentions s d l /\
     l_kmat (c_lobj c l) = map (fun b => nth b (c_kmat c) []) (mentions s d l)) /\
  (forall l, ~ In l (mentioned s d) -> c_lobj c l = lobj l).
Proof. apply loops_characterised. Qed.
Print Assumptions C17_loop_registration.

(** What the loops recorded before does not matter. *)
Theorem C17_prior_state_irrelevant optim s fd n lobj lobj' d c c' :
  get_LCWB optim s fd n lobj d = Ok c -> get_LCWB optim s fd n lobj' d = Ok c' ->
  forall l, In l (mentioned s d) ->
    l_indices (c_lobj c l) = l_indices (c_lobj c' l) /\
    length (l_kmat (c_lobj c l)) = length (l_indices (c_lobj c' l)).
Proof.
  intros H H' l Hl.
  destruct (loops_characterised _ _ _ _ _ _ _ H) as (_ & _ & _ & A & _).
  destruct (loops_characterised _ _ _ _ _ _ _ H') as (_ & _ & _ & A' & _).
  destruct (A l Hl) as [-> ->], (A' l Hl) as [-> _]. rewrite map_length; auto.
Qed.
Print Assumptions C17_prior_state_irrelevant.
Example C17_case : exists c, get_LCWB false ex "junctions" 3 exl exd = Ok c /\
  c_loops c = [0%nat] /\ l_indices (c_lobj c 0%nat) = [0; 1; 2; 3]%nat /\
  l_indices (exl 0%nat) = [7; 8]%nat.
Proof.
  destruct (ex_run false) as (c & H). exists c. split; [auto|].
  destruct (loops_characterised _ _ _ _ _ _ _ H) as (-> & _ & _ & A & _).
  split; [reflexivity|]. split; [|reflexivity].
  destruct (A 0%nat) as [-> _]; [simpl; auto|reflexivity].
Qed.

(** ** C18 *)
Theorem C18_parameters s fd n lobj d c : get_LCWB true s fd n lobj d = Ok c ->
  NoDup (map fst (c_params c)) /\
  (forall k v, In (k, v) (c_params c) <->
     (exists e els el, In (e, els) d /\ In el els /\
        (k = CEl el \/ (inductive_el s el = true /\
          (k = CEl (ecap s el) \/ exists l, In l (eloops s el) /\ k = CLoop l)))) /\
     (creq s k = true \/ cleaf s k = false) /\ v = cvalue s k) /\
  map fst (c_params c) = firsts comp_eqb [] (filter (tracked s) (visits s d)).
Proof.
  intros H. destruct (params_characterised _ _ _ _ _ _ H) as (A & B & C).
  split; [auto|]. split; [|auto]. intros k v. rewrite B, visits_In. unfold tracked.
  rewrite orb_true_iff, negb_true_iff. tauto.
Qed.
Print Assumptions C18_parameters.

Theorem C18_numpy_no_parameters s fd n lobj d c :
  get_LCWB false s fd n lobj d = Ok c -> c_params c = [].
Proof. intros H. apply LCWB_params in H. auto. Qed.
Print Assumptions C18_numpy_no_parameters.
Example C18_case : exists c, get_LCWB true ex "junctions" 3 exl exd = Ok c /\
  map fst (c_params c) = [CEl 0; CLoop 0; CEl 11].
Proof.
  destruct (ex_run true) as (c & H). exists c. split; [auto|].
  destruct (params_characterised _ _ _ _ _ _ H) as (_ & _ & ->). reflexivity.
Qed.

(** ** C19 *)
Theorem C19_declaration_order optim s fd n lobj d d' c :
  proper_dict n d -> redeclared d d' ->
  get_LCWB optim s fd (Z.of_nat n) lobj d = Ok c ->
  exists c', get_LCWB optim s fd (Z.of_nat n) lobj d' = Ok c' /\
  forall i j, (i < n)%nat -> (j < n)%nat -> c_C c i j = c_C c' i j /\ c_L c i j = c_L c' i j.
Proof.
  intros Hp Hr H. destruct (redeclared_ok _ _ _ _ _ _ _ _ Hp Hr H) as (c' & H').
  exists c'; split; auto. exact (redeclared_mats _ _ _ _ _ _ _ _ _ Hp Hr H H').
Qed.
Print Assumptions C19_declaration_order.

Theorem C19_parallel_capacitors_add optim s fd n lobj pre post e caps rest cap c c' :
  (forall x, In x caps -> ekind s x = KCap) -> ekind s cap = KCap ->
  evalue s cap = suml caps (evalue s) ->
  get_LCWB optim s fd n lobj (pre ++ (e, caps ++ rest) :: post) = Ok c ->
  get_LCWB optim s fd n lobj (pre ++ (e, cap :: rest) :: post) = Ok c' ->
  forall i j, c_C c i j = c_C c' i j /\ c_L c i j = c_L c' i j.
Proof. apply parallel_caps. Qed.
Print Assumptions C19_parallel_capacitors_add.
Example C19_case : redeclared exd
  [((2, 1)%Z, [0; 2; 1]%nat); ((1, 0)%Z, [2; 0]%nat); ((2, 3)%Z, [3]%nat); ((0, 3)%Z, [5]%nat)].
Proof.
  exists [((1, 2)%Z, [1; 2; 0]%nat); ((0, 1)%Z, [0; 2]%nat); ((2, 3)%Z, [3]%nat); ((3, 0)%Z, [5]%nat)].
  split; [apply perm_swap|].
  constructor; [split; [right; reflexivity|apply (Permutation_rev [1; 2; 0]%nat)]|].
  constructor; [split; [right; reflexivity|apply (Permutation_rev [0; 2]%nat)]|].
  constructor; [split; [left; reflexivity|apply Permutation_refl]|].
  constructor; [split; [right; reflexivity|apply Permutation_refl]|constructor].
Qed.
(** 1 F and 4 F in parallel (elements 0 and 3) make 5 F (element 4). *)
Example C19_parallel_case : evalue ex 4 = suml [0; 3]%nat (evalue ex) /\
  ekind ex 4 = KCap /\ (forall x, In x [0; 3]%nat -> ekind ex x = KCap).
Proof.
  split; [simpl; lra|]. split; [reflexivity|]. intros x [<-|[<-|[]]]; reflexivity.
Qed.

(** ** C20 *)
(** C is affine in the value of a capacitor with the stored matrix as slope. *)
Theorem C20_capacitor_sensitivity optim s fd n lobj d x c :
  get_LCWB optim s fd n lobj d = Ok c -> ekind s x = KCap ->
  (forall el, inductive_el s el = true -> ekind s (ecap s el) = KCap) ->
  (optim = true \/
   forall e els el, In (e, els) d -> In el els -> inductive_el s el = true -> ecap s el <> x) ->
  forall v cv c0,
  get_LCWB optim (upd_value s x v) fd n lobj d = Ok cv ->
  get_LCWB optim (upd_value s x 0) fd n lobj d = Ok c0 ->
  forall i j, c_C cv i j = c_C c0 i j + v * pm_val (c_pm c x) i j.
Proof. apply cap_sensitivity. Qed.
Print Assumptions C20_capacitor_sensitivity.

Theorem C20_inductor_sensitivity optim s fd n lobj d x c :
  get_LCWB optim s fd n lobj d = Ok c -> ekind s x = KInd ->
  (forall el, inductive_el s el = true -> ekind s (ecap s el) = KCap) -> evalue s x <> 0 ->
  forall i j, derivable_pt_lim
    (fun v => match get_LCWB optim (upd_value s x v) fd n lobj d with
              | Ok c => c_L c i j | Err _ => 0 end)
    (evalue s x) (- pm_val (c_pm c x) i j).
Proof. apply ind_sensitivity. Qed.
Print Assumptions C20_inductor_sensitivity.

(** Which components have a sensitivity entry; in NumPy mode the capacitor of
    an inductive element has none. *)
Theorem C20_sensitivity_entries optim s fd n lobj d c x :
  get_LCWB optim s fd n lobj d = Ok c ->
  (c_pm c x <> None <-> exists e els el, In (e, els) d /\ In el els /\
     ((el = x /\ ekind s el <> KJJ) \/
      (optim = true /\ inductive_el s el = true /\ ecap s el = x))).
Proof. apply pm_entries. Qed.
Print Assumptions C20_sensitivity_entries.
Example C20_case : exists c, get_LCWB true ex "junctions" 3 exl exd = Ok c /\
  pm_val (c_pm c 12) 0 0 = 2 /\ pm_val (c_pm c 1) 0 1 = - (1 / 4).
Proof.
  destruct (ex_run true) as (c & H). exists c. split; [auto|].
  apply get_LCWB_run in H as [_ H].
  destruct (run_edges_pm true ex "junctions" 3 12 exd _ _ H) as [H12 _].
  destruct (run_edges_pm true ex "junctions" 3 1 exd _ _ H) as [H1 _].
  rewrite H12, H1. unfold exd, pm_coef, mrep; simpl. unfold entry; simpl. split; lra.
Qed.

(** RenameProofs.v -- building the matrices from renamed components gives the same
    matrices and the renamed bookkeeping. *)
From Coq Require Import Reals ZArith List Lia String Bool.
From Verif.Model Require Import Base Settings Elements Edge LCWB.
From Verif.Proofs Require Import LCWBProofs BookProofs.
Import ListNotations.

Section Sim.
Variables (s s' : store) (fe fl : nat -> nat).
(** On the edges; there or as an own capacitor; loops. *)
Variables (PO PE PL : nat -> Prop).
(** Whether the two heaps agree on what requires grad. *)
Variable flags : Prop.

Definition inP (c : comp) : Prop := match c with CEl i => PE i | CLoop l => PL l end.
Definition renC (c : comp) : comp := match c with CEl i => CEl (fe i) | CLoop i => CLoop (fl i) end.

Hypothesis OE : forall i, PO i -> PE i.
Hypothesis vals : forall i, PE i -> ekind s' (fe i) = ekind s i /\ evalue s' (fe i) = evalue s i.
Hypothesis refs : forall i, PO i -> inductive_el s i = true ->
  ecap s' (fe i) = fe (ecap s i) /\ eloops s' (fe i) = map fl (eloops s i) /\
  PE (ecap s i) /\ forall l, In l (eloops s i) -> PL l.
Hypothesis lvals : forall l, PL l -> lvalue s' (fl l) = lvalue s l.
Hypothesis injE : forall i j, PE i -> PE j -> fe i = fe j -> i = j.
Hypothesis injL : forall i j, PL i -> PL j -> fl i = fl j -> i = j.
Hypothesis flagsE : flags -> forall c, inP c -> creq s' (renC c) = creq s c /\ cleaf s' (renC c) = cleaf s c.

Lemma eqbE i j : PE i -> PE j -> Nat.eqb (fe i) (fe j) = Nat.eqb i j.
Proof.
  intros hi hj. destruct (Nat.eqb_spec i j) as [->|N]; [apply Nat.eqb_refl|].
  apply Nat.eqb_neq. intros E. apply N, injE; auto.
Qed.
Lemma eqbL i j : PL i -> PL j -> Nat.eqb (fl i) (fl j) = Nat.eqb i j.
Proof.
  intros hi hj. destruct (Nat.eqb_spec i j) as [->|N]; [apply Nat.eqb_refl|].
  apply Nat.eqb_neq. intros E. apply N, injL; auto.
Qed.
Lemma eqbC a b : inP a -> inP b -> comp_eqb (renC a) (renC b) = comp_eqb a b.
Proof. destruct a, b; simpl; auto using eqbE, eqbL. Qed.
Lemma cvalueE c : inP c -> cvalue s' (renC c) = cvalue s c.
Proof. destruct c as [i|l]; simpl; [|apply lvals]. intros h. apply (vals i h). Qed.

(** ** Parameters *)
Definition simP (ps ps' : list (comp * R)) : Prop :=
  (forall p, In p ps -> inP (fst p)) /\
  (flags -> ps' = map (fun p => (renC (fst p), snd p)) ps).
Lemma add_param_sim c ps ps' : inP c -> simP ps ps' ->
  simP (add_to_parameters s c ps) (add_to_parameters s' (renC c) ps').
Proof.
  intros hc [H1 H2]. unfold add_to_parameters. split.
  - intros p. destruct (_ && _); [|auto]. rewrite in_app_iff. simpl. intros [Hp|[<-|[]]]; auto.
  - intros F. destruct (flagsE F c hc) as [-> ->]. rewrite (H2 F).
    assert (E : existsb (fun p => comp_eqb (renC c) (fst p)) (map (fun p => (renC (fst p), snd p)) ps) =
                existsb (fun p => comp_eqb c (fst p)) ps).
    { clear H2. induction ps as [|p ps IH]; simpl; auto. rewrite IH, eqbC; auto.
      - apply H1; left; auto.
      - intros q Hq. apply H1; right; auto. }
    rewrite E. destruct (_ && _); auto. rewrite map_app. simpl. rewrite cvalueE; auto.
Qed.

(** ** Loops *)
Record simL (t t' : list nat * (nat -> lrec) * list (comp * R)) : Prop := {
  sl_loops : fst (fst t') = map fl (fst (fst t));
  sl_in : forall l, In l (fst (fst t)) -> PL l;
  sl_obj : forall l, PL l -> snd (fst t') (fl l) = snd (fst t) l;
  sl_par : simP (snd t) (snd t') }.
Lemma loop_sim optim w b t t' l : PL l -> simL t t' ->
  simL (loop_from_element optim s w b t l) (loop_from_element optim s' w b t' (fl l)).
Proof.
  intros hl [H1 H2 H3 H4]. destruct t as [[loops lobj] ps], t' as [[loops' lobj'] ps'].
  simpl in *. subst loops'.
  assert (E : existsb (Nat.eqb (fl l)) (map fl loops) = existsb (Nat.eqb l) loops).
  { clear - H2 hl injL. induction loops as [|a loops IH]; simpl; auto.
    rewrite IH, eqbL; auto; [apply H2; left; auto|intros x hx; apply H2; right; auto]. }
  unfold loop_from_element, add_loop. rewrite E.
  assert (HP : simP (if optim then add_to_parameters s (CLoop l) ps else ps)
                    (if optim then add_to_parameters s' (CLoop (fl l)) ps' else ps')).
  { destruct optim; auto. apply (add_param_sim (CLoop l)); auto. }
  destruct (existsb (Nat.eqb l) loops) eqn:EX; split; simpl; auto.
  - intros j hj. rewrite eqbL; auto. destruct (Nat.eqb j l); auto. rewrite H3; auto.
  - rewrite map_app; auto.
  - intros j. rewrite in_app_iff. simpl. intros [h|[<-|[]]]; auto.
  - intros j hj. rewrite !eqbL; auto. destruct (Nat.eqb_spec j l) as [->|]; auto.
    rewrite !Nat.eqb_refl. auto.
Qed.
Lemma loops_sim optim w b ls : (forall l, In l ls -> PL l) -> forall t t', simL t t' ->
  simL (fold_left (loop_from_element optim s w b) ls t)
       (fold_left (loop_from_element optim s' w b) (map fl ls) t').
Proof.
  induction ls as [|l ls IH]; intros H t t' S; simpl; auto.
  apply IH; [intros j hj; apply H; right; auto|]. apply loop_sim; auto. apply H; left; auto.
Qed.

(** ** One element *)
Definition rest (c : cst) :=
  (c_bid c, c_wid c, c_kmat c, c_cedge c, (c_C c, c_L c), c_W c, c_njwi c).
Record simC (c c' : cst) : Prop := {
  q_loops : c_loops c' = map fl (c_loops c);
  q_in : forall l, In l (c_loops c) -> PL l;
  q_obj : forall l, PL l -> c_lobj c' (fl l) = c_lobj c l;
  q_par : simP (c_params c) (c_params c');
  q_ind : c_keys_ind c' = map (fun k => (fst (fst k), fe (snd (fst k)), snd k)) (c_keys_ind c);
  q_indP : forall k, In k (c_keys_ind c) -> PO (snd (fst k));
  q_jj : c_keys_jj c' = map (fun k => (fst (fst (fst k)), fe (snd (fst (fst k))), snd (fst k), snd k))
                            (c_keys_jj c);
  q_jjP : forall k, In k (c_keys_jj c) -> PO (snd (fst (fst k)));
  q_pm : forall i, PE i -> c_pm c' (fe i) = c_pm c i;
  q_rest : rest c' = rest c }.

Lemma pm_add_sim pm pm' el m : PE el -> (forall i, PE i -> pm' (fe i) = pm i) ->
  forall i, PE i -> pm_add pm' (fe el) m (fe i) = pm_add pm el m i.
Proof. intros he H i hi. unfold pm_add. rewrite eqbE, H; auto. rewrite H; auto. Qed.
Lemma inductive_sim el : PE el -> inductive_el s' (fe el) = inductive_el s el.
Proof. intros h. unfold inductive_el. rewrite (proj1 (vals el h)). auto. Qed.
Lemma is_ind_sim el : PE el -> is_ind s' (fe el) = is_ind s el.
Proof. intros h. unfold is_ind. rewrite (proj1 (vals el h)). auto. Qed.
Lemma is_jj_sim el : PE el -> is_jj s' (fe el) = is_jj s el.
Proof. intros h. unfold is_jj. rewrite (proj1 (vals el h)). auto. Qed.

(** The two halves of [process_el]. *)
Definition pe_ind (optim : bool) (s : store) (fd : string) (e : edge) (w : list Z) (m : list (list Z))
    (c : cst) (el : nat) : cst :=
  if inductive_el s el then
    let '(loops, lobj, ps2) :=
      fold_left (loop_from_element optim s w (c_bid c)) (eloops s el)
        (c_loops c, c_lobj c, if optim then add_to_parameters s (CEl (ecap s el)) (c_params c) else c_params c) in
    mkC loops lobj
      (if is_ind s el then c_keys_ind c ++ [(e, el, c_bid c)] else c_keys_ind c)
      (if is_jj s el then c_keys_jj c ++ [(e, el, c_bid c, c_wid c)] else c_keys_jj c)
      ps2 (if optim then pm_add (c_pm c) (ecap s el) (fun i j => IZR (entry m i j)) else c_pm c)
      (S (c_bid c)) (c_wid c) (c_kmat c ++ [w])
      (c_cedge c ++ match cap_for_flux_dist (ekind s el) fd (evalue s (ecap s el)) with
                    | Some x => [x] | None => [] end)
      (c_C c) (c_L c) (c_W c) (c_njwi c)
  else c.
Definition pe_fin (optim : bool) (s : store) (m : list (list Z)) (el : nat) (c1 : cst) : cst :=
  mkC (c_loops c1) (c_lobj c1) (c_keys_ind c1) (c_keys_jj c1)
      (if optim then add_to_parameters s (CEl el) (c_params c1) else c_params c1)
      (match partial_mat s el m with Some p => pm_add (c_pm c1) el p | None => c_pm c1 end)
      (c_bid c1) (c_wid c1) (c_kmat c1) (c_cedge c1) (c_C c1) (c_L c1) (c_W c1) (c_njwi c1).
Lemma process_elE optim s0 fd e w m c el :
  process_el optim s0 fd e w m c el = pe_fin optim s0 m el (pe_ind optim s0 fd e w m c el).
Proof. reflexivity. Qed.

Lemma process_el_sim optim fd e w m c c' el : PO el -> simC c c' ->
  simC (process_el optim s fd e w m c el) (process_el optim s' fd e w m c' (fe el)).
Proof.
  intros ho S. assert (he := OE el ho). rewrite !process_elE.
  assert (PM : partial_mat s' (fe el) m = partial_mat s el m).
  { unfold partial_mat. destruct (vals el he) as [-> ->]. auto. }
  assert (S1 : simC (pe_ind optim s fd e w m c el) (pe_ind optim s' fd e w m c' (fe el))).
  2:{ revert S1. generalize (pe_ind optim s fd e w m c el) (pe_ind optim s' fd e w m c' (fe el)).
      intros c1 c1' [Q1 Q2 Q3 Q4 Q5 Q6 Q7 Q8 Q9 Q0]. split; simpl; auto.
      - destruct optim; auto. apply (add_param_sim (CEl el)); auto.
      - intros i hi. rewrite PM. destruct (partial_mat s el m); auto. apply pm_add_sim; auto. }
  unfold pe_ind. rewrite inductive_sim by auto.
  destruct (inductive_el s el) eqn:I; auto.
  destruct (refs el ho I) as (RC & RL & hc & hL).
  rewrite RC, RL. rewrite is_ind_sim, is_jj_sim by auto.
  destruct S as [Q1 Q2 Q3 Q4 Q5 Q6 Q7 Q8 Q9 Q0].
  assert (SL := loops_sim optim w (c_bid c) (eloops s el) hL
    (c_loops c, c_lobj c, if optim then add_to_parameters s (CEl (ecap s el)) (c_params c) else c_params c)
    (c_loops c', c_lobj c', if optim then add_to_parameters s' (CEl (fe (ecap s el))) (c_params c') else c_params c')).
  injection Q0 as B1 B2 B3 B4 B5 B6 B7 B8.
  rewrite B1 in *.
  match type of SL with ?A -> _ => assert (HA : A) end.
  { split; simpl; auto. destruct optim; auto. apply (add_param_sim (CEl (ecap s el))); auto. }
  specialize (SL HA). clear HA.
  destruct (fold_left (loop_from_element optim s w (c_bid c)) _ _) as [[loops lobj] ps2].
  destruct (fold_left (loop_from_element optim s' w (c_bid c)) _ _) as [[loops' lobj'] ps2'].
  destruct SL as [L1 L2 L3 L4]. simpl in *. split; simpl; auto.
  - destruct (is_ind s el); auto. rewrite map_app, Q5. auto.
  - intros k. destruct (is_ind s el); auto. rewrite in_app_iff. simpl. intros [h|[<-|[]]]; auto.
  - destruct (is_jj s el); auto. rewrite map_app, Q7, B2. auto.
  - intros k. destruct (is_jj s el); auto. rewrite in_app_iff. simpl. intros [h|[<-|[]]]; auto.
  - intros i hi. destruct optim; auto. apply pm_add_sim; auto.
  - unfold rest. simpl. rewrite B2, B3, B4, B5, B6, B7, B8.
    destruct (vals el he) as [-> _]. destruct (vals _ hc) as [_ ->]. auto.
Qed.
Lemma process_els_sim optim fd e w m els : (forall el, In el els -> PO el) -> forall c c', simC c c' ->
  simC (fold_left (process_el optim s fd e w m) els c)
       (fold_left (process_el optim s' fd e w m) (map fe els) c').
Proof.
  induction els as [|el els IH]; intros H c c' S; simpl; auto.
  apply IH; [intros j hj; apply H; right; auto|]. apply process_el_sim; auto. apply H; left; auto.
Qed.

(** ** One edge *)
Lemma eff_cap_sim els : (forall el, In el els -> PO el) -> eff_cap s' (map fe els) = eff_cap s els.
Proof.
  intros H. unfold eff_cap. generalize 0%R. induction els as [|el els IH]; intros a; simpl; auto.
  rewrite inductive_sim by (apply OE, H; left; auto).
  assert (E : (if inductive_el s el then evalue s' (ecap s' (fe el)) else evalue s' (fe el)) =
              (if inductive_el s el then evalue s (ecap s el) else evalue s el)).
  { assert (ho : PO el) by (apply H; left; auto).
    destruct (inductive_el s el) eqn:I; [|apply (vals el (OE el ho))].
    destruct (refs el ho I) as (-> & _ & hc & _). apply (vals _ hc). }
  rewrite E. apply IH. intros j hj; apply H; right; auto.
Qed.
Lemma eff_ind_sim els : (forall el, In el els -> PO el) -> eff_ind s' (map fe els) = eff_ind s els.
Proof.
  intros H. unfold eff_ind. generalize (Ok 0%R). induction els as [|el els IH]; intros a; simpl; auto.
  assert (he : PE el) by (apply OE, H; left; auto).
  rewrite is_ind_sim by auto. rewrite (proj2 (vals el he)). apply IH. intros j hj; apply H; right; auto.
Qed.
Lemma existsb_sim (f g : nat -> bool) els : (forall el, In el els -> g (fe el) = f el) ->
  existsb g (map fe els) = existsb f els.
Proof.
  induction els as [|el els IH]; intros H; simpl; auto.
  rewrite H by (left; auto). rewrite IH; auto. intros j hj; apply H; right; auto.
Qed.

Lemma process_edge_sim optim fd n e els c c' : (forall el, In el els -> PO el) -> simC c c' ->
  match process_edge optim s fd n c (e, els), process_edge optim s' fd n c' (e, map fe els) with
  | Ok d, Ok d' => simC d d'
  | Err x, Err x' => x = x'
  | _, _ => False
  end.
Proof.
  intros H S. unfold process_edge. destruct (w_at_edge n e) as [w|]; [|simpl; auto].
  destruct (matrix_rep n e) as [m|]; [|simpl; auto]. cbn [bind].
  rewrite eff_ind_sim by auto. destruct (eff_ind s els) as [il|]; [|simpl; auto]. cbn [bind].
  assert (J : junc_in_edge s' (map fe els) = junc_in_edge s els).
  { apply existsb_sim. intros el he. apply is_jj_sim, OE, H, he. }
  assert (I : existsb (is_ind s') (map fe els) = existsb (is_ind s) els).
  { apply existsb_sim. intros el he. apply is_ind_sim, OE, H, he. }
  unfold junc_without_ind. fold (junc_in_edge s els) (junc_in_edge s' (map fe els)).
  rewrite J, I, eff_cap_sim by auto.
  destruct (process_els_sim optim fd e w m els H c c' S) as [Q1 Q2 Q3 Q4 Q5 Q6 Q7 Q8 Q9 Q0].
  injection Q0 as B1 B2 B3 B4 B5 B6 B7 B8.
  split; simpl; auto. unfold rest; simpl. rewrite B1, B2, B3, B4, B5, B6, B7, B8. auto.
Qed.
End Sim.

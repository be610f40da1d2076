(** SensProofs.v -- the stored sensitivity matrices (partial_mats). *)
From Coq Require Import Lia Lra.
From Verif.Model Require Import Base Elements Edge LCWB.
From Verif.Spec Require Import GraphSpec CircuitSpec.
From Verif.Proofs Require Import EdgeProofs LCWBProofs BookProofs.
Open Scope R_scope.
Open Scope list_scope.

(** Contribution of one list entry [el] to the entry of component [x]. *)
Definition pm_coef (optim : bool) (s : store) (x el : nat) : R :=
  (if optim && inductive_el s el && Nat.eqb x (ecap s el) then 1 else 0) +
  (if Nat.eqb x el then match ekind s el with
                        | KCap => 1 | KInd => / (evalue s el ^ 2) | KJJ => 0 end else 0).
(** Whether [el] makes an entry for [x]. *)
Definition pm_touch (optim : bool) (s : store) (x el : nat) : bool :=
  (optim && inductive_el s el && Nat.eqb x (ecap s el)) ||
  (Nat.eqb x el && match ekind s el with KJJ => false | _ => true end).

Lemma process_el_pm optim s fd e w m c el x :
  (forall i j, pm_val (c_pm (process_el optim s fd e w m c el) x) i j =
     pm_val (c_pm c x) i j + pm_coef optim s x el * IZR (entry m i j)) /\
  (c_pm (process_el optim s fd e w m c el) x = None <->
     c_pm c x = None /\ pm_touch optim s x el = false).
Proof.
  unfold process_el, pm_coef, pm_touch, inductive_el, partial_mat.
  destruct (ekind s el) eqn:K; cbn [andb].
  - rewrite andb_false_r; cbn [andb orb c_pm]. unfold pm_add.
    destruct (Nat.eqb_spec x el); subst; cbn [andb pm_val].
    + split; [intros; destruct (c_pm c el); simpl; ring|]. split; [discriminate|]. intros [_ H]; discriminate.
    + split; [intros; ring|tauto].
  - destruct (fold_left _ (eloops s el) _) as [[loops' lobj'] ps'].
    cbn [c_pm]. rewrite andb_true_r. unfold pm_add.
    destruct optim; cbn [andb orb].
    + destruct (Nat.eqb_spec x el); subst; cbn [andb pm_val].
      * destruct (Nat.eqb_spec el (ecap s el)) as [E|E]; cbn [orb].
        -- rewrite <- E. split; [intros; destruct (c_pm c el); simpl; unfold Rdiv; ring|].
           split; [discriminate|]. intros [_ H]; discriminate.
        -- split; [intros; destruct (c_pm c el); simpl; unfold Rdiv; ring|].
           split; [discriminate|]. intros [_ H]; discriminate.
      * destruct (Nat.eqb_spec x (ecap s el)) as [->|E]; cbn [orb pm_val].
        -- split; [intros; destruct (c_pm c (ecap s el)); simpl; ring|].
           split; [discriminate|]. intros [_ H]; discriminate.
        -- split; [intros; ring|tauto].
    + destruct (Nat.eqb_spec x el); subst; cbn [andb pm_val].
      * split; [intros; destruct (c_pm c el); simpl; unfold Rdiv; ring|].
        split; [discriminate|]. intros [_ H]; discriminate.
      * split; [intros; ring|tauto].
  - destruct (fold_left _ (eloops s el) _) as [[loops' lobj'] ps'].
    cbn [c_pm]. rewrite andb_true_r, andb_false_r, orb_false_r. unfold pm_add.
    destruct optim; cbn [andb orb].
    + destruct (Nat.eqb_spec x (ecap s el)) as [->|E]; cbn [orb pm_val].
      * split; [intros; destruct (c_pm c (ecap s el)), (Nat.eqb (ecap s el) el); simpl; ring|].
        split; [discriminate|]. intros [_ H]; discriminate.
      * split; [intros; destruct (Nat.eqb x el); ring|tauto].
    + split; [intros; destruct (Nat.eqb x el); ring|tauto].
Qed.

Lemma process_els_pm optim s fd e w m x els : forall c,
  (forall i j, pm_val (c_pm (fold_left (process_el optim s fd e w m) els c) x) i j =
     pm_val (c_pm c x) i j + suml els (pm_coef optim s x) * IZR (entry m i j)) /\
  (c_pm (fold_left (process_el optim s fd e w m) els c) x = None <->
     c_pm c x = None /\ existsb (pm_touch optim s x) els = false).
Proof.
  induction els as [|el els IH]; intros c; simpl.
  - split; [intros; ring|tauto].
  - destruct (IH (process_el optim s fd e w m c el)) as [H1 H2].
    destruct (process_el_pm optim s fd e w m c el x) as [P1 P2]. split.
    + intros; rewrite H1, P1; ring.
    + rewrite H2, P2, orb_false_iff. tauto.
Qed.

Lemma run_edges_pm optim s fd n x d : forall c c', run_edges optim s fd n c d = Ok c' ->
  (forall i j, pm_val (c_pm c' x) i j =
     pm_val (c_pm c x) i j + suml d (fun ee => suml (snd ee) (pm_coef optim s x) * mrep n (fst ee) i j)) /\
  (c_pm c' x = None <->
     c_pm c x = None /\ existsb (fun ee => existsb (pm_touch optim s x) (snd ee)) d = false).
Proof.
  induction d as [|[e els] d IH]; intros c c' H.
  - injection H as <-. simpl. split; [intros; ring|tauto].
  - apply run_edges_cons in H as (c1 & H1 & H2).
    apply process_edge_inv in H1 as (w & m & Hw & Hm & _ & H1). cbv zeta in H1.
    apply IH in H2 as [H2 H3]. rewrite H1 in H2, H3. cbn [c_pm] in H2, H3.
    destruct (process_els_pm optim s fd e w m x els c) as [P1 P2]. split.
    + intros. rewrite H2, P1. simpl.
      replace (mrep n e i j) with (IZR (entry m i j)) by (unfold mrep; rewrite Hm; auto). ring.
    + rewrite H3, P2. simpl. rewrite orb_false_iff. tauto.
Qed.

(** ** Capacitors *)
Lemma edge_cap_upd s x v els : ekind s x = KCap ->
  (forall el, inductive_el s el = true -> ekind s (ecap s el) = KCap) ->
  edge_cap (upd_value s x v) els =
  edge_cap (upd_value s x 0) els + v * suml els (pm_coef true s x).
Proof.
  intros Kx Hcap. unfold edge_cap. rewrite <- suml_scal, <- suml_plus. apply suml_ext.
  intros el _. unfold cap_of, pm_coef, upd_value, inductive_el; simpl.
  destruct (ekind s el) eqn:K; simpl.
  - rewrite (Nat.eqb_sym x el). destruct (Nat.eqb_spec el x); subst; ring.
  - rewrite (Nat.eqb_sym x (ecap s el)).
    destruct (Nat.eqb_spec x el); [subst; congruence|].
    destruct (Nat.eqb (ecap s el) x); ring.
  - rewrite (Nat.eqb_sym x (ecap s el)).
    destruct (Nat.eqb_spec x el); [subst; congruence|].
    destruct (Nat.eqb (ecap s el) x); ring.
Qed.

Lemma pm_coef_numpy s x (d : list (edge * list nat)) :
  (forall e els el, In (e, els) d -> In el els -> inductive_el s el = true -> ecap s el <> x) ->
  forall e els, In (e, els) d -> suml els (pm_coef false s x) = suml els (pm_coef true s x).
Proof.
  intros H e els Hin. apply suml_ext. intros el Hel. unfold pm_coef. f_equal. simpl.
  destruct (inductive_el s el) eqn:I; auto. simpl.
  destruct (Nat.eqb_spec x (ecap s el)); auto. exfalso; eapply H; eauto.
Qed.

Theorem cap_sensitivity optim s fd n lobj d x c :
  get_LCWB optim s fd n lobj d = Ok c -> ekind s x = KCap ->
  (forall el, inductive_el s el = true -> ekind s (ecap s el) = KCap) ->
  (optim = true \/
   forall e els el, In (e, els) d -> In el els -> inductive_el s el = true -> ecap s el <> x) ->
  forall v cv c0,
  get_LCWB optim (upd_value s x v) fd n lobj d = Ok cv ->
  get_LCWB optim (upd_value s x 0) fd n lobj d = Ok c0 ->
  forall i j, c_C cv i j = c_C c0 i j + v * pm_val (c_pm c x) i j.
Proof.
  intros H Kx Hcap Hm v cv c0 Hv H0 i j.
  apply get_LCWB_run in H as [_ H], Hv as [_ Hv], H0 as [_ H0].
  apply run_edges_mats in Hv as (HCv & _). apply run_edges_mats in H0 as (HC0 & _).
  destruct (run_edges_pm optim s fd n x d _ _ H) as [HP _]. simpl in *.
  rewrite HCv, HC0, HP, !Rplus_0_l, <- suml_scal, <- suml_plus. apply suml_ext.
  intros [e els] Hin; simpl. rewrite edge_cap_upd by auto.
  assert (E : suml els (pm_coef optim s x) = suml els (pm_coef true s x)).
  { destruct optim; auto. destruct Hm as [?|Hm]; [discriminate|]. eapply pm_coef_numpy; eauto. }
  rewrite E. ring.
Qed.

(** ** Inductors *)
Lemma edge_invind_upd s x v els : ekind s x = KInd ->
  edge_invind (upd_value s x v) els =
  suml els (fun el => if Nat.eqb el x then 0 else invind_of s el)
  + / v * suml els (fun el => if Nat.eqb el x then 1 else 0).
Proof.
  intros Kx. unfold edge_invind. rewrite <- suml_scal, <- suml_plus. apply suml_ext.
  intros el _. unfold invind_of, upd_value; simpl.
  destruct (Nat.eqb_spec el x); subst; [rewrite Kx; ring|].
  destruct (ekind s el); ring.
Qed.

(** The susceptance entry as a function of the inductance of element [x]. *)
Definition L_entry optim s fd n lobj d x i j (v : R) : R :=
  match get_LCWB optim (upd_value s x v) fd n lobj d with Ok c => c_L c i j | Err _ => 0 end.

Lemma derivable_pt_lim_near f g x l : 
  (exists eps, 0 < eps /\ forall z, Rabs (z - x) < eps -> f z = g z) ->
  derivable_pt_lim g x l -> derivable_pt_lim f x l.
Proof.
  intros (eps & He & E) H e Hpos. destruct (H e Hpos) as (del & Hd).
  assert (M : 0 < Rmin del eps) by (apply Rmin_pos; [apply cond_pos|auto]).
  exists (mkposreal _ M). intros h Hh Hlt. simpl in Hlt.
  rewrite (E (x + h)), (E x).
  - apply Hd; auto. eapply Rlt_le_trans; [exact Hlt|apply Rmin_l].
  - rewrite Rminus_diag_eq, Rabs_R0; auto.
  - replace (x + h - x) with h by ring. eapply Rlt_le_trans; [exact Hlt|apply Rmin_r].
Qed.

Lemma run_edges_ok_iff optim s fd n d : forall c,
  (exists c', run_edges optim s fd n c d = Ok c') <->
  (forall e els, In (e, els) d ->
     (exists w, w_at_edge n e = Ok w) /\ (exists m, matrix_rep n e = Ok m) /\ ~ bad_ind s els).
Proof.
  induction d as [|[e els] d IH]; intros c.
  - split; [intros _ ? ? []|intros _; exists c; auto].
  - split.
    + intros (c' & H). apply run_edges_cons in H as (c1 & H1 & H2).
      apply process_edge_inv in H1 as (w & m & Hw & Hm & Hb & _).
      intros e' els' [[= -> ->]|Hin]; [eauto 10|]. apply (IH c1); eauto.
    + intros H. destruct (H e els (or_introl eq_refl)) as ((w & Hw) & (m & Hm) & Hb).
      unfold run_edges. simpl. unfold process_edge at 1. rewrite Hw, Hm. cbn [bind].
      rewrite (eff_ind_good s els Hb). cbn [bind]. apply IH. intros; apply H; right; auto.
Qed.

Theorem ind_sensitivity optim s fd n lobj d x c :
  get_LCWB optim s fd n lobj d = Ok c -> ekind s x = KInd ->
  (forall el, inductive_el s el = true -> ekind s (ecap s el) = KCap) ->
  evalue s x <> 0 ->
  forall i j, derivable_pt_lim (L_entry optim s fd n lobj d x i j) (evalue s x)
                (- pm_val (c_pm c x) i j).
Proof.
  intros H Kx Hcap Hnz i j.
  apply get_LCWB_run in H as [Hn H].
  destruct (run_edges_pm optim s fd n x d _ _ H) as [HP _]. simpl in HP.
  set (A := suml d (fun ee => suml (snd ee) (fun el => if Nat.eqb el x then 0 else invind_of s el)
                               * mrep n (fst ee) i j)).
  set (B := suml d (fun ee => suml (snd ee) (fun el => if Nat.eqb el x then 1 else 0)
                               * mrep n (fst ee) i j)).
  apply derivable_pt_lim_near with (g := fun v => A + / v * B).
  - exists (Rabs (evalue s x)). split; [apply Rabs_pos_lt; auto|]. intros z Hz.
    assert (z <> 0).
    { intros ->. rewrite Rminus_0_l, Rabs_Ropp in Hz. lra. }
    unfold L_entry.
    assert (Hok : exists c', run_edges optim (upd_value s x z) fd n (cst0 lobj) d = Ok c').
    { apply run_edges_ok_iff. intros e els Hin.
      assert (G := proj1 (run_edges_ok_iff optim s fd n d (cst0 lobj)) (ex_intro _ c H) e els Hin).
      destruct G as (G1 & G2 & G3). repeat split; auto. intros (el & Hel & K & Z).
      apply G3. simpl in K, Z. destruct (Nat.eqb_spec el x); [lra|]. exists el; auto. }
    destruct Hok as (c' & Hc').
    replace (get_LCWB optim (upd_value s x z) fd n lobj d) with (Ok c').
    + apply run_edges_mats in Hc' as (_ & HL & _). rewrite HL. simpl.
      unfold A, B. rewrite <- suml_scal, <- suml_plus, Rplus_0_l. apply suml_ext.
      intros [e els] _; simpl. rewrite edge_invind_upd by auto. ring.
    + unfold get_LCWB. destruct (Z.ltb_spec n 0); [lia|]. symmetry; exact Hc'.
  - replace (- pm_val (c_pm c x) i j) with (0 + - (B / (evalue s x)²)).
    + apply derivable_pt_lim_plus; [apply derivable_pt_lim_const|].
      replace (- (B / (evalue s x)²)) with ((- (1 / (evalue s x)²)) * B + / evalue s x * 0)
        by (unfold Rsqr; field; auto).
      apply derivable_pt_lim_mult; [|apply derivable_pt_lim_const].
      replace (- (1 / (evalue s x)²)) with ((0 * id (evalue s x) - 1 * fct_cte 1 (evalue s x)) / (id (evalue s x))²)
        by (unfold id, fct_cte, Rsqr; field; auto).
      apply derivable_pt_lim_near with (g := (fct_cte 1 / id)%F).
      * exists 1; split; [lra|]. intros; unfold div_fct, fct_cte, id, Rdiv; ring.
      * apply derivable_pt_lim_div; [apply derivable_pt_lim_const|apply derivable_pt_lim_id|exact Hnz].
    + rewrite HP. rewrite !Rplus_0_l. f_equal. unfold Rdiv, B. rewrite <- suml_scal_r.
      apply suml_ext. intros [e els] _; simpl.
      assert (E : suml els (pm_coef optim s x) =
                  suml els (fun el => if Nat.eqb el x then 1 else 0) * / (evalue s x)²).
      { rewrite <- suml_scal_r. apply suml_ext. intros el _. unfold pm_coef.
        assert (N : (optim && inductive_el s el && Nat.eqb x (ecap s el)) = false).
        { destruct optim; auto. destruct (inductive_el s el) eqn:I; auto. simpl.
          destruct (Nat.eqb_spec x (ecap s el)) as [E|E]; auto.
          specialize (Hcap el I). rewrite <- E in Hcap. congruence. }
        rewrite N, (Nat.eqb_sym x el).
        destruct (Nat.eqb_spec el x); [|ring]. subst. rewrite Kx.
        replace (evalue s x ^ 2) with (evalue s x)² by (unfold Rsqr; ring). ring. }
      rewrite E. ring.
Qed.

(** Which components have an entry. *)
Theorem pm_entries optim s fd n lobj d c x : get_LCWB optim s fd n lobj d = Ok c ->
  (c_pm c x <> None <-> exists e els el, In (e, els) d /\ In el els /\
     ((el = x /\ ekind s el <> KJJ) \/
      (optim = true /\ inductive_el s el = true /\ ecap s el = x))).
Proof.
  intros H. apply get_LCWB_run in H as [_ H].
  destruct (run_edges_pm optim s fd n x d _ _ H) as [_ HN]. simpl in HN.
  rewrite HN. split.
  - intros N. destruct (existsb (fun ee => existsb (pm_touch optim s x) (snd ee)) d) eqn:E; [|tauto].
    apply existsb_exists in E as ([e els] & Hin & E). apply existsb_exists in E as (el & Hel & E).
    exists e, els, el. repeat split; auto. unfold pm_touch in E. apply orb_true_iff in E as [E|E].
    + apply andb_true_iff in E as [E E3]. apply andb_true_iff in E as [E1 E2].
      apply Nat.eqb_eq in E3. right; auto.
    + apply andb_true_iff in E as [E1 E2]. apply Nat.eqb_eq in E1. left; split; auto.
      destruct (ekind s el); congruence.
  - intros (e & els & el & Hin & Hel & H') [_ N].
    assert (T : existsb (fun ee => existsb (pm_touch optim s x) (snd ee)) d = true).
    { apply existsb_exists. exists (e, els). split; auto. apply existsb_exists. exists el.
      split; auto. unfold pm_touch. destruct H' as [[-> K]|(-> & I & <-)].
      - rewrite Nat.eqb_refl. destruct (ekind s x); try congruence; apply orb_true_r.
      - rewrite I, Nat.eqb_refl. auto. }
    congruence.
Qed.

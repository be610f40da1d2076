(** LCWBProofs.v -- what _get_LCWB computes. *)
From Coq Require Import Lia Lra Permutation.
From Verif.Model Require Import Base Elements Edge LCWB.
From Verif.Spec Require Import GraphSpec CircuitSpec.
From Verif.Proofs Require Import EdgeProofs.
Open Scope R_scope.
Open Scope list_scope.

(** ** List sums *)
Lemma suml_app {A} (l1 l2 : list A) f : suml (l1 ++ l2) f = suml l1 f + suml l2 f.
Proof. induction l1; simpl; [ring|rewrite IHl1; ring]. Qed.
Lemma suml_ext {A} (l : list A) f g : (forall a, In a l -> f a = g a) -> suml l f = suml l g.
Proof. induction l; simpl; intros H; auto. rewrite H, IHl; auto. Qed.
Lemma suml_plus {A} (l : list A) f g : suml l (fun a => f a + g a) = suml l f + suml l g.
Proof. induction l; simpl; [ring|rewrite IHl; ring]. Qed.
Lemma suml_scal {A} (l : list A) f c : suml l (fun a => c * f a) = c * suml l f.
Proof. induction l; simpl; [ring|rewrite IHl; ring]. Qed.
Lemma suml_scal_r {A} (l : list A) f c : suml l (fun a => f a * c) = suml l f * c.
Proof. induction l; simpl; [ring|rewrite IHl; ring]. Qed.
Lemma suml_perm {A} (l l' : list A) f : Permutation l l' -> suml l f = suml l' f.
Proof. induction 1; simpl; try lra. Qed.
Lemma suml_0 {A} (l : list A) : suml l (fun _ => 0) = 0.
Proof. induction l; simpl; [auto|rewrite IHl; ring]. Qed.
Lemma suml_map {A B} (g : A -> B) (l : list A) f : suml (map g l) f = suml l (fun a => f (g a)).
Proof. induction l; simpl; auto. rewrite IHl; auto. Qed.
Lemma suml_nonneg {A} (l : list A) f : (forall a, In a l -> 0 <= f a) -> 0 <= suml l f.
Proof. induction l; simpl; intros H; [lra|]. pose proof (H a (or_introl eq_refl)).
  assert (0 <= suml l f) by auto. lra. Qed.
Lemma suml_zero_nonneg {A} (l : list A) f : (forall a, In a l -> 0 <= f a) ->
  suml l f = 0 -> forall a, In a l -> f a = 0.
Proof.
  induction l; simpl; intros H E b Hb; [tauto|].
  pose proof (H a (or_introl eq_refl)). pose proof (suml_nonneg l f (fun a h => H a (or_intror h))).
  destruct Hb as [<-|Hb]; [lra|]. apply IHl; auto; lra.
Qed.

Lemma fold_left_sum {A} (f : A -> R) l a : fold_left (fun acc x => acc + f x) l a = a + suml l f.
Proof. revert a; induction l; intros; simpl; [ring|rewrite IHl; ring]. Qed.

Lemma eff_cap_eq s els : eff_cap s els = edge_cap s els.
Proof.
  unfold eff_cap, edge_cap. rewrite fold_left_sum, Rplus_0_l. apply suml_ext; intros el _.
  unfold inductive_el, cap_of. destruct (ekind s el); auto.
Qed.

Lemma eff_ind_err s els : forall e,
  fold_left (fun acc el => (do a <- acc;
      if is_ind s el then do x <- pydiv 1 (evalue s el); Ok (a + x) else Ok a)%res) els (Err e)
  = Err e.
Proof. induction els; simpl; auto. Qed.

Lemma eff_ind_gen s els : forall a,
  (~ bad_ind s els /\
   fold_left (fun acc el => (do a <- acc;
      if is_ind s el then do x <- pydiv 1 (evalue s el); Ok (a + x) else Ok a)%res) els (Ok a)
   = Ok (a + edge_invind s els)) \/
  (bad_ind s els /\
   fold_left (fun acc el => (do a <- acc;
      if is_ind s el then do x <- pydiv 1 (evalue s el); Ok (a + x) else Ok a)%res) els (Ok a)
   = Err ZeroDivisionError).
Proof.
  unfold edge_invind. induction els as [|el els IH]; intros a; simpl.
  - left; split; [intros (x & [] & _)|f_equal; ring].
  - unfold is_ind at 2 4, invind_of at 1. destruct (ekind s el) eqn:K; simpl.
    + destruct (IH a) as [[H1 H2]|[H1 H2]].
      * left; split; [intros (x & [<-|Hx] & Hk & Hz); [congruence|apply H1; exists x; tauto]|].
        rewrite H2; f_equal; ring.
      * right; split; [destruct H1 as (x & Hx & H1); exists x; simpl; tauto|auto].
    + unfold pydiv at 2 4. destruct (Req_EM_T (evalue s el) 0) as [Z|Z]; simpl.
      * right; split; [exists el; simpl; auto|apply eff_ind_err].
      * destruct (IH (a + 1 / evalue s el)) as [[H1 H2]|[H1 H2]].
        -- left; split; [intros (x & [<-|Hx] & Hk & Hz); [congruence|apply H1; exists x; tauto]|].
           rewrite H2; f_equal; unfold Rdiv; ring.
        -- right; split; [destruct H1 as (x & Hx & H1); exists x; simpl; tauto|auto].
    + destruct (IH a) as [[H1 H2]|[H1 H2]].
      * left; split; [intros (x & [<-|Hx] & Hk & Hz); [congruence|apply H1; exists x; tauto]|].
        rewrite H2; f_equal; ring.
      * right; split; [destruct H1 as (x & Hx & H1); exists x; simpl; tauto|auto].
Qed.

Lemma eff_ind_ok s els il : eff_ind s els = Ok il -> il = edge_invind s els /\ ~ bad_ind s els.
Proof.
  unfold eff_ind. destruct (eff_ind_gen s els 0) as [[H1 H2]|[H1 H2]]; rewrite H2; [|discriminate].
  intros [= <-]. split; [ring|auto].
Qed.
Lemma eff_ind_good s els : ~ bad_ind s els -> eff_ind s els = Ok (edge_invind s els).
Proof.
  unfold eff_ind. destruct (eff_ind_gen s els 0) as [[H1 H2]|[H1 H2]]; rewrite H2; [|tauto].
  intros _; f_equal; ring.
Qed.
Lemma eff_ind_bad s els : bad_ind s els -> eff_ind s els = Err ZeroDivisionError.
Proof.
  unfold eff_ind. destruct (eff_ind_gen s els 0) as [[H1 H2]|[H1 H2]]; rewrite H2; tauto.
Qed.

(** ** One edge *)
Lemma process_edge_inv optim s fd n c e els c' :
  process_edge optim s fd n c (e, els) = Ok c' ->
  exists w m, w_at_edge n e = Ok w /\ matrix_rep n e = Ok m /\ ~ bad_ind s els /\
   let c1 := fold_left (process_el optim s fd e w m) els c in
   c' = mkC (c_loops c1) (c_lobj c1) (c_keys_ind c1) (c_keys_jj c1) (c_params c1) (c_pm c1)
        (c_bid c1) (if junc_in_edge s els then S (c_wid c1) else c_wid c1) (c_kmat c1) (c_cedge c1)
        (fun i j => c_C c1 i j + edge_cap s els * IZR (entry m i j))
        (fun i j => c_L c1 i j + edge_invind s els * IZR (entry m i j))
        (if junc_in_edge s els then c_W c1 ++ [w] else c_W c1)
        (if junc_without_ind s els then S (c_njwi c1) else c_njwi c1).
Proof.
  unfold process_edge. intros H.
  destruct (w_at_edge n e) as [w|] eqn:Ew; [|discriminate].
  destruct (matrix_rep n e) as [m|] eqn:Em; [|discriminate]. cbn [bind] in H.
  destruct (eff_ind s els) as [il|] eqn:Ei; [|discriminate]. cbn [bind] in H.
  injection H as H. apply eff_ind_ok in Ei as [-> Hb].
  exists w, m. repeat split; auto. cbv zeta. rewrite <- eff_cap_eq. symmetry; exact H.
Qed.

Definition run_edges optim s fd n (c : cst) (d : list (edge * list nat)) : res cst :=
  fold_left (fun r ee => do c <- r; process_edge optim s fd n c ee)%res d (Ok c).

Lemma fold_edges_err optim s fd n d : forall e,
  fold_left (fun r ee => do c <- r; process_edge optim s fd n c ee)%res d (Err e) = Err e.
Proof. induction d; simpl; auto. Qed.

Lemma run_edges_cons optim s fd n c ee d c' : run_edges optim s fd n c (ee :: d) = Ok c' ->
  exists c1, process_edge optim s fd n c ee = Ok c1 /\ run_edges optim s fd n c1 d = Ok c'.
Proof.
  unfold run_edges. simpl. destruct (process_edge optim s fd n c ee); eauto.
  rewrite fold_edges_err; discriminate.
Qed.

Lemma run_edges_app optim s fd n d1 d2 c c' :
  run_edges optim s fd n c (d1 ++ d2) = Ok c' <->
  exists c1, run_edges optim s fd n c d1 = Ok c1 /\ run_edges optim s fd n c1 d2 = Ok c'.
Proof.
  unfold run_edges. rewrite fold_left_app.
  destruct (fold_left _ d1 (Ok c)) as [c1|] eqn:E.
  - split; [intros H; exists c1; auto|intros (c2 & [= <-] & H); auto].
  - rewrite fold_edges_err. split; [discriminate|]. intros (c1 & H & _); discriminate.
Qed.

Lemma get_LCWB_run optim s fd n lobj d c : get_LCWB optim s fd n lobj d = Ok c ->
  (0 <= n)%Z /\ run_edges optim s fd n (cst0 lobj) d = Ok c.
Proof.
  unfold get_LCWB. destruct (Z.ltb_spec n 0); [discriminate|]. intros; split; auto.
Qed.

(** Fields that [process_el] leaves alone. *)
Lemma process_el_frame optim s fd e w m els c :
  let c1 := fold_left (process_el optim s fd e w m) els c in
  c_C c1 = c_C c /\ c_L c1 = c_L c /\ c_W c1 = c_W c /\ c_njwi c1 = c_njwi c /\ c_wid c1 = c_wid c.
Proof.
  revert c; induction els as [|el els IH]; intros c; cbv zeta; simpl; auto.
  specialize (IH (process_el optim s fd e w m c el)); cbv zeta in IH.
  destruct IH as (-> & -> & -> & -> & ->).
  unfold process_el. destruct (inductive_el s el); simpl; auto.
  destruct (fold_left _ (eloops s el) _) as [[? ?] ?]; simpl; auto.
Qed.

(** ** C13: the matrices *)
Definition mrep (n : Z) (e : edge) (i j : nat) : R :=
  match matrix_rep n e with Ok m => IZR (entry m i j) | Err _ => 0 end.
Definition wrow (n : Z) (e : edge) : list Z :=
  match w_at_edge n e with Ok w => w | Err _ => [] end.

Lemma run_edges_mats optim s fd n d : forall c c', run_edges optim s fd n c d = Ok c' ->
  (forall i j, c_C c' i j = c_C c i j + suml d (fun ee => edge_cap s (snd ee) * mrep n (fst ee) i j)) /\
  (forall i j, c_L c' i j = c_L c i j + suml d (fun ee => edge_invind s (snd ee) * mrep n (fst ee) i j)) /\
  c_W c' = c_W c ++ map (wrow n) (jj_edges s d) /\
  c_wid c' = (c_wid c + length (jj_edges s d))%nat /\
  c_njwi c' = (c_njwi c + length (filter (fun ee => junc_without_ind s (snd ee)) d))%nat.
Proof.
  induction d as [|[e els] d IH]; intros c c' H.
  - injection H as <-. simpl. rewrite app_nil_r. repeat split; intros; ring || lia.
  - apply run_edges_cons in H as (c1 & H1 & H2).
    apply process_edge_inv in H1 as (w & m & Hw & Hm & Hb & H1). cbv zeta in H1.
    destruct (process_el_frame optim s fd e w m els c) as (FC & FL & FW & FN & FD).
    apply IH in H2 as (HC & HL & HW & HD & HN).
    unfold jj_edges in *. simpl. rewrite H1 in HC, HL, HW, HN, HD. simpl in *.
    rewrite FC in HC. rewrite FL in HL. rewrite FW in HW. rewrite FN in HN. rewrite FD in HD.
    unfold junc_in_edge in *. assert (Hmr : forall i j, mrep n e i j = IZR (entry m i j))
      by (intros; unfold mrep; rewrite Hm; auto).
    repeat split; intros.
    + rewrite HC, Hmr; ring.
    + rewrite HL, Hmr; ring.
    + rewrite HW. destruct (existsb (is_jj s) els); simpl; auto.
      rewrite <- app_assoc. unfold wrow at 2. rewrite Hw. auto.
    + rewrite HD. destruct (existsb (is_jj s) els); simpl; lia.
    + rewrite HN. destruct (junc_without_ind s els); simpl; lia.
Qed.

Lemma bilin_sum {A} n (l : list A) (f : A -> R) (M : A -> nat -> nat -> R) x y :
  bilin n (fun i j => suml l (fun a => f a * M a i j)) x y =
  suml l (fun a => f a * bilin n (M a) x y).
Proof.
  induction l; simpl.
  - unfold bilin. rewrite (sumn_ext n _ (fun _ => 0)); [apply sumn_0|]. intros.
    rewrite (sumn_ext n _ (fun _ => 0)); [apply sumn_0|]. intros; ring.
  - rewrite <- IHl. unfold bilin. rewrite <- sumn_scal, <- sumn_plus. apply sumn_ext; intros.
    rewrite <- sumn_scal, <- sumn_plus. apply sumn_ext; intros. ring.
Qed.

Lemma mrep_bilin n e x y : proper n e ->
  bilin n (mrep (Z.of_nat n) e) x y = drop e x * drop e y.
Proof.
  intros H. destruct (matrix_rep_ok n e H) as (m & Hm & _).
  rewrite <- (mat_rep_bilin n e m) by auto. unfold mrep. rewrite Hm. auto.
Qed.

Lemma mrep_sym n e i j : proper n e -> (i < n)%nat -> (j < n)%nat ->
  mrep (Z.of_nat n) e i j = mrep (Z.of_nat n) e j i.
Proof.
  intros H Hi Hj. destruct (matrix_rep_ok n e H) as (m & Hm & _ & He).
  unfold mrep. rewrite Hm, !He by auto. f_equal; ring.
Qed.

Lemma LCWB_forms optim s fd n lobj d c :
  get_LCWB optim s fd (Z.of_nat n) lobj d = Ok c -> proper_dict n d ->
  (forall x y, bilin n (c_C c) x y =
     suml d (fun ee => edge_cap s (snd ee) * (drop (fst ee) x * drop (fst ee) y))) /\
  (forall x y, bilin n (c_L c) x y =
     suml d (fun ee => edge_invind s (snd ee) * (drop (fst ee) x * drop (fst ee) y))) /\
  (forall i j, (i < n)%nat -> (j < n)%nat -> c_C c i j = c_C c j i /\ c_L c i j = c_L c j i).
Proof.
  intros H Hp. apply get_LCWB_run in H as [_ H].
  apply run_edges_mats in H as (HC & HL & _). simpl in HC, HL.
  repeat split; intros.
  - rewrite (bilin_ext n _ (fun i j => suml d (fun ee => edge_cap s (snd ee) *
      mrep (Z.of_nat n) (fst ee) i j))) by (intros; rewrite HC; ring).
    rewrite bilin_sum. apply suml_ext; intros [e els] Hin; simpl. rewrite mrep_bilin; eauto.
  - rewrite (bilin_ext n _ (fun i j => suml d (fun ee => edge_invind s (snd ee) *
      mrep (Z.of_nat n) (fst ee) i j))) by (intros; rewrite HL; ring).
    rewrite bilin_sum. apply suml_ext; intros [e els] Hin; simpl. rewrite mrep_bilin; eauto.
  - rewrite !HC. f_equal. apply suml_ext; intros [e els] Hin; simpl. rewrite mrep_sym; eauto.
  - rewrite !HL. f_equal. apply suml_ext; intros [e els] Hin; simpl. rewrite mrep_sym; eauto.
Qed.

(** Totality: it succeeds for proper edges and non-zero inductances. *)
Lemma run_edges_total optim s fd n d : forall c, proper_dict n d ->
  (forall e els, In (e, els) d -> ~ bad_ind s els) ->
  exists c', run_edges optim s fd (Z.of_nat n) c d = Ok c'.
Proof.
  induction d as [|[e els] d IH]; intros c Hp Hb; [exists c; auto|].
  destruct (w_at_edge_ok n e (Hp e els (or_introl eq_refl))) as (w & Hw & _).
  destruct (matrix_rep_ok n e (Hp e els (or_introl eq_refl))) as (m & Hm & _).
  unfold run_edges. simpl. unfold process_edge at 1. rewrite Hw, Hm. cbn [bind].
  rewrite (eff_ind_good s els (Hb e els (or_introl eq_refl))). cbn [bind].
  apply IH; intros e' els' H'; [apply (Hp e' els')|apply (Hb e' els')]; right; auto.
Qed.

(** ** C14: positive definiteness *)
Lemma suml_pos_term {A} (l : list A) f a : (forall b, In b l -> 0 <= f b) -> In a l -> 0 < f a ->
  0 < suml l f.
Proof.
  intros H Ha Hp. induction l; [destruct Ha|]. simpl.
  assert (0 <= suml l f) by (apply suml_nonneg; intros; apply H; right; auto).
  destruct Ha as [<-|Ha]; [lra|]. assert (0 <= f a0) by (apply H; left; auto).
  assert (0 < suml l f) by (apply IHl; auto; intros; apply H; right; auto). lra.
Qed.

(** Zero drop over the edges of a connected graph leaves only zero. *)
Lemma zero_drops_zero es x k : grounded es k ->
  (forall e, In e es -> drop e x = 0) -> pot x k = 0.
Proof.
  intros H Hd. induction H as [|a b _ IH Hin|a b _ IH Hin].
  - reflexivity.
  - apply Hd in Hin; unfold drop in Hin; simpl in Hin; lra.
  - apply Hd in Hin; unfold drop in Hin; simpl in Hin; lra.
Qed.

Lemma C_posdef optim s fd n lobj d c :
  get_LCWB optim s fd (Z.of_nat n) lobj d = Ok c -> proper_dict n d ->
  (forall e els, In (e, els) d -> 0 < edge_cap s els) ->
  connected n (map fst d) ->
  forall x, 0 <= bilin n (c_C c) x x /\
    (bilin n (c_C c) x x = 0 -> forall i, (i < n)%nat -> x i = 0).
Proof.
  intros H Hp Hc Hconn x.
  destruct (LCWB_forms _ _ _ _ _ _ _ H Hp) as (HC & _ & _).
  assert (Hnn : forall ee, In ee d ->
    0 <= edge_cap s (snd ee) * (drop (fst ee) x * drop (fst ee) x)).
  { intros [e els] Hin. simpl. pose proof (Hc e els Hin). pose proof (Rle_0_sqr (drop e x)).
    unfold Rsqr in *. apply Rmult_le_pos; lra. }
  rewrite HC. split; [apply suml_nonneg; auto|].
  intros E i Hi.
  pose proof (suml_zero_nonneg d _ Hnn E) as Hz.
  assert (Hd : forall e, In e (map fst d) -> drop e x = 0).
  { intros e He. apply in_map_iff in He as ([e' els] & <- & Hin). specialize (Hz _ Hin).
    simpl in *. pose proof (Hc e' els Hin).
    apply Rmult_integral in Hz as [Hz|Hz]; [lra|]. apply Rmult_integral in Hz; tauto. }
  assert (Hk : (0 <= Z.of_nat i + 1 <= Z.of_nat n)%Z) by lia.
  pose proof (zero_drops_zero _ x _ (Hconn _ Hk) Hd) as P. unfold pot in P.
  destruct (Z.eqb_spec (Z.of_nat i + 1) 0); [lia|].
  replace (Z.to_nat (Z.of_nat i + 1) - 1)%nat with i in P by lia. auto.
Qed.

(** The converse: nodes cut off from ground give a null vector. *)
Lemma C_singular optim s fd n lobj d c (T : Z -> bool) :
  get_LCWB optim s fd (Z.of_nat n) lobj d = Ok c -> proper_dict n d ->
  T 0%Z = false -> (exists k, (1 <= k <= Z.of_nat n)%Z /\ T k = true) ->
  (forall e els, In (e, els) d -> T (fst e) = T (snd e)) ->
  exists x, (exists i, (i < n)%nat /\ x i <> 0) /\
    forall y, bilin n (c_C c) y x = 0.
Proof.
  intros H Hp H0 (k & Hk & Tk) HT.
  exists (fun i => if T (Z.of_nat i + 1)%Z then 1 else 0). split.
  - exists (Z.to_nat k - 1)%nat. split; [lia|].
    replace (Z.of_nat (Z.to_nat k - 1) + 1)%Z with k by lia. rewrite Tk; lra.
  - intros y. destruct (LCWB_forms _ _ _ _ _ _ _ H Hp) as (HC & _ & _). rewrite HC.
    rewrite (suml_ext d _ (fun _ => 0)); [apply suml_0|].
    intros [e els] Hin; simpl.
    assert (Hd : drop e (fun i => if T (Z.of_nat i + 1)%Z then 1 else 0) = 0).
    { pose proof (Hp _ _ Hin) as (P1 & P2 & P3). specialize (HT _ _ Hin).
      assert (Q : forall a, (0 <= a)%Z ->
        pot (fun i => if T (Z.of_nat i + 1)%Z then 1 else 0) a = if T a then 1 else 0).
      { intros a Ha. unfold pot. destruct (Z.eqb_spec a 0).
        - subst; rewrite H0; auto.
        - replace (Z.of_nat (Z.to_nat a - 1) + 1)%Z with a by lia. auto. }
      unfold drop. rewrite !Q, HT by lia. ring. }
    rewrite Hd; ring.
Qed.

(** ** C15 *)
Lemma L_null optim s fd n lobj d c :
  get_LCWB optim s fd (Z.of_nat n) lobj d = Ok c -> proper_dict n d ->
  (forall e els el, In (e, els) d -> In el els -> ekind s el = KInd -> 0 < evalue s el) ->
  forall x, bilin n (c_L c) x x = 0 <->
    forall e els el, In (e, els) d -> In el els -> ekind s el = KInd -> drop e x = 0.
Proof.
  intros H Hp Hpos x.
  destruct (LCWB_forms _ _ _ _ _ _ _ H Hp) as (_ & HL & _). rewrite HL.
  assert (Hi : forall e els, In (e, els) d -> 0 <= edge_invind s els /\
    ((exists el, In el els /\ ekind s el = KInd) -> 0 < edge_invind s els) /\
    (~ (exists el, In el els /\ ekind s el = KInd) -> edge_invind s els = 0)).
  { intros e els Hin. unfold edge_invind.
    assert (N : forall el, In el els -> 0 <= invind_of s el).
    { intros el Hel. unfold invind_of. destruct (ekind s el) eqn:K; try lra.
      left. apply Rinv_0_lt_compat. eauto. }
    split; [apply suml_nonneg; auto|]. split.
    - intros (el & Hel & K). apply suml_pos_term with (a := el); auto.
      unfold invind_of; rewrite K. apply Rinv_0_lt_compat. eauto.
    - intros Hno. rewrite (suml_ext els _ (fun _ => 0)); [apply suml_0|].
      intros el Hel. unfold invind_of. destruct (ekind s el) eqn:K; auto.
      exfalso; apply Hno; eauto. }
  split.
  - intros E e els el Hin Hel K.
    assert (Hnn : forall ee, In ee d ->
      0 <= edge_invind s (snd ee) * (drop (fst ee) x * drop (fst ee) x)).
    { intros [e' els'] Hin'. simpl. destruct (Hi _ _ Hin') as (? & _).
      pose proof (Rle_0_sqr (drop e' x)). unfold Rsqr in *. apply Rmult_le_pos; lra. }
    pose proof (suml_zero_nonneg d _ Hnn E _ Hin) as Z. simpl in Z.
    destruct (Hi _ _ Hin) as (_ & P & _).
    assert (0 < edge_invind s els) by (apply P; eauto).
    apply Rmult_integral in Z as [Z|Z]; [lra|]. apply Rmult_integral in Z; tauto.
  - intros Hd. rewrite (suml_ext d _ (fun _ => 0)); [apply suml_0|].
    intros [e els] Hin; simpl. destruct (Hi _ _ Hin) as (_ & _ & Q).
    destruct (existsb (fun el => match ekind s el with KInd => true | _ => false end) els) eqn:B.
    + apply existsb_exists in B as (el & Hel & K).
      rewrite (Hd e els el Hin Hel); [ring|]. destruct (ekind s el); auto; discriminate.
    + rewrite Q; [ring|]. intros (el & Hel & K).
      assert (existsb (fun el => match ekind s el with KInd => true | _ => false end) els = true)
        by (apply existsb_exists; exists el; rewrite K; auto).
      congruence.
Qed.

(** P_Texts.v -- C58: loop_description(); C67: element_description(). *)
From Coq Require Import Ascii String Lia Lra.
From Verif.Model Require Import Base Units Elements Edge LCWB Rounding Symbolic Texts.
From Verif.Spec Require Import GraphSpec CircuitSpec TextSpec.
From Verif.Proofs Require Import LCWBProofs BookProofs TextProofs RoundProofs.
Open Scope list_scope.
Open Scope string_scope.

(** The table of a built circuit with loops.  Row i belongs to the i-th inductor or
    junction: it shows its name, its number and, under the name of each loop, the
    share of the flux of that loop. *)
Theorem C58_table optim s fd n lobj d c eid lid fmt B :
  get_LCWB optim s fd n lobj d = Ok c -> c_loops c <> [] ->
  (Z.of_nat (List.length (ind_occs s d)) < 1000000)%Z ->
  (forall e el, In (e, el) (ind_occs s d) -> on_line (eid el)) ->
  (forall l, In l (c_loops c) -> on_line (lid l)) -> (forall x, on_line (fmt x)) ->
  exists text nr nh header dashes rows,
    loop_description eid lid fmt c (c_bid c) B = Ok text /\
    lines text = (header :: dashes :: rows ++ [""])%list /\
    List.length rows = List.length (ind_occs s d) /\
    longest (map (fun o => eid (snd o)) (ind_occs s d)) nr /\ longest (map lid (c_loops c)) nh /\
    (forall j, (j < List.length (c_loops c))%nat ->
       shows (substring (nr + 10 + j * (nh + 10)) nh header) (lid (nth j (c_loops c) 0%nat))) /\
    forall i e el, nth_error (ind_occs s d) i = Some (e, el) ->
      exists row num, nth_error rows i = Some row /\
        shows (substring 0 nr row) (eid el) /\
        shows (substring nr 10 row) (", b" ++ num ++ ":") /\ reads num = Some (i + 1)%nat /\
        ((forall j, (j < List.length (c_loops c))%nat ->
            (String.length (fmt (np_round 2 (Rabs (B i j)))) <= nh + 10)%nat) ->
         forall j, (j < List.length (c_loops c))%nat ->
           shows (substring (nr + 10 + j * (nh + 10)) (nh + 10) row) (fmt (np_round 2 (Rabs (B i j))))).
Proof.
  intros H NE NB He Hl Hf.
  pose (names := app (map (fun k => let '(_, el, _, _) := k in eid el) (c_keys_jj c))
                 (map (fun k => let '(_, el, _) := k in eid el) (c_keys_ind c))).
  assert (KR := key_rows _ _ _ _ _ _ _ H).
  assert (In_names : forall t, In t names <-> In t (map (fun o => eid (snd o)) (ind_occs s d))).
  { intros t. unfold names. rewrite in_app_iff, !in_map_iff. split.
    - intros [([[[e el] b] w] & <- & K)|([[e el] b] & <- & K)]; exists (e, el); split; auto.
      + apply nth_error_In with b. apply KR; eauto.
      + apply nth_error_In with b. apply KR; auto.
    - intros ([e el] & <- & K). apply In_nth_error in K as [b K]. apply KR in K as [K|(w & K)].
      + right; exists (e, el, b); auto.
      + left; exists (e, el, b, w); auto. }
  assert (NN : names <> []).
  { destruct (LCWB_book _ _ _ _ _ _ _ H) as [_ _ B3 _ _ _ _].
    intros E. apply NE. rewrite B3.
    assert (Z : ind_occs s d = []).
    { destruct (ind_occs s d) as [|[e el] l]; auto. exfalso.
      assert (In (eid el) names) by (apply In_names; left; auto). rewrite E in *; auto. }
    unfold ind_occs in Z. rewrite <- occs_map in Z. apply map_eq_nil in Z. rewrite Z. reflexivity. }
  destruct (maxlen_ok names NN) as [nr Enr].
  destruct (maxlen_ok (map lid (c_loops c))) as [nh Enh].
  { intros E; apply NE; apply map_eq_nil in E; auto. }
  assert (Lr := longest_iff _ _ _ In_names (maxlen_longest _ _ Enr)). assert (Lh := maxlen_longest _ _ Enh).
  assert (own : forall i, In i (seq 0 (c_bid c)) -> exists e el, nth_error (ind_occs s d) i = Some (e, el) /\ row_element c i = Some el).
  { intros i Hi. apply in_seq in Hi. rewrite (bid_occs _ _ _ _ _ _ _ H) in Hi.
    destruct (nth_error (ind_occs s d) i) as [[e el]|] eqn:E.
    - exists e, el; split; auto. eapply row_owner; eauto.
    - apply nth_error_None in E; lia. }
  pose (header := rep (nr + 5 + 5) " " ++ String.concat (rep 10 " ") (map (fun l => ljust nh (lid l)) (c_loops c))).
  pose (rowf := fun i => row_text eid fmt nr nh (List.length (c_loops c)) B
                           (match row_element c i with Some el => el | None => 0%nat end) i).
  assert (OL : on_line header).
  { unfold header. apply on_line_app; [apply on_line_rep, on_line_blank|].
    apply on_line_concat; [apply on_line_rep, on_line_blank|].
    intros t Ht. apply in_map_iff in Ht as (l & <- & Hi). apply on_line_ljust; auto. }
  assert (OR : forall i, In i (seq 0 (c_bid c)) -> on_line (rowf i)).
  { intros i Hi. destruct (own i Hi) as (e & el & K1 & K2). unfold rowf, row_text. rewrite K2.
    apply on_line_app; [apply on_line_ljust; eapply He; eapply nth_error_In; eauto|].
    apply on_line_app; [apply on_line_ljust|].
    - repeat apply on_line_app; try (apply decimal_spec); repeat split; compute; discriminate.
    - apply on_line_concat; [exact I|]. intros t Ht. apply in_map_iff in Ht as (j & <- & _).
      apply on_line_ljust; auto. }
  exists (header ++ nl ++ rep (String.length header) "-" ++ nl ++ String.concat "" (map (fun i => rowf i ++ nl) (seq 0 (c_bid c)))),
    nr, nh, header, (rep (String.length header) "-"), (map rowf (seq 0 (c_bid c))).
  split; [|split; [|split; [|split; [|split; [|split]]]]]; auto.
  - unfold loop_description. fold names. rewrite Enr. cbn [bind]. rewrite Enh. cbn [bind]. fold header.
    rewrite rows_fold; [rewrite !sapp_assoc; reflexivity|].
    intros i Hi. destruct (own i Hi) as (_ & el & _ & K); eauto.
  - rewrite lines_line by auto. f_equal. rewrite lines_line.
    + f_equal. apply lines_rows; auto.
    + apply on_line_rep; split; [compute; discriminate|exact I].
  - rewrite map_length, seq_length. eapply bid_occs; eauto.
  - intros j Hj. unfold header.
    replace (nr + 10 + j * (nh + 10))%nat with
      (String.length (rep (nr + 5 + 5) " ") + j * (nh + String.length (rep 10 " ")))%nat
      by (rewrite !rep_len by reflexivity; lia).
    rewrite sub_skip, (join_fields (fun l => ljust nh (lid l))); auto; [apply ljust_shows|].
    intros l Hi. apply ljust_len. apply Lh. apply in_map; auto.
  - intros i e el N.
    assert (Hi : In i (seq 0 (c_bid c))).
    { apply in_seq. rewrite (bid_occs _ _ _ _ _ _ _ H). split; [lia|]. apply nth_error_Some. congruence. }
    assert (Ei : row_element c i = Some el) by (eapply row_owner; eauto).
    assert (Hn : String.length (ljust nr (eid el)) = nr).
    { apply ljust_len. apply Lr. apply in_map_iff. exists (e, el); split; auto. eapply nth_error_In; eauto. }
    destruct (decimal_spec (i + 1)) as (D1 & D2 & D3).
    assert (H10 : String.length (ljust 10 (", b" ++ decimal (i + 1) ++ ":")) = 10%nat).
    { apply ljust_len. rewrite !sapp_len. cbn [String.length].
      assert (String.length (decimal (i + 1)) <= 6)%nat; [|lia]. apply D3.
      apply in_seq in Hi. rewrite (bid_occs _ _ _ _ _ _ _ H) in Hi. lia. }
    exists (rowf i), (decimal (i + 1)).
    assert (Er : rowf i = ljust nr (eid el) ++ ljust 10 (", b" ++ decimal (i + 1) ++ ":") ++
       String.concat "" (map (fun j => ljust (nh + 10) (fmt (np_round 2 (Rabs (B i j))))) (seq 0 (List.length (c_loops c))))).
    { unfold rowf, row_text. rewrite Ei. reflexivity. }
    split; [|split; [|split; [|split]]]; auto.
    + apply nth_error_map_iff. exists i. split; auto. rewrite nth_error_nth' with (d := 0%nat).
      * rewrite seq_nth; auto. apply in_seq in Hi; lia.
      * rewrite seq_length. apply in_seq in Hi; lia.
    + rewrite Er, sub_pre by auto. apply ljust_shows.
    + rewrite Er. rewrite <- (Nat.add_0_r nr), <- Hn at 1. rewrite sub_skip, sub_pre by auto. apply ljust_shows.
    + intros W j Hj. rewrite Er.
      replace (nr + 10 + j * (nh + 10))%nat with (String.length (ljust nr (eid el)) +
        (String.length (ljust 10 (", b" ++ decimal (i + 1) ++ ":")) + j * (nh + 10)))%nat by lia.
      rewrite !sub_skip, sub_field.
      * rewrite seq_nth, Nat.add_0_l by auto. rewrite <- (ljust_len (nh + 10) (fmt (np_round 2 (Rabs (B i j)))) (W j Hj)) at 1.
        rewrite sub_all. apply ljust_shows.
      * intros k Hk. apply ljust_len. apply W. apply in_seq in Hk; lia.
      * rewrite seq_length; auto.
      * auto.
Qed.
Print Assumptions C58_table.

(** Without loops: ValueError, whatever the circuit. *)
Theorem C58_no_loops eid lid fmt c nrows B : c_loops c = [] ->
  loop_description eid lid fmt c nrows B = Err ValueError.
Proof.
  intros E. unfold loop_description. rewrite E.
  destruct (maxlen _) as [nr|x] eqn:M; [reflexivity|].
  cbn [bind]. unfold maxlen in M. destruct (_ ++ _)%list; congruence.
Qed.
Print Assumptions C58_no_loops.

(** The text does not tell the direction of a flux. *)
Theorem C58_sign eid lid fmt c nrows B : 
  loop_description eid lid fmt c nrows (fun i j => - B i j)%R = loop_description eid lid fmt c nrows B.
Proof.
  unfold loop_description, row_text. destruct (maxlen _) as [nr|]; [|reflexivity]. cbn [bind].
  destruct (maxlen _) as [nh|]; [|reflexivity]. cbn [bind].
  apply fold_ext. intros a i. destruct a; cbn [bind]; [|reflexivity].
  destruct (row_element c i); [|reflexivity]. do 6 f_equal. apply map_ext. intros j. rewrite Rabs_Ropp. reflexivity.
Qed.
Print Assumptions C58_sign.

Lemma round_Z x z : (Rabs (x - IZR z) < 1 / 2)%R -> round_even x = z.
Proof.
  intros H. assert (K := round_even_near x z). rewrite <- (Rabs_Ropp (x - IZR (round_even x))) in K.
  replace (- (x - IZR (round_even x)))%R with (IZR (round_even x) - x)%R in K by ring.
  assert (T := Rabs_triang (IZR (round_even x) - x) (x - IZR z)).
  replace (IZR (round_even x) - x + (x - IZR z))%R with (IZR (round_even x - z)) in T by (rewrite minus_IZR; ring).
  assert (Q : (Rabs (IZR (round_even x - z)) < 1)%R) by lra.
  rewrite <- abs_IZR in Q. apply lt_IZR in Q. lia.
Qed.

(** The circuit of tests/test_descriptions.py 87-112 and its expected text
    (tests/data/descriptions/flux_dist_all.txt). *)
Definition td_store : store :=
  mkStore (fun el => if (el =? 2)%nat then KInd else if (el <? 2)%nat then KJJ else KCap) (fun _ => 1%R)
    (fun _ => false) (fun _ => true) (fun _ => 3%nat) (fun _ => [0%nat]) (fun _ => 0%R) (fun _ => false) (fun _ => true).
Definition td_eid (el : nat) : string := nth el ["JJ1"; "JJ2"; "ind"] "C".
Definition td_fmt (x : R) : string := if Req_EM_T x (33 / 100) then "0.33" else "?".
Definition td_dict : list (edge * list nat) := [((0, 1)%Z, [0%nat]); ((0, 2)%Z, [1%nat]); ((1, 2)%Z, [2%nat])].
Example C58_case :
  exists c, get_LCWB false td_store "all" 2 (fun _ => mkL [] []) td_dict = Ok c /\
  loop_description td_eid (fun _ => "loop1") td_fmt c (c_bid c) (fun _ _ => 33333 / 100000)%R =
  Ok ("             loop1" ++ nl ++
      "------------------" ++ nl ++
      "JJ1, b1:     0.33           " ++ nl ++
      "JJ2, b2:     0.33           " ++ nl ++
      "ind, b3:     0.33           " ++ nl).
Proof.
  assert (E : td_fmt (np_round 2 (Rabs (33333 / 100000))) = "0.33").
  { replace (Rabs (33333 / 100000)) with (33333 / 100000)%R by (rewrite Rabs_pos_eq; lra).
    unfold td_fmt. destruct (Req_EM_T _ _) as [|K]; [reflexivity|]. exfalso; apply K.
    unfold np_round. replace (33333 / 100000 * 10 ^ 2)%R with (33333 / 1000)%R by field.
    rewrite (round_Z _ 33); [simpl; field|replace (33333 / 1000 - 33)%R with (333 / 1000)%R by field; rewrite Rabs_pos_eq; lra]. }
  destruct (run_edges_total false td_store "all" 2 td_dict (cst0 (fun _ => mkL [] []))) as [c Hc].
  - intros e els H. simpl in H. unfold proper.
    repeat (destruct H as [[= <- <-]|H]; [simpl; lia|]). destruct H.
  - intros e els _ (el & _ & _ & Z). simpl in Z. lra.
  - exists c. split; [exact Hc|].
    destruct (LCWB_book false td_store "all" 2 _ td_dict c Hc) as [B1 _ B3 _ B5 B6 _].
    unfold loop_description, row_element, row_text. rewrite B1, B3, B5, B6.
    cbn -[np_round td_fmt nl]. rewrite !E. reflexivity.
Qed.

(** ** C67 *)
(** A line for every edge in order, and under it a line for each of its elements:
    capacitance in F, inductance in H; for a junction the number labelled Hz is
    the internal value. *)
Theorem C67_lines s sub fmt d :
  (forall ee el, In ee d -> In el (snd ee) -> sub el = false) -> (forall x, on_line (fmt x)) ->
  exists text ls, element_description s sub fmt d = Ok text /\ lines text = (ls ++ [""])%list /\
    Forall2 (item_line (ekind s) (evalue s) fmt) (items d) ls.
Proof.
  intros Hs Hf.
  pose (eline := fun el => tab ++ type_name (ekind s el) ++ " = " ++ fmt (evalue s el) ++ " " ++ value_unit (ekind s el)).
  pose (hline := fun e : edge => "Edge (" ++ decimalZ (fst e) ++ ", " ++ decimalZ (snd e) ++ "):").
  assert (EL : forall el, sub el = false -> el_line s sub fmt el = Ok (eline el ++ nl)).
  { intros el H. unfold el_line, eline. rewrite H. unfold get_value. cbn [el_kind el_val].
    destruct (ekind s el); cbn -[nl tab append]; unfold pydiv; destruct (Req_EM_T 1 0) as [|]; try lra;
      cbn [bind]; unfold Rdiv; rewrite Rinv_1, Rmult_1_r, !sapp_assoc; reflexivity. }
  assert (OE : forall el, on_line (eline el)).
  { intros el. unfold eline. repeat apply on_line_app; auto; destruct (ekind s el); repeat split; compute; discriminate. }
  assert (OH : forall e, on_line (hline e)).
  { intros e. unfold hline. repeat apply on_line_app; try apply decimalZ_spec; repeat split; compute; discriminate. }
  assert (inner : forall els t, (forall el, In el els -> sub el = false) ->
     fold_left (fun r el => do t <- r; do x <- el_line s sub fmt el; Ok (t ++ x))%res els (Ok t)
     = Ok (t ++ String.concat "" (map (fun el => eline el ++ nl) els))).
  { induction els as [|el els IH]; intros t H; cbn [fold_left map]; [simpl; rewrite sapp_nil; reflexivity|].
    cbn [bind]. rewrite EL by (apply H; left; auto). cbn [bind]. rewrite IH by (intros; apply H; right; auto).
    rewrite sapp_assoc. do 2 f_equal. destruct els; simpl; [rewrite sapp_nil; reflexivity|reflexivity]. }
  assert (main : forall l t, (forall ee el, In ee l -> In el (snd ee) -> sub el = false) ->
     exists u ls, fold_left (fun r ee => do t <- r;
       fold_left (fun r el => do t <- r; do x <- el_line s sub fmt el; Ok (t ++ x))%res (snd ee)
        (Ok (t ++ "Edge (" ++ decimalZ (fst (fst ee)) ++ ", " ++ decimalZ (snd (fst ee)) ++ "):" ++ nl)))%res l (Ok t)
       = Ok (t ++ u) /\ lines u = (ls ++ [""])%list /\ Forall2 (item_line (ekind s) (evalue s) fmt) (items l) ls).
  { induction l as [|[e els] l IH]; intros t H.
    - exists "", []. rewrite sapp_nil. repeat split; constructor.
    - cbn [fold_left bind fst snd]. rewrite inner by (intros el K; apply (H (e, els)); [left|]; auto).
      destruct (IH ((t ++ "Edge (" ++ decimalZ (fst e) ++ ", " ++ decimalZ (snd e) ++ "):" ++ nl) ++
                    String.concat "" (map (fun el => eline el ++ nl) els))) as (u & ls & E1 & E2 & E3).
      { intros ee el K1 K2; apply (H ee); auto; right; auto. }
      rewrite E1. exists (hline e ++ nl ++ String.concat "" (map (fun el => eline el ++ nl) els) ++ u),
        (hline e :: map eline els ++ ls)%list. split; [|split].
      + f_equal. unfold hline. rewrite !sapp_assoc. reflexivity.
      + rewrite lines_line by apply OH. cbn [app]. f_equal.
        clear -OE E2. induction els as [|el els IHe]; [simpl; auto|].
        assert (E : String.concat "" (map (fun el => eline el ++ nl) (el :: els))
                  = eline el ++ nl ++ String.concat "" (map (fun el => eline el ++ nl) els)).
        { destruct els; simpl; [reflexivity|rewrite sapp_assoc; reflexivity]. }
        rewrite E, !sapp_assoc, lines_line by apply OE. cbn [map app]. f_equal. apply IHe.
      + unfold items. cbn [flat_map fst snd app]. constructor.
        * exists (decimalZ (fst e)), (decimalZ (snd e)). split; [reflexivity|]. split; apply decimalZ_spec.
        * apply Forall2_app; auto. clear. induction els; cbn [map]; constructor; auto.
          exists (ascii_of_nat 9). split; [reflexivity|]. unfold eline, tab, short_name, si_unit, type_name, value_unit.
          reflexivity. }
  destruct (main d "" Hs) as (u & ls & E1 & E2 & E3). exists u, ls. repeat split; auto.
Qed.
Print Assumptions C67_lines.

(** A capacitor or inductor given in F or H, and a junction given in Hz, v each: the
    number shown is v, v and 2 pi v. *)
Theorem C67_value eng st k v rg z x : construct eng st k v (Some (si_unit k)) rg 0 z = Ok x ->
  el_val x = match k with KJJ => (2 * PI * v)%R | _ => v end.
Proof.
  unfold construct, set_value, sample. intros H.
  destruct k; cbn in H; destruct (Rlt_dec _ 0); cbn in H; try discriminate;
    destruct rg; cbn in H; try (destruct (Settings.raise_optim_error_if_needed eng); cbn in H; [|discriminate]);
    injection H as <-; cbn; field.
Qed.
Print Assumptions C67_value.

(** So "JJ = ... Hz" is not the energy of the junction over h. *)
Theorem C67_junction_refuted eng st v rg z x : v <> 0%R -> construct eng st KJJ v (Some "Hz") rg 0 z = Ok x ->
  el_val x <> v.
Proof.
  intros V H. rewrite (C67_value eng st KJJ v rg z x H). intros E.
  assert (K : ((2 * PI - 1) * v = 0)%R) by lra. apply Rmult_integral in K as [K|K]; [|auto].
  assert (P := PI2_1). unfold PI2 in P. lra.
Qed.
Print Assumptions C67_junction_refuted.

(** VerySmallCap and VeryLargeCap are capacitors, but cannot be listed. *)
Theorem C67_subclass_refuted s sub fmt d1 e els1 el els2 d2 :
  (forall ee x, In ee d1 -> In x (snd ee) -> sub x = false) -> (forall x, In x els1 -> sub x = false) ->
  sub el = true -> element_description s sub fmt (d1 ++ (e, els1 ++ el :: els2) :: d2)%list = Err KeyError.
Proof.
  intros H1 H2 Hel.
  pose (step := fun r el => (do t <- r; do x <- el_line s sub fmt el; Ok (t ++ x))%res).
  assert (OKL : forall x, sub x = false -> exists t, el_line s sub fmt x = Ok t).
  { intros x Hx. unfold el_line. rewrite Hx. unfold get_value. cbn [el_kind el_val].
    destruct (ekind s x); cbn -[nl tab append]; unfold pydiv; destruct (Req_EM_T 1 0) as [|]; try lra;
      cbn [bind]; eexists; reflexivity. }
  assert (inner : forall els t, (forall x, In x els -> sub x = false) ->
     exists u, fold_left step els (Ok t) = Ok u).
  { induction els as [|x els IH]; intros t H; cbn [fold_left]; [eauto|].
    destruct (OKL x (H x (or_introl eq_refl))) as [y Ey]. unfold step at 2. cbn [bind]. rewrite Ey. cbn [bind].
    apply IH. intros; apply H; right; auto. }
  assert (bad : forall els er, fold_left step els (Err er) = Err er).
  { induction els; intros; cbn [fold_left]; [reflexivity|apply IHels]. }
  unfold element_description.
  match goal with |- fold_left ?g _ _ = _ => set (F := g) end. rewrite fold_left_app. cbn [fold_left].
  assert (good : exists u, fold_left F d1 (Ok "") = Ok u).
  { generalize "". induction d1 as [|[e' els'] d IH]; intros t; cbn [fold_left]; [eauto|].
    unfold F at 2. cbn [bind fst snd].
    destruct (inner els' (t ++ "Edge (" ++ decimalZ (fst e') ++ ", " ++ decimalZ (snd e') ++ "):" ++ nl)) as [u Eu].
    - intros x Hx; apply (H1 (e', els')); [left|]; auto.
    - fold step. rewrite Eu. apply IH. intros ee x K1 K2; apply (H1 ee); auto; right; auto. }
  destruct good as [u Eu]. apply (eq_trans (f_equal (fun r => fold_left F d2 (F r (e, (els1 ++ el :: els2)%list))) Eu)). unfold F at 2.  cbn [bind fst snd]. fold step. rewrite fold_left_app.
  destruct (inner els1 (u ++ "Edge (" ++ decimalZ (fst e) ++ ", " ++ decimalZ (snd e) ++ "):" ++ nl) H2) as [v Ev].
  rewrite Ev. cbn [fold_left]. unfold step at 2. cbn [bind]. unfold el_line. rewrite Hel. cbn [bind]. fold step.
  rewrite bad. clear. induction d2 as [|x d IH]; cbn [fold_left]; auto.
Qed.
Print Assumptions C67_subclass_refuted.

(** A junction of 1 GHz beside a capacitor of 1 nF. *)
Example C67_case (fmt : R -> string) :
  fmt (2 * PI * 10 ^ 9)%R = "6.283e+09" -> fmt (1 / 10 ^ 9)%R = "1.000e-09" ->
  element_description (mkStore (fun el => if (el =? 0)%nat then KJJ else KCap)
     (fun el => if (el =? 0)%nat then 2 * PI * 10 ^ 9 else 1 / 10 ^ 9)%R
     (fun _ => false) (fun _ => true) (fun _ => 2%nat) (fun _ => []) (fun _ => 0%R) (fun _ => false) (fun _ => true))
    (fun _ => false) fmt [((0, 1)%Z, [0%nat; 1%nat])] =
  Ok ("Edge (0, 1):" ++ nl ++ tab ++ "JJ = 6.283e+09 Hz" ++ nl ++ tab ++ "C = 1.000e-09 F" ++ nl).
Proof.
  intros E1 E2. unfold element_description, el_line. cbn -[nl tab pow]. unfold pydiv.
  destruct (Req_EM_T 1 0) as [|_]; [lra|]. cbn -[nl tab pow].
  replace (2 * PI * 10 ^ 9 / 1)%R with (2 * PI * 10 ^ 9)%R by (unfold Rdiv; rewrite Rinv_1, Rmult_1_r; reflexivity).
  replace (1 / 10 ^ 9 / 1)%R with (1 / 10 ^ 9)%R by (unfold Rdiv; rewrite Rinv_1, Rmult_1_r; reflexivity).
  rewrite E1, E2. reflexivity.
Qed.

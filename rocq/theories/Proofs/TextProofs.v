(** TextProofs.v -- strings, lines and columns. *)
From Coq Require Import Ascii String Lia Permutation.
From Verif.Model Require Import Base Units Elements Edge LCWB Symbolic Texts.
From Verif.Spec Require Import TextSpec.
Open Scope list_scope.
Open Scope string_scope.

Lemma sapp_nil s : s ++ "" = s.
Proof. induction s; simpl; congruence. Qed.
Lemma sapp_assoc a b c : (a ++ b) ++ c = a ++ (b ++ c).
Proof. induction a; simpl; congruence. Qed.
Lemma sapp_len a b : String.length (a ++ b) = (String.length a + String.length b)%nat.
Proof. induction a; simpl; congruence. Qed.

Lemma on_line_app a b : on_line a -> on_line b -> on_line (a ++ b).
Proof. induction a; simpl; tauto. Qed.
Lemma on_line_rep n s : on_line s -> on_line (rep n s).
Proof. intros H; induction n; simpl; [exact I|apply on_line_app; auto]. Qed.
Lemma on_line_blank : on_line " ".
Proof. simpl; split; [compute; discriminate|exact I]. Qed.
Lemma on_line_ljust w s : on_line s -> on_line (ljust w s).
Proof. intros; apply on_line_app; auto; apply on_line_rep, on_line_blank. Qed.
Lemma on_line_concat sep l : on_line sep -> (forall s, In s l -> on_line s) -> on_line (String.concat sep l).
Proof.
  intros Hs; induction l as [|a [|b l] IH]; intros H; [exact I|apply H; left; auto|].
  change (on_line (a ++ sep ++ String.concat sep (b :: l))).
  repeat apply on_line_app; auto; [apply H; left; auto|apply IH; intros; apply H; right; auto].
Qed.

Lemma lines_ne s : exists l ls, lines s = l :: ls.
Proof.
  induction s as [|c s (l & ls & E)]; simpl; [eauto|].
  destruct (Nat.eqb _ _); [eauto|rewrite E; eauto].
Qed.
Lemma lines_line a b : on_line a -> lines (a ++ nl ++ b) = a :: lines b.
Proof.
  induction a as [|c a IH]; intros H; [reflexivity|].
  destruct H as [H1 H2]. change (String c a ++ nl ++ b) with (String c (a ++ nl ++ b)).
  cbn [lines]. apply Nat.eqb_neq in H1. rewrite H1, (IH H2); reflexivity.
Qed.

Lemma rep_blank n : blank (rep n " ").
Proof. induction n; simpl; auto. Qed.
Lemma ljust_shows w s : shows (ljust w s) s.
Proof. exists (rep (w - String.length s) " "); split; [apply rep_blank|reflexivity]. Qed.
Lemma rep_len n c : String.length c = 1%nat -> String.length (rep n c) = n.
Proof. intros H; induction n; simpl; [reflexivity|rewrite sapp_len, H, IHn; lia]. Qed.
Lemma ljust_len w s : (String.length s <= w)%nat -> String.length (ljust w s) = w.
Proof. intros H; unfold ljust; rewrite sapp_len, rep_len by reflexivity; lia. Qed.

Lemma sub_all s : substring 0 (String.length s) s = s.
Proof. induction s; simpl; congruence. Qed.
Lemma sub_pre a b n : n = String.length a -> substring 0 n (a ++ b) = a.
Proof.
  intros ->; induction a; simpl; [destruct b; reflexivity|congruence].
Qed.
Lemma sub_skip a b n m : substring (String.length a + n) m (a ++ b) = substring n m b.
Proof. induction a; simpl; auto. Qed.

(** Fields of fixed width [w] next to one another, each with what follows it. *)
Lemma sub_field (f : nat -> string) w l j m :
  (forall i, In i l -> String.length (f i) = w) -> (j < List.length l)%nat -> (m <= w)%nat ->
  substring (j * w) m (String.concat "" (map f l)) = substring 0 m (f (nth j l 0%nat)).
Proof.
  revert j; induction l as [|a l IH]; intros j H Hj Hm; [simpl in Hj; lia|].
  assert (E : String.concat "" (map f (a :: l)) = f a ++ String.concat "" (map f l)).
  { destruct l; simpl; [rewrite sapp_nil; auto|reflexivity]. }
  rewrite E. destruct j as [|j]; simpl nth.
  - simpl. clear -H Hm. specialize (H a (or_introl eq_refl)). revert m Hm H.
    generalize (String.concat "" (map f l)); generalize (f a). intros s t m Hm H.
    revert m Hm; rewrite <- H; clear H; induction s; intros [|m] Hm; simpl in *; auto; try lia.
    + destruct t; reflexivity.
    + rewrite IHs by lia; auto.
  - simpl Nat.mul. rewrite <- (H a (or_introl eq_refl)) at 1. rewrite sub_skip, IH; auto.
    + intros i Hi; apply H; right; auto.
    + simpl in Hj; lia.
Qed.

(** A join is the fields with the separator behind each, but the last. *)
Lemma join_fields (f : nat -> string) sep w l j :
  (forall i, In i l -> String.length (f i) = w) -> (j < List.length l)%nat ->
  substring (j * (w + String.length sep)) w (String.concat sep (map f l)) = f (nth j l 0%nat).
Proof.
  revert j; induction l as [|a l IH]; intros j H Hj; [simpl in Hj; lia|].
  destruct l as [|b l].
  - destruct j; [|simpl in Hj; lia]. simpl. rewrite <- (H a (or_introl eq_refl)). apply sub_all.
  - change (String.concat sep (map f (a :: b :: l))) with (f a ++ sep ++ String.concat sep (map f (b :: l))).
    destruct j as [|j]; [simpl Nat.mul; simpl nth; rewrite sub_pre; auto; symmetry; apply H; left; auto|].
    rewrite Nat.mul_succ_l, (Nat.add_comm (j * _)), <- Nat.add_assoc, <- (H a (or_introl eq_refl)) at 1.
    rewrite sub_skip. rewrite sub_skip. rewrite (IH j); auto.
    + intros i Hi; apply H; right; auto.
    + simpl in Hj |- *; lia.
Qed.

Lemma digit_val d : (d < 10)%nat -> nat_of_ascii (digit d) = (48 + d)%nat.
Proof. intros H; unfold digit; rewrite nat_ascii_embedding; lia. Qed.

Lemma reads_digit a d r : (d < 10)%nat -> reads_from a (String (digit d) r) = reads_from (10 * a + d) r.
Proof.
  intros H; cbn [reads_from]; rewrite digit_val by auto.
  replace (48 <=? 48 + d)%nat with true by (symmetry; apply Nat.leb_le; lia).
  replace (48 + d <=? 57)%nat with true by (symmetry; apply Nat.leb_le; lia).
  cbn [andb]; f_equal; lia.
Qed.

Lemma dec_aux_spec fuel : forall n acc, (n < fuel)%nat ->
  exists ds, dec_aux fuel n acc = ds ++ acc /\ ds <> "" /\ on_line ds /\
    (forall a t, reads_from a (ds ++ t) = reads_from (a * 10 ^ String.length ds + n) t) /\
    (String.length ds = 1%nat \/ (10 ^ (String.length ds - 1) <= n)%nat).
Proof.
  induction fuel as [|k IH]; intros n acc Hn; [lia|].
  assert (M : (n mod 10 < 10)%nat) by (apply Nat.mod_upper_bound; lia).
  assert (DM := Nat.div_mod n 10 ltac:(lia)).
  assert (OL : nat_of_ascii (digit (n mod 10)) <> 10%nat) by (rewrite digit_val by auto; lia).
  cbn [dec_aux]. destruct (Nat.eqb_spec (n / 10) 0) as [E|E].
  - exists (String (digit (n mod 10)) ""). repeat split; auto; [discriminate|].
    intros a t. change (String (digit (n mod 10)) "" ++ t) with (String (digit (n mod 10)) t).
    rewrite reads_digit by auto. f_equal. cbn [String.length]. rewrite Nat.pow_1_r. lia.
  - destruct (IH (n / 10)%nat (String (digit (n mod 10)) acc)) as (ds & E1 & N & O & R & L).
    { assert (n / 10 < n)%nat by (apply Nat.div_lt; lia). lia. }
    exists (ds ++ String (digit (n mod 10)) ""). rewrite E1, sapp_assoc. repeat split; auto.
    + destruct ds; [congruence|discriminate].
    + apply on_line_app; auto. split; [auto|exact I].
    + intros a t. rewrite sapp_assoc, R. change (String (digit (n mod 10)) "" ++ t) with (String (digit (n mod 10)) t).
      rewrite reads_digit by auto. f_equal. rewrite sapp_len; cbn [String.length].
      rewrite Nat.pow_add_r, Nat.pow_1_r. lia.
    + right. rewrite sapp_len; cbn [String.length]. rewrite Nat.add_sub. destruct L as [L|L].
      * rewrite L, Nat.pow_1_r. lia.
      * destruct (String.length ds) as [|m] eqn:Em; [destruct ds; [congruence|discriminate]|].
        cbn [Nat.sub] in L. rewrite Nat.sub_0_r in L. rewrite Nat.pow_succ_r'. lia.
Qed.

Lemma decimal_spec n : reads (decimal n) = Some n /\ on_line (decimal n) /\
  ((Z.of_nat n < 1000000)%Z -> (String.length (decimal n) <= 6)%nat).
Proof.
  destruct (dec_aux_spec (S n) n "" (Nat.lt_succ_diag_r n)) as (ds & E & N & O & R & L).
  unfold decimal; rewrite E, sapp_nil. repeat split; auto.
  - specialize (R 0%nat ""). rewrite sapp_nil in R. simpl in R. destruct ds; [congruence|]. exact R.
  - intros H. destruct L as [L|L]; [lia|]. destruct (Nat.le_gt_cases (String.length ds) 6) as [|G]; auto.
    assert (P : (10 ^ 6 <= 10 ^ (String.length ds - 1))%nat) by (apply Nat.pow_le_mono_r; lia).
    assert (Q : (Z.of_nat (10 ^ 6) = 1000000)%Z) by (rewrite Nat2Z.inj_pow; reflexivity). lia.
Qed.

Lemma decimalZ_spec z : readsZ (decimalZ z) = Some z /\ on_line (decimalZ z).
Proof.
  assert (K : forall n, readsZ (decimal n) = Some (Z.of_nat n)).
  { intros n. destruct (decimal_spec n) as (R & _ & _). unfold readsZ.
    destruct (decimal n) as [|c r] eqn:E; [discriminate|]. rewrite R; cbn [option_map].
    destruct (Nat.eqb_spec (nat_of_ascii c) 45) as [E'|]; auto.
    exfalso. revert R. unfold reads; cbn [reads_from]. rewrite E'. discriminate. }
  destruct z as [|p|p]; unfold decimalZ.
  - split; [rewrite K; reflexivity|apply decimal_spec].
  - split; [rewrite K; f_equal; lia|apply decimal_spec].
  - split.
    + cbn [append readsZ]. change (nat_of_ascii "-" =? 45)%nat with true. cbn iota.
      destruct (decimal_spec (Pos.to_nat p)) as (R & _). rewrite R. cbn [option_map]. f_equal. lia.
    + apply on_line_app; [split; [compute; discriminate|exact I]|apply decimal_spec].
Qed.

Lemma maxlen_longest l n : maxlen l = Ok n -> longest l n.
Proof.
  intros H. assert (l <> [] /\ n = fold_right Nat.max 0%nat (map String.length l)) as [N ->].
  { destruct l; [discriminate|]. injection H as <-. split; [discriminate|reflexivity]. }
  clear H. induction l as [|a l IH]; [congruence|]. cbn [map fold_right].
  destruct l as [|b l].
  - simpl. rewrite Nat.max_0_r. split; [intros s [<-|[]]; auto|exists a; split; [left|]; auto].
  - destruct IH as [I1 (s & I2 & I3)]; [discriminate|]. split.
    + intros t [<-|Ht]; [lia|]. specialize (I1 t Ht). lia.
    + destruct (Nat.max_spec (String.length a) (fold_right Nat.max 0%nat (map String.length (b :: l)))) as [[_ ->]|[_ ->]].
      * exists s; split; [right|]; auto.
      * exists a; split; [left|]; auto.
Qed.
Lemma maxlen_ok l : l <> [] -> exists n, maxlen l = Ok n.
Proof. destruct l; [congruence|simpl; eauto]. Qed.
Lemma longest_perm l l' n : Permutation l l' -> longest l n -> longest l' n.
Proof.
  intros P [H (s & H1 & H2)]; split.
  - intros t Ht; apply H; apply Permutation_in with l'; [symmetry|]; auto.
  - exists s; split; auto; apply Permutation_in with l; auto.
Qed.
Lemma longest_iff l l' n : (forall s, In s l <-> In s l') -> longest l n -> longest l' n.
Proof.
  intros P [H (s & H1 & H2)]; split.
  - intros t Ht; apply H, P; auto.
  - exists s; split; auto; apply P; auto.
Qed.

(** ** The element of a row *)
From Verif.Spec Require Import GraphSpec CircuitSpec.
From Verif.Proofs Require Import BookProofs.
Open Scope string_scope.

Lemma last_match {A} (p : A -> bool) (f : A -> nat) (el : nat) l : forall acc,
  (forall k, In k l -> p k = true -> f k = el) -> (acc = None \/ acc = Some el) ->
  (acc = Some el \/ exists k, In k l /\ p k = true) ->
  fold_left (fun acc k => if p k then Some (f k) else acc) l acc = Some el.
Proof.
  induction l as [|a l IH]; intros acc H Ha He; cbn [fold_left].
  - destruct He as [|(k & [] & _)]; auto.
  - apply IH; [intros; apply H; auto; right; auto| |].
    + destruct (p a) eqn:E; auto. right; f_equal; apply H; auto; left; auto.
    + destruct (p a) eqn:E; [left; f_equal; apply H; auto; left; auto|].
      destruct He as [|(k & [<-|Hk] & Ek)]; [auto|congruence|right; eauto].
Qed.
Lemma last_some {A} (p : A -> bool) (f : A -> nat) (el : nat) l : forall acc,
  (forall k, In k l -> p k = true -> f k = el) -> (acc = None \/ acc = Some el) ->
  fold_left (fun acc k => if p k then Some (f k) else acc) l acc = None \/
  fold_left (fun acc k => if p k then Some (f k) else acc) l acc = Some el.
Proof.
  induction l as [|a l IH]; intros acc H Ha; cbn [fold_left]; auto.
  apply IH; [intros; apply H; auto; right; auto|].
  destruct (p a) eqn:E; auto. right; f_equal; apply H; auto; left; auto.
Qed.

Lemma fold_ext {A B} (f g : A -> B -> A) l : (forall a b, f a b = g a b) ->
  forall a, fold_left f l a = fold_left g l a.
Proof. intros H; induction l; intros; cbn [fold_left]; [auto|rewrite H; auto]. Qed.

Lemma row_elementE c i : row_element c i =
  fold_left (fun acc k => if (i =? snd (fst k))%nat then Some (snd (fst (fst k))) else acc) (c_keys_jj c)
    (fold_left (fun acc k => if (i =? snd k)%nat then Some (snd (fst k)) else acc) (c_keys_ind c) None).
Proof.
  unfold row_element. transitivity (fold_left
      (fun acc (k : edge * nat * nat * nat) => if (i =? snd (fst k))%nat then Some (snd (fst (fst k))) else acc) (c_keys_jj c)
      (fold_left (fun acc k => let '(_, el, b) := k in if (i =? b)%nat then Some el else acc) (c_keys_ind c) None)).
  - apply fold_ext; intros ? [[[? ?] ?] ?]; reflexivity.
  - f_equal; apply fold_ext; intros ? [[? ?] ?]; reflexivity.
Qed.

Lemma row_owner optim s fd n lobj d c : get_LCWB optim s fd n lobj d = Ok c ->
  forall i e el, nth_error (ind_occs s d) i = Some (e, el) -> row_element c i = Some el.
Proof.
  intros H i e el N. rewrite row_elementE.
  assert (U : forall e' el', (In (e', el', i) (c_keys_ind c) \/ exists w, In (e', el', i, w) (c_keys_jj c)) -> el' = el).
  { intros e' el' K. apply (key_rows _ _ _ _ _ _ _ H) in K. congruence. }
  assert (Ui : forall k, In k (c_keys_ind c) -> (i =? snd k)%nat = true -> snd (fst k) = el).
  { intros [[e' el'] b] K E. apply Nat.eqb_eq in E; cbn in E |- *; subst b. apply (U e'); auto. }
  assert (Uj : forall k, In k (c_keys_jj c) -> (i =? snd (fst k))%nat = true -> snd (fst (fst k)) = el).
  { intros [[[e' el'] b] w] K E. apply Nat.eqb_eq in E; cbn in E |- *; subst b. apply (U e'); eauto. }
  apply (key_rows _ _ _ _ _ _ _ H) in N as [N|(w & N)].
  - apply last_match; auto.
    + right. apply last_match; auto. right; exists (e, el, i); split; auto. apply Nat.eqb_refl.
    + left. apply last_match; auto. right; exists (e, el, i); split; auto. apply Nat.eqb_refl.
  - apply last_match; auto.
    + apply last_some; auto.
    + right; exists (e, el, i, w); split; auto. apply Nat.eqb_refl.
Qed.

Lemma bid_occs optim s fd n lobj d c : get_LCWB optim s fd n lobj d = Ok c -> c_bid c = List.length (ind_occs s d).
Proof.
  intros H. destruct (LCWB_book _ _ _ _ _ _ _ H) as [B _ _ _ _ _ _].
  rewrite B. unfold ind_occs. rewrite <- occs_map, map_length. reflexivity.
Qed.

(** The rows one after another. *)
Lemma rows_fold c (f : nat -> nat -> string) l : forall t,
  (forall i, In i l -> exists el, row_element c i = Some el) ->
  fold_left (fun r i => do t <- r;
      match row_element c i with None => Err AttributeError | Some el => Ok (t ++ f el i ++ nl) end)%res
    l (Ok t)
  = Ok (t ++ String.concat "" (map (fun i => f (match row_element c i with Some el => el | None => 0%nat end) i ++ nl) l)).
Proof.
  induction l as [|i l IH]; intros t H; cbn [fold_left map]; [simpl; rewrite sapp_nil; auto|].
  destruct (H i (or_introl eq_refl)) as [el E]; cbn [bind]; rewrite E, IH.
  - f_equal. rewrite sapp_assoc. f_equal. destruct l; simpl; [rewrite sapp_nil; auto|reflexivity].
  - intros; apply H; right; auto.
Qed.
Lemma lines_rows (f : nat -> string) l : (forall i, In i l -> on_line (f i)) ->
  lines (String.concat "" (map (fun i => f i ++ nl) l)) = (map f l ++ [""])%list.
Proof.
  induction l as [|i l IH]; intros H; [reflexivity|].
  assert (E : String.concat "" (map (fun i => f i ++ nl) (i :: l))
            = f i ++ nl ++ String.concat "" (map (fun i => f i ++ nl) l)).
  { destruct l; simpl; [reflexivity|rewrite sapp_assoc; reflexivity]. }
  rewrite E, lines_line by (apply H; left; auto). cbn [map app]. f_equal. apply IH. intros; apply H; right; auto.
Qed.

(** FluxProofs2.v -- the flux distribution of a constructed circuit meets the
    branch-level specification. *)
From Coq Require Import Reals ZArith String.
From Verif.Model Require Import Base Elements Edge LCWB.
From Verif.Spec Require Import GraphSpec CircuitSpec FluxSpec.
From Verif.Proofs Require Import LCWBProofs BookProofs FluxBook.
From mathcomp Require Import all_ssreflect all_algebra.
From Verif.Numerics Require Import RStruct Bridge.
From Verif.Model Require Import FluxDist.
From Verif.Spec Require Import LinSpec.
From Verif.Proofs Require Import FluxProofs.

Set Implicit Arguments.
Unset Strict Implicit.
Unset Printing Implicit Defensive.
Import GRing.Theory.
Local Open Scope ring_scope.

Lemma InP (T : eqType) (x : T) (l : seq T) : List.In x l <-> x \in l.
Proof.
elim: l => [|a l IH] //=; rewrite in_cons; split.
  by case=> [->|/IH ->]; rewrite ?eqxx ?orbT.
by case/orP=> [/eqP ->|/IH]; [left|right].
Qed.
Lemma NoDupP (T : eqType) (l : seq T) : List.NoDup l -> uniq l.
Proof. by elim=> //= a {}l Hn _ ->; rewrite andbT; apply/negP => /InP. Qed.
Lemma nthE (T : Type) (x : T) (l : seq T) i : List.nth i l x = nth x l i.
Proof. by elim: l i => [|a l IH] [|i] //=. Qed.
Lemma sizeE (T : Type) (l : seq T) : List.length l = size l.
Proof. by []. Qed.
Lemma hdE (T : Type) (x : T) (l : seq T) : List.hd x l = head x l.
Proof. by case: l. Qed.
Lemma mapE (T U : Type) (f : T -> U) l : List.map f l = map f l.
Proof. by []. Qed.

Section Circuit.
Variables (sv : svd_fun) (optim : bool) (s : store) (fd : string) (n : nat)
  (lobj : nat -> lrec) (d : list (edge * list nat)) (c : cst).
Hypothesis Hc : get_LCWB optim s fd (Z.of_nat n) lobj d = Ok c.
Hypothesis Hp : proper_dict n d.
Hypothesis Hv : valid_dist fd.
Hypothesis Hs : simple_loops s d.

Lemma bidE : c_bid c = nbranch s d.
Proof. by have [B1 _ _ _ _ _ _] := LCWB_book _ _ _ _ _ _ _ Hc. Qed.

Lemma sum_bid (F : nat -> R) : \sum_(b < c_bid c) F b = \sum_(b < nbranch s d) F b.
Proof. by rewrite bidE. Qed.

Lemma rowE b (x : nat -> R) : (b < nbranch s d)%N ->
  \sum_(j < n) rows (c_kmat c) b j * x j = bdrop s d b x.
Proof.
move=> /ltP Hb; rewrite -(branch_row _ _ _ _ _ _ _ Hc Hp _ Hb x) sumnE.
by apply: eq_bigr => j _; rewrite /rows !nthE.
Qed.

Lemma weightE b : (b < nbranch s d)%N ->
  nth 0 (c_cedge c) b = dist_weight s fd (occ_el (branch s d b)).
Proof.
move=> /ltP Hb; have [_ _ _ _ _ _ B7] := LCWB_book _ _ _ _ _ _ _ Hc.
rewrite -nthE B7; apply: cedge_nth => //; exact: occs_inductive.
Qed.

Lemma loops_rec : loops_recorded c.
Proof.
move=> l /InP Hl; have [_ [_ [A [B _]]]] := loops_characterised _ _ _ _ _ _ _ Hc.
move/A: Hl => Hl; have [-> ->] := B _ Hl.
split.
- by apply: eq_map => b; rewrite nthE.
- exact/NoDupP/mentions_NoDup.
- by apply/allP => b /InP /mentions_In [/ltP]; rewrite bidE.
- by apply/eqP; apply: mentions_nonempty.
Qed.

Lemma idxE l : l \in c_loops c -> l_indices (c_lobj c l) = mentions s d l.
Proof.
move=> /InP Hl; have [_ [_ [A [B _]]]] := loops_characterised _ _ _ _ _ _ _ Hc.
by move/A: Hl => Hl; have [-> _] := B _ Hl.
Qed.

(** Sums over rows of K for each column, against branch variables. *)
Lemma columns_iff (a : nat -> R) :
  (forall j, (j < n)%N -> \sum_(b < nbranch s d) a b * rows (c_kmat c) b j = 0) <->
  (forall x, GraphSpec.sumn (nbranch s d) (fun b => (a b * bdrop s d b x)%R) = 0).
Proof.
have E (x : nat -> R) : GraphSpec.sumn (nbranch s d) (fun b => (a b * bdrop s d b x)%R) =
    \sum_(j < n) (\sum_(b < nbranch s d) a b * rows (c_kmat c) b j) * x j.
  rewrite sumnE; transitivity (\sum_(b < nbranch s d) \sum_(j < n) a b * rows (c_kmat c) b j * x j).
    apply: eq_bigr => b _; rewrite -rowE // ?RmultE big_distrr /=.
    by apply: eq_bigr => j _; rewrite mulrA.
  by rewrite exchange_big /=; apply: eq_bigr => j _; rewrite big_distrl.
split=> [H x|H j Hj]; rewrite ?E.
  by rewrite big1 // => j _; rewrite H // mul0r.
have := H (fun k => (k == j)%:R); rewrite E (bigD1 (Ordinal Hj)) //= eqxx mulr1 [X in _ + X]big1 ?addr0 //.
by move=> k; rewrite -val_eqE /= => /negbTE ->; rewrite mulr0.
Qed.

Lemma closed_iff l G : l \in c_loops c ->
  closed_path n (c_bid c) (rows (c_kmat c)) (l_indices (c_lobj c l)) G <-> closed_walk s d l G.
Proof.
move=> Hl; rewrite idxE // bidE /closed_walk -columns_iff hdE; split.
  case=> [H1 H2 H3]; split=> [b /ltP Hb nb|//]; apply: H1 => //.
  by apply/negP => /InP.
case=> [H1 [H2 H3]]; split=> // b /ltP Hb nb; apply: H1 => // /InP Hb'.
by rewrite Hb' in nb.
Qed.

Lemma no_charge_iff (B : 'M[R]_(c_bid c, size (c_loops c))) :
  no_charge n B <-> no_induced_charge s fd d (size (c_loops c)) (ofM B).
Proof.
have E (k : 'I_(size (c_loops c))) j : \sum_(b < nbranch s d)
     (dist_weight s fd (occ_el (branch s d b)) * ofM B b k)%R * rows (c_kmat c) b j =
   \sum_(b < c_bid c) rows (c_kmat c) b j * nth 0 (c_cedge c) b * B b k.
  rewrite [RHS](eq_bigr (fun b : 'I_(c_bid c) => rows (c_kmat c) b j * nth 0 (c_cedge c) b * ofM B b k));
    last by move=> b _; rewrite ofME.
  rewrite (sum_bid (fun b => rows (c_kmat c) b j * nth 0 (c_cedge c) b * ofM B b k)).
  by apply: eq_bigr => b _; rewrite weightE // ?RmultE mulrAC [_ * rows _ _ _]mulrC.
split=> [H k x /ltP Hk|H j k Hj].
  have E2 := iffLR (columns_iff (fun b => dist_weight s fd (occ_el (branch s d b)) * ofM B b k))
     (fun j Hj => etrans (E (Ordinal Hk) j) (H j (Ordinal Hk) Hj)) x.
  rewrite -[RHS]E2 !sumnE; apply: eq_bigr => b _.
  by rewrite ?RmultE mulrAC.
rewrite -E; apply: (iffRL (columns_iff (fun b => dist_weight s fd (occ_el (branch s d b)) * ofM B b k))) => // x.
have := H k x (elimT ltP (ltn_ord k)); rewrite !sumnE => H'; rewrite -[RHS]H'.
by apply: eq_bigr => b _; rewrite ?RmultE mulrAC.
Qed.

Lemma unit_flux_iff (B : 'M[R]_(c_bid c, size (c_loops c))) :
  unit_flux n B <-> loop_sums s d (c_loops c) (ofM B).
Proof.
have E G (k : 'I_(size (c_loops c))) :
   GraphSpec.sumn (nbranch s d) (fun b => (G b * ofM B b k)%R) = \sum_(b < c_bid c) G b * B b k.
  rewrite sumnE [RHS](eq_bigr (fun b : 'I_(c_bid c) => G b * ofM B b k)); last by move=> b _; rewrite ofME.
  by rewrite (sum_bid (fun b => G b * ofM B b k)).
split=> [H k k' G /ltP Hk /ltP Hk' HG|H k l G HG].
  rewrite nthE in HG.
  have HG' := iffRL (@closed_iff _ G (mem_nth 0%N Hk)) HG.
  have := H (Ordinal Hk) (Ordinal Hk') G HG'; rewrite -E /= => ->.
  rewrite -(inj_eq val_inj) /=; case: Nat.eqb_spec => [->|ne]; first by rewrite eqxx.
  by case: eqP.
have HG' := iffLR (@closed_iff _ G (mem_nth 0%N (ltn_ord k))) HG.
have := H k l G (elimT ltP (ltn_ord k)) (elimT ltP (ltn_ord l)); rewrite nthE E => /(_ HG') ->.
rewrite -(inj_eq val_inj) /=; case: Nat.eqb_spec => [->|ne]; first by rewrite eqxx.
by case: eqP.
Qed.

Lemma flux_dist_spec B : svd_right sv n c -> flux_dist sv n c = Ok (Some B) ->
  no_induced_charge s fd d (length (c_loops c)) (ofM B) /\
  (forall k, (k < length (c_loops c))%coq_nat ->
     exists G, closed_walk s d (List.nth k (c_loops c) 0%N) G) /\
  loop_sums s d (c_loops c) (ofM B) /\
  (forall B', no_induced_charge s fd d (length (c_loops c)) B' -> loop_sums s d (c_loops c) B' ->
     forall b k, (b < nbranch s d)%coq_nat -> (k < length (c_loops c))%coq_nat -> B' b k = ofM B b k).
Proof.
move=> Hsv HB; have [H1 H2 H3 H4] := flux_distP HB loops_rec Hsv.
split; first exact/no_charge_iff.
split.
  move=> k /ltP Hk; have [G HG] := H2 _ Hk; exists G; rewrite nthE.
  by apply/closed_iff => //; rewrite mem_nth.
split; first exact/unit_flux_iff.
move=> B' N1 N2 b k /ltP Hb /ltP Hk.
have Hb' : (b < c_bid c)%N by rewrite bidE.
pose M := toM (c_bid c) (size (c_loops c)) B'.
have EM i j : (i < nbranch s d)%N -> (j < size (c_loops c))%N -> ofM M i j = B' i j.
  by rewrite -{1}bidE => Hi Hj; rewrite (ofME M (Ordinal Hi) (Ordinal Hj)) mxE.
suff : M = B by move=> <-; rewrite EM.
apply: H4.
  apply/no_charge_iff => k' x Hk'; rewrite -[RHS](N1 k' x Hk') !sumnE.
  by apply: eq_bigr => i _; rewrite EM //; apply/ltP.
apply/unit_flux_iff => k1 k2 G Hk1 Hk2 HG; rewrite -[RHS](N2 k1 k2 G Hk1 Hk2 HG) !sumnE.
by apply: eq_bigr => i _; rewrite EM //; apply/ltP.
Qed.
End Circuit.

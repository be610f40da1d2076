(** P_Transform.v -- C24, C25, C26 and C62: the coordinate transformations. *)
From Coq Require Import Reals ZArith String Lra Lia.
From Verif.Model Require Import Base Units Elements Edge LCWB Rounding Accuracy.
From Verif.Spec Require Import GraphSpec CircuitSpec NetSpec.
From Verif.Proofs Require Import NetProofs.
From mathcomp Require Import all_ssreflect all_algebra.
From Verif.Numerics Require Import RStruct Bridge.
From Verif.Model Require Import FluxDist Transform.
From Verif.Spec Require Import TransSpec.
From Verif.Proofs Require Import AccProofs TransProofs TransProofs1 TransProofs2 TransProofs3.
From Verif.Proofs Require Import TransProofs4 GramProofs TransProofs5 TransProofs6 TransCase.

Set Implicit Arguments.
Unset Strict Implicit.
Unset Printing Implicit Defensive.
Import GRing.Theory.
Local Open Scope ring_scope.

(** ** C24 *)
(** Any sequence of transformations (s, r) with s^T r = 1. *)
Theorem C24_canonical n m kj C L W l st0 : t_init n m kj C L W = Ok st0 ->
  (forall s r, List.In (s, r) l -> (toM n n s)^T *m toM n n r = 1%:M) ->
  let st := run_trs l st0 in
  [/\ (toM n n (t_R st))^T *m toM n n (t_S st) = 1%:M,
      toM n n (t_cI st) = (toM n n (t_R st))^T *m invmx (toM n n C) *m toM n n (t_R st),
      toM n n (t_lT st) = (toM n n (t_S st))^T *m toM n n L *m toM n n (t_S st),
      toM m n (t_wT st) = toM m n W *m toM n n (t_S st) &
      exists X, coord_transform true st = Ok X /\ toM n n X = (toM n n (t_S st))^T].
Proof.
move=> E Hl /=; have [Hn SR Hc HlT [_ HW]] := canonical_run (canonical_init E) Hl.
split=> //; first by rewrite -[LHS]trmxK trmx_mul trmxK SR trmx1.
by apply: frame_charge; split; [exact: Hn | exact: SR | exact: Hc].
Qed.
Print Assumptions C24_canonical.

(** The transformation done by the package leaves the Hamiltonian in normal
    form, with the singular values as frequencies. *)
Theorem C24_normal_form n m kj C L W st0 croot lroot X U D0 eigL tries fuel sv order draw st :
  t_init n m kj C L W = Ok st0 ->
  root_of (toM n n C) (toM n n croot) -> root_of (toM n n L) (toM n n lroot) ->
  svd_of (toM n n lroot *m invmx (toM n n croot)) (toM n n X) (toM n n U) (toV n D0) ->
  transform_hamil croot D0 U eigL tries fuel sv order draw st0 = Some (Ok st) ->
  exists k, [/\ sing_locs n D0 eigL = iota (n - k) k,
    normal_form n k D0 (t_om st) (t_cI st) (t_lT st),
    (toM n n (t_R st))^T *m toM n n (t_S st) = 1%:M /\
    toM n n (t_cI st) = (toM n n (t_R st))^T *m invmx (toM n n C) *m toM n n (t_R st),
    (forall i, i \in sing_locs n D0 eigL -> D0 i = 0) ->
      toM n n (t_lT st) = (toM n n (t_S st))^T *m toM n n L *m toM n n (t_S st) &
    (exists Y, coord_transform true st = Ok Y /\ toM n n Y = (toM n n (t_S st))^T) /\
    (exists Y, coord_transform false st = Ok Y /\ toM n n Y = (toM n n (t_R st))^T)].
Proof.
move=> EI HC HL HA Ht; have [k [Ek Hn Hf HlT _]] := transform_all EI HC HL HA Ht.
exists k; split=> //; first exact: nf1_normal.
- have [_ SR Hc] := Hf; split=> //; by rewrite -[LHS]trmxK trmx_mul trmxK SR trmx1.
- by split; [apply: frame_charge Hf | apply: frame_flux Hf].
Qed.
Print Assumptions C24_normal_form.

(** The first transformation diagonalises both matrices. *)
Theorem C24_first_diagonal n m kj C L W st0 croot lroot X U D0 eigL st s r :
  t_init n m kj C L W = Ok st0 ->
  root_of (toM n n C) (toM n n croot) -> root_of (toM n n L) (toM n n lroot) ->
  svd_of (toM n n lroot *m invmx (toM n n croot)) (toM n n X) (toM n n U) (toV n D0) ->
  trans1 croot D0 U eigL st0 = Ok (st, (s, r)) ->
  let sc := scale_of n D0 eigL in
  [/\ forall i, (i < n)%N -> Rlt 0 (sc i),
      forall i j, (i < n)%N -> (j < n)%N -> t_cI st i j = if i == j then 1 / sc i else 0,
      forall i j, (i < n)%N -> (j < n)%N -> t_lT st i j =
        if (i == j) && (i \notin sing_locs n D0 eigL) then D0 i ^+ 2 * sc i else 0 &
      (toM n n s)^T *m toM n n L *m toM n n s = diag_mx (\row_i (D0 i ^+ 2 * sc i))].
Proof. by move=> EI HC HL HA E1; have [? ? ? ? _] := trans1_diag EI HC HL HA E1; split. Qed.
Print Assumptions C24_first_diagonal.

(** The first transformation fails only if a mode of frequency zero is not
    recognised as singular. *)
Theorem C24_first_total n m kj C L W st0 croot lroot X U D0 eigL :
  t_init n m kj C L W = Ok st0 -> (0 < n)%N ->
  root_of (toM n n C) (toM n n croot) ->
  svd_of (toM n n lroot *m invmx (toM n n croot)) (toM n n X) (toM n n U) (toV n D0) ->
  (forall i, (i < n)%N -> i \notin sing_locs n D0 eigL -> D0 i <> 0) ->
  exists st s r, trans1 croot D0 U eigL st0 = Ok (st, (s, r)).
Proof. exact: trans1_total. Qed.
Print Assumptions C24_first_total.

(** Two modes, one of them a charge mode, joined by a junction: the whole
    transformation succeeds. *)
Example C24_case (sv : svd_fun) (order : seq R -> seq nat) draw :
  (forall A, sv 2%N 1%N A = [:: R1]) -> (forall x, order [:: x] = [:: 0%N]) ->
  exists st, transform_hamil eye caseD eye caseD 1 1 sv order draw case_st = Some (Ok st) /\
    normal_form 2 1 caseD (t_om st) (t_cI st) (t_lT st) /\ val01 (t_wT st 0%N 1%N).
Proof.
move=> Hsv Ho; have [st Ht] := case_total 0 0 draw Hsv Ho; exists st; split=> //.
have [k [Ek Hn _ _ [_ H]]] := transform_all case_init case_root case_lroot case_svd Ht.
have E : k = 1%N by have := congr1 size Ek; rewrite case_sing !size_iota => <-.
rewrite E in Hn H; split; first exact: nf1_normal.
by have [H01 _ _ _] := H isT; apply: H01.
Qed.

(** ** C25 *)
(** Whenever the transformation returns. *)
Theorem C25_couplings n m kj C L W st0 croot lroot X U D0 eigL tries fuel sv order draw st optim :
  t_init n m kj C L W = Ok st0 -> m <> 0%N ->
  root_of (toM n n C) (toM n n croot) -> root_of (toM n n L) (toM n n lroot) ->
  svd_of (toM n n lroot *m invmx (toM n n croot)) (toM n n X) (toM n n U) (toV n D0) ->
  transform_hamil croot D0 U eigL tries fuel sv order draw st0 = Some (Ok st) ->
  let st' := finish_modes optim st in
  forall i j, (i < m)%N -> (j < t_n st')%N -> t_om st' j = 0 ->
    t_wT st' i j = 0 \/ t_wT st' i j = 1 \/ t_wT st' i j = - 1.
Proof.
move=> EI m0 HC HL HA Ht /=; have [k [Ek Hn Hf HlT [Em H]]] := transform_all EI HC HL HA Ht.
have {}m0 : m != 0%N by apply/eqP.
have [H01 _ _ _] := H m0; have [_ [En _] HD _ [_ [_ [_ [_ Hom]]]]] := Hn.
have base i j : (i < m)%N -> (j < n)%N -> t_om st j = 0 -> val01 (t_wT st i j).
  move=> Hi Hj; rewrite Hom //; case: ltnP => Hjk; last by move=> _; apply: H01; rewrite // Hjk.
  by move=> E; have := HD j Hjk; rewrite E => /Rlt_irrefl.
move=> i j Hi; rewrite /finish_modes; case: ifP => _; last by rewrite En => Hj; apply: base.
have [idx [_ Hidx -> [_ _ Hw Hom' _]]] := removal st.
move=> Hj; rewrite Hw Hom'; apply: base => //.
by rewrite -En; have [] : (nth j idx j < t_n st)%N /\ coupled st (nth j idx j) by apply/Hidx/mem_nth.
Qed.
Print Assumptions C25_couplings.

(** For the matrices of a circuit the unrounded couplings of the charge modes
    are already 0, 1 or -1, no random number is drawn and one attempt is enough
    if the Gram-Schmidt step selects as many junctions as there are charge
    modes. *)
Theorem C25_first_attempt optim s fd n lobj d c st0 croot lroot X U D0 eigL sv order k :
  get_LCWB optim s fd (Z.of_nat n) lobj d = Ok c -> proper_dict n d ->
  (forall e els el, List.In (e, els) d -> List.In el els -> ekind s el = KInd -> Rlt 0 (evalue s el)) ->
  let W := fun i j => IZR (List.nth j (List.nth i (c_W c) nil) Z0) in
  List.length (c_W c) <> 0%N -> (0 < n)%N ->
  t_init n (List.length (c_W c)) (c_njwi c) (c_C c) (c_L c) W = Ok st0 ->
  root_of (toM n n (c_C c)) (toM n n croot) -> root_of (toM n n (c_L c)) (toM n n lroot) ->
  svd_of (toM n n lroot *m invmx (toM n n croot)) (toM n n X) (toM n n U) (toV n D0) ->
  sing_locs n D0 eigL = iota (n - k) k -> (k <= n)%N ->
  (forall i, (i < n)%N -> D0 i = 0 <-> i \in sing_locs n D0 eigL) ->
  (forall st1 s1 r1, trans1 croot D0 U eigL st0 = Ok (st1, (s1, r1)) ->
     size (independent_rows order k (w_charge sv s1 (set_omega st1))).1 = k) ->
  exists st, forall tries fuel draw,
    transform_hamil croot D0 U eigL tries.+1 fuel.+1 sv order draw st0 = Some (Ok st).
Proof.
move=> Hc Hp Hpos W m0 n0 EI HC HL HA Ek Hk Hz Hsel.
have net := LCWB_network _ _ _ _ _ _ _ Hc Hp Hpos; rewrite -/W in net.
have [st1 [s1 [r1 E1]]] : exists st s r, trans1 croot D0 U eigL st0 = Ok (st, (s, r)).
  by apply: (trans1_total EI n0 HC HA) => i Hi Hs /(Hz i Hi); apply/negP.
have Hz' i : i \in sing_locs n D0 eigL -> D0 i = 0.
  move=> Hi; apply/Hz => //; move: Hi; rewrite Ek mem_iota subnK // => /andP [_ //].
have {}m0 : List.length (c_W c) != 0%N by apply/eqP.
have first draw := circuit_first_attempt net m0 EI HC HL HA Hz' E1 0 0 draw Ek Hk (Hsel _ _ _ E1).
have [st2 [s2 [r2 E2]]] := first (fun _ _ => [::]).
have [k' [Ek' Hn Hf uC [[Em [Ekj EW]] [Ew HlT]]]] := trans1_all EI HC HL HA E1.
have [Hn3 Hf3 _ _ _] := trans2_all (c_L c) HC m0 Hn Hf uC Em Ekj EW (Ew m0) E2.
have [st3 [s3 [r3 E3]]] := trans3_total Hn3 Hf3.
have Hcm : size (independent_rows order (size (charge_modes (set_omega st1)))
    (w_charge sv s1 (set_omega st1))).1 = size (charge_modes (set_omega st1)).
  have Ekk : k = k' by have := congr1 size (etrans (esym Ek) Ek'); rewrite !size_iota.
  by rewrite (nf1_charge_modes Hn) size_iota -Ekk (Hsel _ _ _ E1).
exists st3 => tries fuel draw; rewrite /transform_hamil E1 [t_m _]/= Em (negbTE m0).
by rewrite (trans2_indep tries fuel draw Hcm E2) E3.
Qed.
Print Assumptions C25_first_attempt.

(** If every junction of a circuit with a charge mode is bridged by inductors and
    at least one of them has no inductor of its own, the second transformation
    does not return, whatever is drawn. *)
Theorem C25_returns_refuted optim s fd n lobj d c st0 croot lroot X U D0 eigL sv order k :
  get_LCWB optim s fd (Z.of_nat n) lobj d = Ok c -> proper_dict n d ->
  (forall e els el, List.In (e, els) d -> List.In el els -> ekind s el = KInd -> Rlt 0 (evalue s el)) ->
  let W := fun i j => IZR (List.nth j (List.nth i (c_W c) nil) Z0) in
  c_njwi c <> 0%N -> List.length (c_W c) <> 0%N -> (0 < n)%N ->
  t_init n (List.length (c_W c)) (c_njwi c) (c_C c) (c_L c) W = Ok st0 ->
  root_of (toM n n (c_C c)) (toM n n croot) -> root_of (toM n n (c_L c)) (toM n n lroot) ->
  svd_of (toM n n lroot *m invmx (toM n n croot)) (toM n n X) (toM n n U) (toV n D0) ->
  sing_locs n D0 eigL = iota (n - k) k -> (0 < k <= n)%N ->
  (forall i, (i < n)%N -> D0 i = 0 <-> i \in sing_locs n D0 eigL) ->
  (forall e x, List.In e (jj_edges s d) ->
     (forall e', List.In e' (ind_edges s d) -> GraphSpec.drop e' x = 0) -> GraphSpec.drop e x = 0) ->
  forall tries fuel draw, transform_hamil croot D0 U eigL tries.+1 fuel sv order draw st0 = None.
Proof.
move=> Hc Hp Hpos W kj0 m0 n0 EI HC HL HA Ek Hk Hz Hbr tries fuel draw.
have net := LCWB_network _ _ _ _ _ _ _ Hc Hp Hpos; rewrite -/W in net.
have [st1 [s1 [r1 E1]]] : exists st s r, trans1 croot D0 U eigL st0 = Ok (st, (s, r)).
  by apply: (trans1_total EI n0 HC HA) => i Hi Hs /(Hz i Hi); apply/negP.
have Hz' i : i \in sing_locs n D0 eigL -> D0 i = 0.
  move=> Hi; apply/Hz => //; case/andP: Hk => _ Hk.
  by move: Hi; rewrite Ek mem_iota subnK // => /andP [_ //].
have {}m0 : List.length (c_W c) != 0%N by apply/eqP.
apply: (circuit_hangs net m0 EI HC HL HA Hz' E1 sv order tries fuel draw Ek Hk); first by apply/eqP.
move=> i x Hi Hx; apply: Hbr => //; apply: List.nth_In; have [_ [-> _]] := net; exact/ltP.
Qed.
Print Assumptions C25_returns_refuted.

(** A junction across an inductor beside a charge mode. *)
Example C25_hang_case sv order tries fuel draw :
  transform_hamil eye caseD eye caseD tries.+1 fuel sv order draw hang_st = None.
Proof. exact: hang_none. Qed.

(** ** C26 *)
Theorem C26_removal st : exists idx,
  [/\ sorted ltn idx,
      forall j, j \in idx <-> (j < t_n st)%N /\ exists i, (i < t_m st)%N /\ t_wT st i j <> 0,
      t_n (remove_uncoupled st) = size idx &
      let st' := remove_uncoupled st in let ix := fun i => nth i idx i in
      [/\ forall a b, t_cI st' a b = t_cI st (ix a) (ix b),
          forall a b, t_lT st' a b = t_lT st (ix a) (ix b),
          forall i b, t_wT st' i b = t_wT st i (ix b),
          forall b, t_om st' b = t_om st (ix b) &
          t_m st' = t_m st /\ t_n0 st' = t_n0 st /\ t_S st' = t_S st /\ t_R st' = t_R st]].
Proof. exact: removal. Qed.
Print Assumptions C26_removal.

(** Nothing is removed without junctions or in the PyTorch engine. *)
Theorem C26_kept optim st : t_m st = 0%N \/ optim = true -> finish_modes optim st = st.
Proof. by rewrite /finish_modes => -[-> //|->]; rewrite andbF. Qed.
Print Assumptions C26_kept.

(** A second removal changes nothing. *)
Theorem C26_idempotent st : let st' := remove_uncoupled st in
  t_n (remove_uncoupled st') = t_n st' /\
  forall j, (j < t_n st')%N -> [/\ forall i, t_wT (remove_uncoupled st') i j = t_wT st' i j,
    t_om (remove_uncoupled st') j = t_om st' j &
    forall i, (i < t_n st')%N -> t_cI (remove_uncoupled st') i j = t_cI st' i j].
Proof.
move=> st'; have [idx [_ Hi En [_ _ Hw _ [Em _]]]] := removal st.
have all_cpl j : (j < t_n st')%N -> coupled st' j.
  move=> Hj; have /Hi [_ [i [Hi1 Hi2]]] : nth j idx j \in idx by apply: mem_nth; rewrite -En.
  by exists i; split; [rewrite Em | rewrite Hw].
have un0 : uncoupled st' = [::].
  apply/eqP; rewrite -(negbK (_ == _)) -has_filter; apply/negP => /hasP [j].
  rewrite mem_iota add0n => Hj Hc.
  have /(uncoupledP Hj) : j \in uncoupled st' by rewrite /uncoupled mem_filter Hc mem_iota.
  by apply; apply: all_cpl.
have kp : kept_modes st' = iota 0 (t_n st').
  by rewrite /kept_modes un0; apply/all_filterP/allP => x _; rewrite in_nil.
rewrite /remove_uncoupled un0 kp /= subn0; split=> // j Hj.
by rewrite !nth_iota //; split=> // i Hi'; rewrite nth_iota.
Qed.
Print Assumptions C26_idempotent.

(** The oscillators that are removed are decoupled from all other modes. *)
Theorem C26_removed_decoupled n m kj C L W st0 croot lroot X U D0 eigL tries fuel sv order draw st :
  t_init n m kj C L W = Ok st0 ->
  root_of (toM n n C) (toM n n croot) -> root_of (toM n n L) (toM n n lroot) ->
  svd_of (toM n n lroot *m invmx (toM n n croot)) (toM n n X) (toM n n U) (toV n D0) ->
  transform_hamil croot D0 U eigL tries fuel sv order draw st0 = Some (Ok st) ->
  forall j l, (j < n)%N -> (l < n)%N -> l <> j -> t_om st j <> 0 ->
    [/\ t_cI st j l = 0, t_cI st l j = 0, t_lT st j l = 0 & t_lT st l j = 0].
Proof.
move=> EI HC HL HA Ht j l Hj Hl lj om0.
have [k [_ /nf1_normal [Hk [Hh Hc]] _ _ _]] := transform_all EI HC HL HA Ht.
case: (ltnP j (n - k)) => Hjk; last by have [E _] := Hc j (introT andP (conj Hjk Hj)); case: om0.
by have [_ [_ [_ [_ [_ /(_ l Hl lj) [-> [-> [-> ->]]]]]]]] := Hh j Hjk.
Qed.
Print Assumptions C26_removed_decoupled.

Example C26_case : let st := mkT 3 3 1 0 (fun _ _ => 0) (fun _ _ => 0) (fun _ _ => 0)
    (fun i j => if i == j then j%:R else 0) (fun _ _ => 0) (fun i j => if j == 1%N then 0 else 1)
    (fun j => j%:R) in
  let st' := remove_uncoupled st in
  [/\ t_n st' = 2%N, t_om st' 0%N = 0, t_om st' 1%N = 2%:R & t_cI st' 1%N 1%N = 2%:R].
Proof.
by rewrite /remove_uncoupled /kept_modes /uncoupled /= !eqxx !oner_eq0 /=; split.
Qed.

(** ** C62 *)
(** Whatever order the rows are processed in: the basis is orthonormal, every
    processed row (normalised) is within 1e-6 of its span in each component, the
    selected rows are linearly independent combinations of it and are selected in
    processing order. *)
Theorem C62_gram_schmidt n rows order :
  let l := order [seq vnorm n r | r <- rows] in
  let idx := (independent_rows order n rows).1 in
  let basis := (independent_rows order n rows).2 in
  let row := nth (fun=> 0) rows in
  let span c k := \sum_(0 <= q < size basis) c q * nth (fun=> 0) basis q k in
  [/\ size idx = size basis,
      forall p q, (p < size basis)%N -> (q < size basis)%N ->
        \sum_(x < n) nth (fun=> 0) basis p x * nth (fun=> 0) basis q x = if p == q then 1 else 0,
      forall p, (p < size idx)%N -> exists c,
        [/\ forall k, (k < n)%N -> row (nth 0%N idx p) k = span c k, c p != 0 &
            forall q, (p < q)%N -> c q = 0],
      forall i, i \in l -> exists c, forall k, (k < n)%N ->
        Rle (Rabs (row i k / (vnorm n (row i) + gs_reg) - span c k)%R) acc_gs &
      subseq idx l].
Proof.
move=> l idx basis row span; have [H1 H2 H3 H4 H5] := independent_rowsP n rows order.
split=> //; by move=> p Hp; have [c [? [? ?]]] := H3 p Hp; exists c.
Qed.
Print Assumptions C62_gram_schmidt.

(** If the order lists every row once, the selected indices are distinct. *)
Theorem C62_distinct n rows order :
  uniq (order [seq vnorm n r | r <- rows]) -> uniq (independent_rows order n rows).1.
Proof. by have [_ _ _ _ H5] := independent_rowsP n rows order; apply: subseq_uniq. Qed.
Print Assumptions C62_distinct.

(** n selected rows are a basis. *)
Theorem C62_invertible n rows order : size (independent_rows order n rows).1 = n ->
  toM n n (fun i => nth (fun=> 0) rows (nth 0%N (independent_rows order n rows).1 i)) \in unitmx.
Proof. exact: (selected_unit (independent_rowsP n rows order)). Qed.
Print Assumptions C62_invertible.

(** At most n rows are selected. *)
Theorem C62_bounded n rows order : (size (independent_rows order n rows).1 <= n)%N.
Proof. exact: selected_bounded. Qed.
Print Assumptions C62_bounded.

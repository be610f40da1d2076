(** P_Listing.v -- C76: the listing printed by description(). *)
From Coq Require Import Reals ZArith String.
From Coq Require Import Lra.
From Verif.Model Require Import Base Units Edge Elements LCWB Rounding HamConst Texts.
From mathcomp Require Import all_ssreflect all_algebra.
From mathcomp Require Import complex.
From Verif.Numerics Require Import RStruct Bridge.
From Verif.Model Require Import Transform Op Ham Diag CircuitSM Symbolic Listing.
From Verif.Spec Require Import TextSpec ListingSpec.
From Verif.Proofs Require Import OpProofs TextProofs SymbolicProofs ListingProofs.

Set Implicit Arguments.
Unset Strict Implicit.
Unset Printing Implicit Defensive.
Import GRing.Theory.
Local Open Scope seq_scope.
Local Open Scope ring_scope.

Section Lists.
Variable T : Type.
Lemma hasIn (P : pred T) l : has P l <-> exists t, List.In t l /\ P t.
Proof.
elim: l => [|t l IH] /=; first by split=> // -[? []].
split=> [/orP[h|/IH[t' [h1 h2]]]|[t' [[->|h1] h2]]].
- by exists t; split=> //; left.
- by exists t'; split=> //; right.
- by rewrite h2.
- by apply/orP; right; apply/IH; exists t'.
Qed.
Lemma In_mapE (S : eqType) (f : S -> T) (l : seq S) t : List.In t [seq f i | i <- l] <-> exists2 i, i \in l & t = f i.
Proof.
elim: l => [|i l IH] /=; first by split=> // -[].
split=> [[<-|/IH[j hj ->]]|[j]].
- by exists i; rewrite ?mem_head.
- by exists j; rewrite ?inE ?hj ?orbT.
- by rewrite inE => /orP[/eqP-> ->|hj h]; [left|right; apply/IH; exists j].
Qed.
Lemma In_flatE (S : eqType) (f : S -> seq T) (l : seq S) t :
  List.In t (flatten [seq f i | i <- l]) <-> exists2 i, i \in l & List.In t (f i).
Proof.
elim: l => [|i l IH] /=; first by split=> // -[].
split=> [/List.in_app_iff[h|/IH[j hj h]]|[j]].
- by exists i; rewrite ?mem_head.
- by exists j; rewrite ?inE ?hj ?orbT.
- by rewrite inE => /orP[/eqP-> h|hj h]; apply/List.in_app_iff; [left|right; apply/IH; exists j].
Qed.
End Lists.
Lemma uniq_flat (S S' : eqType) (f : S -> seq S') (l : seq S) : uniq l -> (forall i, uniq (f i)) ->
  (forall i j q, q \in f i -> q \in f j -> i = j) -> uniq (flatten [seq f i | i <- l]).
Proof.
move=> + hu hd; elim: l => //= i l IH /andP[ni ul]; rewrite cat_uniq hu IH // andbT.
apply/hasPn => q /flattenP[s /mapP[j hj ->] hq]; apply/negP => hi.
by move: ni; rewrite (hd _ _ _ hi hq) hj.
Qed.

Lemma mem_range k n i : (i \in iota k (n - k)) = (k <= i < n)%N.
Proof.
rewrite mem_iota; case: (leqP k n) => h; first by rewrite subnKC.
rewrite (eqP (ltnW h : (n - k == 0)%N)) addn0; apply/idP/idP => /andP[a b]; last by have := leq_trans b (ltnW (leq_trans h a)); rewrite ltnn.
by have := leq_ltn_trans a b; rewrite ltnn.
Qed.

Section Listing.
Variables (n0 : nat) (D : dvars) (ks : keys).

Lemma occurs_sum q l : occurs q (esum l) = has (occurs q) l.
Proof. by elim: l => //= e l ->. Qed.
Lemma occurs_phi_sum q l : occurs_phi q (esum l) = has (occurs_phi q) l.
Proof. by elim: l => //= e l ->. Qed.
Lemma occurs_dot q n c f : occurs q (edot n c f) = has (fun i => (c i != 0) && occurs q (f i.+1)) (iota 0 n).
Proof.
rewrite /edot occurs_sum has_map; apply: eq_has => i /=; by case: eqP.
Qed.
Lemma occurs_phi_dot q n c f : occurs_phi q (edot n c f) = has (fun i => (c i != 0) && occurs_phi q (f i.+1)) (iota 0 n).
Proof.
rewrite /edot occurs_phi_sum has_map; apply: eq_has => i /=; by case: eqP.
Qed.

Definition ind_form (i : nat) (t : expr) : Prop := exists w, t = EMul (EMul (EEL i.+1) (edot (dv_har D) w EPhi))
  (edot (dv_bcols D) (dv_B D (nth (Z0, Z0, 0, 0)%N (k_ind ks) i).2) EPhiE).
Definition flux_in (i : nat) : bool := ~~ no_flux (dv_B D) (dv_bcols D) (nth (Z0, Z0, 0, 0)%N (k_ind ks) i).2.

Lemma ind_foldP ps l0 l :
  foldl (fun acc p => let '(i, (e, _, b)) := p in
      (do l <- acc;
      if no_flux (dv_B D) (dv_bcols D) b then Ok l
      else do w <- ind_w n0 D e;
           Ok (rcons l (EMul (EMul (EEL i.+1) (edot (dv_har D) w EPhi)) (edot (dv_bcols D) (dv_B D b) EPhiE))))%res)
    (Ok l0) [seq (i, nth (Z0, Z0, 0, 0)%N (k_ind ks) i) | i <- ps] = Ok l ->
  [/\ forall t, List.In t l -> List.In t l0 \/ exists i, [/\ i \in ps, flux_in i & ind_form i t],
      forall t, List.In t l0 -> List.In t l &
      forall i, i \in ps -> flux_in i -> exists t, List.In t l /\ ind_form i t].
Proof.
elim: ps l0 => [|i ps IH] l0 /=; first by case=> ->; split=> // t; left.
case Ei: (nth (Z0, Z0, 0, 0)%N (k_ind ks) i) => [[e el] b] /=.
case F: (no_flux _ _ b).
  move=> /IH[h1 h2 h3]; split=> // [t /h1[?|[j [hj fj tj]]]|j].
  - by left.
  - by right; exists j; split; rewrite ?inE ?hj ?orbT.
  - by rewrite inE => /orP[/eqP->|hj]; [rewrite /flux_in Ei /= F|exact: h3].
case: (ind_w n0 D e) => [w|ex] /=; last first.
  by move=> Hf; exfalso; move: Hf; elim: ps {IH} => //= j ps IHp; case: (nth _ _ j) => -[? ?] ?; exact: IHp.
set t0 := EMul _ _.
have f0 : ind_form i t0 by exists w; rewrite Ei.
move=> /IH[h1 h2 h3]; split=> [t /h1[|[j [hj fj tj]]]|t ht|j].
- rewrite -cats1 => /List.in_app_iff[?|[<-|//]]; first by left.
  by right; exists i; rewrite mem_head /flux_in Ei /= F.
- by right; exists j; split; rewrite ?inE ?hj ?orbT.
- by apply: h2; rewrite -cats1; apply/List.in_app_iff; left.
- rewrite inE => /orP[/eqP-> _|hj]; last exact: h3.
  by exists t0; split=> //; apply: h2; rewrite -cats1; apply/List.in_app_iff; right; left.
Qed.

Lemma zip_iota (S : Type) (x0 : S) (l : seq S) : zip (iota 0 (size l)) l = [seq (i, nth x0 l i) | i <- iota 0 (size l)].
Proof.
apply: (@eq_from_nth _ (0%N, x0)) => [|i].
  by rewrite size_zip size_map size_iota minnn.
rewrite size_zip size_iota minnn => hi; rewrite nth_zip ?size_iota // (nth_map 0%N) ?size_iota //.
by rewrite nth_iota.
Qed.

Variable e : expr.
Hypothesis He : construct_hamiltonian n0 D ks = Ok e.

(** All terms of the Hamiltonian. *)
Lemma termsP : exists it, [/\ e = esum (har_terms D ++ charge_terms D ++ it ++ jj_terms D (k_jj ks)),
  forall t, List.In t it -> exists i, [/\ (i < size (k_ind ks))%N, flux_in i & ind_form i t] &
  forall i, (i < size (k_ind ks))%N -> flux_in i -> exists t, List.In t it /\ ind_form i t].
Proof.
move: He; rewrite /construct_hamiltonian; case E: ind_terms => [it|//] /= [<-]; exists it; move: E.
rewrite /ind_terms (zip_iota (Z0, Z0, 0, 0)%N) => /ind_foldP[h1 _ h3]; split=> // [t /h1[//|[i []]]|i hi].
  by rewrite mem_iota => *; exists i.
by apply: h3; rewrite mem_iota.
Qed.
Lemma jjE : jj_terms D (k_jj ks) = [seq EMul (ENeg (EEJ i.+1))
  (ECos (EAdd (edot (dv_n D) (dv_W D (nth (Z0, Z0, 0, 0, 0)%N (k_jj ks) i).2) EPhi)
              (edot (dv_bcols D) (dv_B D (nth (Z0, Z0, 0, 0, 0)%N (k_jj ks) i).1.2) EPhiE))) | i <- iota 0 (size (k_jj ks))].
Proof.
rewrite /jj_terms (zip_iota (Z0, Z0, 0, 0, 0)%N) -map_comp; apply: eq_map => i /=.
by case: nth => [[[? ?] ?] ?].
Qed.
End Listing.

Lemma listed_cat a b : listed (a ++ b) = listed a ++ listed b.
Proof. by elim: a => //= -[i|q r|q r] a ->. Qed.
Lemma listed_flat (S : Type) (f : S -> seq eqn) l : listed (flatten [seq f i | i <- l]) = flatten [seq listed (f i) | i <- l].
Proof. by elim: l => //= i l IH; rewrite listed_cat IH. Qed.
Lemma listed_is (S : Type) (f : S -> sym) g (l : seq S) : listed [seq EqIs (f i) (g i) | i <- l] = [seq f i | i <- l].
Proof. by elim: l => //= i l ->. Qed.
Lemma listed_over (S : Type) (f : S -> sym) g (l : seq S) : listed [seq EqOver2Pi (f i) (g i) | i <- l] = [seq f i | i <- l].
Proof. by elim: l => //= i l ->. Qed.

Definition mode_syms (D : dvars) (i : nat) : seq sym :=
  if (i < dv_har D)%N then [:: SOmega i.+1; SZp i.+1] else [:: SNg i.+1].
Lemma listedE D : listed (all_eqns D) =
  flatten [seq mode_syms D i | i <- iota 0 (dv_n D)] ++
  flatten [seq [seq SEC i.+1 j.+1 | j <- iota i (dv_n D - i)] | i <- iota (dv_har D) (dv_n D - dv_har D)] ++
  [seq SEL i.+1 | i <- iota 0 (size (dv_EL D)) & nth false (dv_has D) i] ++
  [seq SEJ i.+1 | i <- iota 0 (size (dv_EJ D))] ++ [seq SFlux i.+1 | i <- iota 0 (size (dv_loops D))].
Proof.
rewrite /all_eqns /param_eqns /loop_eqns !listed_cat !listed_flat listed_is listed_is listed_over.
congr (_ ++ _); first by congr flatten; apply: eq_map => i; rewrite /mode_syms /mode_eqns; case: ifP.
rewrite -!catA; congr (flatten _ ++ _); by apply: eq_map => i; rewrite listed_is.
Qed.

Section Members.
Variable D : dvars.
Lemma mem_modes q : (q \in flatten [seq mode_syms D i | i <- iota 0 (dv_n D)]) =
  match q with
  | SOmega i | SZp i => (0 < i <= dv_n D)%N && (i <= dv_har D)%N
  | SNg i => (dv_har D < i <= dv_n D)%N | _ => false end.
Proof.
apply/flatten_mapP/idP => [H|].
  case: H => i.
  rewrite mem_iota add0n /mode_syms => /= hi; case: ltnP => hh; rewrite !inE.
    by move=> /orP[] /eqP-> /=; rewrite hi hh.
  by move=> /eqP-> /=; rewrite ltnS hh hi.
case: q => //= i.
- case: i => //= i /andP[h1 h2]; exists i; first by rewrite mem_iota.
  by rewrite /mode_syms h2 !inE eqxx.
- case: i => //= i /andP[h1 h2]; exists i; first by rewrite mem_iota.
  by rewrite /mode_syms h2 !inE eqxx orbT.
- case: i => //= i /andP[h1 h2]; exists i; first by rewrite mem_iota.
  by rewrite /mode_syms ltnNge -ltnS h1 inE eqxx.
Qed.
Lemma mem_EC q : (q \in flatten [seq [seq SEC i.+1 j.+1 | j <- iota i (dv_n D - i)] | i <- iota (dv_har D) (dv_n D - dv_har D)]) =
  match q with SEC i j => [&& dv_har D < i, i <= j & j <= dv_n D]%N | _ => false end.
Proof.
apply/flatten_mapP/idP => [H|].
  case: H => i.
  rewrite mem_range => /andP[h1 h2] /mapP[j]; rewrite mem_range => /andP[h3 h4] -> /=.
  by rewrite !ltnS h1 h3 h4.
case: q => //= i j; case: i => [|i]; first by [].
case: j => [|j]; first by rewrite ltn0 andbF.
rewrite !ltnS => /and3P[h1 h2 h3]; exists i; first by rewrite mem_range h1 (leq_ltn_trans h2 h3).
by apply/mapP; exists j => //; rewrite mem_range h2.
Qed.
Lemma mem_EL q : (q \in [seq SEL i.+1 | i <- iota 0 (size (dv_EL D)) & nth false (dv_has D) i]) =
  match q with SEL i => (0 < i <= size (dv_EL D))%N && nth false (dv_has D) i.-1 | _ => false end.
Proof.
apply/mapP/idP => [H|].
  case: H => i.
  by rewrite mem_filter mem_iota => /andP[h1 /andP[_ h2]] -> /=; rewrite h1 h2.
by case: q => // -[|i] // /andP[h1 h2]; exists i => //; rewrite mem_filter mem_iota h2.
Qed.
Lemma mem_EJ q : (q \in [seq SEJ i.+1 | i <- iota 0 (size (dv_EJ D))]) =
  match q with SEJ i => (0 < i <= size (dv_EJ D))%N | _ => false end.
Proof.
apply/mapP/idP => [H|]; first by case: H => i; rewrite mem_iota => /andP[_ h2] -> /=.
by case: q => // -[|i] // h; exists i => //; rewrite mem_iota.
Qed.
Lemma mem_flux q : (q \in [seq SFlux i.+1 | i <- iota 0 (size (dv_loops D))]) =
  match q with SFlux i => (0 < i <= size (dv_loops D))%N | _ => false end.
Proof.
apply/mapP/idP => [H|]; first by case: H => i; rewrite mem_iota => /andP[_ h2] -> /=.
by case: q => // -[|i] // h; exists i => //; rewrite mem_iota.
Qed.
Lemma mem_listed q : (q \in listed (all_eqns D)) =
  match q with
  | SOmega i | SZp i => (0 < i <= dv_n D)%N && (i <= dv_har D)%N
  | SNg i => (dv_har D < i <= dv_n D)%N
  | SEC i j => [&& dv_har D < i, i <= j & j <= dv_n D]%N
  | SEL i => (0 < i <= size (dv_EL D))%N && nth false (dv_has D) i.-1
  | SEJ i => (0 < i <= size (dv_EJ D))%N
  | SFlux i => (0 < i <= size (dv_loops D))%N
  end.
Proof. by rewrite listedE !mem_cat mem_modes mem_EC mem_EL mem_EJ mem_flux; case: q => *; rewrite ?orbF. Qed.
Lemma listed_uniq : uniq (listed (all_eqns D)).
Proof.
rewrite listedE.
have dis (a b : seq sym) : uniq a -> uniq b -> (forall q, q \in a -> q \in b -> False) -> uniq (a ++ b).
  by move=> ua ub h; rewrite cat_uniq ua ub andbT; apply/hasPn => q hb; apply/negP => ha; exact: (h q).
have mapu (f : nat -> sym) l : injective f -> uniq l -> uniq (map f l) by move=> fi ul; rewrite map_inj_uniq.
apply: (dis _ _).
- apply: uniq_flat => [|i|i j q]; first exact: iota_uniq.
    by rewrite /mode_syms; case: ifP.
  rewrite /mode_syms; case: ltnP => _; case: ltnP => _; rewrite !inE => //.
  + by move=> /orP[/eqP->|/eqP->] /orP[/eqP E|/eqP E] //; case: E.
  + by move=> /orP[/eqP->|/eqP->] /eqP.
  + by move=> /eqP-> /orP[/eqP E|/eqP E].
  + by move=> /eqP-> /eqP[->].
- apply: (dis _ _); [|apply: (dis _ _); [|apply: (dis _ _)|]|].
  + apply: uniq_flat => [|i|i j q]; first exact: iota_uniq.
      by apply: (mapu _ _); [move=> ? ? [->]|exact: iota_uniq].
    by move=> /mapP[a _ ->] /mapP[b _ [-> _]].
  + by apply: (mapu _ _); [move=> ? ? [->]|exact/filter_uniq/iota_uniq].
  + by apply: (mapu _ _); [move=> ? ? [->]|exact: iota_uniq].
  + by apply: (mapu _ _); [move=> ? ? [->]|exact: iota_uniq].
  + by move=> q; rewrite mem_EJ mem_flux; case: q.
  + by move=> q; rewrite mem_cat mem_EJ mem_flux mem_EL; case: q.
  + by move=> q; rewrite !mem_cat mem_EJ mem_flux mem_EL mem_EC; case: q.
- by move=> q; rewrite !mem_cat mem_EJ mem_flux mem_EL mem_EC mem_modes; case: q.
Qed.
End Members.

Lemma charge_at1 : charge_at 1 0 = R0. Proof. by rewrite /charge_at /=; lra. Qed.
Lemma half1 : halfR 1 <> R0. Proof. by rewrite /halfR; lra. Qed.
Lemma small_ne : Rdiv 1 4000 <> R0. Proof. by lra. Qed.
Lemma quarter : np_round 3 (Rdiv 1 4) = Rdiv 1 4.
Proof. by apply: np_roundE; exists (Zpos 250); rewrite /=; lra. Qed.
Lemma div_twoPI x : Rdiv (Rdiv x 2) PI = Rdiv x (Rmult 2 PI).
Proof. by field; exact: PI_neq0. Qed.
Lemma half_div x : halfR x = Rdiv x 2. Proof. by rewrite /halfR; lra. Qed.

Section Main.
Variables (u : ustate) (s : store) (x : circ) (D : dvars) (e : expr).
Hypothesis HP : printed u s x = Ok (D, e).
Local Notation h := (hof x).
Local Notation ks := (mkKeys (c_keys_ind (x_c x)) (c_keys_jj (x_c x))).
Local Notation loops := [seq lvalue s l | l <- c_loops (x_c x)].

Lemma printedP : D = descrip_vars u h (evalue s) loops (x_B x) ks /\ construct_hamiltonian (t_n0 (h_st h)) D ks = Ok e.
Proof.
move: HP; rewrite /printed; case: ifP => // _.
by case E: construct_hamiltonian => [e'|//] /= [<- <-].
Qed.
Let DE := printedP.1.
Let HE := printedP.2.

Lemma har_le : (dv_har D <= dv_n D)%N.
Proof. by rewrite DE /= -{2}(size_iota 0 (hn h)); exact: count_size. Qed.
Lemma sizes : [/\ size (dv_EL D) = size (k_ind ks), size (dv_EJ D) = size (k_jj ks), size (dv_loops D) = size loops &
  forall i, (i < size (k_ind ks))%N -> nth false (dv_has D) i = flux_in D ks i].
Proof.
rewrite DE; split; rewrite /= ?size_map // => i hi.
by rewrite (nth_map (Z0, Z0, 0, 0)%N) // /flux_in /= size_map.
Qed.
Lemma flux_dot q b : occurs q (edot (dv_bcols D) (dv_B D b) EPhiE) -> exists2 i, q = SFlux i.+1 & (i < size loops)%N.
Proof.
rewrite occurs_dot => /hasP[ i]; rewrite mem_iota /= add0n DE /= => hi /andP[nz /eqP->]; exists i => //.
by move: hi nz; case: eqP => [_|]; rewrite ?eqxx // size_map.
Qed.

(** Every symbol of the printed Hamiltonian that stands for a number is listed, and
    so is the meaning of the phase operators of harmonic modes. *)
Theorem C76_complete : (forall q, occurs q e -> q \in listed (all_eqns D)) /\
  (forall i, occurs_phi i e -> (i <= dv_har D)%N -> List.In (EqPhi i) (all_eqns D) /\ SZp i \in listed (all_eqns D)).
Proof.
have [it [Ee it1 it2]] := termsP HE; have [sL sJ sF hh] := sizes; have hl := har_le; split=> [q|i].
  rewrite Ee occurs_sum !has_cat => /or4P[] /hasIn[t [ht hq]].
  - move: ht hq => /In_mapE[ i]; rewrite mem_iota add0n /= => hi -> /=; rewrite !orbF => /eqP->.
    by rewrite mem_listed /= hi (leq_trans hi).
  - move: ht hq => /In_flatE[ i]; rewrite mem_range => /andP[h1 h2] /In_mapE[j]; rewrite mem_range => /andP[h3 h4] -> /=.
    move=> /orP[/orP[|]|] /eqP->; rewrite mem_listed !ltnS ?h1 ?h2 ?h3 ?h4 //.
    by rewrite (leq_trans h1 h3).
  - have [i [hi fi [w Et]]] := it1 _ ht; move: hq; rewrite Et /= => /orP[/orP[/eqP->|]|].
    + by rewrite mem_listed sL hi hh.
    + by rewrite occurs_dot => /hasP[k _] /andP[_].
    + by move=> /flux_dot[k -> hk]; rewrite mem_listed sF.
  - move: ht hq; rewrite jjE => /In_mapE[ i]; rewrite mem_iota add0n => hi -> /= /or3P[/eqP->||].
    + by rewrite mem_listed sJ.
    + by rewrite occurs_dot => /hasP[k _] /andP[_].
    + by move=> /flux_dot[k -> hk]; rewrite mem_listed sF.
move=> oc hi.
have i0 : (0 < i)%N.
  have pos n c f : (forall k, f k.+1 = EPhi k.+1 \/ f k.+1 = EPhiE k.+1) -> occurs_phi i (edot n c f) -> (0 < i)%N.
    by move=> hf; rewrite occurs_phi_dot => /hasP[k _] /andP[_]; case: (hf k) => -> //= /eqP->.
  move: oc; rewrite Ee occurs_phi_sum !has_cat => /or4P[] /hasIn[t [ht hq]].
  - by move: ht hq => /In_mapE[k _ ->].
  - by move: ht hq => /In_flatE[k _] /In_mapE[j _ ->].
  - have [k [_ _ [w Et]]] := it1 _ ht; move: hq; rewrite Et /= => /orP[|]; apply: pos => j; by [left|right].
  - by move: ht hq; rewrite jjE => /In_mapE[k _ ->] /= /orP[|]; apply: pos => j; by [left|right].
have hn' : (i <= dv_n D)%N := leq_trans hi hl.
split; last by rewrite mem_listed i0 hi hn'.
apply/List.in_app_iff; left; apply/In_flatE; exists i.-1; first by rewrite mem_iota prednK.
by rewrite /mode_eqns prednK // hi /=; left.
Qed.

(** No symbol is listed twice. *)
Theorem C76_once : uniq (listed (all_eqns D)).
Proof. exact: listed_uniq. Qed.

(** Every listed frequency, energy and gate charge occurs in the Hamiltonian. *)
Theorem C76_relevant q : q \in listed (all_eqns D) ->
  match q with SZp _ | SFlux _ => true | _ => occurs q e end.
Proof.
have [it [Ee it1 it2]] := termsP HE; have [sL sJ sF hh] := sizes; have hl := har_le.
rewrite mem_listed Ee; case: q => //.
- move=> [//|i] /andP[h1 h2]; rewrite occurs_sum !has_cat; apply/orP; left; apply/hasIn.
  eexists; split; first by apply/In_mapE; exists i; first by rewrite mem_iota.
  by rewrite /= eqxx.
- move=> [//|i] /andP[h1 h2]; rewrite occurs_sum !has_cat; apply/orP; right; apply/orP; left; apply/hasIn.
  eexists; split; first by apply/In_flatE; exists i; [rewrite mem_range -ltnS h1|apply/In_mapE; exists i; [rewrite mem_range leqnn|]].
  by rewrite /= eqxx orbT.
- move=> [//|i] [|j]; first by rewrite ltn0 andbF.
  rewrite !ltnS => /and3P[h1 h2 h3]; rewrite occurs_sum !has_cat; apply/orP; right; apply/orP; left; apply/hasIn.
  eexists; split; first by apply/In_flatE; exists i; [rewrite mem_range h1 (leq_ltn_trans h2 h3)|apply/In_mapE; exists j; [rewrite mem_range h2|]].
  by rewrite /= eqxx.
- move=> [//|i] /andP[/= h1 h2]; rewrite sL in h1; rewrite hh // in h2.
  have [t [ht [w Et]]] := it2 _ h1 h2.
  rewrite occurs_sum !has_cat; apply/orP; right; apply/orP; right; apply/orP; left; apply/hasIn; exists t; split=> //.
  by rewrite Et /= eqxx.
- move=> [//|i] /andP[_ h1]; rewrite sJ in h1.
  rewrite occurs_sum !has_cat; do 3 (apply/orP; right); apply/hasIn.
  eexists; split; first by rewrite jjE; apply/In_mapE; exists i; first by rewrite mem_iota.
  by rewrite /= eqxx.
Qed.

(** Every listed number is the exact one up to its tolerance. *)
Theorem C76_precise eq q r : List.In eq (all_eqns D) -> gives eq q r ->
  let v := exact u h (evalue s) loops ks q in Rle (Rabs (Rminus r v)) (tolerance q v).
Proof.
have [sL sJ sF hh] := sizes; have hl := har_le.
move=> /List.in_app_iff[/In_flatE[ i]|/List.in_app_iff[|]].
- rewrite mem_iota add0n /= /mode_eqns => hi; case: ltnP => hk /=.
    case=> [<- //|[<-|[<-|//]]] [<- <-].
      by rewrite DE; exact: omega_near.
    by rewrite DE; exact: zp_near.
  case=> [<-|//] [<- <-]; rewrite /exact /tolerance.
  have -> : nth 0 (dv_ng D) (i - dv_har D) = h_ng h i.
    move: hi hk; rewrite DE /= => hi hk.
    by rewrite (nth_map 0%N) ?size_iota ?nth_iota ?subnKC // ltn_sub2r // (leq_ltn_trans hk).
  exact: three_near.
- move=> /List.in_app_iff[/In_flatE[ i]|/List.in_app_iff[|]].
  + rewrite mem_range => /andP[h1 h2] /In_mapE[j _ ->] [<- <-] /=.
    rewrite DE /= EC_unit /quad_cI eqSS -half_div; case: (i =P j) => [->|_]; exact: three_near.
  + move=> /In_mapE[ i]; rewrite mem_filter mem_iota => /andP[_ /andP[_ hi]] -> [<- <-] /=.
    have -> : nth 0 (dv_EL D) i = hz_EL u (evalue s (nth (Z0, Z0, 0, 0)%N (k_ind ks) i).1.2).
      by move: hi; rewrite add0n DE /= size_map => hi; rewrite (nth_map (Z0, Z0, 0, 0)%N).
    rewrite /hz_EL /el_hz div_twoPI.
    exact: three_near.
  + move=> /In_mapE[ i]; rewrite mem_iota => /andP[_ hi] -> [<- <-] /=.
    have -> : nth 0 (dv_EJ D) i = in_unit u (evalue s (nth (Z0, Z0, 0, 0, 0)%N (k_jj ks) i).1.1.2).
      by move: hi; rewrite add0n DE /= size_map => hi; rewrite (nth_map (Z0, Z0, 0, 0, 0)%N).
    exact: three_near.
- move=> /In_mapE[ i]; rewrite mem_iota => /andP[_ hi] -> [<- <-] /=.
  have -> : nth 0 (dv_loops D) i = Rdiv (nth 0 loops i) (Rmult 2 PI).
    move: hi; rewrite add0n sF => hi; rewrite DE /= (nth_map 0) //; exact: div_twoPI.
  exact: two_near.
Qed.
End Main.
Print Assumptions C76_complete.
Print Assumptions C76_once.
Print Assumptions C76_relevant.
Print Assumptions C76_precise.

(** The form of the text: LaTeX or plain, in a notebook LaTeX if none is given; any
    other word raises before anything is computed. *)
Theorem C76_type pr_eq pr_H nb u s x :
  description pr_eq pr_H nb None u s x = description pr_eq pr_H nb (Some (if nb then "ltx" else "txt")%string) u s x /\
  (forall t, t <> "ltx"%string -> t <> "txt"%string -> description pr_eq pr_H nb (Some t) u s x = Err ValueError) /\
  (forall t, t = "ltx"%string \/ t = "txt"%string ->
     (exists r, description pr_eq pr_H nb (Some t) u s x = Ok r) <-> (exists r, printed u s x = Ok r)).
Proof.
split=> //; split=> [t h1 h2|t ht]; first by rewrite /description /text_type; case: String.eqb_spec => // _; case: String.eqb_spec.
rewrite /description; by case: ht => -> /=; case: printed => [r|ex] /=; split=> -[r' E] //; eexists.
Qed.
Print Assumptions C76_type.

(** ltx gives the LaTeX text, txt the plain one. *)
Theorem C76_printer pr_eq pr_H nb t u s x D e : t = "ltx"%string \/ t = "txt"%string -> printed u s x = Ok (D, e) ->
  description pr_eq pr_H nb (Some t) u s x =
    Ok (whole_txt (String.eqb t "ltx") (pr_eq (String.eqb t "ltx")) (pr_H (String.eqb t "ltx")) D e).
Proof. by case=> -> E; rewrite /description /= E. Qed.
Print Assumptions C76_printer.

Section Layout.
Local Open Scope string_scope.
Lemma lines_one a : on_line a -> lines a = [:: a].
Proof. by elim: a => //= c a IH [h1 h2]; rewrite IH //; case: Nat.eqb_spec. Qed.
Lemma concat_cons a l : String.concat "" (a :: l) = a ++ String.concat "" l.
Proof. by case: l => //; rewrite sapp_nil. Qed.
Lemma lines_many (f : nat -> string) l b : (forall i, on_line (f i)) ->
  lines (String.concat "" [seq f i ++ nl | i <- l] ++ b) = cat [seq f i | i <- l] (lines b).
Proof.
move=> hf; elim: l => [//|i l IH]; rewrite map_cons concat_cons !sapp_assoc lines_line //.
by rewrite IH.
Qed.
Lemma on_plain ltx t : on_line t -> on_line (plain ltx t).
Proof. by case: ltx => //= h; rewrite /plain; do ! split=> //; apply: on_line_app. Qed.
Lemma on_gap ltx : on_line (gap ltx).
Proof. by case: ltx; apply: on_line_rep; split. Qed.

(** The lines of the text: the Hamiltonian, a rule, one line for every mode, a rule,
    the parameters, the loops; every line begins with its label. *)
Theorem C76_layout ltx pr_eq pr_H D e : (forall q, on_line (pr_eq q)) -> on_line (pr_H e) ->
  let word t := if ltx then "\text{" ++ t ++ "}" else t in
  let sp := if ltx then "~~~~~~~~~~~" else "       " in
  let dashes := "------------------------------------------------------------" in
  exists modes,
    lines (whole_txt ltx pr_eq pr_H D e) =
      pr_H e :: dashes :: cat modes
       [:: dashes; word "parameters:" ++ sp ++ String.concat sp [seq pr_eq q | q <- param_eqns D];
           word "loops:" ++ sp ++ String.concat sp [seq pr_eq q | q <- loop_eqns D]] /\
    size modes = dv_n D /\
    forall i, (i < dv_n D)%N -> exists num, reads num = Some i.+1 /\
      nth "" modes i = word ("mode " ++ num ++ ":") ++ sp ++ word (if (i < dv_har D)%N then "harmonic" else "charge") ++ sp ++
                       String.concat sp [seq pr_eq q | q <- (mode_eqns D i).2].
Proof.
move=> hq hH word sp dashes.
have Eg : gap ltx = sp by rewrite /gap /sp; case: (ltx).
have hw t : on_line t -> on_line (word t) by exact: on_plain.
have hs : on_line sp by rewrite -Eg; exact: on_gap.
have hc l : on_line (String.concat sp [seq pr_eq q | q <- l]).
  by apply: on_line_concat => // t; elim: l => //= q l IH [<-|/IH].
pose f i := word ("mode " ++ decimal i.+1 ++ ":") ++ sp ++ word (mode_eqns D i).1 ++ sp ++
            String.concat sp [seq pr_eq q | q <- (mode_eqns D i).2].
have hf i : on_line (f i).
  have [_ [hd _]] := decimal_spec i.+1.
  apply: on_line_app; first (apply: hw; apply: on_line_app; [by repeat split|apply: on_line_app => //; by repeat split]).
  apply: on_line_app => //; apply: on_line_app; last exact: on_line_app.
  by apply: hw; rewrite /mode_eqns; case: ifP => _; repeat split.
exists [seq f i | i <- iota 0 (dv_n D)]; split; last first.
  split; first by rewrite size_map size_iota.
  move=> i hi; exists (decimal i.+1); split; first by have [] := decimal_spec i.+1.
  by rewrite (nth_map 0%N) ?size_iota // nth_iota // add0n /f /mode_eqns; case: ifP.
have Er : rule = dashes ++ nl by [].
have hd : on_line dashes by repeat split.
rewrite /whole_txt /ham_txt Er /mode_txt /param_txt /loop_txt Eg; move: (dashes) hd => ds hd.
rewrite !sapp_assoc lines_line // lines_line //.
have -> : [seq plain ltx ("mode " ++ decimal i.+1 ++ ":") ++ sp ++ plain ltx (mode_eqns D i).1 ++ sp ++
             String.concat sp [seq pr_eq q | q <- (mode_eqns D i).2] ++ nl | i <- iota 0 (dv_n D)] =
          [seq f i ++ nl | i <- iota 0 (dv_n D)].
  by apply: eq_map => i; rewrite /f !sapp_assoc.
rewrite lines_many // lines_line //.
have -> a : plain ltx "parameters:" ++ sp ++ String.concat sp [seq pr_eq q | q <- param_eqns D] ++ nl ++ a =
   (word "parameters:" ++ sp ++ String.concat sp [seq pr_eq q | q <- param_eqns D]) ++ nl ++ a by rewrite !sapp_assoc.
have w1 : on_line "parameters:" by repeat split.
have w2 : on_line "loops:" by repeat split.
rewrite lines_line; last by apply: on_line_app; [exact: hw|exact: on_line_app].
by rewrite lines_one //; apply: on_line_app; [exact: hw|exact: on_line_app].
Qed.
End Layout.
Print Assumptions C76_layout.

(** The text does not show the difference. *)
Theorem C76_blind pr_eq pr_H nb tp u s s' x x' : look_alike s s' x x' ->
  description pr_eq pr_H nb tp u s x = description pr_eq pr_H nb tp u s' x'.
Proof.
case=> [cc BB ss ii gg vv ll]; rewrite /description; case: text_type => [ltx|//] /=.
rewrite /printed -cc -BB.
pose ks := mkKeys (c_keys_ind (x_c x)) (c_keys_jj (x_c x)).
pose D1 := descrip_vars u (hof x) (evalue s) [seq lvalue s l | l <- c_loops (x_c x)] (x_B x) ks.
pose D2 := descrip_vars u (hof x') (evalue s') [seq lvalue s' l | l <- c_loops (x_c x)] (x_B x) ks.
have HD : D2 = mkDV (dv_n D1) (dv_har D1) (dv_W D1) (dv_S D1) (dv_B D1) (dv_bcols D1) (dv_omega D1) (dv_zp D1) (dv_EJ D1)
                 (dv_EL D1) (dv_has D1) (dv_EC D1) (dv_loops D2) (dv_ng D2).
  rewrite /D2 /descrip_vars /hn /= /hphi_zp /quad_cI /= -ss !size_map; congr mkDV.
  - by apply: eq_map => k; rewrite vv.
  - by apply: eq_map => k; rewrite vv.
rewrite -/ks -/D1 -/D2.
have -> : dv_n D2 = dv_n D1 by rewrite HD.
have -> : dv_har D2 = dv_har D1 by rewrite HD.
rewrite (eq_all (a2 := fun i => isSome (isl x' i))) //; case: ifP => // _.
have -> : construct_hamiltonian (t_n0 (h_st (hof x'))) D2 ks = construct_hamiltonian (t_n0 (h_st (hof x))) D1 ks.
  by rewrite HD /= -ss.
case: construct_hamiltonian => [e|//] /=; congr Ok; rewrite /whole_txt.
have Ep : param_eqns D2 = param_eqns D1 by rewrite HD.
have Em i : mode_eqns D1 i = mode_eqns D2 i.
  rewrite HD /mode_eqns /=; case: ltnP => // h; congr pair; congr [:: EqIs _ _].
  rewrite /hn /= -ss; set a := t_n _; set b := count _ _.
  case: (ltnP (i - b) (a - b)) => k; last by rewrite !nth_default // ?size_map ?size_iota.
  by rewrite !(nth_map 0%N) ?size_iota.
have El : loop_eqns D1 = loop_eqns D2.
  rewrite /loop_eqns /= !size_map; apply/eq_in_map => i; rewrite mem_iota => /= hi; congr EqOver2Pi.
  by rewrite !(nth_map 0) ?size_map // !(nth_map 0%N).
have -> : mode_txt ltx (pr_eq ltx) D1 = mode_txt ltx (pr_eq ltx) D2.
  rewrite /mode_txt (_ : dv_n D2 = dv_n D1); last by rewrite HD.
  by congr String.concat; apply: eq_map => i; rewrite Em.
by rewrite /loop_txt El /param_txt Ep.
Qed.
Print Assumptions C76_blind.

(** A charge island without gate charge and with 1/4000 of a Cooper pair: the same
    text, but not the same Hamiltonian. *)
Definition island (ng : R) : circ :=
  mkX [::] "junctions" (cst0 (fun=> mkL nil nil)) eye eye
      (mkT 1 1 0 0 (fun _ _ => 0) eye eye (fun _ _ => 1) (fun _ _ => 0) (fun _ _ => 0) (fun=> 0))
      [:: Some (ng, noise_default)] [:: 1%N] mem0 None (mkE [::] [::]).
Lemma island_H disp s ng : exists A, hamiltonian disp (hof (island ng)) (evalue s) [::] eye (mkKeys [::] [::]) = Ok A /\
  ent A 0 0 = (halfR 1 * ((charge_unit * ng) * (charge_unit * ng)))%:C%C.
Proof.
have ch : hcharge (hof (island ng)) 0 by exact: eqxx.
rewrite /hamiltonian /ind_hamil; cbn [k_ind k_jj foldl size h_m hof island x_m acc_acc].
rewrite /LC_hamil /hn; cbn [h_st hof island x_st t_n iota foldl subn subn_rec minus]; rewrite /LC_term ch.
cbn [acc_add acc_acc]; eexists; split; first by reflexivity.
have -> : opQQ (hof (island ng)) 0 0 = omul (charge_op_isolated (hof (island ng)) 0) (charge_op_isolated (hof (island ng)) 0) by [].
have Eq : ent (charge_op_isolated (hof (island ng)) 0) 0 0 = (- (charge_unit * ng))%:C%C.
  rewrite /charge_op_isolated ch /osub /oadd /oscale /qcharge /odiag /oeye /=.
  have -> : charge_at (hm (hof (island ng)) 0) 0 = 0 by exact: charge_at1.
  by rewrite cR0 sub0r mulr1 mulrN -cRM -cRN.
cbn [ent oscale omul]; rewrite (_ : dim _ = 1%N) //; last by rewrite /charge_op_isolated ch.
rewrite big_ord1 Eq -!cRM; congr (_%:C)%C; by rewrite mulrNN.
Qed.
Theorem C76_refuted : exists x x',
  (forall pr_eq pr_H nb tp u s, description pr_eq pr_H nb tp u s x = description pr_eq pr_H nb tp u s x') /\
  (forall disp s, exists A A', [/\ hamiltonian disp (hof x) (evalue s) [::] eye (mkKeys [::] [::]) = Ok A,
     hamiltonian disp (hof x') (evalue s) [::] eye (mkKeys [::] [::]) = Ok A' & ent A 0 0 <> ent A' 0 0]).
Proof.
exists (island 0), (island (Rdiv 1 4000)); split=> [pr_eq pr_H nb tp u s|disp s].
  apply: C76_blind; split=> // -[|i] //; rewrite /ng_of /=.
    exact: tiny.
have [A [EA A0]] := island_H disp s 0; have [A' [EA' A1]] := island_H disp s (Rdiv 1 4000).
exists A, A'; split=> //; rewrite A0 A1 => /(congr1 (@complex.Re _)) /=.
have cu : charge_unit <> 0 by rewrite /charge_unit /e_charge; apply: Rgt_not_eq; apply: Rdiv_lt_0_compat; [lra|apply: sqrt_lt_R0; exact: hbar_gt].
have h1 : halfR 1 <> 0 by exact: half1.
have q : Rdiv 1 4000 <> 0 by exact: small_ne.
move: (halfR 1) charge_unit (Rdiv 1 4000) h1 cu q => a b c a0 b0 c0.
rewrite !mulr0 => /esym/eqP; rewrite !mulf_eq0 => /or3P[]; [by move/eqP|by case/orP=> /eqP|by case/orP=> /eqP].
Qed.
Print Assumptions C76_refuted.

(** The listing of the island with a quarter of a Cooper pair. *)
Example C76_case u s : exists D e, printed u s (island (Rdiv 1 4)) = Ok (D, e) /\
  all_eqns D = [:: EqIs (SNg 1) (Rdiv 1 4); EqIs (SEC 1 1) (np_round 3 (hz_EC u (halfR 1)))] /\
  occurs (SNg 1) e /\ occurs (SEC 1 1) e.
Proof.
have E0 : count (fun i => t_om (h_st (hof (island (Rdiv 1 4)))) i != 0) (iota 0 1) = 0%N by rewrite /= eqxx.
rewrite /printed /descrip_vars /hn; cbn [hof island h_st x_st t_n x_c cst0 c_loops c_keys_ind c_keys_jj map size dv_har dv_n].
rewrite E0 /=; do 2 eexists; split; first by reflexivity.
rewrite /all_eqns /= /quad_cI /=; split; last by [].
by congr [:: EqIs _ _; _]; exact: quarter.
Qed.

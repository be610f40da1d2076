(** CopyProofs.v -- lemmas about Copy.v. *)
From Coq Require Import Reals ZArith String.
From Verif.Model Require Import Base Units Elements Edge LCWB.
From mathcomp Require Import all_ssreflect all_algebra.
From mathcomp Require Import complex.
From mathcomp Require Import zify.
From Verif.Numerics Require Import RStruct Bridge.
From Verif.Model Require Import Transform Op Ham Diag CircuitSM Copy.
From Verif.Spec Require Import CopySpec.

Set Implicit Arguments.
Unset Strict Implicit.
Unset Printing Implicit Defensive.
Import GRing.Theory.
Local Open Scope ring_scope.
Local Open Scope complex_scope.

(** ** replacement_dict *)
Lemma replP base l i : i \in l -> exists k, [/\ (k < size l)%N, nth 0%N l k = i,
  repl base l i = Some (base + k)%N & forall j, (k < j)%N -> (j < size l)%N -> nth 0%N l j != i].
Proof.
rewrite -mem_rev => hi; have hk := hi; rewrite -index_mem size_rev in hk.
exists (size l - (index i (rev l)).+1)%N; split.
- by rewrite subnSK // leq_subr.
- by rewrite -nth_rev // nth_index.
- by rewrite /repl hk.
- move=> j h1 h2; apply/negP => /eqP E.
  have hm : (size l - j.+1 < index i (rev l))%N by move: h1 h2 hk; lia.
  have := before_find 0%N (hm : (_ < find (pred1 i) (rev l))%N); rewrite nth_rev; last by rewrite subnSK ?leq_subr.
  by rewrite subnSK // subKn 1?ltnW // E /= eqxx.
Qed.

Lemma repl_in base l i : isSome (repl base l i) = (i \in l).
Proof.
rewrite /repl -mem_rev -index_mem size_rev; by case: ifP.
Qed.
Lemma repl0_val base l i : i \in l -> exists k, [/\ (k < size l)%N, nth 0%N l k = i & repl0 base l i = (base + k)%N].
Proof. by case/(replP base) => k [h1 h2 E _]; exists k; rewrite /repl0 E. Qed.

(** ** Places *)
Lemma on_edgeP x i : on_edge x i <-> i \in placed x.
Proof.
rewrite /on_edge /placed; elim: (x_dict x) => [|p d IH] /=; first by split=> // -[p []].
rewrite mem_cat; split.
  by case=> q [[<-|hq] hi]; rewrite ?hi // orbC; apply/orP; left; apply/IH; exists q.
by case/orP => [hi|/IH [q [hq hi]]]; [exists p; split=> //; left|exists q; split=> //; right].
Qed.

Lemma flatten_relabel e d : flatten [seq p.2 | p <- relabel e d] = iota e (size (flatten [seq p.2 | p <- d])).
Proof.
rewrite /relabel -/(unzip2 _) unzip2_zip.
  by rewrite reshapeKr // size_iota size_flatten /shape -map_comp.
by rewrite size_reshape !size_map.
Qed.

(** Place by place. *)
Lemma relabel_shape e d : [seq p.1 | p <- relabel e d] = [seq p.1 | p <- d] /\
  [seq size p.2 | p <- relabel e d] = [seq size p.2 | p <- d].
Proof.
have sz : size (unzip1 d) = size (reshape [seq size p.2 | p <- d] (iota e (size (flatten [seq p.2 | p <- d])))).
  by rewrite size_reshape !size_map.
split; first by rewrite /relabel -/(unzip1 _) unzip1_zip // sz.
rewrite (map_comp size snd) /relabel -/(unzip2 _) unzip2_zip ?sz //.
by rewrite -/(shape _) reshapeKl // size_iota size_flatten /shape -map_comp.
Qed.

Lemma cat_split (T : Type) (a b c d : seq T) : size a = size b -> a ++ c = b ++ d -> a = b /\ c = d.
Proof. by elim: a b => [|x a IH] [|y b] //= [sz] [-> /(IH _ sz) [-> ->]]. Qed.

Lemma dict_eq (T : Type) (f g : nat -> T) (d d' : seq (edge * seq nat)) :
  [seq p.1 | p <- d'] = [seq p.1 | p <- d] -> [seq size p.2 | p <- d'] = [seq size p.2 | p <- d] ->
  [seq f i | i <- flatten [seq p.2 | p <- d']] = [seq g i | i <- flatten [seq p.2 | p <- d]] ->
  [seq (p.1, [seq f i | i <- p.2]) | p <- d'] = [seq (p.1, [seq g i | i <- p.2]) | p <- d].
Proof.
elim: d d' => [|[e l] d IH] [|[e' l'] d'] //= [-> E1] [sz E2].
by rewrite !map_cat => /cat_split [|-> /(IH _ E1 E2) ->]; rewrite ?size_map.
Qed.

(** ** The deep copy *)
Lemma shown_shift hp x : lives (hp_e hp) (hp_l hp) (hp_s hp) x ->
  same_circuit (hp_s hp) x (deep_store hp) (deep_circ (hp_e hp) (hp_l hp) x)
    (addn^~ (hp_e hp)) (addn^~ (hp_l hp)).
Proof.
case=> liveE liveL; set e := hp_e hp; set l := hp_l hp; set s := hp_s hp.
have ne i : (i + e < e)%N = false by rewrite ltnNge leq_addl.
have nl i : (i + l < l)%N = false by rewrite ltnNge leq_addl.
split=> //=.
- by move=> i _; rewrite -/e ne addnK.
- by move=> i _ _; rewrite -/e -/l ne addnK.
- by move=> j _; rewrite -/l nl addnK.
- by rewrite -map_comp; apply/eq_map => -[[i|i] v].
- by move=> i _; rewrite /shift_key ne addnK.
- by move=> i b _; rewrite /shift_key2 ne addnK.
- by move=> i j _ _ /addIn.
- by move=> i j _ _ /addIn.
Qed.

Lemma shift_apart hp x : apart (hp_e hp) (hp_l hp) (deep_store hp) (deep_circ (hp_e hp) (hp_l hp) x).
Proof.
set e := hp_e hp; set l := hp_l hp.
have oe i : on_edge (deep_circ e l x) i -> (e <= i)%N.
  by case=> p [/= /List.in_map_iff [q [<- _]] /= /mapP [j _ ->]]; exact: leq_addl.
have ne i : (e <= i)%N -> (i < e)%N = false by rewrite ltnNge => ->.
split.
- move=> i [/oe//|[el [/oe hel _ ->]]] /=; rewrite -/e ne //; exact: leq_addl.
- move=> i [/= /mapP [j _ ->]|[el [/oe hel _ /=]]]; first exact: leq_addl.
  by rewrite -/e -/l ne // => /mapP [j _ ->]; exact: leq_addl.
- move=> c /=; rewrite -map_comp => /List.in_map_iff [[[i|i] v] [<- _]] /=; exact: leq_addl.
- by move=> k /= /List.in_map_iff [k' [<- _]]; exact: leq_addl.
- by move=> k /= /List.in_map_iff [k' [<- _]]; exact: leq_addl.
Qed.

Lemma shift_untouched hp : untouched (hp_e hp) (hp_l hp) (hp_s hp) (deep_store hp).
Proof. by split=> i hi /=; rewrite hi. Qed.

(** ** The PyTorch engine: the copies made before the deep copy *)
Section Safe.
Variables (hp : heap) (x : circ).
Let s := hp_s hp. Let e := hp_e hp. Let l := hp_l hp.
Let ps := placed x. Let ls := c_loops (x_c x).
Hypothesis liv : lives e l s x.
Hypothesis ok : lookups_ok hp x.

Lemma ps_live i : i \in ps -> (i < e)%N.
Proof. by move=> hi; case: liv => H _; apply: H; left; apply/on_edgeP. Qed.
Lemma cap_live i : i \in ps -> inductive_el s i -> (ecap s i < e)%N.
Proof. by move=> hi ki; case: liv => H _; apply: H; right; exists i; split=> //; apply/on_edgeP. Qed.
Lemma ls_live i : i \in ls -> (i < l)%N.
Proof. by move=> hi; case: liv => _ H; apply: H; left. Qed.
Lemma loops_in i j : i \in ps -> inductive_el s i -> j \in eloops s i -> j \in ls.
Proof.
move=> hi ki hj; move: ok; rewrite /lookups_ok -!andbA => /andP [/allP /(_ i hi)].
by rewrite ki /= => /allP /(_ j hj); rewrite repl_in.
Qed.

Lemma safe_el i : i \in ps -> exists k, [/\ (k < size ps)%N, nth 0%N ps k = i & repl0 e ps i = (e + k)%N].
Proof. exact: repl0_val. Qed.

Lemma newE k : (k < size ps)%N -> (e <= e + k)%N && (e + k < e + size ps)%N.
Proof. by rewrite leq_addr ltn_add2l. Qed.
Lemma oldE i : (i < e)%N -> (e <= i)%N && (i < e + size ps)%N = false.
Proof. by rewrite ltnNge => /negbTE ->. Qed.
Lemma newL k : (k < size ls)%N -> (l <= l + k)%N && (l + k < l + size ls)%N.
Proof. by rewrite leq_addr ltn_add2l. Qed.

Lemma safe_new k : (k < size ps)%N -> let el := nth 0%N ps k in let s1 := safe_store hp x in
  [/\ ekind s1 (e + k)%N = ekind s el, evalue s1 (e + k)%N = evalue s el,
      ereq s1 (e + k)%N = false /\ eleaf s1 (e + k)%N = true, ecap s1 (e + k)%N = ecap s el &
      eloops s1 (e + k)%N = [seq repl0 l ls j | j <- eloops s el]].
Proof. by move=> hk /=; rewrite -/e -/ps newE // addKn. Qed.
Lemma safe_old i : (i < e)%N -> let s1 := safe_store hp x in
  [/\ ekind s1 i = ekind s i, evalue s1 i = evalue s i,
      ereq s1 i = ereq s i /\ eleaf s1 i = eleaf s i, ecap s1 i = ecap s i & eloops s1 i = eloops s i].
Proof. by move=> hi /=; rewrite -/e -/ps oldE. Qed.
Lemma safe_loop j : j \in ls -> lvalue (safe_store hp x) (repl0 l ls j) = lvalue s j.
Proof. by case/(repl0_val l) => k [hk hj ->] /=; rewrite -/ls -/l newL // addKn hj. Qed.

(** What is shown does not depend on sharing. *)
Lemma safe_shows : shows (safe_store hp x) (safe_circ hp x) = shows s x.
Proof.
have [e1 e2] := relabel_shape e (x_dict x); apply: dict_eq => //=.
rewrite flatten_relabel -/(placed x) -/ps.
apply: (@eq_from_nth _ (describe s 0)); first by rewrite !size_map size_iota.
move=> k; rewrite size_map size_iota => hk.
rewrite (nth_map 0%N) ?size_iota // nth_iota // (nth_map 0%N) //.
set el := nth 0%N ps k; have hel : el \in ps by exact: mem_nth.
have [a1 a2 _ a4 a5] := safe_new hk.
rewrite /describe /inductive_el a1 a2 a4 a5 -/el.
have ki0 : inductive_el s el = match ekind s el with KCap => false | _ => true end by [].
have [ki|] := boolP (inductive_el s el); last by rewrite ki0; case: (ekind s el).
have [_ b2 _ _ _] := safe_old (cap_live hel ki).
have EL : [seq lvalue (safe_store hp x) j | j <- [seq repl0 l ls j | j <- eloops s el]] =
          [seq lvalue s j | j <- eloops s el].
  by rewrite -map_comp; apply/eq_in_map => j hj; exact: safe_loop (loops_in hel ki hj).
by move: ki; rewrite ki0 b2 EL; case: (ekind s el).
Qed.

(** One to one when no element is placed twice and no own capacitor is placed. *)
Definition fe1 (i : nat) : nat := if i \in ps then repl0 e ps i else i.
Definition fl1 (j : nat) : nat := repl0 l ls j.
Hypothesis uE : uniq ps.
Hypothesis uL : uniq ls.
Hypothesis capsN : forall i, i \in ps -> inductive_el s i -> ecap s i \notin ps.

Lemma repl_uniq base (L : seq nat) i : uniq L -> i \in L -> repl0 base L i = (base + index i L)%N.
Proof.
by move=> u hi; have [k [hk hn ->]] := repl0_val base hi; rewrite -hn index_uniq.
Qed.
Lemma in_circP i : in_circ s x i <-> i \in ps \/ exists el, [/\ el \in ps, inductive_el s el & i = ecap s el].
Proof.
split=> [[/on_edgeP|[el [/on_edgeP h1 h2 ->]]]|[/on_edgeP|[el [/on_edgeP h1 h2 ->]]]]; try by left.
- by right; exists el.
- by right; exists el.
Qed.
Lemma loop_ofP j : loop_of s x j <-> j \in ls.
Proof. by split=> [[//|[el [/on_edgeP h1 h2 h3]]]|]; [exact: loops_in h3|left]. Qed.

Lemma safe_same : same_circuit s x (safe_store hp x) (safe_circ hp x) fe1 fl1.
Proof.
have keysI : all_in ps e [seq k.1.2 | k <- c_keys_ind (x_c x)].
  by move: ok; rewrite /lookups_ok => /andP [/andP [_ ->]].
have keysJ : all_in ps e [seq k.1.1.2 | k <- c_keys_jj (x_c x)].
  by move: ok; rewrite /lookups_ok => /andP [_ ->].
have pars : all (fun p => comp_in hp x p.1) (c_params (x_c x)).
  by move: ok; rewrite /lookups_ok => /andP [/andP [/andP [_ ->]]].
have inps i : isSome (repl e ps i) -> fe1 i = repl0 e ps i by rewrite repl_in /fe1 => ->.
have [e1 e2] := relabel_shape e (x_dict x).
split.
- have := @dict_eq nat id fe1 (x_dict x) (relabel e (x_dict x)) e1 e2.
  rewrite flatten_relabel -/(placed x) -/ps => H.
  have -> : x_dict (safe_circ hp x) = [seq (p.1, [seq id i | i <- p.2]) | p <- relabel e (x_dict x)].
    by rewrite /= -[LHS]map_id; apply/eq_map => -[a b]; rewrite map_id.
  apply: H; apply: (@eq_from_nth _ 0%N); first by rewrite !size_map size_iota.
  move=> k; rewrite size_map size_iota => hk.
  rewrite map_id nth_iota // (nth_map 0%N) // /fe1 mem_nth // repl_uniq ?mem_nth //.
  by rewrite index_uniq.
- move=> i /in_circP [hi|[el [h1 h2 Ei]]].
    rewrite /fe1 hi; have [k [hk hn ->]] := safe_el hi.
    by have [a1 a2 _ _ _] := safe_new hk; rewrite a1 a2 hn.
  rewrite /fe1 Ei (negbTE (capsN h1 h2)).
  by have [a1 a2 _ _ _] := safe_old (cap_live h1 h2).
- move=> i /on_edgeP hi ki; rewrite {1 3}/fe1 hi; have [k [hk hn ->]] := safe_el hi.
  have [_ _ _ a4 a5] := safe_new hk; rewrite a4 a5 hn; split=> //.
  by rewrite /fe1 (negbTE (capsN hi ki)).
- rewrite /=; apply: (@eq_from_nth _ 0%N); first by rewrite size_map size_iota.
  move=> k; rewrite size_iota => hk; rewrite nth_iota // (nth_map 0%N) //.
  by rewrite /fl1 repl_uniq ?mem_nth // index_uniq.
- move=> j /loop_ofP hj; split; first exact: safe_loop.
  have [k [hk hn E]] := repl0_val l hj; rewrite /= -/l -/ls /fl1 E.
  by rewrite ltnNge leq_addr /= addKn hn.
- move: keysI; rewrite /= -/e -/ps; elim: (c_keys_ind (x_c x)) => //= k ks IH /andP [h1 h2].
  by rewrite IH // inps.
- move: keysJ; rewrite /= -/e -/ps; elim: (c_keys_jj (x_c x)) => //= k ks IH /andP [h1 h2].
  by rewrite IH // inps.
- move: pars; rewrite /= -/e -/l -/ps -/ls -map_comp; elim: (c_params (x_c x)) => //= p q IH /andP [h1 h2].
  by rewrite IH //; case: (p.1) h1 => //= i h1; rewrite inps.
- move=> i /in_circP [hi|[el [h1 h2 Ei]]]; rewrite /= -/e -/ps /move_key /fe1.
    rewrite hi; have [k [hk hn _]] := safe_el hi; have := replP e hi.
    case=> k' [hk' hn' Er _]; rewrite /repl0 Er /= ltnNge leq_addr /= addKn hn' ltn_add2l hk' /=.
    by rewrite Er eqxx.
  by rewrite Ei (negbTE (capsN h1 h2)) (cap_live h1 h2) /= repl_in (capsN h1 h2).
- by split.
- by split.
- move=> i b /on_edgeP hi.
  have mv (T : Type) (f : nat -> option T) : move_key e ps false f (fe1 i) = f i.
    have [k' [hk' hn' Er _]] := replP e hi; rewrite /move_key /fe1 hi /repl0 Er /=.
    by rewrite ltnNge leq_addr /= addKn hn' ltn_add2l hk' /= Er eqxx.
  by split; rewrite /= -/e -/ps mv.
- have lt i : in_circ s x i -> (i < e)%N by move=> h; case: liv => H _; apply: H.
  move=> i j hi hj; rewrite /fe1; case: ifP => pi; case: ifP => pj.
  + rewrite !repl_uniq // => /addnI E.
    by rewrite -(nth_index 0%N pi) E nth_index.
  + by have [k [_ _ ->]] := safe_el pi; have := lt j hj => hl E; move: hl; rewrite -E ltnNge leq_addr.
  + by have [k [_ _ ->]] := safe_el pj; have := lt i hi => hl E; move: hl; rewrite E ltnNge leq_addr.
  + by [].
- move=> i j /loop_ofP pi /loop_ofP pj; rewrite /fl1 !repl_uniq // => /addnI E.
  by rewrite -(nth_index 0%N pi) E nth_index.
Qed.
End Safe.

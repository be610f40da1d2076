(** P_Construct.v -- C78: constructors of the elements. *)
From Coq Require Import Reals ZArith String Ascii Lra.
From Verif.Model Require Import Base Units Settings Noise Elements Edge LCWB HamConst
  PartialConst Thermal RateConst.
From mathcomp Require Import all_ssreflect all_algebra.
From mathcomp Require Import complex.
From Verif.Numerics Require Import RStruct Bridge.
From Verif.Model Require Import Transform Op Ham Diag CircuitSM Partial DecRate Construct.
From Verif.Spec Require Import ConstructSpec.

Set Implicit Arguments.
Unset Strict Implicit.
Unset Printing Implicit Defensive.
Import GRing.Theory.
Local Open Scope seq_scope.
Local Open Scope ring_scope.

Lemma small_value : Rmult very_small_cap (IZR (10 ^ 20)) = R1.
Proof. by rewrite /very_small_cap /Rdiv Rmult_assoc Rmult_1_l; apply: Rinv_l; apply: not_0_IZR. Qed.

Section New.
Variables (k0e : R -> R) (show : R -> string) (eng : string) (st : ustate).
Notation make := (new_el k0e show eng st).
Let value k a := Elements.construct eng st k (ea_v a) (ea_u a) (ea_req a) (ea_err a) (ea_z a).

(** A constructor raises exactly what setting the value raises. *)
Theorem C78_errors k a os e : make k a os = Err e <-> value k a = Err e.
Proof.
rewrite /value; case: k => /=; rewrite ?/new_cap ?/new_inductive;
  case: (Elements.construct _ _ _ _ _ _ _ _) => [x|z] //=.
- by split; case=> ->.
- by case: (ea_cap a) => /=; split.
- by split; case=> ->.
- by case: (ea_cap a) => /=; split.
- by split; case=> ->.
Qed.

(** The objects there were stay; the new element comes last, after its own
    capacitor if none was given: 1e-20 F, without loss. *)
Theorem C78_object k a os x : value k a = Ok x -> exists o new,
  [/\ make k a os = Ok (os ++ new ++ [:: o], size os + size new)%N,
      eo_el o = x /\ eo_qual o = (match k with
                                  | KCap => attr_cap (ea_q a)
                                  | KInd => attr_ind k0e (ea_q a)
                                  | KJJ => attr_jj k0e (ea_delta a) (ea_x a) (ea_q a)
                                  end),
      (match k with
       | KCap => new = [::] /\ eo_cap o = None
       | _ => match ea_cap a with
              | Some c => new = [::] /\ eo_cap o = Some c
              | None => [/\ new = [:: small_cap show], eo_cap o = Some (size os),
                            Rmult (el_val (eo_el (small_cap show))) (IZR (10 ^ 20)) = R1 &
                            truthy (eo_qual (small_cap show)) = false]
              end
       end),
      eo_loops o = (match k with KCap => [::] | _ => odflt [::] (ea_loops a) end) &
      eo_id o = odflt (default_id show k (ea_v a) (odflt (default_unit k st) (ea_u a))) (ea_id a)].
Proof.
have T1 : the_id show st k a =
    odflt (default_id show k (ea_v a) (odflt (default_unit k st) (ea_u a))) (ea_id a).
  by rewrite /the_id /the_unit; case: (ea_id a); case: (ea_u a).
rewrite /value => E; case: k E T1 => /= E T1; rewrite ?/new_cap ?/new_inductive E /=.
- by exists (mkEo x (attr_cap (ea_q a)) (the_id show st KCap a) None [::]), [::]; rewrite /= cats1 addn0; split.
- case: (ea_cap a) => [c|] /=.
  + exists (mkEo x (attr_ind k0e (ea_q a)) (the_id show st KInd a) (Some c) (odflt [::] (ea_loops a))), [::].
    by rewrite /= cats1 addn0; split.
  + exists (mkEo x (attr_ind k0e (ea_q a)) (the_id show st KInd a) (Some (size os)) (odflt [::] (ea_loops a))), [:: small_cap show].
    rewrite size_rcons addn1 -cats1 -cats1 -catA /=; split=> //.
    by split=> //; exact: small_value.
- case: (ea_cap a) => [c|] /=.
  + exists (mkEo x (attr_jj k0e (ea_delta a) (ea_x a) (ea_q a)) (the_id show st KJJ a) (Some c) (odflt [::] (ea_loops a))), [::].
    by rewrite /= cats1 addn0; split.
  + exists (mkEo x (attr_jj k0e (ea_delta a) (ea_x a) (ea_q a)) (the_id show st KJJ a) (Some (size os)) (odflt [::] (ea_loops a))), [:: small_cap show].
    rewrite size_rcons addn1 -cats1 -cats1 -catA /=; split=> //.
    by split=> //; exact: small_value.
Qed.


(** Capacitors made for elements are never shared: neither with an object that
    exists nor with one another. *)
Theorem C78_own_capacitor k1 k2 a1 a2 os os1 i1 os2 i2 : k1 <> KCap -> k2 <> KCap ->
  ea_cap a1 = None -> ea_cap a2 = None ->
  make k1 a1 os = Ok (os1, i1) -> make k2 a2 os1 = Ok (os2, i2) ->
  exists c1 c2, [/\ eo_cap (nth (small_cap show) os2 i1) = Some c1,
                    eo_cap (nth (small_cap show) os2 i2) = Some c2,
                    (size os <= c1)%N, (c1 < i1)%N & (i1 < c2)%N].
Proof.
have K k a o o' i : k <> KCap -> ea_cap a = None -> make k a o = Ok (o', i) ->
    exists b, [/\ o' = o ++ [:: small_cap show; b], i = (size o).+1 & eo_cap b = Some (size o)].
  move=> nk nc; case E: (value k a) => [x|e]; last by rewrite (proj2 (C78_errors k a o e) E).
  case: (C78_object o E) => b [new [-> _ + _ _]].
  case: k nk {E} => // _; rewrite nc => -[-> eb _ _] [<- <-]; exists b; by rewrite addn1.
move=> n1 n2 c1 c2 /(K _ _ _ _ _ n1 c1) [b1 [e1 ei1 q1]] /(K _ _ _ _ _ n2 c2) [b2 [e2 ei2 q2]].
have N (d a b : eobj) (o r : seq eobj) : nth d (o ++ a :: b :: r) (size o).+1 = b.
  by rewrite nth_cat ltnNge leqnSn /= subSn // subnn.
have P : nth (small_cap show) os2 i1 = b1 by rewrite e2 e1 -catA ei1 /= N.
have Q : nth (small_cap show) os2 i2 = b2 by rewrite e2 ei2 N.
exists (size os), (size os1); rewrite P Q q1 q2 ei1; split=> //.
by rewrite e1 size_cat /= addn2.
Qed.
End New.
Print Assumptions C78_errors.
Print Assumptions C78_object.
Print Assumptions C78_own_capacitor.

(** Numbers: floats, ints, and the bools, which are ints. *)
Theorem C78_numbers :
  [/\ forall x, as_number (AFloat x) = Some x, forall z, as_number (AInt z) = Some (IZR z),
      as_number (ABool true) = Some R1 /\ as_number (ABool false) = Some R0 &
      forall a, (as_number a = None) <-> match a with AFloat _ | AInt _ | ABool _ => False | _ => True end].
Proof. by split=> //; case. Qed.
Print Assumptions C78_numbers.
(** Truth values: empty strings, zeros, False and None are false. *)
Theorem C78_truth a : truthy a = false <->
  match a with
  | AStr s => s = EmptyString | AFloat x => x = R0 | AInt z => z = Z0 | ABool b => b = false
  | ANone => True | AFun1 _ | AFun2 _ => False | AOther b => b = false
  end.
Proof.
case: a => //= [s|x|z]; split.
- by case: s.
- by move=> ->.
- by move/negbFE/eqP.
- by move=> ->; rewrite eqxx.
- by case: z.
- by move=> ->.
Qed.
Print Assumptions C78_truth.

(** What Q and Y become. *)
Theorem C78_attribute k0e delta x :
  [/\ attr_cap (AStr "default") = AFun1 default_q_cap,
      (forall a r, as_number a = Some r ->
         attr_cap a = AFun1 (fun=> r) /\ attr_ind k0e a = AFun2 (fun _ _ => Some r)),
      (forall f, attr_cap (AFun1 f) = AFun1 f) /\
      (forall f, attr_ind k0e (AFun2 f) = AFun2 f /\ attr_jj k0e delta x (AFun2 f) = AFun2 f),
      (forall w t, w <> 0 -> call2 (attr_ind k0e (AStr "default")) w t = Ok (Some (default_q_ind k0e w t)) /\
         call2 (attr_jj k0e delta x (AStr "default")) w t = Ok (Some (default_y_junc k0e delta x w t))) &
      (forall a, is_default a = false -> as_number a = None -> attr_cap a = a /\ attr_ind k0e a = a)
      /\ forall a, is_default a = false -> attr_jj k0e delta x a = a].
Proof.
split=> //.
- by case=> //= [y|z|b] r [<-].
- by move=> w t /eqP /negbTE nw; rewrite /attr_ind /attr_jj /= nw.
split=> [a d n|a d]; first by rewrite /attr_cap /attr_ind d n.
by rewrite /attr_jj d.
Qed.
Print Assumptions C78_attribute.

(** With attributes that can be used the rates are those of C61 and C72. *)
Theorem C78_loss E s q aj al x l m n total : usable s q x l ->
  loss_rate E s q x l m n total = dec_rate E s (quality_of q aj al) x (Some (loss_type l)) m n total.
Proof.
move=> U; rewrite /loss_rate /dec_rate; case: ifP => // _.
case: (efreq x m) => //= w1; case: (efreq x n) => //= w2.
case: (evec x m) => //= v; case: (evec x n) => //= w.
have F (K : Type) (f g : K -> res (option R)) (p : pred K) ks a : all p ks ->
    (forall k, p k -> f k = g k) -> foldl (rate_add f) a ks = foldl (rate_add g) a ks.
  move=> al0 e; elim: ks a al0 => //= k ks IH a /andP [pk al0]; rewrite IH //; congr foldl.
  by rewrite /rate_add e.
case: l U => /= U; apply: F U _ => k.
- rewrite /cap_usable /cap_term_at /cap_term /quality_of /of_cap /=.
  by case: (q _) => //= [s0|r|z|b|b]; rewrite ?orbF => /negbTE -> .
- by rewrite /two_usable /ind_rate_at /ind_rate /quality_of /of_two /=; case: (q _) => //= f _; case: (f _ _).
- by rewrite /two_usable /qp_rate_at /qp_rate /quality_of /of_two /=; case: (q _) => //= f _; case: (f _ _).
Qed.
Print Assumptions C78_loss.

(** Otherwise a call of the rate raises TypeError. *)
Theorem C78_typeerror E s q x l m n total : l <> LCap -> has_states x m n ->
  loss_rate E s q x l m n total = Err TypeError <-> ~ usable s q x l.
Proof.
move=> nl [ne [w1 [w2 [v [w [h1 h2 h3 h4]]]]]].
have F (K : Type) (f : K -> res (option R)) (p : pred K) ks a :
    (forall k, if p k then exists y, f k = Ok y else f k = Err TypeError) ->
    if all p ks then exists y, foldl (rate_add f) (Ok a) ks = Ok y
    else foldl (rate_add f) (Ok a) ks = Err TypeError.
  move=> H; have E0 l0 : foldl (rate_add f) (Err TypeError) l0 = Err TypeError by elim: l0.
  elim: ks a => [|k ks IH] a /=; first by exists a.
  have := H k; case: (p k) => [[y fk]|fk] /=; last by rewrite fk.
  by rewrite fk /=; apply: IH.
have D (b : bool) (r : res (option R)) : (if b then exists y, r = Ok y else r = Err TypeError) ->
    r = Err TypeError <-> ~ b by case: b => [[y ->]|->]; split.
rewrite /loss_rate; case: eqP => // _; rewrite h1 h2 h3 h4 /=.
case: l nl => // _ /=; apply: D; apply: F => k.
- by rewrite /two_usable /ind_rate_at; case: (q k.1) => //= f; eexists.
- by rewrite /two_usable /qp_rate_at; case: (q k.1) => //= f; eexists.
Qed.
Print Assumptions C78_typeerror.

(** A capacitor without quality factor adds nothing; one whose attribute can
    neither be called nor is empty raises TypeError as soon as it is met. *)
Theorem C78_capacitor s q x tS omega m n k : let a := q (cap_of_el s k.2) in
  cap_term_at s q x tS omega m n k =
  if ~~ truthy a then Ok (Some 0)
  else if of_cap a is Some Q
       then cap_term s (quality_of q (fun=> 0) (fun=> 0)) x tS omega m n k else Err TypeError.
Proof.
rewrite /cap_term_at /cap_term /quality_of /of_cap /=; case: (q _) => //= *; by case: ifP.
Qed.
Print Assumptions C78_capacitor.

(** An inductor made with Q=None and a junction made with a number as Y make the
    rate fail, although the constructors accept them and a capacitor made with
    Q=None is without loss. *)
Theorem C78_none_refuted k0e delta y :
  [/\ truthy (attr_cap ANone) = false,
      forall E s q x el m n total, has_states x m n -> q el = attr_ind k0e ANone ->
        el \in [seq k.1 | k <- ind_mem x] -> loss_rate E s q x LInd m n total = Err TypeError &
      forall E s q x el m n total r, has_states x m n -> q el = attr_jj k0e delta y (AFloat r) ->
        el \in [seq k.1 | k <- half_mem x] -> loss_rate E s q x LQp m n total = Err TypeError].
Proof.
have N (q : nat -> pyarg) (l : seq (nat * op)) el : two_usable (q el) = false ->
    el \in [seq k.1 | k <- l] -> ~ all (fun k => two_usable (q k.1)) l.
  move=> nu ein al; have : all (fun i => two_usable (q i)) [seq k.1 | k <- l] by rewrite all_map.
  by move/allP => /(_ el ein); rewrite nu.
split=> // [E s q x el m n total H qe|E s q x el m n total r H qe] ein;
  by apply/C78_typeerror => //; apply: N ein; rewrite qe.
Qed.
Print Assumptions C78_none_refuted.

(** ** Identifier strings *)
Lemma app_inj (a b : string) (s t : string) : plain a -> plain b ->
  (a ++ String "_"%char s = b ++ String "_"%char t)%string -> a = b /\ s = t.
Proof.
elim: a b => [|c a IH] [|d b] //= pa pb.
- by case=> ->.
- by case=> e _; move: pb; rewrite -e.
- by case=> e _; move: pa; rewrite e.
case=> -> e; move: pa pb => /andP [_ pa] /andP [_ pb].
by case: (IH b pa pb e) => -> ->.
Qed.
Lemma prefix_plain k : plain (prefix k).
Proof. by case: k. Qed.

(** Default identifiers are equal exactly when type, printed value and unit are. *)
Theorem C78_id show k1 v1 u1 k2 v2 u2 : plain (show v1) -> plain (show v2) ->
  default_id show k1 v1 u1 = default_id show k2 v2 u2 <-> [/\ k1 = k2, show v1 = show v2 & u1 = u2].
Proof.
move=> p1 p2; split; last by case=> -> e ->; rewrite /default_id e.
rewrite /default_id.
have A a b : (a ++ "_" ++ b = a ++ String "_"%char b)%string by [].
rewrite !A => /(app_inj (prefix_plain _) (prefix_plain _)) [ek].
move=> /(app_inj p1 p2) [ev eu]; split=> //.
by case: k1 k2 ek => [] [].
Qed.
Print Assumptions C78_id.

(** The strings themselves. *)
Theorem C78_id_text show v u :
  [/\ default_id show KCap v u = ("C_" ++ show v ++ "_" ++ u)%string,
      default_id show KInd v u = ("L_" ++ show v ++ "_" ++ u)%string &
      default_id show KJJ v u = ("JJ_" ++ show v ++ "_" ++ u)%string].
Proof. by []. Qed.
Print Assumptions C78_id_text.

(** The capacitor given to an inductor or junction without one: 1e-20 F exactly,
    not a parameter, named by its value in farad. *)
Theorem C78_small_cap show :
  let c := small_cap show in
  [/\ el_kind (eo_el c) = KCap, el_val (eo_el c) = very_small_cap, el_err (eo_el c) = 0 & el_grad (eo_el c) = false] /\
  [/\ eo_id c = ("C_" ++ show very_small_cap ++ "_F")%string, eo_cap c = None & eo_loops c = [::]].
Proof. by []. Qed.
Print Assumptions C78_small_cap.

(** set_value leaves the identifier: it keeps naming the value of construction. *)
Theorem C78_stale_id_refuted k0e show eng st k a os os' i v u e z :
  ea_id a = None -> plain (show (ea_v a)) -> plain (show v) -> show (ea_v a) <> show v ->
  new_el k0e show eng st k a os = Ok (os', i) ->
  let o := (obj_set_value v u e z (nth (small_cap show) os' i)).1 in
  forall w, eo_id o <> default_id show k v w.
Proof.
move=> ni p1 p2 ne M o w.
case E: (Elements.construct eng st k (ea_v a) (ea_u a) (ea_req a) (ea_err a) (ea_z a)) => [x|er]; last first.
  by move: M; rewrite (proj2 (C78_errors k0e show eng st k a os er) E).
case: (C78_object k0e show os E) => b [new [M' _ _ _ ib]].
move: M; rewrite M' => -[e1 e2].
have -> : eo_id o = eo_id b.
  rewrite /o /obj_set_value -e1 -e2; case: (Elements.set_value _ _ _ _ _) => y r /=.
  by rewrite catA nth_cat size_cat ltnn subnn.
by rewrite ib ni /= => /(C78_id _ _ _ _ p1 p2) [_ /ne].
Qed.
Print Assumptions C78_stale_id_refuted.

Lemma no_std (m : R) : ~ Rlt (Rdiv (Rmult m R0) (IZR 100)) R0.
Proof. by rewrite Rmult_0_r /Rdiv Rmult_0_l; apply: Rlt_irrefl. Qed.
(** A junction of 5 GHz with the number 3 as Y and no capacitor. *)
Lemma five_GHz : exists x, Elements.construct "NumPy" ustate_init KJJ (IZR 5) (Some "GHz"%string) false R0 R0 = Ok x.
Proof.
rewrite /Elements.construct /= /Elements.set_value /= /sample /=.
case: Rlt_dec => /= [lt|_]; last by eexists.
by case: (no_std lt).
Qed.
Example C78_case (k0e : R -> R) : let show := fun _ : R => "5"%string in exists x o,
  [/\ new_el k0e show "NumPy" ustate_init KJJ
        (mkEa (IZR 5) (Some "GHz"%string) false None (AFloat (IZR 3)) R0 R0 None None R1 R1) [::]
        = Ok ([:: small_cap show; o], 1%N),
      eo_el o = x, eo_cap o = Some 0%N, eo_id o = "JJ_5_GHz"%string & call2 (eo_qual o) R1 R1 = Err TypeError].
Proof.
move=> show; case: five_GHz => x E.
case: (C78_object k0e show (a := mkEa (IZR 5) (Some "GHz"%string) false None (AFloat (IZR 3)) R0 R0 None None R1 R1) [::] E)
  => o [new [M [ex eq] [en ec _ _] _ ei]].
by exists x, o; rewrite M en ei eq.
Qed.

(** CopySession.v -- a session with a copy goes like a session with the original. *)
From Coq Require Import Reals ZArith String.
From Verif.Model Require Import Base Units Settings Elements Edge LCWB Rounding HamConst.
From Verif.Proofs Require Import RenameProofs.
From mathcomp Require Import all_ssreflect all_algebra.
From mathcomp Require Import complex.
From mathcomp Require Import zify.
From Verif.Numerics Require Import RStruct Bridge.
From Verif.Model Require Import FluxDist Transform Op Ham Diag CircuitSM Copy.
From Verif.Spec Require Import CopySpec.
From Verif.Proofs Require Import CopyProofs CopyProofs2 CopyProofs3.

Set Implicit Arguments.
Unset Strict Implicit.
Unset Printing Implicit Defensive.
Import GRing.Theory.
Local Open Scope ring_scope.
Local Open Scope complex_scope.

Lemma mem_In (T : eqType) (a : T) (l : seq T) : a \in l <-> List.In a l.
Proof.
elim: l => [//|b l IH] /=; rewrite inE; split.
  by case/orP => [/eqP ->|/IH]; [left|right].
by case=> [->|/IH ->]; rewrite ?eqxx ?orbT.
Qed.

Lemma mapE (A B : Type) (f : A -> B) l : List.map f l = [seq f i | i <- l].
Proof. by elim: l => //= a l ->. Qed.

(** ** The flux distribution *)
Definition b_num (n : nat) (sv : svd_fun) (N nl : nat) (kmat : seq (seq Z)) (cs : seq R)
    (gr : res (seq (nat -> R))) : res arr :=
  let K := rows kmat in
  let sel := kept_columns sv N n K in
  match gr with
  | Err e => Err e
  | Ok gs =>
      if nl == 0%N then Ok (fun _ _ => 0)
      else if ~~ (nl <= N)%N || ((size sel + nl)%N != N) then Err ValueError
      else
        let X := x_mat N K cs sel gs in
        if X \in unitmx then Ok (fun i j => around5 (ofM (invmx X *m i_mat N nl) i j)) else Err ValueError
  end.
Lemma b_numE n sv c :
  b_of n sv c = b_num n sv (c_bid c) (size (c_loops c)) (c_kmat c) (c_cedge c)
                      (g_rows sv n (c_lobj c) (c_loops c)).
Proof.
rewrite /b_of /flux_dist /b_num; case: g_rows => [gs|//].
by case: ifP => // _; case: ifP => // _; case: ifP.
Qed.
Lemma g_rows_sim n sv fl (lobj lobj' : nat -> lrec) ls :
  (forall l, l \in ls -> lobj' (fl l) = lobj l) ->
  g_rows sv n lobj' [seq fl l | l <- ls] = g_rows sv n lobj ls.
Proof.
elim: ls => [//|l ls IH] H /=; rewrite (H l) ?inE ?eqxx // IH // => j hj.
by apply: H; rewrite inE hj orbT.
Qed.

Definition attached (s : store) (x : circ) (l : nat) : Prop :=
  exists el, [/\ on_edge x el, inductive_el s el & l \in eloops s el].

(** ** Building from the copy's components *)
Section Build.
Variables (s s' : store) (x x' : circ) (fe fl : nat -> nat) (F : Prop).
Hypothesis K : same_circuit s x s' x' fe fl.
Hypothesis HF : F -> same_flags s x s' fe fl.
Let simC := simC fe fl (on_edge x) (in_circ s x) (attached s x) F.

Lemma OE i : on_edge x i -> in_circ s x i. Proof. by left. Qed.
Lemma refsE i : on_edge x i -> inductive_el s i = true ->
  ecap s' (fe i) = fe (ecap s i) /\ eloops s' (fe i) = List.map fl (eloops s i) /\
  in_circ s x (ecap s i) /\ forall l, List.In l (eloops s i) -> attached s x l.
Proof.
move=> hi ki; have [-> ->] := sc_refs K hi ki; split=> //; split=> //; split.
  by right; exists i.
by move=> l /mem_In hl; exists i.
Qed.
Lemma att_loop l : attached s x l -> loop_of s x l. Proof. by right. Qed.
Lemma injLE i j : attached s x i -> attached s x j -> fl i = fl j -> i = j.
Proof. by move=> /att_loop hi /att_loop; exact: sc_injL K _ _ hi. Qed.
Lemma lvalsE l : attached s x l -> lvalue s' (fl l) = lvalue s l.
Proof. by move=> /att_loop hl; have [] := sc_lvals K hl. Qed.
Lemma flagsE : F -> forall c, inP (in_circ s x) (attached s x) c ->
  creq s' (renC fe fl c) = creq s c /\ cleaf s' (renC fe fl c) = cleaf s c.
Proof. by move=> /HF H c hc; apply: H; case: c hc => //= l; right. Qed.

Lemma sim0 : simC (cst0 (c_lobj (x_c x))) (cst0 (c_lobj (x_c x'))).
Proof. by split=> //=; move=> l /att_loop hl; have [] := sc_lvals K hl. Qed.

Lemma lcwb_sim optim fd n (d : seq (edge * seq nat)) :
  (forall p, List.In p d -> forall i, i \in p.2 -> on_edge x i) -> forall c c', simC c c' ->
  let a := lcwb_run optim s fd n c d in
  let a' := lcwb_run optim s' fd n c' [seq (p.1, [seq fe i | i <- p.2]) | p <- d] in
  simC a.1 a'.1 /\ a'.2 = a.2.
Proof.
elim: d => [//|[e els] d IH] H c c' S; rewrite map_cons; cbn [lcwb_run fst snd].
have Hels el : List.In el els -> on_edge x el by move/mem_In => h; apply: (H (e, els)) => //=; left.
case: w_at_edge => [w|//]; case: matrix_rep => [m|//].
have P : match process_edge optim s fd n c (e, els), process_edge optim s' fd n c' (e, [seq fe i | i <- els]) return Prop with
  | Ok c1, Ok c1' => simC c1 c1' | Err z, Err z' => z = z' | _, _ => False end.
  have := (process_edge_sim _ _ _ _ _ _ _ _ OE (sc_vals K) refsE lvalsE (sc_injE K) injLE flagsE optim fd n e _ _ _ Hels S).
  by rewrite mapE.
move: P; case E: process_edge => [c1|z]; case E': process_edge => [c1'|z'] //.
  by move=> S1; apply: (IH _ _ _ S1) => p hp; apply: H; right.
move=> ->; split=> //; rewrite -mapE.
exact: (process_els_sim _ _ _ _ _ _ _ _ OE (sc_vals K) refsE lvalsE (sc_injE K) injLE flagsE).
Qed.

Lemma b_of_sim n sv c c' : simC c c' -> b_of n sv c' = b_of n sv c.
Proof.
case=> q1 q2 q3 _ _ _ _ _ _ [b1 _ b3 b4 _ _ _ _]; rewrite !b_numE b1 b3 b4 q1.
rewrite -/(map fl _) size_map; congr b_num; apply: g_rows_sim => l /mem_In hl.
by apply: q3; apply: q2.
Qed.
End Build.


(** ** update *)
Lemma same_put s x s' x' fe fl c c' Cm B st (F : Prop) :
  same_circuit s x s' x' fe fl -> RenameProofs.simC fe fl (on_edge x) (in_circ s x) (attached s x) F c c' -> F ->
  let y := put_build x c Cm B st in let y' := put_build x' c' Cm B st in
  [/\ same_circuit s y s' y' fe fl, closed s y & forall l, loop_of s y l -> loop_of s x l].
Proof.
move=> K S F0 y y'; case: S => q1 q2 q3 [q4 q4'] q5 q6 q7 q8 q9 [_ _ _ _ _ bL bW bn].
have lo l : loop_of s y l -> attached s x l by case=> [/mem_In /q2|].
have lo' l : loop_of s y l -> loop_of s x l by move/lo; right.
split=> //; first split=> /=.
- exact: sc_dict K.
- exact: sc_vals K.
- exact: sc_refs K.
- by rewrite q1 mapE.
- by move=> l hl; have [e1 _] := sc_lvals K (lo' l hl); rewrite e1 q3 //; apply: lo.
- by rewrite q5 mapE.
- by rewrite q7 mapE.
- by rewrite (q4' F0) mapE -map_comp; apply/eq_map => p.
- exact: q9.
- by case: (sc_num K) => f1 f2 f3 f4 f5 f6 f7 f8 f9 f0; split=> //=.
- exact: sc_ops K.
- exact: sc_dic K.
- exact: sc_injE K.
- by move=> i j /lo' hi /lo' hj; exact: sc_injL K _ _ hi hj.
split=> //= p hp; have := q4 p hp; case: (p.1) => //= l hl; by right.
Qed.

(** What does not touch the components. *)
Lemma same_mem s x s' x' fe fl M M' LC : same_circuit s x s' x' fe fl -> same_ops M M' ->
  (forall i b, on_edge x i ->
    [/\ M_cos M' (fe i) b = M_cos M i b, M_sin M' (fe i) b = M_sin M i b,
        M_half M' (fe i) b = M_half M i b & M_ind M' (fe i) b = M_ind M i b]) ->
  same_circuit s (put_mem x M LC) s' (put_mem x' M' LC) fe fl.
Proof.
case=> a1 a2 a3 a4 a5 a6 a7 a8 a9 [b1 b2 b3 b4 b5 b6 b7 b8 b9 b0] c1 c2 c3 c4 O D.
by split=> //; split.
Qed.
Lemma same_m s x s' x' fe fl m : same_circuit s x s' x' fe fl ->
  same_circuit s (put_m x m) s' (put_m x' m) fe fl.
Proof.
case=> a1 a2 a3 a4 a5 a6 a7 a8 a9 [b1 b2 b3 b4 b5 b6 b7 b8 b9 b0] c1 c2 c3 c4.
by split=> //; split.
Qed.
Lemma same_isl s x s' x' fe fl l : same_circuit s x s' x' fe fl ->
  same_circuit s (put_isl x l) s' (put_isl x' l) fe fl.
Proof.
case=> a1 a2 a3 a4 a5 a6 a7 a8 a9 [b1 b2 b3 b4 b5 b6 b7 b8 b9 b0] c1 c2 c3 c4.
by split=> //; split.
Qed.

Lemma same_mem_err x x' : same_numbers x x' -> mem_err x' = mem_err x.
Proof. by case=> _ _ _ est eis em _ _ _ _; rewrite /mem_err /x_n /isl est eis em. Qed.

Lemma same_ops_build s x s' x' fe fl : same_circuit s x s' x' fe fl ->
  same_circuit s (build_ops x) s' (build_ops x') fe fl.
Proof.
move=> K; have N := sc_num K; rewrite /build_ops (same_hof N) /x_n (n_st N).
apply: same_mem => //; first by case: (sc_ops K) => *; split.
by move=> i b hi; exact: (sc_dic K b hi).
Qed.
Lemma same_exp_build disp s x s' x' fe fl : same_circuit s x s' x' fe fl ->
  same_circuit s (build_exp disp x) s' (build_exp disp x') fe fl.
Proof.
move=> K; have N := sc_num K; rewrite /build_exp (same_hof N) (n_st N) (n_LC N).
apply: same_mem => //; first by case: (sc_ops K) => *; split.
by move=> i b hi; exact: (sc_dic K b hi).
Qed.

Section Sessions.
Variable disp : nat -> C -> op.
Variable optim : bool.

(** [None], or the same exception and circuits that agree. *)
Definition same_upd s x s' fe fl (r r' : option (circ * option exn)) : Prop :=
  match r, r' with
  | None, None => True
  | Some (y, z), Some (y', z') => [/\ same_circuit s y s' y' fe fl, closed s y, z' = z & forall l, loop_of s y l -> loop_of s x l]
  | _, _ => False
  end.

Lemma update_sim o s x s' x' fe fl : same_circuit s x s' x' fe fl -> same_flags s x s' fe fl ->
  same_upd s x s' fe fl (update disp optim o s x) (update disp optim o s' x').
Proof.
move=> K F; have N := sc_num K.
rewrite /update (n_fd N) /x_n (n_st N) (sc_dict K).
have H : forall p, List.In p (x_dict x) -> forall i, i \in p.2 -> on_edge x i by move=> p hp i hi; exists p.
have := lcwb_sim K (fun=> F) optim (x_fd x) (Z.of_nat (t_n (x_st x))) H (sim0 True K).
set a := lcwb_run _ _ _ _ _ _; set a' := lcwb_run _ _ _ _ _ _.
case: a => c r; case: a' => c' r' /= [S ->].
case: r => [z|]; first by rewrite (n_C N) (n_B N); have [] := same_put (x_C x) (x_B x) (x_st x) K S I.
rewrite (b_of_sim _ _ S); case: b_of => [B|z]; last first.
  by rewrite (n_C N) (n_B N); have [] := same_put (x_C x) (x_B x) (x_st x) K S I.
have [bC bL bW bn] : [/\ c_C c' = c_C c, c_L c' = c_L c, c_W c' = c_W c & c_njwi c' = c_njwi c].
  by case: S => _ _ _ _ _ _ _ _ _ [].
rewrite bC bL bW bn; case: t_init => [st0|z]; last first.
  by rewrite /st_eye bW bn; have [] := same_put (c_C c) B (st_eye (x_st x) c) K S I.
case: transform_run => [[st [z|]]|] //; first by have [] := same_put (c_C c) B st K S I.
have [K1 C1 L1] := same_put (c_C c) B st K S I.
set y := put_mem _ _ _; set y' := put_mem _ _ _.
have K2 : same_circuit s y s' y' fe fl by rewrite /y /y' (n_LC N); apply: same_mem.
have C2 : closed s y by case: C1 => *; split.
rewrite (same_mem_err (sc_num K2)); case: mem_err => [z|]; first by split.
split=> //; last by case: C2 => *; split.
by apply: put_eig_same; apply: same_exp_build; apply: same_ops_build.
Qed.

(** ** hamiltonian *)
Definition same_dicts x fe (M M' : mems) : Prop := same_ops M M' /\
  forall i b, on_edge x i ->
    [/\ M_cos M' (fe i) b = M_cos M i b, M_sin M' (fe i) b = M_sin M i b,
        M_half M' (fe i) b = M_half M i b & M_ind M' (fe i) b = M_ind M i b].

Lemma dict_put_sim (P : nat -> Prop) (fe : nat -> nat) f f' el b A i b' :
  (forall i j, P i -> P j -> fe i = fe j -> i = j) -> P el -> P i ->
  f' (fe i) b' = f i b' -> dict_put f' (fe el) b A (fe i) b' = dict_put f el b A i b'.
Proof.
move=> inj he hi E; rewrite /dict_put E; case: (altP (i =P el)) => [->|ne]; first by rewrite eqxx.
by case: (altP (fe i =P fe el)) => [/(inj _ _ hi he) Ei|//]; rewrite Ei eqxx in ne.
Qed.

Lemma hamil_sim s x s' x' fe fl : same_circuit s x s' x' fe fl -> closed s x ->
  same_circuit s (hamil s x).1 s' (hamil s' x').1 fe fl /\ (hamil s' x').2 = (hamil s x).2.
Proof.
move=> K Cl; have N := sc_num K.
have val i : on_edge x i -> evalue s' (fe i) = evalue s i.
  by move=> hi; have [_ ->] := sc_vals K (or_introl hi : in_circ s x i).
have inj i j : on_edge x i -> on_edge x j -> fe i = fe j -> i = j.
  by move=> hi hj; exact: sc_injE K _ _ (or_introl hi) (or_introl hj).
have EL : loop_vals s' x' = loop_vals s x.
  rewrite /loop_vals (sc_loops K) -map_comp; apply/eq_in_map => l hl /=.
  by have [-> _] := sc_lvals K (or_introl hl : loop_of s x l).
have step1 (L : seq R) ks : (forall k, List.In k ks -> on_edge x k.1.2) -> forall M M' r, same_dicts x fe M M' ->
  same_dicts x fe (foldl (ind_step s L x) (M, r) ks).1
     (foldl (ind_step s' L x') (M', r) [seq (k.1.1, fe k.1.2, k.2) | k <- ks]).1 /\
  (foldl (ind_step s' L x') (M', r) [seq (k.1.1, fe k.1.2, k.2) | k <- ks]).2 =
  (foldl (ind_step s L x) (M, r) ks).2.
  elim: ks => [//|[[e el] b] ks IH] H M M' r [O D] /=.
  have hel : on_edge x el by apply: (H (e, el, b)); left.
  have H' k : List.In k ks -> on_edge x k.1.2 by move=> hk; apply: H; right.
  case: r => [h|z]; last by apply: IH.
  have -> : coupling_mem x' M' e = coupling_mem x M e.
    by rewrite /coupling_mem (same_hof N) /x_n (n_st N) (o_phi O).
  case: (coupling_mem x M e) => [A|z]; last by apply: IH.
  rewrite val // (n_B N); apply: IH => //; split=> [|i b' hi]; first by case: O => *; split.
  by have [d1 d2 d3 d4] := D i b' hi; split=> //=; apply: dict_put_sim inj _ _ _.
have step2 (L : seq R) ks : (forall k, List.In k ks -> on_edge x k.1.1.2) -> forall M M' r, same_dicts x fe M M' ->
  same_dicts x fe (foldl (jj_step s L x) (M, r) ks).1
     (foldl (jj_step s' L x') (M', r) [seq (k.1.1.1, fe k.1.1.2, k.1.2, k.2) | k <- ks]).1 /\
  (foldl (jj_step s' L x') (M', r) [seq (k.1.1.1, fe k.1.1.2, k.1.2, k.2) | k <- ks]).2 =
  (foldl (jj_step s L x) (M, r) ks).2.
  elim: ks => [//|[[[e el] b] w] ks IH] H M M' r [O D] /=.
  have hel : on_edge x el by apply: (H (e, el, b, w)); left.
  have H' k : List.In k ks -> on_edge x k.1.1.2 by move=> hk; apply: H; right.
  case: r => [h|z]; last by apply: IH.
  rewrite (o_exp O) (o_root O); case: ifP => _; first by apply: IH.
  rewrite val // (n_B N); apply: IH => //; split=> [|i b' hi]; first by case: O => *; split.
  by have [d1 d2 d3 d4] := D i b' hi; split=> //=; apply: dict_put_sim inj _ _ _.
rewrite /hamil (n_m N); case: ifP => // _.
rewrite -/(loop_vals s x) -/(loop_vals s' x') EL (sc_ind K) (sc_jj K).
have D0 : same_dicts x fe (x_mem x) (x_mem x') by split; [exact: sc_ops K|exact: sc_dic K].
have [] := step1 (loop_vals s x) (c_keys_ind (x_c x)) (cl_ind Cl) _ _ (Ok None) D0.
case: (foldl _ _ (c_keys_ind _)) => M r; case: (foldl _ _ [seq _ | _ <- _]) => M' r' /= D1 ->.
have [] := step2 (loop_vals s x) (c_keys_jj (x_c x)) (cl_jj Cl) _ _ r D1.
case: (foldl _ _ (c_keys_jj _)) => M1 r1; case: (foldl _ _ [seq _ | _ <- _]) => M1' r1' /= [O2 D2] ->.
by rewrite (n_LC N); split=> //; apply: same_mem.
Qed.

(** ** Sessions *)
Lemma update_frame o s x y z : update disp optim o s x = Some (y, z) ->
  x_dict y = x_dict x /\ x_eig y = if z is Some _ then x_eig x else mkE [::] [::].
Proof.
rewrite /update; case: lcwb_run => c [e|]; first by case=> <- <-.
case: b_of => [B|e]; last by case=> <- <-.
case: t_init => [st0|e]; last by case=> <- <-.
case: transform_run => [[st [e|]]|] //; first by case=> <- <-.
by case: mem_err => [e|] [<- <-].
Qed.

Lemma twins_x s u x s' u' x' y y' fe fl : twins (mkW s u x) (mkW s' u' x') fe fl ->
  same_circuit s y s' y' fe fl -> closed s y -> x_dict y = x_dict x ->
  (forall l, loop_of s y l -> loop_of s x l) -> x_eig y' = x_eig y ->
  twins (mkW s u y) (mkW s' u' y') fe fl.
Proof.
case=> /= _ F _ _ U K Cl D L E; split=> //= c hc; apply: F; move: hc.
by case: c => [i|l] /=; [rewrite /in_circ /on_edge D|exact: L].
Qed.

Lemma reached_in s x c : reached s x c -> in_comp s x c.
Proof. by case: c => //= l; right. Qed.

Lemma comp_put_twins s u x s' u' x' fe fl c v : twins (mkW s u x) (mkW s' u' x') fe fl ->
  in_comp s x c -> twins (mkW (comp_put s c v) u x) (mkW (comp_put s' (ren fe fl c) v) u' x') fe fl.
Proof.
case=> /= K F Cl E U hc.
have kind : forall s0 c0, [/\ ekind (comp_put s0 c0 v) = ekind s0, ecap (comp_put s0 c0 v) = ecap s0 &
                            eloops (comp_put s0 c0 v) = eloops s0] by move=> s0 [].
have [k1 k2 k3] := kind s c; have [k1' k2' k3'] := kind s' (ren fe fl c).
have ind s0 c0 i : inductive_el (comp_put s0 c0 v) i = inductive_el s0 i.
  by rewrite /inductive_el; have [-> _ _] := kind s0 c0.
have circ i : in_circ (comp_put s c v) x i <-> in_circ s x i.
  rewrite /in_circ k2; split=> -[|[el [h1 h2 h3]]]; try by left.
    by right; exists el; split=> //; rewrite -(ind s c).
  by right; exists el; split=> //; rewrite ind.
have lo l : loop_of (comp_put s c v) x l <-> loop_of s x l.
  rewrite /loop_of k3; split=> -[|[el [h1 h2 h3]]]; try by left.
    by right; exists el; split=> //; rewrite -(ind s c).
  by right; exists el; split=> //; rewrite ind.
have cin c0 : in_comp (comp_put s c v) x c0 <-> in_comp s x c0 by case: c0.
have hitE i j : in_circ s x i -> in_circ s x j -> (fe j == fe i) = (j == i).
  by move=> hi hj; apply/eqP/eqP => [/(sc_injE K hj hi)|->].
have hitL i j : loop_of s x i -> loop_of s x j -> (fl j == fl i) = (j == i).
  by move=> hi hj; apply/eqP/eqP => [/(sc_injL K hj hi)|->].
split=> //=.
- case: K => a1 a2 a3 a4 a5 a6 a7 a8 a9 b1 b2 b3 b4 b5; split=> //.
  + move=> i /circ hi; have [e1 e2] := a2 i hi; rewrite k1 k1'; split=> //.
    by case: c hc {kind k1 k2 k3 k1' k2' k3' ind circ lo cin} => [j|j] hc //=; rewrite hitE // e2.
  + by move=> i hi; rewrite ind k2 k2' k3 k3' => ki; apply: a3.
  + move=> l /lo hl; have [e1 e2] := a5 l hl; split=> //.
    by case: c hc {kind k1 k2 k3 k1' k2' k3' ind circ lo cin} => [j|j] hc //=; rewrite hitL // e1.
  + by move=> i /circ; exact: a9.
  + by move=> i j /circ hi /circ hj; exact: b4.
  + by move=> i j /lo hi /lo hj; exact: b5.
- move=> c0 /cin h0; have [e1 e2] := F c0 h0.
  case: c hc {kind k1 k2 k3 k1' k2' k3' ind circ lo cin} => [j|j] hc; case: c0 h0 e1 e2 => [i|i] h0 //= e1 e2.
    by rewrite hitE //; case: ifP.
  by rewrite hitL //; case: ifP.
- by case: Cl => c1 c2 c3; split=> // p hp; apply/cin; exact: c3.
Qed.

Lemma comp_put_in s c v x c0 : in_comp (comp_put s c v) x c0 <-> in_comp s x c0.
Proof.
by case: c => j; case: c0.
Qed.
Lemma comp_put_reached s c v x c0 : reached (comp_put s c v) x c0 <-> reached s x c0.
Proof. by case: c => j; case: c0. Qed.

Lemma assign_twins ks vs : forall s u x s' u' x' fe fl, twins (mkW s u x) (mkW s' u' x') fe fl ->
  (forall c, List.In c ks -> in_comp s x c) ->
  let a := assign ks vs s in let a' := assign [seq ren fe fl c | c <- ks] vs s' in
  [/\ twins (mkW a.1 u x) (mkW a'.1 u' x') fe fl, a'.2 = a.2 & forall c, reached s x c -> reached a.1 x c].
Proof.
elim: ks vs => [|c ks IH] [|v vs] s u x s' u' x' fe fl T H //=.
have T1 := comp_put_twins v T (H c (or_introl erefl)).
have H1 : forall c0, List.In c0 ks -> in_comp (comp_put s c v) x c0.
  by move=> c0 h0; apply/comp_put_in; apply: H; right.
have [T2 E2 R2] := IH vs _ _ _ _ _ _ _ _ T1 H1; split=> // c0 /(comp_put_reached s c v x c0) h0.
exact: R2.
Qed.

Definition same_step (w : world) fe fl (a a' : option (world * res unit)) : Prop :=
  match a, a' with
  | None, None => True
  | Some (w1, r), Some (w1', r') =>
      [/\ r' = r, twins w1 w1' fe fl & forall c, reached (w_s w) (w_x w) c -> reached (w_s w1) (w_x w1) c]
  | _, _ => False
  end.

Lemma reached_dict s x y c : x_dict y = x_dict x -> reached s x c -> reached s y c.
Proof. by move=> D; case: c => /= [i|l]; rewrite /in_circ /on_edge D. Qed.

Lemma update_twins o s u x s' u' x' fe fl : twins (mkW s u x) (mkW s' u' x') fe fl ->
  match update disp optim o s x, update disp optim o s' x' return Prop with
  | None, None => True
  | Some (y, z), Some (y', z') =>
      [/\ twins (mkW s u y) (mkW s' u' y') fe fl, z' = z & x_dict y = x_dict x]
  | _, _ => False
  end.
Proof.
move=> T; have := T => -[/= K F Cl E U].
have := update_sim o K F; rewrite /same_upd.
case A: update => [[y z]|]; case B: update => [[y' z']|] // [K1 C1 ez L1].
have [D1 E1] := update_frame A; have [_ E2] := update_frame B.
by split=> //; apply: (twins_x T) => //; rewrite E1 E2 ez; case: (z).
Qed.

Lemma step_twins w w' fe fl k : twins w w' fe fl -> call_in (w_s w) (w_x w) k ->
  same_step w fe fl (step disp optim w k) (step disp optim w' (ren_call fe fl k)).
Proof.
case: w => s u x; case: w' => s' u' x' T hk; have := T => -[/= K F Cl E U]; subst u'.
have N := sc_num K; have cl y : x_dict y = x_dict x -> x_c y = x_c x -> closed s y.
  move=> D Ec; case: Cl => c1 c2 c3; split; rewrite Ec /on_edge ?D //.
  move=> p hp; have := c3 p hp; case: (p.1) => [i|l] /=; first by rewrite /in_circ /on_edge D.
  by rewrite /loop_of /on_edge D Ec.
have go y y' r : same_circuit s y s' y' fe fl -> x_dict y = x_dict x -> x_c y = x_c x ->
  x_eig y' = x_eig y ->
  same_step (mkW s u x) fe fl (Some (mkW s u y, r)) (Some (mkW s' u y', r)).
  move=> Ky D Ec Ee; split=> // [|c]; last exact: reached_dict.
  by apply: (twins_x T) => //; [exact: cl|move=> l; rewrite /loop_of /on_edge D Ec].
case: k hk => [nums|m v|m v|c v|u0|vs o|o||eigs ar k|r] hk; rewrite /step /ren_call /=.
- rewrite /set_trunc; case: nums hk => [l|] _; last by apply: go.
  rewrite /x_n (n_st N); case: ifP => _; first by apply: go.
  set m1 := [seq _ | _ <- _]; have K1 := same_m m1 K.
  rewrite (same_mem_err (sc_num K1)); case: mem_err => [z|]; first by apply: go.
  by apply: go => //; apply: same_exp_build; apply: same_ops_build.
- rewrite /set_offset; have -> : island_of m x' = island_of m x by rewrite /island_of /isl (n_isl N).
  case: island_of => [i|]; last by apply: go.
  rewrite (n_m N) /island_set /isl (n_isl N); set l := set_nth _ _ _ _.
  have K1 := same_isl l K; case: ifP => _; first by apply: go.
  rewrite (same_mem_err (sc_num K1)); case: mem_err => [z|]; first by apply: go.
  by apply: go => //; apply: same_ops_build.
- rewrite /set_charge_noise; have -> : island_of m x' = island_of m x by rewrite /island_of /isl (n_isl N).
  case: island_of => [i|]; last by apply: go.
  case: charge_method => [f|]; last by apply: go.
  by rewrite /island_set /isl (n_isl N); apply: go => //; apply: same_isl.
- by split=> // [|c0 /(comp_put_reached s c v x)] //; apply: comp_put_twins => //; apply: reached_in.
- by split=> //; case: T => *; split.
- rewrite /set_params; case: ifP => _; first by apply: go.
  rewrite /= (sc_par K) (map_comp (ren fe fl) fst).
  have H c : List.In c [seq p.1 | p <- c_params (x_c x)] -> in_comp s x c.
    by rewrite -mapE => /List.in_map_iff [p [<- hp]]; exact: (cl_par Cl hp).
  have := assign_twins vs T H; set a := assign _ _ s; set a' := assign _ _ s'.
  case: a => s1 r1; case: a' => s1' r1' /= [T1 -> R1]; case: r1 => [z|]; first by [].
  have := update_twins o T1; case: update => [[y z]|]; case: update => [[y' z']|] // [T2 -> D].
  by split=> // c /R1; apply: reached_dict.
- have := update_twins o T; case: update => [[y z]|]; case: update => [[y' z']|] // [T2 -> D].
  by split=> // c; apply: reached_dict.
- have [K1 E1] := hamil_sim K Cl; move: K1 E1.
  have hf : forall s0 x0, [/\ x_dict (hamil s0 x0).1 = x_dict x0, x_c (hamil s0 x0).1 = x_c x0 &
                         x_eig (hamil s0 x0).1 = x_eig x0].
    by move=> s0 x0; rewrite /hamil; case: ifP => // _; case: foldl => M r.
  have := hf s x; have := hf s' x'.
  case: hamil => y r; case: hamil => y' r' /= [_ _ e1] [d2 c2 e2] K1 ->.
  by apply: go => //; rewrite e1 e2.
- rewrite /diag_sm (n_m N); case: ifP => _; first by apply: go.
  case: k hk => [k|] hk; last by apply: go.
  have [K1 E1] := hamil_sim K Cl; move: K1 E1.
  have hf : forall s0 x0, [/\ x_dict (hamil s0 x0).1 = x_dict x0, x_c (hamil s0 x0).1 = x_c x0 &
                         x_eig (hamil s0 x0).1 = x_eig x0].
    by move=> s0 x0; rewrite /hamil; case: ifP => // _; case: foldl => M r.
  have := hf s x; have := hf s' x'.
  case: hamil => y r; case: hamil => y' r'; cbn [fst snd] => -[_ _ e1] [d2 c2 e2] K1 ->.
  rewrite E; case: (diag eigs ar u true r' (Some k) (x_eig x)) => e r0.
  by apply: go => //; apply: put_eig_same.
- by rewrite E; apply: go.
Qed.

Theorem run_twins ks : forall w w' fe fl, twins w w' fe fl ->
  (forall k, List.In k ks -> call_in (w_s w) (w_x w) k) ->
  match run disp optim w ks, run disp optim w' [seq ren_call fe fl k | k <- ks] return Prop with
  | None, None => True
  | Some tr, Some tr' => [seq p.2 | p <- tr'] = [seq p.2 | p <- tr] /\
      twins (final w tr) (final w' tr') fe fl
  | _, _ => False
  end.
Proof.
elim: ks => [|k ks IH] w w' fe fl T H //=.
have := step_twins T (H k (or_introl erefl)); rewrite /same_step.
case: step => [[w1 r]|]; case: step => [[w1' r']|] // [-> T1 R1].
have H1 k0 : List.In k0 ks -> call_in (w_s w1) (w_x w1) k0.
  move=> h0; have := H k0 (or_intror h0); case: (k0) => //= c _; exact: R1.
have := IH w1 w1' fe fl T1 H1; case: run => [tr|]; case: run => [tr'|] //= [-> T2].
by [].
Qed.
End Sessions.

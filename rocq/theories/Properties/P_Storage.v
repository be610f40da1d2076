(** P_Storage.v -- C91: the data a sweep leaves, plotted, saved and loaded. *)
From Coq Require Import Reals ZArith String Lia.
From Verif.Model Require Import Base Units Noise Edge Elements LCWB.
From mathcomp Require Import all_ssreflect all_algebra.
From Verif.Numerics Require Import RStruct Bridge.
From Verif.Model Require Import Op Diag CircuitSM DecRate Copy Sweep Storage.
From Verif.Spec Require Import CopySpec SweepSpec StorageSpec.
From Verif.Proofs Require Import CopyProofs CopyProofs2 CopySession CopyProofs4 SMProofs CopyCase SweepProofs StorageProofs.
From Verif.Properties Require Import P_Copy P_Sweep.

Set Implicit Arguments.
Unset Strict Implicit.
Unset Printing Implicit Defensive.
Import GRing.Theory.
Local Open Scope ring_scope.

(** plot shows a figure exactly when there is a table of at most two dimensions
    and no curve is asked for, or its rows suffice and its columns are as many as
    the values of the first axis. *)
Theorem C91_plot d t : (exists fig, plot d t = inl fig) <->
  exists A k, [/\ d_efreq d = Some A, d_num d = Some k, (size (nd_shape A) <= 2)%N
    & Z.le k 0 \/ exists g gs r c, [/\ d_grid d = Some (g :: gs), nd_shape A = [:: r; c], Z.le k (Z.of_nat r) & size g = c]].
Proof. exact: plot_iff. Qed.
Print Assumptions C91_plot.

(** The figure: the levels above the lowest over the values of the first axis. *)
Theorem C91_draws d t fig A k g gs : plot d t = inl fig -> d_efreq d = Some A -> d_num d = Some k ->
  d_grid d = Some (g :: gs) -> draws fig g (Z.to_nat k) (fun i j => nd_at A [:: i; j]) /\
  f_xlabel fig = (if String.eqb t "flux" then Some "$\Phi_{ext}/\Phi_0$"%string
                  else if String.eqb t "charge" then Some "$n_g$"%string else None).
Proof.
by move=> E EA Ek Eg; split; [exact: plot_draws E EA Ek Eg | have [] := plot_label E].
Qed.
Print Assumptions C91_draws.

(** ** The end of a sweep *)
Section Sweeps.
Variables (writable : string -> bool) (eigs : nat -> eigs_fun) (argsort : nat -> seq C -> seq nat).
Variables (E : env) (q : quality).
Let call := sweep_call writable eigs argsort E q.

(** The setters a sweep uses. *)
Definition setters (ps : params) : seq setter :=
  match ps with
  | NoParams => [::]
  | Loops ls => [seq flux_setter l | l <- ls]
  | Modes ms => [seq charge_setter l | l <- ms]
  end.
Definition kind_of (ps : params) : string := (if ps is Modes _ then "charge" else "flux")%string.
(** The world a sweep starts from. *)
Definition start (m : machine) (ob : cobj) : world := mkW (hp_s (mc_hp m)) (mc_u m) (ob_x ob).
Definition named (f : option string) : option string :=
  if f is Some p then if String.eqb p "" then None else Some p else None.

Section Object.
Variables (d : data) (ob : cobj) (k : Z) (m : machine) (ps : params) (grid : seq (seq R)).
Hypothesis (Ec : d_cr d = Some ob) (Ek : d_num d = Some k).
Let tab := sweep eigs argsort E q (d_loss d) k (setters ps) grid (start m ob).

Lemma tabE : match ps with
               | Modes ms => sweep_charge eigs argsort E q (d_loss d) k ms grid (start m ob)
               | Loops ls => sweep_flux eigs argsort E q (d_loss d) k ls grid (start m ob)
               | NoParams => sweep_flux eigs argsort E q (d_loss d) k [::] grid (start m ob)
               end = tab.
Proof. by rewrite /tab; case: (ps). Qed.

(** The object after the loop. *)
Definition after : data :=
  let x1 := w_x (sw_w tab.1) in
  mkData (Some (if ps is Modes _ then "sweepCharge" else "sweepFlux")%string)
    (Some (mkOb x1 (ob_mem ob) (ob_LC ob) (ob_descr ob) (ob_full ob))) ps (Some grid) (Some (sw_f tab.1))
    (if d_loss d then Tables (sw_d tab.1) else d_dec d) (d_num d) (d_loss d).
Definition after_m : machine :=
  mkMc (mkHp (w_s (sw_w tab.1)) (hp_e (mc_hp m)) (hp_l (mc_hp m))) (mc_u m) (mc_files m) (mc_figs m).

Lemma callE toFile plotF : tab.2 = Ok tt ->
  call ps grid toFile plotF d m =
  match (if plotF then match plot after (kind_of ps) with inl fig => inl [:: fig] | inr e => inr e end else inl [::]) with
  | inr e => (after_m, after, inr e)
  | inl figs =>
      let m2 := mkMc (mc_hp after_m) (mc_u m) (mc_files m) (mc_figs m ++ figs) in
      match named toFile with
      | Some p => let (m3, r) := save writable p after m2 in (m3, after, if r is inr e then inr e else inl None)
      | None => (m2, after, inl (Some (sw_f tab.1, d_dec after)))
      end
  end.
Proof.
move=> ok; have k0 : Z.ltb k 0 = false by move: ok; rewrite /tab /sweep; case: Z.ltb.
by rewrite /call /sweep_call /after Ec Ek k0 -/(start m ob) tabE ok.
Qed.
Lemma call_err toFile plotF e : tab.2 = Err e -> let a := call ps grid toFile plotF d m in
  [/\ a.2 = inr (Py e), mc_files a.1.1 = mc_files m & mc_figs a.1.1 = mc_figs m].
Proof.
move=> er; rewrite /call /sweep_call Ec Ek; case: Z.ltb_spec => [k0|k0].
  by move: er; rewrite /tab /sweep; case: Z.ltb_spec => // [_ [<-]|/Z.le_ngt].
by rewrite -/(start m ob) tabE er.
Qed.
Lemma call_raises toFile plotF r : (call ps grid toFile plotF d m).2 = inl r -> tab.2 = Ok tt.
Proof. by case Et: tab.2 => [[]|e] //; have [-> _ _] := call_err toFile plotF Et. Qed.
End Object.

(** A sweep over one axis shows its figure without fail, and otherwise ends as the
    sweep without it; the figure has the frequencies of the grid values, each set
    by itself. *)
Lemma line_figure d ob k m ps grid p pr g : d_cr d = Some ob -> d_num d = Some k ->
  setters ps = p :: pr -> grid = [:: g] -> forgets p -> forall toFile,
  let a := call ps grid toFile true d m in
  a.2 = (call ps grid toFile false d m).2 /\
  forall r, a.2 = inl r -> exists fig f,
    [/\ mc_figs a.1.1 = rcons (mc_figs m) fig, draws fig g (Z.to_nat k) f,
        f_xlabel fig = Some (if ps is Modes _ then "$n_g$" else "$\Phi_{ext}/\Phi_0$")%string &
        forall j, (j < size g)%N -> exists wi fr,
          diag_at (eigs j) (argsort j) k p (nth 0 g j) (start m ob) wi fr /\
          forall i, (i < Z.to_nat k)%N -> f i j = nth 0 fr i].
Proof.
move=> Ec Ek Ep -> fp toFile a.
set t := sweep eigs argsort E q (d_loss d) k (setters ps) [:: g] (start m ob).
have [_ J] := @sweep_line eigs argsort E q (d_loss d) k p pr g (start m ob) fp.
case Et: t.2 => [[]|e]; last first.
  have [e1 _ _] := call_err (ps := ps) Ec Ek toFile true Et.
  have [e2 _ _] := call_err (ps := ps) Ec Ek toFile false Et.
  by rewrite /a e1 e2.
have tE : sweep eigs argsort E q (d_loss d) k (p :: pr) [:: g] (start m ob) = t by rewrite /t Ep.
rewrite tE in J; have [sh [_ C]] := J Et.
set A := after d ob k m ps [:: g].
have k0 : Z.le 0 k by move: Et; rewrite /t /sweep; case: Z.ltb_spec.
have [fig F] : exists fig, plot A (kind_of ps) = inl fig.
  apply/plot_iff; exists (sw_f t.1), k; split=> //; first by rewrite sh.
  by right; exists g, [::], (Z.to_nat k), (size g); split=> //; lia.
have D := plot_draws F (erefl : d_efreq A = Some (sw_f t.1)) Ek erefl.
have Fg : mc_figs a.1.1 = rcons (mc_figs m) fig.
  rewrite /a (callE Ec Ek _ _ Et) -/A F cats1; case: named => // f.
  by rewrite /save; case: (writable f).
split.
  rewrite /a !(callE Ec Ek _ _ Et) -/A F; case: named => // f.
  by rewrite /save; case: (writable f).
move=> r _; exists fig, (fun i j => nd_at (sw_f t.1) [:: i; j]); split=> //.
  by have [-> _] := plot_label F; rewrite /kind_of; case: (ps).
move=> j hj; have [wi [fr [h1 h2 h3 _ _]]] := C j hj; by exists wi, fr.
Qed.

Theorem C91_flux_figure d ob k m l ls g toFile : d_cr d = Some ob -> d_num d = Some k ->
  let a := call (Loops (l :: ls)) [:: g] toFile true d m in
  a.2 = (call (Loops (l :: ls)) [:: g] toFile false d m).2 /\
  forall r, a.2 = inl r -> exists fig f,
    [/\ mc_figs a.1.1 = rcons (mc_figs m) fig, draws fig g (Z.to_nat k) f,
        f_xlabel fig = Some "$\Phi_{ext}/\Phi_0$"%string &
        forall j, (j < size g)%N -> exists wi fr,
          diag_at (eigs j) (argsort j) k (flux_setter l) (nth 0 g j) (start m ob) wi fr /\
          forall i, (i < Z.to_nat k)%N -> f i j = nth 0 fr i].
Proof. by move=> Ec Ek; apply: (line_figure m (ps := Loops (l :: ls)) Ec Ek erefl erefl); exact: flux_forgets. Qed.

Theorem C91_charge_figure d ob k m i0 ms g toFile : d_cr d = Some ob -> d_num d = Some k ->
  let a := call (Modes (i0 :: ms)) [:: g] toFile true d m in
  a.2 = (call (Modes (i0 :: ms)) [:: g] toFile false d m).2 /\
  forall r, a.2 = inl r -> exists fig f,
    [/\ mc_figs a.1.1 = rcons (mc_figs m) fig, draws fig g (Z.to_nat k) f,
        f_xlabel fig = Some "$n_g$"%string &
        forall j, (j < size g)%N -> exists wi fr,
          diag_at (eigs j) (argsort j) k (charge_setter i0) (nth 0 g j) (start m ob) wi fr /\
          forall i, (i < Z.to_nat k)%N -> f i j = nth 0 fr i].
Proof. by move=> Ec Ek; apply: (line_figure m (ps := Modes (i0 :: ms)) Ec Ek erefl erefl); exact: charge_forgets. Qed.

(** A sweep that gets past its loop without a plot returns the tables when no file
    (or the empty name) is given, and None with a file that can be written. *)
Theorem C91_returns d ob k m ps grid toFile : d_cr d = Some ob -> d_num d = Some k ->
  let t := sweep eigs argsort E q (d_loss d) k (setters ps) grid (start m ob) in
  let a := call ps grid toFile false d m in t.2 = Ok tt ->
  d_efreq a.1.2 = Some (sw_f t.1) /\
  match named toFile return Prop with
  | None => a.2 = inl (Some (sw_f t.1, d_dec a.1.2)) /\ mc_files a.1.1 = mc_files m
  | Some p => if writable p then a.2 = inl None /\ mc_files a.1.1 p <> None
              else a.2 = inr FileError /\ mc_files a.1.1 = mc_files m
  end.
Proof.
move=> Ec Ek t a Et; rewrite /a (callE Ec Ek _ _ Et); case: named => [p|] //.
rewrite /save; case: (writable p) => //; split=> //; split=> //=.
by rewrite String.eqb_refl.
Qed.

(** Grids of two or more axes, none empty: nothing is plotted or saved. *)
Theorem C91_planes d ob k m ps grid toFile plotF : d_cr d = Some ob -> d_num d = Some k ->
  (forall i, sized (eigs i)) -> (1 < size grid)%N -> all (fun g => 0 < size g)%N grid ->
  let a := call ps grid toFile plotF d m in
  [/\ exists e, a.2 = inr (Py e), mc_files a.1.1 = mc_files m & mc_figs a.1.1 = mc_figs m].
Proof.
move=> Ec Ek sz g2 g0 a.
have [[e Et] _] := C56_grid argsort E q (d_loss d) k (setters ps) (start m ob) sz g2 g0.
by have [h1 h2 h3] := call_err Ec Ek toFile plotF Et; split=> //; exists e.
Qed.

(** That the plot costs nothing but time fails for a grid of two axes one of which
    is empty: the sweep without the plot saves its file, with it NotImplementedError
    comes before the file is written. *)
Theorem C91_unsaved_refuted d ob k m ps g p : d_cr d = Some ob -> d_num d = Some k -> Z.le 0 k ->
  p <> ""%string -> writable p ->
  let a := call ps [:: g; [::]] (Some p) true d m in let b := call ps [:: g; [::]] (Some p) false d m in
  [/\ a.2 = inr NotImplemented, mc_files a.1.1 = mc_files m, b.2 = inl None & mc_files b.1.1 p <> None].
Proof.
move=> Ec Ek k0 np wp a b.
have Et := C56_empty_refuted eigs argsort E q (d_loss d) (setters ps) g (start m ob) k0.
have Et2 : (sweep eigs argsort E q (d_loss d) k (setters ps) [:: g; [::]] (start m ob)).2 = Ok tt by rewrite Et.
have nm : named (Some p) = Some p by rewrite /=; case: String.eqb_spec.
by rewrite /a /b !(callE Ec Ek _ _ Et2) nm /plot /= Et /save wp /= String.eqb_refl.
Qed.

(** A file that cannot be opened is noticed after the sweep: the call raises, the
    object keeps the table. *)
Theorem C91_late_refuted d ob k m ps grid p : d_cr d = Some ob -> d_num d = Some k ->
  let t := sweep eigs argsort E q (d_loss d) k (setters ps) grid (start m ob) in t.2 = Ok tt ->
  p <> ""%string -> writable p = false ->
  let a := call ps grid (Some p) false d m in
  a.2 = inr FileError /\ d_efreq a.1.2 = Some (sw_f t.1).
Proof.
move=> Ec Ek t Et np wp a.
have nm : named (Some p) = Some p by rewrite /=; case: String.eqb_spec.
by rewrite /a (callE Ec Ek _ _ Et) nm /save wp.
Qed.

(** A sweep that raises half-way is not undone: the object holds the table as far as it was
    filled, and circuit and loops stay where the sweep stopped. *)
Theorem C91_stopped_refuted d ob k m ps grid toFile plotF e : d_cr d = Some ob -> d_num d = Some k -> Z.le 0 k ->
  let t := sweep eigs argsort E q (d_loss d) k (setters ps) grid (start m ob) in t.2 = Err e ->
  let a := call ps grid toFile plotF d m in
  [/\ a.2 = inr (Py e), d_efreq a.1.2 = Some (sw_f t.1), d_grid a.1.2 = Some grid /\ d_params a.1.2 = ps,
      omap (fun o => ob_x o) (d_cr a.1.2) = Some (w_x (sw_w t.1)) & hp_s (mc_hp a.1.1) = w_s (sw_w t.1)].
Proof.
move=> Ec Ek k0 t Et a; rewrite /a /call /sweep_call Ec Ek; case: Z.ltb_spec => [/Z.lt_nge //|_].
by rewrite -/(start m ob) tabE -/t Et.
Qed.
End Sweeps.
Print Assumptions C91_stopped_refuted.
Print Assumptions C91_flux_figure.
Print Assumptions C91_charge_figure.
Print Assumptions C91_returns.
Print Assumptions C91_planes.
Print Assumptions C91_unsaved_refuted.
Print Assumptions C91_late_refuted.

(** Plain SQdata objects, and sweeps that have not run, cannot be plotted. *)
Theorem C91_blank_refuted ob k loss t :
  plot sqdata t = inr (Py AttributeError) /\ plot (new_sweep ob k loss) t = inr (Py AttributeError).
Proof. by []. Qed.
Print Assumptions C91_blank_refuted.

(** ** save and load *)

(** Whatever has happened since, load gives the object as it was saved, with new
    components: the same tables, loops and modes, and a circuit of its own; the
    objects that are there are untouched. *)
Theorem C91_load wr path d m m1 m2 : save wr path d m = (m1, inl tt) -> mc_files m2 path = mc_files m1 path ->
  let e := hp_e (mc_hp m2) in let l := hp_l (mc_hp m2) in
  exists m3 d' fe fl, [/\ load path m2 = (m3, inl d'), same_results d d', same_params fl (d_params d) (d_params d'),
    untouched e l (hp_s (mc_hp m2)) (hp_s (mc_hp m3)) /\ mc_files m3 = mc_files m2
    & match d_cr d, d_cr d' return Prop with
      | None, None => True
      | Some ob, Some ob' => ob_full ob ->
          [/\ same_object (hp_s (mc_hp m)) ob (hp_s (mc_hp m3)) ob' fe fl, ob_full ob',
              apart e l (hp_s (mc_hp m3)) (ob_x ob')
            & forall disp optim u ks, closed (hp_s (mc_hp m)) (ob_x ob) ->
                (forall c, List.In c ks -> call_in (hp_s (mc_hp m)) (ob_x ob) c) ->
                omap (fun tr => [seq p.2 | p <- tr])
                     (run disp optim (mkW (hp_s (mc_hp m3)) u (ob_x ob')) [seq ren_call fe fl c | c <- ks]) =
                omap (fun tr => [seq p.2 | p <- tr]) (run disp optim (mkW (hp_s (mc_hp m)) u (ob_x ob)) ks)]
      | _, _ => False
      end].
Proof.
rewrite /save; case: (wr path) => // -[<-]; cbn [mc_files]; rewrite String.eqb_refl => Ef; set e := hp_e (mc_hp m2); set l := hp_l (mc_hp m2).
rewrite /load Ef; eexists; eexists; exists (addn^~ e), (addn^~ l); split; first by reflexivity.
- by split.
- by rewrite /=; case: (d_params d).
- by split=> //; exact: join_untouched.
case: (d_cr d) => [ob|] //= full; split=> //=.
- by split=> //=; rewrite ?full ?andbT //; exact: join_same.
- exact: join_apart.
move=> disp optim u ks Cl H.
have := run_twins disp optim (ks := ks) (join_twins (mc_hp m2) u Cl) H.
by case: run => [tr|]; case: run => [tr'|] //= [->].
Qed.
Print Assumptions C91_load.

(** A loaded sweep, swept again (without the losses), returns and raises what the
    saved one would have. *)
Theorem C91_again wr wr' path d ob m m1 m2 eigs argsort E q q' ps grid plotF u fs gs :
  save wr path d m = (m1, inl tt) -> mc_files m2 path = mc_files m1 path ->
  d_cr d = Some ob -> d_loss d = false -> closed (hp_s (mc_hp m)) (ob_x ob) ->
  (forall ls, ps = Loops ls -> forall l, List.In l ls -> reached (hp_s (mc_hp m)) (ob_x ob) (CLoop l)) ->
  exists m3 d' ps', [/\ load path m2 = (m3, inl d'), same_params (addn^~ (hp_l (mc_hp m2))) ps ps'
    & (sweep_call wr' eigs argsort E q' ps' grid None plotF d' (mkMc (mc_hp m3) u fs gs)).2 =
      (sweep_call wr' eigs argsort E q ps grid None plotF d (mkMc (mc_hp m) u fs gs)).2].
Proof.
rewrite /save; case: (wr path) => // -[<-]; cbn [mc_files]; rewrite String.eqb_refl => Ef Ec El Cl Rc.
rewrite /load Ef; eexists; eexists; exists (ren_params (hp_l (mc_hp m2)) ps); split; first by reflexivity.
  by case: (ps).
have T := join_twins (mc_hp m2) u Cl.
set e := hp_e _ in T *; set l := hp_l _ in T *.
have G : all_go (addn^~ e) (addn^~ l) (setters ps) (setters (ren_params l ps)) (mkW (hp_s (mc_hp m)) u (ob_x ob)).
  case: (ps) Rc => [|ls|ms] Rc //; last exact: charge_all.
  by apply: flux_all => i hi; exact: Rc hi.
rewrite /sweep_call /= Ec /= El; case Ek: (d_num d) => [k|] //.
have [b1 b2 b3 b4] := sweep_twins eigs argsort E q q' k grid G T.
case: Z.ltb_spec => // k0.
have F (Q : quality) (P : params) (s : store) (x : circ) :
  match P with
  | NoParams => sweep_flux eigs argsort E Q false k [::] grid (mkW s u x)
  | Loops ls => sweep_flux eigs argsort E Q false k ls grid (mkW s u x)
  | Modes ms => sweep_charge eigs argsort E Q false k ms grid (mkW s u x)
  end = sweep eigs argsort E Q false k (setters P) grid (mkW s u x) by case: P.
rewrite !F b1 b2; case: (sweep _ _ _ q _ _ _ _ _).2 => [_|z] //.
have -> : (if ren_params l ps is Modes _ then "charge"%string else "flux"%string)
        = (if ps is Modes _ then "charge"%string else "flux"%string) by case: (ps).
case: plotF => //; rewrite /plot /=; case: ifP => // _.
set d1 := mkData _ _ _ _ _ _ _ _; set d2 := mkData _ _ _ _ _ _ _ _.
have -> : forall A L, curves d1 A L = curves d2 A L by move=> A; elim=> //= i L ->.
by case: curves.
Qed.
Print Assumptions C91_again.

(** Loading the same file a second time gives a third set of components: those of
    the first load are objects of the heap and the new ones lie past them. *)
Theorem C91_twice wr path d ob m m1 m2 : save wr path d m = (m1, inl tt) -> mc_files m2 path = mc_files m1 path ->
  d_cr d = Some ob -> lives (hp_e (mc_hp m)) (hp_l (mc_hp m)) (hp_s (mc_hp m)) (ob_x ob) ->
  exists m3 m4 d3 d4 ob3 ob4,
    [/\ load path m2 = (m3, inl d3) /\ load path m3 = (m4, inl d4), d_cr d3 = Some ob3 /\ d_cr d4 = Some ob4,
        lives (hp_e (mc_hp m3)) (hp_l (mc_hp m3)) (hp_s (mc_hp m3)) (ob_x ob3)
      & apart (hp_e (mc_hp m3)) (hp_l (mc_hp m3)) (hp_s (mc_hp m4)) (ob_x ob4)].
Proof.
rewrite /save; case: (wr path) => // -[<-]; cbn [mc_files]; rewrite String.eqb_refl => Ef Ec Li.
rewrite {1}/load Ef Ec.
do 6 eexists; split.
- split; first by reflexivity.
  by rewrite /load; cbn [mc_files]; rewrite Ef Ec; reflexivity.
- by split; reflexivity.
- exact: join_lives.
- exact: join_apart.
Qed.
Print Assumptions C91_twice.

(** [Sweep] prepares the table of decay rates exactly when 'loss' was asked for;
    sweeping, saving and loading keep it so: self.dec.keys() never meets None. *)
Theorem C91_losses eigs argsort E q :
  [/\ forall ob k loss, tabled (new_sweep ob k loss),
      forall wr ps grid f plotF d m, tabled d -> tabled (sweep_call wr eigs argsort E q ps grid f plotF d m).1.2
    & forall wr path d m m1 m2 m3 d', tabled d -> save wr path d m = (m1, inl tt) ->
     mc_files m2 path = mc_files m1 path -> load path m2 = (m3, inl d') -> tabled d'].
Proof.
split; [by move=> ob k [] | | ]; last first.
  move=> wr path d m m1 m2 m3 d' T; rewrite /save; case: (wr path) => // -[<-].
  by cbn [mc_files]; rewrite String.eqb_refl => Ef; rewrite /load Ef => -[_ <-].
move=> wr ps grid f plotF d m T; rewrite /sweep_call.
case: (d_cr d) => [ob|] //; case: (d_num d) => [k|] //; case: ifP => // _.
set a := match ps with NoParams => _ | Loops _ => _ | Modes _ => _ end.
have T1 dt cr p g x n : tabled (mkData dt cr p g x (if d_loss d then Tables (sw_d a.1) else d_dec d) n (d_loss d)).
  by move: T; rewrite /tabled /=; case: (d_loss d).
case: a.2 => [_|z]; last exact: T1.
case: (if plotF then _ else _) => [figs|z]; last exact: T1.
case: f => [p|]; last exact: T1.
case: String.eqb; first exact: T1.
by case: (save _ _ _ _) => m3 r; exact: T1.
Qed.
Print Assumptions C91_losses.

(** A missing file. *)
Theorem C91_missing path m : mc_files m path = None -> load path m = (m, inr FileError).
Proof. by rewrite /load => ->. Qed.
Print Assumptions C91_missing.

(** A sweep of a picklecopy comes back with a circuit that cannot be diagonalised
    before update(). *)
Theorem C91_picklecopy_refuted wr path d ob m m1 m2 : save wr path d m = (m1, inl tt) ->
  mc_files m2 path = mc_files m1 path -> d_cr d = Some (picklecopy ob) ->
  exists m3 d' ob', [/\ load path m2 = (m3, inl d'), d_cr d' = Some ob'
    & size (x_m (ob_x ob)) != 0%N -> exists z, (ob_hamil (hp_s (mc_hp m3)) ob').2 = Err z].
Proof.
rewrite /save; case: (wr path) => // -[<-]; cbn [mc_files]; rewrite String.eqb_refl => Ef Ec.
rewrite /load Ef; eexists; eexists; eexists; split; first by reflexivity.
  by rewrite /= Ec.
move=> hm; apply: (proj1 (C43_before_update (fun _ _ => oeye 0) _ None _)) => //=.
by rewrite andbF.
Qed.
Print Assumptions C91_picklecopy_refuted.

(** A table of two levels over three fluxes. *)
Definition three : data :=
  mkData None None NoParams (Some [:: [:: 0; 1; 5%:R]])
    (Some (mkNd [:: 2; 3]%N (fun ix => (nth 0 ix 0 * 10 + nth 0 ix 1)%N%:R))) NoDec (Some (Zpos (xO xH))) false.
Example C91_plot_case : exists fig, [/\ plot three "flux" = inl fig, size (f_curves fig) = 2%N,
  point_of fig 0 2 = (5%:R, 0), point_of fig 1 2 = (5%:R, 10%:R) & f_xlabel fig = Some "$\Phi_{ext}/\Phi_0$"%string].
Proof.
eexists; split; first (by rewrite /plot /=); try by [].
  by rewrite /point_of /= subrr.
by rewrite /point_of /= -natrB.
Qed.

(** The circuit of C43_case: saved with its inductor at 2, then set to 7, then
    loaded: the loaded one is at 2. *)
Example C91_case : exists x m1 m3 d' ob',
  let hp := cp_heap (cp_val false 2) xpred0 in
  let d := new_sweep (new_obj x) (Zpos xH) false in
  let m := mkMc hp ustate_init (fun=> None) [::] in
  let set v := mkHp (comp_put (hp_s hp) (CEl 1) (mkP v false true)) (hp_e hp) (hp_l hp) in
  let m2 := mkMc (set 7%:R) ustate_init (mc_files m1) [::] in
  [/\ save xpredT "a.dill" d m = (m1, inl tt), load "a.dill" m2 = (m3, inl d'), d_cr d' = Some ob',
      x_dict (ob_x ob') = [:: ((Z0, Zpos xH), [:: 3; 4]%N)]
    & evalue (hp_s (mc_hp m3)) 1 = 7%:R /\ evalue (hp_s (mc_hp m3)) 4 = evalue (hp_s hp) 1].
Proof.
have l2 : Rlt 0 2 by exact: Rlt_0_2.
have [x [_ D]] := cp_construct false xpred0 false (fun=> mkL [::] [::]) l2.
exists x; do 4!eexists; split; [by reflexivity | by reflexivity | by reflexivity | by rewrite /= D | by []].
Qed.

(** Storage.v -- model of storage.py (the class SQdata) and of the end of the two
    sweep methods of sweep.py (102-109, 142-148), which plot and save.

    NumPy engine.  A file is what was pickled into it: the heap of the components
    and the object.  Pickling is dill's and does not fail; opening a file may.
    pyplot is a list of the figures that were shown; sizes, line widths and fonts
    (39-50) are left out, and so is the figure that stays open when plot raises.
    The number of eigenvalues is an int.  A circuit without its operator memory
    (an unpickled picklecopy) is in Copy.v; here diag is that of CircuitSM.v. *)
From Coq Require Import Reals ZArith String.
From Verif.Model Require Import Base Units Noise Edge Elements LCWB.
From mathcomp Require Import all_ssreflect all_algebra.
From Verif.Numerics Require Import RStruct Bridge.
From Verif.Model Require Import Op Diag CircuitSM DecRate Copy Sweep.

Set Implicit Arguments.
Unset Strict Implicit.
Unset Printing Implicit Defensive.
Import GRing.Theory.
Local Open Scope ring_scope.

(** Exceptions: those of Base.v, NotImplementedError and those of open(). *)
Inductive xexn := Py (e : exn) | NotImplemented | FileError.
Definition xres (T : Type) : Type := (T + xexn)%type.

(** The attribute [params]: loops or mode numbers; [dec]: None, a dictionary of
    None, or a dictionary of tables. *)
Inductive params := NoParams | Loops (l : seq nat) | Modes (m : seq (option Z)).
Inductive decs := NoDec | Blank | Tables (t : dec_tab).
(** storage.py 15-26; [numEig] and [properties] only a Sweep has (sweep.py 28-33). *)
Record data := mkData { d_type : option string; d_cr : option cobj; d_params : params;
  d_grid : option (seq (seq R)); d_efreq : option nd; d_dec : decs; d_num : option Z; d_loss : bool }.
(** SQdata() *)
Definition sqdata : data := mkData None None NoParams None None NoDec None false.
(** sweep.py 26-55 *)
Definition new_sweep (ob : cobj) (k : Z) (loss : bool) : data :=
  mkData None (Some ob) NoParams None None (if loss then Blank else NoDec) (Some k) loss.

(** ** plot *)
Record figure := mkFig { f_curves : seq (seq R * seq R); f_xlabel : option string; f_ylabel : string }.

(** [A[i, :]] *)
Definition row (A : nd) (i : nat) : xres (seq R) :=
  match nd_shape A with
  | [:: r; c] => if (i < r)%N then inl [seq nd_at A [:: i; j] | j <- iota 0 c] else inr (Py IndexError)
  | _ => inr (Py IndexError)
  end.
(** storage.py 43-44: the [i]-th curve; plt.plot wants as many abscissae as
    ordinates. *)
Definition curve (d : data) (A : nd) (i : nat) : xres (seq R * seq R) :=
  match d_grid d with
  | None => inr (Py TypeError)
  | Some [::] => inr (Py IndexError)
  | Some (g :: _) =>
      match row A i with
      | inr e => inr e
      | inl u =>
          match row A 0 with
          | inr e => inr e
          | inl v =>
              let y := [seq p.1 - p.2 | p <- zip u v] in
              if size g == size y then inl (g, y) else inr (Py ValueError)
          end
      end
  end.
Fixpoint curves (d : data) (A : nd) (l : seq nat) : xres (seq (seq R * seq R)) :=
  match l with
  | [::] => inl [::]
  | i :: l' =>
      match curve d A i with
      | inr e => inr e
      | inl c => match curves d A l' with inr e => inr e | inl cs => inl (c :: cs) end
      end
  end.
(** storage.py 36-51: the figure it shows. *)
Definition plot (d : data) (typeP : string) : xres figure :=
  match d_efreq d with
  | None => inr (Py AttributeError)
  | Some A =>
      if (2 < size (nd_shape A))%N then inr NotImplemented
      else match d_num d with
           | None => inr (Py AttributeError)
           | Some k =>
               match curves d A (iota 0 (Z.to_nat k)) with
               | inr e => inr e
               | inl cs =>
                   inl (mkFig cs (if String.eqb typeP "flux" then Some "$\Phi_{ext}/\Phi_0$"%string
                                  else if String.eqb typeP "charge" then Some "$n_g$"%string else None)
                              "$f_i-f_0$[GHz]"%string)
               end
           end
  end.

(** ** save and load *)
Definition file : Type := (heap * data)%type.
(** The heap, the unit state, the files, the figures shown. *)
Record machine := mkMc { mc_hp : heap; mc_u : ustate; mc_files : string -> option file; mc_figs : seq figure }.

Definition with_cr (d : data) (cr : option cobj) (p : params) : data :=
  mkData (d_type d) cr p (d_grid d) (d_efreq d) (d_dec d) (d_num d) (d_loss d).

(** The objects of [snap] behind those of [hp]: identifiers from [hp_e hp] (loops:
    [hp_l hp]) on are those of [snap], references renamed. *)
Definition join (hp snap : heap) : heap :=
  let e := hp_e hp in let l := hp_l hp in let s := hp_s hp in let t := hp_s snap in
  let pick (T : Type) (n : nat) (f g : nat -> T) (i : nat) := if (i < n)%N then f i else g (i - n)%N in
  mkHp (mkStore (pick _ e (ekind s) (ekind t)) (pick _ e (evalue s) (evalue t)) (pick _ e (ereq s) (ereq t))
                (pick _ e (eleaf s) (eleaf t)) (pick _ e (ecap s) (fun i => ecap t i + e)%N)
                (pick _ e (eloops s) (fun i => [seq (j + l)%N | j <- eloops t i]))
                (pick _ l (lvalue s) (lvalue t)) (pick _ l (lreq s) (lreq t)) (pick _ l (lleaf s) (lleaf t)))
       (e + hp_e snap) (l + hp_l snap).
Definition ren_params (l : nat) (p : params) : params :=
  if p is Loops ls then Loops [seq (i + l)%N | i <- ls] else p.

Section Files.
(** Which paths can be opened for writing. *)
Variable writable : string -> bool.

(** storage.py 28-30; the circuit goes through __getstate__. *)
Definition save (path : string) (d : data) (m : machine) : machine * xres unit :=
  if writable path then
    let f := (mc_hp m, with_cr d (omap getstate (d_cr d)) (d_params d)) in
    (mkMc (mc_hp m) (mc_u m) (fun p => if String.eqb p path then Some f else mc_files m p) (mc_figs m), inl tt)
  else (m, inr FileError).

(** storage.py 32-35; the circuit goes through __setstate__. *)
Definition load (path : string) (m : machine) : machine * xres data :=
  match mc_files m path with
  | None => (m, inr FileError)
  | Some (snap, d) =>
      let e := hp_e (mc_hp m) in let l := hp_l (mc_hp m) in
      let new ob := setstate (mkOb (deep_circ e l (ob_x ob)) (ob_mem ob) (ob_LC ob) (ob_descr ob) (ob_full ob)) in
      (mkMc (join (mc_hp m) snap) (mc_u m) (mc_files m) (mc_figs m),
       inl (with_cr d (omap new (d_cr d)) (ren_params l (d_params d))))
  end.

(** ** The sweep methods *)
Variables (eigs : nat -> eigs_fun) (argsort : nat -> seq C -> seq nat).
Variables (E : env) (q : quality).

(** sweep.py 71-109 ([Loops]) and 111-148 ([Modes]); the machine, the object and
    what is returned: the tables, or None when a file was named. *)
Definition sweep_call (ps : params) (grid : seq (seq R)) (toFile : option string) (plotF : bool)
    (d : data) (m : machine) : machine * data * xres (option (nd * decs)) :=
  match d_cr d, d_num d with
  | Some ob, Some k =>
    let dtype := Some (if ps is Modes _ then "sweepCharge" else "sweepFlux")%string in
    (* np.zeros refuses a negative number (79, 119) *)
    if Z.ltb k 0 then
      (m, mkData dtype (d_cr d) ps (Some grid) (d_efreq d) (d_dec d) (d_num d) (d_loss d), inr (Py ValueError))
    else
      let w := mkW (hp_s (mc_hp m)) (mc_u m) (ob_x ob) in
      let a := match ps with
               | Modes ms => sweep_charge eigs argsort E q (d_loss d) k ms grid w
               | Loops ls => sweep_flux eigs argsort E q (d_loss d) k ls grid w
               | NoParams => sweep_flux eigs argsort E q (d_loss d) k [::] grid w
               end in
      let x1 := w_x (sw_w a.1) in
      let dec := if d_loss d then Tables (sw_d a.1) else d_dec d in
      let d1 := mkData dtype
                       (Some (mkOb x1 (ob_mem ob) (ob_LC ob) (ob_descr ob) (ob_full ob)))
                       ps (Some grid) (Some (sw_f a.1)) dec (d_num d) (d_loss d) in
      let m1 := mkMc (mkHp (w_s (sw_w a.1)) (hp_e (mc_hp m)) (hp_l (mc_hp m))) (mc_u m) (mc_files m) (mc_figs m) in
      match a.2 with
      | Err e => (m1, d1, inr (Py e))
      | Ok _ =>
          let shown := if plotF then
                         match plot d1 (if ps is Modes _ then "charge" else "flux")%string with
                         | inl fig => inl [:: fig]
                         | inr e => inr e
                         end
                       else inl [::] in
          match shown with
          | inr e => (m1, d1, inr e)
          | inl figs =>
              let m2 := mkMc (mc_hp m1) (mc_u m1) (mc_files m1) (mc_figs m1 ++ figs) in
              let named := if toFile is Some p then if String.eqb p "" then None else Some p else None in
              match named with
              | Some p => let (m3, r) := save p d1 m2 in
                          (m3, d1, if r is inr e then inr e else inl None)
              | None => (m2, d1, inl (Some (sw_f a.1, dec)))
              end
          end
      end
  | _, _ => (m, d, inr (Py AttributeError))
  end.
End Files.

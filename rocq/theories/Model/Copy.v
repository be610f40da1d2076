(** Copy.v -- model of Circuit.safecopy (circuit.py 606-725), picklecopy (727-741),
    __getstate__/__setstate__ (442-462), and of the methods of a circuit whose
    attributes may be missing.

    The component objects live in a heap: element identifiers below [hp_e] and
    loop identifiers below [hp_l] are in use.  [copy(circuit)] and pickling go
    through [object.__reduce_ex__], hence through __getstate__ and __setstate__.
    [copy(el)] shares what [el] refers to.  [copy.deepcopy] follows every
    reference and copies each object once, so it is a renaming of the heap; the
    model copies the whole heap, reachable or not.  Attributes of components that
    [store] does not have (quality factors, noise amplitude, id string) are not
    followed.  Pickling is dill's (storage.py 4): lambdas are allowed. *)
From Coq Require Import Reals ZArith String.
From Verif.Model Require Import Base Units Settings Elements Edge LCWB Accuracy HamConst.
From mathcomp Require Import all_ssreflect all_algebra.
From mathcomp Require Import complex.
From Verif.Numerics Require Import RStruct Bridge.
From Verif.Model Require Import FluxDist Transform Op Ham Diag CircuitSM.

Set Implicit Arguments.
Unset Strict Implicit.
Unset Printing Implicit Defensive.
Import GRing.Theory.

Record heap := mkHp { hp_s : store; hp_e : nat; hp_l : nat }.

(** A circuit object: its attributes, whether [_memory_ops] and [_LC_hamil] are
    in its dictionary, whether [descrip_vars] is not None, and
    [_toggle_fullcopy]. *)
Record cobj := mkOb { ob_x : circ; ob_mem : bool; ob_LC : bool; ob_descr : bool; ob_full : bool }.
(** After __init__ (circuit.py 361-395). *)
Definition new_obj (x : circ) : cobj := mkOb x true true true true.

(** circuit.py 442-454, 456-462: a reduced and reconstructed circuit. *)
Definition getstate (ob : cobj) : cobj :=
  mkOb (ob_x ob) (ob_mem ob && ob_full ob) (ob_LC ob && ob_full ob) (ob_descr ob) (ob_full ob).
Definition setstate (ob : cobj) : cobj :=
  mkOb (ob_x ob) (ob_mem ob) (ob_LC ob) (ob_descr ob) true.
Definition shallow (ob : cobj) : cobj := setstate (getstate ob).
(** circuit.py 727-741 *)
Definition picklecopy (ob : cobj) : cobj :=
  let new := shallow ob in mkOb (ob_x new) (ob_mem new) (ob_LC new) (ob_descr new) false.

(** ** Renaming the heap *)
Definition ren_comp (fe fl : nat -> nat) (c : LCWB.comp) : LCWB.comp :=
  match c with CEl i => CEl (fe i) | CLoop i => CLoop (fl i) end.

(** What the copied objects are: identifiers from [e] (loops: [l]) on are the
    copies of the identifiers below, references renamed. *)
Definition deep_store (hp : heap) : store :=
  let s := hp_s hp in let e := hp_e hp in let l := hp_l hp in
  let el i := if (i < e)%N then i else (i - e)%N in
  let lo i := if (i < l)%N then i else (i - l)%N in
  mkStore (fun i => ekind s (el i)) (fun i => evalue s (el i)) (fun i => ereq s (el i))
          (fun i => eleaf s (el i))
          (fun i => if (i < e)%N then ecap s i else (ecap s (i - e) + e)%N)
          (fun i => if (i < e)%N then eloops s i else [seq (j + l)%N | j <- eloops s (i - e)%N])
          (fun i => lvalue s (lo i)) (fun i => lreq s (lo i)) (fun i => lleaf s (lo i)).

(** Dictionaries keyed by elements. *)
Definition shift_key (T : Type) (e : nat) (f : nat -> option T) (i : nat) : option T :=
  if (i < e)%N then None else f (i - e)%N.
Definition shift_key2 (T : Type) (e : nat) (f : nat -> nat -> option T) (i b : nat) : option T :=
  if (i < e)%N then None else f (i - e)%N b.

Definition deep_mem (e : nat) (M : mems) : mems :=
  mkM (M_Q M) (M_QQ M) (M_phi M) (M_N M) (M_exp M) (M_root M)
      (shift_key2 e (M_cos M)) (shift_key2 e (M_sin M)) (shift_key2 e (M_half M)) (shift_key2 e (M_ind M)).

Definition deep_cst (e l : nat) (c : cst) : cst :=
  mkC [seq (i + l)%N | i <- c_loops c]
      (fun i => if (i < l)%N then c_lobj c i else c_lobj c (i - l)%N)
      [seq (k.1.1, (k.1.2 + e)%N, k.2) | k <- c_keys_ind c]
      [seq (k.1.1.1, (k.1.1.2 + e)%N, k.1.2, k.2) | k <- c_keys_jj c]
      [seq (ren_comp (addn^~ e) (addn^~ l) p.1, p.2) | p <- c_params c]
      (shift_key e (c_pm c)) (c_bid c) (c_wid c) (c_kmat c) (c_cedge c) (c_C c) (c_L c) (c_W c)
      (c_njwi c).

Definition deep_circ (e l : nat) (x : circ) : circ :=
  mkX [seq (p.1, [seq (i + e)%N | i <- p.2]) | p <- x_dict x] (x_fd x) (deep_cst e l (x_c x))
      (x_C x) (x_B x) (x_st x) (x_isl x) (x_m x) (deep_mem e (x_mem x)) (x_LC x) (x_eig x).

Definition deepcopy (hp : heap) (ob : cobj) : heap * cobj :=
  (mkHp (deep_store hp) (hp_e hp + hp_e hp) (hp_l hp + hp_l hp),
   let new := shallow ob in
   mkOb (deep_circ (hp_e hp) (hp_l hp) (ob_x new)) (ob_mem new) (ob_LC new) (ob_descr new) (ob_full new)).

(** ** safecopy *)
(** The elements on the edges, in order, with repetition. *)
Definition placed (x : circ) : seq nat := flatten [seq p.2 | p <- x_dict x].

(** [replacement_dict]: the object in place k of [l] is replaced by [base + k];
    a later place overwrites an earlier one. *)
Definition repl (base : nat) (l : seq nat) (i : nat) : option nat :=
  let k := index i (rev l) in
  if (k < size l)%N then Some (base + (size l - k.+1))%N else None.
Definition repl0 (base : nat) (l : seq nat) (i : nat) : nat := odflt 0%N (repl base l i).

Definition all_in (l : seq nat) (base : nat) (ids : seq nat) : bool :=
  all (fun i => isSome (repl base l i)) ids.

(** circuit.py 635-664: the new elements and loops.  [detach().clone()] does not
    require grad and is a leaf. *)
Definition safe_store (hp : heap) (x : circ) : store :=
  let s := hp_s hp in let e := hp_e hp in let l := hp_l hp in
  let ps := placed x in let ls := c_loops (x_c x) in
  let newe i := (e <= i)%N && (i < e + size ps)%N in
  let newl i := (l <= i)%N && (i < l + size ls)%N in
  let el i := if newe i then nth 0%N ps (i - e) else i in
  let lo i := if newl i then nth 0%N ls (i - l) else i in
  mkStore (fun i => ekind s (el i)) (fun i => evalue s (el i))
          (fun i => if newe i then false else ereq s i)
          (fun i => if newe i then true else eleaf s i)
          (fun i => ecap s (el i))
          (fun i => if newe i then [seq repl0 l ls j | j <- eloops s (el i)] else eloops s i)
          (fun i => lvalue s (lo i)) (fun i => if newl i then false else lreq s i)
          (fun i => if newl i then true else lleaf s i).

(** circuit.py 655, 664: the same edges, the new elements. *)
Definition relabel (e : nat) (d : seq (edge * seq nat)) : seq (edge * seq nat) :=
  zip (unzip1 d) (reshape [seq size p.2 | p <- d] (iota e (size (flatten [seq p.2 | p <- d])))).

(** circuit.py 688-713: the entry of element i moves to its replacement. *)
Definition move_key (T : Type) (e : nat) (ps : seq nat) (keep : bool) (f : nat -> option T) (i : nat)
    : option T :=
  if (i < e)%N then (if keep && ~~ isSome (repl e ps i) then f i else None)
  else let el := nth 0%N ps (i - e) in
       if (i < e + size ps)%N && (repl e ps el == Some i) then f el else None.

Definition safe_cst (hp : heap) (x : circ) : cst :=
  let s := hp_s hp in let e := hp_e hp in let l := hp_l hp in
  let ps := placed x in let c := x_c x in let ls := c_loops c in
  let fe := repl0 e ps in let fl := repl0 l ls in
  mkC (iota l (size ls))
      (fun i => if (i < l)%N then c_lobj c i else c_lobj c (nth 0%N ls (i - l)))
      [seq (k.1.1, fe k.1.2, k.2) | k <- c_keys_ind c]
      [seq (k.1.1.1, fe k.1.1.2, k.1.2, k.2) | k <- c_keys_jj c]
      [seq (ren_comp fe fl p.1, cvalue s p.1) | p <- c_params c]
      (move_key e ps true (c_pm c)) (c_bid c) (c_wid c) (c_kmat c) (c_cedge c) (c_C c) (c_L c) (c_W c)
      (c_njwi c).
(** circuit.py 697-713; the keys of these dictionaries are elements of the
    circuit (they are written only at 1807-1825, from elem_keys). *)
Definition safe_mem (e : nat) (ps : seq nat) (M : mems) : mems :=
  let mv f i b := move_key e ps false (fun j => f j b) i in
  mkM (M_Q M) (M_QQ M) (M_phi M) (M_N M) (M_exp M) (M_root M)
      (mv (M_cos M)) (mv (M_sin M)) (mv (M_half M)) (mv (M_ind M)).
Definition safe_circ (hp : heap) (x : circ) : circ :=
  mkX (relabel (hp_e hp) (x_dict x)) (x_fd x) (safe_cst hp x) (x_C x) (x_B x) (x_st x) (x_isl x) (x_m x)
      (safe_mem (hp_e hp) (placed x) (x_mem x)) (x_LC x) (x_eig x).
Definition safe_heap (hp : heap) (x : circ) : heap :=
  mkHp (safe_store hp x) (hp_e hp + size (placed x)) (hp_l hp + size (c_loops (x_c x))).

(** The look-ups in replacement_dict: loops of the elements (659-660),
    parameters (669-670), elem_keys (683-688). *)
Definition comp_in (hp : heap) (x : circ) (c : LCWB.comp) : bool :=
  match c with
  | CEl i => isSome (repl (hp_e hp) (placed x) i)
  | CLoop i => isSome (repl (hp_l hp) (c_loops (x_c x)) i)
  end.
Definition lookups_ok (hp : heap) (x : circ) : bool :=
  let s := hp_s hp in let ps := placed x in
  all (fun el => ~~ inductive_el s el || all_in (c_loops (x_c x)) (hp_l hp) (eloops s el)) ps &&
  all (fun p => comp_in hp x p.1) (c_params (x_c x)) &&
  all_in ps (hp_e hp) [seq k.1.2 | k <- c_keys_ind (x_c x)] &&
  all_in ps (hp_e hp) [seq k.1.1.2 | k <- c_keys_jj (x_c x)].

(** circuit.py 606-725.  A tensor that is not a leaf cannot be deep-copied; only
    the own capacitors keep their tensors. *)
Definition safecopy (optim save_eigs : bool) (hp : heap) (ob : cobj) : res (heap * cobj) :=
  let new := shallow ob in
  let x := ob_x ob in
  let eigs (x : circ) := if save_eigs then x else put_eig x (mkE [::] [::]) in
  if ~~ optim then
    if save_eigs then Err AttributeError
    else Ok (deepcopy hp (mkOb (eigs x) (ob_mem new) (ob_LC new) false (ob_full new)))
  else if ~~ lookups_ok hp x then Err KeyError
  else if ~~ ob_mem ob then Err AttributeError
  else if save_eigs && (size (e_vecs (x_eig x)) == 0%N) then Err AttributeError
  else if has (fun el => inductive_el (hp_s hp) el && ~~ eleaf (hp_s hp) (ecap (hp_s hp) el)) (placed x)
       then Err RuntimeError
  else Ok (deepcopy (safe_heap hp x) (mkOb (eigs (safe_circ hp x)) true (ob_LC new) false (ob_full new))).

(** pickle.loads(pickle.dumps(circuit)): objects of a new heap. *)
Definition pickle (hp : heap) (ob : cobj) : heap * cobj := deepcopy hp ob.

(** ** Methods of a circuit with missing attributes *)
Section Partial.
Variable disp : nat -> C -> op.
Variable optim : bool.

(** [_memory_ops] is read and written after everything that mem_err covers. *)
Definition ob_set_trunc (nums : option (seq nat)) (ob : cobj) : cobj * res unit :=
  if ob_mem ob then
    let (x1, r) := set_trunc disp nums (ob_x ob) in
    (mkOb x1 true (ob_LC ob || (if r is Ok _ then true else false)) (ob_descr ob) (ob_full ob), r)
  else
    let x := ob_x ob in
    match nums with
    | None => (ob, Err ValueError)
    | Some l =>
        if size l != x_n x then (ob, Err ValueError)
        else
          let x1 := put_m x [seq (if is_charge (x_st x) i then (2 * nth 0 l i).-1 else nth 0%N l i)%N
                            | i <- iota 0 (x_n x)] in
          (mkOb x1 false (ob_LC ob) (ob_descr ob) (ob_full ob),
           Err (if mem_err x1 is Some e then e else AttributeError))
    end.

(** circuit.py 397-440: [_memory_ops] is assigned (418) before it is read; a
    failure before that leaves it missing.  [_LC_hamil] is assigned when
    everything that can raise is past. *)
Definition before_mem (o : oracle) (s : store) (x : circ) : bool :=
  let n := x_n x in
  let (c, r) := lcwb_run optim s (x_fd x) (Z.of_nat n) (cst0 (c_lobj (x_c x))) (x_dict x) in
  if r is Some _ then false else
  match b_of n (o_sv o) c with
  | Err _ => false
  | Ok _ =>
      match t_init n (size (c_W c)) (c_njwi c) (c_C c) (c_L c) (rows (c_W c)) with
      | Err _ => false
      | Ok st0 => if transform_run o st0 is Some (_, None) then true else false
      end
  end.
Definition ob_update (o : oracle) (s : store) (ob : cobj) : option (cobj * option exn) :=
  match update disp optim o s (ob_x ob) with
  | None => None
  | Some (x1, r) =>
      Some (mkOb x1 (ob_mem ob || before_mem o s (ob_x ob)) (ob_LC ob || ~~ isSome r) (ob_descr ob) (ob_full ob), r)
  end.

(** circuit.py 2147-2164 *)
Definition ob_hamil (s : store) (ob : cobj) : cobj * res op :=
  let x := ob_x ob in
  if size (x_m x) == 0%N then (ob, Err CircuitStateError)
  else if ob_mem ob then
    let (x1, r) := hamil s x in
    (mkOb x1 true (ob_LC ob) (ob_descr ob) (ob_full ob),
     match r with Ok _ => if ob_LC ob then r else Err AttributeError | Err z => Err z end)
  else (ob, match c_keys_ind (x_c x) with
            | k :: _ => match coupling_coef (hof x) Inductive_ k.1.1 with Err z => Err z | Ok _ => Err AttributeError end
            | [::] => Err AttributeError
            end).

(** circuit.py 1257-1295 up to the first assignment into [descrip_vars] (1195). *)
Definition description_start (ob : cobj) : res unit :=
  if ob_descr ob then Ok tt else Err TypeError.
End Partial.

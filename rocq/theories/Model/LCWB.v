(** LCWB.v -- model of Circuit._get_LCWB (circuit.py 743-835) up to the flux
    distribution, with CircuitEdge.process_edge_and_update_circ (140-202),
    update_circuit_loop_from_element (115-138), add_loop (593-604) and
    add_to_parameters (578-591).

    Objects have identifiers: elements and capacitors share one id space, loops
    another.  Object attributes that the code only reads are in [store]; what it
    writes is in [cst].  Values are SI values, so [get_value()] (division of the
    internal value by the unit factor 1) is the stored number. *)
From Verif.Model Require Import Base Units Settings Elements Edge.
Open Scope R_scope.
Open Scope list_scope.

(** Read-only attributes of the component objects. *)
Record store : Type := mkStore {
  ekind : nat -> kind;         (* type(el) *)
  evalue : nat -> R;           (* el.internal_value *)
  ereq : nat -> bool;          (* el.requires_grad *)
  eleaf : nat -> bool;         (* el.is_leaf *)
  ecap : nat -> nat;           (* el.cap (inductors and junctions) *)
  eloops : nat -> list nat;    (* el.loops (inductors and junctions) *)
  lvalue : nat -> R;
  lreq : nat -> bool;
  lleaf : nat -> bool
}.

(** [hasattr(el, 'loops')] *)
Definition inductive_el (s : store) (el : nat) : bool :=
  match ekind s el with KCap => false | _ => true end.
Definition is_jj (s : store) (el : nat) : bool :=
  match ekind s el with KJJ => true | _ => false end.
Definition is_ind (s : store) (el : nat) : bool :=
  match ekind s el with KInd => true | _ => false end.

(** Keys of the [_parameters] dictionary. *)
Inductive comp : Set := CEl (i : nat) | CLoop (i : nat).
Definition comp_eqb (a b : comp) : bool :=
  match a, b with
  | CEl i, CEl j | CLoop i, CLoop j => Nat.eqb i j
  | _, _ => false
  end.

Definition cvalue (s : store) (c : comp) : R :=
  match c with CEl i => evalue s i | CLoop i => lvalue s i end.
Definition creq (s : store) (c : comp) : bool :=
  match c with CEl i => ereq s i | CLoop i => lreq s i end.
Definition cleaf (s : store) (c : comp) : bool :=
  match c with CEl i => eleaf s i | CLoop i => lleaf s i end.

(** Attributes written on a loop object: [indices] and [k_mat]. *)
Record lrec : Type := mkL { l_indices : list nat; l_kmat : list (list Z) }.

(** The mutable part of the circuit while _get_LCWB runs. *)
Record cst : Type := mkC {
  c_loops : list nat;                            (* self.loops *)
  c_lobj : nat -> lrec;                          (* the loop objects *)
  c_keys_ind : list (edge * nat * nat);          (* elem_keys[Inductor] *)
  c_keys_jj : list (edge * nat * nat * nat);     (* elem_keys[Junction] *)
  c_params : list (comp * R);                    (* self._parameters *)
  c_pm : nat -> option (nat -> nat -> R);        (* self.partial_mats *)
  c_bid : nat;
  c_wid : nat;
  c_kmat : list (list Z);
  c_cedge : list R;
  c_C : nat -> nat -> R;
  c_L : nat -> nat -> R;
  c_W : list (list Z);
  c_njwi : nat                                   (* num_jun_without_ind *)
}.

(** circuit.py 578-591 *)
Definition add_to_parameters (s : store) (c : comp) (ps : list (comp * R)) : list (comp * R) :=
  if (creq s c || negb (cleaf s c)) && negb (existsb (fun p => comp_eqb c (fst p)) ps)
  then ps ++ [(c, cvalue s c)] else ps.

(** circuit.py 593-604; elements.py 641-643 (reset) *)
Definition add_loop (l : nat) (st : list nat * (nat -> lrec)) : list nat * (nat -> lrec) :=
  let (loops, lobj) := st in
  if existsb (Nat.eqb l) loops then (loops, lobj)
  else (loops ++ [l], fun l' => if Nat.eqb l' l then mkL [] [] else lobj l').

(** circuit.py 115-138; elements.py 677-681 *)
Definition loop_from_element (optim : bool) (s : store) (w : list Z) (b_id : nat)
    (st : list nat * (nat -> lrec) * list (comp * R)) (l : nat)
    : list nat * (nat -> lrec) * list (comp * R) :=
  let '(loops, lobj, ps) := st in
  let (loops, lobj) := add_loop l (loops, lobj) in
  let r := lobj l in
  let lobj := fun l' => if Nat.eqb l' l
    then mkL (l_indices r ++ [b_id]) (l_kmat r ++ [w]) else lobj l' in
  (loops, lobj, if optim then add_to_parameters s (CLoop l) ps else ps).

(** [partial_mats[el] += m] on a [defaultdict(lambda: 0)]. *)
Definition pm_add (pm : nat -> option (nat -> nat -> R)) (el : nat) (m : nat -> nat -> R)
    : nat -> option (nat -> nat -> R) :=
  fun x => if Nat.eqb x el
    then Some (fun i j => match pm el with Some p => p i j | None => 0 end + m i j)
    else pm x.

(** elements.py 223-226 and 415-424: [partial_mat]; [None]: no such method
    (junctions). *)
Definition partial_mat (s : store) (el : nat) (m : list (list Z)) : option (nat -> nat -> R) :=
  match ekind s el with
  | KCap => Some (fun i j => IZR (entry m i j))
  | KInd => Some (fun i j => IZR (entry m i j) / (evalue s el ^ 2))
  | KJJ => None
  end.

(** The body of the loop at circuit.py 161-198. *)
Definition process_el (optim : bool) (s : store) (flux_dist : string) (e : edge) (w : list Z)
    (m : list (list Z)) (c : cst) (el : nat) : cst :=
  let c1 :=
    if inductive_el s el then
      let cap := ecap s el in
      let ps1 := if optim then add_to_parameters s (CEl cap) (c_params c) else c_params c in
      let pm1 := if optim then pm_add (c_pm c) cap (fun i j => IZR (entry m i j)) else c_pm c in
      let '(loops, lobj, ps2) :=
        fold_left (loop_from_element optim s w (c_bid c)) (eloops s el) (c_loops c, c_lobj c, ps1) in
      mkC loops lobj
        (if is_ind s el then c_keys_ind c ++ [(e, el, c_bid c)] else c_keys_ind c)
        (if is_jj s el then c_keys_jj c ++ [(e, el, c_bid c, c_wid c)] else c_keys_jj c)
        ps2 pm1 (S (c_bid c)) (c_wid c) (c_kmat c ++ [w])
        (c_cedge c ++ match cap_for_flux_dist (ekind s el) flux_dist (evalue s cap) with
                      | Some x => [x] | None => [] end)
        (c_C c) (c_L c) (c_W c) (c_njwi c)
    else c in
  let pm2 := match partial_mat s el m with
             | Some p => pm_add (c_pm c1) el p | None => c_pm c1 end in
  let ps := if optim then add_to_parameters s (CEl el) (c_params c1) else c_params c1 in
  mkC (c_loops c1) (c_lobj c1) (c_keys_ind c1) (c_keys_jj c1) ps pm2 (c_bid c1) (c_wid c1)
      (c_kmat c1) (c_cedge c1) (c_C c1) (c_L c1) (c_W c1) (c_njwi c1).

(** circuit.py 208-216: sum over the capacitors of the edge, the own capacitor
    of an inductive element included (161-168). *)
Definition eff_cap (s : store) (els : list nat) : R :=
  fold_left (fun acc el => acc +
      (if inductive_el s el then evalue s (ecap s el) else evalue s el)) els 0.

(** circuit.py 218-226: sum of 1/L; a zero inductance raises
    ZeroDivisionError (Python floats). *)
Definition eff_ind (s : store) (els : list nat) : res R :=
  fold_left (fun acc el =>
      do a <- acc;
      if is_ind s el then do x <- pydiv 1 (evalue s el); Ok (a + x) else Ok a)%res els (Ok 0).

(** circuit.py 228-245 *)
Definition junc_in_edge (s : store) (els : list nat) : bool := existsb (is_jj s) els.
Definition junc_without_ind (s : store) (els : list nat) : bool :=
  existsb (is_jj s) els && negb (existsb (is_ind s) els).

(** The body of the edge loop, circuit.py 778-800. *)
Definition process_edge (optim : bool) (s : store) (flux_dist : string) (n : Z)
    (c : cst) (ee : edge * list nat) : res cst :=
  let (e, els) := ee in
  (do w <- w_at_edge n e;
   do m <- matrix_rep n e;
   let c1 := fold_left (process_el optim s flux_dist e w m) els c in
   do il <- eff_ind s els;
   let jj := junc_in_edge s els in
   Ok (mkC (c_loops c1) (c_lobj c1) (c_keys_ind c1) (c_keys_jj c1) (c_params c1) (c_pm c1)
        (c_bid c1) (if jj then S (c_wid c1) else c_wid c1) (c_kmat c1) (c_cedge c1)
        (fun i j => c_C c1 i j + eff_cap s els * IZR (entry m i j))
        (fun i j => c_L c1 i j + il * IZR (entry m i j))
        (if jj then c_W c1 ++ [w] else c_W c1)
        (if junc_without_ind s els then S (c_njwi c1) else c_njwi c1)))%res.

(** State at entry of _get_LCWB: fresh lists, loop objects as they are
    (circuit.py 295-315, 752-776; update 402-408). *)
Definition cst0 (lobj : nat -> lrec) : cst :=
  mkC [] lobj [] [] [] (fun _ => None) 0 0 [] [] (fun _ _ => 0) (fun _ _ => 0) [] 0.

(** circuit.py 743-835 without 802-831 (see FluxDist.v). *)
Definition get_LCWB (optim : bool) (s : store) (flux_dist : string) (n : Z)
    (lobj : nat -> lrec) (elements : list (edge * list nat)) : res cst :=
  if (n <? 0)%Z then Err ValueError
  else fold_left (fun r ee => do c <- r; process_edge optim s flux_dist n c ee)%res
         elements (Ok (cst0 lobj)).

(** circuit.py 286-323: construction up to the matrices; returns n too. *)
Definition build (optim : bool) (s : store) (flux_dist : string) (lobj : nat -> lrec)
    (elements : list (edge * list nat)) : res (Z * cst) :=
  if negb (String.eqb flux_dist "junctions" || String.eqb flux_dist "inductors"
           || String.eqb flux_dist "all") then Err ValueError
  else
    (do n <- node_count (map fst elements);
     do c <- get_LCWB optim s flux_dist n lobj elements;
     Ok (n, c))%res.

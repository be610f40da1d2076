(** CircuitSM.v -- the circuit object as a state machine: construction (circuit.py
    276-395), update (397-440), the parameters setter (511-521), set_trunc_nums
    (1340-1379), set_charge_offset (1381-1404), set_charge_noise (1406-1422),
    hamiltonian (2147-2164) and diag (2016-2049) acting on the attributes they
    read and write, exceptions included: what was written before an exception
    stays written.

    One circuit is followed; the loop objects' bookkeeping attributes are inside
    it ([c_lobj]).  What numpy/scipy/qutip return during a build is an argument
    of the call ([oracle]); [disp] is [qt.displace].  Truncation numbers are at
    least 1 and inductances are not 0 when the Hamiltonian is formed. *)
From Coq Require Import Reals ZArith String.
From Verif.Model Require Import Base Units Settings Edge LCWB Rounding Accuracy HamConst Trunc.
From mathcomp Require Import all_ssreflect all_algebra.
From mathcomp Require Import complex.
From Verif.Numerics Require Import RStruct Bridge.
From Verif.Model Require Import FluxDist Transform Op Ham Diag.

Set Implicit Arguments.
Unset Strict Implicit.
Unset Printing Implicit Defensive.
Import GRing.Theory.
Local Open Scope ring_scope.

(** Outcomes of the numerical routines during one build. *)
Record oracle := mkO {
  o_sv : svd_fun; o_croot : arr; o_D0 : vec; o_U : arr; o_eigL : vec;
  o_tries : nat; o_fuel : nat; o_order : seq R -> seq nat; o_draw : nat -> nat -> seq vec }.

(** [_memory_ops]; the four dictionaries are keyed by (element, b_id). *)
Record mems := mkM {
  M_Q : seq op; M_QQ : seq (seq op); M_phi : seq op; M_N : seq op;
  M_exp : seq op; M_root : seq op;
  M_cos : nat -> nat -> option op; M_sin : nat -> nat -> option op;
  M_half : nat -> nat -> option op; M_ind : nat -> nat -> option op }.

(** circuit.py 361-373, 418-431 *)
Definition mem0 : mems :=
  mkM [::] [:: [::]] [::] [::] [::] [::]
      (fun _ _ => None) (fun _ _ => None) (fun _ _ => None) (fun _ _ => None).

(** The attributes of the circuit.  [x_isl]: the charge islands, one place per
    mode, with offset and noise amplitude (elements.py 693-726). *)
Record circ := mkX {
  x_dict : seq (edge * seq nat); x_fd : string;
  x_c : cst; x_C : arr; x_B : arr; x_st : tst;
  x_isl : seq (option (R * R));
  x_m : seq nat; x_mem : mems; x_LC : option op; x_eig : eigres }.

Definition x_n (x : circ) : nat := t_n (x_st x).
Definition isl (x : circ) (i : nat) : option (R * R) := nth None (x_isl x) i.
Definition ng_of (x : circ) (i : nat) : R := if isl x i is Some p then p.1 else 0.
Definition hof (x : circ) : hin := mkH (x_st x) (x_m x) (ng_of x) (x_C x).

Definition put_build (x : circ) (c : cst) (Cm B : arr) (st : tst) : circ :=
  mkX (x_dict x) (x_fd x) c Cm B st (x_isl x) (x_m x) (x_mem x) (x_LC x) (x_eig x).
Definition put_isl (x : circ) (l : seq (option (R * R))) : circ :=
  mkX (x_dict x) (x_fd x) (x_c x) (x_C x) (x_B x) (x_st x) l (x_m x) (x_mem x) (x_LC x) (x_eig x).
Definition put_m (x : circ) (m : seq nat) : circ :=
  mkX (x_dict x) (x_fd x) (x_c x) (x_C x) (x_B x) (x_st x) (x_isl x) m (x_mem x) (x_LC x) (x_eig x).
Definition put_mem (x : circ) (M : mems) (LC : option op) : circ :=
  mkX (x_dict x) (x_fd x) (x_c x) (x_C x) (x_B x) (x_st x) (x_isl x) (x_m x) M LC (x_eig x).
Definition put_eig (x : circ) (e : eigres) : circ :=
  mkX (x_dict x) (x_fd x) (x_c x) (x_C x) (x_B x) (x_st x) (x_isl x) (x_m x) (x_mem x) (x_LC x) e.

Section Machine.
Variable disp : nat -> C -> op.
Variable optim : bool.

(** circuit.py 778-800 with what has been written when an edge raises. *)
Fixpoint lcwb_run (s : store) (fd : string) (n : Z) (c : cst) (d : seq (edge * seq nat))
    : cst * option exn :=
  match d with
  | [::] => (c, None)
  | (e, els) :: d' =>
      match w_at_edge n e with
      | Err x => (c, Some x)
      | Ok w =>
          match matrix_rep n e with
          | Err x => (c, Some x)
          | Ok m =>
              match process_edge optim s fd n c (e, els) with
              | Ok c' => lcwb_run s fd n c' d'
              | Err x => (fold_left (process_el optim s fd e w m) els c, Some x)
              end
          end
      end
  end.

(** circuit.py 825: [b_mat] rounded; without loops it stays an empty array, whose
    entries are never read. *)
Definition b_of (n : nat) (sv : svd_fun) (c : cst) : res arr :=
  match flux_dist sv n c with
  | Err e => Err e
  | Ok (Some M) => Ok (fun i j => around5 (ofM M i j))
  | Ok None => Ok (fun _ _ => 0)
  end.

(** circuit.py 1170-1186 with what has been written when a step raises. *)
Definition transform_run (o : oracle) (st : tst) : option (tst * option exn) :=
  match trans1 (o_croot o) (o_D0 o) (o_U o) (o_eigL o) st with
  | Err e => Some (st, Some e)
  | Ok (st1, (s1, _)) =>
      let st2 := set_omega st1 in
      let r2 := if t_m st2 == 0%N then Some (st2, None)
                else match trans2 (o_tries o) (o_fuel o) (o_sv o) (o_order o) s1 (o_draw o) 0 st2 with
                     | None => None
                     | Some (Err e) => Some (st2, Some e)
                     | Some (Ok (st3, _)) => Some (st3, None)
                     end in
      match r2 with
      | None => None
      | Some (st3, Some e) => Some (st3, Some e)
      | Some (st3, None) =>
          match trans3 st3 with
          | Err e => Some ((scales3 (t_n st3) st3).1, Some e)
          | Ok (st4, _) => Some (st4, None)
          end
      end
  end.

(** [num_jun_without_ind], W, and S = R = eye are assigned before the inverse of
    C is computed (circuit.py 833, 320-323, 410-411). *)
Definition st_eye (st : tst) (c : cst) : tst :=
  mkT (t_n0 st) (t_n st) (size (c_W c)) (c_njwi c) (rows (c_W c)) eye eye
      (t_cI st) (t_lT st) (t_wT st) (t_om st).

(** circuit.py 1631-1671, the exceptions: self.m is empty or has an entry for
    each mode; a charge mode needs its island. *)
Definition mem_err (x : circ) : option exn :=
  let lacks j := is_charge (x_st x) j && ~~ isSome (isl x j) in
  if x_n x == 0%N then None
  else if (size (x_m x) < x_n x)%N then Some (if lacks 0%N then KeyError else IndexError)
  else if has lacks (iota 0 (x_n x)) then Some KeyError else None.

(** circuit.py 1621-1671 followed by 1731-1757, which reads what was just
    written. *)
Definition build_ops (x : circ) : circ :=
  let h := hof x in
  let r := iota 0 (x_n x) in
  let M := x_mem x in
  put_mem x (mkM [seq opQ h i | i <- r] [seq r_QQ (mem_row h i) | i <- r]
                 [seq opPhi h i | i <- r] [seq opN h i | i <- r]
                 (M_exp M) (M_root M) (M_cos M) (M_sin M) (M_half M) (M_ind M))
            (LC_hamil h).

(** circuit.py 1673-1714 *)
Definition build_exp (x : circ) : circ :=
  let h := hof x in
  let r := iota 0 (t_m (x_st x)) in
  let M := x_mem x in
  put_mem x (mkM (M_Q M) (M_QQ M) (M_phi M) (M_N M)
                 [seq opExp disp h i | i <- r] [seq opRoot disp h i | i <- r]
                 (M_cos M) (M_sin M) (M_half M) (M_ind M))
            (x_LC x).

(** circuit.py 276-395.  Errors leave no object. *)
Definition construct (o : oracle) (s : store) (lobj : nat -> lrec) (fd : string)
    (d : seq (edge * seq nat)) : option (res circ) :=
  match build optim s fd lobj d with
  | Err e => Some (Err e)
  | Ok (nz, c) =>
      let n := Z.to_nat nz in
      match b_of n (o_sv o) c with
      | Err e => Some (Err e)
      | Ok B =>
          match t_init n (size (c_W c)) (c_njwi c) (c_C c) (c_L c) (rows (c_W c)) with
          | Err e => Some (Err e)
          | Ok st0 =>
              match transform_run o st0 with
              | None => None
              | Some (_, Some e) => Some (Err e)
              | Some (st1, None) =>
                  let st := finish_modes optim st1 in
                  Some (Ok (mkX d fd c (c_C c) B st
                    [seq (if is_charge st i then Some (0, noise_default) else None) | i <- iota 0 (t_n st)]
                    [::] mem0 None (mkE [::] [::])))
              end
          end
      end
  end.

(** circuit.py 397-440 *)
Definition update (o : oracle) (s : store) (x : circ) : option (circ * option exn) :=
  let n := x_n x in
  let (c, r) := lcwb_run s (x_fd x) (Z.of_nat n) (cst0 (c_lobj (x_c x))) (x_dict x) in
  match r with
  | Some e => Some (put_build x c (x_C x) (x_B x) (x_st x), Some e)
  | None =>
      match b_of n (o_sv o) c with
      | Err e => Some (put_build x c (x_C x) (x_B x) (x_st x), Some e)
      | Ok B =>
          match t_init n (size (c_W c)) (c_njwi c) (c_C c) (c_L c) (rows (c_W c)) with
          | Err e => Some (put_build x c (c_C c) B (st_eye (x_st x) c), Some e)
          | Ok st0 =>
              match transform_run o st0 with
              | None => None
              | Some (st1, Some e) => Some (put_build x c (c_C c) B st1, Some e)
              | Some (st1, None) =>
                  let x1 := put_mem (put_build x c (c_C c) B st1) mem0 (x_LC x) in
                  match mem_err x1 with
                  | Some e => Some (x1, Some e)
                  | None => Some (put_eig (build_exp (build_ops x1)) (mkE [::] [::]), None)
                  end
              end
          end
      end
  end.

(** circuit.py 1354-1379; [None]: not a list. *)
Definition set_trunc (nums : option (seq nat)) (x : circ) : circ * res unit :=
  match nums with
  | None => (x, Err ValueError)
  | Some l =>
      if size l != x_n x then (x, Err ValueError)
      else
        let x1 := put_m x [seq (if is_charge (x_st x) i then (2 * nth 0 l i).-1 else nth 0%N l i)%N
                          | i <- iota 0 (x_n x)] in
        match mem_err x1 with
        | Some e => (x1, Err e)
        | None => (build_exp (build_ops x1), Ok tt)
        end
  end.

(** [mode - 1 in self.charge_islands]; [None]: not an int. *)
Definition island_of (mode : option Z) (x : circ) : option nat :=
  match mode with
  | None => None
  | Some z => if Z.leb 1 z && isSome (isl x (Z.to_nat (z - 1))) then Some (Z.to_nat (z - 1)) else None
  end.

Definition island_set (x : circ) (i : nat) (f : R * R -> R * R) : circ :=
  put_isl x (set_nth None (x_isl x) i (omap f (isl x i))).

(** circuit.py 1392-1404 *)
Definition set_offset (mode : option Z) (v : R) (x : circ) : circ * res unit :=
  match island_of mode x with
  | None => (x, Err ValueError)
  | Some i =>
      let x1 := island_set x i (fun p => (v, p.2)) in
      if size (x_m x) == 0%N then (x1, Ok tt)
      else match mem_err x1 with
           | Some e => (x1, Err e)
           | None => (build_ops x1, Ok tt)
           end
  end.

(** elements.py 693-726: the methods of Charge that take a number. *)
Definition charge_method (name : string) : option (R -> R * R -> R * R) :=
  lookup [:: ("set_offset"%string, fun v p => (v, p.2)); ("set_noise"%string, fun a p => (p.1, a))] name.

(** circuit.py 1406-1422 *)
Definition set_charge_noise (mode : option Z) (amp : R) (x : circ) : circ * res unit :=
  match island_of mode x with
  | None => (x, Err ValueError)
  | Some i => match charge_method "setNoise" with
              | None => (x, Err AttributeError)
              | Some f => (island_set x i (f amp), Ok tt)
              end
  end.

(** circuit.py 2314-2395 with 'inductive', reading the memory. *)
Definition coupling_mem (x : circ) (M : mems) (e : edge) : res op :=
  match coupling_coef (hof x) Inductive_ e with
  | Err z => Err z
  | Ok k =>
      if (size (M_phi M) < x_n x)%N then Err IndexError
      else match foldl (fun acc i => acc_add acc (oscale (k i)%:C%C (nth (ozero 0) (M_phi M) i))) None
                       (iota 0 (x_n x)) with
           | Some A => Ok A
           | None => Err AttributeError
           end
  end.

Definition dict_put (f : nat -> nat -> option op) (el b : nat) (A : op) : nat -> nat -> option op :=
  fun el' b' => if (el' == el) && (b' == b) then Some A else f el' b'.

(** circuit.py 1797-1808 *)
Definition ind_step (s : store) (loops : seq R) (x : circ) (a : mems * res (option op))
    (k : edge * nat * nat) : mems * res (option op) :=
  let (M, r) := a in
  match r with
  | Err _ => a
  | Ok H =>
      let '(e, el, b) := k in
      match coupling_mem x M e with
      | Err z => (M, Err z)
      | Ok A =>
          (mkM (M_Q M) (M_QQ M) (M_phi M) (M_N M) (M_exp M) (M_root M) (M_cos M) (M_sin M) (M_half M)
               (dict_put (M_ind M) el b A),
           Ok (acc_add H (oscale (ind_coef (evalue s el) (ext_flux loops (x_B x) b))%:C%C A)))
      end
  end.

(** circuit.py 1809-1827 *)
Definition jj_step (s : store) (loops : seq R) (x : circ) (a : mems * res (option op))
    (k : edge * nat * nat * nat) : mems * res (option op) :=
  let (M, r) := a in
  match r with
  | Err _ => a
  | Ok H =>
      let '(_, el, b, w) := k in
      if (size (M_exp M) <= w)%N || (size (M_root M) <= w)%N then (M, Err IndexError)
      else
        let phi := ext_flux loops (x_B x) b in
        let E := oscale (expi phi) (nth (ozero 0) (M_exp M) w) in
        let Rt := oscale (expi (halfR phi)) (nth (ozero 0) (M_root M) w) in
        (mkM (M_Q M) (M_QQ M) (M_phi M) (M_N M) (M_exp M) (M_root M)
             (dict_put (M_cos M) el b (jj_cos E)) (dict_put (M_sin M) el b (jj_sin E))
             (dict_put (M_half M) el b (jj_sin Rt)) (M_ind M),
         Ok (acc_add H (oscale (- evalue s el)%:C%C (jj_cos E))))
  end.

(** circuit.py 2147-2164, 1788-1829 *)
Definition hamil (s : store) (x : circ) : circ * res op :=
  if size (x_m x) == 0%N then (x, Err CircuitStateError)
  else
    let loops := [seq lvalue s l | l <- c_loops (x_c x)] in
    let (M, r) := foldl (jj_step s loops x)
                        (foldl (ind_step s loops x) (x_mem x, Ok None) (c_keys_ind (x_c x)))
                        (c_keys_jj (x_c x)) in
    (put_mem x M (x_LC x),
     match r with
     | Err z => Err z
     | Ok H => match acc_acc H (x_LC x) with Some A => Ok A | None => Err AttributeError end
     end).

(** circuit.py 2016-2049 in the NumPy engine. *)
Definition diag_sm (eigs : eigs_fun) (argsort : seq C -> seq nat) (u : ustate) (k : option Z)
    (s : store) (x : circ) : circ * res (seq R * seq cvec) :=
  if size (x_m x) == 0%N then (x, Err CircuitStateError)
  else if k is None then (x, Err ValueError)
  else
    let (x1, H) := hamil s x in
    let (e, r) := diag eigs argsort u true H k (x_eig x) in
    (put_eig x1 e, r).

(** The methods that serve results of the last diagonalisation, with the guard
    each of them starts with: efreqs (469), evecs (479),
    check_convergence (2110), eig_phase_coord (2222), matrix_elements (2423),
    dec_rate (2561), get_partial_omega (2809) and get_partial_vec (2898). *)
Inductive reader :=
  REfreqs | REvecs | RConv | RPhase | RMatrix | RDecRate | RPartialOmega | RPartialVec.
Definition reader_guard (r : reader) (e : eigres) : res unit :=
  let nf := size (e_freqs e) == 0%N in
  let nv := size (e_vecs e) == 0%N in
  let bad := match r with
             | REfreqs | RDecRate => nf
             | RConv => nf || nv
             | REvecs | RPhase | RMatrix | RPartialOmega | RPartialVec => nv
             end in
  if bad then Err CircuitStateError else Ok tt.

(** A value assigned to a parameter: number, requires_grad, is_leaf. *)
Record pval := mkP { p_val : R; p_req : bool; p_leaf : bool }.
Definition comp_put (s : store) (c : LCWB.comp) (v : pval) : store :=
  match c with
  | CEl i =>
      mkStore (ekind s) (fun j => if j == i then p_val v else evalue s j)
              (fun j => if j == i then p_req v else ereq s j)
              (fun j => if j == i then p_leaf v else eleaf s j)
              (ecap s) (eloops s) (lvalue s) (lreq s) (lleaf s)
  | CLoop i =>
      mkStore (ekind s) (evalue s) (ereq s) (eleaf s) (ecap s) (eloops s)
              (fun j => if j == i then p_val v else lvalue s j)
              (fun j => if j == i then p_req v else lreq s j)
              (fun j => if j == i then p_leaf v else lleaf s j)
  end.

(** circuit.py 515-519 *)
Fixpoint assign (ks : seq LCWB.comp) (vs : seq pval) (s : store) : store * option exn :=
  match ks, vs with
  | [::], _ => (s, None)
  | _ :: _, [::] => (s, Some ValueError)
  | c :: ks', v :: vs' => assign ks' vs' (comp_put s c v)
  end.

(** circuit.py 511-521 *)
Definition set_params (o : oracle) (vs : seq pval) (s : store) (x : circ)
    : option (store * circ * option exn) :=
  if ~~ optim then Some (s, x, Some ModeError)
  else
    let (s1, r) := assign [seq p.1 | p <- c_params (x_c x)] vs s in
    match r with
    | Some e => Some (s1, x, Some e)
    | None => match update o s1 x with
              | None => None
              | Some (x1, r1) => Some (s1, x1, r1)
              end
    end.

(** The calls of a session with one circuit.  [SetComp c v]: what el.set_value or
    loop.set_flux leaves in the component. *)
Inductive call :=
| SetTrunc (nums : option (seq nat))
| SetOffset (mode : option Z) (ng : R)
| SetNoise (mode : option Z) (amp : R)
| SetComp (c : LCWB.comp) (v : pval)
| SetUnit (u : ustate)
| SetParams (vs : seq pval) (o : oracle)
| Update (o : oracle)
| Hamil
| DiagC (eigs : eigs_fun) (argsort : seq C -> seq nat) (k : option Z)
| Read (r : reader).

Record world := mkW { w_s : store; w_u : ustate; w_x : circ }.

Definition unit_res (r : option exn) : res unit := if r is Some e then Err e else Ok tt.
Definition drop_val (T : Type) (r : res T) : res unit :=
  match r with Ok _ => Ok tt | Err e => Err e end.

(** One call; [None]: it does not return. *)
Definition step (w : world) (c : call) : option (world * res unit) :=
  let s := w_s w in let u := w_u w in let x := w_x w in
  match c with
  | SetTrunc l => let (x', r) := set_trunc l x in Some (mkW s u x', r)
  | SetOffset m v => let (x', r) := set_offset m v x in Some (mkW s u x', r)
  | SetNoise m v => let (x', r) := set_charge_noise m v x in Some (mkW s u x', r)
  | SetComp k v => Some (mkW (comp_put s k v) u x, Ok tt)
  | SetUnit u' => Some (mkW s u' x, Ok tt)
  | SetParams vs o => match set_params o vs s x with
                      | None => None
                      | Some (s', x', r) => Some (mkW s' u x', unit_res r)
                      end
  | Update o => match update o s x with
                | None => None
                | Some (x', r) => Some (mkW s u x', unit_res r)
                end
  | Hamil => let (x', r) := hamil s x in Some (mkW s u x', drop_val r)
  | DiagC eigs argsort k =>
      let (x', r) := diag_sm eigs argsort u k s x in Some (mkW s u x', drop_val r)
  | Read r => Some (w, reader_guard r (x_eig x))
  end.

(** A session: after each call the world and what the call returned or raised. *)
Fixpoint run (w : world) (cs : seq call) : option (seq (world * res unit)) :=
  match cs with
  | [::] => Some [::]
  | c :: cs' =>
      match step w c with
      | None => None
      | Some (w1, r) => if run w1 cs' is Some tr then Some ((w1, r) :: tr) else None
      end
  end.
Definition final (w : world) (tr : seq (world * res unit)) : world := last w [seq p.1 | p <- tr].
End Machine.

(** Ham.v -- model of the operators and the Hamiltonian of a circuit
    (circuit.py 1455-1829, 2147-2164, 2314-2395, 2649-2702).

    [h_st] are the attributes written by the transformations, [h_m] is self.m,
    [h_ng i] is [charge_islands[i].value()], [h_C] is self.C. *)
From Coq Require Import Reals ZArith String.
From Verif.Model Require Import Base Units Edge Accuracy HamConst.
From mathcomp Require Import all_ssreflect all_algebra.
From mathcomp Require Import complex.
From Verif.Numerics Require Import RStruct Bridge.
From Verif.Model Require Import Op Transform.

Set Implicit Arguments.
Unset Strict Implicit.
Unset Printing Implicit Defensive.
Import GRing.Theory.
Local Open Scope ring_scope.
Local Open Scope complex_scope.

Record hin := mkH { h_st : tst; h_m : seq nat; h_ng : nat -> R; h_C : arr }.
Definition hn (h : hin) : nat := t_n (h_st h).
Definition hm (h : hin) (i : nat) : nat := nth 0%N (h_m h) i.
Definition hcharge (h : hin) (i : nat) : bool := is_charge (h_st h) i.

(** circuit.py 1455-1469 *)
Definition himp (h : hin) (i : nat) : R :=
  Accuracy.impedance (t_cI (h_st h) i i) (t_lT (h_st h) i i).

(** circuit.py 1471-1499 *)
Definition charge_op_isolated (h : hin) (i : nat) : op :=
  if hcharge h i then
    oscale charge_unit%:C
           (osub (qcharge (hm h i)) (oscale (h_ng h i)%:C (oeye (hm h i))))
  else if hm h i == 1%N then ozero 1
  else oscale (- 'i * (q_zp (himp h i))%:C)
              (osub (destroy (hm h i)) (create (hm h i))).

(** circuit.py 1501-1527 *)
Definition flux_op_isolated (h : hin) (i : nat) : op :=
  if hcharge h i then oeye (hm h i)
  else if hm h i == 1%N then ozero 1
  else oscale (f_zp (himp h i))%:C (oadd (destroy (hm h i)) (create (hm h i))).

(** circuit.py 1529-1550 *)
Definition num_op_isolated (h : hin) (i : nat) : op :=
  if hcharge h i then qcharge (hm h i) else num (hm h i).

(** circuit.py 1552-1583 *)
Definition d_op_isolated (m : nat) (w : R) : op :=
  if w == 0 then oeye m
  else let d := Op m (fun k j => if j == k.+1 then 1 else 0) in
       if Rlt_dec w 0 then d else oadj d.

(** circuit.py 1585-1601 *)
Definition hphi_zp (h : hin) (i : nat) : R :=
  Accuracy.phi_zp (t_cI (h_st h) i i) (t_lT (h_st h) i i).

(** circuit.py 1603-1619 *)
Definition alpha (h : hin) (i j : nat) : C := 'i * (hphi_zp h j * t_wT (h_st h) i j)%:C.

(** circuit.py 1621-1671, one pass of the outer loop: the growing lists Q, num
    and flux, and charges_row. *)
Record mrow := mkRow { r_Q : seq op; r_QQ : seq op; r_num : seq op; r_flux : seq op }.
Definition mem_step (h : hin) (i : nat) (r : mrow) (j : nat) : mrow :=
  let rest := [seq oeye (hm h k) | k <- iota j.+1 (hn h - j.+1)] in
  if i == j then
    let Q_iso := charge_op_isolated h j in
    mkRow (rcons (r_Q r) Q_iso)
          (rcons (r_QQ r) (otensor (rcons (r_Q r) (omul Q_iso Q_iso) ++ rest)))
          (rcons (r_num r) (num_op_isolated h j)) (rcons (r_flux r) (flux_op_isolated h j))
  else
    mkRow (rcons (r_Q r) (oeye (hm h j)))
          (if (i < j)%N then rcons (r_QQ r) (otensor (rcons (r_Q r) (charge_op_isolated h j) ++ rest))
           else r_QQ r)
          (rcons (r_num r) (oeye (hm h j))) (rcons (r_flux r) (oeye (hm h j))).
Definition mem_row (h : hin) (i : nat) : mrow :=
  foldl (mem_step h i) (mkRow [::] [::] [::] [::]) (iota 0 (hn h)).

(** [self._memory_ops['Q'][i]] and so on. *)
Definition opQ (h : hin) (i : nat) : op := otensor (r_Q (mem_row h i)).
Definition opN (h : hin) (i : nat) : op := otensor (r_num (mem_row h i)).
Definition opPhi (h : hin) (i : nat) : op := otensor (r_flux (mem_row h i)).
Definition opQQ (h : hin) (i j : nat) : op := nth (ozero 0) (r_QQ (mem_row h i)) j.

(** circuit.py 1673-1714.  [disp m a] is [qt.displace(m, a)]. *)
Definition exp_iso (disp : nat -> C -> op) (h : hin) (i j : nat) : op :=
  if hcharge h j then d_op_isolated (hm h j) (t_wT (h_st h) i j)
  else if hm h j == 1%N then oeye 1 else disp (hm h j) (alpha h i j).
Definition root_iso (disp : nat -> C -> op) (h : hin) (i j : nat) : op :=
  if hcharge h j then oeye (hm h j)
  else if hm h j == 1%N then oeye 1 else disp (hm h j) (alpha h i j / 2%:R).
Definition opExp (disp : nat -> C -> op) (h : hin) (i : nat) : op :=
  otensor [seq exp_iso disp h i j | j <- iota 0 (hn h)].
Definition opRoot (disp : nat -> C -> op) (h : hin) (i : nat) : op :=
  otensor [seq root_iso disp h i j | j <- iota 0 (hn h)].

(** circuit.py 1716-1729 *)
Definition quad_cI (h : hin) : arr :=
  fun i j => if i == j then halfR (t_cI (h_st h) i j) else t_cI (h_st h) i j.

(** circuit.py 1731-1757 *)
Definition LC_term (h : hin) (i : nat) (acc : option op) (j : nat) : option op :=
  if j == 0%N then
    if hcharge h i then acc_add acc (oscale (quad_cI h i i)%:C (opQQ h i j))
    else acc_add acc (oscale (t_om (h_st h) i)%:C (opN h i))
  else if t_cI (h_st h) i (i + j)%N != 0 then acc_add acc (oscale (quad_cI h i (i + j)%N)%:C (opQQ h i j))
  else acc.
Definition LC_hamil (h : hin) : option op :=
  foldl (fun acc i => foldl (LC_term h i) acc (iota 0 (hn h - i))) None (iota 0 (hn h)).

(** circuit.py 1759-1786; [loops] are the values of self.loops in order. *)
Definition ext_flux (loops : seq R) (B : arr) (b : nat) : R :=
  \sum_(i < size loops) nth 0 loops i * B b i.

(** circuit.py 2314-2395.  [None] as coupling type: neither of the two strings.
    Row indices follow numpy (negative from the end, IndexError outside). *)
Inductive ctype := Capacitive | Inductive_.
Definition np_row (n0 : nat) (z : Z) : res nat :=
  match py_index n0 z with Some i => Ok i | None => Err IndexError end.
Definition coupling_mat (h : hin) (ct : ctype) : res arr :=
  match ct with
  | Capacitive => match inv (t_n0 (h_st h)) (h_C h) with
                  | Ok ci => Ok (mmul (t_n0 (h_st h)) ci (t_R (h_st h)))
                  | Err e => Err e
                  end
  | Inductive_ => Ok (t_S (h_st h))
  end.
Definition mode_op (h : hin) (ct : ctype) : nat -> op :=
  match ct with Capacitive => opQ h | Inductive_ => opPhi h end.
Definition coupling_coef (h : hin) (ct : ctype) (e : edge) : res (nat -> R) :=
  match coupling_mat h ct with
  | Err x => Err x
  | Ok K =>
      let n0 := t_n0 (h_st h) in
      let (a, b) := e in
      if Z.eqb a 0 || Z.eqb b 0 then
        match np_row n0 (a + b - 1) with
        | Ok r => Ok (fun i => K r i) | Err x => Err x end
      else
        match np_row n0 (a - 1), np_row n0 (b - 1) with
        | Ok ra, Ok rb =>
            Ok (fun i => match ct with
                         | Capacitive => K rb i - K ra i
                         | Inductive_ => K ra i - K rb i end)
        | Err x, _ | _, Err x => Err x
        end
  end.
Definition coupling_op (h : hin) (ct : option ctype) (e : edge) : res op :=
  match ct with
  | None => Err ValueError
  | Some ct =>
      match coupling_coef h ct e with
      | Err x => Err x
      | Ok k =>
          match foldl (fun acc i => acc_add acc (oscale (k i)%:C (mode_op h ct i))) None
                      (iota 0 (hn h)) with
          | Some A => Ok A
          | None => Err AttributeError
          end
      end
  end.

(** circuit.py 1796-1808; [val el] is [el.get_value()]. *)
Definition ind_term (h : hin) (val : nat -> R) (loops : seq R) (B : arr)
    (acc : res (option op)) (k : edge * nat * nat) : res (option op) :=
  match acc with
  | Err x => Err x
  | Ok H =>
      let '(e, el, b) := k in
      match coupling_op h (Some Inductive_) e with
      | Err x => Err x
      | Ok A =>
          Ok (acc_add H (oscale (ind_coef (val el) (ext_flux loops B b))%:C A))
      end
  end.

(** circuit.py 1809-1829 *)
Definition jj_cos (E : op) : op := oscale (2%:R)^-1 (oadd E (oadj E)).
Definition jj_sin (E : op) : op := oscale (2%:R * 'i)^-1 (osub E (oadj E)).
Definition jj_exp (disp : nat -> C -> op) (h : hin) (phi : R) (w : nat) : op :=
  oscale (expi phi) (opExp disp h w).
Definition jj_root (disp : nat -> C -> op) (h : hin) (phi : R) (w : nat) : op :=
  oscale (expi (halfR phi)) (opRoot disp h w).
Definition jj_term (disp : nat -> C -> op) (h : hin) (val : nat -> R) (loops : seq R) (B : arr)
    (acc : option op) (k : edge * nat * nat * nat) : option op :=
  let '(_, el, b, w) := k in
  acc_add acc (oscale (- val el)%:C (jj_cos (jj_exp disp h (ext_flux loops B b) w))).

Record keys := mkKeys { k_ind : seq (edge * nat * nat); k_jj : seq (edge * nat * nat * nat) }.

(** circuit.py 1788-1829 *)
Definition ind_hamil (disp : nat -> C -> op) (h : hin) (val : nat -> R) (loops : seq R) (B : arr)
    (ks : keys) : res (option op) :=
  match foldl (ind_term h val loops B) (Ok None) (k_ind ks) with
  | Err x => Err x
  | Ok H => Ok (foldl (jj_term disp h val loops B) H (k_jj ks))
  end.

(** circuit.py 2147-2164; int 0 has no [to]. *)
Definition hamiltonian (disp : nat -> C -> op) (h : hin) (val : nat -> R) (loops : seq R) (B : arr)
    (ks : keys) : res op :=
  if size (h_m h) == 0%N then Err CircuitStateError
  else match ind_hamil disp h val loops B ks with
       | Err x => Err x
       | Ok H => match acc_acc H (LC_hamil h) with
                 | Some A => Ok A
                 | None => Err AttributeError
                 end
       end.

(** circuit.py 2649-2672 *)
Definition quadratic_Q (h : hin) (A : arr) : option op :=
  foldl (fun acc i => foldl (fun acc j =>
      acc_add acc (oscale (if j == 0%N then halfR (A i (i + j)%N) else A i (i + j)%N)%:C (opQQ h i j)))
      acc (iota 0 (hn h - i))) None (iota 0 (hn h)).

(** circuit.py 2674-2702; [len(self.omega != 0)] is the number of modes. *)
Definition quadratic_phi (h : hin) (A : arr) : option op :=
  foldl (fun acc i => foldl (fun acc j =>
      if i == j then acc_add acc (oscale (halfR (A i i))%:C (omul (opPhi h i) (opPhi h i)))
      else if (i < j)%N then acc_add acc (oscale (A i j)%:C (omul (opPhi h i) (opPhi h j)))
      else acc)
      acc (iota 0 (hn h))) None (iota 0 (hn h)).

(** Transform.v -- model of the coordinate transformations of a circuit
    (circuit.py 315-345 and 837-1186).

    Arrays are index functions with explicit sizes.  [np.linalg.inv] is
    mathcomp's inverse guarded by invertibility.  What numpy/scipy return for the
    matrix square roots, the SVD, the eigenvalues, the sorting order and the
    random numbers are arguments.  Numbers are exact; matrices are real (the
    conversions to_numpy are dropped). *)
From Coq Require Import Reals ZArith.
From Verif.Model Require Import Base Units Edge LCWB Rounding Accuracy.
From mathcomp Require Import all_ssreflect all_algebra.
From Verif.Numerics Require Import RStruct Bridge.
From Verif.Model Require Import FluxDist.

Set Implicit Arguments.
Unset Strict Implicit.
Unset Printing Implicit Defensive.
Import GRing.Theory.
Local Open Scope ring_scope.

Definition arr := nat -> nat -> R.
Definition vec := nat -> R.

(** Matrix product over an inner dimension [p], transpose, identity, diagonal. *)
Definition mmul (p : nat) (A B : arr) : arr := fun i j => \sum_(k < p) A i k * B k j.
Definition tr (A : arr) : arr := fun i j => A j i.
Definition eye : arr := fun i j => if i == j then 1 else 0.
Definition dg (v : vec) : arr := fun i j => if i == j then v i else 0.

(** [np.linalg.inv] of an n x n array. *)
Definition inv (n : nat) (A : arr) : res arr :=
  if toM n n A \in unitmx then Ok (ofM (invmx (toM n n A))) else Err LinAlgError.

(** The transformation attributes of a circuit: t_n0 nodes, t_n modes, t_m rows
    of W, and the arrays S, R, cInvTrans, lTrans, wTrans, omega. *)
Record tst := mkT {
  t_n0 : nat; t_n : nat; t_m : nat; t_njwi : nat;
  t_W : arr;
  t_S : arr; t_R : arr; t_cI : arr; t_lT : arr; t_wT : arr; t_om : vec
}.

(** circuit.py 317-333 *)
Definition t_init (n m njwi : nat) (C L W : arr) : res tst :=
  match inv n C with
  | Err e => Err e
  | Ok cI => Ok (mkT n n m njwi W eye eye cI L W (fun=> 0))
  end.

(** circuit.py 882-900 *)
Definition apply_tr (s r : arr) (st : tst) : tst :=
  let n := t_n st in
  mkT (t_n0 st) n (t_m st) (t_njwi st) (t_W st)
      (mmul n (t_S st) s) (mmul n (t_R st) r)
      (mmul n (mmul n (tr r) (t_cI st)) r) (mmul n (mmul n (tr s) (t_lT st)) s)
      (if t_m st == 0%N then t_wT st else mmul n (t_wT st) s) (t_om st).

(** circuit.py 902-939.  [croot] is sqrtm(C), [D0] and [U] the singular values
    and right factor of the SVD, [eigL] the eigenvalues of L. *)
Definition sing_locs (n : nat) (D0 : vec) (eigL : vec) : seq nat :=
  if rmax n D0 == 0 then iota 0 n
  else let k := count (fun i => Rltb (eigL i / rmax n eigL) acc_sing) (iota 0 n) in
       iota (n - k) k.
Definition scale_of (n : nat) (D0 : vec) (eigL : vec) : vec :=
  if rmax n D0 == 0 then fun=> 1
  else fun i => if i \in sing_locs n D0 eigL then rmax n D0 else D0 i.
Definition zero_diag (locs : seq nat) (A : arr) : arr :=
  fun i j => if (i == j) && (i \in locs) then 0 else A i j.
Definition set_lT (st : tst) (l : arr) : tst :=
  mkT (t_n0 st) (t_n st) (t_m st) (t_njwi st) (t_W st) (t_S st) (t_R st) (t_cI st) l (t_wT st) (t_om st).
Definition trans1 (croot : arr) (D0 : vec) (U : arr) (eigL : vec) (st : tst)
    : res (tst * (arr * arr)) :=
  let n := t_n st in
  match inv n croot with
  | Err e => Err e
  | Ok cri =>
      let s1 := mmul n (mmul n cri (tr U)) (dg (fun i => sqrt (scale_of n D0 eigL i))) in
      match inv n s1 with
      | Err e => Err e
      | Ok s1i =>
          let r1 := tr s1i in
          let st1 := apply_tr s1 r1 st in
          Ok (set_lT st1 (zero_diag (sing_locs n D0 eigL) (t_lT st1)), (s1, r1))
      end
  end.

(** circuit.py 1178 *)
Definition set_omega (st : tst) : tst :=
  mkT (t_n0 st) (t_n st) (t_m st) (t_njwi st) (t_W st) (t_S st) (t_R st) (t_cI st) (t_lT st) (t_wT st)
      (fun i => sqrt (t_cI st i i * t_lT st i i)).

Definition is_charge (st : tst) (i : nat) : bool := t_om st i == 0.

(** circuit.py 942-978.  [order]: numpy's argsort of the negated row norms. *)
Definition gs_resid (n : nat) (a : vec) (basis : seq vec) : vec :=
  fun k => a k - \sum_(e <- basis) (\sum_(l < n) a l * e l) * e k.
Definition gs_step (n : nat) (rows : seq vec) (acc : seq nat * seq vec) (i : nat)
    : seq nat * seq vec :=
  let a0 := nth (fun=> 0) rows i in
  let a := fun k => a0 k / (vnorm n a0 + gs_reg)%R in
  let a' := gs_resid n a acc.2 in
  if any_big n a' then (rcons acc.1 i, rcons acc.2 (fun k => a' k / vnorm n a')) else acc.
Definition independent_rows (order : seq R -> seq nat) (n : nat) (rows : seq vec)
    : seq nat * seq vec :=
  foldl (gs_step n rows) ([::], [::]) (order [seq vnorm n r | r <- rows]).

(** circuit.py 980-1008 *)
Definition round_zero_one (st : tst) (w : arr) : arr :=
  fun i j => if is_charge st j then round01 (if t_njwi st == 0%N then 0 else w i j) else w i j.

(** circuit.py 1010-1035 *)
Definition gs_successful (st : tst) (s : arr) : bool :=
  let w := round_zero_one st (mmul (t_n st) (t_wT st) s) in
  all (fun j => is_charge st j ==>
         all (fun i => (Rabs (w i j) == 0) || (Rabs (w i j) == 1)) (iota 0 (t_m st)))
      (iota 0 (t_n st)).

(** circuit.py 1059-1112: one attempt at the second transformation.  [draw a k]
    are the random rows of the k-th pass of the while loop in attempt a.  [None]
    is a while loop that does not stop within [fuel] passes. *)
Definition charge_modes (st : tst) : seq nat := [seq j <- iota 0 (t_n st) | is_charge st j].

Definition w_charge (sv : svd_fun) (S1 : arr) (st : tst) : seq vec :=
  let sel := kept_columns sv (t_n0 st) (t_m st) (tr (t_W st)) in
  let cm := charge_modes st in
  [seq (fun j => mmul (t_n0 st) (t_W st) S1 i (nth 0%N cm j)) | i <- sel].

Definition fro (n : nat) (rows : seq vec) : R :=
  sqrt (\sum_(r <- rows) \sum_(l < n) r l * r l).

Fixpoint basis_loop (fuel : nat) (order : seq R -> seq nat) (nq : nat) (w : seq vec)
    (draw : nat -> seq vec) (k : nat) (ind : seq nat) (rnd basis : seq vec)
    : option (seq nat * seq vec) :=
  if size basis == nq then Some (ind, rnd)
  else match fuel with
       | O => None
       | f.+1 =>
           if size basis == 0%N then
             let ib := independent_rows order nq w in
             basis_loop f order nq w draw k ib.1 rnd ib.2
           else
             let r := [seq (fun j => fro nq w * v j) | v <- take (nq - size basis) (draw k)] in
             basis_loop f order nq w draw k.+1 ind r (independent_rows order nq (basis ++ r)).2
       end.

(** block_diag(eye(n - nq), inv(f_mat)) *)
Definition block_low (n nq : nat) (F : arr) : arr :=
  fun i j => if ((i < n - nq) || (j < n - nq))%N then eye i j else F (i - (n - nq))%N (j - (n - nq))%N.

Definition attempt2 (fuel : nat) (sv : svd_fun) (order : seq R -> seq nat) (S1 : arr)
    (draw : nat -> seq vec) (st : tst) : option (res (arr * arr)) :=
  let n := t_n st in
  let nq := size (charge_modes st) in
  if (t_m st == 0%N) || (nq == 0%N) || (t_njwi st == 0%N) then Some (Ok (eye, eye))
  else
    let w := w_charge sv S1 st in
    match basis_loop fuel order nq w draw 0 [::] [::] [::] with
    | None => None
    | Some (ind, rnd) =>
        let f := [seq nth (fun=> 0) w i | i <- ind] ++ rnd in
        if size f != nq then Some (Err LinAlgError)
        else match inv nq (fun i => nth (fun=> 0) f i) with
             | Err e => Some (Err e)
             | Ok fi =>
                 let s2 := block_low n nq fi in
                 match inv n (tr s2) with
                 | Err e => Some (Err e)
                 | Ok r2 => Some (Ok (s2, r2))
                 end
             end
    end.

Definition set_wT (st : tst) (w : arr) : tst :=
  mkT (t_n0 st) (t_n st) (t_m st) (t_njwi st) (t_W st) (t_S st) (t_R st) (t_cI st) (t_lT st) w (t_om st).

(** circuit.py 1047-1121: attempts until one succeeds; Python's recursion limit
    allows [tries] of them. *)
Fixpoint trans2 (tries fuel : nat) (sv : svd_fun) (order : seq R -> seq nat) (S1 : arr)
    (draw : nat -> nat -> seq vec) (a : nat) (st : tst) : option (res (tst * (arr * arr))) :=
  match tries with
  | O => Some (Err RecursionError)
  | t.+1 =>
      match attempt2 fuel sv order S1 (draw a) st with
      | None => None
      | Some (Err e) => Some (Err e)
      | Some (Ok (s2, r2)) =>
          if gs_successful st s2 then
            let st' := apply_tr s2 r2 st in
            Some (Ok (set_wT st' (round_zero_one st' (t_wT st')), (s2, r2)))
          else trans2 t fuel sv order S1 draw a.+1 st
      end
  end.

(** circuit.py 1123-1168.  [alphas st j i]: |alpha(i, j)| (1603-1619). *)
Definition alphas (st : tst) (j : nat) (i : nat) : R :=
  Rabs (phi_zp (t_cI st j j) (t_lT st j j) * t_wT st i j)%R.
Definition col_set (w : arr) (j : nat) (f : nat -> R) : arr :=
  fun i k => if k == j then f i else w i k.
Definition scale3 (st : tst) (j : nat) : tst * R :=
  if is_charge st j then (st, 1)
  else if t_m st != 0%N then
    let al := alphas st j in
    let st' := set_wT st (col_set (t_wT st) j
                 (fun i => if Rltb (al i) acc_har then 0 else t_wT st i j)) in
    if Rltb acc_har (rmax (t_m st) al)
    then (st', 1 / Rabs (t_wT st' (argmax (t_m st) al) j))
    else (st', 1 / rmax (t_n0 st) (fun i => Rabs (t_S st i j)))
  else (st, 1 / rmax (t_n0 st) (fun i => Rabs (t_S st i j))).
Fixpoint scales3 (n : nat) (st : tst) : tst * vec :=
  match n with
  | O => (st, fun=> 1)
  | j.+1 => let (st', v) := scales3 j st in
            let (st'', x) := scale3 st' j in
            (st'', fun k => if k == j then x else v k)
  end.
Definition trans3 (st : tst) : res (tst * (arr * arr)) :=
  let (st', v) := scales3 (t_n st) st in
  let s3 := dg v in
  match inv (t_n st) (tr s3) with
  | Err e => Err e
  | Ok r3 => Ok (apply_tr s3 r3 st', (s3, r3))
  end.

(** circuit.py 1170-1186 *)
Definition transform_hamil (croot : arr) (D0 : vec) (U : arr) (eigL : vec)
    (tries fuel : nat) (sv : svd_fun) (order : seq R -> seq nat)
    (draw : nat -> nat -> seq vec) (st : tst) : option (res tst) :=
  match trans1 croot D0 U eigL st with
  | Err e => Some (Err e)
  | Ok (st1, (s1, _)) =>
      let st2 := set_omega st1 in
      let r2 := if t_m st2 == 0%N then Some (Ok st2)
                else match trans2 tries fuel sv order s1 draw 0 st2 with
                     | None => None
                     | Some (Err e) => Some (Err e)
                     | Some (Ok (st3, _)) => Some (Ok st3)
                     end in
      match r2 with
      | None => None
      | Some (Err e) => Some (Err e)
      | Some (Ok st3) => match trans3 st3 with
                         | Err e => Some (Err e)
                         | Ok (st4, _) => Some (Ok st4)
                         end
      end
  end.

(** circuit.py 837-846 *)
Definition uncoupled (st : tst) : seq nat :=
  [seq j <- iota 0 (t_n st) |
     count (fun i => t_wT st i j == 0) (iota 0 (t_m st)) == t_m st].

(** [np.delete(a, idx)] of the indices 0..n-1: the remaining ones in order. *)
Definition kept_modes (st : tst) : seq nat :=
  [seq j <- iota 0 (t_n st) | j \notin uncoupled st].

(** circuit.py 848-863.  S and R keep their columns. *)
Definition remove_uncoupled (st : tst) : tst :=
  let kp := kept_modes st in
  let ix := fun i => nth i kp i in
  mkT (t_n0 st) (t_n st - size (uncoupled st)) (t_m st) (t_njwi st) (t_W st)
      (t_S st) (t_R st)
      (fun i j => t_cI st (ix i) (ix j)) (fun i j => t_lT st (ix i) (ix j))
      (fun i j => t_wT st i (ix j)) (fun i => t_om st (ix i)).

(** circuit.py 2124-2145 *)
Definition coord_transform (charge : bool) (st : tst) : res arr :=
  if charge then inv (t_n0 st) (t_R st) else inv (t_n0 st) (t_S st).

(** circuit.py 343-344: at construction, not in the PyTorch engine. *)
Definition finish_modes (optim : bool) (st : tst) : tst :=
  if (t_m st != 0%N) && ~~ optim then remove_uncoupled st else st.

(** Edge.v -- model of the per-edge arrays built by SQcircuit/circuit.py
    (CircuitEdge) and of the node count.  Node labels are Python ints (Z); array
    writes follow Python/numpy indexing with wrap-around of negative indices and
    IndexError outside the range. *)
From Verif.Model Require Import Base.
Open Scope Z_scope.

Definition edge := (Z * Z)%type.

(** Python tuple comparison: lexicographic. *)
Definition edge_ltb (a b : edge) : bool :=
  (fst a <? fst b) || ((fst a =? fst b) && (snd a <? snd b)).

(** [max(elements)] over the dict keys: the first greatest key. *)
Definition max_edge (es : list edge) : res edge :=
  match es with
  | [] => Err ValueError
  | e :: es' => Ok (fold_left (fun m x => if edge_ltb m x then x else m) es' e)
  end.

(** circuit.py 299: [self.n = max(max(self.elements))] *)
Definition node_count (es : list edge) : res Z :=
  (do e <- max_edge es; Ok (Z.max (fst e) (snd e)))%res.

(** [l[z] += d] *)
Definition py_add (l : list Z) (z d : Z) : res (list Z) :=
  (do x <- py_get l z; py_set l z (x + d))%res.

(** circuit.py 78-92: [_set_w_at_edge]; [(n+1)*[0]] is empty when n+1 <= 0. *)
Definition w_at_edge (n : Z) (e : edge) : res (list Z) :=
  let (i1, i2) := e in
  let w := repeat 0 (Z.to_nat (n + 1)) in
  (do w <- (if (i1 =? 0) || (i2 =? 0) then py_add w (i1 + i2) 1
            else do w <- py_add w i1 1; py_add w i2 (-1));
   Ok (tl w))%res.

(** [a[i, j] = v] on a numpy array stored as a list of rows. *)
Definition np_set2 (a : list (list Z)) (i j v : Z) : res (list (list Z)) :=
  (do row <- py_get a i;
   do row' <- py_set row j v;
   py_set a i row')%res.

(** circuit.py 94-113: [_set_matrix_rep]; [np.zeros] rejects a negative size. *)
Definition matrix_rep (n : Z) (e : edge) : res (list (list Z)) :=
  if n <? 0 then Err ValueError
  else
    let a := repeat (repeat 0 (Z.to_nat n)) (Z.to_nat n) in
    (if (fst e =? 0) || (snd e =? 0) then
       let i := fst e + snd e - 1 in np_set2 a i i 1
     else
       let i := fst e - 1 in
       let j := snd e - 1 in
       do a <- np_set2 a i i 1;
       do a <- np_set2 a j j 1;
       do a <- np_set2 a i j (-1);
       np_set2 a j i (-1))%res.

(** Entry of a row-list matrix as an integer (0 outside). *)
Definition entry (a : list (list Z)) (i j : nat) : Z := nth j (nth i a []) 0.

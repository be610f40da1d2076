(** Texts.v -- model of loop_description() and element_description() (circuit.py
    1302-1338, texts.py 156-212).

    Names of elements and loops are arguments ([eid], [lid]), and so is the way
    Python prints a float ([fmt], with its format specification).  Python string
    lengths are those of [string]. *)
From Coq Require Import Ascii String Lia.
From Verif.Model Require Import Base Units Elements Edge LCWB Symbolic.
Open Scope list_scope.
Open Scope string_scope.

Definition nl : string := String (ascii_of_nat 10) "".
Definition tab : string := String (ascii_of_nat 9) "".

(** [n * c] *)
Fixpoint rep (n : nat) (c : string) : string :=
  match n with O => "" | S k => c ++ rep k c end.

(** [f'{s:{w}}']: left-justified, never cut. *)
Definition ljust (w : nat) (s : string) : string := s ++ rep (w - String.length s) " ".

(** [max] of a list of lengths *)
Definition maxlen (l : list string) : res nat :=
  match l with [] => Err ValueError | _ => Ok (fold_right Nat.max 0%nat (map String.length l)) end.

(** [str(n)] *)
Definition digit (d : nat) : ascii := ascii_of_nat (48 + d).
Fixpoint dec_aux (fuel n : nat) (acc : string) : string :=
  match fuel with
  | O => acc
  | S k => let acc' := String (digit (n mod 10)) acc in
           if (n / 10 =? 0)%nat then acc' else dec_aux k (n / 10) acc'
  end.
Definition decimal (n : nat) : string := dec_aux (S n) n "".
Definition decimalZ (z : Z) : string :=
  match z with Zneg p => "-" ++ decimal (Pos.to_nat p) | _ => decimal (Z.to_nat z) end.

(** texts.py 184-191: the element found last. *)
Definition row_element (c : cst) (i : nat) : option nat :=
  fold_left (fun acc k => let '(_, el, b, _) := k in if (i =? b)%nat then Some el else acc) (c_keys_jj c)
    (fold_left (fun acc k => let '(_, el, b) := k in if (i =? b)%nat then Some el else acc) (c_keys_ind c) None).

(** texts.py 193-197 *)
Definition row_text (eid : nat -> string) (fmt : R -> string) (nr nh ncols : nat) (B : nat -> nat -> R)
    (el i : nat) : string :=
  ljust nr (eid el) ++ ljust 10 (", b" ++ decimal (i + 1) ++ ":") ++
  String.concat "" (map (fun j => ljust (nh + 10) (fmt (np_round 2 (Rabs (B i j))))) (seq 0 ncols)).

(** texts.py 156-199; [nrows]: [cr.B.shape[0]]. *)
Definition loop_description (eid lid : nat -> string) (fmt : R -> string) (c : cst)
    (nrows : nat) (B : nat -> nat -> R) : res string :=
  (do nr <- maxlen (map (fun k => let '(_, el, _, _) := k in eid el) (c_keys_jj c) ++
                    map (fun k => let '(_, el, _) := k in eid el) (c_keys_ind c));
   do nh <- maxlen (map lid (c_loops c));
   let header := rep (nr + 5 + 5) " " ++
                 String.concat (rep 10 " ") (map (fun l => ljust nh (lid l)) (c_loops c)) in
   fold_left (fun r i =>
       do t <- r;
       match row_element c i with
       | None => Err AttributeError
       | Some el => Ok (t ++ row_text eid fmt nr nh (List.length (c_loops c)) B el i ++ nl)
       end)
     (seq 0 nrows) (Ok (header ++ nl ++ rep (String.length header) "-" ++ nl)))%res.

(** texts.py 14-18; elements.py 134, 278, 460. *)
Definition type_name (k : kind) : string :=
  match k with KCap => "C" | KInd => "L" | KJJ => "JJ" end.
Definition value_unit (k : kind) : string :=
  match k with KCap => "F" | KInd => "H" | KJJ => "Hz" end.

(** texts.py 206-209; [sub el]: type(el) is VerySmallCap or VeryLargeCap, which is
    no key of ELEMENT_NAMES. *)
Definition el_line (s : store) (sub : nat -> bool) (fmt : R -> string) (el : nat) : res string :=
  if sub el then Err KeyError
  else (do v <- get_value (Some (value_unit (ekind s el))) (mkEl (ekind s el) (evalue s el) 0 false);
        Ok (tab ++ type_name (ekind s el) ++ " = " ++ fmt v ++ " " ++ value_unit (ekind s el) ++ nl))%res.

(** texts.py 202-212 *)
Definition element_description (s : store) (sub : nat -> bool) (fmt : R -> string)
    (elements : list (edge * list nat)) : res string :=
  fold_left (fun r ee =>
      do t <- r;
      fold_left (fun r el => do t <- r; do x <- el_line s sub fmt el; Ok (t ++ x))%res (snd ee)
        (Ok (t ++ "Edge (" ++ decimalZ (fst (fst ee)) ++ ", " ++ decimalZ (snd (fst ee)) ++ "):" ++ nl)))%res
    elements (Ok "").

(** TextSpec.v -- reading printed tables: lines, columns, numbers. *)
From Coq Require Import Ascii String.
From Verif.Model Require Import Base Units Elements Edge LCWB.
Open Scope list_scope.
Open Scope string_scope.

(** The lines of a text: what is between line feeds. *)
Fixpoint lines (s : string) : list string :=
  match s with
  | "" => [""]
  | String c r =>
      if (nat_of_ascii c =? 10)%nat then "" :: lines r
      else match lines r with l :: ls => String c l :: ls | [] => [] end
  end.

Fixpoint on_line (s : string) : Prop :=
  match s with "" => True | String c r => nat_of_ascii c <> 10%nat /\ on_line r end.

(** [s] is [t] and then only blanks. *)
Fixpoint blank (s : string) : Prop :=
  match s with "" => True | String c r => nat_of_ascii c = 32%nat /\ blank r end.
Definition shows (s t : string) : Prop := exists r, blank r /\ s = t ++ r.

(** The longest of some names. *)
Definition longest (l : list string) (n : nat) : Prop :=
  (forall s, In s l -> (String.length s <= n)%nat) /\ exists s, In s l /\ String.length s = n.

(** A number written in decimal digits. *)
Fixpoint reads_from (a : nat) (s : string) : option nat :=
  match s with
  | "" => Some a
  | String c r => let d := nat_of_ascii c in
      if (48 <=? d)%nat && (d <=? 57)%nat then reads_from (10 * a + (d - 48))%nat r else None
  end.
Definition reads (s : string) : option nat := match s with "" => None | _ => reads_from 0 s end.
Definition readsZ (s : string) : option Z :=
  match s with
  | String c r => if (nat_of_ascii c =? 45)%nat then option_map (fun n => Z.opp (Z.of_nat n)) (reads r)
                  else option_map Z.of_nat (reads s)
  | "" => None
  end.

(** ** The list of elements: a line for every edge, then its elements. *)
Definition items (d : list (edge * list nat)) : list (edge + nat) :=
  flat_map (fun ee => inl (fst ee) :: map inr (snd ee)) d.

Definition short_name (k : kind) : string :=
  match k with KCap => "C" | KInd => "L" | KJJ => "JJ" end.
Definition si_unit (k : kind) : string :=
  match k with KCap => "F" | KInd => "H" | KJJ => "Hz" end.

Definition item_line (kind_of : nat -> kind) (value : nat -> R) (fmt : R -> string)
    (x : edge + nat) (t : string) : Prop :=
  match x with
  | inl e => exists a b, t = "Edge (" ++ a ++ ", " ++ b ++ "):" /\ readsZ a = Some (fst e) /\ readsZ b = Some (snd e)
  | inr el => exists c, nat_of_ascii c = 9%nat /\
      t = String c (short_name (kind_of el) ++ " = " ++ fmt (value el) ++ " " ++ si_unit (kind_of el))
  end.

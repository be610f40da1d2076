(** PhaseArray.v -- the array eig_phase_coord returns. *)
From Coq Require Import Reals ZArith Lia.
From Verif.Model Require Import Base Units Trunc HamConst PhaseConst.
From Verif.Spec Require Import RadixSpec HermiteSpec.
From Verif.Proofs Require Import TruncProofs.
From mathcomp Require Import all_ssreflect all_algebra.
From mathcomp Require Import complex.
From Verif.Numerics Require Import RStruct.
From Verif.Model Require Import Op Diag PhaseCoord.
From Verif.Spec Require Import PhaseSpec.

Set Implicit Arguments.
Unset Strict Implicit.
Unset Printing Implicit Defensive.
Import GRing.Theory.
Local Open Scope ring_scope.
Local Open Scope complex_scope.

Definition Zs (ms : seq nat) : seq Z := [seq Z.of_nat a | a <- ms].
Definition prodn (ms : seq nat) : nat := (\prod_(b <- ms) b)%N.

Lemma prodZ_Zs ms : prodZ (Zs ms) = Z.of_nat (prodn ms).
Proof.
rewrite /prodn; elim: ms => [|a ms IH]; first by rewrite big_nil.
by rewrite big_cons /= IH -Nat2Z.inj_mul.
Qed.
Lemma dimZ_Zs ms : Z.to_nat (dimZ (Zs ms)) = prodn ms.
Proof.
have -> : dimZ (Zs ms) = prodZ (Zs ms) by elim: (Zs ms) => [|a l] //= ->.
by rewrite prodZ_Zs Nat2Z.id.
Qed.

Lemma tuplesS a ms : tuples (a :: ms) = flatten [seq [seq i :: d | d <- tuples ms] | i <- iota 0 a].
Proof. by []. Qed.
Lemma tuplesP ms d : d \in tuples ms -> size d = size ms /\ digits (Zs ms) (Zs d) /\
  recompose (Zs ms) (Zs d) = Z.of_nat (place ms d).
Proof.
elim: ms d => [|a ms IH] d; first by rewrite mem_seq1 => /eqP ->; split=> //; split=> //; constructor.
rewrite tuplesS => H.
case: (elimT (@flatten_mapP _ _ (fun i => [seq i :: d | d <- tuples ms]) (iota 0 a) d) H) => i.
rewrite mem_iota add0n => /andP [_ ia] H'.
have [d' /IH [sz [dg rc]] ->] := elimT (@mapP _ _ (cons i) (tuples ms) d) H'.
split; first by rewrite /= sz.
split.
  apply: dcons dg; split; [exact: Nat2Z.is_nonneg|]. by apply/Nat2Z.inj_lt/ltP.
rewrite /= -/(Zs ms) -/(Zs d') prodZ_Zs rc -Nat2Z.inj_mul -Nat2Z.inj_add; congr Z.of_nat.
Qed.

Lemma nth_tuples ms d a : d \in tuples ms -> (a < size ms)%N -> (nth 0%N d a < nth 0%N ms a)%N.
Proof.
elim: ms d a => [|b ms IH] d a // dT al.
rewrite tuplesS in dT.
case: (elimT (@flatten_mapP _ _ (fun i => [seq i :: d | d <- tuples ms]) (iota 0 b) d) dT) => i.
rewrite mem_iota add0n => /andP [_ ib] H'.
have [d' dT' ->] := elimT (@mapP _ _ (cons i) (tuples ms) d) H'.
by case: a al => [|a] //= al; apply: IH.
Qed.

Lemma tuples_neq0 ms : all (fun a => 0 < a)%N ms -> tuples ms != [::].
Proof.
elim: ms => [|[|a] ms IH] //= /IH; by case: (tuples ms).
Qed.

Lemma place_iota ms : [seq place ms d | d <- tuples ms] = iota 0 (prodn ms).
Proof.
rewrite /prodn; elim: ms => [|a ms IH]; first by rewrite big_nil.
rewrite big_cons /= map_flatten -map_comp; set P := (\prod_(j <- ms) j)%N in IH *.
have E i : [seq place (a :: ms) d | d <- [seq i :: d | d <- tuples ms]] = iota (i * P) P.
  rewrite -map_comp -(addn0 (i * P)%N) iotaDl -IH -map_comp; exact: eq_map.
rewrite (eq_map (f2 := fun i => iota (i * P) P)); last exact: E.
elim: a {E} => [|a IHa] //; rewrite -{1}addn1 iotaD map_cat flatten_cat IHa /= cats0 add0n.
by rewrite mulSn addnC iotaD add0n.
Qed.

Lemma modes_of ms d : all (fun a => 0 < a)%N ms -> d \in tuples ms ->
  tensor_to_modes (size ms) (Zs ms) (Z.of_nat (place ms d)) = Ok (Zs d).
Proof.
move=> pos /tuplesP [sz [dg rc]].
have F : List.Forall (Z.le (Zpos xH)) (Zs ms).
  elim: ms pos {dg rc sz} => [|a ms IH] /= => [_|/andP [a0 /IH h]]; constructor=> //.
  move/ltP: a0 => a0; lia.
have := tensor_to_modesE (Zs ms) (Z.of_nat (place ms d)) F.
have -> : List.length (Zs ms) = size ms by exact: (size_map Z.of_nat ms).
by move=> ->; rewrite -rc digs_recompose.
Qed.

Lemma py_get_some (A : Type) (l : seq A) (k : Z) (i : nat) (a : A) : py_index (size l) k = Some i ->
  py_get l k = Ok (nth a l i).
Proof.
rewrite /py_get => E; have -> : length l = size l by []. rewrite E.
have il : (i < size l)%coq_nat.
  move: E; rewrite /py_index; case: Z.leb_spec => H1; [case: Z.ltb_spec => H2 // [<-]; lia|].
  case: Z.leb_spec => H2 // [<-]; lia.
clear E; elim: l i il => [|x l IH] [|i] //= H; [lia|lia|]. apply: IH; lia.
Qed.
Lemma py_index_nat n i : (i < n)%N -> py_index n (Z.of_nat i) = Some i.
Proof.
move=> /ltP H; rewrite /py_index; case: Z.leb_spec => [_|]; last lia.
by case: Z.ltb_spec => [_|]; [rewrite Nat2Z.id|lia].
Qed.

Section Array.
Variables (L : slib) (charge : nat -> bool) (cI lT : nat -> R) (grid : seq (seq R)).
(** The code's factor of one mode. *)
Definition code_basis (a d : nat) (phi : R) : C :=
  if charge a then charge_factor (Z.of_nat d) phi
  else (harm_factor L d (len0 (cI a) (lT a)) phi)%:C.

(** Value used when an array is broadcast. *)
Definition cast (A : cnd) (ix : seq nat) : C := a_at A (if a_shape A is [::] then [::] else ix).
Lemma mesh_cast (f : seq nat -> C) ix : (0 < size grid)%N -> cast (mkA (mesh_shape grid) f) ix = f ix.
Proof. by rewrite /cast /mesh_shape; case: grid. Qed.

Lemma modes_fold d : forall l t, all (fun a => a < size d)%N l -> all (fun a => a < size grid)%N l ->
  exists t', foldl (mode_step L charge cI lT grid (Zs d)) (Ok t) l = Ok t' /\
    a_shape t' = (if l is [::] then a_shape t else mesh_shape grid) /\
    forall ix, cast t' ix = cast t ix * \prod_(a <- l) code_basis a (nth 0%N d a) (mesh_at grid a ix).
Proof.
elim=> [|a l IH] t; first by exists t; split=> //; split=> // ix; rewrite big_nil mulr1.
move=> /= /andP [ad ld] /andP [ag lg].
have -> : py_get (Zs d) (Z.of_nat a) = Ok (Z.of_nat (nth 0%N d a)).
  rewrite (@py_get_some _ _ _ a Z0) ?size_map ?py_index_nat // (nth_map 0%N) //.
rewrite /= ag.
set t1 := mkA _ _.
have [t' [-> [st ct]]] := IH t1 ld lg; exists t'; split=> //; split.
  by rewrite st; case: (l).
move=> ix; rewrite ct big_cons mulrA; congr (_ * _).
by rewrite /t1 mesh_cast ?(leq_ltn_trans _ ag) // /cast /code_basis Nat2Z.id.
Qed.

Lemma modes_short d : forall l t, all (fun a => a < size d)%N l -> ~~ all (fun a => a < size grid)%N l ->
  foldl (mode_step L charge cI lT grid (Zs d)) (Ok t) l = Err IndexError.
Proof.
have errs e : forall l, foldl (mode_step L charge cI lT grid (Zs d)) (Err e) l = Err e by elim.
elim=> [|a l IH] t //= /andP [ad ld]; rewrite negb_and.
have -> : py_get (Zs d) (Z.of_nat a) = Ok (Z.of_nat (nth 0%N d a)).
  rewrite (@py_get_some _ _ _ a Z0) ?size_map ?py_index_nat // (nth_map 0%N) //.
rewrite /=; case: (a < size grid)%N => /= [ns|_]; [exact: IH|exact: errs].
Qed.

Variables (ms : seq nat) (evecs : seq cvec) (k : Z) (kk : nat).
Hypothesis pos : all (fun a => 0 < a)%N ms.
Hypothesis ms0 : (0 < size ms)%N.
Hypothesis kOk : py_index (size evecs) k = Some kk.
Let v : cvec := nth (fun=> 0) evecs kk.

Lemma iota_all n : all (fun a => a < n)%N (iota 0 n).
Proof. by apply/allP => i; rewrite mem_iota. Qed.

Lemma basis_fold : (size ms <= size grid)%N -> forall l s, {subset l <= tuples ms} ->
  exists s', foldl (basis_step L (size ms) (Zs ms) charge cI lT grid evecs k) (Ok s)
                   [seq place ms d | d <- l] = Ok s' /\
    a_shape s' = (if l is [::] then a_shape s else mesh_shape grid) /\
    forall ix, cast s' ix = cast s ix +
      \sum_(d <- l) v (place ms d) * \prod_(a < size ms) code_basis a (nth 0%N d a) (mesh_at grid a ix).
Proof.
move=> sg; elim=> [|d l IH] s sub; first by exists s; split=> //; split=> // ix; rewrite big_nil addr0.
have dT : d \in tuples ms by apply: sub; rewrite inE eqxx.
have [sz _] := tuplesP dT.
rewrite /= (modes_of pos dT) /= (py_get_some (fun=> 0) kOk) /= -/v.
have ld : all (fun a => a < size d)%N (iota 0 (size ms)) by rewrite sz iota_all.
have lg : all (fun a => a < size grid)%N (iota 0 (size ms)).
  by apply/allP => i; rewrite mem_iota add0n => /andP [_ h]; apply: leq_trans h sg.
have [t [-> [st ct]]] := @modes_fold d _ (a_num (v (place ms d))) ld lg.
rewrite /=; set s1 := mkA _ _.
have st' : a_shape t = mesh_shape grid by rewrite st; case: (size ms) ms0.
have sub' : {subset l <= tuples ms} by move=> x xl; apply: sub; rewrite inE xl orbT.
have [s' [-> [ss cs]]] := IH s1 sub'.
exists s'; split=> //; split; first by rewrite ss; case: (l).
move=> ix; rewrite cs big_cons addrA; congr (_ + _).
rewrite /s1 st' mesh_cast ?(leq_trans ms0) //; congr (_ + _).
have -> : a_at t ix = cast t ix by rewrite /cast st' /mesh_shape; case: (grid) (leq_trans ms0 sg).
rewrite ct /=; congr (_ * _).
by rewrite -(big_mkord xpredT (fun a => code_basis a (nth 0%N d a) (mesh_at grid a ix))) /index_iota subn0.
Qed.

Lemma unsqueeze_kept sh ix : inside sh ix -> unsqueeze sh (kept sh ix) = ix.
Proof.
rewrite /inside; elim: sh ix => [|d sh IH] [|i ix] //= /andP [/eqP [sz] /andP [id al]].
have H := IH ix; rewrite sz eqxx al in H.
by case: eqP id => [->|_ _] /=; [rewrite ltnS leqn0 => /eqP ->|]; rewrite H.
Qed.
Lemma swap01K l : swap01 (swap01 l) = l. Proof. by case: l => [|a [|b l]]. Qed.
Lemma size_kept sh ix : inside sh ix -> size (kept sh ix) = size [seq d <- sh | d != 1%N].
Proof.
rewrite /inside; elim: sh ix => [|d sh IH] [|i ix] //= /andP [/eqP [sz] /andP [id al]].
have H := IH ix; rewrite sz eqxx al in H.
by case: eqP => [_|_] /=; rewrite H.
Qed.

Lemma phase_array : (size ms <= size grid)%N ->
  exists A, eig_phase_coord L (size ms) (Zs ms) charge cI lT evecs (Some k) grid = Ok A /\
    a_shape A = flip [seq d <- mesh_shape grid | d != 1%N] /\
    forall ix, inside (mesh_shape grid) ix ->
      a_at A (flip (kept (mesh_shape grid) ix)) =
      wave code_basis ms v (fun a => mesh_at grid a ix).
Proof.
move=> sg; rewrite /eig_phase_coord.
have -> : (size evecs == 0%N) = false.
  by case: (evecs) kOk => //=; rewrite /py_index; case: Z.leb_spec => H1; [case: Z.ltb_spec => H2 //; lia|];
     case: Z.leb_spec => H2 //; lia.
rewrite size_map (gtn_eqF ms0) dimZ_Zs -place_iota.
have [s [-> [ss cs]]] := basis_fold sg (a_num 0) (fun x xl => xl : x \in tuples ms).
have {}ss : a_shape s = mesh_shape grid by rewrite ss; case: (tuples ms) (tuples_neq0 pos).
have g0 := leq_trans ms0 sg.
eexists; split; first by reflexivity.
rewrite /squeeze /= ss; split.
  by case: ltnP => //=; case: [seq d <- _ | _] => [|? []].
move=> ix ins; have sk := size_kept ins.
have -> A : a_at (if (1 < size [seq d <- mesh_shape grid | d != 1%N])%N then swap_axes A else A)
    (flip (kept (mesh_shape grid) ix)) = a_at A (kept (mesh_shape grid) ix).
  rewrite -sk; case: ltnP => /=; first by rewrite -/(swap01 _) swap01K.
  by case: (kept _ _) => [|? []].
rewrite /= unsqueeze_kept //.
have -> : a_at s ix = cast s ix by rewrite /cast ss /mesh_shape; case: (grid) g0.
by rewrite cs /= add0r.
Qed.

Lemma basis_err e : forall l,
  foldl (basis_step L (size ms) (Zs ms) charge cI lT grid evecs k) (Err e) l = Err e.
Proof. by elim. Qed.

Lemma phase_short : (size grid < size ms)%N ->
  eig_phase_coord L (size ms) (Zs ms) charge cI lT evecs (Some k) grid = Err IndexError.
Proof.
move=> sg; rewrite /eig_phase_coord.
have -> : (size evecs == 0%N) = false.
  by case: (evecs) kOk => //=; rewrite /py_index; case: Z.leb_spec => H1; [case: Z.ltb_spec => H2 //; lia|];
     case: Z.leb_spec => H2 //; lia.
rewrite size_map (gtn_eqF ms0) dimZ_Zs -place_iota.
have := tuples_neq0 pos; have := @modes_of ms _ pos; have := @tuplesP ms.
case: (tuples ms) => [|d l] // H1 H2 _ /=.
have [sz _] := H1 d (mem_head _ _).
rewrite (H2 d (mem_head _ _)) /= (py_get_some (fun=> 0) kOk) /=.
rewrite modes_short ?sz ?iota_all //=; first by rewrite basis_err.
apply/allPn; exists (size grid); last by rewrite ltnn.
by rewrite mem_iota add0n.
Qed.
End Array.

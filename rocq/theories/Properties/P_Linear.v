(** P_Linear.v -- C93: normal modes, and circuits without junctions. *)
From Coq Require Import Reals ZArith Lia Lra String List.
From Verif.Model Require Import Base Units Edge Elements LCWB Accuracy HamConst.
From Verif.Spec Require Import GraphSpec CircuitSpec.
From Verif.Proofs Require Import LCWBProofs LinearKeys.
From mathcomp Require Import all_ssreflect all_algebra.
From mathcomp Require Import complex zify.
From Verif.Numerics Require Import RStruct Bridge.
From Verif.Model Require Import FluxDist Op Transform Ham Diag.
From Verif.Spec Require Import OpSpec TransSpec LevelsSpec LowestSpec LinearSpec.
From Verif.Proofs Require Import OpProofs HamProofs HamProofs2 HamProofs5 HamProofs6 TransProofs TransProofs1 TransProofs2 TransProofs4.
From Verif.Proofs Require Import RelabelProofs2 LinearProofs LinearLevels TransProofs3 TransProofs5 TransProofs6 TransCase.
From Verif.Properties Require Import P_Lowest.

Set Implicit Arguments.
Unset Strict Implicit.
Unset Printing Implicit Defensive.
Import GRing.Theory.
Local Open Scope ring_scope.
Local Open Scope complex_scope.

Section Modes.
Variables (n m kj : nat) (C L W : arr) (st0 st : tst) (croot lroot X U : arr) (D0 eigL : vec).
Variables (tries fuel : nat) (sv : svd_fun) (order : seq R -> seq nat) (draw : nat -> nat -> seq vec).
Hypothesis EI : t_init n m kj C L W = Ok st0.
Hypothesis HC : root_of (toM n n C) (toM n n croot).
Hypothesis HL : root_of (toM n n L) (toM n n lroot).
Hypothesis HA : svd_of (toM n n lroot *m invmx (toM n n croot)) (toM n n X) (toM n n U) (toV n D0).
(** The modes treated as charge modes have singular value zero. *)
Hypothesis zero : forall i, i \in sing_locs n D0 eigL -> D0 i = 0.
Hypothesis run : transform_hamil croot D0 U eigL tries fuel sv order draw st0 = Some (Ok st).

Lemma unitC : toM n n C \in unitmx.
Proof. by move: EI; rewrite /t_init /inv; case: ifP. Qed.

Lemma om_D0 i : (i < n)%N -> t_om st i = D0 i.
Proof.
move=> hi; have [k [Ek nf _ _ _]] := transform_all EI HC HL HA run.
have [Hk _ _ _ [_ [_ [_ [_ om]]]]] := nf; rewrite om //; case: ifP => // h.
by rewrite zero // Ek mem_sing // h.
Qed.

(** The frequencies of the modes are the resonances of the capacitors and inductors,
    each as often as it occurs. *)
Theorem C93_resonances : resonances (toM n n C) (toM n n L) [seq t_om st i | i <- iota 0 n].
Proof.
split=> [w hw|x].
  case: (mapP hw) => i; rewrite mem_iota add0n => /andP [_ hi] ->; rewrite om_D0 //.
  by have [_ _ _ p] := HA; have := p (Ordinal hi); rewrite mxE.
rewrite (det_root unitC HC HL HA) big_map; congr (_ * _); rewrite -val_enum_ord big_map big_enum /=.
by apply: eq_bigr => i _; rewrite om_D0 // mxE.
Qed.

(** The column of a mode in the transformation S is an oscillation at its frequency. *)
Theorem C93_normal_mode i : (i < n)%N -> oscillates (toM n n C) (toM n n L) (t_om st i) (\col_j t_S st j i).
Proof.
move=> hi; have [k [_ nf fr ex _]] := transform_all EI HC HL HA run.
have := col_oscillates nf fr (ex zero) unitC (Ordinal hi); congr (oscillates _ _ _ _).
by apply/colP => j; rewrite !mxE.
Qed.

(** The fluxes that store no inductive energy are those without amplitude in the modes
    of non-zero frequency. *)
Theorem C93_charge_modes (x : 'cV[R]_n) : toM n n L *m x = 0 <->
  forall i, (i < n)%N -> t_om st i <> 0 -> \sum_(j < n) t_R st j i * x j 0 = 0.
Proof.
have [k [_ nf fr ex _]] := transform_all EI HC HL HA run; rewrite (kernel_modes nf fr (ex zero)).
have [Hk _ HD _ [_ [_ [_ [_ om]]]]] := nf.
have E (i : 'I_n) : ((toM n n (t_R st))^T *m x) i 0 = \sum_(j < n) t_R st j i * x j 0.
  by rewrite mxE; apply: eq_bigr => j _; rewrite !mxE.
split=> [H i hi w|H i hi].
  rewrite -(E (Ordinal hi)); apply: H; move: w; rewrite om //=; by case: ifP.
rewrite E; apply: H => //; rewrite om // hi => z; by have := HD _ hi; rewrite z => /Rlt_irrefl.
Qed.
End Modes.
Print Assumptions C93_resonances.
Print Assumptions C93_normal_mode.
Print Assumptions C93_charge_modes.

(** Whatever roots, decompositions, orders and random numbers: the same frequencies up to
    their order. *)
Theorem C93_unique n m m' kj kj' C L W W' st0 st0' st st' croot lroot X U D0 eigL croot' lroot' X' U' D0' eigL' tries fuel sv order draw tries' fuel' sv' order' draw' :
  t_init n m kj C L W = Ok st0 -> t_init n m' kj' C L W' = Ok st0' ->
  root_of (toM n n C) (toM n n croot) -> root_of (toM n n L) (toM n n lroot) ->
  root_of (toM n n C) (toM n n croot') -> root_of (toM n n L) (toM n n lroot') ->
  svd_of (toM n n lroot *m invmx (toM n n croot)) (toM n n X) (toM n n U) (toV n D0) ->
  svd_of (toM n n lroot' *m invmx (toM n n croot')) (toM n n X') (toM n n U') (toV n D0') ->
  (forall i, i \in sing_locs n D0 eigL -> D0 i = 0) -> (forall i, i \in sing_locs n D0' eigL' -> D0' i = 0) ->
  transform_hamil croot D0 U eigL tries fuel sv order draw st0 = Some (Ok st) ->
  transform_hamil croot' D0' U' eigL' tries' fuel' sv' order' draw' st0' = Some (Ok st') ->
  perm_eq [seq t_om st i | i <- iota 0 n] [seq t_om st' i | i <- iota 0 n].
Proof.
move=> EI EI' HC HL HC' HL' HA HA' z z' r r'; have uC := unitC EI.
have E := svd_char uC HC HL HA; have := svd_char uC HC' HL' HA'; rewrite {}E => /roots_eq P.
have V (D : vec) : (forall i, Rle 0 (toV n D 0 i)) -> [seq sqrt x | x <- [seq toV n D 0 i ^+ 2 | i <- enum 'I_n]] = [seq D i | i <- iota 0 n].
  move=> p; rewrite -val_enum_ord -!map_comp; apply: eq_map => i /=; have := p i; rewrite mxE expr2; exact: sqrt_square.
have O (w : nat -> R) (D : vec) : (forall i, (i < n)%N -> w i = D i) -> [seq w i | i <- iota 0 n] = [seq D i | i <- iota 0 n].
  by move=> H; apply/eq_in_map => i; rewrite mem_iota add0n => /andP [_ hi]; exact: H.
rewrite (O (t_om st) D0) => [|i hi]; last exact: (om_D0 EI HC HL HA z r hi).
rewrite (O (t_om st') D0') => [|i hi]; last exact: (om_D0 EI' HC' HL' HA' z' r' hi).
rewrite -(V D0); last by case: HA.
rewrite -(V D0'); last by case: HA'.
exact: perm_map.
Qed.
Print Assumptions C93_unique.

(** ** Circuits without junctions *)
Section Linear.
Variables (optim : bool) (s : store) (fd : string) (n : nat) (lobj : nat -> lrec) (d : seq (edge * seq nat)) (c : cst).
Variables (W : arr) (st0 st : tst) (croot lroot X U : arr) (D0 eigL : vec).
Variables (tries fuel : nat) (sv : svd_fun) (order : seq R -> seq nat) (draw : nat -> nat -> seq vec).
Variables (disp : nat -> C -> op) (ms : seq nat) (ng : nat -> R) (loops : seq R) (B : arr).
Hypothesis built : get_LCWB optim s fd (Z.of_nat n) lobj d = Ok c.
Hypothesis wired : proper_dict n d.
Hypothesis linear : forall e els el, List.In (e, els) d -> List.In el els -> ekind s el <> KJJ.
Hypothesis EI : t_init n (size (c_W c)) (c_njwi c) (c_C c) (c_L c) W = Ok st0.
Hypothesis HC : root_of (toM n n (c_C c)) (toM n n croot).
Hypothesis HL : root_of (toM n n (c_L c)) (toM n n lroot).
Hypothesis HA : svd_of (toM n n lroot *m invmx (toM n n croot)) (toM n n X) (toM n n U) (toV n D0).
Hypothesis run : transform_hamil croot D0 U eigL tries fuel sv order draw st0 = Some (Ok st).
Hypothesis dims : forall m a, dim (disp m a) = m.
Hypothesis no_flux : forall x, List.In x loops -> x = 0.
Let h : hin := mkH (finish_modes optim st) ms ng (c_C c).
Let H : res op := hamiltonian disp h (evalue s) loops B (mkKeys (c_keys_ind c) (c_keys_jj c)).
Let energy (x : seq nat) : R := level n (t_om st) (is_charge st) (t_cI st) (nth 0%N ms) ng (nth 0%N x).

Lemma lin_st : finish_modes optim st = st /\ t_n st = n /\ t_n0 st = n.
Proof.
have [k [_ nf _ _ [tm _]]] := transform_all EI HC HL HA run; have [_ E _ _ _] := nf.
split=> //; rewrite /finish_modes tm (no_jj_W _ _ _ _ _ _ _ built linear) //.
Qed.
Lemma lin_sym i j : (i < n)%N -> (j < n)%N -> t_cI st i j = t_cI st j i.
Proof.
move=> hi hj; have [k [_ _ [_ _ cI] _ _]] := transform_all EI HC HL HA run.
have sC : (toM n n (c_C c))^T = toM n n (c_C c) by case: HC => sr <-; rewrite trmx_mul sr.
have E : (toM n n (t_cI st))^T = toM n n (t_cI st) by rewrite cI !trmx_mul trmx_inv sC trmxK mulmxA.
by have := congr1 (fun M : 'M_n => M (Ordinal hj) (Ordinal hi)) E; rewrite !mxE.
Qed.
Lemma lin_dec i j : (i < n)%N -> (j < n)%N -> i != j -> ~~ is_charge st i || ~~ is_charge st j -> t_cI st i j = 0.
Proof.
move=> hi hj ne; have [k [_ nf _ _ _]] := transform_all EI HC HL HA run.
rewrite !(nf1_charge nf) // !negbK; have [_ _ _ _ [_ [_ [cI _]]]] := nf; exact: cI.
Qed.

(** Without external flux the Hamiltonian is diagonal; each state has the energy of its
    photons and charges. *)
Theorem C93_linear : (0 < n)%N -> ms <> [::] -> exists2 A, H = Ok A &
  dim A = (\prod_(i < n) nth 0 ms i)%N /\
  forall x y, x \in states (nth 0%N ms) n -> y \in states (nth 0%N ms) n ->
    ent A (posn (nth 0%N ms) (nth 0%N x) n) (posn (nth 0%N ms) (nth 0%N y) n) = if x == y then (energy x)%:C else 0.
Proof.
move=> n0 m0; have [Ef [En En0]] := lin_st.
have hn : hn h = n by rewrite /Ham.hn /h /= Ef.
have [A EA] : exists A, H = Ok A.
  apply: hamiltonian_total => //; rewrite ?hn // => -[[e el] b] /= hk.
  have [els [hd _]] := key_edge _ _ _ _ _ _ _ built _ _ _ hk; have [p1 [p2 p3]] := wired hd.
  by rewrite Ef En0 /isnode /=; lia.
exists A => //; have [dA _] := hamiltonian_ok dims EA; split; first by rewrite dA /total hn.
move=> x y hx hy; have Lx := states_legal hx; have Ly := states_legal hy.
have flux b : ext_flux loops B b = 0.
  have z i : nth 0 loops i = 0.
    by elim: (loops) i no_flux => [|y0 l IH] [|i] //= Hl; [apply: Hl; left|apply: IH => v hv; apply: Hl; right].
  by rewrite /ext_flux big1 // => i _; rewrite z mul0r.
rewrite (hamiltonian_entry _ _ EA) (no_jj_keys _ _ _ _ _ _ _ built linear) big_nil subr0 big1 ?addr0; last first.
  move=> k _; rewrite flux; have -> : ind_coef (evalue s k.1.2) 0 = R0 by rewrite /ind_coef Rmult_0_r /Rdiv !Rmult_0_l.
  by rewrite mul0r.
have S i j : (i < Ham.hn h)%N -> (j < Ham.hn h)%N -> t_cI (h_st h) i j = t_cI (h_st h) j i.
  by rewrite hn /= Ef; exact: lin_sym.
have Dc i j : (i < Ham.hn h)%N -> (j < Ham.hn h)%N -> i != j -> ~~ hcharge h i || ~~ hcharge h j -> t_cI (h_st h) i j = 0.
  by rewrite hn /hcharge /= Ef; exact: lin_dec.
have := LC_level S Dc (d := nth 0%N x) (d' := nth 0%N y); rewrite hn => -> //.
have -> : (posn (hm h) (nth 0%N x) n == posn (hm h) (nth 0%N y) n) = (x == y).
  apply/eqP/eqP => [e|->//]; apply: (@eq_from_nth _ 0%N); first by rewrite (states_size hx) (states_size hy).
  by move=> i; rewrite (states_size hx) => hi; apply: LevelProofs.posn_inj e i hi.
by rewrite /hcharge /= Ef.
Qed.

(** diag() returns the lowest of these energies. *)
Theorem C93_returned eigs argsort u (k : nat) old r fr ve : (0 < n)%N -> ms <> [::] ->
  (forall A, smallest eigs A k) ->
  diag eigs argsort u true H (Some (Z.of_nat k)) old = (r, Ok (fr, ve)) ->
  fr = [seq Rdiv x (unit_rad u) | x <- take k (ascending [seq energy x | x <- states (nth 0%N ms) n])].
Proof.
move=> n0 m0 sm; have [A -> [dA eA]] := C93_linear n0 m0 => dg.
pose at_ a := nth [::] (states (nth 0%N ms) n) a.
have sp := states_pos (nth 0%N ms) n.
have sz : size (states (nth 0%N ms) n) = dim A by rewrite -(size_map (fun x => posn (nth 0%N ms) (nth 0%N x) n)) sp size_iota dA.
have inn a : (a < dim A)%N -> at_ a \in states (nth 0%N ms) n by move=> ha; apply: mem_nth; rewrite sz.
have pa a : (a < dim A)%N -> posn (nth 0%N ms) (nth 0%N (at_ a)) n = a.
  move=> ha; have := congr1 (fun l => nth 0%N l a) sp; rewrite (nth_map [::]) ?sz // nth_iota -?dA //.
have D a b : (a < dim A)%N -> (b < dim A)%N -> ent A a b = if a == b then (energy (at_ a))%:C else 0.
  move=> ha hb; rewrite -{1}(pa a ha) -{1}(pa b hb) eA ?inn //; congr (if _ then _ else _).
  apply/eqP/eqP => [e|->//]; by rewrite -(pa a ha) -(pa b hb) e.
have [kd ->] := C84_returned (sm A) (diagonal_energies D) dg.
rewrite (_ : iota 0 k = take k (iota 0 (dim A))); last by rewrite take_iota; congr iota; apply/esym/minn_idPl.
have E (f : nat -> R) l : [seq Rdiv (f i) (unit_rad u) | i <- l] = [seq Rdiv x (unit_rad u) | x <- [seq f i | i <- l]] by rewrite -map_comp.
rewrite {}E map_take (diagonal_list A (fun a => energy (at_ a))); congr (map _ (take _ (ascending _))).
have -> : [seq energy (at_ a) | a <- iota 0 (dim A)] = [seq energy x | x <- [seq at_ a | a <- iota 0 (dim A)]] by rewrite -map_comp.
by congr map; rewrite -[RHS](mkseq_nth [::]) sz.
Qed.
End Linear.
Print Assumptions C93_linear.
Print Assumptions C93_returned.

(** An inductor of 1 H with 1 F at node 1, a capacitor of 1 F at node 2: one resonance of
    1 rad/s and one charge mode; two photons and no charge have the energy 2. *)
Definition lin_s : store :=
  mkStore (fun i => if i == 1%N then KInd else KCap) (fun=> R1) (fun=> false) (fun=> true)
          (fun=> 2)%N (fun=> nil) (fun=> R0) (fun=> false) (fun=> true).
Definition lin_d : seq (edge * seq nat) := [:: ((Z0, Zpos xH), [:: 1%N]); ((Z0, Zpos (xO xH)), [:: 2%N])].
Lemma lin_wired : proper_dict 2 lin_d.
Proof. by move=> e els [[<- _]|[[<- _]|[]]]; split; [split|split; [split|]|split|split; [split|]]. Qed.
Lemma lin_run : exists2 c, get_LCWB false lin_s "junctions" (Z.of_nat 2) (fun=> mkL nil nil) lin_d = Ok c &
  toM 2 2 (c_C c) = toM 2 2 eye /\ toM 2 2 (c_L c) = toM 2 2 (dg caseD) /\ c_W c = nil.
Proof.
have [c Ec] : exists c, get_LCWB false lin_s "junctions" (Z.of_nat 2) (fun=> mkL nil nil) lin_d = Ok c.
  refine (run_edges_total false lin_s "junctions" 2%N lin_d (cst0 (fun=> mkL nil nil)) lin_wired _).
  by move=> e els [[_ <-]|[[_ <-]|[]]] [el [[<-|[]] [K z]]] //; move: z => /=; exact: R1_neq_R0.
exists c => //; have [_ R] := get_LCWB_run _ _ _ _ _ _ _ Ec; have [HC [HL [HW _]]] := run_edges_mats _ _ _ _ _ _ _ R.
have ec i : edge_cap lin_s [:: i] = R1 by rewrite /edge_cap /= /cap_of /=; case: ifP => _; exact: Rplus_0_r.
have e1 : edge_invind lin_s [:: 1%N] = R1 by rewrite /edge_invind /= /invind_of /= Rinv_1; exact: Rplus_0_r.
have e2 : edge_invind lin_s [:: 2%N] = R0 by rewrite /edge_invind /= /invind_of /=; exact: Rplus_0_r.
split; last split.
- apply/matrixP => -[[|[|//]] hi] -[[|[|//]] hj]; rewrite !mxE HC /lin_d /= !ec /mrep /= /entry /eye /=; first [refine (_ : _ = R1); lra | refine (_ : _ = R0); lra].
- apply/matrixP => -[[|[|//]] hi] -[[|[|//]] hj]; rewrite !mxE HL /lin_d /= e1 e2 /mrep /= /entry /dg /caseD /=; first [refine (_ : _ = R1); lra | refine (_ : _ = R0); lra].
by rewrite HW.
Qed.

Example C93_case disp draw : (forall m a, dim (disp m a) = m) -> exists c st0 st A,
  [/\ get_LCWB false lin_s "junctions" (Z.of_nat 2) (fun=> mkL nil nil) lin_d = Ok c,
      t_init 2 0 0 (c_C c) (c_L c) (fun _ _ => 0) = Ok st0 /\
      transform_hamil eye caseD eye caseD 1 1 (fun _ _ _ => [::]) (fun=> [::]) draw st0 = Some (Ok st),
      perm_eq [seq t_om st i | i <- iota 0 2] [:: 1; 0],
      hamiltonian disp (mkH (finish_modes false st) [:: 3; 3]%N (fun=> 0) (c_C c)) (evalue lin_s) [::] (fun _ _ => 0)
        (mkKeys (c_keys_ind c) (c_keys_jj c)) = Ok A &
      dim A = 9%N /\ ent A 7 7 = 2%:C /\ ent A 7 8 = 0].
Proof.
move=> dims; have [c Ec [CE [LE WE]]] := lin_run; exists c.
have [st0 EI] : exists st0, t_init 2 0 0 (c_C c) (c_L c) (fun _ _ => 0) = Ok st0.
  by rewrite /t_init /inv CE toM_eye unitmx1; eexists.
have HC : root_of (toM 2 2 (c_C c)) (toM 2 2 eye) by rewrite CE; exact: case_root.
have HL : root_of (toM 2 2 (c_L c)) (toM 2 2 (dg caseD)) by rewrite LE; exact: case_lroot.
have [st1 [s1 [r1 E1]]] := trans1_total EI isT HC case_svd case_nonzero.
have [k [_ nf fr _ [[tm _] _]]] := trans1_all EI HC HL case_svd E1.
have [st [s3 [r3 E3]]] := trans3_total nf fr.
have run : transform_hamil eye caseD eye caseD 1 1 (fun _ _ _ => [::]) (fun=> [::]) draw st0 = Some (Ok st).
  by rewrite /transform_hamil E1 [t_m _]/= tm /= E3.
have W0 : size (c_W c) = 0%N by rewrite WE.
have nj : c_njwi c = 0%N.
  by have [_ R] := get_LCWB_run _ _ _ _ _ _ _ Ec; have [_ [_ [_ [_ ->]]]] := run_edges_mats _ _ _ _ _ _ _ R.
have EI' : t_init 2 (size (c_W c)) (c_njwi c) (c_C c) (c_L c) (fun _ _ => 0) = Ok st0 by rewrite W0 nj.
have lin e els el : List.In (e, els) lin_d -> List.In el els -> ekind lin_s el <> KJJ by move=> _ _ /=; case: ifP.
have nofl x : List.In x [::] -> x = 0 :> R by [].
have [A EA [dA eA]] := C93_linear (ms := [:: 3; 3]%N) (fun=> 0) (fun _ _ => 0) Ec lin_wired lin EI' HC HL case_svd run dims nofl isT ltac:(by []).
have om := om_D0 EI HC HL case_svd case_zero run.
exists st0, st, A; split=> //.
- by rewrite /= !om.
- split; first by rewrite dA !big_ord_recr big_ord0.
  have s7 : [:: 2; 1]%N \in states (nth 0%N [:: 3; 3]%N) 2 by [].
  have s8 : [:: 2; 2]%N \in states (nth 0%N [:: 3; 3]%N) 2 by [].
  split; last by have := eA _ _ s7 s8.
  have := eA _ _ s7 s7; rewrite eqxx => -> //; congr (_%:C).
  rewrite /level.
  have ch0 : is_charge st 0 = false by rewrite /is_charge om // /caseD /=; apply/negbTE/eqP; exact: R1_neq_R0.
  have ch1 : is_charge st 1 = true by rewrite /is_charge om //; exact: eqxx.
  have q1 : cooper (nth 0%N [:: 3; 3]%N) (fun=> 0) (nth 0%N [:: 2; 1]%N) 1 = 0.
    rewrite /cooper -[0]/R0 /=; lra.
  have -> : \sum_(i < 2 | ~~ is_charge st i) t_om st i * INR (nth 0%N [:: 2; 1]%N i) = IZR 2.
    rewrite big_mkcond !big_ord_recl big_ord0 /= ch0 ch1 /= !addr0 om // /caseD /=; exact: Rmult_1_l.
  rewrite big1 => [|[[|[|//]] hi] /=]; last by rewrite big1 // => j _; rewrite q1 mulr0 mul0r.
    by rewrite /Rdiv Rmult_0_l; exact: Rplus_0_r.
  by rewrite ch0.
Qed.

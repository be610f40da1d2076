(** Names.v -- names of the symbols of the printed Hamiltonian (symbolic.py 10-93).

    The LaTeX of [omega] is made by sympy from its plain name; here it is that name. *)
From Coq Require Import String.
From Verif.Model Require Import Symbolic Texts.
Local Open Scope string_scope.

(** symbolic.py 45-93: the first argument of [ExplicitSymbol], [Symbol] and the name
    [qOperator] gives to its base class (symbolic.py 26-29). *)
Definition plain_name (e : expr) : option string :=
  match e with
  | EPhi i => Some ("phi_" ++ decimal i)
  | EA i => Some ("a_" ++ decimal i)
  | EAd i => Some ("ad_" ++ decimal i)
  | EN i => Some ("n_" ++ decimal i)
  | EPhiE i => Some ("phi_e" ++ decimal i)
  | EOmega i => Some ("omega_" ++ decimal i)
  | ENg i => Some ("ng_" ++ decimal i)
  | EEC i j => Some ("EC_" ++ decimal i ++ decimal j)
  | EEL i => Some ("EL_" ++ decimal i)
  | EEJ i => Some ("EJ_" ++ decimal i)
  | _ => None
  end.

(** symbolic.py 35-42 (operators) and the second argument of [ExplicitSymbol]. *)
Definition latex_name (e : expr) : option string :=
  match e with
  | EPhi i => Some ("\hat{\varphi}_{" ++ decimal i ++ "}")
  | EA i => Some ("\hat{a}_{" ++ decimal i ++ "}")
  | EAd i => Some ("\hat{a}^\dagger_{" ++ decimal i ++ "}")
  | EN i => Some ("\hat{n}_{" ++ decimal i ++ "}")
  | EPhiE i => Some ("\varphi_{\text{ext}_{" ++ decimal i ++ "}}")
  | EOmega i => Some ("omega_" ++ decimal i)
  | ENg i => Some ("n_{g_{" ++ decimal i ++ "}}")
  | EEC i j => Some ("E_{C_{" ++ (decimal i ++ decimal j) ++ "}}")
  | EEL i => Some ("E_{L_{" ++ decimal i ++ "}}")
  | EEJ i => Some ("E_{J_{" ++ decimal i ++ "}}")
  | _ => None
  end.

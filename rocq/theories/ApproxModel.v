(** Model of approximate_lie_optimizer (oranssi/optimizers.py lines 229-389) on the
    layer classes of oranssi/opt_tools.py: instances of LayerModel.v,
    GreedyModel.v, AdaptModel.v and ZasV2Model.v. The layers may be built on other
    devices and observables than the optimizer is given. *)
From Coq Require Import ZArith Arith Lia Bool String Reals.
From Coquelicot Require Import Coquelicot.
From Verif Require Import Py StarRing Matrix Cplx Expm UtilsModel CircuitModel AlgebraModel LayerModel GreedyModel AdaptModel ZasV2Model CommuteModel OptimizerModel FlowModel ShiftModel.
From Coq Require Import List.
Import ListNotations.
Local Open Scope nat_scope.

(** A layer object. LieLayer (lines 19-99) itself can be instantiated but not
    called. Its constructor stores the arrays of the observables in the attribute
    observables; the last five classes replace them by the PennyLane observables. *)
Inductive layer_obj :=
| OLie (n : nat) (obs : list (arr C))
| OLocal (l : local_layer)
| OCustom (l : custom_layer)
| OStochastic (l : stochastic_layer)
| OSquared (obs : list (qop C)) (l : greedy_layer)
| OSU8 (obs : list (qop C)) (l : greedy_layer)
| OZassenhaus (obs : list (qop C)) (l : zas_layer)
| OAdapt (obs : list (qop C)) (l : adapt_layer)
| OZasV2 (obs : list (qop C)) (l : v2_layer).

(** what a layer call depends on besides the layer, the circuit and the
    parameters: singular value decompositions, the iteration order of Python sets
    the random numbers of the edge colouring with its bounds on the loops, and
    scipy's minimize *)
Record oracles := mkoracles { or_svd : svd_fun; or_ord : list nat -> list nat; or_rnd : nat -> nat; or_bounds : nat * nat * nat;
  or_minimize : (R * R * R -> R) -> R * R * R }.

(** layer(circuit_unitary, **kwargs), lines 344-348, where approximate_lie_optimizer
    passes on its own keyword arguments. Of these the layers read only commute
    (SquaredLieAlgebraLayer), and the keyword optimizer in commute mode; a callable
    passed under that name is not modelled, so that the call then raises
    TypeError. LieLayer.__call__ raises (opt_tools.py line 38). *)
Definition obj_call (x : oracles) (commute : bool) (o : layer_obj) (U : mat C) (params : rows) : res (mat C * rows * layer_obj) :=
  let svd := or_svd x in let ord := or_ord x in
  match o with
  | OLie _ _ => Err NotImplementedError
  | OLocal l => do V <- local_call svd l U; Ok (V, params, OLocal l)
  | OCustom l => do V <- custom_call svd l U; Ok (V, params, OCustom l)
  | OStochastic l => do V <- stochastic_call svd l U; Ok (V, params, OStochastic l)
  | OSquared obs l =>
      if commute then
        let '(fa, fh, fk) := or_bounds x in
        do _ <- commute_call fa fh fk (or_rnd x) 0 None l U; Err TypeError
      else do r <- squared_call l U; Ok (fst r, params, OSquared obs (snd r))
  | OSU8 obs l => do r <- su8_call l U; Ok (fst r, params, OSU8 obs (snd r))
  | OZassenhaus obs l => do r <- zas_call ord l U; Ok (fst r, params, OZassenhaus obs (snd r))
  | OAdapt obs l =>
      do r <- adapt_call (layer_optimizer (ad_n l) obs) l U params;
      let '(V, p, l') := r in Ok (V, p, OAdapt obs l')
  | OZasV2 obs l => do r <- v2_call (or_minimize x) l U; Ok (fst r, params, OZasV2 obs (snd r))
  end.

(** layer.su_state: None (line 33) except in ZassenhausLayer, where it is 'su4' or 'su8' *)
Definition obj_state (o : layer_obj) : option string :=
  match o with OZassenhaus _ l => Some (if za_state l then "su4"%string else "su8"%string) | _ => None end.

(** layer.get_lie_algebra_directions(circuit_unitary) *)
Definition obj_directions (o : layer_obj) (U : mat C) : res (list (string * R)) :=
  match o with
  | OLie n obs => get_lie_algebra_directions n (map ObsArr obs) U
  | OLocal l => get_lie_algebra_directions (lc_n l) (map ObsArr (lc_observables l)) U
  | OCustom l => get_lie_algebra_directions (cu_n l) (map ObsArr (cu_observables l)) U
  | OStochastic l => get_lie_algebra_directions (st_n l) (map ObsArr (st_observables l)) U
  | OSquared obs l | OSU8 obs l => get_lie_algebra_directions (gr_n l) (map ObsQ obs) U
  | OZassenhaus obs l => get_lie_algebra_directions (za_n l) (map ObsQ obs) U
  | OAdapt obs l => get_lie_algebra_directions (ad_n l) (map ObsQ obs) U
  | OZasV2 obs l => get_lie_algebra_directions (v2_n l) (map ObsQ obs) U
  end.

(** layer.set_eta(eta), lines 81-89 of opt_tools.py; the attribute eta is read in
    the calls of five classes only, and in StochasticLieAlgebraLayer these raise
    before. The others do not record it here. *)
Definition obj_set_eta (eta : R) (o : layer_obj) : layer_obj :=
  match o with
  | OLocal l => OLocal (local_set_eta l eta)
  | OCustom l => OCustom (custom_set_eta l eta)
  | OStochastic l => OStochastic (mkstoch (st_n l) eta (st_check l) (st_alg l) (st_observables l))
  | OZassenhaus obs l => OZassenhaus obs (mkzas (za_n l) eta (za_su4 l) (za_su8 l) (za_obs l) (za_ratio l) (za_counter l) (za_state l) (za_current l) (za_prev_eta l))
  | OZasV2 obs l => OZasV2 obs (mkv2 (v2_n l) eta (v2_su2 l) (v2_su4 l) (v2_su8 l) (v2_obs l) (v2_terms l) (v2_params l))
  | _ => o
  end.

(** Layers are referred to by their position in a store of objects; the same
    object may occur several times in the argument layers. *)
Definition store_call (x : oracles) (commute : bool) (i : nat) (w : list layer_obj) (U : mat C) (params : rows) : res (mat C * rows * list layer_obj) :=
  do o <- list_get w i;
  do r <- obj_call x commute o U params;
  let '(V, p, o') := r in Ok (V, p, replace_at w i o').
Definition store_state (i : nat) (w : list layer_obj) : res (option string) := do o <- list_get w i; Ok (obj_state o).
Definition store_directions (i : nat) (w : list layer_obj) (U : mat C) : res (list (string * R)) := do o <- list_get w i; obj_directions o U.

(** print(l), line 327 of optimizers.py: the strings are not modelled, but
    LieLayer.__repr__ raises (opt_tools.py line 77); the subclasses define their
    own *)
Definition obj_print (o : layer_obj) : res unit := match o with OLie _ _ => Err NotImplementedError | _ => Ok tt end.
Definition print_layers (w : list layer_obj) (layers : layers_arg) : res unit :=
  match layers with
  | NotAList => Ok tt
  | AList l => foldM (fun _ x => match x with Some i => do o <- list_get w i; obj_print o | None => Ok tt end) l tt
  end.

(** approximate_lie_optimizer on a circuit given by its operations; [params] are
    its parameters (line 248), which AdaptVQELayer extends *)
Definition approx_optimizer (x : oracles) (eigh : eigh_fun) (random : nat -> nat -> nat -> R)
    (n : nat) (gates : list (qop C)) (obs : list (qop C)) (w : list layer_obj) (ret : circ_ret) (layers : layers_arg) (params : rows) (kw : kwargs)
    : res (retval (item (nat -> C) rows (list (string * R)) (mat C) (option string))) :=
  approximate_lie_optimizer (store_call x (truthy (kw_get kw "commute" (PyBool false)))) store_state store_directions (exact_cost n obs) (fun u => Ok (qnode_state u))
    (random_perturb eigh n random) ret layers w (do u <- circuit_unitary n gates; do _ <- print_layers w layers; Ok (a_ent u)) params kw.

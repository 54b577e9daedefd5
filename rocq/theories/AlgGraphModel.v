(** Model of experiments_paper/algebra_graphs.py (lines 8-102): the graphs of
    repeated commutators of Pauli monomials. Printing and drawing (lines 104-121)
    are left out.

    networkx keeps nodes in dictionaries: two monomials are one node when their
    hashes agree and [==] holds. Hashes of different texts are taken to be
    different. *)
From Coq Require Import List Arith ZArith QArith Qcanon Bool String Ascii.
From Verif Require Import Py StarRing GaussQ PauliModel PauliSumModel AlgebraModel.
Import ListNotations.
Local Open Scope nat_scope.

(** dictionary key equality of two monomials *)
Definition same_node (a b : mono) : bool :=
  String.eqb (mono_hash_text a) (mono_hash_text b)
  && match mono_eq a b with Ok r => r | Err _ => false end.

(** [PauliMonomial([Pauli(loc, 0) for loc in range(3)])] (lines 15, 17, 22, 52) *)
Definition identity3 : res mono :=
  do ps <- mapM (fun loc => Pauli_init loc (GInt 0) (CNum g1)) [0; 1; 2]%Z;
  mono_init ps.

(** ** nx.Graph *)

(** nodes in insertion order; undirected edges, in insertion order *)
Record graph := mkgraph { g_nodes : list mono; g_edges : list (mono * mono) }.

(** [p in graph.nodes] *)
Definition has_node (ns : list mono) (p : mono) : bool := existsb (same_node p) ns.
(** [graph.add_node(p)] *)
Definition add_node (g : graph) (p : mono) : graph :=
  if has_node (g_nodes g) p then g else mkgraph (g_nodes g ++ [p]) (g_edges g).
(** [graph.has_edge(u, v)] *)
Definition has_edge (g : graph) (u v : mono) : bool :=
  existsb (fun e => (same_node u (fst e) && same_node v (snd e))
                    || (same_node u (snd e) && same_node v (fst e))) (g_edges g).
(** [graph.add_edge(u, v)]: missing end points become nodes *)
Definition add_edge (g : graph) (u v : mono) : graph :=
  let g := add_node (add_node g u) v in
  if has_edge g u v then g else mkgraph (g_nodes g) (g_edges g ++ [(u, v)]).

(** lines 33-35, 36-38, 40-42 and 43-45 *)
Definition connect (gc : graph * nat) (u v : mono) : graph * nat :=
  if has_edge (fst gc) u v then gc else (add_edge (fst gc) u v, S (snd gc)).

(** [comb[0].commutator(comb[1])] and [coeff *= -0.5] (lines 28-29, 59-62) *)
Definition half_commutator (ord : list nat -> list nat) (a b : mono) : res mono :=
  do p <- mono_commutator ord a b;
  Ok (set_coeff p (gmul (m_coeff p) (gofQ (-1 # 2)))).

(** lines 25-45, the body of the loop of [dynamic_algebra] *)
Definition algebra_body (ord : list nat -> list nat) (identity : mono) (gc : graph * nat) (comb : mono * mono)
  : res (graph * nat) :=
  let (a, b) := comb in
  let g := fold_left (fun g p => if has_node (g_nodes g) p then g else add_node g a) [a; b] (fst gc) in
  do p <- half_commutator ord a b;
  let g := if negb (has_node (g_nodes g) p) && negb (isclose0 (m_coeff p)) then add_node g p else g in
  let gc := (g, snd gc) in
  do is_id <- mono_eq p identity;
  if is_id then Ok (connect (connect gc a identity) b identity)
  else if negb (isclose0 (m_coeff p)) then Ok (connect (connect gc a p) b p)
  else Ok gc.

(** a [for] loop whose body can raise *)
Fixpoint foldM_list {A S} (f : S -> A -> res S) (l : list A) (s : S) : res S :=
  match l with
  | [] => Ok s
  | x :: r => do s' <- f s x; foldM_list f r s'
  end.

(** lines 21-47 [dynamic_algebra]; [it.product] copies the node list first *)
Definition dynamic_algebra (ord : list nat -> list nat) (g : graph) : res (graph * nat) :=
  do identity <- identity3;
  foldM_list (algebra_body ord identity) (list_prod (g_nodes g) (g_nodes g)) (g, 0).

(** lines 89-90, the loop [while dynamic_algebra(G): pass] *)
Fixpoint close_graph (ord : list nat -> list nat) (fuel : nat) (g : graph) : res graph :=
  match fuel with
  | 0 => Err OutOfFuel
  | S k => do gc <- dynamic_algebra ord g;
           if Nat.eqb (snd gc) 0 then Ok (fst gc) else close_graph ord k (fst gc)
  end.

(** lines 84-92 [generate_product_algebra_graph] *)
Definition generate_product_algebra_graph (ord : list nat -> list nat) (fuel : nat) (algebra : list mono) : res graph :=
  close_graph ord fuel (fold_left add_node algebra (mkgraph [] [])).

(** ** nx.MultiDiGraph *)

(** nodes with their attribute [depth] (absent for a node that add_edge made);
    directed edges, repeated edges kept *)
Record digraph := mkdigraph { d_nodes : list (mono * option nat); d_edges : list (mono * mono) }.

Definition d_has_node (g : digraph) (p : mono) : bool := has_node (map fst (d_nodes g)) p.
(** [graph.add_node(p, depth=d)]: an existing node gets the new attribute *)
Definition d_add_node (g : digraph) (p : mono) (d : nat) : digraph :=
  if d_has_node g p
  then mkdigraph (map (fun nd => if same_node p (fst nd) then (fst nd, Some d) else nd) (d_nodes g)) (d_edges g)
  else mkdigraph (d_nodes g ++ [(p, Some d)]) (d_edges g).
Definition d_ensure (g : digraph) (p : mono) : digraph :=
  if d_has_node g p then g else mkdigraph (d_nodes g ++ [(p, None)]) (d_edges g).
Definition d_has_edge (g : digraph) (u v : mono) : bool :=
  existsb (fun e => same_node u (fst e) && same_node v (snd e)) (d_edges g).
Definition d_add_edge (g : digraph) (u v : mono) : digraph :=
  let g := d_ensure (d_ensure g u) v in mkdigraph (d_nodes g) (d_edges g ++ [(u, v)]).
(** lines 68-73 and 75-80 *)
Definition d_connect (gc : digraph * nat) (u v : mono) : digraph * nat :=
  if d_has_edge (fst gc) u v then gc else (d_add_edge (fst gc) u v, S (snd gc)).

(** [max(nx.get_node_attributes(graph, 'depth').values())] (line 50) *)
Definition depths (g : digraph) : list nat :=
  flat_map (fun nd => match snd nd with Some d => [d] | None => [] end) (d_nodes g).
Definition max_depth (g : digraph) : res nat :=
  match depths g with [] => Err ValueError | d :: r => Ok (fold_left Nat.max r d) end.

(** lines 56-80, the body of the loop of [dynamic_algebra_directed] *)
Definition directed_body (ord : list nat -> list nat) (identity : mono) (depth : nat)
    (gc : digraph * nat) (comb : mono * mono) : res (digraph * nat) :=
  let (a, b) := comb in
  let g := fold_left (fun g p => if d_has_node g p then g else d_add_node g a (S depth)) [a; b] (fst gc) in
  do p <- half_commutator ord a b;
  if negb (d_has_node g p) && negb (isclose0 (m_coeff p)) then
    let g := d_add_node (d_add_edge (d_add_edge g a b) b a) p (S depth) in
    let gc := (g, snd gc) in
    do is_id <- mono_eq p identity;
    if is_id then Ok (d_connect (d_connect gc a identity) b identity)
    else if negb (isclose0 (m_coeff p)) then Ok (d_connect (d_connect gc a p) b p)
    else Ok gc
  else Ok (g, snd gc).

(** lines 49-82 [dynamic_algebra_directed] *)
Definition dynamic_algebra_directed (ord : list nat -> list nat) (g : digraph) : res (digraph * nat) :=
  do d <- max_depth g;
  do identity <- identity3;
  let ns := map fst (d_nodes g) in
  foldM_list (directed_body ord identity d) (list_prod ns ns) (g, 0).

(** lines 99-100, the loop [while dynamic_algebra_directed(G): pass] *)
Fixpoint close_digraph (ord : list nat -> list nat) (fuel : nat) (g : digraph) : res digraph :=
  match fuel with
  | 0 => Err OutOfFuel
  | S k => do gc <- dynamic_algebra_directed ord g;
           if Nat.eqb (snd gc) 0 then Ok (fst gc) else close_digraph ord k (fst gc)
  end.

(** lines 94-102 [generate_product_algebra_digraph] *)
Definition generate_product_algebra_digraph (ord : list nat -> list nat) (fuel : nat) (algebra : list mono) : res digraph :=
  close_digraph ord fuel (fold_left (fun g p => d_add_node g p 0) algebra (mkdigraph [] [])).

(** ** SU4_to_SU8_algebra *)

Fixpoint chars (s : string) : list string :=
  match s with
  | EmptyString => []
  | String c r => String c EmptyString :: chars r
  end.

(** [PauliMonomial([Pauli(loc, pauli) for pauli, loc in zip(pauli[0], pauli[1:])])] (lines 12-13) *)
Definition mono_of_key (k : string * list nat) : res mono :=
  do ps <- mapM (fun x => Pauli_init (Z.of_nat (snd x)) (GStr (fst x)) (CNum g1)) (combine (chars (fst k)) (snd k));
  mono_init ps.

(** lines 14-17: the monomials whose sites lie in [sites], extended to three sites *)
Definition restrict (ord : list nat -> list nat) (sites : list nat) (paulis : list mono) : res (list mono) :=
  do identity <- identity3;
  mapM (fun p => mono_mul ord p identity)
       (filter (fun p => forallb (fun loc => mem loc sites) (m_locs p)) paulis).

(** lines 8-19 [SU4_to_SU8_algebra] *)
Definition SU4_to_SU8_algebra {K} {SR : StarRing K} (ord : list nat -> list nat) : res (list mono * list mono) :=
  do a <- AlgebraSU4 (K := K) 3 false;
  do a <- get_all_directions_and_qubits a;
  do paulis <- mapM mono_of_key (map fst (al_full (al_core a)));
  do A <- restrict ord [0; 1] paulis;
  do B <- restrict ord [1; 2] paulis;
  Ok (A, B).

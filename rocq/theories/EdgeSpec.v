(** Graph-theoretic notions used to state the edge-colouring properties. They do
    not mention the functions of the colouring module. *)
From Coq Require Import List Arith.
From Verif Require Import EdgeModel.
Import ListNotations.

(** finite simple undirected graph in networkx representation *)
Record simple (G : graph) : Prop := {
  sg_nodes : NoDup (g_nodes G);
  sg_adj : forall u, NoDup (g_adj G u);
  sg_mem : forall u v, In v (g_adj G u) -> In u (g_nodes G) /\ In v (g_nodes G);
  sg_sym : forall u v, In v (g_adj G u) -> In u (g_adj G v);
  sg_irr : forall u, ~ In u (g_adj G u) }.

(** every vertex has at most [D] neighbours *)
Definition max_degree (G : graph) (D : nat) : Prop := forall u, length (g_adj G u) <= D.

(** every edge has one of the colours 0..D-1, read the same from both ends *)
Definition colored_in (G : graph) (D : nat) (c : coloring) : Prop :=
  forall u v, In v (g_adj G u) -> c u v = c v u /\ exists x, c u v = Some x /\ x < D.

(** edges meeting in a vertex have different colours *)
Definition conflict_free (G : graph) (c : coloring) : Prop :=
  forall u v w, In v (g_adj G u) -> In w (g_adj G u) -> v <> w -> c u v <> c u w.

(** the number of incident edges minus the number of colours on them is [l]:
    [rep] is one neighbour for each colour present at [u] *)
Definition conflicts_of (G : graph) (c : coloring) (u l : nat) : Prop :=
  exists rep : list nat,
    NoDup rep /\ incl rep (g_adj G u) /\
    (forall v w, In v rep -> In w rep -> v <> w -> c u v <> c u w) /\
    (forall v, In v (g_adj G u) -> exists w, In w rep /\ c u w = c u v) /\
    l + length rep = length (g_adj G u).

(** the dictionary lists exactly the nodes with each positive number of conflicts *)
Definition dict_exact (G : graph) (D : nat) (c : coloring) (d : cdict) : Prop :=
  forall l, NoDup (d l) /\
            forall u, In u (d l) <-> (1 <= l < D /\ In u (g_nodes G) /\ conflicts_of G c u l).

(** sum over all nodes of the number of conflicts *)
Inductive total_conflicts (G : graph) (c : coloring) : list nat -> nat -> Prop :=
| tc_nil : total_conflicts G c [] 0
| tc_cons u l us n : conflicts_of G c u l -> total_conflicts G c us n ->
                     total_conflicts G c (u :: us) (l + n).

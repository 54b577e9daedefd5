(** Model of oranssi/edge_coloring.py (lines 20-148) and of [get_commuting_set]
    in oranssi/circuit_tools.py (lines 174-191).

    A graph is given by its nodes in insertion order and an ordered adjacency, as
    networkx stores it. Nodes are natural numbers. The attribute 'color' of an edge
    is kept in a separate map; networkx shares one attribute dictionary between
    G[u][v] and G[v][u], so a write changes both. Edges carry no other attribute.
    [random.choice] and [random.randint] read an arbitrary stream [rnd] at a
    position that is part of the state; the order in which Python lists a set is
    covered because the drawn index is arbitrary. *)
From Coq Require Import List Arith ZArith Bool.
From Verif Require Import Py.
Import ListNotations.
Local Open Scope nat_scope.

Record graph := { g_nodes : list nat; g_adj : nat -> list nat }.

(** value of the attribute 'color'; [None] is Python's None *)
Definition coloring := nat -> nat -> option nat.
(** conflict dictionary: level -> set of nodes (keys 1..D-1) *)
Definition cdict := nat -> list nat.

(** State of a run. [s_log] is a ghost record of the (colouring, dictionary) pairs
    seen after the dictionary is created and after every recolouring. *)
Record st := { s_col : coloring; s_cd : cdict; s_k : nat; s_log : list (coloring * cdict) }.

Definition ocol_dec : forall a b : option nat, {a = b} + {a <> b}.
Proof. decide equality. apply Nat.eq_dec. Defined.

(** [[c['color'] for c in G[u].values()]] *)
Definition colors_at (G : graph) (c : coloring) (u : nat) : list (option nat) :=
  map (c u) (g_adj G u).

(** networkx degree: a self loop counts twice *)
Definition degree (G : graph) (u : nat) : nat :=
  length (g_adj G u) + (if mem u (g_adj G u) then 1 else 0).

(** [len(set(...))] *)
Definition distinct (l : list (option nat)) : nat := length (nodup ocol_dec l).

(** [x in range(D)] *)
Definition in_range (D : nat) (x : option nat) : bool :=
  match x with Some v => v <? D | None => false end.

(** edge_coloring.py:20-21 *)
Definition properlyColored (G : graph) (c : coloring) (u D : nat) : bool :=
  Nat.eqb (distinct (colors_at G c u)) (degree G u) && forallb (in_range D) (colors_at G c u).

(** edge_coloring.py:24-25 *)
Definition checkEdgeColoring (G : graph) (c : coloring) (D : nat) : bool :=
  forallb (fun u => properlyColored G c u D) (g_nodes G).

(** edge_coloring.py:28-29 (never negative, so natural subtraction is exact) *)
Definition conflictLevel (G : graph) (c : coloring) (u : nat) : nat :=
  degree G u - distinct (colors_at G c u).

(** [d[l].add(u)]; a key outside 1..D-1 raises KeyError *)
Definition cd_add (D : nat) (d : cdict) (l u : nat) : res cdict :=
  if (1 <=? l) && (l <? D)
  then (let dl := d l in
        let new := if mem u dl then dl else dl ++ [u] in
        Ok (fun x => if Nat.eqb x l then new else d x))
  else Err KeyError.

(** [d[l].remove(u)] *)
Definition cd_remove (D : nat) (d : cdict) (l u : nat) : res cdict :=
  if (1 <=? l) && (l <? D)
  then (let dl := d l in
        if mem u dl
        then (let new := filter (fun y => negb (Nat.eqb y u)) dl in
              Ok (fun x => if Nat.eqb x l then new else d x))
        else Err KeyError)
  else Err KeyError.

(** edge_coloring.py:32-37 *)
Fixpoint cd_fill (G : graph) (D : nat) (c : coloring) (nodes : list nat) (d : cdict) : res cdict :=
  match nodes with
  | [] => Ok d
  | u :: t => let l := conflictLevel G c u in
              do d' <- (if 0 <? l then cd_add D d l u else Ok d);
              cd_fill G D c t d'
  end.
Definition createConflictDictionary (G : graph) (D : nat) (c : coloring) : res cdict :=
  cd_fill G D c (g_nodes G) (fun _ => []).

(** edge_coloring.py:40-46; the result is new level minus old level *)
Definition updateConflictDictionary (G : graph) (D : nat) (c : coloring) (u : nat) (d : cdict)
    (old : nat) : res (Z * cdict) :=
  let l := conflictLevel G c u in
  do d1 <- (if 0 <? old then cd_remove D d old u else Ok d);
  do d2 <- (if 0 <? l then cd_add D d1 l u else Ok d1);
  Ok ((Z.of_nat l - Z.of_nat old)%Z, d2).

(** keys of the conflict dictionary *)
Definition levels (D : nat) : list nat := seq 1 (D - 1).

(** edge_coloring.py:49-51; [max([])] raises ValueError *)
Definition maxConflictLevel (D : nat) (d : cdict) : res nat :=
  match filter (fun l => 0 <? length (d l)) (levels D) with
  | [] => Err ValueError
  | x :: t => Ok (fold_left Nat.max t x)
  end.

(** edge_coloring.py:54-55 *)
Definition totalNumberOfConflicts (D : nat) (d : cdict) : nat :=
  list_sum (map (fun l => l * length (d l)) (levels D)).

(** [G[u][v]['color'] = G[v][u]['color'] = x] *)
Definition set_color (c : coloring) (u v : nat) (x : option nat) : coloring :=
  fun a b => if (Nat.eqb a u && Nat.eqb b v) || (Nat.eqb a v && Nat.eqb b u) then x else c a b.

(** edge_coloring.py:58-63 *)
Definition colorEdgeAndUpdate (G : graph) (D : nat) (s : st) (u v color : nat) : res (Z * st) :=
  let old_u := conflictLevel G (s_col s) u in
  let old_v := conflictLevel G (s_col s) v in
  let c' := set_color (s_col s) u v (Some color) in
  do r1 <- updateConflictDictionary G D c' u (s_cd s) old_u;
  do r2 <- updateConflictDictionary G D c' v (snd r1) old_v;
  Ok (fst r2, {| s_col := c'; s_cd := snd r2; s_k := s_k s; s_log := s_log s ++ [(c', snd r2)] |}).

(** [random.choice]: IndexError on an empty list *)
Definition choice (rnd : nat -> nat) (k : nat) (l : list nat) : res nat :=
  match nth_error l (rnd k mod length l) with
  | Some x => Ok x
  | None => Err IndexError
  end.

Definition tick (s : st) : st :=
  {| s_col := s_col s; s_cd := s_cd s; s_k := S (s_k s); s_log := s_log s |}.

(** edge_coloring.py:66-81 [KempeNext] and [KempeStep]. The result is [None] when
    the chain ends (node, None, None) and [Some (next_node, old_color)] otherwise.
    [G[last][node]['color']] is a number after pre-colouring; were it None, the
    chain would end as well (new_color None at line 86). *)
Definition KempeStep (G : graph) (D : nat) (rnd : nat -> nat) (s : st) (last node new_color : nat)
  : res (option (nat * nat) * st) :=
  let available := filter (fun w => negb (Nat.eqb w last) &&
                      (if ocol_dec (s_col s node w) (Some new_color) then true else false)) (g_adj G node) in
  do ns <- match available with
           | [] => Ok (None, s)
           | _ => do w <- choice rnd (s_k s) available; Ok (Some w, tick s)
           end;
  let (next_node, s1) := ns : option nat * st in
  let old_color := s_col s1 last node in
  do r <- colorEdgeAndUpdate G D s1 last node new_color;
  let (variation, s2) := r : Z * st in
  if (variation <? 0)%Z then Ok (None, s2)
  else match next_node, old_color with
       | Some w, Some oc => Ok (Some (w, oc), s2)
       | _, _ => Ok (None, s2)
       end.

(** edge_coloring.py:84-88; [chain] is the set Kempe_chain *)
Fixpoint KempeProcess (fuel : nat) (G : graph) (D : nat) (rnd : nat -> nat) (s : st)
    (last node new_color : nat) (chain : list nat) : res st :=
  match fuel with
  | 0 => Err OutOfFuel
  | S f =>
      if mem last chain then Ok s
      else
        do r <- KempeStep G D rnd s last node new_color;
        match r with
        | (None, s') => Ok s'
        | (Some (w, oc), s') => KempeProcess f G D rnd s' node w oc (chain ++ [last])
        end
  end.

(** edge_coloring.py:92-99: remaining colours and last conflicting neighbour *)
Fixpoint kempe_scan (c : coloring) (node : nat) (adj : list nat) (colors : list nat) (next : option nat)
  : list nat * option nat :=
  match adj with
  | [] => (colors, next)
  | a :: t =>
      match c node a with
      | Some x => if mem x colors
                  then kempe_scan c node t (filter (fun y => negb (Nat.eqb y x)) colors) next
                  else kempe_scan c node t colors (Some a)
      | None => kempe_scan c node t colors (Some a)
      end
  end.

(** edge_coloring.py:91-101 *)
Definition KempeStart (fuel : nat) (G : graph) (D : nat) (rnd : nat -> nat) (s : st) (node : nat) : res st :=
  let (colors, next) := kempe_scan (s_col s) node (g_adj G node) (seq 0 D) None in
  match next with
  | None => Ok s
  | Some a => do x <- choice rnd (s_k s) colors;
              KempeProcess fuel G D rnd (tick s) node a x []
  end.

(** order in which networkx lists the edges of an undirected graph *)
Fixpoint edges_from (G : graph) (nodes seen : list nat) : list (nat * nat) :=
  match nodes with
  | [] => []
  | n :: t => map (fun w => (n, w)) (filter (fun w => negb (mem w seen)) (g_adj G n))
              ++ edges_from G t (n :: seen)
  end.
Definition edges (G : graph) : list (nat * nat) := edges_from G (g_nodes G) [].

(** edge_coloring.py:105-106 *)
Fixpoint uncolor (es : list (nat * nat)) (c : coloring) : coloring :=
  match es with
  | [] => c
  | (u, v) :: t => uncolor t (set_color c u v None)
  end.

(** edge_coloring.py:107-114 *)
Fixpoint precolor_loop (G : graph) (D : nat) (rnd : nat -> nat) (es : list (nat * nat))
    (c : coloring) (k : nat) : res (coloring * nat) :=
  match es with
  | [] => Ok (c, k)
  | (u, v) :: t =>
      let used := colors_at G c u ++ colors_at G c v in
      let available := filter (fun x => if in_dec ocol_dec (Some x) used then false else true) (seq 0 D) in
      do x <- match available with
              | [] => if Nat.eqb D 0 then Err ValueError else Ok (rnd k mod D)
              | _ => choice rnd k available
              end;
      precolor_loop G D rnd t (set_color c u v (Some x)) (S k)
  end.
Definition preColoring (G : graph) (D : nat) (rnd : nat -> nat) (c : coloring) (k : nat) : res (coloring * nat) :=
  precolor_loop G D rnd (edges G) (uncolor (edges G) c) k.

(** edge_coloring.py:121-135, the while loop *)
Fixpoint heuristic_loop (fuel fk : nat) (G : graph) (D : nat) (rnd : nat -> nat) (rl : Z)
    (s : st) (previous : nat) (counter : Z) : res (bool * st) :=
  match fuel with
  | 0 => Err OutOfFuel
  | S f =>
      if Nat.eqb previous 0 then Ok (true, s)
      else
        do h <- maxConflictLevel D (s_cd s);
        do node <- choice rnd (s_k s) (s_cd s h);
        do s1 <- KempeStart fk G D rnd (tick s) node;
        let current := totalNumberOfConflicts D (s_cd s1) in
        if Nat.eqb current 0 then Ok (true, s1)
        else if previous <=? current
        then (if (rl <? counter + 1)%Z then Ok (false, s1)
              else heuristic_loop f fk G D rnd rl s1 (Nat.min previous current) (counter + 1))
        else heuristic_loop f fk G D rnd rl s1 (Nat.min previous current) 0
  end.

(** edge_coloring.py:117-120 *)
Definition heuristic (fh fk : nat) (G : graph) (D : nat) (rnd : nat -> nat) (rl : Z)
    (c : coloring) (k : nat) (log : list (coloring * cdict)) : res (bool * st) :=
  do d <- createConflictDictionary G D c;
  let s := {| s_col := c; s_cd := d; s_k := k; s_log := log ++ [(c, d)] |} in
  heuristic_loop fh fk G D rnd rl s (totalNumberOfConflicts D d) 0.

(** Result of applyHeuristic: the returned boolean, the final state, and two ghost
    values: whether the last heuristic call reported success, and how many were made. *)
Record outcome := { o_result : bool; o_state : st; o_last : bool; o_rounds : nat }.

(** edge_coloring.py:141-148 *)
Fixpoint apply_loop (fa fh fk : nat) (G : graph) (D : nat) (rnd : nat -> nat) (rl il : Z)
    (c : coloring) (k : nat) (log : list (coloring * cdict)) (n : nat) : res outcome :=
  match fa with
  | 0 => Err OutOfFuel
  | S f =>
      do r <- heuristic fh fk G D rnd rl c k log;
      let (ok, s) := r : bool * st in
      if ok || (il <? Z.of_nat n)%Z
      then Ok {| o_result := checkEdgeColoring G (s_col s) D; o_state := s; o_last := ok; o_rounds := n |}
      else
        do ck <- preColoring G D rnd (s_col s) (s_k s);
        let (c', k') := ck : coloring * nat in
        apply_loop f fh fk G D rnd rl il c' k' (s_log s) (S n)
  end.

(** edge_coloring.py:138-148 *)
Definition applyHeuristic (fa fh fk : nat) (G : graph) (D : nat) (rnd : nat -> nat) (rl il : Z)
    (c : coloring) (k : nat) : res outcome :=
  do ck <- preColoring G D rnd c k;
  let (c', k') := ck : coloring * nat in
  apply_loop fa fh fk G D rnd rl il c' k' [] 1.

(** ** networkx.from_edgelist *)

Definition app_new (x : nat) (l : list nat) : list nat := if mem x l then l else l ++ [x].
Definition add_edge (G : graph) (e : nat * nat) : graph :=
  let (u, v) := e in
  {| g_nodes := app_new v (app_new u (g_nodes G));
     g_adj := fun x =>
       let l1 := if Nat.eqb x u then app_new v (g_adj G x) else g_adj G x in
       if Nat.eqb x v then app_new u l1 else l1 |}.
Definition from_edgelist (es : list (nat * nat)) : graph :=
  fold_left add_edge es {| g_nodes := []; g_adj := fun _ => [] |}.

(** circuit_tools.py:174-191 [get_commuting_set]; applyHeuristic is called with 2
    colours and limits 50 and 50. The second component is the position of the
    random stream afterwards. *)
Definition get_commuting_set (fa fh fk : nat) (rnd : nat -> nat) (k : nat) (es : list (nat * nat))
  : res (list (nat * nat) * nat) :=
  let unrolled := flat_map (fun e => [fst e; snd e]) es in
  if Nat.eqb (length unrolled) (length (nodup Nat.eq_dec unrolled)) then Ok (es, k)
  else
    let g := from_edgelist es in
    do o <- applyHeuristic fa fh fk g 2 rnd 50 50 (fun _ _ => None) k;
    let c := s_col (o_state o) in
    Ok (filter (fun e => match c (fst e) (snd e) with Some 0 => true | _ => false end) (edges g),
        s_k (o_state o)).

(** Model of graphix/extraction.py: decomposition of a graph state into GHZ and
    linear clusters (fusion network).

    A networkx graph is given by its adjacency dict, in insertion order
    (extraction.py:83 copies it): dict.popitem takes the last neighbor. *)
From Coq Require Import ZArith Arith List Bool Lia Permutation.
From Verif Require Import NSet Pattern Standardize OpenGraph NodeIndex.
Import ListNotations.

Definition adj := dict (list nat).
(** len(adjdict[v]), adjdict[v] of a known node *)
Definition nbl (a : adj) (v : nat) : list nat := match dget a v with Some l => l | None => [] end.
(** dict.popitem *)
Definition popitem (l : list nat) : option (nat * list nat) :=
  match rev l with [] => None | x :: r => Some (x, rev r) end.
(** del adjdict[u][w] *)
Definition del_nb (a : adj) (u w : nat) : res adj :=
  match dget a u with
  | None => Err EKey
  | Some l => if lmem w l then Ok (dset a u (remove Nat.eq_dec w l)) else Err EKey
  end.
(** n, _ = adjdict[v].popitem(); del adjdict[n][v] *)
Definition pop_edge (a : adj) (v : nat) : res (nat * adj) :=
  match popitem (nbl a v) with
  | None => Err EKey
  | Some (n, l) => do a <- del_nb (dset a v l) n v; Ok (n, a)
  end.
(** len(nodes) < max; [None] is inf *)
Definition below (k : nat) (mx : option nat) : bool := match mx with None => true | Some m => (k <? m)%nat end.

Inductive cltype := GHZ | LINEAR.
Record cluster := Cl { cl_type : cltype; cl_nodes : list nat; cl_edges : list (nat * nat) }.
Fixpoint chain (l : list nat) : list (nat * nat) :=
  match l with a :: ((b :: _) as r) => (a, b) :: chain r | _ => [] end.
(** extraction.py:147-173 create_resource_graph *)
Definition ghz (nodes : list nat) (root : nat) : cluster :=
  Cl GHZ nodes (map (fun i => (root, i)) (filter (fun i => negb (i =? root)%nat) nodes)).
Definition linear (nodes : list nat) : cluster := Cl LINEAR nodes (chain nodes).

(** loop state: adjdict, number_of_edges, resource_list *)
Record fstate := FS { fs_a : adj; fs_ne : Z; fs_r : list cluster }.
(** extraction.py:102-108: the star of [v].  Fuel: each turn removes an edge of [v] *)
Fixpoint star_loop (fuel : nat) (mx : option nat) (v : nat) (nodes : list nat) (a : adj) (ne : Z) : res (list nat * adj * Z) :=
  match fuel with
  | O => Ok (nodes, a, ne)
  | S fuel' =>
      if (0 <? length (nbl a v))%nat && below (length nodes) mx then
        do (n, a') <- pop_edge a v;
        star_loop fuel' mx v (nodes ++ [n]) a' (ne - 1)%Z
      else Ok (nodes, a, ne)
  end.
(** extraction.py:102-109 *)
Definition star_step (mx : option nat) (s : fstate) (v : nat) : res fstate :=
  if (2 <? length (nbl (fs_a s) v))%nat then
    do x <- star_loop (length (nbl (fs_a s) v)) mx v [v] (fs_a s) (fs_ne s);
    let '(nodes, a, ne) := x in
    Ok (FS a ne (fs_r s ++ [ghz nodes v]))
  else Ok s.
(** extraction.py:118-124: the walk from [n].  Fuel: each turn removes an edge *)
Fixpoint walk_loop (fuel : nat) (mx : option nat) (n : nat) (nodes : list nat) (a : adj) (ne : Z) : res (list nat * adj * Z) :=
  match fuel with
  | O => Ok (nodes, a, ne)
  | S fuel' =>
      if (0 <? length (nbl a n))%nat && below (length nodes) mx then
        do (n2, a') <- pop_edge a n;
        walk_loop fuel' mx n2 (nodes ++ [n2]) a' (ne - 1)%Z
      else Ok (nodes, a, ne)
  end.
Definition total (a : adj) : nat := list_sum (map (fun v => length (nbl a v)) (dkeys a)).
(** extraction.py:126-132 *)
Definition lin_cluster (nodes : list nat) : cluster :=
  match nodes with
  | [x; y; z] => ghz [y; x; z] y
  | [x; y] => ghz [x; y] x
  | _ => linear nodes
  end.
(** extraction.py:114-132, one node *)
Definition lin_step (mx : option nat) (s : fstate) (v : nat) : res fstate :=
  if (length (nbl (fs_a s) v) =? 1)%nat then
    do x <- walk_loop (total (fs_a s)) mx v [v] (fs_a s) (fs_ne s);
    let '(nodes, a, ne) := x in
    Ok (FS a ne (fs_r s ++ [lin_cluster nodes]))
  else Ok s.
(** extraction.py:134-146: the first node with two neighbors, if any *)
Fixpoint cyc_step (ks : list nat) (s : fstate) : res fstate :=
  match ks with
  | [] => Ok s
  | v :: ks' =>
      match nbl (fs_a s) v with
      | [x; y] =>
          do a <- del_nb (fs_a s) x v;
          do a <- del_nb a y v;
          do a <- del_nb a v x;
          do a <- del_nb a v y;
          Ok (FS a (fs_ne s - 2)%Z (fs_r s ++ [ghz [v; x; y] v]))
      | _ => cyc_step ks' s
      end
  end.
(** extraction.py:112-146, one turn *)
Definition round (mx : option nat) (s : fstate) : res fstate :=
  do s <- rfold (lin_step mx) (dkeys (fs_a s)) s; cyc_step (dkeys (fs_a s)) s.
(** extraction.py:112 while number_of_edges != 0; [None]: not finished after [fuel] turns *)
Fixpoint rounds (fuel : nat) (mx : option nat) (s : fstate) : option (res (list cluster)) :=
  if (fs_ne s =? 0)%Z then Some (Ok (fs_r s)) else
  match fuel with
  | O => None
  | S fuel' => match round mx s with Ok s => rounds fuel' mx s | Err e => Some (Err e) end
  end.
(** sorted(neighbors_list, key=itemgetter(1), reverse=True): a stable insertion by decreasing degree *)
Fixpoint ins_deg (x : nat * nat) (l : list (nat * nat)) : list (nat * nat) :=
  match l with [] => [x] | y :: l' => if (snd x <? snd y)%nat || (snd x =? snd y)%nat then y :: ins_deg x l' else x :: l end.
Definition sort_deg (l : list (nat * nat)) : list (nat * nat) := fold_left (fun acc x => ins_deg x acc) l [].
(** networkx number_of_edges: a self-loop counts twice in the degree *)
Definition number_of_edges (a : adj) : nat :=
  list_sum (map (fun v => length (nbl a v) + (if lmem v (nbl a v) then 1 else 0)) (dkeys a)) / 2.
(** extraction.py:85-97: the isolated nodes, and the nodes with more than two neighbors *)
Definition isolated (a : adj) : list nat := filter (fun v => (length (nbl a v) =? 0)%nat) (dkeys a).
Definition big (a : adj) : list (nat * nat) := map (fun v => (v, length (nbl a v))) (filter (fun v => (2 <? length (nbl a v))%nat) (dkeys a)).
(** extraction.py:57-144 graph_to_fusion_network *)
Definition graph_to_fusion_network (fuel : nat) (a : adj) (max_ghz max_lin : option nat) : option (res (list cluster)) :=
  match rfold (star_step max_ghz) (map fst (sort_deg (big a))) (FS a (Z.of_nat (number_of_edges a)) (map (fun v => ghz [v] v) (isolated a))) with
  | Ok s => rounds fuel max_lin s
  | Err e => Some (Err e)
  end.
(** nx.utils.graphs_equal of the two cluster graphs: same nodes, same undirected edges *)
Definition subset_b (l1 l2 : list nat) : bool := forallb (fun n => lmem n l2) l1.
Definition emem (e : nat * nat) (l : list (nat * nat)) : bool := existsb (edge_eqb (edge_norm e)) (map edge_norm l).
Definition cl_eqb (c1 c2 : cluster) : bool :=
  match cl_type c1, cl_type c2 with GHZ, GHZ | LINEAR, LINEAR => true | _, _ => false end
  && subset_b (cl_nodes c1) (cl_nodes c2) && subset_b (cl_nodes c2) (cl_nodes c1)
  && forallb (fun e => emem e (cl_edges c2)) (cl_edges c1) && forallb (fun e => emem e (cl_edges c1)) (cl_edges c2).
(** extraction.py:176-200 fusion_nodes *)
Definition fusion_nodes (c1 c2 : cluster) : list nat :=
  if cl_eqb c1 c2 then [] else filter (fun n => lmem n (cl_nodes c2)) (nodup Nat.eq_dec (cl_nodes c1)).

(** Model of graphix/graphsim.py: decorated graph states. *)
From Coq Require Import Reals Lra Arith List Bool Lia Permutation Setoid Morphisms FunctionalExtensionality.
From Verif Require Import Cplx Mat2 Fundamentals CliffordDb Clifford NSet Measure QState Pattern Layer Standardize OpenGraph FlowSem FlowWF GState.
Import ListNotations.
Local Arguments app_op : simpl never.

(** * The model *)
(** graphsim.py:36-109 GraphState: a networkx graph (nodes in insertion order, a
    set of edges) and three boolean attributes of the nodes; [sign], [loop] and
    [hollow] are the sets of nodes for which the attribute is True *)
Record gs := GS { gs_nodes : list nat; gs_edges : list (nat * nat); gs_sign : nset; gs_loop : nset; gs_hollow : nset }.
Definition gs_nb (g : gs) (n : nat) : nset := nb (gs_edges g) n.
(** [self.nodes[node]] raises KeyError, [self.neighbors(node)] NetworkXError *)
Definition has (g : gs) (n : nat) : bool := existsb (Nat.eqb n) (gs_nodes g).
Definition flip (n : nat) (s : nset) : nset := sxor s (sing n).
(** graphsim.py:113-118 local_complement, on a node of the graph *)
Definition local_complement (g : gs) (n : nat) : gs := GS (gs_nodes g) (lc (gs_edges g) n) (gs_sign g) (gs_loop g) (gs_hollow g).
(** graphsim.py:164-176 flip_fill *)
Definition flip_fill (g : gs) (n : nat) : gs := GS (gs_nodes g) (gs_edges g) (gs_sign g) (gs_loop g) (flip n (gs_hollow g)).
(** graphsim.py:178-193 flip_sign *)
Definition flip_sign (g : gs) (n : nat) : gs := GS (gs_nodes g) (gs_edges g) (flip n (gs_sign g)) (gs_loop g) (gs_hollow g).
(** graphsim.py:195-216 advance *)
Definition advance (g : gs) (n : nat) : gs :=
  if mem n (gs_loop g) then flip_sign (GS (gs_nodes g) (gs_edges g) (gs_sign g) (sremove n (gs_loop g)) (gs_hollow g)) n
  else GS (gs_nodes g) (gs_edges g) (gs_sign g) (sadd n (gs_loop g)) (gs_hollow g).
(** for i in self.neighbors(node): op(i); [it] is the iteration order *)
Definition for_nb (it : iter) (op : gs -> nat -> gs) (g : gs) (n : nat) : gs := fold_left op (it (gs_nb g n)) g.
(** graphsim.py:218-230 h *)
Definition g_h (g : gs) (n : nat) : gs := flip_fill g n.
(** graphsim.py:232-259 s *)
Definition g_s (it : iter) (g : gs) (n : nat) : gs :=
  if mem n (gs_hollow g) then
    if mem n (gs_loop g) then
      let g := flip_fill g n in
      let g := GS (gs_nodes g) (gs_edges g) (gs_sign g) (sremove n (gs_loop g)) (gs_hollow g) in
      let g := local_complement g n in
      for_nb it advance g n
    else
      let g := local_complement g n in
      let g := for_nb it advance g n in
      if mem n (gs_sign g) then for_nb it flip_sign g n else g
  else advance g n.
(** graphsim.py:260-279 z *)
Definition g_z (it : iter) (g : gs) (n : nat) : gs :=
  if mem n (gs_hollow g) then
    let g := for_nb it flip_sign g n in
    if mem n (gs_loop g) then flip_sign g n else g
  else flip_sign g n.
(** every method first looks its node up *)
Definition at_node {A} (g : gs) (n : nat) (r : res A) : res A := if has g n then r else Err EKey.
(** graphsim.py:281-304 equivalent_graph_e1 *)
Definition g_e1 (it : iter) (g : gs) (n : nat) : res gs :=
  at_node g n (
    if negb (mem n (gs_loop g)) then Err EValue else
    let g := flip_fill g n in
    let g := local_complement g n in
    let g := for_nb it advance g n in
    let g := flip_sign g n in
    Ok (if mem n (gs_sign g) then for_nb it flip_sign g n else g)).
(** graphsim.py:306-341 equivalent_graph_e2; without the edge (in particular when
    a node is missing) ValueError *)
Definition g_e2 (it : iter) (g : gs) (n1 n2 : nat) : res gs :=
  if negb (mem n2 (gs_nb g n1)) then Err EValue else
  if mem n1 (gs_loop g) || mem n2 (gs_loop g) then Err EValue else
  let sg1 := mem n1 (gs_sign g) in
  let sg2 := mem n2 (gs_sign g) in
  let g := flip_fill g n1 in
  let g := flip_fill g n2 in
  let g := local_complement g n1 in
  let g := local_complement g n2 in
  let g := local_complement g n1 in
  let g := fold_left flip_sign (it (sinter (gs_nb g n1) (gs_nb g n2))) g in
  let g := if sg1 then for_nb it flip_sign (flip_sign g n1) n1 else g in
  Ok (if sg2 then for_nb it flip_sign (flip_sign g n2) n2 else g).
(** graphsim.py:343-379 equivalent_fill_node *)
Definition g_fill (it : iter) (g : gs) (n : nat) : res (gs * nat) :=
  at_node g n (
    if mem n (gs_hollow g) then
      if mem n (gs_loop g) then do g <- g_e1 it g n; Ok (g, 0)
      else
        match it (gs_nb g n) with
        | [] => Ok (g, 1)
        | i0 :: _ =>
            match find (fun i => negb (mem i (gs_loop g))) (it (gs_nb g n)) with
            | Some i => do g <- g_e2 it g n i; Ok (g, 0)
            | None => do g <- g_e1 it g i0; do g <- g_e1 it g n; Ok (g, 0)
            end
        end
    else if is_empty (gs_nb g n) then Ok (g, 2) else Ok (g, 0)).
(** networkx remove_node *)
Definition remove_node (g : gs) (n : nat) : gs :=
  GS (lrem n (gs_nodes g)) (del (gs_edges g) n) (gs_sign g) (gs_loop g) (gs_hollow g).
(** graphsim.py:439-465 measure_z; [choice] is 0 or 1 (another value: ValueError) *)
Definition measure_z (it : iter) (g : gs) (n : nat) (choice : bool) : res (gs * bool) :=
  do (g, isolated) <- g_fill it g n;
  let g := if choice then for_nb it flip_sign g n else g in
  let result := if (isolated =? 0)%nat then choice else mem n (gs_sign g) in
  Ok (remove_node g n, result).
(** graphsim.py:381-412 measure_x; [self.neighbors] raises NetworkXError *)
Definition measure_x (it : iter) (g : gs) (n : nat) (choice : bool) : res (gs * bool) :=
  if negb (has g n) then Err ENetworkX else
  if is_empty (gs_nb g n) then
    let choice_ := if mem n (gs_hollow g) || mem n (gs_loop g) then choice else mem n (gs_sign g) in
    Ok (remove_node g n, choice_)
  else measure_z it (g_h g n) n choice.
(** graphsim.py:414-437 measure_y *)
Definition measure_y (it : iter) (g : gs) (n : nat) (choice : bool) : res (gs * bool) :=
  at_node g n (measure_z it (g_h (g_z it (g_s it g n) n) n) n choice).
(** graphsim.py:120-142 apply_vops: RuntimeError on any gate but H, S, Z *)
Definition apply_gate (it : iter) (n : nat) (g : gs) (c : clifford) : res gs :=
  match c with K3 => at_node g n (Ok (g_z it g n)) | K6 => at_node g n (Ok (g_h g n)) | K4 => at_node g n (Ok (g_s it g n)) | _ => Err ERuntime end.
Definition apply_vop (it : iter) (g : gs) (p : nat * clifford) : res gs := rfold (apply_gate it (fst p)) (rev (clifford_hsz (snd p))) g.
Definition apply_vops (it : iter) (g : gs) (vops : dict clifford) : res gs := rfold (apply_vop it) vops g.
(** graphsim.py:143-160 extract_vops *)
Definition gs_vop (g : gs) (n : nat) : clifford :=
  let v := K0 in
  let v := if mem n (gs_sign g) then clifford_mul K3 v else v in
  let v := if mem n (gs_loop g) then clifford_mul K4 v else v in
  if mem n (gs_hollow g) then clifford_mul K6 v else v.
Definition extract_vops (g : gs) : dict clifford := map (fun n => (n, gs_vop g n)) (gs_nodes g).
(** graphsim.py:494-513 to_statevector: the operations applied, node by node, to
    nqubit qubits in |+> (qubit i of the state vector being the i-th node) *)
Definition gs_ops (g : gs) : list op :=
  map (fun n => OPrep plus_state n) (gs_nodes g) ++ cz_ops (gs_edges g) ++
  map (fun n => OApp1 mZ n) (filter (fun n => mem n (gs_sign g)) (gs_nodes g)) ++
  map (fun n => OApp1 mS n) (filter (fun n => mem n (gs_loop g)) (gs_nodes g)) ++
  map (fun n => OApp1 mH n) (filter (fun n => mem n (gs_hollow g)) (gs_nodes g)).
(** graphsim.py:63-83 the constructor, for a graph whose edges only join listed nodes *)
Definition gs_new (nodes : list nat) (edges : list (nat * nat)) : gs := GS nodes edges sempty sempty sempty.

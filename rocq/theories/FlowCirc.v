(** Model of circuit extraction from a focused flow
    (graphix/circ_ext/extraction.py:22-71, 267-311, 314-366, 369-441, 510-688 and
    graphix/flow/core.py:945-995). *)
From Coq Require Import Reals Arith List Bool Lia Permutation.
From Verif Require Import Cplx Mat2 NSet QState Fundamentals Clifford Measure Pattern NodeIndex OpenGraph FlowSpec Flow Focus GPFlow Circuit Swaps PauliStr Berg Ladder.
Import ListNotations.

(** meas.sign == Sign.MINUS if the node is measured along a Pauli axis *)
Definition minus_at (og : opengraph) (n : nat) : bool :=
  match dget (og_meas og) n with Some (MPauli _ Minus) => true | _ => false end.
(** axes_dict[output_to_qubit_mapping.index(cnode)] = axis, for the nodes of one set *)
Definition put_axis (ni : nindex) (a : axis) (l : list nat) (d : dict axis) : res (dict axis) :=
  rfold (fun d n => do q <- ni_index ni n; Ok (dset d q a)) l d.
(** extraction.py:511-573 extraction_ps_from_corrected_node.  [it] is the
    iteration order of sets.  GFlow and CausalFlow override
    node_measurement_label by the plane, which is the same for the planar
    measurements they require. *)
Definition extraction_ps (it : iter) (f : pflow) (node : nat) : res pstring :=
  let og := pf_og f in
  do c <- of_opt EKey (dget (pf_cf f) node);
  do odd <- og_odd og c;
  let inter := sinter c odd in
  let outs := of_list (og_out og) in
  let xs := sinter (sdiff c odd) outs in
  let ys := sinter inter outs in
  let zs := sinter (sdiff odd c) outs in
  let neg := Nat.odd (length (filter (fun e => mem (fst e) c && mem (snd e) c) (g_edges (og_graph og)))) in
  let neg := xorb neg (Nat.odd (length (elems inter) / 2)) in
  let neg := fold_left (fun b n => xorb b (minus_at og n)) (it (sunion c odd)) neg in
  do l <- og_label og node;
  let neg := xorb neg (match l with LPlane PYZ => true | _ => false end) in
  let ni := ni_extend ni_clear (og_out og) in
  do d <- put_axis ni AX (it xs) [];
  do d <- put_axis ni AY (it ys) d;
  do d <- put_axis ni AZ (it zs) d;
  Ok (PStr (length (og_out og)) d (minus_if neg)).
(** flow/core.py:945-968 extraction_pauli_strings *)
Definition extraction_strings (it : iter) (f : pflow) : res (dict pstring) :=
  do b <- is_focused f;
  if b : bool then rmap (fun p => do s <- extraction_ps it f (fst p); Ok (fst p, s)) (pf_cf f) else Err EValue.
(** extraction.py:305-334 PauliExponential.from_measured_node *)
Definition pexp_node (f : pflow) (strs : dict pstring) (node : nat) : res pexp :=
  do p <- of_opt EKey (dget strs node);
  do m <- of_opt EKey (dget (og_meas (pf_og f)) node);
  Ok (PExp (match m with MBloch a _ => a / 2 | MPauli _ _ => 0 end)%R p).
(** extraction.py:366-391 PauliExponentialDAG.from_focused_flow *)
Definition dag_from_flow (f : pflow) (strs : dict pstring) : res pdag :=
  do d <- rmap (fun p => do e <- pexp_node f strs (fst p); Ok (fst p, e)) (pf_cf f);
  Ok (PDag d (pf_layers f) (og_out (pf_og f))).
(** extraction.py:615-648 clifford_z_map_from_focused_flow *)
Definition z_map_from_flow (f : pflow) (strs : dict pstring) : res (list pstring) :=
  let og := pf_og f in
  let ni := ni_extend ni_clear (og_out og) in
  rmap (fun n => match dget (og_meas og) n with
    | Some _ => of_opt EKey (dget strs n)
    | None => do q <- ni_index ni n; Ok (PStr (length (og_out og)) [(q, AZ)] Plus)
    end) (og_in og).
(** extraction.py:576-612 extend_input; max(()) is a ValueError *)
Definition extend_step (st : graph * dict nat * list nat * nat) (i : nat) : graph * dict nat * list nat * nat :=
  let '(g, anc, news, fresh) := st in
  (Graph (g_nodes g ++ [fresh]) (g_edges g ++ [(i, fresh)]), dset anc i fresh, news ++ [fresh], S fresh).
Definition extend_input (og : opengraph) : res (opengraph * dict nat) :=
  match g_nodes (og_graph og) with
  | [] => Err EValue
  | _ =>
    let fresh := S (list_max (g_nodes (og_graph og))) in
    let '(g, anc, news, _) := fold_left extend_step (rev (og_in og)) (og_graph og, [], [], fresh) in
    let ms := fold_left (fun d n => dset d n (MPauli AX Plus)) news (og_meas og) in
    do og' <- og_make g (rev news) (og_out og) ms (og_cliff og);
    Ok (og', anc)
  end.
(** extraction.py:658-688 clifford_x_map_from_focused_flow *)
Definition x_map_from_flow (it : iter) (f : pflow) : res (list pstring) :=
  do (og', anc) <- extend_input (pf_og f);
  do f' <- to_pauliflow it og';
  do xs <- rmap (fun n => do s <- extraction_ps it f' n; Ok (n, s)) (og_in og');
  rmap (fun i => do a <- of_opt EKey (dget anc i); of_opt EKey (dget xs a)) (og_in (pf_og f)).
(** extraction.py:446-471 CliffordMap.from_focused_flow *)
Definition cmap_from_flow (it : iter) (f : pflow) (strs : dict pstring) : res cmap :=
  do z <- z_map_from_flow f strs;
  do x <- x_map_from_flow it f;
  Ok (CMap x z (og_in (pf_og f)) (og_out (pf_og f))).
(** flow/core.py:970-995 extract_circuit.  The Pauli strings are a cached
    property: computed once *)
Definition extract_circuit (it : iter) (f : pflow) : res (pdag * cmap) :=
  match og_cliff (pf_og f) with
  | _ :: _ => Err ENotImplemented
  | [] =>
    do strs <- extraction_strings it f;
    do dag <- dag_from_flow f strs;
    do cm <- cmap_from_flow it f strs;
    Ok (dag, cm)
  end.
(** extraction.py:48-71 ExtractionResult.to_circuit, with the default passes *)
Definition extracted_circuit (it : iter) (f : pflow) : res circuit :=
  do (dag, cm) <- extract_circuit it f; er_to_circuit it dag cm.
(** opengraph.py:576-651 OpenGraph.to_circuit, with the default passes *)
Definition og_to_circuit (it : iter) (og : opengraph) : res circuit := do f <- to_pauliflow it og; extracted_circuit it f.

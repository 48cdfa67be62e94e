(** Model of graphix/remove_pauli_measurements.py _RemovePauliMeasurements and
    remove_pauli_measurements (lines 199-624). *)
From Coq Require Import Reals Lra Arith List Bool Lia Permutation Setoid Morphisms.
From Verif Require Import Cplx Mat2 Fundamentals CliffordDb Clifford NSet Measure QState Pattern Layer Standardize Shift OpenGraph GState Push.
Import ListNotations.

(** * The processing structure *)
(** a dictionary / an attribute table, written as a function; an update *)
Definition pset {A} (f : nat -> A) (k : nat) (a : A) : nat -> A := fun n => if (n =? k)%nat then a else f n.
(** remove_pauli_measurements.py:199-255: the attributes graph (nodes and edges),
    node_specs (src, domains, clifford, pauli_measurement), node_map (None: no
    such key), pauli_measurements, output_node_set.  The attributes cut,
    measurements and input_node_set never change: they are arguments.
    Simplification: node_specs is a total function; its keys are always the nodes
    of the graph, and it is only read at nodes of the graph. *)
Record rp := RP {
  rp_L : list nat; rp_es : list (nat * nat);
  rp_src : nat -> nat; rp_dom : nat -> nset * nset; rp_cl : nat -> clifford; rp_pm : nat -> option (axis * sign);
  rp_map : nat -> option nat; rp_sets : axis -> nset; rp_out : nset }.
Definition aset (f : axis -> nset) (a : axis) (s : nset) : axis -> nset := fun b => if axis_eqb b a then s else f b.
(** the nodes of StandardizedPattern.graph(), optimization.py:224-237 *)
Definition std_nodes (st : stdp) : list nat := sp_in st ++ map fst (sp_n st).
(** the pauli_measurement attribute after remove_pauli_measurements.py:271-277 *)
Fixpoint pauli_at (l : list mcmd) (n : nat) : option (axis * sign) :=
  match l with
  | [] => None
  | m :: l' => match pauli_at l' n with
               | Some r => Some r
               | None => if (mc_node m =? n)%nat then match mc_meas m with MPauli a s => Some (a, s) | _ => None end else None
               end
  end.
(** remove_pauli_measurements.py:257-278 __init__ *)
Definition rp_init (st : stdp) (c : cut) : rp :=
  let inp := of_list (sp_in st) in
  RP (std_nodes st) (sp_e st) (fun n => n)
     (fun n => (dz (expand_corrections (ct_sd c) (sp_x st)) n, dz (expand_corrections (ct_sd c) (sp_z st)) n))
     (fun n => cc st n) (pauli_at (ct_pauli c))
     (fun n => if lmem n (std_nodes st) then Some n else None)
     (fun a => of_list (filter (fun n => negb (mem n inp) && match pauli_at (ct_pauli c) n with Some (b, _) => axis_eqb b a | None => false end) (map mc_node (ct_pauli c))))
     (of_list (sp_out st)).

Section Model.
Variables (it : iter) (inp : nset).

(** remove_pauli_measurements.py:280-300 _apply_clifford; None is the KeyError of
    set.remove *)
Definition apply_clifford (r : rp) (v : nat) (g : clifford) : option rp :=
  let cl := pset (rp_cl r) v (clifford_mul (rp_cl r v) g) in
  let dom := pset (rp_dom r) v (commute_domains g (fst (rp_dom r v)) (snd (rp_dom r v))) in
  match rp_pm r v with
  | None => Some (RP (rp_L r) (rp_es r) (rp_src r) dom cl (rp_pm r) (rp_map r) (rp_sets r) (rp_out r))
  | Some (a, s) =>
      let new := pauli_clifford a s g in
      let mk sets := Some (RP (rp_L r) (rp_es r) (rp_src r) dom cl (pset (rp_pm r) v (Some new)) (rp_map r) sets (rp_out r)) in
      if mem v inp then mk (rp_sets r)
      else if axis_eqb (fst new) a then mk (rp_sets r)
      else if mem (rp_src r v) (rp_sets r a) then
        let sets1 := aset (rp_sets r) a (sremove (rp_src r v) (rp_sets r a)) in
        mk (aset sets1 (fst new) (sadd (rp_src r v) (sets1 (fst new))))
      else None
  end.
(** [for node in l: self._apply_clifford(node, g)] *)
Fixpoint apply_all (r : rp) (l : list nat) (g : clifford) : option rp :=
  match l with
  | [] => Some r
  | v :: l' => match apply_clifford r v g with Some r' => apply_all r' l' g | None => None end
  end.
Definition set_edges (r : rp) (es : list (nat * nat)) : rp :=
  RP (rp_L r) es (rp_src r) (rp_dom r) (rp_cl r) (rp_pm r) (rp_map r) (rp_sets r) (rp_out r).
(** remove_pauli_measurements.py:302-314 local_complement (with
    _complement_subgraph, 543-548) *)
Definition rp_lc (r : rp) (u : nat) : option rp :=
  let n_u := it (nb (rp_es r) u) in
  match apply_clifford (set_edges r (toggle_edges (rp_es r) (pairs n_u))) u (clifford_mul K6 (clifford_mul K5 K6)) with
  | Some r1 => apply_all r1 n_u K4
  | None => None
  end.
(** remove_pauli_measurements.py:551-559 _complement_edges *)
Definition complement_edges (es : list (nat * nat)) (s t : nset) : list (nat * nat) := toggle_edges es (list_prod (it s) (it t)).
(** remove_pauli_measurements.py:326-342, 350-358: the graph, the exchange of the
    two annotations and the outputs; the Clifford gates come last here, which
    changes nothing: they do not read output_node_set *)
Definition pivot_swap (r : rp) (u v : nat) : rp :=
  let n_u := nb (rp_es r) u in
  let n_v := nb (rp_es r) v in
  let inter := sinter n_u n_v in
  let only_u := sremove v (sdiff n_u inter) in
  let only_v := sremove u (sdiff n_v inter) in
  let es1 := complement_edges (rp_es r) only_u only_v in
  let es2 := complement_edges es1 only_u inter in
  let es3 := complement_edges es2 only_v inter in
  let sw {A} (f : nat -> A) := pset (pset f v (f u)) u (f v) in
  let u_output := mem u (rp_out r) in
  let v_output := mem v (rp_out r) in
  let outs := if eqb u_output v_output then rp_out r
              else if u_output then sadd v (sremove u (rp_out r)) else sadd u (sremove v (rp_out r)) in
  RP (rp_L r) es3 (sw (rp_src r)) (sw (rp_dom r)) (sw (rp_cl r)) (sw (rp_pm r))
     (pset (pset (rp_map r) (rp_src r u) (Some v)) (rp_src r v) (Some u)) (rp_sets r) outs.
(** remove_pauli_measurements.py:316-358 pivot_edge *)
Definition pivot_edge (r : rp) (u v : nat) : option rp :=
  let inter := sinter (nb (rp_es r) u) (nb (rp_es r) v) in
  match apply_clifford (pivot_swap r u v) u K6 with
  | Some r1 => match apply_clifford r1 v K6 with Some r2 => apply_all r2 (it inter) K3 | None => None end
  | None => None
  end.
(** remove_pauli_measurements.py:360-371 _remove_node *)
Definition remove_node (r : rp) (u : nat) : option rp :=
  let mk sets := match rp_map r (rp_src r u) with
                 | None => None
                 | Some _ => Some (RP (lrem u (rp_L r)) (del (rp_es r) u) (rp_src r) (rp_dom r) (rp_cl r) (rp_pm r) (pset (rp_map r) (rp_src r u) None) sets (rp_out r))
                 end in
  match rp_pm r u with
  | None => mk (rp_sets r)
  | Some (a, _) => if mem (rp_src r u) (rp_sets r a) then mk (aset (rp_sets r) a (sremove (rp_src r u) (rp_sets r a))) else None
  end.
(** remove_pauli_measurements.py:373-386 remove_z *)
Definition remove_z (r : rp) (u : nat) (s : sign) : option rp :=
  match (match s with Minus => apply_all r (it (nb (rp_es r) u)) K3 | Plus => Some r end) with
  | Some r1 => remove_node r1 u
  | None => None
  end.
(** remove_pauli_measurements.py:388-399 remove_y *)
Definition remove_y (r : rp) (u : nat) (s : sign) : option rp :=
  match rp_lc r u with Some r1 => remove_z r1 u s | None => None end.
(** remove_pauli_measurements.py:401-415 remove_x_with_internal_neighbor *)
Definition remove_x (r : rp) (u v : nat) (s : sign) : option rp :=
  match pivot_edge r u v with Some r1 => remove_z r1 v s | None => None end.
(** remove_pauli_measurements.py:417-433 remove_all_y_or_z: the while loop of one
    axis; [k] bounds the number of iterations, None is an exception or a loop that
    does not stop within [k] iterations *)
Fixpoint drain (remove : rp -> nat -> sign -> option rp) (a : axis) (k : nat) (r : rp) : option rp :=
  match it (rp_sets r a) with
  | [] => Some r
  | n :: _ =>
      match k with
      | O => None
      | S k' => match rp_map r n with
                | None => None
                | Some v => match rp_pm r v with
                            | None => None
                            | Some (_, s) => match remove r v s with Some r' => drain remove a k' r' | None => None end
                            end
                end
      end
  end.
Definition remove_all_yz (k : nat) (r : rp) : option rp :=
  match drain remove_y AY k r with Some r1 => drain remove_z AZ k r1 | None => None end.
(** remove_pauli_measurements.py:435-459 try_remove_x_with_internal_neighbor;
    the result is the new state and the boolean *)
Fixpoint try_x (r : rp) (l : list nat) : option (rp * bool) :=
  match l with
  | [] => Some (r, false)
  | n :: l' =>
      match rp_map r n with
      | None => None
      | Some x => match it (sdiff (sdiff (nb (rp_es r) x) inp) (rp_out r)) with
                  | [] => try_x r l'
                  | v :: _ => match rp_pm r x with
                              | None => None
                              | Some (_, s) => match remove_x r x v s with Some r' => Some (r', true) | None => None end
                              end
                  end
      end
  end.
(** remove_pauli_measurements.py:461-485 try_pivot_x_with_output_node *)
Fixpoint try_pivot (r : rp) (l : list nat) : option (rp * bool) :=
  match l with
  | [] => Some (r, false)
  | n :: l' =>
      match rp_map r n with
      | None => None
      | Some x => match it (sinter (nb (rp_es r) x) (sdiff (rp_out r) inp)) with
                  | [] => try_pivot r l'
                  | v :: _ => match pivot_edge r x v with Some r' => Some (r', true) | None => None end
                  end
      end
  end.
(** remove_pauli_measurements.py:613-620: the while loop of remove_pauli_measurements *)
Fixpoint rp_loop (k : nat) (r : rp) : option rp :=
  match k with
  | O => None
  | S k' =>
      match remove_all_yz (length (rp_L r)) r with
      | None => None
      | Some r1 =>
          match try_x r1 (it (rp_sets r1 AX)) with
          | None => None
          | Some (r2, true) => rp_loop k' r2
          | Some (r2, false) =>
              match try_pivot r2 (it (rp_sets r2 AX)) with
              | None => None
              | Some (r3, true) => rp_loop k' r3
              | Some (r3, false) => Some r3
              end
          end
      end
  end.
(** remove_pauli_measurements.py:487-502 remove_isolated_internal_nodes (without
    the warning) *)
Fixpoint remove_nodes (r : rp) (l : list nat) : option rp :=
  match l with
  | [] => Some r
  | u :: l' => match remove_node r u with Some r' => remove_nodes r' l' | None => None end
  end.
Definition isolated (r : rp) : list nat :=
  filter (fun n => is_empty (nb (rp_es r) n) && negb (mem n inp) && negb (mem n (rp_out r))) (rp_L r).
Definition remove_isolated (r : rp) : option rp := remove_nodes r (isolated r).
End Model.

(** remove_pauli_measurements.py:562-583 _map_domain *)
Definition map_domain (nm : nat -> option nat) (d : nset) : nset :=
  of_list (flat_map (fun n => match nm n with Some v => [v] | None => [] end) (elems d)).
(** remove_pauli_measurements.py:504-513 _create_new_m *)
Definition create_new_m (r : rp) (m : mcmd) : list mcmd :=
  match rp_map r (mc_node m) with
  | None => []
  | Some v => let m' := mcmd_clifford m (rp_cl r v) in
              [MC v (mc_meas m') (map_domain (rp_map r) (mc_s m')) (map_domain (rp_map r) (mc_t m'))]
  end.
(** remove_pauli_measurements.py:518: [self.node_map[node] for node in output_nodes] *)
Fixpoint map_all (nm : nat -> option nat) (l : list nat) : option (list nat) :=
  match l with
  | [] => Some []
  | n :: l' => match nm n, map_all nm l' with Some v, Some l'' => Some (v :: l'') | _, _ => None end
  end.
(** the dictionary comprehensions of remove_pauli_measurements.py:520-530 *)
Definition dcomp {A} (keep : A -> bool) (f : nat -> A) (l : list nat) : dict A :=
  flat_map (fun n => if keep (f n) then [(n, f n)] else []) l.
(** remove_pauli_measurements.py:515-540 to_standardizedpattern *)
Definition rp_to_std (st : stdp) (c : cut) (r : rp) : option stdp :=
  match map_all (rp_map r) (sp_out st) with
  | None => None
  | Some outs =>
      Some (Std (sp_in st) outs (filter (fun p => lmem (fst p) (rp_L r)) (sp_n st)) (map edge_norm (rp_es r))
        (flat_map (create_new_m r) (ct_pauli c ++ ct_rest c))
        (dcomp (fun d => negb (is_empty d)) (fun v => map_domain (rp_map r) (snd (rp_dom r v))) outs)
        (dcomp (fun d => negb (is_empty d)) (fun v => map_domain (rp_map r) (fst (rp_dom r v))) outs)
        (dcomp (fun g => negb (clifford_eqb g K0)) (rp_cl r) outs))
  end.
(** remove_pauli_measurements.py:586-624 remove_pauli_measurements; the result also
    shows the final node_map, and whether remove_isolated_internal_nodes issues the
    warning of line 501 (it does for every isolated node it removes: line 500 looks
    for a node among the axes that are the keys of pauli_measurements) *)
Definition remove_pauli (it : iter) (st : stdp) (c : cut) : option (stdp * (nat -> option nat) * bool) :=
  let inp := of_list (sp_in st) in
  match rp_loop it inp (2 * length (std_nodes st) + 2) (rp_init st c) with
  | None => None
  | Some r1 => match remove_isolated inp r1 with
               | None => None
               | Some r2 => match rp_to_std st c r2 with Some s => Some (s, rp_map r2, negb (match isolated inp r1 with [] => true | _ => false end)) | None => None end
               end
  end.

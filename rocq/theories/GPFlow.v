(** Model of graphix/flow/_find_gpflow.py: the algebraic gflow / Pauli-flow
    finder, and of the constructors that call it (flow/core.py, opengraph.py).

    Node indices ([NodeIndex]) are the sorted lists of nodes they hold:
    [tags.index(v)] is the position of [v] in the list ([pos]) and [tags[i]]
    its element ([nth]); lookups are only made for nodes of the list. *)
From Coq Require Import Reals Arith ZArith List Bool Lia Permutation.
From Verif Require Import NSet Fundamentals Measure Pattern OpenGraph FlowSpec Flow TopGen Linalg.
Import ListNotations.

(** [tags.index(v)] *)
Fixpoint pos (v : nat) (l : list nat) : nat :=
  match l with [] => 0 | x :: l' => if (x =? v)%nat then 0 else S (pos v l') end.
(** _find_gpflow.py:58-81 AlgebraicOpenGraph.__init__ *)
Definition non_inputs_l (og : opengraph) : list nat := elems (sdiff (og_nodes og) (of_list (og_in og))).
Definition non_outputs_l (og : opengraph) : list nat := elems (non_outputs og).
Definition set_ent (i j : nat) (A : list (list bool)) : list (list bool) := upd i (updb j true (row A i)) A.
Definition zero_row (n i : nat) (A : list (list bool)) : list (list bool) := upd i (tab n (fun _ => false)) A.
(** _find_gpflow.py:113-141 _compute_reduced_adj: one orientation of an edge *)
Definition set_adj (rows cols : list nat) (u v : nat) (A : list (list bool)) : list (list bool) :=
  if lmem u rows && lmem v cols then set_ent (pos u rows) (pos v cols) A else A.
Definition reduced_adj (og : opengraph) : list (list bool) :=
  let rows := non_outputs_l og in let cols := non_inputs_l og in
  fold_left (fun A e => set_adj rows cols (snd e) (fst e) (set_adj rows cols (fst e) (snd e) A))
    (g_edges (og_graph og)) (tab (length rows) (fun _ => tab (length cols) (fun _ => false))).
(** _find_gpflow.py:164-178 the updates for one node [v] labelled [l] *)
Definition in_M0 (l : label) : bool := match l with LPlane PYZ | LPlane PXZ | LAxis AZ => true | _ => false end.
Definition in_M1 (l : label) : bool := match l with LPlane PYZ | LPlane PXZ | LAxis AY | LAxis AZ => true | _ => false end.
Definition in_N0 (l : label) : bool := match l with LPlane PXY | LAxis _ => true | _ => false end.
Definition in_N1 (l : label) : bool := match l with LPlane PXY | LPlane PXZ => true | _ => false end.
Definition demand_node (og : opengraph) (lab : nat -> res label) (st : list (list bool) * list (list bool)) (v : nat)
  : res (list (list bool) * list (list bool)) :=
  let rows := non_outputs_l og in let cols := non_inputs_l og in
  let i := pos v rows in
  let inp := lmem v (og_in og) in
  do l <- lab v;
  let M := fst st in let N := snd st in
  let M := if in_M0 l then zero_row (length cols) i M else M in
  let M := if in_M1 l && negb inp then set_ent i (pos v cols) M else M in
  let N := if in_N0 l then zero_row (length cols) i N else N in
  let N := if in_N1 l && negb inp then set_ent i (pos v cols) N else N in
  Ok (M, N).
(** _find_gpflow.py:143-179 _og_matrices: flow-demand and order-demand matrices *)
Definition og_matrices (og : opengraph) (lab : nat -> res label) : res (mat * mat) :=
  let rows := non_outputs_l og in let cols := non_inputs_l og in
  do st <- rfold (demand_node og lab) rows (reduced_adj og, reduced_adj og);
  Ok (Mat (length rows) (length cols) (fst st), Mat (length rows) (length cols) (snd st)).
(** _find_gpflow.py:181-198 _node_measurement_label, 209-226 its planar version *)
Definition lab_pauli (og : opengraph) (v : nat) : res label := og_label og v.
Definition lab_planar (og : opengraph) (v : nat) : res label :=
  do m <- of_opt EKey (dget (og_meas og) v); do p <- mplane m; Ok (LPlane p).

(** _find_gpflow.py:314-343 _find_solvable_nodes: [v] unsolved, whose column has
    only zeros in the rows whose first [d] entries are zero (vacuous when there is
    no such row, which is the [else] branch) *)
Definition solvable_nodes (no : list nat) (d : nat) (kls : list (list bool)) (solved : nset) : nset :=
  of_list (filter (fun v => negb (mem v solved) &&
     forallb (fun r => any_row d r || negb (nth (d + pos v no) r false)) kls) no).
(** _find_gpflow.py:346-365 _update_p_matrix, one node *)
Definition update_p (no : list nat) (d q : nat) (kls P : list (list bool)) (v : nat) : list (list bool) :=
  let j := pos v no in
  let x := solve_f2 (Mat q d (map (firstn d) kls)) (map (fun r => nth (d + j) r false) kls) in
  tab d (fun i => updb j (nth i x false) (row P i)).

(** list.pop(i) and list.insert(i, x) *)
Definition lpop (i : nat) (l : list nat) : list nat := firstn i l ++ skipn (S i) l.
Definition linsert (i x : nat) (l : list nat) : list nat := firstn i l ++ x :: skipn i l.
(** _find_gpflow.py:386-398 reorder *)
Definition reorder (perm : list nat) (old : nat) (new : Z) : list nat :=
  linsert (Z.to_nat (new + (if (new <? Z.of_nat old)%Z then 1 else 0))) (nth old perm 0) (lpop old perm).
(** _find_gpflow.py:421-432 step 12.d.v: reduce row [k] by the rows [i <> k], in
    order, until a row with zero first block; returns the pivots *)
Fixpoint reduce_k (d k : nat) (is : list nat) (K : list (list bool)) (pivots : list nat) : list nat * list (list bool) :=
  match is with
  | [] => (pivots, K)
  | i :: is' =>
      if (i =? k)%nat then reduce_k d k is' K pivots
      else match flatnonzero (firstn d (row K i)) with
           | [] => (pivots, K)
           | p :: _ => reduce_k d k is' (if ent K k p then upd k (rxor (row K k) (row K i)) K else K) (pivots ++ [p])
           end
  end.
(** [int(np.argmax(np.array(pivots) > pk) - 1)]: argmax of an all-False array is 0 *)
Fixpoint argmax_gt (pk : nat) (l : list nat) : option nat :=
  match l with [] => None | p :: l' => if (pk <? p)%nat then Some 0 else option_map S (argmax_gt pk l') end.
Definition find_new_pos (pk : nat) (pivots : list nat) : Z :=
  (match argmax_gt pk pivots with Some i => Z.of_nat i | None => 0 end - 1)%Z.
(** _find_gpflow.py:434-455: the new position of row [k].  [if pk] is false for
    [None] and also for the pivot 0 *)
Definition new_position (k : nat) (pivots : list nat) (pk : option nat) : Z :=
  let np := length pivots in
  match pk with
  | Some (S _ as pk) =>
      if (np <=? k)%nat then match pivots with [] => (-1)%Z | _ => find_new_pos pk pivots end
      else let p := find_new_pos pk pivots in if (Z.of_nat k <=? p)%Z then (p + 1)%Z else p
  | _ => if (k <? np)%nat then Z.of_nat np else Z.of_nat k
  end.
(** _find_gpflow.py:368-461 _update_kls_matrix, one node; [optim] lists the nodes
    whose row of the order-demand matrix is not zero.  [row_idxs.pop()] of an
    empty list is an IndexError. *)
Definition update_kls (optim : list nat) (d n_no q : nat) (kils : list (list bool)) (K : list (list bool)) (v : nat) : res (list (list bool)) :=
  if negb (lmem v optim) then Ok K else
  let j := pos v optim in
  let js := d + n_no + j in
  match rev (filter (fun i => ent K i js) (seq 0 q)) with
  | [] => Err EIndex
  | k :: idxs =>
      let K := fold_left (fun K i => upd i (rxor (row K i) (row K k)) K) (rev idxs) K in
      let K := upd k (rxor (row K k) (row kils j)) K in
      let '(pivots, K) := reduce_k d k (seq 0 q) K [] in
      let pk := match flatnonzero (firstn d (row K k)) with [] => None | p :: _ => Some p end in
      let np := new_position k pivots pk in
      if (np =? Z.of_nat k)%Z then Ok K
      else Ok (map (row K) (reorder (seq 0 q) k np))
  end.
(** _find_gpflow.py:301-311 the loop of step 12, with fuel *)
Fixpoint p_loop (it : iter) (no optim : list nat) (d q : nat) (kils : list (list bool)) (fuel : nat)
    (solved : nset) (kls P : list (list bool)) : res (option (list (list bool))) :=
  if seqb solved (of_list no) then Ok (Some P)
  else match fuel with
       | 0 => Err EFuel
       | S fuel =>
           let s := solvable_nodes no d kls solved in
           if is_empty s then Ok None
           else
             let P := fold_left (update_p no d q kls) (it s) P in
             do kls <- rfold (update_kls optim d (length no) q kils) (it s) kls;
             p_loop it no optim d q kils fuel (sunion solved s) kls P
       end.
(** _find_gpflow.py:267-311 _compute_p_matrix *)
Definition compute_p (it : iter) (no optim : list nat) (d : nat) (nb : mat) : res (option (list (list bool))) :=
  let n_no := length no in
  let q := length optim in
  let kils := hstack (hstack (map (skipn n_no) (mdata nb)) (map (firstn n_no) (mdata nb))) (eye q) in
  let kls := mdata (gauss_elimination d (Mat q (d + n_no + q) kils)) in
  p_loop it no optim d q kils (S n_no) sempty kls (tab d (fun _ => tab n_no (fun _ => false))).
(** _find_gpflow.py:464-529 _compute_correction_matrix_general_case *)
Definition correction_general (it : iter) (og : opengraph) (M N : mat) : res (option mat) :=
  let no := non_outputs_l og in
  let n_no := length no in
  let d := length (og_out og) - length (og_in og) in
  match right_inverse M with
  | None => Ok None
  | Some C0 =>
      let F := transpose (null_space M) in
      let Cp := Mat (mrows C0) (mcols C0 + mcols F) (hstack (mdata C0) (mdata F)) in
      let nzrows := filter (any_row (mcols N)) (mdata N) in
      do P <- match nzrows with
              | [] => Ok (Some (tab d (fun _ => tab n_no (fun _ => false))))
              | _ =>
                  let optim := filter (fun v => any_row (mcols N) (row (mdata N) (pos v no))) no in
                  compute_p it no optim d (mat_mul (Mat (length nzrows) (mcols N) nzrows) Cp)
              end;
      match P with
      | None => Ok None
      | Some P => Ok (Some (mat_mul Cp (Mat (n_no + d) n_no (eye n_no ++ P))))
      end
  end.
(** _find_gpflow.py:603-640 compute_correction_matrix *)
Definition correction_matrix (it : iter) (og : opengraph) (lab : nat -> res label) : res (option mat) :=
  let ni := length (og_in og) in let no := length (og_out og) in
  if (no <? ni)%nat then Ok None else
  do MN <- og_matrices og lab;
  if (ni =? no)%nat then Ok (right_inverse (fst MN)) else correction_general it og (fst MN) (snd MN).
(** _find_gpflow.py:249-264 to_correction_function *)
Definition to_correction_function (og : opengraph) (C : mat) : dict nset :=
  map (fun v => (v, of_list (map (fun j => nth j (non_inputs_l og) 0)
                      (filter (fun j => ent (mdata C) j (pos v (non_outputs_l og))) (seq 0 (mrows C))))))
      (non_outputs_l og).
(** _find_gpflow.py:532-564 _try_ordering_matrix_to_topological_generations *)
Definition ordering_generations (it : iter) (A : mat) : res (option (list nset)) :=
  let n := mrows A in
  let dag := fun j => if (j <? mcols A)%nat then Some (of_list (filter (fun i => ent (mdata A) i j) (seq 0 n))) else None in
  let parents := fun i => filter (fun j => ent (mdata A) i j) (seq 0 (mcols A)) in
  let indeg := flat_map (fun i => match parents i with [] => [] | l => [(i, Z.of_nat (length l))] end) (seq 0 n) in
  let zero := of_list (filter (fun i => match parents i with [] => true | _ => false end) (seq 0 n)) in
  topological_generations it dag indeg zero.
(** _find_gpflow.py:567-600 compute_partial_order_layers *)
Definition gp_layers (it : iter) (og : opengraph) (N C : mat) : res (option (list nset)) :=
  do g <- ordering_generations it (mat_mul N C);
  Ok (match g with
      | None => None
      | Some gens => Some ((match og_out og with [] => [] | _ => [of_list (og_out og)] end)
          ++ map (fun l => of_list (map (fun i => nth i (non_outputs_l og) 0) (elems l))) (rev gens))
      end).
(** flow/core.py:603-629 from_correctionmatrix_or_none; opengraph.py:490-521, 523-574 *)
Definition find_gp (it : iter) (og : opengraph) (lab : nat -> res label) : res (option pflow) :=
  do C <- correction_matrix it og lab;
  match C with
  | None => Ok None
  | Some C =>
      do MN <- og_matrices og lab;
      do ls <- gp_layers it og (snd MN) C;
      Ok (match ls with None => None | Some ls => Some (PF og (to_correction_function og C) ls) end)
  end.
(** opengraph.py:523-574 to_pauliflow_or_none, 490-521 to_gflow_or_none *)
Definition find_pauliflow (it : iter) (og : opengraph) : res (option pflow) := find_gp it og (lab_pauli og).
Definition find_gflow (it : iter) (og : opengraph) : res (option pflow) := find_gp it og (lab_planar og).
(** opengraph.py:404-431 to_gflow, 433-461 to_pauliflow *)
Definition to_gflow (it : iter) (og : opengraph) : res pflow :=
  do f <- find_gflow it og; match f with Some f => Ok f | None => Err EOpenGraph end.
Definition to_pauliflow (it : iter) (og : opengraph) : res pflow :=
  do f <- find_pauliflow it og; match f with Some f => Ok f | None => Err EOpenGraph end.

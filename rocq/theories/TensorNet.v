(** Model of the tensor-network simulation of a pattern
    (graphix/sim/tensornet.py): MBQCTensorNet and TensorNetworkBackend, driven by
    PatternSimulator.run (simulator.py:396-480) without noise model.

    quimb is modelled by its specification: a network is a list of tensors with
    named indices; contracting it sums the product of the entries over all
    values of the indices.  Index names drawn by gen_str are natural numbers
    and are assumed distinct (a counter). *)
From Coq Require Import Reals Lra Arith List Bool Lia Permutation FunctionalExtensionality.
From Verif Require Import Cplx Mat2 Fundamentals CliffordDb Clifford NSet Measure QState Pattern Standardize NodeIndex Statevec Density Simulator OpenGraph Flow SpaceHeur.
Import ListNotations.
Local Open Scope C_scope.

(** * Networks *)
(** quimb Tensor: its indices, its entry when index i has value g i; of its tags,
    the node and Open/Close are kept.  Indices have dimension 2. *)
Record tensor := Tsr { t_inds : list nat; t_data : asg -> C; t_node : nat; t_open : bool }.
(** MBQCTensorNet: tensors in order of insertion, _dangling, and the next fresh index *)
Record tnet := TN { tn_ts : list tensor; tn_dang : dict nat; tn_next : nat }.
(** product of the entries *)
Definition tprod (ts : list tensor) (g : asg) : C := fold_right (fun t c => t_data t g * c) C1 ts.
(** all indices of the network *)
Definition tinds (ts : list tensor) : list nat := nodup Nat.eq_dec (flat_map t_inds ts).
(** contract(output_inds=[]), after full_simplify *)
Definition tcontract (ts : list tensor) : C := asum (tinds ts) (tprod ts) (fun _ => false).
(** retag Open to Close *)
Definition t_close (t : tensor) : tensor := Tsr (t_inds t) (t_data t) (t_node t) false.
(** the tensor holding index [i] is retagged (tensor_map[tid[0]]) *)
Fixpoint close_first (i : nat) (ts : list tensor) : list tensor :=
  match ts with [] => [] | t :: ts' => if lmem i (t_inds t) then t_close t :: ts' else t :: close_first i ts' end.
(** tensornet.py:80-99 open_tensor: the first tensor with the tags of the node and Open *)
Definition open_tensor (N : tnet) (n : nat) : option tensor := find (fun t => (t_node t =? n)%nat && t_open t) (tn_ts N).
(** tensornet.py:101-137 add_qubit in state plus *)
Definition tn_add_qubit (N : tnet) (n : nat) : tnet :=
  let i := tn_next N in
  TN (tn_ts N ++ [Tsr [i] (fun g => vget plus_state (g i)) n true]) (dset (tn_dang N) n i) (S i).
(** tensornet.py:139-164 evolve_single *)
Definition tn_evolve_single (N : tnet) (n : nat) (U : mat2) : res tnet :=
  match dget (tn_dang N) n with
  | None => Err EKey
  | Some old =>
      let new := tn_next N in
      Ok (TN (close_first old (tn_ts N) ++ [Tsr [new; old] (fun g => mget U (g new) (g old)) n true]) (dset (tn_dang N) n new) (S new))
  end.
(** tensornet.py:197-264 measure_single, with the projection vector given *)
Definition tn_project (N : tnet) (n : nat) (v : vec2) : res tnet :=
  match dget (tn_dang N) n with
  | None => Err EKey
  | Some old => Ok (TN (close_first old (tn_ts N) ++ [Tsr [old] (fun g => Cconj (vget v (g old))) n false]) (tn_dang N) (tn_next N))
  end.

(** * Graph states *)
(** states.py:94 BasicStates.VEC[bit + 2 * flag] *)
Definition gvec (flag bit : bool) : vec2 := planar_state (if flag then PXZ else PXY) (b2R bit).
(** ind_dict[node] (its head is the dangling index) and vec_dict[node], which have
    the same order, kept together *)
Record gprep := GP { gp_d : dict (nat * list (bool * nat)); gp_dang : dict nat; gp_next : nat }.
(** tensornet.py:282-287 *)
Definition gp_ensure (s : gprep) (n : nat) : gprep :=
  match dget (gp_d s) n with
  | Some _ => s
  | None => GP (dset (gp_d s) n (gp_next s, [])) (dset (gp_dang s) n (gp_next s)) (S (gp_next s))
  end.
Definition gp_push (s : gprep) (n : nat) (x : bool * nat) : gprep :=
  match dget (gp_d s) n with
  | Some (i, l) => GP (dset (gp_d s) n (i, l ++ [x])) (gp_dang s) (gp_next s)
  | None => s
  end.
(** tensornet.py:281-294, one edge *)
Definition gp_edge (s : gprep) (e : nat * nat) : gprep :=
  let s := gp_ensure (gp_ensure s (fst e)) (snd e) in
  let greater := (snd e <? fst e)%nat in
  let i := gp_next s in
  let s := gp_push (gp_push s (fst e) (greater, i)) (snd e) (negb greater, i) in
  GP (gp_d s) (gp_dang s) (S i).
(** 2 ** (dim / 4 - 1 / 2) *)
Definition gweight (d : nat) : R := Rpower 2 (INR d / 4 - 1 / 2).
(** the tensor of a node: dangling index [i], [l] its edges *)
Definition gtensor (n i : nat) (l : list (bool * nat)) : tensor :=
  Tsr (i :: map snd l) (fun g => RtoC (gweight (length l)) * fold_right (fun x c => vget (gvec (fst x) (g i)) (g (snd x)) * c) C1 l) n true.
(** tensornet.py:296-312, one node *)
Definition gp_node (d : dict (nat * list (bool * nat))) (N : tnet) (n : nat) : tnet :=
  match dget d n with
  | None => tn_add_qubit N n
  | Some (i, l) => TN (tn_ts N ++ [gtensor n i l]) (tn_dang N) (tn_next N)
  end.
(** tensornet.py:266-312 prepare_graph_state on an empty network.  The limit of
    outer_product to 52 vectors (the letters of einsum) is not modelled. *)
Definition prepare_graph_state (nodes : list nat) (edges : list (nat * nat)) : tnet :=
  let s := fold_left gp_edge edges (GP [] [] 0) in
  fold_left (gp_node (gp_d s)) nodes (TN [] (gp_dang s) (gp_next s)).

(** * Reading the state *)
(** tensornet.py:347-361: the loop of basis_coefficient; the bits of [basis], first qubit first *)
Fixpoint basis_bits (n basis : nat) : list bool :=
  match n with
  | O => []
  | S n' => let b := (basis / 2 ^ n' =? 1)%nat in b :: basis_bits n' (if b then basis - 2 ^ n' else basis)
  end.
Definition ketv (b : bool) : vec2 := planar_state PXZ (b2R b).
(** tensornet.py:349-361: one tensor per output node *)
Fixpoint out_kets (N : tnet) (outs : list nat) (bs : list bool) : res (list tensor) :=
  match outs, bs with
  | n :: outs', b :: bs' =>
      match dget (tn_dang N) n with
      | None => Err EKey
      | Some i => do l <- out_kets N outs' bs'; Ok (Tsr [i] (fun g => vget (ketv b) (g i)) n false :: l)
      end
  | _, _ => Ok []
  end.
(** tensornet.py:319-365 basis_coefficient with normalize=False *)
Definition basis_coefficient (N : tnet) (outs : list nat) (basis : nat) : res C :=
  do l <- out_kets N outs (basis_bits (length outs) basis);
  Ok (tcontract (tn_ts N ++ l)).
(** tensornet.py:385-404 to_statevector; division by a zero norm gives nan: [None] *)
Definition to_statevector (N : tnet) (outs : list nat) : res (option (list C)) :=
  do l <- rmap (basis_coefficient N outs) (range (2 ^ length outs));
  let nrm := sqrt (rsum l Cnorm2) in
  Ok (if Req_EM_T nrm 0 then None else Some (map (fun c => RtoC (/ nrm) * c) l)).

(** * Backend *)
Inductive gmode := Parallel | Sequential | Auto.
Section Backend.
(** the two tensors of the split of CZ (tensornet.py:544-576 _decompose_cz):
    czl o1 i1 b, czr b o2 i2 *)
Variables czl czr : bool -> bool -> bool -> C.
(** tensornet.py:709-744 entangle_nodes, sequential; tensors[1] is IndexError when
    one tensor holds both indices *)
Definition tn_entangle (N : tnet) (u v : nat) : res tnet :=
  match dget (tn_dang N) u, dget (tn_dang N) v with
  | Some i, Some j =>
      let held := filter (fun t => lmem i (t_inds t) || lmem j (t_inds t)) (tn_ts N) in
      if (length held <? 2)%nat then Err EIndex else
      let a := tn_next N in let b := S a in let c := S b in
      Ok (TN (close_first j (close_first i (tn_ts N))
              ++ [Tsr [a; i; c] (fun g => czl (g a) (g i) (g c)) u true; Tsr [c; b; j] (fun g => czr (g c) (g b) (g j)) v true])
             (dset (dset (tn_dang N) u a) v b) (S c))
  | _, _ => Err EKey
  end.
(** TensorNetworkBackend: the state, graph_prep == "sequential", _isolated_nodes *)
Record tbackend := TB { tb_net : tnet; tb_seq : bool; tb_iso : list nat }.
(** pattern.py:1225-1237 to_opengraph, [es] the edges as networkx lists them *)
Definition pat_opengraph (p : pattern) (es : list (nat * nat)) : res opengraph := do st <- from_pattern p; std_opengraph st es.
Definition degree (g : graph) (n : nat) : nat := length (filter (fun e => (fst e =? n)%nat || (snd e =? n)%nat) (g_edges g)).
(** pattern.py:1190-1204 max_degree, 1214-1223 isolated_nodes *)
Definition max_degree (g : graph) : nat := list_max (map (degree g) (g_nodes g)).
Definition isolated_nodes (g : graph) : list nat := filter (fun n => (degree g n =? 0)%nat) (g_nodes g).
(** tensornet.py:617-673 TensorNetworkBackend.__init__ (input_state None or PLUS) *)
Definition tb_init (p : pattern) (es : list (nat * nat)) (mode : gmode) : res tbackend :=
  do seq <- (match mode with
             | Parallel => if is_standard false p then Ok false else Err EValue
             | Sequential => Ok true
             | Auto => do og <- pat_opengraph p es; Ok ((5 <? max_degree (og_graph og))%nat || negb (is_standard false p))
             end);
  do og <- pat_opengraph p es;
  Ok (TB (if seq : bool then TN [] [] 0 else prepare_graph_state (g_nodes (og_graph og)) (g_edges (og_graph og))) seq (isolated_nodes (og_graph og))).
(** tensornet.py:676-706 add_nodes *)
Definition tb_add_nodes (b : tbackend) (nodes : list nat) (d : data) : res tbackend :=
  match d with
  | DState SPlus => Ok (if tb_seq b then TB (fold_left tn_add_qubit nodes (tb_net b)) (tb_seq b) (tb_iso b) else b)
  | _ => Err ENotImplemented
  end.
Definition tb_entangle (b : tbackend) (u v : nat) : res tbackend :=
  if tb_seq b then do N <- tn_entangle (tb_net b) u v; Ok (TB N (tb_seq b) (tb_iso b)) else Ok b.
Definition tb_apply (b : tbackend) (n : nat) (U : mat2) : res tbackend :=
  do N <- tn_evolve_single (tb_net b) n U; Ok (TB N (tb_seq b) (tb_iso b)).
(** fundamentals.py Plane.orth and ops.py Ops.from_axis *)
Definition orth_op (p : plane) : mat2 := match p with PXY => mZ | PYZ => mX | PXZ => mY end.
(** tensornet.py:747-781 measure.  measure_single (228-233) asks the selector a
    second time and drops the answer.  For an isolated node the probability is
    read from its open tensor; if that is a matrix (a gate was applied to the
    node), numpy broadcasting on its rows is not modelled: ERuntime. *)
Definition tb_measure (sel : selector) (g : rng) (k : nat) (b : tbackend) (n : nat) (m : measurement) : res (tbackend * bool * nat) :=
  do pv <- (if lmem n (tb_iso b) then
              match open_tensor (tb_net b) n with
              | None => Err EValue
              | Some t => match t_inds t with
                          | [i] => let q x := Cnorm2 (t_data t (fun _ => x)) in
                                   let s := (q false + q true)%R in Ok (q false / s, q true / s)%R
                          | _ => Err ERuntime
                          end
              end
            else Ok (1 / 2, 1 / 2)%R);
  do ok <- sel_measure sel g k n (fst pv);
  let result := fst ok in
  let buffer := if lmem n (tb_iso b) then (1 / sqrt (if result then snd pv else fst pv))%R else sqrt 2 in
  let '(a, p) := to_bloch m in
  let vec := planar_state p a in
  let vec := if result : bool then vmul (orth_op p) vec else vec in
  do ok2 <- sel_measure sel g (snd ok) n (1 / 2);
  do N <- tn_project (tb_net b) n (vscale (RtoC buffer) vec);
  Ok (TB N (tb_seq b) (tb_iso b), result, snd ok2).

(** simulator.py:445-478 *)
Record tsim := TSim { ts_bk : tbackend; ts_res : dict bool; ts_rng : nat }.
Definition tn_step (sel : selector) (g : rng) (st : tsim) (c : cmd) : res tsim :=
  match c with
  | CN n s => do b <- tb_add_nodes (ts_bk st) [n] (DState s); Ok (TSim b (ts_res st) (ts_rng st))
  | CE u v => do b <- tb_entangle (ts_bk st) u v; Ok (TSim b (ts_res st) (ts_rng st))
  | CM n m s t =>
      do ps <- res_parity (ts_res st) s; do pt <- res_parity (ts_res st) t;
      let m := if ps : bool then meas_clifford m K1 else m in
      let m := if pt : bool then meas_clifford m K3 else m in
      do x <- tb_measure sel g (ts_rng st) (ts_bk st) n m;
      let '(b, o, k) := x in
      Ok (TSim b (dset (ts_res st) n o) k)
  | CX n d => do p <- res_parity (ts_res st) d;
      if p : bool then do b <- tb_apply (ts_bk st) n mX; Ok (TSim b (ts_res st) (ts_rng st)) else Ok st
  | CZ n d => do p <- res_parity (ts_res st) d;
      if p : bool then do b <- tb_apply (ts_bk st) n mZ; Ok (TSim b (ts_res st) (ts_rng st)) else Ok st
  | CC n c => do b <- tb_apply (ts_bk st) n (clifford_mat c); Ok (TSim b (ts_res st) (ts_rng st))
  | CT => Ok st
  | CS _ _ => Err EValue
  end.
(** PatternSimulator(pattern, backend="tensornetwork").run(input): simulator.py:300-480 *)
Definition tn_run (sel : selector) (g : rng) (p : pattern) (es : list (nat * nat)) (mode : gmode) (input : data) : res tsim :=
  do b <- tb_init p es mode;
  do b <- tb_add_nodes b (p_in p) input;
  do _ <- check_runnability p;
  rfold (tn_step sel g) (p_seq p) (TSim b [] 0).
End Backend.

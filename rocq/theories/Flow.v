(** Model of graphix/flow/core.py: XZ-corrections, causal flow, gflow and Pauli
    flow objects, their well-formedness checks, and pattern generation. *)
From Coq Require Import Reals Arith List Bool Lia Permutation.
From Verif Require Import Cplx Mat2 NSet Fundamentals CliffordDb Clifford Measure QState Layer Pattern Standardize FlowSem FlowDet OpenGraph FlowSpec.
Import ListNotations.

Definition of_opt {A} (e : err) (x : option A) : res A := match x with Some a => Ok a | None => Err e end.
(** [d.get(k, set())] *)
Definition dgets (d : dict nset) (k : nat) : nset := match dget d k with Some s => s | None => sempty end.

(** * XZ-corrections *)
(** flow/core.py:78-100 *)
Record xzcorr := XZ { xz_og : opengraph; xz_x : dict nset; xz_z : dict nset; xz_layers : list nset }.
(** [shift = 1 if output_nodes else 0]; the layers of measured nodes, first measured first *)
Definition measured_layers (og : opengraph) (layers : list nset) : list nset :=
  rev (skipn (match og_out og with [] => 0 | _ => 1 end) layers).
Definition non_outputs (og : opengraph) : nset := sdiff (og_nodes og) (of_list (og_out og)).
(** flow/core.py:341-352 generate_total_measurement_order *)
Definition total_order (it : iter) (xz : xzcorr) : res (list nat) :=
  let o := flat_map it (measured_layers (xz_og xz) (xz_layers xz)) in
  if seqb (of_list o) (non_outputs (xz_og xz)) then Ok o else Err EAssert.
(** flow/core.py:395-406 the loop of is_compatible; the list starts with the current layer *)
Fixpoint advance (n : nat) (ls : list nset) : option (list nset) :=
  match ls with [] => None | l :: ls' => if mem n l then Some ls else advance n ls' end.
Fixpoint compat (order : list nat) (ls : list nset) : bool :=
  match order with
  | [] => true
  | n :: order' => match advance n ls with None => false | Some ls' => compat order' ls' end
  end.
(** flow/core.py:369-406 is_compatible; IndexError when there is no measured layer *)
Definition is_compatible (xz : xzcorr) (order : list nat) : res bool :=
  let no := non_outputs (xz_og xz) in
  if negb (seqb (of_list order) no) then Ok false
  else if negb (length order =? length (elems no))%nat then Ok false
  else match measured_layers (xz_og xz) (xz_layers xz) with
       | [] => Err EIndex
       | ls => Ok (compat order ls)
       end.
(** flow/core.py:195-202 the commands for one measured node *)
Definition node_cmds (it : iter) (xz : xzcorr) (u : nat) : res (list cmd) :=
  do m <- of_opt EKey (dget (og_meas (xz_og xz)) u);
  Ok (CM u m sempty sempty :: map (fun v => CZ v (sing u)) (it (dgets (xz_z xz) u))
                         ++ map (fun v => CX v (sing u)) (it (dgets (xz_x xz) u))).
Fixpoint rmap {A B} (f : A -> res B) (l : list A) : res (list B) :=
  match l with [] => Ok [] | a :: l' => do b <- f a; do bs <- rmap f l'; Ok (b :: bs) end.
(** flow/core.py:149-209 to_pattern *)
Definition xz_to_pattern (it : iter) (xz : xzcorr) (order : option (list nat)) : res pattern :=
  let og := xz_og xz in
  do order <- match order with
              | None => total_order it xz
              | Some o => do b <- is_compatible xz o; if b then Ok o else Err EXZ
              end;
  do ms <- rmap (node_cmds it xz) order;
  let cmds := map (fun n => CN n SPlus) (it (sdiff (og_nodes og) (of_list (og_in og))))
              ++ map (fun e => CE (fst e) (snd e)) (g_edges (og_graph og))
              ++ concat ms
              ++ map (fun p => CC (fst p) (snd p)) (og_cliff og) in
  reorder_output_nodes (pat_extend (pat_new (og_in og)) cmds) (og_out og).

(** * Flows *)
(** flow/core.py:571-601 PauliFlow, 999-1015 GFlow, 1179-1194 CausalFlow *)
Record pflow := PF { pf_og : opengraph; pf_cf : dict nset; pf_layers : list nset }.
(** measurements.py:309-311, 458-460; fundamentals.py:359-361 to_plane_or_axis is [FlowSpec.mlabel] *)
(** to_plane: only Bloch measurements have it *)
Definition mplane (m : measurement) : res plane := match m with MBloch _ p => Ok p | MPauli _ _ => Err EAttr end.
Definition lab_in_XY (l : label) : bool := match l with LAxis AX | LAxis AY => true | _ => false end.
Definition lab_in_YZ (l : label) : bool := match l with LAxis AY | LAxis AZ => true | _ => false end.

(** flow/core.py:631-662 PauliFlow.to_xzcorrections *)
Definition dset_ne (d : dict nset) (k : nat) (s : nset) : dict nset := if is_empty s then d else dset d k s.
Definition pxz_node (pf : pflow) (future : nset) (st : dict nset * dict nset) (u : nat) : res (dict nset * dict nset) :=
  let cs := dgets (pf_cf pf) u in
  do odd <- og_odd (pf_og pf) cs;
  Ok (dset_ne (fst st) u (sinter cs future), dset_ne (snd st) u (sinter odd future)).
Definition pxz_layer (it : iter) (pf : pflow) (st : dict nset * dict nset * nset) (l : nset) : res (dict nset * dict nset * nset) :=
  do d <- rfold (pxz_node pf (snd st)) (it l) (fst st);
  Ok (d, sunion (snd st) l).
Definition pf_to_xz (it : iter) (pf : pflow) : res xzcorr :=
  do st <- rfold (pxz_layer it pf) (pf_layers pf) ([], [], sempty);
  Ok (XZ (pf_og pf) (fst (fst st)) (snd (fst st)) (pf_layers pf)).

(** flow/core.py:1042-1069 GFlow.to_xzcorrections *)
Definition gf_to_xz (gf : pflow) : res xzcorr :=
  do st <- rfold (fun st p => do odd <- og_odd (pf_og gf) (snd p);
                   Ok (dset_ne (fst st) (fst p) (sremove (fst p) (snd p)), dset_ne (snd st) (fst p) (sremove (fst p) odd)))
                 (pf_cf gf) ([], []);
  Ok (XZ (pf_og gf) (fst st) (snd st) (pf_layers gf)).
(** flow/core.py:1201-1226 CausalFlow.to_xzcorrections *)
Definition cf_to_xz (cf : pflow) : res xzcorr :=
  do st <- rfold (fun st p => do nb <- og_neighbors (pf_og cf) (snd p);
                   Ok (dset_ne (fst st) (fst p) (snd p), dset_ne (snd st) (fst p) (sremove (fst p) nb)))
                 (pf_cf cf) ([], []);
  Ok (XZ (pf_og cf) (fst st) (snd st) (pf_layers cf)).

(** flow/core.py:1425-1459 _check_flow_general_properties and its two helpers *)
Definition check_general (f : pflow) : res unit :=
  let og := pf_og f in
  if negb (seqb (of_list (dkeys (pf_cf f))) (non_outputs og)) then Err EFlow
  else if negb (ssub (fold_right (fun p s => sunion (snd p) s) sempty (pf_cf f)) (sdiff (og_nodes og) (of_list (og_in og)))) then Err EFlow
  else match pf_layers f with
       | [] => match g_nodes (og_graph og) with [] => Ok tt | _ => Err EFlow end
       | l :: _ => match og_out og with [] => Ok tt | _ => if seqb l (of_list (og_out og)) then Ok tt else Err EFlow end
       end.
Definition guard (b : bool) : res unit := if b then Ok tt else Err EFlow.
(** all elements pass a test *)
Definition rall (f : nat -> res unit) (l : list nat) : res unit := rfold (fun _ n => f n) l tt.
Definition og_label (og : opengraph) (n : nat) : res label := do m <- of_opt EKey (dget (og_meas og) n); Ok (mlabel m).
(** flow/core.py:732-799 the body of the loop over the nodes of a layer *)
Definition pf_check_node (it : iter) (f : pflow) (past pasty : nset) (n : nat) : res unit :=
  let og := pf_og f in
  do cs <- of_opt EKey (dget (pf_cf f) n);
  do lab <- og_label og n;
  do _ <- rall (fun i => do l <- og_label og i; guard (lab_in_XY l)) (it (sinter (sremove n cs) past));
  do odd <- og_odd og cs;
  do _ <- rall (fun i => do l <- og_label og i; guard (lab_in_YZ l)) (it (sinter (sremove n odd) past));
  let closed := sdiff (sunion odd cs) (sinter odd cs) in
  do _ <- guard (is_empty (sinter (sremove n pasty) closed));
  match lab with
  | LPlane PXY => guard (negb (mem n cs) && mem n odd)
  | LPlane PXZ => guard (mem n cs && mem n odd)
  | LPlane PYZ => guard (mem n cs && negb (mem n odd))
  | LAxis AX => guard (mem n odd)
  | LAxis AZ => guard (mem n cs)
  | LAxis AY => guard (mem n closed)
  end.
(** flow/core.py:724-731 the layer tests: measured nodes only, non empty, no repetition *)
Definition layer_ok (og : opengraph) (past l : nset) : bool :=
  ssub l (of_list (dkeys (og_meas og))) && negb (is_empty l) && is_empty (sinter l past).
Definition is_Y (og : opengraph) (n : nat) : bool :=
  match dget (og_meas og) n with Some (MPauli AY _) => true | _ => false end.
Definition pf_check_layer (it : iter) (f : pflow) (st : nset * nset) (l : nset) : res (nset * nset) :=
  let '(past, pasty) := st in
  do _ <- guard (layer_ok (pf_og f) past l);
  let past := sunion past l in
  let pasty := sunion pasty (of_list (filter (is_Y (pf_og f)) (it l))) in
  do _ <- rall (pf_check_node it f past pasty) (it l);
  Ok (past, pasty).
(** flow/core.py:679-804 PauliFlow.check_well_formed *)
Definition pf_check (it : iter) (f : pflow) : res unit :=
  do _ <- check_general f;
  do st <- rfold (pf_check_layer it f) (measured_layers (pf_og f) (pf_layers f)) (sempty, sempty);
  guard (seqb (sunion (of_list (og_out (pf_og f))) (fst st)) (og_nodes (pf_og f))).

(** flow/core.py:1115-1155 GFlow.check_well_formed, one node *)
Definition gf_check_node (f : pflow) (past : nset) (n : nat) : res unit :=
  let og := pf_og f in
  do cs <- of_opt EKey (dget (pf_cf f) n);
  do _ <- guard (is_empty (sinter (sremove n cs) past));
  do odd <- og_odd og cs;
  do _ <- guard (is_empty (sinter (sremove n odd) past));
  do m <- of_opt EKey (dget (og_meas og) n);
  do p <- mplane m;
  match p with
  | PXY => guard (negb (mem n cs) && mem n odd)
  | PXZ => guard (mem n cs && mem n odd)
  | PYZ => guard (mem n cs && negb (mem n odd))
  end.
Definition gen_check_layer (it : iter) (chk : pflow -> nset -> nat -> res unit) (f : pflow) (past l : nset) : res nset :=
  do _ <- guard (layer_ok (pf_og f) past l);
  let past := sunion past l in
  do _ <- rall (chk f past) (it l);
  Ok past.
Definition gen_check (it : iter) (chk : pflow -> nset -> nat -> res unit) (f : pflow) : res unit :=
  do _ <- check_general f;
  do past <- rfold (gen_check_layer it chk f) (measured_layers (pf_og f) (pf_layers f)) sempty;
  guard (seqb (sunion (of_list (og_out (pf_og f))) past) (og_nodes (pf_og f))).
(** flow/core.py:1071-1160 GFlow.check_well_formed *)
Definition gf_check (it : iter) (f : pflow) : res unit := gen_check it gf_check_node f.
(** flow/core.py:1273-1303 CausalFlow.check_well_formed, one node *)
Definition cf_check_node (f : pflow) (past : nset) (n : nat) : res unit :=
  let og := pf_og f in
  do cs <- of_opt EKey (dget (pf_cf f) n);
  do _ <- guard (length (elems cs) =? 1)%nat;
  do m <- of_opt EKey (dget (og_meas og) n);
  do p <- mplane m;
  do _ <- guard (plane_eqb p PXY);
  do nb <- og_neighbors og cs;
  do _ <- guard (mem n nb);
  do _ <- guard (is_empty (sinter cs past));
  guard (is_empty (sinter (sremove n nb) past)).
(** flow/core.py:1228-1308 CausalFlow.check_well_formed *)
Definition cf_check (it : iter) (f : pflow) : res unit := gen_check it cf_check_node f.

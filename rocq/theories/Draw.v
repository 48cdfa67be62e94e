(** Model of the drawing of flows and XZ-corrections (graphix/visualization.py):
    where the nodes of a causal flow are placed, which arrows are drawn and in
    which colour, and along which curve.  matplotlib and networkx only receive
    the positions, colours and curves computed here and are not modelled; the
    layouts of open graphs and Pauli flows are computed by networkx and are not
    modelled either.  Floating-point numbers are modelled by real numbers. *)
From Coq Require Import Reals Lra Arith List Bool Lia.
From Verif Require Import NSet Fundamentals Measure Pattern OpenGraph FlowSpec Flow.
Import ListNotations.

(** * Positions *)
(** visualization.py:810-815: pos[n][1] = i; KeyError when [n] is not a node *)
Definition set_y (d : dict (nat * nat)) (n i : nat) : res (dict (nat * nat)) :=
  match dget d n with Some (x, _) => Ok (dset d n (x, i)) | None => Err EKey end.
(** visualization.py:821: pos[n][0] = x *)
Definition set_x (d : dict (nat * nat)) (n x : nat) : res (dict (nat * nat)) :=
  match dget d n with Some (_, y) => Ok (dset d n (x, y)) | None => Err EKey end.
(** visualization.py:812-815: while node in cf: node = next(iter(cf[node])); the
    loop need not end when [cf] is not a flow, so it has fuel; next raises
    StopIteration on an empty set, modelled by EIndex *)
Fixpoint chain_loop (it : iter) (cf : dict nset) (fuel i n : nat) (d : dict (nat * nat)) : res (dict (nat * nat)) :=
  match dget cf n with
  | None => Ok d
  | Some s => match fuel with
              | 0 => Err EFuel
              | S k => match it s with
                       | [] => Err EIndex
                       | m :: _ => do d <- set_y d m i; chain_loop it cf k i m d
                       end
              end
  end.
(** visualization.py:810-815: for i, k in enumerate(start_nodes), from index [i] *)
Fixpoint chains_loop (it : iter) (cf : dict nset) (fuel i : nat) (ks : list nat) (d : dict (nat * nat)) : res (dict (nat * nat)) :=
  match ks with
  | [] => Ok d
  | k :: ks => do d <- set_y d k i; do d <- chain_loop it cf fuel i k d; chains_loop it cf fuel (S i) ks d
  end.
(** visualization.py:807-808 *)
Definition start_nodes (f : pflow) : nset :=
  sdiff (og_nodes (pf_og f)) (fold_right (fun p s => sunion (snd p) s) sempty (pf_cf f)).
(** visualization.py:818-821: for layer_idx, layer in enumerate(pol), from index [i] *)
Fixpoint columns_loop (it : iter) (lmax i : nat) (ls : list nset) (d : dict (nat * nat)) : res (dict (nat * nat)) :=
  match ls with
  | [] => Ok d
  | l :: ls => do d <- rfold (fun d n => set_x d n (lmax - i)) (it l) d; columns_loop it lmax (S i) ls d
  end.
(** visualization.py:789-822 _compute_positions of a CausalFlow *)
Definition cf_positions (it : iter) (fuel : nat) (f : pflow) : res (dict (nat * nat)) :=
  let d := map (fun n => (n, (0, 0))) (g_nodes (og_graph (pf_og f))) in
  do d <- chains_loop it (pf_cf f) fuel 0 (it (start_nodes f)) d;
  columns_loop it (length (pf_layers f) - 1) 0 (pf_layers f) d.

Definition point := (R * R)%type.
Definition to_point (p : nat * nat) : point := (INR (fst p), INR (snd p)).
(** visualization.py:825-843 _scale_positions *)
Definition scale_positions (nd : R * R) (pos : dict point) : dict point :=
  if Req_EM_T (fst nd) 1 then if Req_EM_T (snd nd) 1 then pos
    else map (fun kv => (fst kv, (fst (snd kv) * fst nd, snd (snd kv) * snd nd)%R)) pos
  else map (fun kv => (fst kv, (fst (snd kv) * fst nd, snd (snd kv) * snd nd)%R)) pos.
(** visualization.py:487-515 _draw_layers: the texts written below the columns,
    with the x coordinate each is centred on *)
Definition layer_texts (n_layers : nat) (dx : R) : list (R * nat) :=
  map (fun l => ((INR l * dx)%R, n_layers - 1 - l)) (seq 0 (n_layers - 1)) ++ [((INR (n_layers - 1) * dx)%R, 0)].

(** * Arrows *)
(** visualization.py:61-64; the four constants are different strings (the legend
    of lines 615-618 requires it) *)
Inductive color := FLOW_C | X_C | Z_C | XZ_C.
Definition color_eqb (a b : color) : bool :=
  match a, b with FLOW_C, FLOW_C | X_C, X_C | Z_C, Z_C | XZ_C, XZ_C => true | _, _ => false end.
Definition arrow := (nat * nat)%type.
(** visualization.py:869-885 _format_corrections_flow; the set is modelled by the
    list of its elements in an order of iteration *)
Definition flow_arrows (it : iter) (f : pflow) : list (arrow * color) :=
  flat_map (fun kv => map (fun v => ((fst kv, v), FLOW_C)) (it (snd kv))) (pf_cf f).
(** visualization.py:888-917 _format_corrections_xz *)
Definition xz_arrows (it : iter) (xz : xzcorr) : list (arrow * color) :=
  flat_map (fun u =>
    let x := dgets (xz_x xz) u in
    let z := dgets (xz_z xz) u in
    let b := sinter x z in
    map (fun v => ((u, v), X_C)) (it (sdiff x b)) ++
    map (fun v => ((u, v), Z_C)) (it (sdiff z b)) ++
    map (fun v => ((u, v), XZ_C)) (it b)) (dkeys (og_meas (xz_og xz))).

(** * Geometry *)
Definition padd (p q : point) : point := (fst p + fst q, snd p + snd q)%R.
Definition psub (p q : point) : point := (fst p - fst q, snd p - snd q)%R.
Definition pscale (k : R) (p : point) : point := (k * fst p, k * snd p)%R.
Definition pdot (p q : point) : R := (fst p * fst q + snd p * snd q)%R.
(** np.linalg.norm *)
Definition pnorm (p : point) : R := sqrt (pdot p p).
Definition Rltb (a b : R) : bool := if Rlt_dec a b then true else false.
Definition Reqb (a b : R) : bool := if Req_EM_T a b then true else false.
Definition peqb (p q : point) : bool := Reqb (fst p) (fst q) && Reqb (snd p) (snd q).
(** visualization.py:1129-1145 _cross2d (the shapes are always (2,)) *)
Definition cross2d (p q : point) : R := (fst p * snd q - snd p * fst q)%R.
(** visualization.py:1102-1126 _edge_intersects_node *)
Definition edge_intersects_node (s e n : point) (buffer : R) : bool :=
  if peqb s e then false
  else let lv := psub e s in
       let pv := psub n s in
       let t := (pdot pv lv / pdot lv lv)%R in
       if Rltb t 0 || Rltb 1 t then false
       else Rltb (pnorm (psub (padd s (pscale t lv)) n)) buffer.
(** visualization.py:1082-1099 _control_point; numpy divides by a zero norm
    without raising and returns NaN *)
Definition control_point (s e n : point) (distance : R) : res point :=
  let ev := psub e s in
  let dir := if Rltb 0 (cross2d ev (psub n s)) then (snd ev, - fst ev)%R else (- snd ev, fst ev)%R in
  if Reqb (pnorm dir) 0 then Err ENan else Ok (padd n (pscale distance (pscale (/ pnorm dir) dir))).

(** * Paths *)
(** visualization.py:1046-1060 the first triple of points of the path that is
    merged (and the number of triples passed before it); None when the for loop
    ends without break *)
Fixpoint merge_first (path : list point) : option (list point * nat) :=
  match path with
  | a :: tl =>
      match tl with
      | b :: c :: rest =>
          let v1 := psub b a in
          let v2 := psub c b in
          if peqb v1 (0, 0)%R || peqb v2 (0, 0)%R then Some (a :: c :: rest, 0)
          else if Rltb (pdot v1 v2 / (pnorm v1 * pnorm v2)) (cos (3 * PI / 4)) then
            match rest with
            | [] => Some ([a; c], 0)
            | _ => Some (a :: pscale (/ 2) (padd b c) :: rest, 0)
            end
          else match merge_first tl with Some (q, k) => Some (a :: q, S k) | None => None end
      | _ => None
      end
  | [] => None
  end.
(** visualization.py:1040-1063 the while loop of _check_path *)
Fixpoint check_loop (fuel it : nat) (path : list point) : res (list point) :=
  if 100 <? it then Ok path
  else match merge_first path with
       | None => Ok path
       | Some (path, k) => match fuel with 0 => Err EFuel | S fuel => check_loop fuel (it + k) path end
       end.
(** list.remove: the first occurrence *)
Fixpoint premove (p : point) (l : list point) : list point :=
  match l with [] => [] | q :: l => if peqb q p then l else q :: premove p l end.
(** visualization.py:1037-1069 _check_path with a target *)
Definition check_path (path : list point) (target : point) : res (list point) :=
  do path <- check_loop (length path) 0 path;
  Ok (fold_left (fun l p => if Rltb (pnorm (psub p target)) (2 / 10) then premove p l else l) (removelast path) path).
(** list.insert *)
Definition insert_at (i : nat) (p : point) (l : list point) : list point := firstn i l ++ p :: skipn i l.
(** visualization.py:1018-1019, from index [i] *)
Fixpoint insert_all (i : nat) (cs : list (nat * point)) (path : list point) : list point :=
  match cs with [] => path | (j, c) :: cs => insert_all (S i) cs (insert_at (j + i + 1) c path) end.
(** visualization.py:1006-1015 the loop over the nodes, for the segment of index [i] *)
Definition scan_node (a : arrow) (pos : dict point) (first last : point) (dist : R) (i : nat) (s e : point)
    (st : nset * list (nat * point)) (n : nat) : res (nset * list (nat * point)) :=
  if (n =? fst a) || (n =? snd a) then Ok st
  else do p <- of_opt EKey (dget pos n);
       if edge_intersects_node s e p (2 / 10) then
         do c <- control_point first last p dist; Ok (sremove n (fst st), snd st ++ [(i, c)])
       else Ok st.
(** visualization.py:1002-1015 the loop over the segments, from index [i] *)
Fixpoint scan_path (it : iter) (a : arrow) (pos : dict point) (first last : point) (dist : R) (i : nat) (path : list point)
    (st : nset * list (nat * point)) : res (nset * list (nat * point)) :=
  match path with
  | s :: tl =>
      match tl with
      | e :: _ =>
          do st <- rfold (scan_node a pos first last dist i s e) (it (fst st)) st;
          scan_path it a pos first last dist (S i) tl st
      | [] => Ok st
      end
  | [] => Ok st
  end.
(** visualization.py:994-1019 the while loop of _find_bezier_path; [k] iterations
    are left, [iteration] is the current one *)
Fixpoint bezier_loop (it : iter) (a : arrow) (pos : dict point) (k iteration : nat) (nodes : nset) (path : list point) : res (list point) :=
  match k with
  | 0 => Ok path
  | S k =>
      do st <- scan_path it a pos (hd (0, 0)%R path) (last path (0, 0)%R) (6 / 10 / INR iteration)%R 0 path (nodes, []);
      match snd st with
      | [] => Ok path
      | cs => bezier_loop it a pos k (S iteration) (fst st) (insert_all 0 cs path)
      end
  end.
(** visualization.py:974-1020 _find_bezier_path *)
Definition find_bezier_path (it : iter) (a : arrow) (path : list point) (pos : dict point) : res (list point) :=
  do path <- bezier_loop it a pos 5 1 (of_list (dkeys pos)) path;
  do target <- of_opt EKey (dget pos (snd a));
  check_path path target.
(** visualization.py:1148-1166 _point_from_node (angle in degrees) *)
Definition point_from_node (p : point) (dist angle : R) : point :=
  (fst p + dist * cos (angle * PI / 180), snd p + dist * sin (angle * PI / 180))%R.
(** visualization.py:947-956 *)
Definition self_loop_path (p : point) : list point :=
  [point_from_node p (20 / 100) 170; point_from_node p (35 / 100) 170; point_from_node p (40 / 100) 155; point_from_node p (45 / 100) 140;
   point_from_node p (35 / 100) 110; point_from_node p (30 / 100) 110; point_from_node p (17 / 100) 95].
Definition edge_eqb (a b : arrow) : bool := (fst a =? fst b) && (snd a =? snd b).
(** visualization.py:946-967 the path of one arrow *)
Definition arrow_path (it : iter) (pos : dict point) (edges : list arrow) (a : arrow) : res (list point) :=
  do p <- of_opt EKey (dget pos (fst a));
  if fst a =? snd a then Ok (self_loop_path p)
  else do q <- of_opt EKey (dget pos (snd a));
       do path <- (if existsb (fun e => edge_eqb e a || edge_eqb e (snd a, fst a)) edges then
                     let mid := ((1 / 2) * (fst p + fst q), (1 / 2) * (snd p + snd q))%R in
                     if edge_intersects_node p q mid (5 / 100) then do c <- control_point p q mid (2 / 10); Ok [p; c; q] else Ok [p; q]
                   else Ok [p; q]);
       find_bezier_path it a path pos.
(** dictionaries keyed by arrows: d[a] = v *)
Fixpoint aset {A} (d : list (arrow * A)) (a : arrow) (v : A) : list (arrow * A) :=
  match d with [] => [(a, v)] | (b, w) :: d => if edge_eqb b a then (b, v) :: d else (b, w) :: aset d a v end.
(** visualization.py:920-971 _compute_arrow_paths *)
Definition arrow_paths (it : iter) (pos : dict point) (edges : list arrow) (arrows : list (arrow * color)) : res (list (arrow * (list point * color))) :=
  rfold (fun d ac => do p <- arrow_path it pos edges (fst ac); Ok (aset d (fst ac) (p, snd ac))) arrows [].
(** visualization.py:846-866 _compute_edge_paths *)
Definition edge_paths (it : iter) (pos : dict point) (edges : list arrow) : res (list (arrow * list point)) :=
  rfold (fun d e => do p <- of_opt EKey (dget pos (fst e)); do q <- of_opt EKey (dget pos (snd e));
                    do path <- find_bezier_path it e [p; q] pos; Ok (aset d e path)) edges [].
(** visualization.py:1072-1079 _shorten_path; IndexError on a path of one point *)
Definition shorten_path (path : list point) : res (list point) :=
  match rev path with
  | l :: s :: r =>
      let v := psub l s in
      if Reqb (pnorm v) 0 then Err ENan else Ok (rev (psub l (pscale (2 / 10) (pscale (/ pnorm v) v)) :: s :: r))
  | _ => Err EIndex
  end.
(** visualization.py:1023-1029 _bezier_curve at one value of [t]; math.comb is the
    standard library's binomial coefficient *)
Definition bezier_coord (c : point -> R) (path : list point) (t : R) : R :=
  let n := length path - 1 in
  sum_f_R0 (fun i => Binomial.C n i * (1 - t) ^ (n - i) * t ^ i * c (nth i path (0, 0)))%R n.
Definition bezier_curve (path : list point) (t : R) : point := (bezier_coord fst path t, bezier_coord snd path t).

(** what is drawn for an arrow (visualization.py:431-451 _draw_arrows): a straight
    line between the two nodes, or a curve *)
Inductive stroke := Straight | Curve (path : list point).
Definition arrow_stroke (a : arrow) (path : list point) : res stroke :=
  if length path =? 2 then Ok Straight
  else if fst a =? snd a then Ok (Curve path)
  else do p <- shorten_path path; Ok (Curve p).
(** the strokes of all the arrows *)
Fixpoint strokes (d : list (arrow * (list point * color))) : res (list (arrow * (stroke * color))) :=
  match d with
  | [] => Ok []
  | (a, (p, c)) :: d => do s <- arrow_stroke a p; do r <- strokes d; Ok ((a, (s, c)) :: r)
  end.
(** visualization.py:231-264 from_flow of a causal flow with the positions
    scaled by [nd], then the arrows drawn by visualize: positions and strokes *)
Definition draw_causal_flow (it : iter) (fuel : nat) (nd : R * R) (f : pflow)
    : res (dict point * list (arrow * list point) * list (arrow * (stroke * color))) :=
  do d <- cf_positions it fuel f;
  let pos := scale_positions nd (map (fun kv => (fst kv, to_point (snd kv))) d) in
  do es <- edge_paths it pos (g_edges (og_graph (pf_og f)));
  do aps <- arrow_paths it pos (g_edges (og_graph (pf_og f))) (flow_arrows it f);
  do ss <- strokes aps;
  Ok (pos, es, ss).

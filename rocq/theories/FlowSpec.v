(** Specification of causal flow, gflow and Pauli flow (Browne, Kashefi, Mhalla,
    Perdrix 2007, definitions 2, 3 and 5), independent of the code: open graphs
    as sets of nodes and edges, orders given by a list of layers. *)
From Coq Require Import Arith List Bool.
From Verif Require Import NSet Fundamentals Measure OpenGraph.
Import ListNotations.

(** node [n] is in the layer of index [i] *)
Definition in_layer (ls : list nset) (i n : nat) : Prop := exists l, nth_error ls i = Some l /\ mem n l = true.
(** [u] comes before [v]: layers are listed from the last measured to the first *)
Definition prec (ls : list nset) (u v : nat) : Prop := exists i j, in_layer ls i u /\ in_layer ls j v /\ j < i.
(** [v] has an odd number of neighbours in [s] *)
Definition odd_nb (g : graph) (s : nset) (v : nat) : Prop :=
  exists l, NoDup l /\ (forall u, In u l <-> mem u s = true /\ adjacent g u v) /\ Nat.odd (length l) = true.

(** the layers partition the nodes, no layer is empty, the outputs (if any) are
    exactly the first layer *)
Record order_ok (og : opengraph) (ls : list nset) : Prop := {
  ord_cover : forall n, In n (g_nodes (og_graph og)) <-> exists i, in_layer ls i n;
  ord_disj : forall i j n, in_layer ls i n -> in_layer ls j n -> i = j;
  ord_ne : forall i l, nth_error ls i = Some l -> exists n, mem n l = true;
  ord_first : og_out og <> [] -> forall n, In n (og_out og) <-> in_layer ls 0 n }.
(** the correction function maps the non-output nodes to sets of non-input nodes *)
Record corrf_ok (og : opengraph) (cf : dict nset) : Prop := {
  cf_dom : forall i, (exists s, dget cf i = Some s) <-> In i (g_nodes (og_graph og)) /\ ~ In i (og_out og);
  cf_img : forall i s j, dget cf i = Some s -> mem j s = true -> In j (g_nodes (og_graph og)) /\ ~ In j (og_in og) }.
Definition measured_as (og : opengraph) (j : nat) (m : measurement) : Prop := dget (og_meas og) j = Some m.

Inductive label := LPlane (p : plane) | LAxis (a : axis).
Definition mlabel (m : measurement) : label := match m with MBloch _ p => LPlane p | MPauli a _ => LAxis a end.
(** node [j] is measured and its label is [l] *)
Definition labelled (og : opengraph) (j : nat) (l : label) : Prop := exists m, dget (og_meas og) j = Some m /\ mlabel m = l.

Record pauli_flow (og : opengraph) (cf : dict nset) (ls : list nset) : Prop := {
  pfl_order : order_ok og ls;
  pfl_cf : corrf_ok og cf;
  pfl_1 : forall i s j l, dget cf i = Some s -> mem j s = true -> i <> j -> labelled og j l ->
          l <> LAxis AX -> l <> LAxis AY -> prec ls i j;
  pfl_2 : forall i s j l, dget cf i = Some s -> odd_nb (og_graph og) s j -> i <> j -> labelled og j l ->
          l <> LAxis AY -> l <> LAxis AZ -> prec ls i j;
  pfl_3 : forall i s j, dget cf i = Some s -> ~ prec ls i j -> i <> j -> labelled og j (LAxis AY) ->
          (mem j s = true <-> odd_nb (og_graph og) s j);
  pfl_4 : forall i s, dget cf i = Some s -> labelled og i (LPlane PXY) -> mem i s = false /\ odd_nb (og_graph og) s i;
  pfl_5 : forall i s, dget cf i = Some s -> labelled og i (LPlane PXZ) -> mem i s = true /\ odd_nb (og_graph og) s i;
  pfl_6 : forall i s, dget cf i = Some s -> labelled og i (LPlane PYZ) -> mem i s = true /\ ~ odd_nb (og_graph og) s i;
  pfl_7 : forall i s, dget cf i = Some s -> labelled og i (LAxis AX) -> odd_nb (og_graph og) s i;
  pfl_8 : forall i s, dget cf i = Some s -> labelled og i (LAxis AZ) -> mem i s = true;
  pfl_9 : forall i s, dget cf i = Some s -> labelled og i (LAxis AY) ->
          (mem i s = true /\ ~ odd_nb (og_graph og) s i) \/ (mem i s = false /\ odd_nb (og_graph og) s i) }.

(** all measurements are in a plane *)
Definition planar (og : opengraph) : Prop := forall n m, measured_as og n m -> exists a p, m = MBloch a p.
Record gflow (og : opengraph) (cf : dict nset) (ls : list nset) : Prop := {
  gfl_order : order_ok og ls;
  gfl_cf : corrf_ok og cf;
  gfl_1 : forall i s j, dget cf i = Some s -> mem j s = true -> i <> j -> prec ls i j;
  gfl_2 : forall i s j, dget cf i = Some s -> odd_nb (og_graph og) s j -> i <> j -> prec ls i j;
  gfl_3 : forall i s, dget cf i = Some s -> labelled og i (LPlane PXY) -> mem i s = false /\ odd_nb (og_graph og) s i;
  gfl_4 : forall i s, dget cf i = Some s -> labelled og i (LPlane PXZ) -> mem i s = true /\ odd_nb (og_graph og) s i;
  gfl_5 : forall i s, dget cf i = Some s -> labelled og i (LPlane PYZ) -> mem i s = true /\ ~ odd_nb (og_graph og) s i }.
Record causal_flow (og : opengraph) (cf : dict nset) (ls : list nset) : Prop := {
  cfl_order : order_ok og ls;
  cfl_cf : corrf_ok og cf;
  cfl_XY : forall i s, dget cf i = Some s -> labelled og i (LPlane PXY);
  cfl_all : forall i s, dget cf i = Some s -> exists j, (forall k, mem k s = true <-> k = j) /\
     adjacent (og_graph og) i j /\ prec ls i j /\ forall k, adjacent (og_graph og) j k -> k <> i -> prec ls i k }.

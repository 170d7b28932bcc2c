(** The default deformation graph of active pictorial structures: aps/base.py 253-262 and 787-830.  Real instead
    of floating point arithmetic. *)
From Coq Require Import List Reals Arith Bool.
From Verif.Model Require Import Py Result.
Import ListNotations.
Local Open Scope R_scope.

Notation rshape := (list (R * R)).

Fixpoint sumR (l : list R) : R := match l with [] => 0 | x :: l => x + sumR l end.
(** np.mean(coords, axis=1), aps/base.py 811, one row *)
Definition mean (l : list R) : R := sumR l / INR (length l).
(** np.cov(coords), aps/base.py 812, one entry (normalised by n - 1) *)
Definition cov (l l' : list R) : R :=
  sumR (map (fun xy => (fst xy - mean l) * (snd xy - mean l')) (combine l l')) / (INR (length l) - 1).

(** Mean and covariance of the relative position. *)
Record gaussian := mkGaussian { mx : R; my : R; cxx : R; cxy : R; cyy : R }.
Definition gdet (g : gaussian) : R := cxx g * cyy g - cxy g * cxy g.

(** multivariate_normal.pdf at one point, aps/base.py 817; raises for a singular covariance. *)
Definition pdf (g : gaussian) (x : R * R) : res R :=
  if Req_EM_T (gdet g) 0 then Err LinAlgError else
  let dx := fst x - mx g in let dy := snd x - my g in
  let maha := (cyy g * dx * dx - 2 * cxy g * dx * dy + cxx g * dy * dy) / gdet g in
  Ok (exp (- (maha / 2)) / (2 * PI * sqrt (gdet g))).

(** [s.points[i] - s.points[j] for s in shapes], aps/base.py 806-808 *)
Definition diffs (shapes : list rshape) (i j : nat) : res (list (R * R)) :=
  mapM (fun s => let? p := nth_res s i in let? q := nth_res s j in Ok (fst p - fst q, snd p - snd q)) shapes.

(** weights[i, j], aps/base.py 805-818.  With a single image np.cov is nan, which scipy refuses. *)
Definition weight (shapes : list rshape) (i j : nat) : res R :=
  let? coords := diffs shapes i j in
  let xs := map fst coords in let ys := map snd coords in
  if (length shapes =? 1)%nat then Err ValueError else
  let g := mkGaussian (mean xs) (mean ys) (cov xs xs) (cov xs ys) (cov ys ys) in
  let? ws := mapM (fun x => let? p := pdf g x in Ok (- ln p)) coords in
  Ok (sumR ws).

(** The pairs visited by the loops, aps/base.py 803-804. *)
Definition pairs (n : nat) : list (nat * nat) :=
  flat_map (fun i => map (fun j => (i, j)) (seq (Datatypes.S i) (n - Datatypes.S i))) (seq 0 (n - 1)).

Definition edge := (nat * nat)%type.
Definition graph := list (edge * R).

(** The weights of the complete graph, aps/base.py 788-819. *)
Definition all_weights (shapes : list rshape) : res graph :=
  let? s := nth_res shapes 0 in
  mapM (fun e => let? w := weight shapes (fst e) (snd e) in Ok (e, w)) (pairs (length s)).

(** UndirectedGraph(weights), aps/base.py 822: an entry that is exactly zero is no edge of the (sparse)
    adjacency matrix. *)
Definition present (ew : edge * R) : bool := if Req_EM_T (snd ew) 0 then false else true.
Definition touches (v : nat) (ew : edge * R) : bool := (fst (fst ew) =? v)%nat || (snd (fst ew) =? v)%nat.
Definition isolated (n : nat) (g : graph) : bool := existsb (fun v => negb (existsb (touches v) g)) (seq 0 n).

(** The graph whose minimum spanning tree is taken, aps/base.py 822-830; minimum_spanning_tree (menpo) refuses
    graphs with isolated vertices.  The tree itself is any minimum spanning tree (Spec/ApsGraph.v). *)
Definition complete_graph (shapes : list rshape) : res graph :=
  let? s := nth_res shapes 0 in
  let? ws := all_weights shapes in
  let g := filter present ws in
  if isolated (length s) g then Err ValueError else Ok g.

(** The deformation graphs after a batch, aps/base.py 253-262: [None] stands for a graph that was not given;
    [mst] computes the tree of a batch of shapes. *)
Definition deformation_graphs {G} (mst : list rshape -> res G) (graphs : list (option G)) (batch : list rshape)
  : res (list (option G)) :=
  if existsb (fun g => match g with None => true | Some _ => false end) graphs
  then let? t := mst batch in Ok (map (fun g => match g with None => Some t | Some g => Some g end) graphs)
  else Ok graphs.

(** The deformation graphs after the batches of one or more calls, aps/base.py 215-245. *)
Fixpoint after_batches {G} (mst : list rshape -> res G) (graphs : list (option G)) (batches : list (list rshape))
  : res (list (option G)) :=
  match batches with
  | [] => Ok graphs
  | b :: bs => let? graphs := deformation_graphs mst graphs b in after_batches mst graphs bs
  end.

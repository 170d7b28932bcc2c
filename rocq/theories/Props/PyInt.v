(** C34: the MAP solvers for every model size. *)
From Coq Require Import List ZArith Bool QArith Lia.
From Verif.Model Require Import Py PyInt.
From Verif.Spec Require Import PyInt.
From Verif.Proofs Require PyInt.
Import ListNotations.
Local Open Scope nat_scope.

(** Up to 256 shape parameters solve_shape_map returns the regularised increment.  (Missing: more than 256, refuted below.) *)
Theorem c34_shape_map_partial : forall A add mul opp solve (H : list (list A)) Jte w p,
  length w = length H -> length p = length H -> length Jte = length H -> length H <= 256 ->
  regularised add mul opp solve H Jte w p (py_solve_shape_map add mul opp solve H Jte w p).
Proof. intros A. exact Proofs.PyInt.shape_map_small. Qed.
Print Assumptions c34_shape_map_partial.

(** From 257 on it raises ValueError, for every Hessian, prior and error. *)
Theorem c34_shape_map_refuted : forall A add mul opp solve (H : list (list A)) Jte w p,
  length w = length H -> length p = length H -> 257 <= length H ->
  py_solve_shape_map add mul opp solve H Jte w p = Err ValueError.
Proof. intros A. exact Proofs.PyInt.shape_map_large. Qed.
Print Assumptions c34_shape_map_refuted.

(** In the bidirectional case (two copies of the shape parameters) it returns the increment regularised by the doubled prior,
    for every number of parameters. *)
Theorem c34_bidirectional : forall A add mul opp solve (H : list (list A)) Jte w p,
  length w = length p -> length H = length p + length p -> length Jte = length H -> 0 < length p ->
  regularised add mul opp solve H Jte (w ++ w) (p ++ p) (py_solve_shape_map add mul opp solve H Jte w p).
Proof. intros A. exact Proofs.PyInt.shape_map_bidirectional. Qed.
Print Assumptions c34_bidirectional.

(** solve_all_map: the number of appearance parameters does not matter, the number of shape parameters does. *)
Theorem c34_all_map_partial : forall A add mul opp solve (H : list (list A)) Jte wa c ws p m n,
  length wa = m -> length c = m -> length ws = n -> length p = n -> length H = m + n -> length Jte = length H -> n <= 256 ->
  exists r, regularised add mul opp solve H Jte (wa ++ ws) (c ++ p) r /\
    py_solve_all_map add mul opp solve H Jte wa c ws p m n =
      match r with Ok dq => Ok (firstn m dq, skipn m dq) | Err e => Err e end.
Proof. intros A. exact Proofs.PyInt.all_map_small. Qed.
Print Assumptions c34_all_map_partial.

Theorem c34_all_map_refuted : forall A add mul opp solve (H : list (list A)) Jte wa c ws p m n,
  length wa = m -> length ws = n -> length H = m + n -> 257 <= n ->
  py_solve_all_map add mul opp solve H Jte wa c ws p m n = Err ValueError.
Proof. intros A. exact Proofs.PyInt.all_map_large. Qed.
Print Assumptions c34_all_map_refuted.

(** Two parameters, with a solver for diagonal matrices. *)
Definition diag_solve (H : list (list Q)) (b : list Q) : res (list Q) :=
  match H, b with [[a; _]; [_; d]], [x; y] => Ok [Qred (x / a); Qred (y / d)] | _, _ => Err LinAlgError end.
Example c34_example :
  py_solve_shape_map Qplus Qmult Qopp diag_solve [[1#1; 0#1]; [0#1; 3#1]]%Q [2#1; 1#1]%Q [1#1; 1#1]%Q [2#1; 5#1]%Q = Ok [-2#1; -3#2]%Q.
Proof. reflexivity. Qed.
Example c34_example_large : exists (H : list (list Q)) (w p : list Q), length H = 257 /\ length w = length H /\ length p = length H.
Proof. exists (repeat (repeat 0%Q 257) 257), (repeat 0%Q 257), (repeat 0%Q 257). rewrite !repeat_length. auto. Qed.

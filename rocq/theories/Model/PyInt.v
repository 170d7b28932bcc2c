(** The MAP solvers with the sizes of their arrays: integer identity, numpy broadcasting and shape errors.
    A vector is a list, a matrix the list of its rows; the numbers and np.linalg.solve are left open. *)
From Coq Require Import List ZArith Bool.
From Verif.Model Require Import Py.
Import ListNotations.
Local Open Scope nat_scope.

(** [a is b] for two Python integers made by different expressions (attribute reads of [shape], subtractions): CPython
    shares the objects of -5..256 only, so two equal integers above 256 are two objects. *)
Definition py_int_is (a b : Z) : bool := Z.eqb a b && Z.leb (-5) a && Z.leb a 256.
Definition py_nat_is (a b : nat) : bool := py_int_is (Z.of_nat a) (Z.of_nat b).

Section Solvers.
  Context {A : Type}.
  Variables (zero : A) (add mul : A -> A -> A) (opp : A -> A).
  Variable solve : list (list A) -> list A -> res (list A).

  (** a OP b on two vectors: equal lengths, or one of length one is repeated. *)
  Definition vop (f : A -> A -> A) (x y : list A) : res (list A) :=
    if Nat.eqb (length x) (length y) then Ok (map (fun p => f (fst p) (snd p)) (combine x y))
    else match x, y with
         | [a], _ => Ok (map (f a) y)
         | _, [b] => Ok (map (fun a => f a b) x)
         | _, _ => Err ValueError
         end.
  (** H[i][j] += d[i] if i = j: one row of [H += np.diag(v)]. *)
  Fixpoint add_at (i : nat) (d : A) (row : list A) : list A :=
    match row, i with
    | [], _ => []
    | x :: row', 0 => add x d :: row'
    | x :: row', S i' => x :: add_at i' d row'
    end.
  Fixpoint add_diag (i : nat) (H : list (list A)) (v : list A) : list (list A) :=
    match H, v with
    | row :: H', d :: v' => add_at i d row :: add_diag (S i) H' v'
    | _, _ => H
    end.
  (** H += np.diag(v), for a square H: np.diag(v) is len(v) x len(v); it is added to every entry when it is 1 x 1. *)
  Definition iadd_diag (H : list (list A)) (v : list A) : res (list (list A)) :=
    if Nat.eqb (length H) (length v) then Ok (add_diag 0 H v)
    else match v with
         | [d] => Ok (map (map (fun x => add x d)) H)
         | _ => Err ValueError
         end.

  (** solve_shape_map, aam/algorithm/lk.py 204-234; [Jte] is J.T.dot(e), of the size of H. *)
  Definition py_solve_shape_map (H : list (list A)) (Jte J_prior p : list A) : res (list A) :=
    let '(J_prior, p) := if py_nat_is (length p) (length H) then (J_prior, p) else (J_prior ++ J_prior, p ++ p) in
    let? H := iadd_diag H J_prior in
    let? Jp := vop mul J_prior p in
    let? Je := vop add Jp Jte in
    let? x := solve H Je in
    Ok (map opp x).

  (** _solve_all_map, aam/algorithm/lk.py 10-20. *)
  Definition py_solve_all_map (H : list (list A)) (Jte Ja_prior c Js_prior p : list A) (m n : nat) : res (list A * list A) :=
    let '(Js_prior, p) :=
      if py_int_is (Z.of_nat n) (Z.of_nat (length H) - Z.of_nat m) then (Js_prior, p) else (Js_prior ++ Js_prior, p ++ p) in
    let J_prior := Ja_prior ++ Js_prior in
    let? H := iadd_diag H J_prior in
    let? Jp := vop mul J_prior (c ++ p) in
    let? Je := vop add Jp Jte in
    let? x := solve H Je in
    let dq := map opp x in
    Ok (firstn m dq, skipn m dq).
End Solvers.

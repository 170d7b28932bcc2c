(** The deformation tree links the landmarks whose relative positions vary least. *)
From Coq Require Import List Reals Arith.
Import ListNotations.
Local Open Scope R_scope.

(** Trees over the landmarks 0 .. n - 1: n - 1 pairs i < j that connect every landmark to landmark 0. *)
Inductive linked (t : list (nat * nat)) : nat -> Prop :=
| linked_root : linked t 0
| linked_up i j : In (i, j) t -> linked t i -> linked t j
| linked_down i j : In (i, j) t -> linked t j -> linked t i.
Definition spanning (n : nat) (t : list (nat * nat)) : Prop :=
  length t = (n - 1)%nat /\ (forall i j, In (i, j) t -> (i < j < n)%nat) /\ (forall v, (v < n)%nat -> linked t v).

(** A minimum spanning tree of a graph given as weighted edges. *)
Definition tree_of (n : nat) (g : list ((nat * nat) * R)) (t : list (nat * nat)) : Prop :=
  spanning n t /\ incl t (map fst g).
Fixpoint cost (w : nat -> nat -> R) (t : list (nat * nat)) : R :=
  match t with [] => 0 | e :: t => w (fst e) (snd e) + cost w t end.
Definition minimum_spanning_tree (n : nat) (g : list ((nat * nat) * R)) (t : list (nat * nat)) : Prop :=
  tree_of n g t /\
  forall w, (forall i j x, In ((i, j), x) g -> w i j = x) ->
  forall t', tree_of n g t' -> cost w t <= cost w t'.

(** How much the position of landmark j relative to landmark i varies over the images: the determinant of the
    covariance matrix of the differences. *)
Definition at_ (s : list (R * R)) (i : nat) : R * R := nth i s (0, 0).
Definition rel (s : list (R * R)) (i j : nat) : R * R := (fst (at_ s i) - fst (at_ s j), snd (at_ s i) - snd (at_ s j)).
Fixpoint total {A} (f : A -> R) (l : list A) : R := match l with [] => 0 | x :: l => f x + total f l end.
Definition average {A} (f : A -> R) (l : list A) : R := total f l / INR (length l).
Definition covar (shapes : list (list (R * R))) (f g : list (R * R) -> R) : R :=
  total (fun s => (f s - average f shapes) * (g s - average g shapes)) shapes / (INR (length shapes) - 1).
Definition spread (shapes : list (list (R * R))) (i j : nat) : R :=
  let x s := fst (rel s i j) in let y s := snd (rel s i j) in
  covar shapes x x * covar shapes y y - covar shapes x y * covar shapes x y.
Fixpoint product (w : nat -> nat -> R) (t : list (nat * nat)) : R :=
  match t with [] => 1 | e :: t => w (fst e) (snd e) * product w t end.

(** Annotations with n landmarks each. *)
Definition annotated (n : nat) (shapes : list (list (R * R))) : Prop := forall s, In s shapes -> length s = n.

(** The relative positions of i and j lie on one line (or in one point). *)
Definition on_a_line (shapes : list (list (R * R))) (i j : nat) : Prop :=
  exists a b c, (a <> 0 \/ b <> 0) /\ forall s, In s shapes -> a * fst (rel s i j) + b * snd (rel s i j) = c.

(** One linear map for all images and a translation for each. *)
Definition moved_as (a b c d : R) (s s' : list (R * R)) : Prop :=
  exists u v, s' = map (fun p => (a * fst p + b * snd p + u, c * fst p + d * snd p + v)) s.

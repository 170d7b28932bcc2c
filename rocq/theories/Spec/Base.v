(** Specifications for batches and grids. *)
From Coq Require Import List ZArith.
Import ListNotations.
Local Open Scope nat_scope.

(** [chunks] cuts [l] in consecutive pieces of exactly [n] items, the last one possibly shorter but
    not empty. *)
Definition chunks_of {A} (n : nat) (l : list A) (chunks : list (list A)) : Prop :=
  concat chunks = l /\
  Forall (fun c => 1 <= length c <= n) chunks /\
  (forall pre c c' post, chunks = pre ++ c :: c' :: post -> length c = n).

(** [g] is an h-by-w array whose entry (i, j) is (i - floor(h/2), j - floor(w/2)). *)
Definition centred_grid (h w : nat) (g : list (list (Z * Z))) : Prop :=
  length g = h /\
  Forall (fun r => length r = w) g /\
  forall i j, i < h -> j < w ->
    option_map (fun r => nth_error r j) (nth_error g i)
    = Some (Some (Z.of_nat i - Z.of_nat (Nat.div2 h), Z.of_nat j - Z.of_nat (Nat.div2 w))%Z).

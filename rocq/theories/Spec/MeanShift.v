(** Response maps and weighted means over a window of pixels, independent of the mean shift code. *)
From Coq Require Import List ZArith Reals.
Import ListNotations.
Local Open Scope nat_scope.

(** A response map of [h] rows and [w] columns, and its entry at row i and column j. *)
Definition window {A} (h w : nat) (m : list (list A)) : Prop := length m = h /\ Forall (fun r => length r = w) m.
Definition entry {A} (d : A) (m : list (list A)) (i j : nat) : A := nth j (nth i m []) d.
(** Sum over the window. *)
Fixpoint total (n : nat) (f : nat -> R) : R := match n with 0 => 0%R | S k => (total k f + f k)%R end.
Definition window_sum (h w : nat) (f : nat -> nat -> R) : R := total h (fun i => total w (f i)).
(** The centre of mass, along the rows, of the window with the masses [m i j], measured from the row [h / 2]. *)
Definition mass_offset (h w : nat) (m : nat -> nat -> R) : R :=
  (window_sum h w (fun i j => m i j * (INR i - INR (Nat.div2 h))) / window_sum h w m)%R.
(** The same along the columns. *)
Definition mass_offset_x (h w : nat) (m : nat -> nat -> R) : R :=
  (window_sum h w (fun i j => m i j * (INR j - INR (Nat.div2 w))) / window_sum h w m)%R.
(** The mass of the pixel (i, j) of the window: its response, weighted by the kernel at its offset from the centre. *)
Definition mass (kernel : Z -> Z -> R) (h w : nat) (m : list (list R)) (i j : nat) : R :=
  (entry 0%R m i j * kernel (Z.of_nat i - Z.of_nat (Nat.div2 h))%Z (Z.of_nat j - Z.of_nat (Nat.div2 w))%Z)%R.

(** What a convolution is. *)
From Coq Require Import Arith Bool.

Section S.
Context {C : Type} (zero : C) (add mul : C -> C -> C).
(** The sum of the numbers f 0, ..., f (n - 1). *)
Fixpoint sum (n : nat) (f : nat -> C) : C := match n with 0 => zero | S k => add (sum k f) (f k) end.

(** The number at position [i + o - u] of a line of [n] numbers with zeros on both sides. *)
Definition line (n : nat) (x : nat -> C) (i o u : nat) : C :=
  if (u <=? i + o) && (i + o - u <? n) then x (i + o - u) else zero.
(** The convolution of an [h] x [w] image, surrounded by zeros, with an [fh] x [fw] filter whose centre is the pixel
    ([oh], [ow]); arrays are functions of the row and the column. *)
Definition convolution (h w fh fw oh ow : nat) (f x : nat -> nat -> C) (i j : nat) : C :=
  sum fh (fun u => sum fw (fun v => mul (f u v) (line h (fun k => line w (x k) j ow v) i oh u))).
(** The same on a torus of [n] rows and [m] columns in a corner of which the image lies: what leaves it on one side
    comes back on the other. *)
Definition ring_line (m n : nat) (x : nat -> C) (i o u : nat) : C :=
  let k := (i + o + (m - u)) mod m in if k <? n then x k else zero.
Definition on_torus (m n h w fh fw oh ow : nat) (f x : nat -> nat -> C) (i j : nat) : C :=
  sum fh (fun u => sum fw (fun v => mul (f u v) (ring_line m h (fun k => ring_line n w (x k) j ow v) i oh u))).
End S.

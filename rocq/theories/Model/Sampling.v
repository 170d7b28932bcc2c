(** Sampling masks of the AAM and ATM interfaces, aam/algorithm/lk.py 47-73, 102-110, 172-202 and 474-485 (aps/algorithm/gn.py
    54-65 is the same as the latter), and the functions that make them, aam/fitter.py 429-497.  Arrays are flat lists in C
    order. *)
From Coq Require Import List ZArith Bool Lia.
From Verif.Model Require Import Py.
Import ListNotations.
Local Open Scope nat_scope.

(** range(0, n, step) *)
Definition py_range (n : nat) (step : Z) : res (list nat) :=
  if (step =? 0)%Z then Err ValueError
  else if (step <? 0)%Z then Ok []
  else let k := Z.to_nat step in Ok (map (fun i => i * k) (seq 0 ((n + k - 1) / k))).

(** What a user may give: nothing, an np.int64 step, an array of booleans or an array of indices.  (check_sampling of checks.py
    admits nothing else.) *)
Inductive sampling := SNone | SStep (step : Z) | SBool (l : list bool) | SIndex (l : list Z).

Fixpoint set_nth (i : nat) (l : list bool) : list bool :=
  match i, l with
  | _, [] => []
  | 0, _ :: r => true :: r
  | S i', b :: r => b :: set_nth i' r
  end.
(** mask[idx] = 1 on a mask of zeros *)
Definition mask_of (n : nat) (idx : list nat) : list bool := fold_left (fun m i => set_nth i m) idx (repeat false n).
(** An integer index as numpy takes it: negative ones count from the end. *)
Definition norm_index (n : nat) (i : Z) : res nat :=
  if ((- Z.of_nat n <=? i) && (i <? Z.of_nat n))%Z then Ok (Z.to_nat (if i <? 0 then i + Z.of_nat n else i)%Z) else Err IndexError.

(** LucasKanadeBaseInterface._build_sampling_mask, 53-64: sampling_mask. *)
Definition sampling_mask (n_true_pixels : nat) (s : sampling) : res (list bool) :=
  match s with
  | SNone => let? r := py_range n_true_pixels 1 in Ok (mask_of n_true_pixels r)
  | SStep k => let? r := py_range n_true_pixels k in Ok (mask_of n_true_pixels r)
  | SBool l => if length l =? n_true_pixels then Ok l else Err IndexError
  | SIndex l => let? r := mapM (norm_index n_true_pixels) l in Ok (mask_of n_true_pixels r)
  end.

(** np.nonzero of a flat array; np.tile along new leading axes. *)
Fixpoint nonzero_from (o : nat) (l : list bool) : list nat :=
  match l with [] => [] | b :: r => if b then o :: nonzero_from (S o) r else nonzero_from (S o) r end.
Definition nonzero (l : list bool) : list nat := nonzero_from 0 l.
Definition tile (k : nat) (l : list bool) : list bool := concat (repeat l k).
(** 66-71, as positions in the flat arrays of shapes (channels, pixels), (2, pixels, parameters) and (2, channels, pixels). *)
Definition i_mask (n_channels : nat) (m : list bool) : list nat := nonzero (tile n_channels m).
Definition dW_dp_mask (n_parameters : nat) (m : list bool) : list nat := nonzero (tile 2 (concat (map (fun b => repeat b n_parameters) m))).
Definition nabla_mask (n_channels : nat) (m : list bool) : list nat := nonzero (tile 2 (tile n_channels m)).

Section Use.
  Context {R : Type} (zero : R) (add mul : R -> R -> R).
  (** a[mask]: the entries at these positions. *)
  Definition gather (v : list R) (idx : list nat) : list R := map (fun i => nth i v zero) idx.
  (** Entry (i, j, k) of a flat array of shape (_, b, c). *)
  Definition at3 (b c : nat) (v : list R) (i j k : nat) : R := nth ((i * b + j) * c + k) v zero.
  (** warp_jacobian, 108-110, from the full array of shape (2, pixels, parameters) *)
  Definition warp_jacobian (n_parameters : nat) (m : list bool) (dW : list R) : list R := gather dW (dW_dp_mask n_parameters m).
  (** steepest_descent_images, 189-202: row r = c * n_sampled + k of the result, column p, from the full gradient and the
      sampled warp Jacobian. *)
  Definition sdi (n_channels n_parameters : nat) (m : list bool) (nabla dW : list R) : list (list R) :=
    let n_sampled := length (nonzero m) in
    let nab := gather nabla (nabla_mask n_channels m) in
    flat_map (fun c => map (fun k => map (fun p =>
      add (add zero (mul (at3 n_channels n_sampled nab 0 c k) (at3 n_sampled n_parameters dW 0 k p)))
          (mul (at3 n_channels n_sampled nab 1 c k) (at3 n_sampled n_parameters dW 1 k p)))
      (seq 0 n_parameters)) (seq 0 n_sampled)) (seq 0 n_channels).
End Use.

(** *** Patches: LucasKanadePatchBaseInterface._build_sampling_mask, 474-485.  [lead] = parts * offsets * channels; a patch has
    h * w pixels. *)
(** image_mask: a boolean patch is repeated for every part, offset and channel; an np.int64 gets the shape
    (parts, offsets, channels, 1, 1). *)
Definition patch_mask (lead h w : nat) (s : sampling) : res (list bool) :=
  match s with
  | SNone => Ok (tile lead (repeat true (h * w)))
  | SBool l => Ok (tile lead l)
  | SStep k => Ok (repeat (negb (k =? 0)%Z) lead)
  | SIndex l => Ok (tile lead (map (fun i => negb (i =? 0)%Z) l))
  end.
Definition patch_i_mask (lead h w : nat) (s : sampling) : res (list nat) := let? m := patch_mask lead h w s in Ok (nonzero m).
(** gradient_mask, 482-483: which pixel of which patch each entry is, (patch number, pixel in the patch), for one of the two
    directions. *)
Definition patch_gradient_mask (lead h w : nat) (s : sampling) : res (list (nat * nat)) :=
  let? m := patch_mask lead h w s in
  let size := length m / lead in Ok (map (fun i => (i / size, i mod size)) (nonzero m)).

(** steepest_descent_images of a patch interface, aam/algorithm/lk.py 589-601 (aps/algorithm/gn.py 186-198): row
    ((part * n_oc + oc) * n_sampled + k), column p, from the full gradient of shape (2, parts, offsets, channels, h, w) and the
    shape Jacobian of shape (2, parts, parameters).  [n_oc] = offsets * channels; [m] is the sampling patch, flat. *)
Definition patch_sdi {R : Type} (zero : R) (add mul : R -> R -> R) (parts n_oc n_parameters : nat) (m : list bool)
    (nabla dS : list R) : list (list R) :=
  let n_sampled := length (nonzero m) in
  let lead := parts * n_oc in
  let nab := gather zero nabla (nabla_mask lead m) in
  flat_map (fun part => flat_map (fun oc => map (fun k => map (fun p =>
    add (add zero (mul (at3 zero lead n_sampled nab 0 (part * n_oc + oc) k) (at3 zero parts n_parameters dS 0 part p)))
        (mul (at3 zero lead n_sampled nab 1 (part * n_oc + oc) k) (at3 zero parts n_parameters dS 1 part p)))
    (seq 0 n_parameters)) (seq 0 n_sampled)) (seq 0 n_oc)) (seq 0 parts).

(** *** aam/fitter.py.  The mask of the reference, flat. *)
(** holistic_sampling_from_step, 485-497 *)
Definition holistic_sampling_from_step (mask : list bool) (step : Z) : res (list bool * list bool) :=
  let n_true_pixels := length (nonzero mask) in
  let? r := py_range n_true_pixels step in
  let true_positions := mask_of n_true_pixels r in
  let new_indices := map (fun i => nth i (nonzero mask) 0) r in
  Ok (true_positions, mask_of (length mask) new_indices).
(** holistic_sampling_from_scale, 448-463; [new_indices] are the rounded positions of the pixels of the rescaled reference, as
    flat positions (external: rescaling and alignment of menpo). *)
Definition holistic_sampling_from_scale (mask : list bool) (new_indices : list nat) : list nat * list bool :=
  let modified := mask_of (length mask) new_indices in
  (nonzero (map (fun i => nth i modified false) (nonzero mask)), modified).

(** menpofit/base.py, menpofit/visualize/textutils.py and the target update of the Active Shape Model. *)
From Coq Require Import List ZArith Reals.
From Verif.Model Require Import Py.
Import ListNotations.
Local Open Scope nat_scope.

(** [batch(iterable, n)], base.py 7-13, for [n >= 0]: the loop takes [islice(it, n)] until a chunk is
    empty.  The stream is the list of the items it will deliver; the generator is modelled by the list of
    chunks it yields.  [fuel] bounds the number of turns of the [while True] loop; [S (length l)] turns
    are always enough (see [Proofs.Base.batch_unfold]). *)
Fixpoint batch_loop {A} (fuel : nat) (l : list A) (n : nat) : list (list A) :=
  match fuel with
  | 0 => []
  | S fuel' =>
      match firstn n l with
      | [] => []
      | chunk => chunk :: batch_loop fuel' (skipn n l) n
      end
  end.

(** [batch] with an arbitrary integer batch size: [islice] raises [ValueError] for a negative one,
    on the first item that is asked for. *)
Definition batch {A} (l : list A) (n : Z) : res (list (list A)) :=
  if (n <? 0)%Z then Err ValueError else Ok (batch_loop (S (length l)) l (Z.to_nat n)).

(** A slice [start:end] of [np.mgrid] along one axis. *)
Definition mgrid_axis (lo hi : Z) : list Z :=
  map (fun k => (lo + Z.of_nat k)%Z) (seq 0 (Z.to_nat (hi - lo))).

(** [build_grid((h, w))], base.py 16-25.  [np.floor(shape / 2)] is [Z.div]; Python's and numpy's [%] is
    [Z.modulo].  [np.mgrid] followed by [rollaxis(., 0, 3)] is the (h, w, 2) array whose entry [i, j]
    holds the i-th row offset and the j-th column offset. *)
Definition build_grid (h w : Z) : list (list (Z * Z)) :=
  let hh := (h / 2)%Z in
  let hw := (w / 2)%Z in
  let rows := mgrid_axis (- hh) (hh + h mod 2) in
  let cols := mgrid_axis (- hw) (hw + w mod 2) in
  map (fun y => map (fun x => (y, x)) cols) rows.

(** [np.round(z / 2)], clm/algorithm/gd.py 98-99: numpy rounds halves to the nearest even integer. *)
Definition round_half (z : Z) : Z :=
  if Z.even z then (z / 2)%Z
  else if Z.even (z / 2) then (z / 2)%Z else (z / 2 + 1)%Z.

Definition sumR {A} (f : A -> R) (l : list A) : R := fold_right (fun a s => (f a + s)%R) 0%R l.

(** Active Shape Model, clm/algorithm/gd.py 156-181, for one landmark and one coordinate (chosen by
    [coord]): the row and column [idx] of the response peak, minus [half_search_shape], shifts the
    kernel ([kernel] stands for [mvn.pdf]); the kernel values over the search grid are normalised and
    average the candidate positions [target + grid]; the error handed to the update is
    [target - new_target].  Real arithmetic instead of floating point. *)
Definition asm_weight (kernel : Z -> Z -> R) (h w : Z) (idx : Z * Z) (g : Z * Z) : R :=
  kernel (fst idx - round_half h + fst g)%Z (snd idx - round_half w + snd g)%Z.

Definition asm_new_target (kernel : Z -> Z -> R) (h w : Z) (idx : Z * Z)
           (coord : Z * Z -> Z) (target : R) : R :=
  let grid := concat (build_grid h w) in
  let total := sumR (asm_weight kernel h w idx) grid in
  sumR (fun g => asm_weight kernel h w idx g / total * (target + IZR (coord g)))%R grid.

Definition asm_error (kernel : Z -> Z -> R) (h w : Z) (idx : Z * Z)
           (coord : Z * Z -> Z) (target : R) : R :=
  (target - asm_new_target kernel h w idx coord target)%R.

(** [print_progress(iterable, verbose)], visualize/textutils.py 7-82: a generator that re-yields the
    items of menpo's generator (an argument here: it is outside menpofit) or of the iterable. *)
Section PrintProgress.
  Context {A : Type}.
  Variable menpo_print_progress : list A -> list A.
  Fixpoint reyield (l : list A) : list A :=
    match l with [] => [] | i :: r => i :: reyield r end.
  Definition print_progress (verbose : bool) (iterable : list A) : list A :=
    if verbose then reyield (menpo_print_progress iterable) else reyield iterable.
End PrintProgress.

(** Correlation filters as solutions of regularised least squares problems, frequency by frequency. *)
From Coq Require Import List Reals.
Import ListNotations.
Local Open Scope R_scope.

(** Sum of complex numbers given as pairs of real and imaginary parts. *)
Definition csum {T} (f : T -> R * R) (l : list T) : R * R :=
  (fold_right (fun x s => fst (f x) + s) 0 l, fold_right (fun x s => snd (f x) + s) 0 l).
Definition times (a b : R * R) : R * R := (fst a * fst b - snd a * snd b, fst a * snd b + snd a * fst b).
Definition conjugate (a : R * R) : R * R := (fst a, - snd a).
Definition wsum (ws : list R) (vs : list (R * R)) : R * R :=
  (fold_right (fun wv s => fst wv * fst (snd wv) + s) 0 (combine ws vs), fold_right (fun wv s => fst wv * snd (snd wv) + s) 0 (combine ws vs)).

(** [g] is the filter with cross energy [xy], auto energy [xx] and regularisation [l]: g (xx + l) = xy. *)
Definition is_filter (l : R) (g xy xx : nat -> nat -> R * R) : Prop :=
  forall c w, times (g c w) (fst (xx c w) + l, snd (xx c w)) = xy c w.
(** Energies of a set of images. *)
Definition cross_of {T} (fft : T -> nat -> nat -> R * R) (y : nat -> R * R) (X : list T) (c w : nat) : R * R :=
  csum (fun x => times (conjugate (fft x c w)) (y w)) X.
Definition auto_of {T} (fft : T -> nat -> nat -> R * R) (X : list T) (c w : nat) : R * R :=
  csum (fun x => times (conjugate (fft x c w)) (fft x c w)) X.
Definition auto_blocks_of {T} (fft : T -> nat -> nat -> R * R) (X : list T) (a b w : nat) : R * R :=
  csum (fun x => times (conjugate (fft x a w)) (fft x b w)) X.

(** *** Least squares *)
Definition rsum {T} (f : T -> R) (l : list T) : R := fold_right (fun x s => f x + s) 0 l.
Definition power (a : R * R) : R := fst a ^ 2 + snd a ^ 2.
Definition difference (a b : R * R) : R * R := (fst a - fst b, snd a - snd b).
(** The response of a filter with [k] channels, at one frequency: the sum of the products of filter and image spectra. *)
Definition response (k : nat) (filter image : nat -> R * R) : R * R := csum (fun c => times (image c) (filter c)) (seq 0 k).
(** How badly the responses to a set of images, with weights, fit the desired response [y], plus [l] times the power of the
    filter. *)
Definition misfit (k : nat) (l : R) (y : R * R) (data : list (R * (nat -> R * R))) (filter : nat -> R * R) : R :=
  rsum (fun d => fst d * power (difference y (response k filter (snd d)))) data + l * rsum (fun c => power (filter c)) (seq 0 k).
(** [g] is the only minimum, by a margin of [l] times the power of the difference. *)
Definition best_filter (k : nat) (l : R) (y : R * R) (data : list (R * (nat -> R * R))) (g : nat -> R * R) : Prop :=
  forall h, misfit k l y data g + l * rsum (fun c => power (difference (h c) (g c))) (seq 0 k) <= misfit k l y data h.
(** A solver of systems of [k] linear equations per frequency that solves every nonsingular system (that is, one with only the
    trivial solution for a zero right-hand side). *)
Definition solver (k : nat) (solve : (nat -> nat -> nat -> R * R) -> (nat -> nat -> R * R) -> nat -> nat -> R * R) : Prop :=
  forall M s,
  (forall g, (forall w a, (a < k)%nat -> csum (fun b => times (M a b w) (g b w)) (seq 0 k) = (0, 0)) -> forall w b, (b < k)%nat -> g b w = (0, 0)) ->
  forall w a, (a < k)%nat -> csum (fun b => times (M a b w) (solve M s b w)) (seq 0 k) = s a w.

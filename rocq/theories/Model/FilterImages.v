(** What an ensemble of correlation filters shows of itself: the properties of clm/expert/ensemble.py 106-183. *)
From Coq Require Import ZArith.
From Verif.Model Require Import Py PadCrop Fourier Convolution.
From mathcomp Require Import all_ssreflect all_algebra.
Set Implicit Arguments.
Unset Strict Implicit.
Unset Printing Implicit Defensive.
Import Order.TTheory GRing.Theory Num.Theory.
Local Open Scope ring_scope.

Section FilterImages.
Variable C : numClosedFieldType.
Variable z : nat -> C.
Notation arr := (PadCrop.image C).

(** x[..., ::-1, ::-1] *)
Definition mirror (x : arr) : arr := mk_image (im_w x) (List.rev (List.map (@List.rev C) (im_rows x))).
(** One expert in spatial_filter_images, 163-167: its channels. *)
Definition spatial_filter_image (patch_shape : (Z * Z)%type) (fft_padded_filter : list arr) : list arr :=
  [seq mirror (crop 0 (real (inverse_spectrum z e)) patch_shape) | e <- fft_padded_filter].
(** 156-168 *)
Definition spatial_filter_images (patch_shape : (Z * Z)%type) (fft_padded_filters : list (list arr)) : list (list arr) :=
  [seq spatial_filter_image patch_shape f | f <- fft_padded_filters].

(** numpy.fft.fftshift along one axis of length n: the last n // 2 elements come first. *)
Definition fshift1 {B} (l : list B) : list B :=
  let k := Nat.sub (List.length l) (Nat.div (List.length l) 2) in List.skipn k l ++ List.firstn k l.
Definition fftshift2 (x : arr) : arr := mk_image (im_w x) (List.map fshift1 (fshift1 (im_rows x))).
(** fftshift(x) without axes, 181: all axes of the array, also that of the channels. *)
Definition fftshift (x : list arr) : list arr := fshift1 (List.map fftshift2 x).
Definition modulus (x : arr) : arr := mk_image (im_w x) (List.map (List.map (fun a : C => `|a|)) (im_rows x)).
(** One expert in frequency_filter_images, 178-182. *)
Definition frequency_filter_image (patch_shape : (Z * Z)%type) (fft_padded_filter : list arr) : list arr :=
  List.map modulus (fftshift (List.map (spectrum z) (spatial_filter_image patch_shape fft_padded_filter))).
(** 170-183 *)
Definition frequency_filter_images (patch_shape : (Z * Z)%type) (fft_padded_filters : list (list arr)) : list (list arr) :=
  [seq frequency_filter_image patch_shape f | f <- fft_padded_filters].
End FilterImages.

(** n_sample_offsets, 106-116: the truth value of an array of n points with two coordinates raises ValueError if the array has
    more than one element and is False if it has none. *)
Definition n_sample_offsets {Off : Type} (sample_offsets : option (list Off)) : res nat :=
  match sample_offsets with
  | None => Ok 1
  | Some l => if (1 < 2 * size l)%N then Err ValueError else Ok 1
  end%N.

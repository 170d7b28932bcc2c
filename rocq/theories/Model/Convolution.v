(** What the FFT convolutions of math/fft_utils.py compute, and the response maps of the correlation filter experts
    (clm/expert/ensemble.py 214-238 and 391-396, math/correlationfilter.py 83-90): the functions of Model/PadCrop with
    the Fourier transforms of Model/Fourier in place of the parameter [circular].  Complex numbers are an arbitrary
    numClosedFieldType (exact arithmetic); [z n] is the root of unity exp(-2 pi i / n) of numpy.fft. *)
From Coq Require Import ZArith.
From Verif.Model Require Import Py PadCrop Fourier.
From mathcomp Require Import all_ssreflect all_algebra.
Set Implicit Arguments.
Unset Strict Implicit.
Unset Printing Implicit Defensive.
Import Order.TTheory GRing.Theory Num.Theory.
Local Open Scope ring_scope.

Section Convolution.
Variable C : numClosedFieldType.
Variable z : nat -> C.
Notation arr := (PadCrop.image C).

(** An array as a matrix and back. *)
Definition to_mx (h w : nat) (x : arr) : 'M[C]_(h, w) := \matrix_(i, j) List.nth j (List.nth i (im_rows x) nil) 0.
Definition of_mx (h w : nat) (X : 'M[C]_(h, w)) : arr :=
  mk_image w [seq [seq X i j | j <- enum 'I_w] | i <- enum 'I_h].
(** fft2(x), ifft2(x) and the product of two arrays of one size. *)
Definition spectrum (x : arr) : arr :=
  of_mx (fft2 (z (im_h x)) (z (im_w x)) (to_mx (im_h x) (im_w x) x)).
Definition inverse_spectrum (x : arr) : arr :=
  of_mx (ifft2 (z (im_h x)) (z (im_w x)) (to_mx (im_h x) (im_w x) x)).
Definition times (a b : arr) : arr := of_mx (emul (to_mx (im_h b) (im_w b) a) (to_mx (im_h b) (im_w b) b)).
Definition plus (a b : arr) : arr := of_mx (to_mx (im_h b) (im_w b) a + to_mx (im_h b) (im_w b) b).
(** numpy.fft.ifftshift along one axis of length n: the elements from n // 2 on come first. *)
Definition shift1 {B} (l : list B) : list B := List.skipn (Nat.div (List.length l) 2) l ++ List.firstn (Nat.div (List.length l) 2) l.
(** ifftshift(x, axes=(-2, -1)) *)
Definition ifftshift (x : arr) : arr := mk_image (im_w x) (List.map shift1 (shift1 (im_rows x))).
Definition real (x : arr) : arr := mk_image (im_w x) (List.map (List.map (fun a : C => 'Re a)) (im_rows x)).
(** np.real(ifftshift(ifft2(x), axes=(-2, -1))), fft_utils.py 153 and 235, correlationfilter.py 84. *)
Definition back (x : arr) : arr := real (ifftshift (inverse_spectrum x)).

(** fft_utils.py 145-153 and, with the spectrum of the filter given, 132-133 and 150-153. *)
Definition circular (ext_f ext_x : arr) : arr := back (times (spectrum ext_f) (spectrum ext_x)).
Definition circular_spectrum (fft_f ext_x : arr) : arr := back (times fft_f (spectrum ext_x)).
(** fft_convolve2d, 98-164, of one channel with fft_filter=False. *)
Definition fft_convolve2d (m : mode) (x f : arr) : res arr := convolve_spatial 0 circular m x f.

(** Several channels: fft_convolve2d_sum with fft_filter=True, 202-246, in mode 'same', for the patch of one landmark:
    the products of the spectra of the channels are added.  Simplification: the numbers of channels agree (otherwise
    numpy broadcasts or raises). *)
Fixpoint channel_sum (fft_fs ext_xs : list arr) : res arr :=
  match fft_fs, ext_xs with
  | [:: f], [:: x] => Ok (times f (spectrum x))
  | f :: fs, x :: xs => let? r := channel_sum fs xs in Ok (plus (times f (spectrum x)) r)
  | _, _ => Err ValueError
  end.
Definition fft_convolve2d_sum (xs fft_fs : list arr) : res arr :=
  let? x0 := match xs with x :: _ => Ok x | [::] => Err ValueError end in
  let? f0 := match fft_fs with f :: _ => Ok f | [::] => Err ValueError end in
  let? ext_xs := mapM (fun x => pad 0 x (zh f0, zw f0)) xs in
  let? s := channel_sum fft_fs ext_xs in
  Ok (crop 0 (back s) (zh x0, zw x0)).
(** An expert (391-396) and its response (233-238); the filter has one array per channel. *)
Definition expert (patch_shape : (Z * Z)%type) (filter : list arr) : res (list arr) :=
  mapM (fun f => let? p := pad 0 f (padded_size patch_shape) in Ok (spectrum p)) filter.
Definition response (patch_shape : (Z * Z)%type) (filter patch : list arr) : res arr :=
  let? e := expert patch_shape filter in fft_convolve2d_sum patch e.

(** The filter that training returns, correlationfilter.py 83-88 and 286-291: [spec] is the spectrum fft_ext_f of the
    extended size; [y_shape] is the shape of the desired response, which is the patch shape (ensemble.py 307-309). *)
Definition trained_filter (spec : arr) (y_shape : (Z * Z)%type) : arr := crop 0 (back spec) y_shape.
(** The extended size of the training, 247-249, for patches of the context shape. *)
Definition extended_size (context y_shape : (Z * Z)%type) : (Z * Z)%type := (Z.sub (Z.add (fst context) (fst y_shape)) 1, Z.sub (Z.add (snd context) (snd y_shape)) 1).
End Convolution.

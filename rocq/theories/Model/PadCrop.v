(** Padding, cropping and the array sizes of FFT convolutions: menpofit/math/fft_utils.py, and the sizes used by
    menpofit/clm/expert/ensemble.py. *)
From Coq Require Import List ZArith Bool.
From Verif.Model Require Import Py.
Import ListNotations.
Local Open Scope Z_scope.

(** *** Python sequences *)
(** Bounds of a slice with step 1: negative bounds count from the end, then both are clipped to [0, n]. *)
Definition norm_index (n i : Z) : Z := Z.max 0 (Z.min n (if i <? 0 then i + n else i)).
Definition py_slice {A} (start stop : Z) (l : list A) : list A :=
  let n := Z.of_nat (length l) in
  let a := norm_index n start in
  let b := norm_index n stop in
  firstn (Z.to_nat (b - a)) (skipn (Z.to_nat a) l).

(** *** One axis *)
(** Margins before and after, pad 37-46; [//] rounds down. *)
Definition pad_margins (size ext : Z) : Z * Z :=
  let margin := (ext - size) / 2 in
  let margin2 := margin in
  let margin := if size + 2 * margin <? ext then margin + 1 else margin in
  (margin, margin2).
(** Bounds of the slice of crop, 63-71; np.remainder has the sign of the divisor. *)
Definition crop_bounds (size shape : Z) : Z * Z :=
  let margin := (size - shape) / 2 in
  let corrector := if (size - shape) mod 2 =? 0 then 0 else 1 in
  (margin + corrector, - margin).

Section Arrays.
  Context {A : Type} (zero : A).
  (** The last two axes of an array; [im_w] is needed when there is no row.  The leading axes are not modelled: pad
      and crop act on each (height, width) slice separately. *)
  Record image := mk_image { im_w : nat; im_rows : list (list A) }.
  Definition im_h (x : image) : nat := length (im_rows x).

  (** np.pad of a list with a constant; a negative width raises. *)
  Definition np_pad {B} (fill : B) (w : Z * Z) (l : list B) : res (list B) :=
    if (fst w <? 0) || (snd w <? 0) then Err ValueError
    else Ok (repeat fill (Z.to_nat (fst w)) ++ l ++ repeat fill (Z.to_nat (snd w))).
  (** pad, 32-54, with boundary='constant' (zeros); other boundary modes are not modelled. *)
  Definition pad (x : image) (ext : Z * Z) : res image :=
    let hm := pad_margins (Z.of_nat (im_h x)) (fst ext) in
    let wm := pad_margins (Z.of_nat (im_w x)) (snd ext) in
    if (fst hm <? 0) || (snd hm <? 0) then Err ValueError
    else
      let? rows := mapM (np_pad zero wm) (im_rows x) in
      let? cols := np_pad zero wm (repeat zero (im_w x)) in
      let? rows := np_pad cols hm rows in
      Ok (mk_image (length cols) rows).
  (** crop, 58-71. *)
  Definition crop (x : image) (shape : Z * Z) : image :=
    let hb := crop_bounds (Z.of_nat (im_h x)) (fst shape) in
    let wb := crop_bounds (Z.of_nat (im_w x)) (snd shape) in
    mk_image (length (py_slice (fst wb) (snd wb) (repeat zero (im_w x))))
             (map (py_slice (fst wb) (snd wb)) (py_slice (fst hb) (snd hb) (im_rows x))).
End Arrays.
Arguments image : clear implicits.

(** *** Convolutions *)
(** Modes: [is] compares interned string literals here, so an equal literal is assumed to be the same object. *)
Inductive mode := Full | Same | Valid | OtherMode.

Section Convolution.
  Context {A : Type} (zero : A).
  Definition zh (x : image A) : Z := Z.of_nat (im_h x).
  Definition zw (x : image A) : Z := Z.of_nat (im_w x).
  (** ifftshift(ifft2(fft2(ext_f) * fft2(ext_x))), and the same with a filter given by its spectrum; both arrays
      have the same size and so has the result. *)
  Variable circular : image A -> image A -> image A.

  (** Lines 155-164 and 237-246: [x_shape] is unbound (None) in one branch of fft_convolve2d. *)
  Definition finish (m : mode) (ext_c : image A) (x_shape f_half : option (Z * Z)) : res (image A) :=
    match m with
    | Full => Ok ext_c
    | Same => match x_shape with Some s => Ok (crop zero ext_c s) | None => Err NameError end
    | Valid => match x_shape, f_half with
               | Some s, Some f => Ok (crop zero ext_c (fst s - fst f + 1, snd s - snd f + 1))
               | _, _ => Err NameError
               end
    | OtherMode => Err ValueError
    end.

  (** The spatial branch, 134-150 and 216-232: (f_shape / 2).astype(int) halves rounding down; a filter channel and an
      image channel.  The sum over channels of fft_convolve2d_sum does not change sizes and is left out. *)
  Definition convolve_spatial (m : mode) (x f : image A) : res (image A) :=
    let f_half := (zh f / 2, zw f / 2) in
    let ext := (zh x + fst f_half - 1, zw x + snd f_half - 1) in
    let? ext_x := pad zero x ext in
    let? ext_f := pad zero f ext in
    finish m (circular ext_f ext_x) (Some (zh x, zw x)) (Some f_half).
  (** fft_convolve2d, 124-133: x_shape is not set in this branch. *)
  Definition convolve_fft (m : mode) (x fft_f : image A) : res (image A) :=
    let? ext_x := pad zero x (zh fft_f, zw fft_f) in
    finish m (circular fft_f ext_x) None None.
  (** fft_convolve2d_sum, 202-215: ((ext + 1) / 1.5).astype(int) = floor(2 (ext + 1) / 3). *)
  Definition convolve_sum_fft (m : mode) (x fft_f : image A) : res (image A) :=
    let f_shape := (2 * (zh fft_f + 1) / 3, 2 * (zw fft_f + 1) / 3) in
    let f_half := (fst f_shape / 2, snd f_shape / 2) in
    let? ext_x := pad zero x (zh fft_f, zw fft_f) in
    finish m (circular fft_f ext_x) (Some (zh x, zw x)) (Some f_half).

  (** ConvolutionBasedExpertEnsemble.padded_size, ensemble.py 118-126: floor(1.5 p - 1). *)
  Definition padded_size (patch_shape : Z * Z) : Z * Z := (3 * fst patch_shape / 2 - 1, 3 * snd patch_shape / 2 - 1).
  (** One expert: its filter of the size of the patch is padded (391-396) and predict_response (214-238) convolves
      the patch at its landmark, of size patch_shape, with it in mode 'same'.  [spectrum] stands for fft2. *)
  Variable spectrum : image A -> image A.
  Definition expert_response (patch_shape : Z * Z) (filter patch : image A) : res (image A) :=
    let? padded_filter := pad zero filter (padded_size patch_shape) in
    convolve_sum_fft Same patch (spectrum padded_filter).
End Convolution.

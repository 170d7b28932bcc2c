(** The sum of squared differences with a kernel, in the spatial and in the Fourier domain (lk/residual.py 147-305 and
    309-474), and the discrete Fourier transform they call.  Complex numbers are an arbitrary numClosedFieldType (exact
    arithmetic).  An array of shape channels x h x w x params is a function of channel and parameter to h x w matrices. *)
From Verif.Model Require Import Py.
From mathcomp Require Import all_ssreflect all_algebra.
Set Implicit Arguments.
Unset Strict Implicit.
Unset Printing Implicit Defensive.
Import Order.TTheory GRing.Theory Num.Theory.
Local Open Scope ring_scope.

Section Fourier.
Variable C : numClosedFieldType.

(** numpy.fft over the last two axes: [wh] and [ww] are the roots of unity exp(-2 pi i / h) and exp(-2 pi i / w). *)
Definition dft_mx n (z : C) : 'M[C]_n := \matrix_(i, j) z ^+ (i * j).
Variables h w : nat.
Variables wh ww : C.
Definition fft2 (X : 'M[C]_(h, w)) : 'M[C]_(h, w) := dft_mx h wh *m X *m dft_mx w ww.
Definition ifft2 (X : 'M[C]_(h, w)) : 'M[C]_(h, w) := (h * w)%:R^-1 *: (dft_mx h wh^-1 *m X *m dft_mx w ww^-1).

(** Elementwise product and x.ravel().dot(y.ravel()) (no conjugation). *)
Definition emul (X Y : 'M[C]_(h, w)) : 'M[C]_(h, w) := \matrix_(i, j) (X i j * Y i j).
Definition rdot (X Y : 'M[C]_(h, w)) : C := \sum_i \sum_j X i j * Y i j.
Definition conj (X : 'M[C]_(h, w)) : 'M[C]_(h, w) := map_mx conjC X.

Variables ch p : nat.
Notation images := ('I_p -> 'I_ch -> 'M[C]_(h, w)).
Notation error := ('I_ch -> 'M[C]_(h, w)).
(** The kernel, of shape h x w or ch x h x w, is multiplied with [self._kernel[..., None]]; None is no kernel. *)
Variable kernel : option ('I_ch -> 'M[C]_(h, w)).

(** SSD.steepest_descent_images, 206-224: (filtered_sdi, sdi). *)
Definition ssd_filtered (sdi : images) : images :=
  match kernel with None => sdi | Some k => fun a c => ifft2 (emul (k c) (fft2 (sdi a c))) end.
(** sdi.T.dot(sdi2) and sdi.T.dot(error_img), 226-283. *)
Definition hessian (s s2 : images) : 'M[C]_p := \matrix_(a, b) \sum_c rdot (s a c) (s2 b c).
Definition update (s : images) (e : error) : 'cV[C]_p := \col_a \sum_c rdot (s a c) (e c).
(** FourierSSD, 368-387 and 389-453. *)
Definition fourier_filtered (sdi : images) : images :=
  let fft_sdi := fun a c => fft2 (sdi a c) in
  match kernel with None => fft_sdi | Some k => fun a c => emul (k c) (fft_sdi a c) end.
Definition fourier_hessian (sdi : images) : 'M[C]_p :=
  hessian (fun a c => conj (fourier_filtered sdi a c)) (fun a c => fft2 (sdi a c)).
Definition fourier_update (sdi : images) (e : error) : 'cV[C]_p :=
  update (fun a c => conj (fourier_filtered sdi a c)) (fun c => fft2 (e c)).
Definition ssd_hessian (sdi : images) := hessian (ssd_filtered sdi) sdi.
Definition ssd_update (sdi : images) (e : error) := update (ssd_filtered sdi) e.
(** np.real(np.linalg.solve(H, sd_dp)), lk/algorithm.py 140, 267, 391. *)
Definition real_solve (H : 'M[C]_p) (b : 'cV[C]_p) : res 'cV[C]_p :=
  if H \in unitmx then Ok (map_mx (fun z => 'Re z) (invmx H *m b)) else Err LinAlgError.

(** The costs without kernel, 295-296 and 465-466. *)
Definition cost_closure (e : error) : C := \sum_c rdot (e c) (e c).
End Fourier.

(** ** Broadcasting *)
(** The cost with a kernel of shape (h, w) for an error image with [ch] channels, 297-301 and 467-470:
    [k[..., None] * fftn(x, axes=(-2, -1))] multiplies arrays of shapes (h, w, 1) and (ch, h, w); then
    x.ravel().T.dot(kx.ravel()) needs equal sizes.  The result is the shape of kx. *)
Definition broadcast_dim (a b : nat) : res nat :=
  if Nat.eqb a b then Ok a else if Nat.eqb a 1 then Ok b else if Nat.eqb b 1 then Ok a else Err ValueError.
Definition broadcast3 (s t : nat * nat * nat) : res (nat * nat * nat) :=
  let? a := broadcast_dim s.1.1 t.1.1 in
  let? b := broadcast_dim s.1.2 t.1.2 in
  let? c := broadcast_dim s.2 t.2 in
  Ok (a, b, c).
Definition kernel_cost_shape (ch h w : nat) : res (nat * nat * nat) :=
  let? s := broadcast3 (h, w, 1%N) (ch, h, w) in
  if Nat.eqb (Nat.mul (Nat.mul s.1.1 s.1.2) s.2) (Nat.mul (Nat.mul ch h) w) then Ok s else Err ValueError.

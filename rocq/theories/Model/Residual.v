(** The residuals of Lucas-Kanade fitting and the increments computed from them (lk/residual.py, lk/algorithm.py).  Numbers
    are a real closed field (exact arithmetic with square roots) instead of floating point.  An image in the frame of the
    template is the vector of its [k] = channels x pixels values; the gradient of an image is the pair (along y, along x) of
    two such vectors. *)
From Verif.Model Require Import Py LinAlg.
From mathcomp Require Import all_ssreflect all_algebra.
Set Implicit Arguments.
Unset Strict Implicit.
Unset Printing Implicit Defensive.
Import Order.TTheory GRing.Theory Num.Theory.
Local Open Scope ring_scope.

Section Residual.
Variable F : rcfType.

(** x.T.dot(y). *)
Definition dot n (x y : 'cV[F]_n) : F := (x^T *m y) 0 0.

(** ECC._normalise_images, lk/residual.py 487-492: menpo's normalize_norm_inplace subtracts the mean over all pixels of all
    channels, divides by the norm, and raises ValueError on an image without variance. *)
Definition centred n (x : 'cV[F]_n) : 'cV[F]_n := x - const_mx ((\sum_i x i 0) / n%:R).
Definition normalise n (x : 'cV[F]_n) : res 'cV[F]_n :=
  let c := centred x in
  let s := Num.sqrt (dot c c) in
  if s == 0 then Err ValueError else Ok (s^-1 *: c).

(** ** The interface, lk/residual.py 11-144 *)
Variables k p big : nat.
(** The warp Jacobian dW_dp (dims x pixels x params), repeated for every channel. *)
Notation jac := ('M[F]_(k, p) * 'M[F]_(k, p))%type.
Notation grad := ('cV[F]_k * 'cV[F]_k)%type.
(** What the steepest descent images are computed from: an image in the frame of the template (forward=None), or the whole
    input image of [big] values whose gradient is warped afterwards (forward=(template, transform)). *)
Inductive source := Here (x : 'cV[F]_k) | Whole (im : 'cV[F]_big).
(** Residual.gradient, 19-53: menpo's gradient with the boundary set to zero, and the warped gradient of the whole image. *)
Variable gradient_here : 'cV[F]_k -> grad.
Variable gradient_whole : 'cV[F]_big -> grad.
Definition gradient (s : source) : grad := match s with Here x => gradient_here x | Whole im => gradient_whole im end.

Record residual := mk_residual {
  r_rows : nat;
  r_state : Type;
  (** steepest_descent_images: the attributes it sets, and the images (both results are the same array without kernel). *)
  r_sdi : source -> jac -> res (r_state * 'M[F]_(r_rows, p));
  (** hessian(sdi, sdi2=sdi) with the attributes it sets. *)
  r_hessian : r_state -> 'M[F]_(r_rows, p) -> res (r_state * 'M[F]_p);
  (** steepest_descent_update(sdi, image, template), and the value cost_closure() has afterwards. *)
  r_update : r_state -> 'M[F]_(r_rows, p) -> 'cV[F]_k -> 'cV[F]_k -> res ('cV[F]_p * F) }.

(** [a = nabla[..., None] * dW_dp[:, None, ...]; for d in a: sdi += d], 201-204 (also 363-366, 538-541). *)
Definition scale_rows (g : 'cV[F]_k) (D : 'M[F]_(k, p)) : 'M[F]_(k, p) := \matrix_(i, j) (g i 0 * D i j).
Definition descent (g : grad) (dW : jac) : 'M[F]_(k, p) := scale_rows g.1 dW.1 + scale_rows g.2 dW.2.

(** ** SSD without kernel, 147-305 *)
Definition ssd : residual := mk_residual
  (fun s dW => Ok (tt, descent (gradient s) dW))
  (fun st sdi => Ok (st, sdi^T *m sdi))
  (fun _ sdi image template => let e := image - template in Ok (sdi^T *m e, dot e e)).

(** ** ECC, 477-652 *)
(** 525-547: the gradient is the one of the normalised image; the whole image is normalised as a whole. *)
Definition normalise_source (s : source) : res source :=
  match s with
  | Here x => let? x := normalise x in Ok (Here x)
  | Whole im => let? im := normalise im in Ok (Whole im)
  end.
(** 613-632: the factor of the warped image. *)
Definition ecc_factor (H_inv : 'M[F]_p) (sdi : 'M[F]_(k, p)) (w t : 'cV[F]_k) : F :=
  let Gt := sdi^T *m t in
  let Gw := sdi^T *m w in
  let num1 := Num.sqrt (dot w w) ^+ 2 in
  let num2 := dot Gw (H_inv *m Gw) in
  let num := num1 - num2 in
  let den1 := dot t w in
  let den2 := dot Gt (H_inv *m Gw) in
  let den := den1 - den2 in
  if 0 < den then num / den
  else
    let den3 := dot Gt (H_inv *m Gt) in
    let l1 := Num.sqrt (num2 / den3) in
    let l2 := - den / den3 in
    Num.max l1 l2.
Definition ecc_update (H_inv : 'M[F]_p) (sdi : 'M[F]_(k, p)) (image template : 'cV[F]_k) : res ('cV[F]_p * F) :=
  let? w := normalise image in
  let? t := normalise template in
  Ok (sdi^T *m (ecc_factor H_inv sdi w t *: w - t), dot w t).
(** The state is _H_inv; 580: scipy.linalg.inv raises LinAlgError. *)
Definition ecc : residual := mk_residual
  (fun s dW => let? s := normalise_source s in Ok (0, descent (gradient s) dW))
  (fun _ sdi => let H := sdi^T *m sdi in let? H_inv := np_inv H in Ok (H_inv, H))
  ecc_update.

(** ** GradientImages, 655-821 *)
(** _regularise_gradients, 665-671 (a pointwise division that involves a median). *)
Variable regularise : grad -> grad.
(** 711-718: second_grad[d, j] is the derivative along d of component j; [second_grad[1, 0, ...] = second_grad[0, 1, ...]]. *)
Record second := mk_second { s00 : 'cV[F]_k; s01 : 'cV[F]_k; s10 : 'cV[F]_k; s11 : 'cV[F]_k }.
Definition second_grad (g : grad) : second :=
  let a := gradient_here g.1 in let b := gradient_here g.2 in mk_second a.1 b.1 a.2 b.2.
Definition fix_crossed (s : second) : second := mk_second (s00 s) (s01 s) (s01 s) (s11 s).
(** 720-731 *)
Definition gi_sdi (g : grad) (dW : jac) : 'M[F]_(k + k, p) :=
  let s := fix_crossed (second_grad g) in
  col_mx (scale_rows (s00 s) dW.1 + scale_rows (s10 s) dW.2) (scale_rows (s01 s) dW.1 + scale_rows (s11 s) dW.2).
Definition gi_error (template_grad : grad) (image : 'cV[F]_k) : 'cV[F]_(k + k) :=
  let g := regularise (gradient_here image) in col_mx g.1 g.2 - col_mx template_grad.1 template_grad.2.
Definition gradient_images : residual := mk_residual
  (fun s dW => let g := regularise (gradient s) in Ok (g, gi_sdi g dW))
  (fun st sdi => Ok (st, sdi^T *m sdi))
  (fun template_grad sdi image template =>
     let e := gi_error template_grad image in Ok (sdi^T *m e, dot e e)).

(** ** GradientCorrelation, 823-1028 *)
(** 877-879: cosine and sine of np.angle(gx + 1j gy); np.angle of zero is zero. *)
Definition angle_norm (gy gx : F) : F := Num.sqrt (gy ^+ 2 + gx ^+ 2).
Definition cos_angle (gy gx : F) : F := if angle_norm gy gx == 0 then 1 else gx / angle_norm gy gx.
Definition sin_angle (gy gx : F) : F := if angle_norm gy gx == 0 then 0 else gy / angle_norm gy gx.
(** (sin, cos), in the order of 887-889. *)
Definition orientation (g : grad) : grad :=
  (\col_i sin_angle (g.1 i 0) (g.2 i 0), \col_i cos_angle (g.1 i 0) (g.2 i 0)).
Definition had n (x y : 'cV[F]_n) : 'cV[F]_n := \col_i (x i 0 * y i 0).
(** 893-912: [s] is second_grad[d, j]. *)
Definition gc_descent (phi : grad) (s : second) (dW : jac) : 'M[F]_(k, p) :=
  let s := fix_crossed s in
  let a := mk_second (had phi.2 (s00 s)) (had phi.2 (s01 s)) (- had phi.1 (s10 s)) (- had phi.1 (s11 s)) in
  scale_rows (s00 a) dW.1 + scale_rows (s01 a) dW.2 + scale_rows (s10 a) dW.1 + scale_rows (s11 a) dW.2.
Definition gc_error (phi psi : grad) : 'cV[F]_k := had phi.2 psi.1 - had phi.1 psi.2.
Definition gc_qp (phi psi : grad) : F := \sum_i (phi.2 i 0 * psi.2 i 0 + phi.1 i 0 * psi.1 i 0).
(** 916: N is half the number of values of the gradient, which has 2 k.  With qp = 0 numpy goes on with infinities, which
    are not modelled. *)
Definition gradient_correlation : residual := mk_residual
  (fun s dW => let phi := orientation (gradient s) in Ok (phi, gc_descent phi (second_grad phi) dW))
  (fun st sdi => Ok (st, sdi^T *m sdi))
  (fun phi sdi image template =>
     let psi := orientation (gradient_here image) in
     let qp := gc_qp phi psi in
     let l := k%:R / qp in
     if qp == 0 then Err ZeroDivisionError else Ok (l *: (sdi^T *m gc_error phi psi), 1 / l)).

(** The residual classes other than FourierSSD (Model/Fourier.v), without kernels. *)
Inductive kind := SSD | ECC | GradientImages | GradientCorrelation.
Definition residual_of (c : kind) : residual :=
  match c with SSD => ssd | ECC => ecc | GradientImages => gradient_images | GradientCorrelation => gradient_correlation end.

(** ** The increments *)
(** ForwardAdditive.run, lk/algorithm.py 128-149, with [s] the whole image, and ForwardCompositional.run, 255-276, with [s]
    the warped image: the increment and the cost. *)
Definition forward_step (r : residual) (s : source) (dW : jac) (warped template : 'cV[F]_k) : res ('cV[F]_p * F) :=
  let? a := r_sdi r s dW in
  let? b := r_hessian a.1 a.2 in
  let? u := r_update b.1 a.2 warped template in
  let? x := np_solve b.2 u.1 in
  Ok (- x, u.2).
Definition additive_step r im dW warped template := forward_step r (Whole im) dW warped template.
Definition compositional_step r dW warped template := forward_step r (Here warped) dW warped template.
(** InverseCompositional._precompute 325-334 and run 386-391, 400-401; the increment is then inverted and composed. *)
Definition inverse_step (r : residual) (dW : jac) (warped template : 'cV[F]_k) : res ('cV[F]_p * F) :=
  let? a := r_sdi r (Here template) dW in
  let? b := r_hessian a.1 a.2 in
  let? u := r_update b.1 a.2 warped template in
  let? x := np_solve b.2 u.1 in
  Ok (x, u.2).
End Residual.

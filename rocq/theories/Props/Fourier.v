(** C63: SSD and FourierSSD. *)
From Coq Require Import Lia PeanoNat.
From Verif.Model Require Import Py Fourier.
From Verif.Proofs Require Import Fourier.
From mathcomp Require Import all_ssreflect all_algebra all_field.
Set Implicit Arguments.
Unset Strict Implicit.
Unset Printing Implicit Defensive.
Import Order.TTheory GRing.Theory Num.Theory.
Local Open Scope ring_scope.

(** For every kernel (real or complex, per channel, or none), every real steepest descent images and every real error image:
    FourierSSD computes the same increment as SSD, and raises exactly when SSD does. *)
Theorem c63_fourier_ssd : forall (C : numClosedFieldType) (h w ch p : nat) (wh ww : C), h.-primitive_root wh -> w.-primitive_root ww ->
  forall (kernel : option ('I_ch -> 'M[C]_(h, w))) (sdi : 'I_p -> 'I_ch -> 'M[C]_(h, w)) (e : 'I_ch -> 'M[C]_(h, w)),
  (forall a c i j, sdi a c i j \is Num.real) -> (forall c i j, e c i j \is Num.real) ->
  real_solve (fourier_hessian wh ww kernel sdi) (fourier_update wh ww kernel sdi e) =
  real_solve (ssd_hessian wh ww kernel sdi) (ssd_update wh ww kernel sdi e).
Proof.
  move=> C h w ch p wh ww Hh Hw kernel sdi e S E. apply: solve_conj => //.
  - by move=> a c; apply/matrixP => i j; rewrite mxE; apply/CrealP.
  - by move=> c; apply/matrixP => i j; rewrite mxE; apply/CrealP.
Qed.
Print Assumptions c63_fourier_ssd.
(** The transforms are inverse to each other and preserve inner products up to the number of pixels. *)
Theorem c63_transforms : forall (C : numClosedFieldType) (h w : nat) (wh ww : C), h.-primitive_root wh -> w.-primitive_root ww ->
  forall X Y : 'M[C]_(h, w), fft2 wh ww (ifft2 wh ww X) = X /\ ifft2 wh ww (fft2 wh ww X) = X /\
    \sum_i \sum_j (fft2 wh ww X i j)^* * fft2 wh ww Y i j = (h * w)%:R * \sum_i \sum_j (X i j)^* * Y i j.
Proof.
  move=> C h w wh ww Hh Hw X Y. split; first exact: ifft2K. split; first exact: ifft2_fft2.
  have := parseval Hh Hw X Y. rewrite /rdot. under eq_bigr do under eq_bigr do rewrite mxE. move=> ->.
  by congr (_ * _); apply: eq_bigr => i _; apply: eq_bigr => j _; rewrite mxE.
Qed.
Print Assumptions c63_transforms.
(** Without a kernel the cost of both is the sum of squares, zero exactly if the images agree. *)
Theorem c63_cost : forall (C : numClosedFieldType) (h w ch : nat) (e : 'I_ch -> 'M[C]_(h, w)), (forall c i j, e c i j \is Num.real) ->
  0 <= cost_closure e /\ (cost_closure e = 0 <-> forall c, e c = 0).
Proof.
  move=> C h w ch e E. have P c : 0 <= rdot (e c) (e c).
    by apply: sumr_ge0 => i _; apply: sumr_ge0 => j _; rewrite -expr2 real_exprn_even_ge0.
  split; first by apply: sumr_ge0.
  split; last by move=> Z; rewrite /cost_closure big1 // => c _; rewrite /rdot big1 // => i _; rewrite big1 // => j _; rewrite Z mxE mul0r.
  move=> /eqP; rewrite psumr_eq0 // => /allP Z c. have := Z c (mem_index_enum _). rewrite /= psumr_eq0; last first.
    by move=> i _; apply: sumr_ge0 => j _; rewrite -expr2 real_exprn_even_ge0.
  move=> /allP Y. apply/matrixP => i j. have := Y i (mem_index_enum _). rewrite /= psumr_eq0; last by move=> k _; rewrite -expr2 real_exprn_even_ge0.
  move=> /allP X. have := X j (mem_index_enum _). by rewrite /= mulf_eq0 orbb mxE => /eqP.
Qed.
Print Assumptions c63_cost.
(** With a kernel of the shape of the image, the increments can be computed but the cost cannot: with return_costs=True it
    raises ValueError, except for a single pixel and for images with as many channels as rows and one column or as many
    columns as rows. *)
Theorem c63_kernel_cost_refuted : forall ch h w : nat, (0 < ch)%coq_nat -> (0 < h)%coq_nat -> (0 < w)%coq_nat ->
  ~ ((ch = h /\ (w = h \/ w = 1%N)) \/ (h = 1%N /\ w = 1%N)) -> kernel_cost_shape ch h w = Err ValueError.
Proof.
  move=> ch h w Hc Hh Hw N. unfold kernel_cost_shape, broadcast3, broadcast_dim. cbn [fst snd].
  repeat match goal with |- context [Nat.eqb ?a ?b] => destruct (Nat.eqb_spec a b); cbn [bind fst snd] end; auto; exfalso; apply: N; subst; nia.
Qed.
Print Assumptions c63_kernel_cost_refuted.
(** The error images for which the cost with a kernel can be computed at all, and the size of the array it multiplies. *)
Theorem c63_kernel_cost_iff : forall ch h w : nat, (0 < ch)%coq_nat -> (0 < h)%coq_nat -> (0 < w)%coq_nat ->
  ((exists s, kernel_cost_shape ch h w = Ok s) <-> (ch = h /\ (w = h \/ w = 1%N)) \/ (h = 1%N /\ w = 1%N)) /\
  (forall s, kernel_cost_shape ch h w = Ok s -> s = (ch, h, w)).
Proof.
  move=> ch h w Hc Hh Hw. unfold kernel_cost_shape, broadcast3, broadcast_dim. cbn [fst snd].
  repeat match goal with |- context [Nat.eqb ?a ?b] => destruct (Nat.eqb_spec a b); cbn [bind fst snd] end; subst;
    (split; [split; [first [by move=> _; auto | by case=> s Hs; try discriminate Hs; nia]
                    | first [by move=> _; eexists; reflexivity | by move=> Hx; exfalso; nia]]
            | try by []; move=> s [<-]; repeat f_equal; nia]).
Qed.
Print Assumptions c63_kernel_cost_iff.
Example c63_kernel_cost_ok_ex : kernel_cost_shape 3 3 3 = Ok (3, 3, 3)%N /\ kernel_cost_shape 5 1 1 = Ok (5, 1, 1)%N.
Proof. by []. Qed.
(** One channel, 3 x 4 pixels. *)
Example c63_kernel_cost_ex : kernel_cost_shape 1 3 4 = Err ValueError.
Proof. reflexivity. Qed.
Example c63_roots_ex : exists wh ww : algC, 3.-primitive_root wh /\ 4.-primitive_root ww.
Proof. have [z Z] := C_prim_root_exists (isT : (0 < 3)%N). have [y Y] := C_prim_root_exists (isT : (0 < 4)%N). by exists z, y. Qed.

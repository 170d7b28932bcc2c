From Verif.Model Require Import Py Fourier.
From mathcomp Require Import all_ssreflect all_algebra.
Set Implicit Arguments.
Unset Strict Implicit.
Unset Printing Implicit Defensive.
Import Order.TTheory GRing.Theory Num.Theory.
Local Open Scope ring_scope.

Section P.
Variable C : numClosedFieldType.

(** Roots of unity. *)
Lemma root_neq0 n (z : C) : n.-primitive_root z -> z != 0.
Proof.
  move=> P. apply/eqP => Z. have := prim_expr_order P. have := prim_order_gt0 P. rewrite Z. case: n {P} => // n _.
  by rewrite expr0n /= => /eqP; rewrite eq_sym oner_eq0.
Qed.
Lemma root_conj n (z : C) : n.-primitive_root z -> z^* = z^-1.
Proof.
  move=> P. have N := prim_order_gt0 P. have E : `|z| = 1.
    apply/eqP. rewrite -(@pexpr_eq1 _ _ n) // -normrX prim_expr_order // normr1 eqxx. by [].
  by rewrite invC_norm E expr1n invr1 mul1r.
Qed.
Lemma geometric n (x : C) : x ^+ n = 1 -> x != 1 -> \sum_(i < n) x ^+ i = 0.
Proof.
  move=> X N. have := subrX1 x n. rewrite X subrr => /esym /eqP. by rewrite mulf_eq0 subr_eq0 (negbTE N) /= => /eqP.
Qed.
Lemma dft_inv n (z : C) : n.-primitive_root z -> dft_mx n z *m dft_mx n z^-1 = (n%:R)%:M.
Proof.
  move=> P. have Z := root_neq0 P. apply/matrixP => i j. rewrite !mxE.
  have E (k : 'I_n) : dft_mx n z i k * dft_mx n z^-1 k j = (z ^+ i / z ^+ j) ^+ k.
    by rewrite !mxE exprVn [(k * j)%N]mulnC !exprM expr_div_n.
  under eq_bigr => k _ do rewrite E. have [<-|ij] := altP (i =P j).
    have E1 : z ^+ i / z ^+ i = 1 by rewrite divff // expf_neq0. under eq_bigr => k _ do rewrite E1 expr1n. by rewrite sumr_const card_ord mulr1n.
  rewrite mulr0n. apply: geometric.
  - by rewrite expr_div_n (exprAC z i) (exprAC z j) (prim_expr_order P) !expr1n divr1.
  - rewrite (can2_eq (divfK _) (mulfK _)) ?expf_neq0 // mul1r (eq_prim_root_expr P) !modn_small //.
Qed.
Lemma dft_tr n (z : C) : (dft_mx n z)^T = dft_mx n z.
Proof. by apply/matrixP => i j; rewrite !mxE mulnC. Qed.
Lemma dft_conj n (z : C) : n.-primitive_root z -> map_mx conjC (dft_mx n z) = dft_mx n z^-1.
Proof. by move=> P; apply/matrixP => i j; rewrite !mxE rmorphX /= (root_conj P). Qed.
Lemma prim_inv n (z : C) : n.-primitive_root z -> n.-primitive_root z^-1.
Proof. by move=> P; rewrite -(root_conj P) fmorph_primitive_root. Qed.

Variables h w : nat.
Variables wh ww : C.
Hypothesis Hh : h.-primitive_root wh.
Hypothesis Hw : w.-primitive_root ww.
Notation fft2 := (@fft2 C h w wh ww).
Notation ifft2 := (@ifft2 C h w wh ww).
Lemma hw_neq0 : ((h * w)%:R : C) != 0.
Proof. by rewrite pnatr_eq0 muln_eq0 negb_or -!lt0n !(prim_order_gt0 Hh, prim_order_gt0 Hw). Qed.
Lemma ifft2K X : fft2 (ifft2 X) = X.
Proof.
  rewrite /Fourier.fft2 /Fourier.ifft2 -scalemxAr -scalemxAl !mulmxA dft_inv //.
  have -> : (h%:R)%:M *m X *m dft_mx w ww^-1 *m dft_mx w ww = (h%:R)%:M *m X *m (w%:R)%:M.
    by rewrite -[LHS]mulmxA -{2}[ww]invrK dft_inv //; apply: prim_inv.
  by rewrite mul_scalar_mx mul_mx_scalar !scalerA -mulrA -natrM [(w * h)%N]mulnC mulVf ?hw_neq0 // scale1r.
Qed.
Lemma rdot_tr (X Y : 'M[C]_(h, w)) : rdot X Y = \tr (X^T *m Y).
Proof.
  rewrite /rdot /mxtrace exchange_big. apply: eq_bigr => j _. rewrite mxE. by apply: eq_bigr => i _; rewrite mxE.
Qed.
Lemma conj_fft X : conj (fft2 X) = dft_mx h wh^-1 *m conj X *m dft_mx w ww^-1.
Proof. by rewrite /conj /Fourier.fft2 !map_mxM !dft_conj. Qed.
Lemma parseval X Y : rdot (conj (fft2 X)) (fft2 Y) = (h * w)%:R * rdot (conj X) Y.
Proof.
  rewrite !rdot_tr conj_fft !trmx_mul !dft_tr /Fourier.fft2 !mulmxA.
  have -> : dft_mx w ww^-1 *m (conj X)^T *m dft_mx h wh^-1 *m dft_mx h wh *m Y *m dft_mx w ww = dft_mx w ww^-1 *m ((h%:R *: ((conj X)^T *m Y)) *m dft_mx w ww).
    rewrite -!mulmxA [dft_mx h wh^-1 *m _]mulmxA -{2}[wh]invrK dft_inv; last exact: prim_inv.
    by rewrite mul_scalar_mx -!scalemxAl -scalemxAr -!scalemxAr !mulmxA.
  rewrite mxtrace_mulC -mulmxA dft_inv // mul_mx_scalar scalerA mxtraceZ -natrM mulnC. by [].
Qed.
Lemma herm_ifft Z Y : rdot (conj (ifft2 Z)) Y = (h * w)%:R^-1 * rdot (conj Z) (fft2 Y).
Proof. by rewrite -{2}(ifft2K Z) parseval mulKf // hw_neq0. Qed.
Lemma rdot_conj (X Y : 'M[C]_(h, w)) : (rdot X Y)^* = rdot (conj X) (conj Y).
Proof. rewrite /rdot rmorph_sum. apply: eq_bigr => i _. rewrite rmorph_sum. by apply: eq_bigr => j _; rewrite !mxE rmorphM. Qed.
Lemma conjK (X : 'M[C]_(h, w)) : conj (conj X) = X.
Proof. by apply/matrixP => i j; rewrite !mxE conjCK. Qed.
Lemma emul_one (X : 'M[C]_(h, w)) : emul (const_mx 1) X = X.
Proof. by apply/matrixP => i j; rewrite !mxE mul1r. Qed.
Lemma ifft2_fft2 X : ifft2 (fft2 X) = X.
Proof.
  rewrite /Fourier.fft2 /Fourier.ifft2 !mulmxA -{2}[wh]invrK dft_inv; last exact: prim_inv.
  by rewrite -mulmxA dft_inv // mul_scalar_mx mul_mx_scalar !scalerA -mulrA -natrM [(w * h)%N]mulnC mulVf ?hw_neq0 // scale1r.
Qed.

Variables ch p : nat.
Variable kernel : option ('I_ch -> 'M[C]_(h, w)).
Variable sdi : 'I_p -> 'I_ch -> 'M[C]_(h, w).
Variable e : 'I_ch -> 'M[C]_(h, w).
Hypothesis sdi_real : forall a c, conj (sdi a c) = sdi a c.
Hypothesis e_real : forall c, conj (e c) = e c.
(** One filter for both cases. *)
Lemma filtered : exists k, (forall a c, ssd_filtered wh ww kernel sdi a c = ifft2 (emul (k c) (fft2 (sdi a c)))) /\
  (forall a c, fourier_filtered wh ww kernel sdi a c = emul (k c) (fft2 (sdi a c))).
Proof.
  rewrite /ssd_filtered /fourier_filtered. case: kernel => [k|]; first by exists k.
  exists (fun _ => const_mx 1). by split=> a c; rewrite emul_one ?ifft2_fft2.
Qed.
Lemma hessian_conj : fourier_hessian wh ww kernel sdi = (h * w)%:R *: map_mx conjC (ssd_hessian wh ww kernel sdi).
Proof.
  have [k [S T]] := filtered. apply/matrixP => a b. rewrite !mxE rmorph_sum big_distrr /=. apply: eq_bigr => c _.
  by rewrite S T rdot_conj sdi_real herm_ifft mulVKf // hw_neq0.
Qed.
Lemma update_conj : fourier_update wh ww kernel sdi e = (h * w)%:R *: map_mx conjC (ssd_update wh ww kernel sdi e).
Proof.
  have [k [S T]] := filtered. apply/matrixP => a b. rewrite !mxE rmorph_sum big_distrr /=. apply: eq_bigr => c _.
  by rewrite S T rdot_conj e_real herm_ifft mulVKf // hw_neq0.
Qed.
Lemma solve_conj : real_solve (fourier_hessian wh ww kernel sdi) (fourier_update wh ww kernel sdi e) =
  real_solve (ssd_hessian wh ww kernel sdi) (ssd_update wh ww kernel sdi e).
Proof.
  rewrite /real_solve hessian_conj update_conj. set H := ssd_hessian _ _ _ _. set b := ssd_update _ _ _ _ _.
  rewrite unitmxZ ?unitfE ?hw_neq0 // map_unitmx. case: ifP => // U. congr Ok.
  rewrite invmxZ ?unitfE ?hw_neq0 // ?unitmxZ ?unitfE ?hw_neq0 ?map_unitmx // -scalemxAl -scalemxAr scalerA mulVf ?hw_neq0 // scale1r.
  rewrite -map_invmx -map_mxM. apply/matrixP => i j. rewrite !mxE. by rewrite Re_conj.
Qed.
End P.

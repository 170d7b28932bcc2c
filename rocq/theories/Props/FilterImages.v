(** C109: the filter images of an ensemble are the filters it was trained with. *)
From Coq Require Import ZArith Lia.
From Coq Require List.
From Verif.Model Require Import Py PadCrop Fourier Convolution FilterImages.
From Verif.Proofs Require Import PadCropAt.
From Verif.Proofs Require PadCrop Fourier Convolution.
From Verif.Props Require PadCrop Convolution.
From mathcomp Require Import all_ssreflect all_algebra all_field.
Set Implicit Arguments.
Unset Strict Implicit.
Unset Printing Implicit Defensive.
Import Order.TTheory GRing.Theory Num.Theory.
Local Open Scope ring_scope.
Delimit Scope Z_scope with ZZ.

Section P.
Variable C : numClosedFieldType.
Variable z : nat -> C.
Hypothesis roots : forall n, (0 < n)%N -> n.-primitive_root (z n).
Notation arr := (PadCrop.image C).
Notation px := (fun (x : arr) i j => List.nth j (List.nth i (im_rows x) [::]) 0).
Notation sized := (@Convolution.sized C).

Lemma arr_ext (x y : arr) h w : sized x h w -> sized y h w ->
  (forall i j, (i < h)%coq_nat -> (j < w)%coq_nat -> px x i j = px y i j) -> x = y.
Proof.
  case: x y => wx rx [wy ry] [Wx Hx Ex] [Wy Hy Ey] H. rewrite /im_h /= in Hx Hy Ex Ey H. rewrite Ex Ey. congr mk_image.
  move: Wx Wy. rewrite /PadCrop.wf /= !List.Forall_forall Ex Ey => Wx Wy.
  apply: (List.nth_ext _ _ [::] [::]); first by rewrite Hx Hy.
  move=> i Hi. rewrite Hx in Hi. have Lx := Wx _ (List.nth_In rx [::] (eq_ind_r (fun n => lt i n) Hi Hx)).
  have Ly := Wy _ (List.nth_In ry [::] (eq_ind_r (fun n => lt i n) Hi Hy)).
  apply: (List.nth_ext _ _ 0 0); first by rewrite Lx Ly. move=> j. rewrite Lx => Hj. exact: H.
Qed.
Lemma inverse_real (p : arr) N M : sized p N M -> (0 < N)%N -> (0 < M)%N -> (forall i j, px p i j \is Num.real) ->
  real (inverse_spectrum z (spectrum z p)) = p.
Proof.
  move=> S HN HM R. have [Wp Hp Ep] := S. have [W1 H1 E1] := Convolution.spectrum_size z S.
  rewrite /inverse_spectrum H1 E1 (Convolution.spectrum_mx z Hp Ep) (Fourier.ifft2_fft2 (roots HN) (roots HM)).
  have [W2 H2 E2] := Convolution.of_mx_size (to_mx N M p). have [S3 V] := Convolution.real_at W2 H2 E2.
  apply: (arr_ext S3 S) => i j Hi Hj. rewrite -[LHS]/(at0 0 _ i j) V.
  have Hi' : (i < N)%N by apply/ssrnat.ltP. have Hj' : (j < M)%N by apply/ssrnat.ltP.
  have := Convolution.at0_of_mx (to_mx N M p) (Ordinal Hi') (Ordinal Hj'). rewrite /= => ->. rewrite mxE /=. apply/Creal_ReP. exact: R.
Qed.

(** ** The frequency images *)
Lemma fshift1_nth (B : Type) (l : list B) d i : (i < List.length l)%coq_nat ->
  List.nth i (fshift1 l) d = List.nth (Nat.modulo (Nat.add i (Nat.sub (List.length l) (Nat.div (List.length l) 2))) (List.length l)) l d.
Proof.
  move=> Hi. rewrite /fshift1. set n := List.length l in Hi *. set k := Nat.sub n (Nat.div n 2).
  have Hk : (Nat.mul 2 (Nat.div n 2) <= n)%coq_nat by apply: PeanoNat.Nat.mul_div_le. have Kn : (k <= n)%coq_nat by rewrite /k; lia.
  have Ls : List.length (List.skipn k l) = Nat.sub n k by rewrite List.skipn_length.
  have [L|L] := PeanoNat.Nat.lt_ge_cases i (Nat.sub n k).
  - rewrite (List.app_nth1 (List.skipn k l)) ?Ls // PeanoNat.Nat.mod_small; last by lia.
    rewrite -[X in _ = List.nth _ X _](List.firstn_skipn k l) List.app_nth2 List.firstn_length_le //; last by lia. congr (List.nth _ _ _). lia.
  - rewrite (List.app_nth2 (List.skipn k l)) ?Ls //.
    have -> : Nat.modulo (Nat.add i k) n = Nat.sub i (Nat.sub n k).
      have -> : Nat.add i k = Nat.add (Nat.sub i (Nat.sub n k)) (Nat.mul 1 n) by lia.
      rewrite PeanoNat.Nat.mod_add; last by lia. apply: PeanoNat.Nat.mod_small. lia.
    rewrite -[X in _ = List.nth _ X _](List.firstn_skipn k l) List.app_nth1 // List.firstn_length_le //. lia.
Qed.
Lemma fshift1_length (B : Type) (l : list B) : List.length (fshift1 l) = List.length l.
Proof.
  rewrite /fshift1. set k := Nat.sub _ _. rewrite -[cat _ _]/(List.app _ _) List.app_length List.skipn_length List.firstn_length_le /k; lia.
Qed.
Lemma fshift1_in (B : Type) (l : list B) x : List.In x (fshift1 l) -> List.In x l.
Proof.
  rewrite /fshift1. set k := Nat.sub _ _. rewrite -[cat _ _]/(List.app _ _) => H. rewrite -(List.firstn_skipn k l).
  apply/List.in_or_app. by case: (List.in_app_or _ _ _ H); [right|left].
Qed.
Lemma map_px (f : C -> C) (x : arr) h w i j : sized x h w -> (i < h)%coq_nat -> (j < w)%coq_nat ->
  List.nth j (List.nth i (List.map (List.map f) (im_rows x)) [::]) 0 = f (px x i j).
Proof.
  move=> [W Hh Hw] Hi Hj. rewrite /im_h in Hh. rewrite (List.nth_indep _ _ (List.map f [::])) ?List.map_length ?Hh //.
  rewrite List.map_nth (List.nth_indep _ _ (f 0)) ?List.map_nth // List.map_length.
  move: W. rewrite /PadCrop.wf List.Forall_forall Hw => W. rewrite (W (List.nth i (im_rows x) [::])) //. apply: List.nth_In. by rewrite Hh.
Qed.
Lemma pow_rev (x : C) n a i : x != 0 -> (a < n)%N -> x ^+ (i * (n - a.+1)) = x ^+ (i * n.-1) * x^-1 ^+ (i * a).
Proof.
  move=> N. case: n => // n. rewrite ltnS subSS /= => L. by rewrite mulnBr expfB_cond ?(negbTE N) ?add0n ?leq_mul2l ?L ?orbT // exprVn.
Qed.
Lemma norm_root n (x : C) k : n.-primitive_root x -> `|x ^+ k| = 1.
Proof.
  move=> P. rewrite normrX. have -> : `|x| = 1; last by rewrite expr1n. have N := prim_order_gt0 P.
  apply/eqP. rewrite -(@pexpr_eq1 _ _ n) // -normrX prim_expr_order // normr1 eqxx. by [].
Qed.
Lemma norm_mirror h w (wh ww : C) (X Y : 'M[C]_(h, w)) : h.-primitive_root wh -> w.-primitive_root ww ->
  (forall i j, X i j \is Num.real) -> (forall i j, Y i j = X (rev_ord i) (rev_ord j)) ->
  forall i j, `|Fourier.fft2 wh ww Y i j| = `|Fourier.fft2 wh ww X i j|.
Proof.
  move=> Hh Hw R E i j. have Nh := Fourier.root_neq0 Hh. have Nw := Fourier.root_neq0 Hw.
  have -> : Fourier.fft2 wh ww Y i j = wh ^+ (i * h.-1) * ww ^+ (j * w.-1) * (Fourier.fft2 wh ww X i j)^*.
    have -> : (Fourier.fft2 wh ww X i j)^* = (Fourier.conj (Fourier.fft2 wh ww X)) i j by rewrite [in RHS]mxE.
    rewrite (Fourier.conj_fft Hh Hw) /Fourier.fft2 !mxE. rewrite (reindex_inj rev_ord_inj) /= mulr_sumr. apply: eq_bigr => b _.
    rewrite !mxE (reindex_inj rev_ord_inj) /= !mulr_suml mulr_sumr. apply: eq_bigr => a _. rewrite !mxE !E !rev_ordK conj_Creal //.
    rewrite (pow_rev i Nh (ltn_ord a)) [((w - b.+1) * j)%N]mulnC (pow_rev j Nw (ltn_ord b)) [(b * j)%N]mulnC.
    rewrite -!mulrA. congr (_ * _). rewrite [RHS]mulrCA. congr (_ * _). exact: mulrCA.
  by rewrite !normrM norm_conjC (norm_root _ Hh) (norm_root _ Hw) !mul1r.
Qed.
Lemma mirror_px p q x i j : Props.Convolution.array p q x -> (i < p)%coq_nat -> (j < q)%coq_nat ->
    px (mirror x) i j = px x (Nat.sub (Nat.sub p 1) i) (Nat.sub (Nat.sub q 1) j).
Proof.
  move=> [W [Hh [Hr _]]] Hi Hj. rewrite /mirror /=.
  rewrite List.rev_nth ?List.map_length ?Hh //. rewrite (List.nth_indep _ _ (List.rev [::])) ?List.map_length ?Hh; last by lia.
  rewrite List.map_nth. have Lr : List.length (List.nth (Nat.sub p i.+1) (im_rows x) [::]) = q.
    apply: Hr. apply: List.nth_In. rewrite Hh. lia.
  rewrite List.rev_nth Lr //. congr (List.nth _ (List.nth _ _ _) _); lia.
Qed.
Lemma mirror_sized p q x : Props.Convolution.array p q x -> sized (mirror x) p q.
Proof.
  move=> [W [Hh [Hr _]]]. split=> //; last by rewrite /im_h /mirror /= List.rev_length List.map_length.
  rewrite /PadCrop.wf /mirror /= W. apply/List.Forall_forall => r /List.in_rev. rewrite List.rev_involutive => /List.in_map_iff [r' [<- In]].
  by rewrite List.rev_length Hr.
Qed.
(** The discrete Fourier transform of the p x q array x at frequency (u, v). *)
Definition dft p q (x : arr) u v : C := \sum_(a < p) \sum_(b < q) px x a b * z p ^+ (u * a) * z q ^+ (v * b).
Lemma spectrum_px p q x i j : sized x p q -> (i < p)%coq_nat -> (j < q)%coq_nat -> px (spectrum z x) i j = dft p q x i j.
Proof.
  move=> [W Hh Hw] /ssrnat.ltP Hi /ssrnat.ltP Hj. rewrite /spectrum Hh Hw.
  have := Convolution.at0_of_mx (Fourier.fft2 (z p) (z q) (to_mx p q x)) (Ordinal Hi) (Ordinal Hj). rewrite /at0 => ->.
  rewrite /Fourier.fft2 mxE /dft exchange_big /=. apply: eq_bigr => b _. rewrite !mxE mulr_suml. apply: eq_bigr => a _.
  rewrite !mxE [(b * j)%N]mulnC. by rewrite [z p ^+ _ * _]mulrC.
Qed.
Lemma dft_mirror p q x u v : (0 < p)%N -> (0 < q)%N -> Props.Convolution.array p q x -> (u < p)%coq_nat -> (v < q)%coq_nat ->
  `|dft p q (mirror x) u v| = `|dft p q x u v|.
Proof.
  move=> Hp Hq A Hu Hv. have [Sx Rx] := proj1 (Props.Convolution.array_sized p q x) A. have Sm := mirror_sized A.
  rewrite -(spectrum_px Sm Hu Hv) -(spectrum_px Sx Hu Hv). move/ssrnat.ltP: Hu => Hu. move/ssrnat.ltP: Hv => Hv.
  have G (y : arr) : sized y p q -> px (spectrum z y) u v = Fourier.fft2 (z p) (z q) (to_mx p q y) (Ordinal Hu) (Ordinal Hv).
    move=> [W Hh Hw]. rewrite /spectrum Hh Hw. exact: (Convolution.at0_of_mx (Fourier.fft2 (z p) (z q) (to_mx p q y)) (Ordinal Hu) (Ordinal Hv)).
  rewrite !G //. apply: norm_mirror; [exact: roots|exact: roots|by move=> i j; rewrite mxE; apply: Rx|].
  move=> i j. rewrite !mxE. rewrite (mirror_px A); [|apply/ssrnat.ltP; exact: ltn_ord|apply/ssrnat.ltP; exact: ltn_ord].
  by congr (List.nth _ (List.nth _ _ _) _) => /=; rewrite !minusE -subnDA add1n.
Qed.
Lemma shift_px p q (x : arr) i j : sized x p q -> (i < p)%coq_nat -> (j < q)%coq_nat ->
  sized (fftshift2 x) p q /\
  px (fftshift2 x) i j = px x (Nat.modulo (Nat.add i (Nat.sub p (Nat.div p 2))) p) (Nat.modulo (Nat.add j (Nat.sub q (Nat.div q 2))) q).
Proof.
  move=> [W Hh Hw] Hi Hj. rewrite /im_h in Hh. move: W. rewrite /PadCrop.wf List.Forall_forall Hw => W. split.
    split=> //; last by rewrite /im_h /fftshift2 /= List.map_length fshift1_length.
    rewrite /PadCrop.wf /fftshift2 /= Hw. apply/List.Forall_forall => r /List.in_map_iff [r' [<- In]].
    rewrite fshift1_length W //. exact: fshift1_in.
  rewrite /fftshift2 /= (List.nth_indep _ _ (fshift1 [::])) ?List.map_length ?fshift1_length ?Hh // List.map_nth.
  have Hm : (Nat.modulo (Nat.add i (Nat.sub p (Nat.div p 2))) p < p)%coq_nat by apply: PeanoNat.Nat.mod_upper_bound; lia.
  rewrite (@fshift1_nth _ (im_rows x)) Hh //. rewrite fshift1_nth (W (List.nth _ (im_rows x) _)) //; apply: List.nth_In; by rewrite Hh.
Qed.

(** ** C109 *)
(** Filters of at least 6 x 6 pixels: the images are the filters of the training, turned by half a turn, expert by expert and
    channel by channel. *)
Theorem c109_filter_images_partial : forall p q (fs : seq (seq arr)) es, (6 <= p)%coq_nat -> (6 <= q)%coq_nat ->
  (forall f x, List.In f fs -> List.In x f -> Props.Convolution.array p q x) ->
  mapM (expert z (Z.of_nat p, Z.of_nat q)) fs = Ok es ->
  spatial_filter_images z (Z.of_nat p, Z.of_nat q) es = [seq [seq mirror x | x <- f] | f <- fs] /\
  forall x i j, Props.Convolution.array p q x -> (i < p)%coq_nat -> (j < q)%coq_nat ->
    px (mirror x) i j = px x (Nat.sub (Nat.sub p 1) i) (Nat.sub (Nat.sub q 1) j).
Proof.
  move=> p q fs es Hp Hq A E. split; last by move=> x i j; apply: mirror_px.
  have One x e : Props.Convolution.array p q x -> (let? pd := pad 0 x (padded_size (Z.of_nat p, Z.of_nat q)) in Ok (spectrum z pd)) = Ok e ->
      mirror (crop 0 (real (inverse_spectrum z e)) (Z.of_nat p, Z.of_nat q)) = mirror x.
    move=> Ax. have [Sx Rx] := proj1 (Props.Convolution.array_sized p q x) Ax.
    rewrite /padded_size /=. set eh := Z.to_nat (3 * Z.of_nat p / 2 - 1)%ZZ. set ew := Z.to_nat (3 * Z.of_nat q / 2 - 1)%ZZ.
    have Dh : Z.of_nat eh = (3 * Z.of_nat p / 2 - 1)%ZZ /\ (Nat.add p 2 <= eh)%coq_nat.
      rewrite /eh. have := Z.div_mod (3 * Z.of_nat p) 2 ltac:(lia). have := Z.mod_pos_bound (3 * Z.of_nat p) 2 ltac:(lia). by lia.
    have Dw : Z.of_nat ew = (3 * Z.of_nat q / 2 - 1)%ZZ /\ (Nat.add q 2 <= ew)%coq_nat.
      rewrite /ew. have := Z.div_mod (3 * Z.of_nat q) 2 ltac:(lia). have := Z.mod_pos_bound (3 * Z.of_nat q) 2 ltac:(lia). by lia.
    case: Dh Dw => [<- Lh] [<- Lw].
    have Ap : Props.PadCrop.array p q x by apply/Props.PadCrop.array_wf; case: (Sx).
    have [pd [Epd Cpd]] := Props.PadCrop.c23_crop_pad_partial _ 0 _ _ _ _ _ Ap Lh Lw. rewrite Epd /= => -[<-].
    have Lh' : (p <= eh)%coq_nat by lia. have Lw' : (q <= ew)%coq_nat by lia.
    have [W H M] := Sx. have [W' [H' [M' V]]] := at0_pad _ _ _ _ _ _ _ W H M Lh' Lw' Epd.
    rewrite (@inverse_real pd eh ew) ?Cpd //; [apply/ssrnat.ltP; lia|apply/ssrnat.ltP; lia|].
    move=> i j. rewrite -[X in X \is _]/(at0 0 pd i j) V. case: ifP => _; [exact: Rx|exact: real0].
  rewrite /spatial_filter_images. elim: fs es A E => [|f fs IH] es A /=; first by move=> [<-].
  case Ef : (expert _ _ f) => [e|] //=. case Em : (mapM _ fs) => [es'|] //= [<-] /=.
  rewrite (IH es') //; last by move=> g x Hg; apply: A; right. congr (_ :: _).
  have {}A : forall x, List.In x f -> Props.Convolution.array p q x by move=> x; apply: A; left.
  move: Ef A. rewrite /expert /spatial_filter_image. clear -One. elim: f e => [|x f IH] e /=; first by move=> [<-].
  case Ex : (pad 0 x _) => [pd|] //=. move: IH. set m := mapM _ f. case Em : m => [ys|] //= IH [<-] A /=.
  rewrite (One x (spectrum z pd)); [|by apply: A; left|by rewrite Ex]. rewrite (IH ys) // => w Hw. by apply: A; right.
Qed.
(** The frequency images are the magnitudes of the spectra of the filters themselves (the mirroring does not show), with the zero
    frequency at (p / 2, q / 2).  But the channels are rotated as well: of k channels, channel c of the image shows the filter of
    channel c - k / 2 (modulo k). *)
Theorem c109_frequency_images_partial : forall p q (f : seq arr) e, (6 <= p)%coq_nat -> (6 <= q)%coq_nat ->
  (forall x, List.In x f -> Props.Convolution.array p q x) -> expert z (Z.of_nat p, Z.of_nat q) f = Ok e ->
  let r := frequency_filter_image z (Z.of_nat p, Z.of_nat q) e in let k := List.length f in
  List.length r = k /\
  forall c i j d, (c < k)%coq_nat -> (i < p)%coq_nat -> (j < q)%coq_nat ->
    px (List.nth c r d) i j = `|dft p q (List.nth (Nat.modulo (Nat.add c (Nat.sub k (Nat.div k 2))) k) f d)
      (Nat.modulo (Nat.add i (Nat.sub p (Nat.div p 2))) p) (Nat.modulo (Nat.add j (Nat.sub q (Nat.div q 2))) q)|.
Proof.
  move=> p q f e Hp Hq A E. have S : spatial_filter_images z (Z.of_nat p, Z.of_nat q) [:: e] = [seq [seq mirror x | x <- g] | g <- [:: f]].
    apply: (proj1 (c109_filter_images_partial Hp Hq _ _)); last by rewrite /= E.
    by move=> g x [<-|//] Hx; apply: A.
  move: S => [S]. rewrite /frequency_filter_image S /fftshift.
  set l := List.map (@fftshift2 C) _. have Ll : List.length l = List.length f by rewrite /l !List.map_length.
  split; first by rewrite List.map_length fshift1_length Ll.
  move=> c i j d Hc Hi Hj. rewrite (List.nth_indep _ _ (modulus d)) ?List.map_length ?fshift1_length ?Ll // List.map_nth.
  rewrite fshift1_nth Ll //. set c' := Nat.modulo _ _. have Hc' : (c' < List.length f)%coq_nat by apply: PeanoNat.Nat.mod_upper_bound; lia.
  rewrite (List.nth_indep _ _ (fftshift2 (spectrum z (mirror d)))) ?Ll // /l List.map_nth List.map_nth -[seq.map _ _]/(List.map _ _) List.map_nth.
  have Ax := A _ (List.nth_In f d Hc'). set x := List.nth c' f d in Ax *. have Sm := mirror_sized Ax.
  have Ss := Convolution.spectrum_size z Sm. have [Sh V] := shift_px Ss Hi Hj. rewrite /modulus /= (map_px _ Sh Hi Hj) V.
  have Bi : (Nat.modulo (Nat.add i (Nat.sub p (Nat.div p 2))) p < p)%coq_nat by apply: PeanoNat.Nat.mod_upper_bound; lia.
  have Bj : (Nat.modulo (Nat.add j (Nat.sub q (Nat.div q 2))) q < q)%coq_nat by apply: PeanoNat.Nat.mod_upper_bound; lia.
  rewrite (spectrum_px Sm Bi Bj). apply: dft_mirror => //; apply/ssrnat.ltP; lia.
Qed.
Lemma rotated : forall k c, (2 <= k)%coq_nat -> (c < k)%coq_nat ->
  Nat.modulo (Nat.add c (Nat.sub k (Nat.div k 2))) k <> c.
Proof.
  move=> k c Hk Hc E. have Dk := PeanoNat.Nat.div_str_pos k 2 ltac:(lia). have Mk := PeanoNat.Nat.mul_div_le k 2 ltac:(lia).
  set h := Nat.div k 2 in E Dk Mk. have [L|L] := PeanoNat.Nat.lt_ge_cases (Nat.add c (Nat.sub k h)) k.
  - rewrite PeanoNat.Nat.mod_small // in E. lia.
  - have F : Nat.add c (Nat.sub k h) = Nat.add (Nat.sub c h) (Nat.mul 1 k) by lia.
    rewrite F PeanoNat.Nat.mod_add in E; last by lia. rewrite PeanoNat.Nat.mod_small in E; lia.
Qed.
(** So with more than one channel no channel is shown in its own place: the filter of channel c can vanish although the image
    shows one everywhere in channel c. *)
Lemma zero_array p q : Props.Convolution.array p q (mk_image q (List.repeat (List.repeat (0 : C) q) p)).
Proof.
  split=> //. split; first by rewrite List.repeat_length. split; first by move=> r H; rewrite (List.repeat_spec _ _ _ H) List.repeat_length.
  move=> i j /=. have [In|->] := List.nth_in_or_default i (List.repeat (List.repeat (0 : C) q) p) [::]; last by case: j => *; apply: real0.
  rewrite (List.repeat_spec _ _ _ In) List.nth_repeat. exact: real0.
Qed.
Lemma expert_ok p q (f : seq arr) : (1 < p)%coq_nat -> (1 < q)%coq_nat -> (forall x, List.In x f -> Props.Convolution.array p q x) ->
  exists e, expert z (Z.of_nat p, Z.of_nat q) f = Ok e.
Proof.
  move=> Hp Hq. rewrite /expert /padded_size /=. set eh := Z.to_nat (3 * Z.of_nat p / 2 - 1)%ZZ. set ew := Z.to_nat (3 * Z.of_nat q / 2 - 1)%ZZ.
  have Dh : Z.of_nat eh = (3 * Z.of_nat p / 2 - 1)%ZZ /\ (p <= eh)%coq_nat.
    rewrite /eh. have := Z.div_mod (3 * Z.of_nat p) 2 ltac:(lia). have := Z.mod_pos_bound (3 * Z.of_nat p) 2 ltac:(lia). by lia.
  have Dw : Z.of_nat ew = (3 * Z.of_nat q / 2 - 1)%ZZ /\ (q <= ew)%coq_nat.
    rewrite /ew. have := Z.div_mod (3 * Z.of_nat q) 2 ltac:(lia). have := Z.mod_pos_bound (3 * Z.of_nat q) 2 ltac:(lia). by lia.
  case: Dh Dw => [<- Lh] [<- Lw]. elim: f => [|x f IH] A /=; first by exists [::].
  have [|e ->] := IH; first by move=> y Hy; apply: A; right.
  have [S _] := proj1 (Props.Convolution.array_sized p q x) (A x (or_introl erefl)). have [pd [-> _]] := Convolution.pad_some S Lh Lw.
  by eexists.
Qed.
Theorem c109_frequency_channels_refuted : forall p q k c, (6 <= p)%coq_nat -> (6 <= q)%coq_nat -> (2 <= k)%coq_nat -> (c < k)%coq_nat ->
  exists (f : seq arr) e d, List.length f = k /\ (forall x, List.In x f -> Props.Convolution.array p q x) /\
    expert z (Z.of_nat p, Z.of_nat q) f = Ok e /\
    forall i j, (i < p)%coq_nat -> (j < q)%coq_nat ->
      px (List.nth c f d) i j = 0 /\ px (List.nth c (frequency_filter_image z (Z.of_nat p, Z.of_nat q) e) d) i j = 1.
Proof.
  move=> p q k c Hp Hq Hk Hc. set o := mk_image q (List.repeat (List.repeat (0 : C) q) p). set t := Convolution.dot C p q 0 0.
  have At : Props.Convolution.array p q t by apply/Props.Convolution.array_sized; split; [apply: Convolution.dot_size|apply: Convolution.dot_real; lia].
  have Ao : Props.Convolution.array p q o := zero_array p q.
  set g := fun c' => if Nat.eqb c' c then o else t. set f := List.map g (List.seq 0 k).
  have A x : List.In x f -> Props.Convolution.array p q x by move=> /List.in_map_iff [c' [<- _]]; rewrite /g; case: Nat.eqb.
  have Lf : List.length f = k by rewrite List.map_length List.seq_length.
  have Nf n : (n < k)%coq_nat -> List.nth n f (g 0%N) = g n by move=> Hn; rewrite List.map_nth List.seq_nth.
  have [||e E] := expert_ok _ _ A; [lia|lia|]. exists f, e, (g 0%N). do 3 split=> //. move=> i j Hi Hj. rewrite Nf // {1}/g PeanoNat.Nat.eqb_refl. split.
    rewrite /o /= . have [In|->] := List.nth_in_or_default i (List.repeat (List.repeat (0 : C) q) p) [::]; last by case: (j).
    by rewrite (List.repeat_spec _ _ _ In) List.nth_repeat.
  have [_ V] := c109_frequency_images_partial Hp Hq A E. rewrite V ?Lf // Nf; last by apply: PeanoNat.Nat.mod_upper_bound; lia.
  rewrite /g. have /PeanoNat.Nat.eqb_neq -> := rotated Hk Hc.
  have -> : forall u v, dft p q t u v = 1; last by rewrite normr1.
  move=> u v. have Pp : (0 < p)%N by apply/ssrnat.ltP; lia. have Pq : (0 < q)%N by apply/ssrnat.ltP; lia.
  rewrite /dft (bigD1 (Ordinal Pp)) //= [X in _ + X]big1 ?addr0; last first.
    move=> a Na. apply: big1 => b _. rewrite -[List.nth _ _ _]/(at0 0 t a b) Convolution.dot_at; [|lia|lia].
    have -> : (nat_of_ord a == 0%N) = false; last by rewrite /= !mul0r.
    apply/negbTE. by apply: contra Na => /eqP Ea; apply/eqP/val_inj.
  rewrite (bigD1 (Ordinal Pq)) //= [X in _ + X]big1 ?addr0; last first.
    move=> b Nb. rewrite -[List.nth _ _ _]/(at0 0 t 0 b) Convolution.dot_at; [|lia|lia].
    have -> : (nat_of_ord b == 0%N) = false; last by rewrite andbF !mul0r.
    apply/negbTE. by apply: contra Nb => /eqP Eb; apply/eqP/val_inj.
  rewrite !muln0 !expr0 !mulr1 -[List.nth _ _ _]/(at0 0 t 0 0) Convolution.dot_at ?eqxx //; lia.
Qed.
(** Filters with two to five rows or columns have empty images. *)
Theorem c109_small_filters_refuted : forall p q (x : arr) e, (2 <= p)%coq_nat -> (2 <= q)%coq_nat -> (p <= 5)%coq_nat \/ (q <= 5)%coq_nat ->
  Props.Convolution.array p q x -> expert z (Z.of_nat p, Z.of_nat q) [:: x] = Ok e ->
  exists y, spatial_filter_image z (Z.of_nat p, Z.of_nat q) e = [:: y] /\ (im_h y = 0%N \/ im_w y = 0%N).
Proof.
  move=> p q x e Hp Hq Small Ax. have [Sx Rx] := proj1 (Props.Convolution.array_sized p q x) Ax.
  rewrite /expert /= /padded_size /=. set eh := Z.to_nat (3 * Z.of_nat p / 2 - 1)%ZZ. set ew := Z.to_nat (3 * Z.of_nat q / 2 - 1)%ZZ.
  have Dh : Z.of_nat eh = (3 * Z.of_nat p / 2 - 1)%ZZ /\ (p <= eh)%coq_nat /\ ((p <= 5)%coq_nat -> (eh <= Nat.add p 1)%coq_nat).
    rewrite /eh. have := Z.div_mod (3 * Z.of_nat p) 2 ltac:(lia). have := Z.mod_pos_bound (3 * Z.of_nat p) 2 ltac:(lia). by lia.
  have Dw : Z.of_nat ew = (3 * Z.of_nat q / 2 - 1)%ZZ /\ (q <= ew)%coq_nat /\ ((q <= 5)%coq_nat -> (ew <= Nat.add q 1)%coq_nat).
    rewrite /ew. have := Z.div_mod (3 * Z.of_nat q) 2 ltac:(lia). have := Z.mod_pos_bound (3 * Z.of_nat q) 2 ltac:(lia). by lia.
  case: Dh Dw => [<- [Lh Mh]] [<- [Lw Mw]].
  have Ap : Props.PadCrop.array p q x by apply/Props.PadCrop.array_wf; case: (Sx).
  have [|pd [Epd Cpd]] := Props.PadCrop.c23_zero_margin_refuted _ 0 _ _ _ _ _ Ap _ Lh Lw; first by lia.
  rewrite Epd /= => -[<-]. have [W H M] := Sx. have [W' [H' [M' V]]] := at0_pad _ _ _ _ _ _ _ W H M Lh Lw Epd.
  eexists; split; first reflexivity. rewrite (@inverse_real pd eh ew) //; [|apply/ssrnat.ltP; lia|apply/ssrnat.ltP; lia|].
    case: Cpd => E; [left|by right]. by rewrite /im_h /mirror /= List.rev_length List.map_length.
  move=> i j. rewrite -[X in X \is _]/(at0 0 pd i j) V. case: ifP => _; [exact: Rx|exact: real0].
Qed.
End P.
Print Assumptions c109_filter_images_partial.
Print Assumptions c109_frequency_images_partial.
Print Assumptions c109_frequency_channels_refuted.
Print Assumptions c109_small_filters_refuted.

(** The number of offsets can only be read off when there are none: it raises for every array of offsets that is not empty. *)
Theorem c109_n_sample_offsets_refuted : forall Off (l : list Off), l <> nil -> n_sample_offsets (Some l) = Err ValueError.
Proof. move=> Off [|o l] // _. by rewrite /n_sample_offsets /= mulnS. Qed.
Print Assumptions c109_n_sample_offsets_refuted.
(** Whenever it can be read off it is one: every expert is trained on one sample per landmark and image. *)
Theorem c109_n_sample_offsets : forall Off (o : option (list Off)) n,
  n_sample_offsets o = Ok n <-> ((o = None \/ o = Some nil) /\ n = 1%N).
Proof.
  move=> Off [[|a l]|] n; rewrite /n_sample_offsets /= ?mulnS //; split=> [H|[[]]] //; try by move=> _ ->.
  - by case: H => <-; auto.
  - by case: H => <-; auto.
Qed.
Print Assumptions c109_n_sample_offsets.

(** Two experts with one channel of 17 x 17 pixels, not zero; a 4 x 9 filter. *)
Example c109_ex : exists f g x : PadCrop.image algC, exists es e,
  Props.Convolution.array 17 17 f /\ Props.Convolution.array 17 17 g /\ mapM (expert Props.Convolution.unity (Z.of_nat 17, Z.of_nat 17)) [:: [:: f]; [:: g]] = Ok es /\
  Props.Convolution.array 4 9 x /\ expert Props.Convolution.unity (Z.of_nat 4, Z.of_nat 9) [:: x] = Ok e.
Proof.
  have [f [Af _]] := @Props.Convolution.c79_array_example 17 17 7 7 ltac:(lia) ltac:(lia).
  have [g [Ag _]] := @Props.Convolution.c79_array_example 17 17 2 3 ltac:(lia) ltac:(lia).
  have [x [Ax _]] := @Props.Convolution.c79_array_example 4 9 2 3 ltac:(lia) ltac:(lia).
  have P h w N M (y : PadCrop.image algC) : Props.Convolution.array h w y -> (h <= N)%coq_nat -> (w <= M)%coq_nat -> exists q, pad 0 y (Z.of_nat N, Z.of_nat M) = Ok q.
    move=> /Props.Convolution.array_sized [S _] LN LM. have [q [E _]] := Convolution.pad_some S LN LM. by exists q.
  have [pf Ef] := P _ _ 24%N 24%N f Af ltac:(lia) ltac:(lia). have [pg Eg] := P _ _ 24%N 24%N g Ag ltac:(lia) ltac:(lia).
  have [px Ex] := P _ _ 5%N 12%N x Ax ltac:(lia) ltac:(lia).
  exists f, g, x. do 2 eexists. do 2 split=> //. split; first by rewrite /= /expert /=; change (padded_size _) with (Z.of_nat 24, Z.of_nat 24); rewrite Ef Eg /=; reflexivity.
  split=> //. rewrite /expert /=. change (padded_size _) with (Z.of_nat 5, Z.of_nat 12). rewrite Ex /=. reflexivity.
Qed.

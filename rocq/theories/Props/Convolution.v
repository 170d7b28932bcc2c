(** C79, C80: what FFT convolutions and the responses of correlation filter experts are. *)
From Coq Require Import ZArith Lia.
From Coq Require List.
From Verif.Model Require Import Py PadCrop Convolution.
From Verif.Spec Require Import Convolution.
From Verif.Proofs Require Import PadCropAt Torus.
From Verif.Proofs Require Convolution.
From Verif.Props Require PadCrop.
From mathcomp Require Import all_ssreflect all_algebra all_field.
Set Implicit Arguments.
Unset Strict Implicit.
Unset Printing Implicit Defensive.
Import Order.TTheory GRing.Theory Num.Theory.
Local Open Scope ring_scope.

Section C.
Variable C : numClosedFieldType.
Variable z : nat -> C.
Hypothesis roots : forall n, (0 < n)%N -> n.-primitive_root (z n).
Notation arr := (PadCrop.image C).
(** The pixel at row [i], column [j], zero outside; an h x w array of real numbers. *)
Notation px := (fun (x : arr) i j => List.nth j (List.nth i (im_rows x) [::]) 0).
Definition array (h w : nat) (x : arr) : Prop :=
  im_w x = w /\ List.length (im_rows x) = h /\ (forall r, List.In r (im_rows x) -> List.length r = w) /\ forall i j, px x i j \is Num.real.
Notation conv := (convolution 0 +%R *%R).
Lemma array_sized h w x : array h w x <-> Convolution.sized x h w /\ Convolution.real_array x.
Proof.
  rewrite /array /Convolution.sized /Convolution.real_array. split.
  - move=> [W [Hh [Hr R]]]. split=> //. split=> //. apply/List.Forall_forall => r /Hr. by rewrite W.
  - move=> [[Hr Hh W] R]. split=> //. split=> //. split=> // r In. rewrite -W. exact: (proj1 (List.Forall_forall _ _) Hr r In).
Qed.

(** ** C79 *)
(** 'same' convolutions are convolutions on a torus of the extended size. *)
Theorem c79_torus_partial : forall h w fh fw (x f : arr), (6 <= fh)%coq_nat -> (6 <= fw)%coq_nat ->
  let N := Nat.sub (Nat.add h (Nat.div fh 2)) 1 in let M := Nat.sub (Nat.add w (Nat.div fw 2)) 1 in
  (fh <= N)%coq_nat -> (fw <= M)%coq_nat -> array h w x -> array fh fw f ->
  exists r, fft_convolve2d z Same x f = Ok r /\ array h w r /\ forall i j, (i < h)%coq_nat -> (j < w)%coq_nat ->
    px r i j = on_torus 0 +%R *%R N M h w fh fw (offset N fh) (offset M fw) (px f) (px x) i j.
Proof.
  move=> h w fh fw x f H1 H2 N M H3 H4 /array_sized [Sx Rx] /array_sized [Sf Rf].
  have [r [E [S V]]] := Convolution.spatial_ok roots H1 H2 H3 H4 Sx Rx Sf Rf. exists r. split=> //. split=> //.
  apply/array_sized. split=> // i j. case: (S) => W Hh Hw.
  case: (Nat.lt_ge_cases i h) => Hi; last by rewrite Convolution.at0_out ?real0 //; left; rewrite Hh.
  case: (Nat.lt_ge_cases j w) => Hj; last by rewrite Convolution.at0_out ?real0 //; right; rewrite Hw.
  rewrite V //. by apply: Convolution.on_torus_real.
Qed.
(** Away from the border they are convolutions. *)
Theorem c79_interior_partial : forall h w fh fw (x f : arr), (6 <= fh)%coq_nat -> (6 <= fw)%coq_nat ->
  let N := Nat.sub (Nat.add h (Nat.div fh 2)) 1 in let M := Nat.sub (Nat.add w (Nat.div fw 2)) 1 in
  (fh <= N)%coq_nat -> (fw <= M)%coq_nat -> array h w x -> array fh fw f ->
  exists r, fft_convolve2d z Same x f = Ok r /\ array h w r /\
    forall i j, (1 <= i)%coq_nat -> (Nat.add i 2 <= h)%coq_nat -> (1 <= j)%coq_nat -> (Nat.add j 2 <= w)%coq_nat ->
    px r i j = conv h w fh fw (offset N fh) (offset M fw) (px f) (px x) i j.
Proof.
  move=> h w fh fw x f H1 H2 N M H3 H4 Ax Af. have [r [E [S V]]] := c79_torus_partial H1 H2 H3 H4 Ax Af.
  exists r. split=> //. split=> // i j I1 I2 J1 J2. rewrite V; [|lia|lia]. apply: torus_interior => //; lia.
Qed.
(** Giving the spectrum of the padded filter (fft_filter=True) is giving the filter, in every mode, for filters of the size of
    the image. *)
Theorem c79_given_spectrum : forall h w (x f : arr) m, (2 <= h)%coq_nat -> (2 <= w)%coq_nat -> array h w x -> array h w f ->
  exists pf, pad 0 f (Z.of_nat (Nat.sub (Nat.add h (Nat.div2 h)) 1), Z.of_nat (Nat.sub (Nat.add w (Nat.div2 w)) 1)) = Ok pf /\
    convolve_sum_fft 0 (circular_spectrum z) m x (spectrum z pf) = fft_convolve2d z m x f.
Proof.
  move=> h w x f m Hh Hw /array_sized [[Wx Xh Xw] _] /array_sized [[Wf Fh Fw] _].
  have K : Props.PadCrop.keeps_size (spectrum z).
    move=> h' w' a /Props.PadCrop.array_wf [Wa [Ah Aw]]. apply/Props.PadCrop.array_wf.
    by have [] := Convolution.spectrum_size z (And3 Wa Ah Aw).
  by apply: (@Props.PadCrop.c53_spectrum_agrees C 0 (circular_spectrum z) (spectrum z) x f h w m K) => //; apply/Props.PadCrop.array_wf.
Qed.
Example c79_given_spectrum_ex : array 6 5 (Convolution.dot C 6 5 2 2).
Proof.
  apply/array_sized. split; [exact: Convolution.dot_size|apply: Convolution.dot_real; lia].
Qed.
(** Filters with an odd number of rows and columns are centred at their middle. *)
Theorem c79_odd_partial : forall h w oh ow (x f : arr), (3 <= oh)%coq_nat -> (3 <= ow)%coq_nat -> (Nat.add oh 2 <= h)%coq_nat -> (Nat.add ow 2 <= w)%coq_nat ->
  let fh := Nat.add (Nat.mul 2 oh) 1 in let fw := Nat.add (Nat.mul 2 ow) 1 in array h w x -> array fh fw f ->
  exists r, fft_convolve2d z Same x f = Ok r /\ array h w r /\
    forall i j, (1 <= i)%coq_nat -> (Nat.add i 2 <= h)%coq_nat -> (1 <= j)%coq_nat -> (Nat.add j 2 <= w)%coq_nat ->
    px r i j = conv h w fh fw oh ow (px f) (px x) i j.
Proof.
  move=> h w oh ow x f H1 H2 H3 H4 fh fw Ax Af.
  have D n : Nat.div (Nat.add (Nat.mul 2 n) 1) 2 = n by rewrite Nat.add_comm Nat.mul_comm Nat.div_add.
  have L1 : (fh <= Nat.sub (Nat.add h (Nat.div fh 2)) 1)%coq_nat by rewrite D /fh; lia.
  have L2 : (fw <= Nat.sub (Nat.add w (Nat.div fw 2)) 1)%coq_nat by rewrite D /fw; lia.
  have [r [E [S V]]] := c79_interior_partial (ltac:(rewrite /fh; lia) : (6 <= fh)%coq_nat) (ltac:(rewrite /fw; lia) : (6 <= fw)%coq_nat) L1 L2 Ax Af.
  exists r. split=> //. split=> // i j I1 I2 J1 J2. by rewrite V // !offset_odd.
Qed.
(** On the border they are not: the opposite border leaks in.  For every image size and odd filter size there are an
    image that is zero except in its last row and a filter such that the first row of the result is not zero, although
    the convolution is zero there. *)
Theorem c79_border_refuted : forall h w oh ow, (3 <= oh)%coq_nat -> (3 <= ow)%coq_nat -> (Nat.add oh 2 <= h)%coq_nat -> (Nat.add ow 2 <= w)%coq_nat ->
  let fh := Nat.add (Nat.mul 2 oh) 1 in let fw := Nat.add (Nat.mul 2 ow) 1 in
  exists x f r, array h w x /\ array fh fw f /\ (forall i j, i <> Nat.sub h 1 -> px x i j = 0) /\
    fft_convolve2d z Same x f = Ok r /\ px r 0%N 1%N = 1 /\ conv h w fh fw oh ow (px f) (px x) 0%N 1%N = 0.
Proof.
  move=> h w oh ow H1 H2 H3 H4 fh fw.
  pose x := Convolution.dot C h w (Nat.sub h 1) 1. pose f := Convolution.dot C fh fw (Nat.mul 2 oh) ow.
  have D n : Nat.div (Nat.add (Nat.mul 2 n) 1) 2 = n by rewrite Nat.add_comm Nat.mul_comm Nat.div_add.
  have L1 : (fh <= Nat.sub (Nat.add h (Nat.div fh 2)) 1)%coq_nat by rewrite D /fh; lia.
  have L2 : (fw <= Nat.sub (Nat.add w (Nat.div fw 2)) 1)%coq_nat by rewrite D /fw; lia.
  have Xh : (Nat.sub h 1 < h)%coq_nat by lia. have Xw : (1 < w)%coq_nat by lia.
  have Fh : (Nat.mul 2 oh < fh)%coq_nat by rewrite /fh; lia. have Fw : (ow < fw)%coq_nat by rewrite /fw; lia.
  have Ax : array h w x by apply/array_sized; split; [exact: Convolution.dot_size|exact: Convolution.dot_real].
  have Af : array fh fw f by apply/array_sized; split; [exact: Convolution.dot_size|exact: Convolution.dot_real].
  have [r [E [S V]]] := c79_torus_partial (ltac:(rewrite /fh; lia) : (6 <= fh)%coq_nat) (ltac:(rewrite /fw; lia) : (6 <= fw)%coq_nat) L1 L2 Ax Af.
  have Fv u v : px f u v = ((u == Nat.mul 2 oh) && (v == ow))%:R by exact: Convolution.dot_at.
  have Xv u v : px x u v = ((u == Nat.sub h 1) && (v == 1%N))%:R by exact: Convolution.dot_at.
  exists x, f, r. split=> //. split=> //. split; first by move=> i j Hi; rewrite Xv; case: eqP.
  split=> //. split.
  - rewrite V; [|lia|lia]. rewrite /on_torus !offset_odd //. rewrite (Convolution.pick2 _ Fh Fw) //.
    rewrite /ring_line D D.
    have -> : Nat.modulo (Nat.add (Nat.add 0 oh) (Nat.sub (Nat.sub (Nat.add h oh) 1) (Nat.mul 2 oh))) (Nat.sub (Nat.add h oh) 1) = Nat.sub h 1.
      rewrite Nat.mod_small; lia.
    have -> : Nat.modulo (Nat.add (Nat.add 1 ow) (Nat.sub (Nat.sub (Nat.add w ow) 1) ow)) (Nat.sub (Nat.add w ow) 1) = 1%N.
      rewrite (_ : Nat.add (Nat.add 1 ow) (Nat.sub (Nat.sub (Nat.add w ow) 1) ow) = Nat.add 1 (Nat.mul 1 (Nat.sub (Nat.add w ow) 1))); last by lia.
      rewrite Nat.mod_add; last by lia. rewrite Nat.mod_small; lia.
    have -> : Nat.ltb (Nat.sub h 1) h = true by apply/Nat.ltb_lt. have -> : Nat.ltb 1 w = true by apply/Nat.ltb_lt.
    by rewrite Xv !eqxx.
  - rewrite /convolution (Convolution.pick2 _ Fh Fw) // /line.
    have -> : Nat.leb (Nat.mul 2 oh) (Nat.add 0 oh) = false by apply/Nat.leb_gt; lia. by [].
Qed.
(** The centre of a filter with an even number of rows depends on the parity of the extended height: the filter with a
    single one at row [oh] of its 2 oh rows is the identity for one parity and moves the image down by one row for the
    other. *)
Theorem c79_even_refuted : forall n w oh ow (x : arr), (3 <= oh)%coq_nat -> (3 <= ow)%coq_nat -> (oh <= n)%coq_nat -> (Nat.add ow 2 <= w)%coq_nat ->
  let fh := Nat.mul 2 oh in let fw := Nat.add (Nat.mul 2 ow) 1 in
  exists f, array fh fw f /\
    (forall h x, Nat.sub (Nat.add h oh) 1 = Nat.mul 2 n -> array h w x -> exists r, fft_convolve2d z Same x f = Ok r /\
      forall i j, (1 <= i)%coq_nat -> (Nat.add i 2 <= h)%coq_nat -> (1 <= j)%coq_nat -> (Nat.add j 2 <= w)%coq_nat -> px r i j = px x i j) /\
    (forall h x, Nat.sub (Nat.add h oh) 1 = Nat.add (Nat.mul 2 n) 1 -> array h w x -> exists r, fft_convolve2d z Same x f = Ok r /\
      forall i j, (1 <= i)%coq_nat -> (Nat.add i 2 <= h)%coq_nat -> (1 <= j)%coq_nat -> (Nat.add j 2 <= w)%coq_nat -> px r i j = px x (Nat.sub i 1) j).
Proof.
  move=> n w oh ow _ H1 H2 H3 H4 fh fw. pose f := Convolution.dot C fh fw oh ow.
  have D n' : Nat.div (Nat.add (Nat.mul 2 n') 1) 2 = n' by rewrite Nat.add_comm Nat.mul_comm Nat.div_add.
  have D2 n' : Nat.div (Nat.mul 2 n') 2 = n' by rewrite Nat.mul_comm Nat.div_mul.
  have Fh : (oh < fh)%coq_nat by rewrite /fh; lia. have Fw : (ow < fw)%coq_nat by rewrite /fw; lia.
  have Af : array fh fw f by apply/array_sized; split; [exact: Convolution.dot_size|exact: Convolution.dot_real].
  have Fv u v : px f u v = ((u == oh) && (v == ow))%:R by exact: Convolution.dot_at.
  have L2 : (fw <= Nat.sub (Nat.add w (Nat.div fw 2)) 1)%coq_nat by rewrite D /fw; lia.
  exists f. split=> //. split=> h x Hn Ax.
  - have L1 : (fh <= Nat.sub (Nat.add h (Nat.div fh 2)) 1)%coq_nat by rewrite D2 /fh; lia.
    have [r [E [S V]]] := c79_interior_partial (ltac:(rewrite /fh; lia) : (6 <= fh)%coq_nat) (ltac:(rewrite /fw; lia) : (6 <= fw)%coq_nat) L1 L2 Ax Af.
    exists r. split=> // i j I1 I2 J1 J2. rewrite V // offset_odd // D2 Hn offset_even_even // /convolution (Convolution.pick2 _ Fh Fw) //.
    rewrite line_in; [|lia|lia]. rewrite line_in; [|lia|lia]. by rewrite !Nat.add_sub.
  - have L1 : (fh <= Nat.sub (Nat.add h (Nat.div fh 2)) 1)%coq_nat by rewrite D2 /fh; lia.
    have [r [E [S V]]] := c79_interior_partial (ltac:(rewrite /fh; lia) : (6 <= fh)%coq_nat) (ltac:(rewrite /fw; lia) : (6 <= fw)%coq_nat) L1 L2 Ax Af.
    exists r. split=> // i j I1 I2 J1 J2. rewrite V // offset_odd // D2 Hn offset_even_odd; last by lia. rewrite /convolution (Convolution.pick2 _ Fh Fw) //.
    rewrite line_in; [|lia|lia]. rewrite line_in; [|lia|lia]. rewrite Nat.add_sub. congr (px x _ _). lia.
Qed.

(** ** C80 *)
(** The response of an expert with one filter per channel: the sum of the convolutions, away from the border. *)
Theorem c80_response_partial : forall p q (fs xs : seq arr), (6 <= p)%coq_nat -> (6 <= q)%coq_nat -> size fs = size xs -> (0 < size xs)%N ->
  (forall f, List.In f fs -> array p q f) -> (forall x, List.In x xs -> array p q x) ->
  let N := Nat.sub (Nat.add p (Nat.div p 2)) 1 in let M := Nat.sub (Nat.add q (Nat.div q 2)) 1 in
  exists r, response z (Z.of_nat p, Z.of_nat q) fs xs = Ok r /\ im_w r = q /\ List.length (im_rows r) = p /\
    forall i j, (1 <= i)%coq_nat -> (Nat.add i 2 <= p)%coq_nat -> (1 <= j)%coq_nat -> (Nat.add j 2 <= q)%coq_nat ->
    px r i j = \sum_(c <- zip fs xs) conv p q p q (offset N p) (offset M q) (px c.1) (px c.2) i j.
Proof.
  move=> p q fs xs H1 H2 Es S0 Hf Hx N M.
  have [r [E [[W Hh Hw] V]]] := Convolution.response_ok roots H1 H2 Es S0 (fun f H => proj1 (array_sized _ _ _) (Hf f H)) (fun x H => proj1 (array_sized _ _ _) (Hx x H)).
  have D n : (6 <= n)%coq_nat -> (3 <= Nat.div n 2)%coq_nat by exact: (Nat.div_le_mono 6 n 2).
  have D1 := D _ H1. have D2 := D _ H2.
  exists r. split=> //. split=> //. split=> // i j I1 I2 J1 J2. etransitivity; first by apply: V; lia. apply: eq_bigr => c _.
  apply: torus_interior => //; rewrite /N /M; lia.
Qed.

(** The filter that training keeps is the inverse transform [g] of the trained spectrum, read around its origin: the
    origin lies at row [origin c p] of the filter, for context height [c] and patch height [p]. *)
Theorem c80_filter : forall (spec : arr) c d p q, let N := Nat.sub (Nat.add c p) 1 in let M := Nat.sub (Nat.add d q) 1 in
  Convolution.sized spec N M -> (3 <= c)%coq_nat -> (3 <= d)%coq_nat -> (1 <= p)%coq_nat -> (1 <= q)%coq_nat ->
  let f := trained_filter z spec (Z.of_nat p, Z.of_nat q) in
  array p q f /\ forall u v, (u < p)%coq_nat -> (v < q)%coq_nat ->
    px f u v = 'Re (px (inverse_spectrum z spec) (Nat.modulo (Nat.add u (Nat.sub N (origin c p))) N) (Nat.modulo (Nat.add v (Nat.sub M (origin d q))) M)).
Proof.
  move=> spec c d p q N M S Lc Ld Lp Lq f. have [Sf Rf V] := Convolution.trained_at z S Lc Ld Lp Lq.
  split; [by apply/array_sized; split|exact: V].
Qed.
(** A spectrum that solves the training equation for a context reproduces the desired response: [g] convolved with the
    context, at the place of the patch in the context. *)
Theorem c80_training : forall (spec x y ex ey : arr) c d p q, let N := Nat.sub (Nat.add c p) 1 in let M := Nat.sub (Nat.add d q) 1 in
  Convolution.sized spec N M -> array c d x -> array p q y -> (le 1 p /\ le p c) -> (le 1 q /\ le q d) ->
  pad 0 x (extended_size (Z.of_nat c, Z.of_nat d) (Z.of_nat p, Z.of_nat q)) = Ok ex ->
  pad 0 y (extended_size (Z.of_nat c, Z.of_nat d) (Z.of_nat p, Z.of_nat q)) = Ok ey ->
  times spec (spectrum z ex) = spectrum z ey ->
  forall i j, (i < p)%coq_nat -> (j < q)%coq_nat ->
    px y i j = on_torus 0 +%R *%R N M c d N M (Nat.sub (Nat.div c 2) (Nat.div p 2)) (Nat.sub (Nat.div d 2) (Nat.div q 2)) (px (inverse_spectrum z spec)) (px x) i j.
Proof.
  move=> spec x y ex ey c d p q N M S /array_sized [Sx _] /array_sized [Sy _] P Q.
  have -> : extended_size (Z.of_nat c, Z.of_nat d) (Z.of_nat p, Z.of_nat q) = (Z.of_nat N, Z.of_nat M).
    rewrite /extended_size /=. by congr (_, _); rewrite /N /M Nat2Z.inj_sub ?Nat2Z.inj_add //; lia.
  move=> Ex Ey E. exact: (Convolution.training_at roots S Sx Sy P Q Ex Ey E).
Qed.

Lemma channels h w ph pw oh ow (F : arr -> arr) (G : arr -> nat -> nat -> C) (specs xs : seq arr) i j : size specs = size xs ->
  (forall s, List.In s specs -> forall u v, (u < ph)%coq_nat -> (v < pw)%coq_nat -> px (F s) u v = G s u v) ->
  \sum_(c <- zip [seq F s | s <- specs] xs) conv h w ph pw oh ow (px c.1) (px c.2) i j =
  \sum_(c <- zip specs xs) conv h w ph pw oh ow (G c.1) (px c.2) i j.
Proof.
  elim: specs xs => [|s specs IH] [|x xs] //; first by rewrite !big_nil.
  move=> [Es] H. cbn [map zip]. rewrite !big_cons.
  congr (_ + _); last by apply: IH => // s' I; apply: H; right.
  rewrite /convolution. apply: Convolution.sum_ext => u Hu. apply: Convolution.sum_ext => v Hv. congr (_ * _). by apply: H => //; left.
Qed.
(** Patches with an odd number of rows and columns and contexts with an even number (the defaults are 17 and 34): the
    response is the convolution with the trained [g], its origin at the pixel itself. *)
Theorem c80_aligned_partial : forall p q c d (specs xs : seq arr), (3 <= p)%coq_nat -> (3 <= q)%coq_nat -> (2 <= c)%coq_nat -> (2 <= d)%coq_nat ->
  let ph := Nat.add (Nat.mul 2 p) 1 in let pw := Nat.add (Nat.mul 2 q) 1 in
  let N := Nat.sub (Nat.add (Nat.mul 2 c) ph) 1 in let M := Nat.sub (Nat.add (Nat.mul 2 d) pw) 1 in
  size specs = size xs -> (0 < size xs)%N -> (forall s, List.In s specs -> Convolution.sized s N M) -> (forall x, List.In x xs -> array ph pw x) ->
  exists r, response z (Z.of_nat ph, Z.of_nat pw) [seq trained_filter z s (Z.of_nat ph, Z.of_nat pw) | s <- specs] xs = Ok r /\
    forall i j, (1 <= i)%coq_nat -> (Nat.add i 2 <= ph)%coq_nat -> (1 <= j)%coq_nat -> (Nat.add j 2 <= pw)%coq_nat ->
    px r i j = \sum_(s <- zip specs xs) conv ph pw ph pw p q
      (fun u v => 'Re (px (inverse_spectrum z s.1) (Nat.modulo (Nat.add u (Nat.sub N p)) N) (Nat.modulo (Nat.add v (Nat.sub M q)) M))) (px s.2) i j.
Proof.
  move=> p q c d specs xs Lp Lq Lc Ld ph pw N M Es S0 Hs Hx.
  have T s : List.In s specs -> array ph pw (trained_filter z s (Z.of_nat ph, Z.of_nat pw)) /\ forall u v, (u < ph)%coq_nat -> (v < pw)%coq_nat ->
    px (trained_filter z s (Z.of_nat ph, Z.of_nat pw)) u v = 'Re (px (inverse_spectrum z s) (Nat.modulo (Nat.add u (Nat.sub N p)) N) (Nat.modulo (Nat.add v (Nat.sub M q)) M)).
    move=> /Hs S. have := @c80_filter s (Nat.mul 2 c) (Nat.mul 2 d) ph pw S ltac:(lia) ltac:(lia) ltac:(lia) ltac:(lia).
    rewrite !origin_odd_even; [by []|lia|lia].
  have [r [E [_ [_ V]]]] := @c80_response_partial ph pw [seq trained_filter z s (Z.of_nat ph, Z.of_nat pw) | s <- specs] xs ltac:(lia) ltac:(lia)
    ltac:(by rewrite size_map) S0 ltac:(by move=> f /List.in_map_iff [s [<- /T []]]) Hx.
  exists r. split=> // i j I1 I2 J1 J2. rewrite V // !shape_offset_odd //. clear V E S0.
  pose G s u v := 'Re (px (inverse_spectrum z s) (Nat.modulo (Nat.add u (Nat.sub N p)) N) (Nat.modulo (Nat.add v (Nat.sub M q)) M)).
  exact: (@channels ph pw ph pw p q _ G specs xs i j Es (fun s H => proj2 (T s H))).
Qed.

(** Contexts with an odd number of rows and columns: every response is moved by one pixel.  Already the identity filter
    (the spectrum that is one everywhere) answers with the patch moved down and to the right. *)
Theorem c80_odd_context_refuted : forall p q c d (x : arr), (3 <= p)%coq_nat -> (3 <= q)%coq_nat -> (2 <= c)%coq_nat -> (2 <= d)%coq_nat ->
  let ph := Nat.add (Nat.mul 2 p) 1 in let pw := Nat.add (Nat.mul 2 q) 1 in
  let N := Nat.sub (Nat.add (Nat.add (Nat.mul 2 c) 1) ph) 1 in let M := Nat.sub (Nat.add (Nat.add (Nat.mul 2 d) 1) pw) 1 in
  array ph pw x ->
  (forall k l, (k < N)%coq_nat -> (l < M)%coq_nat -> px (inverse_spectrum z (Convolution.ones C N M)) k l = ((k == 0%N) && (l == 0%N))%:R) /\
  exists r, response z (Z.of_nat ph, Z.of_nat pw) [:: trained_filter z (Convolution.ones C N M) (Z.of_nat ph, Z.of_nat pw)] [:: x] = Ok r /\
    forall i j, (1 <= i)%coq_nat -> (Nat.add i 2 <= ph)%coq_nat -> (1 <= j)%coq_nat -> (Nat.add j 2 <= pw)%coq_nat ->
    px r i j = px x (Nat.sub i 1) (Nat.sub j 1).
Proof.
  move=> p q c d x Lp Lq Lc Ld ph pw N M Ax.
  split; first by move=> k l Hk Hl; apply: (Convolution.ones_inverse roots) => //; rewrite /N /M; lia.
  pose f := trained_filter z (Convolution.ones C N M) (Z.of_nat ph, Z.of_nat pw).
  have Fv u v : (u < ph)%coq_nat -> (v < pw)%coq_nat -> px f u v = ((u == Nat.add p 1) && (v == Nat.add q 1))%:R.
    move=> Hu Hv. rewrite -(origin_odd_odd c p) -(origin_odd_odd d q). by apply: (Convolution.ones_trained roots) => //; lia.
  have [Af _] := @c80_filter (Convolution.ones C N M) (Nat.add (Nat.mul 2 c) 1) (Nat.add (Nat.mul 2 d) 1) ph pw (Convolution.of_mx_size _) ltac:(lia) ltac:(lia) ltac:(lia) ltac:(lia).
  have [r [E [_ [_ V]]]] := @c80_response_partial ph pw [:: f] [:: x] ltac:(lia) ltac:(lia) erefl isT ltac:(by move=> g [<-|[]]) ltac:(by move=> y [<-|[]]).
  exists r. split=> // i j I1 I2 J1 J2. rewrite V // !shape_offset_odd // big_cons big_nil addr0 /convolution.
  rewrite (Convolution.pick2 (a := Nat.add p 1) (b := Nat.add q 1)) //; [|lia|lia].
  rewrite line_in; [|lia|lia]. rewrite line_in; [|lia|lia]. congr (px x _ _); lia.
Qed.
(** The same for patches whose sides are multiples of four, whatever the context. *)
Theorem c80_even_patch_refuted : forall p q c d (x : arr), (2 <= p)%coq_nat -> (2 <= q)%coq_nat -> (3 <= c)%coq_nat -> (3 <= d)%coq_nat ->
  let ph := Nat.mul 2 (Nat.mul 2 p) in let pw := Nat.mul 2 (Nat.mul 2 q) in
  let N := Nat.sub (Nat.add c ph) 1 in let M := Nat.sub (Nat.add d pw) 1 in
  array ph pw x ->
  exists r, response z (Z.of_nat ph, Z.of_nat pw) [:: trained_filter z (Convolution.ones C N M) (Z.of_nat ph, Z.of_nat pw)] [:: x] = Ok r /\
    forall i j, (1 <= i)%coq_nat -> (Nat.add i 2 <= ph)%coq_nat -> (1 <= j)%coq_nat -> (Nat.add j 2 <= pw)%coq_nat ->
    px r i j = px x (Nat.sub i 1) (Nat.sub j 1).
Proof.
  move=> p q c d x Lp Lq Lc Ld ph pw N M Ax.
  pose f := trained_filter z (Convolution.ones C N M) (Z.of_nat ph, Z.of_nat pw).
  have Fv u v : (u < ph)%coq_nat -> (v < pw)%coq_nat -> px f u v = ((u == Nat.mul 2 p) && (v == Nat.mul 2 q))%:R.
    move=> Hu Hv. have := Convolution.ones_trained roots Lc Ld (ltac:(lia) : (1 <= ph)%coq_nat) (ltac:(lia) : (1 <= pw)%coq_nat) Hu Hv.
    by rewrite [origin c _]origin_even ?[origin d _]origin_even //; lia.
  have [Af _] := @c80_filter (Convolution.ones C N M) c d ph pw (Convolution.of_mx_size _) Lc Ld ltac:(lia) ltac:(lia).
  have [r [E [_ [_ V]]]] := @c80_response_partial ph pw [:: f] [:: x] ltac:(lia) ltac:(lia) erefl isT ltac:(by move=> g [<-|[]]) ltac:(by move=> y [<-|[]]).
  exists r. split=> // i j I1 I2 J1 J2. rewrite V // !shape_offset_even_even // big_cons big_nil addr0 /convolution.
  rewrite (Convolution.pick2 (a := Nat.mul 2 p) (b := Nat.mul 2 q)) //; [|lia|lia].
  rewrite line_in; [|lia|lia]. rewrite line_in; [|lia|lia]. congr (px x _ _); lia.
Qed.
End C.
Print Assumptions c79_torus_partial.
Print Assumptions c79_given_spectrum.
Print Assumptions c79_interior_partial.
Print Assumptions c79_odd_partial.
Print Assumptions c79_border_refuted.
Print Assumptions c79_even_refuted.
Print Assumptions c80_response_partial.
Print Assumptions c80_filter.
Print Assumptions c80_training.
Print Assumptions c80_aligned_partial.
Print Assumptions c80_odd_context_refuted.
Print Assumptions c80_even_patch_refuted.

(** Examples: roots of unity exist, and so do arrays of every size that are not zero. *)
Definition unity (n : nat) : algC := match n with O => 0 | S n => sval (C_prim_root_exists (isT : (0 < n.+1)%N)) end.
Example c79_roots_example : forall n, (0 < n)%N -> n.-primitive_root (unity n).
Proof. case=> // n _. exact: (svalP (C_prim_root_exists (isT : (0 < n.+1)%N))). Qed.
Example c79_array_example : forall h w i j, (i < h)%coq_nat -> (j < w)%coq_nat ->
  exists x : PadCrop.image algC, array h w x /\ List.nth j (List.nth i (im_rows x) [::]) 0 = 1.
Proof.
  move=> h w i j Hi Hj. exists (Convolution.dot [numClosedFieldType of algC] h w i j). split.
    by apply/array_sized; split; [apply: Convolution.dot_size|apply: Convolution.dot_real].
  by rewrite -[LHS]/(at0 0 (Convolution.dot [numClosedFieldType of algC] h w i j) i j) Convolution.dot_at // !eqxx.
Qed.
(** A 9 x 9 filter on a 20 x 30 image. *)
Example c79_odd_example : exists x f r : PadCrop.image algC, array 20 30 x /\ array 9 9 f /\ fft_convolve2d unity Same x f = Ok r.
Proof.
  have [x [Ax _]] := @c79_array_example 20 30 7 7 ltac:(lia) ltac:(lia). have [f [Af _]] := @c79_array_example 9 9 4 3 ltac:(lia) ltac:(lia).
  have [r [E _]] := @c79_odd_partial _ _ c79_roots_example 20 30 4 4 x f ltac:(lia) ltac:(lia) ltac:(lia) ltac:(lia) Ax Af.
  by exists x, f, r.
Qed.
(** The default sizes, two channels. *)
Example c80_aligned_example : exists specs xs : seq (PadCrop.image algC), exists r, size specs = 2%N /\
  response unity (Z.of_nat 17, Z.of_nat 17) [seq trained_filter unity s (Z.of_nat 17, Z.of_nat 17) | s <- specs] xs = Ok r.
Proof.
  have [x [Ax _]] := @c79_array_example 17 17 7 7 ltac:(lia) ltac:(lia). have [s [As _]] := @c79_array_example 50 50 4 3 ltac:(lia) ltac:(lia).
  have Ss := proj1 (proj1 (array_sized _ _ _) As).
  have [r [E _]] := @c80_aligned_partial _ _ c79_roots_example 8 8 17 17 [:: s; s] [:: x; x] ltac:(lia) ltac:(lia) ltac:(lia) ltac:(lia) erefl isT
    ltac:(by move=> t [<-|[<-|[]]]) ltac:(by move=> t [<-|[<-|[]]]).
  by exists [:: s; s], [:: x; x], r.
Qed.
(** A solution of a training equation. *)
Example c80_training_example : exists spec x ex : PadCrop.image algC, Convolution.sized spec 13 13 /\ array 7 7 x /\
  pad 0 x (extended_size (Z.of_nat 7, Z.of_nat 7) (Z.of_nat 7, Z.of_nat 7)) = Ok ex /\ times spec (spectrum unity ex) = spectrum unity ex.
Proof.
  have [x [Ax _]] := @c79_array_example 7 7 2 3 ltac:(lia) ltac:(lia). have Sx := proj1 (proj1 (array_sized _ _ _) Ax).
  have [ex [E [W Hh Hw]]] := @Convolution.pad_some _ x 7 7 13 13 Sx ltac:(lia) ltac:(lia).
  exists (Convolution.ones [numClosedFieldType of algC] 13 13), x, ex. split; first exact: Convolution.of_mx_size. split=> //. split=> //.
  have [Ws Sh Sw] : Convolution.sized (spectrum unity ex) 13 13 by apply: Convolution.spectrum_size.
  rewrite /times Sh Sw /spectrum Hh Hw !Convolution.to_of_mx. congr of_mx. apply/matrixP => i j. by rewrite !mxE mul1r.
Qed.

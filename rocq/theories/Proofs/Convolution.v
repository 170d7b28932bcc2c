(** The convolution theorem and the pixels of FFT convolutions. *)
From Coq Require Import ZArith Lia.
From Coq Require List.
From Verif.Model Require Import Py PadCrop Fourier Convolution.
From Verif.Spec Require Import Convolution.
From Verif.Proofs Require Import PadCrop PadCropAt Torus.
From Verif.Proofs Require Fourier.
From mathcomp Require Import all_ssreflect all_algebra.
Set Implicit Arguments.
Unset Strict Implicit.
Unset Printing Implicit Defensive.
Import Order.TTheory GRing.Theory Num.Theory.
Local Open Scope ring_scope.

Section Theorem_.
Variable C : numClosedFieldType.
Variables h' w' : nat.
Notation h := h'.+1.
Notation w := w'.+1.
Variables wh ww : C.
Hypothesis Hh : h.-primitive_root wh.
Hypothesis Hw : w.-primitive_root ww.
Definition conv (X Y : 'M[C]_(h, w)) : 'M[C]_(h, w) := \matrix_(k, l) \sum_i \sum_j X i j * Y (k - i) (l - j).
Lemma fft2E (X : 'M[C]_(h, w)) a b : fft2 wh ww X a b = \sum_(i < h) \sum_(j < w) wh ^+ (a * i) * X i j * ww ^+ (j * b).
Proof.
  rewrite /fft2 !mxE exchange_big /=. apply: eq_bigr => j _. rewrite !mxE big_distrl /=. by apply: eq_bigr => i _; rewrite !mxE.
Qed.
Lemma root_add n (z : C) (P : n.+1.-primitive_root z) (a : nat) (k i : 'I_n.+1) : z ^+ (a * (k + i)%R) = z ^+ (a * k) * z ^+ (a * i).
Proof. by rewrite -exprD -mulnDr; apply/eqP; rewrite (eq_prim_root_expr P) /= modnMmr eqxx. Qed.
Lemma shuffle (a b x y c d : C) : a * b * (x * y) * (c * d) = b * x * d * (a * y * c).
Proof. by rewrite [a * b]mulrC [b * a * (x * y)]mulrACA [c * d]mulrC [LHS]mulrACA. Qed.
Lemma fft2_conv X Y : fft2 wh ww (conv X Y) = emul (fft2 wh ww X) (fft2 wh ww Y).
Proof.
  apply/matrixP => a b. rewrite fft2E [RHS]mxE !fft2E.
  transitivity (\sum_(i < h) \sum_(j < w) \sum_(k < h) \sum_(l < w) wh ^+ (a * k) * (X i j * Y (k - i) (l - j)) * ww ^+ (l * b)).
    transitivity (\sum_(k < h) \sum_(l < w) \sum_(i < h) \sum_(j < w) wh ^+ (a * k) * (X i j * Y (k - i) (l - j)) * ww ^+ (l * b)).
      apply: eq_bigr => k _. apply: eq_bigr => l _. rewrite mxE big_distrr big_distrl /=. apply: eq_bigr => i _.
      by rewrite big_distrr big_distrl.
    under eq_bigr => k _ do rewrite exchange_big /=. rewrite exchange_big /=. apply: eq_bigr => i _.
    under eq_bigr => k _ do rewrite exchange_big /=. by rewrite exchange_big.
  rewrite big_distrl /=. apply: eq_bigr => i _. rewrite big_distrl /=. apply: eq_bigr => j _.
  rewrite (reindex_inj (addIr i)) big_distrr /=. apply: eq_bigr => k _.
  rewrite (reindex_inj (addIr j)) big_distrr /=. apply: eq_bigr => l _.
  rewrite !addrK root_add // [((l + j)%R * b)%N]mulnC root_add // ![(b * _)%N]mulnC.
  exact: shuffle.
Qed.
Lemma ifft2_product X Y : ifft2 wh ww (emul (fft2 wh ww X) (fft2 wh ww Y)) = conv X Y.
Proof. by rewrite -fft2_conv Fourier.ifft2_fft2. Qed.
End Theorem_.

Section Arrays.
Variable C : numClosedFieldType.
Notation arr := (PadCrop.image C).
Notation at0 := (@at0 C 0).

Lemma list_nth (B : Type) (d : B) (l : seq B) : forall k, List.nth k l d = nth d l k.
Proof. elim: l => [|x l IH] [|k] //=. Qed.
Lemma at0_of_mx h w (X : 'M[C]_(h, w)) (i : 'I_h) (j : 'I_w) : at0 (of_mx X) i j = X i j.
Proof.
  rewrite /PadCropAt.at0 !list_nth /= (nth_map i) ?size_enum_ord // (nth_map j) ?size_enum_ord //. by rewrite !nth_ord_enum.
Qed.
Lemma of_mx_size h w (X : 'M[C]_(h, w)) : [/\ PadCrop.wf (of_mx X), im_h (of_mx X) = h & im_w (of_mx X) = w].
Proof.
  have L (B : Type) (l : seq B) : List.length l = size l by [].
  split=> //; last by rewrite /im_h /= L size_map size_enum_ord.
  rewrite /PadCrop.wf /=. apply/List.Forall_forall => r /List.in_map_iff [i [<- _]]. by rewrite L size_map size_enum_ord.
Qed.
Lemma to_of_mx h w (X : 'M[C]_(h, w)) : to_mx h w (of_mx X) = X.
Proof. by apply/matrixP => i j; rewrite mxE; apply: at0_of_mx. Qed.

Lemma shift_at (x : arr) h w : PadCrop.wf x -> im_h x = h -> im_w x = w ->
  [/\ PadCrop.wf (ifftshift x), im_h (ifftshift x) = h & im_w (ifftshift x) = w] /\
  forall i j, lt i h -> lt j w -> at0 (ifftshift x) i j = at0 x (Nat.modulo (Nat.add i (Nat.div h 2)) h) (Nat.modulo (Nat.add j (Nat.div w 2)) w).
Proof.
  move=> W Eh Ew.
  have SL (B : Type) (l : seq B) : List.length (shift1 l) = List.length l.
    rewrite /shift1 List.app_length List.skipn_length List.firstn_length.
    have := Nat.div_le_upper_bound (List.length l) 2 (List.length l). by lia.
  have In (B : Type) (l : seq B) (y : B) : List.In y (shift1 l) -> List.In y l.
    rewrite /shift1 => /List.in_app_iff H. rewrite -(List.firstn_skipn (Nat.div (List.length l) 2) l). apply/List.in_app_iff. tauto.
  have Half n : (Nat.div n 2 <= n)%coq_nat by apply: Nat.div_le_upper_bound; lia.
  split.
    split=> //; last by rewrite /im_h /= List.map_length SL.
    rewrite /PadCrop.wf /=. apply/List.Forall_forall => r /List.in_map_iff [q [<- Q]]. rewrite SL.
    by move: W; rewrite /PadCrop.wf List.Forall_forall; apply; apply: In.
  move=> i j Hi Hj. rewrite /PadCropAt.at0 /=.
  have Lr : List.length (im_rows x) = h by [].
  rewrite (List.nth_indep _ _ (shift1 [::])) ?List.map_length ?SL ?Lr // List.map_nth.
  have -> : List.nth i (shift1 (im_rows x)) [::] = List.nth (Nat.modulo (Nat.add i (Nat.div h 2)) h) (im_rows x) [::].
    by rewrite /shift1 Lr; apply: nth_rotate.
  set r := List.nth _ (im_rows x) _.
  have Lw : List.length r = w.
    move: W; rewrite /PadCrop.wf List.Forall_forall Ew; apply. apply: List.nth_In. rewrite Lr. apply: Nat.mod_upper_bound. lia.
  by rewrite /shift1 Lw; apply: nth_rotate.
Qed.
Lemma real_at (x : arr) h w : PadCrop.wf x -> im_h x = h -> im_w x = w ->
  [/\ PadCrop.wf (real x), im_h (real x) = h & im_w (real x) = w] /\ forall i j, at0 (real x) i j = 'Re (at0 x i j).
Proof.
  move=> W Eh Ew. split.
    split=> //; last by rewrite /im_h /= List.map_length.
    rewrite /PadCrop.wf /=. apply/List.Forall_forall => r /List.in_map_iff [q [<- Q]]. rewrite List.map_length.
    by move: W; rewrite /PadCrop.wf List.Forall_forall; apply.
  move=> i j. rewrite /PadCropAt.at0 /= !list_nth.
  have [L|L] := ltnP i (size (im_rows x)); last by rewrite !nth_default ?size_map // raddf0.
  rewrite (nth_map [::]) //. set r := nth [::] (im_rows x) i.
  have [M|M] := ltnP j (size r); last by rewrite !nth_default ?size_map // raddf0.
  by rewrite (nth_map 0).
Qed.

Variable z : nat -> C.
Lemma back_at (x : arr) h w : PadCrop.wf x -> im_h x = h -> im_w x = w ->
  [/\ PadCrop.wf (back z x), im_h (back z x) = h & im_w (back z x) = w] /\
  forall i j (k : 'I_h) (l : 'I_w), lt i h -> lt j w -> k = Nat.modulo (Nat.add i (Nat.div h 2)) h :> nat -> l = Nat.modulo (Nat.add j (Nat.div w 2)) w :> nat ->
    at0 (back z x) i j = 'Re (ifft2 (z h) (z w) (to_mx h w x) k l).
Proof.
  move=> W Eh Ew. subst h w. rewrite /back /inverse_spectrum.
  set Y := ifft2 _ _ _. have [W1 H1 E1] := of_mx_size Y.
  have [[W2 H2 E2] S] := shift_at W1 H1 E1. have [T R] := real_at W2 H2 E2. split=> //.
  move=> i j k l Hi Hj Ek El. rewrite R S // -Ek -El. by rewrite at0_of_mx.
Qed.

Lemma sumE n (f : nat -> C) : sum 0 +%R n f = \sum_(u < n) f u.
Proof. elim: n => [|n IH]; first by rewrite big_ord0. by rewrite /= IH big_ord_recr. Qed.
(** Sums over a window of a longer line. *)
Lemma sum_window n m b (f : nat -> C) : (Nat.add b n <= m)%coq_nat -> (forall u, (u < b)%coq_nat -> f u = 0) -> (forall u, (Nat.add b n <= u)%coq_nat -> f u = 0) ->
  sum 0 +%R m f = sum 0 +%R n (fun u => f (Nat.add b u)).
Proof.
  move=> /ssrnat.leP L Z1 Z2. rewrite !sumE -(big_mkord predT f) (@big_cat_nat _ _ _ b) //=; last by apply: leq_trans L; rewrite leq_addr.
  rewrite [X in X + _]big_nat_cond [X in X + _]big1 ?add0r; last by move=> u /andP [/andP [_ /ssrnat.ltP H]] _; apply: Z1.
  rewrite (@big_cat_nat _ _ _ (Nat.add b n)) //=; last by rewrite leq_addr.
  rewrite [X in _ + X]big_nat_cond [X in _ + X]big1 ?addr0; last by move=> u /andP [/andP [/ssrnat.leP H _]] _; apply: Z2.
  rewrite -{1}[b]addn0 [addn b 0]addnC big_addn [(Nat.add b n - b)%N]addKn big_mkord. by apply: eq_bigr => u _; rewrite addnC.
Qed.
Lemma sum_ext n (f g : nat -> C) : (forall u, (u < n)%coq_nat -> f u = g u) -> sum 0 +%R n f = sum 0 +%R n g.
Proof. move=> E. rewrite !sumE. by apply: eq_bigr => u _; apply: E; apply/ssrnat.ltP. Qed.
Lemma sum_zero n (f : nat -> C) : (forall u, (u < n)%coq_nat -> f u = 0) -> sum 0 +%R n f = 0.
Proof. move=> E. rewrite sumE. by apply: big1 => u _; apply: E; apply/ssrnat.ltP. Qed.

Hypothesis roots : forall n, (0 < n)%N -> n.-primitive_root (z n).
Lemma modE n m : Nat.modulo n m.+1 = (n %% m.+1)%N.
Proof.
  apply/esym. apply: (@Nat.mod_unique _ _ (n %/ m.+1)); first by apply/ssrnat.ltP; rewrite ltn_mod.
  by rewrite {1}(divn_eq n m.+1) mulnC.
Qed.
(** The pixel of a circular convolution. *)
Lemma conv_at h w (a b : arr) (k : 'I_h) (l : 'I_w) :
  ifft2 (z h) (z w) (emul (fft2 (z h) (z w) (to_mx h w a)) (fft2 (z h) (z w) (to_mx h w b))) k l =
  sum 0 +%R h (fun u => sum 0 +%R w (fun v => at0 a u v * at0 b (Nat.modulo (Nat.add k (Nat.sub h u)) h) (Nat.modulo (Nat.add l (Nat.sub w v)) w))).
Proof.
  case: h k => [|h'] k; first by case: k. case: w l => [|w'] l; first by case: l.
  rewrite (ifft2_product (roots _) (roots _)) // mxE sumE. apply: eq_bigr => u _. rewrite sumE. apply: eq_bigr => v _.
  rewrite !mxE. congr (_ * List.nth _ (List.nth _ _ _) _).
  - rewrite modE /= modnDmr. by congr (_ %% _)%N.
  - rewrite modE /= modnDmr. by congr (_ %% _)%N.
Qed.

Lemma at0_out (x : arr) i j : PadCrop.wf x -> (im_h x <= i)%coq_nat \/ (im_w x <= j)%coq_nat -> at0 x i j = 0.
Proof.
  move=> W H. rewrite /PadCropAt.at0.
  case: (Nat.lt_ge_cases i (im_h x)) => L; last by rewrite (List.nth_overflow (im_rows x)) //; case: j H.
  case: H => H; first by lia. apply: List.nth_overflow. move: W. rewrite /PadCrop.wf List.Forall_forall => ->; first by [].
  by apply: List.nth_In.
Qed.
Lemma offset_le N f : (lt 0 f /\ le f N) -> (Nat.div (Nat.add (Nat.sub N f) 1) 2 <= Nat.div N 2)%coq_nat.
Proof. move=> H. apply: Nat.div_le_mono; lia. Qed.
Lemma padded_conv (x f px pf : arr) h w fh fw N M i j k l :
  PadCrop.wf x -> im_h x = h -> im_w x = w -> PadCrop.wf f -> im_h f = fh -> im_w f = fw ->
  (h <= N)%coq_nat -> (w <= M)%coq_nat -> (lt 0 fh /\ le fh N) -> (lt 0 fw /\ le fw M) ->
  pad 0 x (Z.of_nat N, Z.of_nat M) = Ok px -> pad 0 f (Z.of_nat N, Z.of_nat M) = Ok pf ->
  k = Nat.modulo (Nat.add (Nat.add (Nat.div (Nat.add (Nat.sub N h) 1) 2) i) (Nat.div N 2)) N ->
  l = Nat.modulo (Nat.add (Nat.add (Nat.div (Nat.add (Nat.sub M w) 1) 2) j) (Nat.div M 2)) M ->
  sum 0 +%R N (fun u => sum 0 +%R M (fun v => at0 pf u v * at0 px (Nat.modulo (Nat.add k (Nat.sub N u)) N) (Nat.modulo (Nat.add l (Nat.sub M v)) M))) =
  on_torus 0 +%R *%R N M h w fh fw (offset N fh) (offset M fw) (at0 f) (at0 x) i j.
Proof.
  move=> Wx Hx Xw Wf Hf Fw LN LM LfN LfM Px Pf -> ->.
  have [_ [_ [_ Ax]]] := at0_pad _ _ _ _ _ _ _ Wx Hx Xw LN LM Px.
  have [_ [_ [_ Af]]] := at0_pad _ _ _ _ _ _ _ Wf Hf Fw (proj2 LfN) (proj2 LfM) Pf. clear Px Pf.
  set a := Nat.div (Nat.add (Nat.sub N h) 1) 2 in Ax *. set a' := Nat.div (Nat.add (Nat.sub M w) 1) 2 in Ax *.
  set b := Nat.div (Nat.add (Nat.sub N fh) 1) 2 in Af *. set b' := Nat.div (Nat.add (Nat.sub M fw) 1) 2 in Af *.
  have Dv n : n = Nat.add (Nat.mul 2 (Nat.div n 2)) (Nat.modulo n 2) /\ (Nat.modulo n 2 < 2)%coq_nat.
    by split; [apply: Nat.div_mod|apply: Nat.mod_upper_bound].
  have := Dv (Nat.add (Nat.sub N h) 1). have := Dv (Nat.add (Nat.sub M w) 1). have := Dv (Nat.add (Nat.sub N fh) 1). have := Dv (Nat.add (Nat.sub M fw) 1).
  rewrite -/a -/a' -/b -/b' => Db' Db Da' Da.
  have Bl : (b <= Nat.div N 2)%coq_nat by apply: offset_le. have Bl' : (b' <= Nat.div M 2)%coq_nat by apply: offset_le.
  rewrite (@sum_window fh N b) /on_torus; first last.
  - move=> u Hu. apply: sum_zero => v _. rewrite Af. case: ifP => _; last by rewrite mul0r. rewrite at0_out ?mul0r //. left. lia.
  - move=> u Hu. apply: sum_zero => v _. rewrite Af. have -> : (b <=? u)%nat = false by apply/Nat.leb_gt. by rewrite /= mul0r.
  - lia.
  apply: sum_ext => u Hu.
  rewrite (@sum_window fw M b'); first last.
  - move=> v Hv. rewrite Af. case: ifP => _; last by rewrite mul0r. rewrite at0_out ?mul0r //. right. lia.
  - move=> v Hv. rewrite Af. have -> : (b' <=? v)%nat = false by apply/Nat.leb_gt. by rewrite andbF mul0r.
  - lia.
  apply: sum_ext => v Hv. rewrite Af.
  have -> : (b <=? Nat.add b u)%nat = true by apply/Nat.leb_le; lia. have -> : (b' <=? Nat.add b' v)%nat = true by apply/Nat.leb_le; lia.
  have -> : Nat.sub (Nat.add b u) b = u by lia. have -> : Nat.sub (Nat.add b' v) b' = v by lia. cbn [andb]. congr (_ * _).
  have I1 : Nat.modulo (Nat.add (Nat.modulo (Nat.add (Nat.add a i) (Nat.div N 2)) N) (Nat.sub N (Nat.add b u))) N = Nat.modulo (Nat.add a (Nat.add (Nat.add i (offset N fh)) (Nat.sub N u))) N.
    rewrite add_index; [|lia|lia]. congr (Nat.modulo _ _). rewrite /offset -/b. lia.
  have I2 : Nat.modulo (Nat.add (Nat.modulo (Nat.add (Nat.add a' j) (Nat.div M 2)) M) (Nat.sub M (Nat.add b' v))) M = Nat.modulo (Nat.add a' (Nat.add (Nat.add j (offset M fw)) (Nat.sub M v))) M.
    rewrite add_index; [|lia|lia]. congr (Nat.modulo _ _). rewrite /offset -/b'. lia.
  rewrite I1 I2 Ax /ring_line.
  set K := Nat.modulo (Nat.add a _) N. set L := Nat.modulo (Nat.add a' _) M.
  transitivity (if Nat.leb a K then (fun k => if Nat.leb a' L then at0 x k (Nat.sub L a') else 0) (Nat.sub K a) else 0).
    by case: (Nat.leb a K) => //=.
  rewrite /K. etransitivity; first apply: (@wrap_index _ 0 (fun k => if Nat.leb a' L then at0 x k (Nat.sub L a') else 0) a h N); [lia|lia| |].
    move=> k2 Hk. case: ifP => // _. apply: at0_out => //. left. lia.
  case: ifP => // _. rewrite /L. apply: (@wrap_index _ 0 (fun l => at0 x _ l) a' w M); [lia|lia|]. move=> l' Hl. apply: at0_out => //. right. lia.
Qed.

Definition sized (x : arr) h w : Prop := [/\ PadCrop.wf x, im_h x = h & im_w x = w].
Lemma spectrum_mx (x : arr) h w : im_h x = h -> im_w x = w -> to_mx h w (spectrum z x) = fft2 (z h) (z w) (to_mx h w x).
Proof. by move=> <- <-; rewrite /spectrum to_of_mx. Qed.
Lemma spectrum_size (x : arr) h w : sized x h w -> sized (spectrum z x) h w.
Proof. by move=> [_ <- <-]; apply: of_mx_size. Qed.
Lemma times_mx (a b : arr) h w : im_h b = h -> im_w b = w -> to_mx h w (times a b) = emul (to_mx h w a) (to_mx h w b).
Proof. by move=> <- <-; rewrite /times to_of_mx. Qed.
Lemma times_size (a b : arr) h w : sized b h w -> sized (times a b) h w.
Proof. by move=> [_ <- <-]; apply: of_mx_size. Qed.
Lemma plus_mx (a b : arr) h w : im_h b = h -> im_w b = w -> to_mx h w (plus a b) = to_mx h w a + to_mx h w b.
Proof. by move=> <- <-; rewrite /plus to_of_mx. Qed.
Lemma plus_size (a b : arr) h w : sized b h w -> sized (plus a b) h w.
Proof. by move=> [_ <- <-]; apply: of_mx_size. Qed.

Definition circ (N M : nat) (pf px : arr) (k l : nat) : C :=
  sum 0 +%R N (fun u => sum 0 +%R M (fun v => at0 pf u v * at0 px (Nat.modulo (Nat.add k (Nat.sub N u)) N) (Nat.modulo (Nat.add l (Nat.sub M v)) M))).
Lemma channel_sum_ok N M (pfs pxs : seq arr) : size pfs = size pxs -> (0 < size pxs)%N ->
  (forall p, List.In p pfs -> sized p N M) -> (forall p, List.In p pxs -> sized p N M) ->
  exists s, [/\ channel_sum z (List.map (spectrum z) pfs) pxs = Ok s, sized s N M &
    forall k l, ifft2 (z N) (z M) (to_mx N M s) k l = \sum_(c <- zip pfs pxs) circ N M c.1 c.2 k l].
Proof.
  elim: pfs pxs => [|f fs IH] [|x xs] //= [E] _ Hf Hx.
  have [Wf Nf Mf] := Hf f (or_introl erefl). have [Wx Nx Mx] := Hx x (or_introl erefl).
  have T1 : sized (times (spectrum z f) (spectrum z x)) N M by apply: times_size; apply: spectrum_size.
  have [_ N2 M2] : sized (spectrum z x) N M by apply: spectrum_size.
  have T2 k l : ifft2 (z N) (z M) (to_mx N M (times (spectrum z f) (spectrum z x))) k l = circ N M f x k l.
    by rewrite times_mx // !spectrum_mx // conv_at.
  case: fs IH E Hf => [|f2 fs] IH E Hf; case: xs E Hx => [|x2 xs] //= E Hx.
    exists (times (spectrum z f) (spectrum z x)). split=> // k l. by rewrite T2 big_cons big_nil addr0.
  have [s [E1 S1 V1]] := IH (x2 :: xs) E isT (fun p H => Hf p (or_intror H)) (fun p H => Hx p (or_intror H)).
  exists (plus (times (spectrum z f) (spectrum z x)) s). case: S1 => S1 S2 S3. split=> //; last first.
  - move=> k l. rewrite plus_mx // big_cons /= -T2 -V1. by rewrite /ifft2 mulmxDr mulmxDl scalerDr mxE.
  - by apply: plus_size.
  - by rewrite -[LHS]/(bind (channel_sum z (List.map (spectrum z) (f2 :: fs)) (x2 :: xs)) (fun r => Ok (plus (times (spectrum z f) (spectrum z x)) r))) E1.
Qed.

Definition real_array (x : arr) : Prop := forall i j, at0 x i j \is Num.real.
Lemma sum_real n (f : nat -> C) : (forall u, f u \is Num.real) -> sum 0 +%R n f \is Num.real.
Proof. by move=> H; rewrite sumE; apply: sum_real. Qed.
Lemma on_torus_real N M h w fh fw oh ow (f x : arr) i j : real_array f -> real_array x ->
  on_torus 0 +%R *%R N M h w fh fw oh ow (at0 f) (at0 x) i j \is Num.real.
Proof.
  move=> F X. apply: sum_real => u. apply: sum_real => v. rewrite /ring_line. apply: realM => //.
  case: ifP => _ //; last exact: real0. case: ifP => _ //. exact: real0.
Qed.
(** The middle of the inverse transform of a sum of products. *)
Lemma crop_back N M h w (fs xs pfs pxs : seq arr) fh fw s :
  (lt 0 fh /\ le fh N) -> (lt 0 fw /\ le fw M) -> (Nat.add h 2 <= N)%coq_nat -> (Nat.add w 2 <= M)%coq_nat ->
  List.Forall2 (fun f p => [/\ sized f fh fw, real_array f & pad 0 f (Z.of_nat N, Z.of_nat M) = Ok p]) fs pfs ->
  List.Forall2 (fun x p => [/\ sized x h w, real_array x & pad 0 x (Z.of_nat N, Z.of_nat M) = Ok p]) xs pxs ->
  size fs = size xs -> sized s N M -> (forall k l, ifft2 (z N) (z M) (to_mx N M s) k l = \sum_(c <- zip pfs pxs) circ N M c.1 c.2 k l) ->
  let r := crop 0 (back z s) (Z.of_nat h, Z.of_nat w) in
  sized r h w /\ forall i j, (i < h)%coq_nat -> (j < w)%coq_nat ->
    at0 r i j = \sum_(c <- zip fs xs) on_torus 0 +%R *%R N M h w fh fw (offset N fh) (offset M fw) (at0 c.1) (at0 c.2) i j.
Proof.
  move=> LfN LfM LN LM Ff Fx Es [Ws Hs Sw] V r.
  have [[Wb Hb Bw] B] := back_at Ws Hs Sw.
  have [Wr [Hr [Rw R]]] := at0_crop 0 _ _ _ _ _ Wb Hb Bw LN LM. split; first by split.
  move=> i j Hi Hj. rewrite R //.
  have Dv n : n = Nat.add (Nat.mul 2 (Nat.div n 2)) (Nat.modulo n 2) /\ (Nat.modulo n 2 < 2)%coq_nat.
    by split; [apply: Nat.div_mod|apply: Nat.mod_upper_bound].
  have := Dv (Nat.add (Nat.sub N h) 1). have := Dv (Nat.add (Nat.sub M w) 1).
  set a := Nat.div (Nat.add (Nat.sub N h) 1) 2 in R *. set a' := Nat.div (Nat.add (Nat.sub M w) 1) 2 in R *. move=> Da' Da.
  have Lk : (Nat.modulo (Nat.add (Nat.add a i) (Nat.div N 2)) N < N)%N by apply/ssrnat.ltP; apply: Nat.mod_upper_bound; lia.
  have Ll : (Nat.modulo (Nat.add (Nat.add a' j) (Nat.div M 2)) M < M)%N by apply/ssrnat.ltP; apply: Nat.mod_upper_bound; lia.
  rewrite (B _ _ (Ordinal Lk) (Ordinal Ll)) //; [|lia|lia]. rewrite V.
  have -> : \sum_(c <- zip pfs pxs) circ N M c.1 c.2 (Ordinal Lk) (Ordinal Ll) =
    \sum_(c <- zip fs xs) on_torus 0 +%R *%R N M h w fh fw (offset N fh) (offset M fw) (at0 c.1) (at0 c.2) i j.
    elim: Ff xs pxs Fx Es {V R B r Wr Hr Rw} => [|f pf fs' pfs' [[Wf Hf Fw] _ Pf] _ IH] [|x xs'] [|px pxs'] Fx Es; try by inversion Fx.
    + by rewrite !big_nil.
    inversion Fx as [|? ? ? ? [[Wx Hx Xw] _ Px] Fx']; subst. rewrite /= !big_cons. congr (_ + _); last by apply: IH => //; case: Es.
    rewrite /circ /=. apply: padded_conv (Px) (Pf) _ _ => //; lia.
  rewrite (Creal_ReP _ _) //.
  elim: Ff xs pxs Fx Es {V R B r Wr Hr Rw} => [|f pf fs' pfs' [_ Rf _] _ IH] [|x xs'] pxs Fx Es; rewrite /= ?big_nil ?real0 //.
  inversion Fx as [|? ? ? ? [_ Rx _] Fx']; subst. rewrite big_cons. apply: realD; first by apply: on_torus_real.
  by apply: IH Fx' _ => //; case: Es.
Qed.

Lemma pad_some (x : arr) h w N M : sized x h w -> (h <= N)%coq_nat -> (w <= M)%coq_nat ->
  exists p, pad 0 x (Z.of_nat N, Z.of_nat M) = Ok p /\ sized p N M.
Proof.
  move=> [W Hh Hw] LN LM. case E : (pad 0 x (Z.of_nat N, Z.of_nat M)) => [p|e].
    exists p. split=> //. by have [W' [H' [M' _]]] := at0_pad _ _ _ _ _ _ _ W Hh Hw LN LM E.
  by move: E; rewrite pad_ok //=; lia.
Qed.
Lemma pads N M h w (P : arr -> Prop) (xs : seq arr) : (h <= N)%coq_nat -> (w <= M)%coq_nat -> (forall x, List.In x xs -> sized x h w /\ P x) ->
  exists ps, [/\ mapM (fun x => pad 0 x (Z.of_nat N, Z.of_nat M)) xs = Ok ps,
    mapM (fun f => let? p := pad 0 f (Z.of_nat N, Z.of_nat M) in Ok (spectrum z p)) xs = Ok (List.map (spectrum z) ps),
    List.Forall2 (fun x p => [/\ sized x h w, P x & pad 0 x (Z.of_nat N, Z.of_nat M) = Ok p]) xs ps,
    (forall p, List.In p ps -> sized p N M) & size ps = size xs].
Proof.
  move=> LN LM. elim: xs => [|x xs IH] H; first by exists [::]; split=> //; constructor.
  have [ps [E1 E2 F S L]] := IH (fun y Hy => H y (or_intror Hy)). have [Sx Px] := H x (or_introl erefl).
  have [p [E3 S3]] := pad_some Sx LN LM. exists (p :: ps).
  split=> /=; [by rewrite E3 /= E1|by rewrite E3 /= E2|by constructor|by move=> q [<-|/S]|by rewrite L].
Qed.

Lemma response_ok p q (fs xs : seq arr) : (6 <= p)%coq_nat -> (6 <= q)%coq_nat -> size fs = size xs -> (0 < size xs)%N ->
  (forall f, List.In f fs -> sized f p q /\ real_array f) -> (forall x, List.In x xs -> sized x p q /\ real_array x) ->
  let N := Nat.sub (Nat.add p (Nat.div p 2)) 1 in let M := Nat.sub (Nat.add q (Nat.div q 2)) 1 in
  exists r, response z (Z.of_nat p, Z.of_nat q) fs xs = Ok r /\ sized r p q /\ forall i j, (i < p)%coq_nat -> (j < q)%coq_nat ->
    at0 r i j = \sum_(c <- zip fs xs) on_torus 0 +%R *%R N M p q p q (offset N p) (offset M q) (at0 c.1) (at0 c.2) i j.
Proof.
  move=> Lp Lq Es S0 Hf Hx N M.
  have Dp : (3 <= Nat.div p 2)%coq_nat by apply: (Nat.div_le_mono 6 p 2). have Dq : (3 <= Nat.div q 2)%coq_nat by apply: (Nat.div_le_mono 6 q 2).
  have PS : padded_size (Z.of_nat p, Z.of_nat q) = (Z.of_nat N, Z.of_nat M).
    by apply: padded_size_nat; lia.
  have LN : (Nat.add p 2 <= N)%coq_nat by rewrite /N; lia. have LM : (Nat.add q 2 <= M)%coq_nat by rewrite /M; lia.
  have LN' : (p <= N)%coq_nat by lia. have LM' : (q <= M)%coq_nat by lia. have P0 : (0 < p)%coq_nat by lia. have Q0 : (0 < q)%coq_nat by lia.
  have [pfs [E1 E2 F1 S1 L1]] := pads LN' LM' Hf. have [pxs [E3 E4 F2 S2 L2]] := pads LN' LM' Hx.
  have [s [E5 S5 V5]] := @channel_sum_ok N M pfs pxs (etrans L1 (etrans Es (esym L2))) ltac:(by rewrite L2) S1 S2.
  have [SR VR] := crop_back (Logic.conj P0 LN') (Logic.conj Q0 LM') LN LM F1 F2 Es S5 V5.
  exists (crop 0 (back z s) (Z.of_nat p, Z.of_nat q)). split=> //. rewrite /response /expert PS E2 /fft_convolve2d_sum. cbn [bind].
  case: xs S0 Es Hx E3 E4 F2 L2 VR => [|x xs] // _ Es Hx E3 E4 F2 L2 VR. cbn [bind].
  case: pfs E1 E2 F1 S1 L1 E5 V5 => [|f pfs] E1 E2 F1 S1 L1 E5 V5; first by move: Es; rewrite -L1.
  cbn [List.map bind]. have [_ Nf Mf] := spectrum_size (S1 f (or_introl erefl)). have [[_ Hx1 Hx2] _] := Hx x (or_introl erefl).
  rewrite /zh /zw Nf Mf Hx1 Hx2 E3. cbn [bind]. by rewrite -[channel_sum _ _ _]/(channel_sum z (List.map (spectrum z) (f :: pfs)) pxs) E5.
Qed.

Lemma spatial_ok h w fh fw (x f : arr) : (6 <= fh)%coq_nat -> (6 <= fw)%coq_nat ->
  let N := Nat.sub (Nat.add h (Nat.div fh 2)) 1 in let M := Nat.sub (Nat.add w (Nat.div fw 2)) 1 in
  (fh <= N)%coq_nat -> (fw <= M)%coq_nat -> sized x h w -> real_array x -> sized f fh fw -> real_array f ->
  exists r, fft_convolve2d z Same x f = Ok r /\ sized r h w /\ forall i j, (i < h)%coq_nat -> (j < w)%coq_nat ->
    at0 r i j = on_torus 0 +%R *%R N M h w fh fw (offset N fh) (offset M fw) (at0 f) (at0 x) i j.
Proof.
  move=> Lf1 Lf2 N M LN LM Sx Rx Sf Rf.
  have Dp : (3 <= Nat.div fh 2)%coq_nat by apply: (Nat.div_le_mono 6 fh 2). have Dq : (3 <= Nat.div fw 2)%coq_nat by apply: (Nat.div_le_mono 6 fw 2).
  have HN : (Nat.add h 2 <= N)%coq_nat by rewrite /N; lia. have HM : (Nat.add w 2 <= M)%coq_nat by rewrite /M; lia.
  have HN' : (h <= N)%coq_nat by lia. have HM' : (w <= M)%coq_nat by lia. have P0 : (0 < fh)%coq_nat by lia. have Q0 : (0 < fw)%coq_nat by lia.
  have [pf [Ef Spf]] := pad_some Sf LN LM. have [px [Ex Spx]] := pad_some Sx HN' HM'.
  have [s [E5 S5 V5]] := @channel_sum_ok N M [:: pf] [:: px] erefl isT ltac:(by move=> p [<-|[]]) ltac:(by move=> p [<-|[]]).
  have F1 : List.Forall2 (fun f p => [/\ sized f fh fw, real_array f & pad 0 f (Z.of_nat N, Z.of_nat M) = Ok p]) [:: f] [:: pf] by do 2 constructor.
  have F2 : List.Forall2 (fun x p => [/\ sized x h w, real_array x & pad 0 x (Z.of_nat N, Z.of_nat M) = Ok p]) [:: x] [:: px] by do 2 constructor.
  have [SR VR] := crop_back (Logic.conj P0 LN) (Logic.conj Q0 LM) HN HM F1 F2 erefl S5 V5.
  exists (crop 0 (back z s) (Z.of_nat h, Z.of_nat w)). split; last by split=> // i j Hi Hj; rewrite VR //= big_cons big_nil addr0.
  case: (Sx) => _ Hx1 Hx2. case: (Sf) => _ Hf1 Hf2. rewrite /fft_convolve2d /convolve_spatial /zh /zw Hx1 Hx2 Hf1 Hf2 /=.
  have Bh := Nat.mul_div_le fh 2 ltac:(lia). have Bw := Nat.mul_div_le fw 2 ltac:(lia). move: LN LM. rewrite /N /M => LN0 LM0.
  rewrite !half_ext; [|lia|lia]. rewrite -/N -/M.
  rewrite Ex Ef /= /circular. case: E5 => <-. by [].
Qed.

Lemma inverse_at (x : arr) h w : im_h x = h -> im_w x = w -> forall (k : 'I_h) (l : 'I_w),
  at0 (inverse_spectrum z x) k l = ifft2 (z h) (z w) (to_mx h w x) k l.
Proof. by move=> <- <- k l; rewrite /inverse_spectrum at0_of_mx. Qed.
(** The trained filter: its pixels are those of the inverse transform around the origin. *)
Lemma trained_at (spec : arr) c d p q : let N := Nat.sub (Nat.add c p) 1 in let M := Nat.sub (Nat.add d q) 1 in
  sized spec N M -> (3 <= c)%coq_nat -> (3 <= d)%coq_nat -> (1 <= p)%coq_nat -> (1 <= q)%coq_nat ->
  let f := trained_filter z spec (Z.of_nat p, Z.of_nat q) in
  [/\ sized f p q, real_array f & forall u v, (u < p)%coq_nat -> (v < q)%coq_nat ->
    at0 f u v = 'Re (at0 (inverse_spectrum z spec) (Nat.modulo (Nat.add u (Nat.sub N (origin c p))) N) (Nat.modulo (Nat.add v (Nat.sub M (origin d q))) M))].
Proof.
  move=> N M [Ws Hs Sw] Lc Ld Lp Lq f.
  have [[Wb Hb Bw] B] := back_at Ws Hs Sw.
  have LN : (Nat.add p 2 <= N)%coq_nat by rewrite /N; lia. have LM : (Nat.add q 2 <= M)%coq_nat by rewrite /M; lia.
  have [Wr [Hr [Rw R]]] := at0_crop 0 _ _ _ _ _ Wb Hb Bw LN LM.
  have V u v : (u < p)%coq_nat -> (v < q)%coq_nat -> at0 f u v = 'Re (at0 (inverse_spectrum z spec) (Nat.modulo (Nat.add u (Nat.sub N (origin c p))) N) (Nat.modulo (Nat.add v (Nat.sub M (origin d q))) M)).
    move=> Hu Hv. rewrite /f /trained_filter R //.
    have Dv n : n = Nat.add (Nat.mul 2 (Nat.div n 2)) (Nat.modulo n 2) /\ (Nat.modulo n 2 < 2)%coq_nat.
      by split; [apply: Nat.div_mod|apply: Nat.mod_upper_bound].
    have Ea : Nat.div (Nat.add (Nat.sub N p) 1) 2 = Nat.div c 2 by congr (Nat.div _ _); rewrite /N; lia.
    have Eb : Nat.div (Nat.add (Nat.sub M q) 1) 2 = Nat.div d 2 by congr (Nat.div _ _); rewrite /M; lia.
    rewrite Ea Eb. have := Dv c. have := Dv d. have := Dv N. have := Dv M => DM DN Dd Dc.
    have Lk : (Nat.modulo (Nat.add u (Nat.sub N (origin c p))) N < N)%N by apply/ssrnat.ltP; apply: Nat.mod_upper_bound; lia.
    have Ll : (Nat.modulo (Nat.add v (Nat.sub M (origin d q))) M < M)%N by apply/ssrnat.ltP; apply: Nat.mod_upper_bound; lia.
    rewrite (B _ _ (Ordinal Lk) (Ordinal Ll)).
    - congr ('Re _). by rewrite -(inverse_at Hs Sw).
    - rewrite /N. lia.
    - rewrite /M. lia.
    - congr (Nat.modulo _ _). rewrite /origin -/N. lia.
    - congr (Nat.modulo _ _). rewrite /origin -/M. lia.
  split=> // i j. case: (Nat.lt_ge_cases i p) => Hi; last by rewrite at0_out ?real0 //; left; rewrite Hr.
  case: (Nat.lt_ge_cases j q) => Hj; last by rewrite at0_out ?real0 //; right; rewrite Rw.
  by rewrite V // Creal_Re.
Qed.
(** What training asks: an exact solution reproduces the desired response from the context. *)
Lemma training_at (spec x y ex ey : arr) c d p q : let N := Nat.sub (Nat.add c p) 1 in let M := Nat.sub (Nat.add d q) 1 in
  sized spec N M -> sized x c d -> sized y p q -> (le 1 p /\ le p c) -> (le 1 q /\ le q d) ->
  pad 0 x (Z.of_nat N, Z.of_nat M) = Ok ex -> pad 0 y (Z.of_nat N, Z.of_nat M) = Ok ey ->
  times spec (spectrum z ex) = spectrum z ey ->
  forall i j, (i < p)%coq_nat -> (j < q)%coq_nat ->
    at0 y i j = on_torus 0 +%R *%R N M c d N M (Nat.sub (Nat.div c 2) (Nat.div p 2)) (Nat.sub (Nat.div d 2) (Nat.div q 2)) (at0 (inverse_spectrum z spec)) (at0 x) i j.
Proof.
  move=> N M [Ws Hs Sw] [Wx Hx Xw] [Wy Hy Yw] [P1 P2] [Q1 Q2] Px Py E i j Hi Hj.
  have L1 : (c <= N)%coq_nat by rewrite /N; lia. have L2 : (d <= M)%coq_nat by rewrite /M; lia.
  have L3 : (p <= N)%coq_nat by rewrite /N; lia. have L4 : (q <= M)%coq_nat by rewrite /M; lia.
  have [We [He [Ew Ax]]] := at0_pad _ _ _ _ _ _ _ Wx Hx Xw L1 L2 Px.
  have [Wf [Hf [Fw Ay]]] := at0_pad _ _ _ _ _ _ _ Wy Hy Yw L3 L4 Py.
  have Ea : Nat.div (Nat.add (Nat.sub N c) 1) 2 = Nat.div p 2 by congr (Nat.div _ _); rewrite /N; lia.
  have Ea' : Nat.div (Nat.add (Nat.sub M d) 1) 2 = Nat.div q 2 by congr (Nat.div _ _); rewrite /M; lia.
  have Eb : Nat.div (Nat.add (Nat.sub N p) 1) 2 = Nat.div c 2 by congr (Nat.div _ _); rewrite /N; lia.
  have Eb' : Nat.div (Nat.add (Nat.sub M q) 1) 2 = Nat.div d 2 by congr (Nat.div _ _); rewrite /M; lia.
  rewrite Ea Ea' in Ax. rewrite Eb Eb' in Ay. clear Ea Ea' Eb Eb' Px Py.
  have M1 := Nat.div_le_mono p c 2 ltac:(lia) P2. have M2 := Nat.div_le_mono q d 2 ltac:(lia) Q2.
  have Dv n : n = Nat.add (Nat.mul 2 (Nat.div n 2)) (Nat.modulo n 2) /\ (Nat.modulo n 2 < 2)%coq_nat.
    by split; [apply: Nat.div_mod|apply: Nat.mod_upper_bound].
  have Dc := Dv c. have Dd := Dv d. have Dp := Dv p. have Dq := Dv q.
  have Lk : (Nat.add (Nat.div c 2) i < N)%N by apply/ssrnat.ltP; rewrite /N; lia.
  have Ll : (Nat.add (Nat.div d 2) j < M)%N by apply/ssrnat.ltP; rewrite /M; lia.
  have Y : at0 y i j = at0 ey (Ordinal Lk) (Ordinal Ll).
    rewrite Ay /=. have -> : Nat.leb (Nat.div c 2) (Nat.add (Nat.div c 2) i) = true by apply/Nat.leb_le; lia.
    have -> : Nat.leb (Nat.div d 2) (Nat.add (Nat.div d 2) j) = true by apply/Nat.leb_le; lia.
    cbn [andb]. congr (at0 y _ _); lia.
  have R : to_mx N M ey = ifft2 (z N) (z M) (emul (fft2 (z N) (z M) (to_mx N M (inverse_spectrum z spec))) (fft2 (z N) (z M) (to_mx N M ex))).
    have RN : N.-primitive_root (z N) by apply: roots; apply/ssrnat.ltP; lia. have RM : M.-primitive_root (z M) by apply: roots; apply/ssrnat.ltP; lia.
    have I : to_mx N M (inverse_spectrum z spec) = ifft2 (z N) (z M) (to_mx N M spec).
      by rewrite -Hs -Sw /inverse_spectrum to_of_mx.
    have [_ S1 S2] := spectrum_size (And3 We He Ew).
    rewrite I Fourier.ifft2K // -(spectrum_mx He Ew) -times_mx //.
    by rewrite E spectrum_mx // Fourier.ifft2_fft2.
  have {}Y : at0 y i j = to_mx N M ey (Ordinal Lk) (Ordinal Ll) by rewrite Y mxE.
  rewrite Y R conv_at. apply: sum_ext => u Hu. apply: sum_ext => v Hv. congr (_ * _). rewrite Ax /ring_line.
  have I1 : Nat.add (Ordinal Lk) (Nat.sub N u) = Nat.add (Nat.div p 2) (Nat.add (Nat.add i (Nat.sub (Nat.div c 2) (Nat.div p 2))) (Nat.sub N u)) by change (nat_of_ord (Ordinal Lk)) with (Nat.add (Nat.div c 2) i); lia.
  have I2 : Nat.add (Ordinal Ll) (Nat.sub M v) = Nat.add (Nat.div q 2) (Nat.add (Nat.add j (Nat.sub (Nat.div d 2) (Nat.div q 2))) (Nat.sub M v)) by change (nat_of_ord (Ordinal Ll)) with (Nat.add (Nat.div d 2) j); lia.
  rewrite I1 I2. set K := Nat.modulo (Nat.add (Nat.div p 2) _) N. set L := Nat.modulo (Nat.add (Nat.div q 2) _) M.
  transitivity (if Nat.leb (Nat.div p 2) K then (fun k => if Nat.leb (Nat.div q 2) L then at0 x k (Nat.sub L (Nat.div q 2)) else 0) (Nat.sub K (Nat.div p 2)) else 0).
    by case: (Nat.leb (Nat.div p 2) K) => //=.
  rewrite /K. etransitivity; first apply: (@wrap_index _ 0 (fun k => if Nat.leb (Nat.div q 2) L then at0 x k (Nat.sub L (Nat.div q 2)) else 0) (Nat.div p 2) c N); [rewrite /N; lia|rewrite /N; lia| |].
    move=> k2 Hk. case: ifP => // _. apply: at0_out => //. left. lia.
  case: ifP => // _. rewrite /L. apply: (@wrap_index _ 0 (fun l => at0 x _ l) (Nat.div q 2) d M); [rewrite /M; lia|rewrite /M; lia|].
  move=> l' Hl. apply: at0_out => //. right. lia.
Qed.

(** Arrays with a single one. *)
Definition dot h w a b : arr := of_mx (\matrix_(i < h, j < w) ((i == a :> nat) && (j == b :> nat))%:R : 'M[C]_(h, w)).
Lemma dot_size h w a b : sized (dot h w a b) h w.
Proof. exact: of_mx_size. Qed.
Lemma dot_at h w a b i j : (a < h)%coq_nat -> (b < w)%coq_nat -> at0 (dot h w a b) i j = ((i == a) && (j == b))%:R.
Proof.
  move=> Ha Hb. have [W Hh Hw] := dot_size h w a b.
  case: (Nat.lt_ge_cases i h) => Hi; last first.
    rewrite at0_out //; last by left; rewrite Hh. by case: eqP => // E; move: Hi; rewrite E; lia.
  case: (Nat.lt_ge_cases j w) => Hj; last first.
    rewrite at0_out //; last by right; rewrite Hw. by rewrite andbC; case: eqP => // E; move: Hj; rewrite E; lia.
  move: Hi Hj => /ssrnat.ltP Hi /ssrnat.ltP Hj. by rewrite -[i]/(nat_of_ord (Ordinal Hi)) -[j]/(nat_of_ord (Ordinal Hj)) at0_of_mx mxE.
Qed.
Lemma dot_real h w a b : (a < h)%coq_nat -> (b < w)%coq_nat -> real_array (dot h w a b).
Proof. by move=> Ha Hb i j; rewrite dot_at // realn. Qed.
Lemma sum_pick n a (F : nat -> C) : (a < n)%coq_nat -> sum 0 +%R n (fun u => if u == a then F u else 0) = F a.
Proof. move=> /ssrnat.ltP H. rewrite sumE -big_mkcond /= (big_pred1 (Ordinal H)) //. Qed.
Lemma pick2 n m a b (f : nat -> nat -> C) (L : nat -> nat -> C) : (a < n)%coq_nat -> (b < m)%coq_nat ->
  (forall u v, (u < n)%coq_nat -> (v < m)%coq_nat -> f u v = ((u == a) && (v == b))%:R) ->
  sum 0 +%R n (fun u => sum 0 +%R m (fun v => f u v * L u v)) = L a b.
Proof.
  move=> Ha Hb E. transitivity (sum 0 +%R n (fun u => if u == a then (fun u => L u b) u else 0)); last by rewrite sum_pick.
  apply: sum_ext => u Hu. transitivity (sum 0 +%R m (fun v => if v == b then (fun v => if u == a then L u v else 0) v else 0)).
    apply: sum_ext => v Hv. rewrite E //. case: (u == a) => /=; case: (v == b) => /=; by rewrite ?mul1r ?mul0r.
  by rewrite sum_pick.
Qed.

(** The identity filter: its spectrum is constant. *)
Definition ones N M : arr := of_mx (const_mx 1 : 'M[C]_(N, M)).
Lemma ones_inverse N M k l : (0 < N)%coq_nat -> (0 < M)%coq_nat -> (k < N)%coq_nat -> (l < M)%coq_nat ->
  at0 (inverse_spectrum z (ones N M)) k l = ((k == 0%N) && (l == 0%N))%:R.
Proof.
  move=> /ssrnat.ltP N0 /ssrnat.ltP M0 /ssrnat.ltP Hk /ssrnat.ltP Hl. have [W Hh Hw] := of_mx_size (const_mx 1 : 'M[C]_(N, M)).
  rewrite -[k]/(nat_of_ord (Ordinal Hk)) -[l]/(nat_of_ord (Ordinal Hl)) (inverse_at Hh Hw) to_of_mx.
  have -> : (const_mx 1 : 'M[C]_(N, M)) = fft2 (z N) (z M) (\matrix_(i, j) ((i == 0%N :> nat) && (j == 0%N :> nat))%:R).
    apply/matrixP => a b. rewrite mxE /fft2 !mxE (bigD1 (Ordinal M0)) //= big1 ?addr0; last first.
      move=> j /negP Hj. rewrite mxE big1 ?mul0r // => i _. rewrite !mxE.
      have -> : (j == 0%N :> nat) = false by apply/negP => /eqP H; apply: Hj; apply/eqP; apply: val_inj.
      by rewrite andbF mulr0.
    rewrite mxE (bigD1 (Ordinal N0)) //= big1 ?addr0; last first.
      move=> i /negP Hi. rewrite !mxE.
      have -> : (i == 0%N :> nat) = false by apply/negP => /eqP H; apply: Hi; apply/eqP; apply: val_inj.
      by rewrite mulr0.
    by rewrite !mxE /= muln0 mul0n !expr0 !mulr1.
  by rewrite Fourier.ifft2_fft2 ?mxE //; apply: roots.
Qed.
Lemma ring_zero N o u : (o < N)%coq_nat -> (u < N)%coq_nat -> (Nat.modulo (Nat.add u (Nat.sub N o)) N == 0%N) = (u == o).
Proof.
  move=> Ho Hu. case: (Nat.lt_ge_cases u o) => H.
    rewrite Nat.mod_small; last by lia. by apply/eqP/eqP => E; lia.
  have -> : Nat.add u (Nat.sub N o) = Nat.add (Nat.sub u o) (Nat.mul 1 N) by lia.
  rewrite Nat.mod_add; last by lia. rewrite Nat.mod_small; last by lia. by apply/eqP/eqP => E; lia.
Qed.
Lemma ones_trained c d p q u v : (3 <= c)%coq_nat -> (3 <= d)%coq_nat -> (1 <= p)%coq_nat -> (1 <= q)%coq_nat ->
  (u < p)%coq_nat -> (v < q)%coq_nat ->
  at0 (trained_filter z (ones (Nat.sub (Nat.add c p) 1) (Nat.sub (Nat.add d q) 1)) (Z.of_nat p, Z.of_nat q)) u v = ((u == origin c p) && (v == origin d q))%:R.
Proof.
  move=> Lc Ld Lp Lq Hu Hv. have [_ _ ->] // := trained_at (of_mx_size (const_mx 1 : 'M[C]_(Nat.sub (Nat.add c p) 1, Nat.sub (Nat.add d q) 1))) Lc Ld Lp Lq.
  have B c' p' : (3 <= c')%coq_nat -> (1 <= p')%coq_nat -> (origin c' p' < Nat.sub (Nat.add c' p') 1)%coq_nat.
    move=> H1 H2. rewrite /origin. have := Nat.div_le_mono 3 c' 2 ltac:(lia) H1. have := Nat.div_le_mono 2 (Nat.sub (Nat.add c' p') 1) 2 ltac:(lia) ltac:(lia).
    rewrite (_ : Nat.div 3 2 = 1%N) // (_ : Nat.div 2 2 = 1%N) //. lia.
  rewrite ones_inverse; [|lia|lia|apply: Nat.mod_upper_bound; lia|apply: Nat.mod_upper_bound; lia].
  rewrite !ring_zero; try (by apply: B); try lia. by rewrite (Creal_ReP _ _) // realn.
Qed.
End Arrays.

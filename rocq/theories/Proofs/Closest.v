From Verif.Model Require Import Py ModelInstance.
From Verif.Spec Require Import ModelInstance.
From Verif.Proofs Require Import ModelInstance MRing Projection.
From mathcomp Require Import all_ssreflect all_algebra.
Set Implicit Arguments.
Unset Strict Implicit.
Unset Printing Implicit Defensive.
Import Order.TTheory GRing.Theory Num.Theory.
Local Open Scope ring_scope.

Section P.
Variable F : realFieldType.
Variable N : nat.
Notation shape := 'M[F]_(N, 2).
Add Ring Fr : (@r_ring F).
Notation span w cs := (\sum_(i < size cs) nth 0 w i *: nth 0 cs i).

Lemma distance2E (x y : shape) : distance2 x y = dot (x - y) (x - y).
Proof. rewrite dotE. apply: eq_bigr => i _. by rewrite !mxE !expr2. Qed.
Lemma dot_ge0 (x : shape) : 0 <= dot x x.
Proof. apply: sumr_ge0 => i _. apply: sumr_ge0 => j _. rewrite -expr2. exact: sqr_ge0. Qed.

Lemma closest (m : lmodel F N) (s : shape) w : orthonormal (active m) ->
  distance2 s (linear_shape m (project m s)) <= distance2 s (linear_shape m w).
Proof.
  move=> O. rewrite !distance2E /linear_shape. set r := s - m_mean m. set p := project m s.
  have E v : s - (m_mean m + span v (active m)) = r - span v (active m) by rewrite opprD addrA.
  rewrite !E. set e := r - span p (active m).
  have e0 i : (i < size (active m))%N -> dot (nth 0 (active m) i) e = 0.
    move=> I. rewrite dotC /e dotDl -scaleN1r dotZl span_coeff // /p /project (nth_map 0) // -/r. by rewrite mulN1r subrr.
  have -> : r - span w (active m) = e + (\sum_(i < size (active m)) (nth 0 p i - nth 0 w i) *: nth 0 (active m) i).
    rewrite /e -addrA. congr (_ + _). under [X in _ = _ + X]eq_bigr do rewrite scalerBl. by rewrite sumrB addrA addNr add0r.
  set z := \sum_(i < _) (_ - _) *: _.
  have Z : dot z e = 0 by rewrite dot_suml big1 // => i _; rewrite dotZl e0 ?mulr0.
  rewrite dotDl dotC dotDl [dot z (e + z)]dotC dotDl Z [dot e z]dotC Z addr0 add0r. by rewrite ler_addl dot_ge0.
Qed.

Lemma pinv_inv (g : sim F) (t t0 : shape) : sim_pinv_apply g t = Ok t0 -> sdet g != 0 /\ t = sim_apply g t0.
Proof.
  rewrite /sim_pinv_apply -/(sdet g). case: ifP => // /negbT D [T]. split=> //.
  apply/matrixP => i j. rewrite /sim_apply mxE.
  set o := \matrix_(i, j) (t i j - sim_off g 0 j) : shape.
  have -> : t0 = o *m invmx (sim_lin g)^T.
    rewrite -T. apply/matrixP => a b. rewrite !mxE. apply: eq_bigr => k _. by rewrite [o a k]mxE.
  rewrite -mulmxA mulVmx ?mulmx1 ?unitmx_tr ?lin_unit // [o i j]mxE. by rewrite subrK.
Qed.
Lemma sim_distance (g : sim F) (x y : shape) : distance2 (sim_apply g x) (sim_apply g y) = sdet g * distance2 x y.
Proof.
  rewrite /distance2 mulr_sumr. apply: eq_bigr => i _. have [X0 X1] := sim_applyP g x i. have [Y0 Y1] := sim_applyP g y i.
  rewrite X0 X1 Y0 Y1 /sdet !expr2. mring F.
Qed.
Lemma sdet_ge0 (g : sim F) : 0 <= sdet g. Proof. by rewrite addr_ge0 ?sqr_ge0. Qed.

Lemma sim_closest (m : lmodel F N) (g : sim F) (t t0 : shape) w x : orthonormal (active m) -> sim_pinv_apply g t = Ok t0 ->
  similar g (linear_shape m w) x -> distance2 t (sim_apply g (linear_shape m (project m t0))) <= distance2 t x.
Proof.
  move=> O /pinv_inv [D T] /similarP X. rewrite T X !sim_distance. apply: ler_wpmul2l; first exact: sdet_ge0. exact: closest.
Qed.

Lemma set_active_after (m m' : lmodel F N) k : set_active m k = Ok m' -> m_mean m' = m_mean m /\ active m' = take k (m_comps m).
Proof.
  rewrite /set_active. case: ifP => // _ [<-] /=. split=> //. rewrite /active /=. case: (leqP k (size (m_comps m))) => // K.
  by rewrite (take_oversize (ltnW K)) take_size.
Qed.

Lemma pdm_sync_closest (d d' : pdm F N) w : pdm_sync_state d = (d', Ok tt) -> orthonormal (active (d_model d)) ->
  distance2 (d_target d) (d_target d') <= distance2 (d_target d) (linear_shape (d_model d) w).
Proof.
  rewrite /pdm_sync_state /pdm_generate /= instance_ok ?project_size // => -[<-] O /=. exact: closest.
Qed.
Lemma gpdm_sync_closest align src (d d' : gpdm F N) : gpdm_sync_state align src d = (d', Ok tt) ->
  g_sim d' = align src (g_target d) /\ g_model d' = g_model d /\
  (orthonormal (active (g_model d)) -> forall w x, similar (g_sim d') (linear_shape (g_model d) w) x ->
  distance2 (g_target d) (g_target d') <= distance2 (g_target d) x).
Proof.
  rewrite /gpdm_sync_state /=. case P : sim_pinv_apply => [t0|] //=.
  rewrite /gpdm_generate /= instance_ok ?project_size //= => -[<-] /=. split=> //. split=> // O w x. exact: sim_closest.
Qed.
Lemma opdm_sync_closest align src (d d' : opdm F N) : opdm_sync_state align src d = (d', Ok tt) ->
  o_model d' = o_model d /\ o_simcomps d' = o_simcomps d /\
  (orthonormal (o_simcomps d) -> forall q,
     distance2 (o_target d) (linear_shape (o_similarity d') (o_simweights d')) <= distance2 (o_target d) (linear_shape (o_similarity d') q)) /\
  (orthonormal (active (o_model d)) -> forall w x, similar (o_sim d') (linear_shape (o_model d) w) x ->
     distance2 (o_target d) (o_target d') <= distance2 (o_target d) x).
Proof.
  move=> H. have [_ [_ [_ [_ [M C]]]]] := opdm_sync_ok H. split=> //. split=> //.
  move: H. rewrite /opdm_sync_state. case E : opdm_update_global => [d1 [[]|]] //.
  have [G [Q [M1 [_ [T1 C1]]]]] := opdm_update_ok E.
  case P : sim_pinv_apply => [t0|] // R. have [_ [W [Q' [_ [S' C']]]]] := opdm_regenerate_ok R. rewrite /= in W Q' S' C'.
  split.
  - move=> O q. rewrite Q' Q /o_similarity M C. apply: closest. by rewrite /active /= take_size.
  - move=> O w x. rewrite S' => X. move: R P. rewrite /opdm_regenerate /opdm_generate /= instance_ok ?project_size //=.
    rewrite M1 T1 => -[<-] /= P. exact: sim_closest X.
Qed.
End P.

From Verif.Model Require Import Py ModelInstance.
From Verif.Spec Require Import ModelInstance.
From mathcomp Require Import all_ssreflect all_algebra.
Set Implicit Arguments.
Unset Strict Implicit.
Unset Printing Implicit Defensive.
Import Order.TTheory GRing.Theory Num.Theory.
Local Open Scope ring_scope.

Section P.
Variable F : realFieldType.
Variable N : nat.
Notation shape := 'M[F]_(N, 2).
Implicit Types (m : lmodel F N) (w v : seq F) (s t : shape) (g : sim F).

Lemma combinationE w (cs : seq shape) : combination w cs = \sum_(i < size cs) nth 0 w i *: nth 0 cs i.
Proof.
  rewrite /combination. elim: cs w => [|c cs IH] [|x w] /=.
  - by rewrite big_nil big_ord0.
  - by rewrite big_nil big_ord0.
  - rewrite big_nil big1 // => i _. by rewrite nth_nil scale0r.
  - by rewrite big_cons IH big_ord_recl.
Qed.
Lemma instanceE m w s : instance m w = Ok s -> s = linear_shape m w.
Proof. rewrite /instance. case: ifP => // _ [<-]. by rewrite combinationE. Qed.
Lemma instance_ok m w : (size w <= size (active m))%N -> instance m w = Ok (linear_shape m w).
Proof. move=> H. by rewrite /instance H combinationE. Qed.
Lemma project_size m s : size (project m s) = size (active m). Proof. by rewrite size_map. Qed.
Lemma linear_zero m k : linear_shape m (nseq k 0) = m_mean m.
Proof.
  rewrite /linear_shape big1 ?addr0 // => i _. rewrite nth_nseq. by case: ifP; rewrite scale0r.
Qed.
Lemma sim_applyP g s : similar g s (sim_apply g s).
Proof.
  move=> i. have E j : (s *m (sim_lin g)^T) i j = s i 0 * (sim_lin g) j 0 + s i 1 * (sim_lin g) j 1.
    rewrite mxE big_ord_recl big_ord1 [in LHS](mxE _ _ _ j) [(sim_lin g)^T _ j]mxE.
    have -> // : lift 0 0 = 1 :> 'I_2 by exact: val_inj.
  split.
  - by rewrite mxE E !mxE /= mulrC [s i 1 * _]mulrC mulNr.
  - by rewrite mxE E !mxE /= mulrC [s i 1 * _]mulrC.
Qed.
Lemma similar_fun g s t t' : similar g s t -> similar g s t' -> t = t'.
Proof.
  move=> A B. apply/matrixP => i j. have [A0 A1] := A i. have [B0 B1] := B i.
  have [->|->] : j = 0 \/ j = 1 by case: j => [[|[|]]] // ?; [left|right]; exact: val_inj.
  - by rewrite A0 B0. - by rewrite A1 B1.
Qed.
Lemma similar_id s : similar (identity_sim F) s s.
Proof. move=> i /=. by rewrite !addr0 !mul1r !mul0r subr0 add0r. Qed.

(** PDM *)
Lemma pdm_sync_ok (d d' : pdm F N) : pdm_sync_state d = (d', Ok tt) ->
  d_target d' = linear_shape (d_model d') (d_weights d') /\ size (d_weights d') = size (active (d_model d')) /\ d_model d' = d_model d.
Proof.
  rewrite /pdm_sync_state /pdm_generate /=. rewrite instance_ok ?project_size // => -[<-] /=. by rewrite project_size.
Qed.
Lemma pdm_sync_total (d : pdm F N) : (pdm_sync_state d).2 = Ok tt.
Proof. by rewrite /pdm_sync_state /pdm_generate /= instance_ok ?project_size. Qed.
Definition pdm_perform (o : op F N) (d : pdm F N) : pdm F N * res unit :=
  match o with
  | SetTarget t => pdm_set_target t d
  | FromVector v => pdm_from_vector v d
  | SetActive k => pdm_set_active k d
  | Increment m => pdm_increment m d
  end.
Lemma pdm_perform_synced o (d d' : pdm F N) : pdm_perform o d = (d', Ok tt) ->
  d_target d' = linear_shape (d_model d') (d_weights d').
Proof.
  case: o => [t|v|k|m] /=.
  - by move=> /pdm_sync_ok [].
  - rewrite /pdm_from_vector /pdm_generate /=. case E : instance => [t|] // [<-] /=. exact: instanceE E.
  - rewrite /pdm_set_active. case: set_active => // m' /pdm_sync_ok [] //.
  - by move=> /pdm_sync_ok [].
Qed.

(** GlobalPDM *)
Section Global.
Variable align : shape -> shape -> sim F.
Variable src : shape.
Definition gpdm_synced (d : gpdm F N) := similar (g_sim d) (linear_shape (g_model d) (g_weights d)) (g_target d).
Lemma gpdm_generate_ok (d : gpdm F N) t : gpdm_generate d = Ok t -> similar (g_sim d) (linear_shape (g_model d) (g_weights d)) t.
Proof. rewrite /gpdm_generate. case E : instance => [s|] //= [<-]. rewrite (instanceE E). exact: sim_applyP. Qed.
Lemma gpdm_sync_ok (d d' : gpdm F N) : gpdm_sync_state align src d = (d', Ok tt) ->
  gpdm_synced d' /\ size (g_weights d') = size (active (g_model d')) /\ g_model d' = g_model d.
Proof.
  rewrite /gpdm_sync_state /=. case: sim_pinv_apply => [t0|] //=.
  set e := Gpdm _ _ _ _. case E : (gpdm_generate e) => [t|] // [<-] /=. split; first exact: (gpdm_generate_ok E).
  by rewrite project_size.
Qed.
Definition gpdm_perform (o : op F N) (d : gpdm F N) : gpdm F N * res unit :=
  match o with
  | SetTarget t => gpdm_set_target align src t d
  | FromVector v => gpdm_from_vector v d
  | SetActive k => gpdm_set_active align src k d
  | Increment m => gpdm_increment align src m d
  end.
Lemma gpdm_from_ok v (d d' : gpdm F N) : gpdm_from_vector v d = (d', Ok tt) ->
  gpdm_synced d' /\ gpdm_vector d' = v /\ g_model d' = g_model d.
Proof.
  rewrite /gpdm_from_vector. case E : sim_from_vector => [g|] //. set e := Gpdm _ _ _ _. case G : (gpdm_generate e) => [t|] // [<-].
  split; first exact: (gpdm_generate_ok G). split=> //.
  have X : sim_vector g = take 4 v; last by rewrite /gpdm_vector [sim_vector _]X cat_take_drop.
  move: E. by case: (take 4 v) => [|a [|b [|x [|y [|z l]]]]] //= [<-].
Qed.
Lemma gpdm_perform_synced o (d d' : gpdm F N) : gpdm_perform o d = (d', Ok tt) -> gpdm_synced d'.
Proof.
  case: o => [t|v|k|m] /=.
  - by move=> /gpdm_sync_ok [].
  - by move=> /gpdm_from_ok [].
  - rewrite /gpdm_set_active. case: set_active => // m' /gpdm_sync_ok [] //.
  - by move=> /gpdm_sync_ok [].
Qed.
Lemma gpdm_from_succeeds v (d : gpdm F N) : size v = (4 + size (active (g_model d)))%N -> (gpdm_from_vector v d).2 = Ok tt.
Proof.
  move=> S. rewrite /gpdm_from_vector. case: v S => [|a [|b [|x [|y v]]]] //= [S].
  by rewrite take0 /= drop0 /gpdm_generate /= instance_ok ?S.
Qed.
End Global.

(** OrthoPDM *)
Section Ortho.
Variable align : shape -> shape -> sim F.
Variable orthonormalize : lmodel F N -> seq shape * lmodel F N.
Variable src : shape.
(** The global transform maps the source mean as closely as possible to the instance of the similarity model. *)
Definition opdm_synced (d : opdm F N) :=
  similar (o_sim d) (linear_shape (o_model d) (o_weights d)) (o_target d).
Definition opdm_global (d : opdm F N) :=
  o_sim d = align src (linear_shape (LModel (m_mean (o_model d)) (o_simcomps d) (size (o_simcomps d))) (o_simweights d)).
Lemma opdm_generate_ok (d : opdm F N) t : opdm_generate d = Ok t -> similar (o_sim d) (linear_shape (o_model d) (o_weights d)) t.
Proof. rewrite /opdm_generate. case E : instance => [s|] //= [<-]. rewrite (instanceE E). exact: sim_applyP. Qed.
Lemma opdm_regenerate_ok (d d' : opdm F N) : opdm_regenerate d = (d', Ok tt) ->
  opdm_synced d' /\ o_weights d' = o_weights d /\ o_simweights d' = o_simweights d /\ o_model d' = o_model d /\ o_sim d' = o_sim d /\ o_simcomps d' = o_simcomps d.
Proof.
  rewrite /opdm_regenerate. case E : opdm_generate => [t|] // [<-]. split; first exact: (opdm_generate_ok E). by [].
Qed.
Lemma opdm_update_ok q (d d' : opdm F N) : opdm_update_global align src q d = (d', Ok tt) ->
  opdm_global d' /\ o_simweights d' = q /\ o_model d' = o_model d /\ o_weights d' = o_weights d /\ o_target d' = o_target d /\ o_simcomps d' = o_simcomps d.
Proof.
  rewrite /opdm_update_global. case E : instance => [t|] // [<-] /=. split=> //. rewrite /opdm_global /=. by rewrite -(instanceE E).
Qed.
Lemma opdm_sync_ok (d d' : opdm F N) : opdm_sync_state align src d = (d', Ok tt) ->
  opdm_synced d' /\ opdm_global d' /\ size (o_weights d') = size (active (o_model d')) /\ size (o_simweights d') = size (o_simcomps d') /\
  o_model d' = o_model d /\ o_simcomps d' = o_simcomps d.
Proof.
  rewrite /opdm_sync_state. case E : opdm_update_global => [d1 [[]|]] //.
  have [G [Q [M [_ [_ C]]]]] := opdm_update_ok E. case: sim_pinv_apply => // t0 /opdm_regenerate_ok /= [S [W [Q' [M' [S' C']]]]].
  split=> //. split; first by rewrite /opdm_global M' C' Q' S'. rewrite W project_size M' Q' Q project_size C' M C. do !split=> //.
  by rewrite /o_similarity /active /= take_size.
Qed.
Definition opdm_perform (o : op F N) (d : opdm F N) : opdm F N * res unit :=
  match o with
  | SetTarget t => opdm_set_target align src t d
  | FromVector v => opdm_from_vector align src v d
  | SetActive k => opdm_set_active align src k d
  | Increment m => opdm_increment align orthonormalize src m d
  end.
Lemma opdm_from_ok v (d d' : opdm F N) : opdm_from_vector align src v d = (d', Ok tt) ->
  opdm_synced d' /\ opdm_global d' /\ opdm_vector d' = v /\ o_model d' = o_model d /\ o_simcomps d' = o_simcomps d.
Proof.
  rewrite /opdm_from_vector. case E : opdm_update_global => [d1 [[]|]] //.
  have [G [Q [M [_ [_ C]]]]] := opdm_update_ok E.
  move=> /opdm_regenerate_ok /= [S [W [Q' [M' [S' C']]]]]. split=> //.
  split; first by rewrite /opdm_global M' C' Q' S'. rewrite /opdm_vector W Q' Q cat_take_drop M' M C' C. by [].
Qed.
Lemma opdm_perform_synced o (d d' : opdm F N) : opdm_perform o d = (d', Ok tt) -> opdm_synced d' /\ opdm_global d'.
Proof.
  case: o => [t|v|k|m] /=.
  - by move=> /opdm_sync_ok [? []].
  - by move=> /opdm_from_ok [? []].
  - rewrite /opdm_set_active. case: set_active => // m' /opdm_sync_ok [? []] //.
  - by move=> /opdm_sync_ok [? []].
Qed.
Lemma opdm_from_succeeds v (d : opdm F N) : size (o_simweights d) = size (o_simcomps d) ->
  size v = (size (o_simcomps d) + size (active (o_model d)))%N -> (opdm_from_vector align src v d).2 = Ok tt.
Proof.
  move=> S0 S. rewrite /opdm_from_vector /opdm_update_global.
  have L : (size (take (size (o_simweights d)) v) <= size (o_simcomps d))%N by rewrite size_take S0; case: ltnP.
  rewrite instance_ok /= ?/o_similarity ?/active /= ?take_size //.
  rewrite /opdm_regenerate /opdm_generate /= instance_ok //=. by rewrite size_drop S S0 addKn.
Qed.
Lemma opdm_new_ok m (d : opdm F N) : opdm_new align orthonormalize m = (d, Ok tt) -> opdm_synced d.
Proof. rewrite /opdm_new. set e := opdm_construct _ _. case E : opdm_generate => [t|] // [<-]. exact: (opdm_generate_ok E). Qed.
Lemma opdm_new_total m : (opdm_new align orthonormalize m).2 = Ok tt.
Proof.
  rewrite /opdm_new /opdm_construct /=. case: orthonormalize => sc m' /=.
  by rewrite /opdm_generate /= instance_ok ?size_nseq.
Qed.
End Ortho.
End P.

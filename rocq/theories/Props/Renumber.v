(** C104: renumbering the landmarks renumbers the results and changes nothing else. *)
From Coq Require List String Reals Permutation.
From Verif.Model Require Import Py Einsum LinAlg ModelInstance Jacobian Updates ClmFitter SdmVectors SdmOrtho SimilarityModel Regression CascadeError InitialShape.
From Verif.Model Require SdmAlgorithm ErrorR.
From Verif.Spec Require Import ModelInstance Moves InitialShape Renumber.
From Verif.Proofs Require Import MRing LinAlg ModelInstance Projection ModelExample Updates ClmPose ClmFitterExample SimilarityModel Renumber RenumberReg.
From Verif.Props Require CascadeError Moves.
From Verif.Proofs Require Regression.
From Verif.Proofs Require MovesSdm SdmSimulation RenumberErrors InitialShape.
From mathcomp Require Import all_ssreflect all_fingroup all_algebra.
Set Implicit Arguments.
Unset Strict Implicit.
Unset Printing Implicit Defensive.
Import Order.TTheory GRing.Theory Num.Theory.
Local Open Scope ring_scope.

(** The Procrustes alignment does not see the numbering; the similarity model of the renumbered mean is the renumbered one. *)
Theorem c104_alignment : forall (F : rcfType) N, ignores_numbering (@procrustes F N) /\
  forall p (s : 'M[F]_(N, 2)), similarity_2d_instance_model (renumbered p s) = renumbered_model p (similarity_2d_instance_model s).
Proof. move=> F N. split=> [p s t|p s]; [exact: procrustes_R|exact: similarity_model_R]. Qed.
Print Assumptions c104_alignment.

(** Shape models: every call on the renumbered model leaves the renumbered state (the same parameters, the same transform, the
    renumbered target) with the same exception, whatever state the model was in. *)
Theorem c104_shape_models : forall (F : realFieldType) N (align : 'M[F]_(N, 2) -> 'M[F]_(N, 2) -> sim F) p, ignores_numbering align ->
  forall src (d : opdm F N),
  (forall t, opdm_set_target align (renumbered p src) (renumbered p t) (renumbered_pdm p d) =
     (renumbered_pdm p (opdm_set_target align src t d).1, (opdm_set_target align src t d).2)) /\
  (forall v, opdm_from_vector align (renumbered p src) v (renumbered_pdm p d) =
     (renumbered_pdm p (opdm_from_vector align src v d).1, (opdm_from_vector align src v d).2)) /\
  (forall k, opdm_set_active align (renumbered p src) k (renumbered_pdm p d) =
     (renumbered_pdm p (opdm_set_active align src k d).1, (opdm_set_active align src k d).2)).
Proof. move=> F N al p IG s d. split=> [t|]; [exact: set_target_R|]. split=> [v|k]; [exact: from_vector_R|exact: set_active_R]. Qed.
Print Assumptions c104_shape_models.

(** Constrained local models.  Two sessions, constructing fitters and fitting with any of them in any order: one with a trained
    model, one with the renumbered model, every shape handed in renumbered.  Experts that are renumbered along look at the same
    places.  Every fit gives the renumbered shapes with the same parameters at every iteration of every scale, or raises the same
    exception. *)
Theorem c104_clm : forall (F : realFieldType) N (Image : Type) align noise_variance eigenvalues p
    (displacement displacement' : nat -> Image -> 'M[F]_(N, 2) -> res 'cV[F]_(N * 2)) (next next' : nat -> Image -> 'M[F]_(N, 2) -> 'M[F]_(N, 2)) exceeds exceeds',
  ignores_numbering align ->
  (forall m, noise_variance (renumbered_model p m) = noise_variance m) -> (forall m, eigenvalues (renumbered_model p m) = eigenvalues m) ->
  (forall k im s, displacement' k im (renumbered p s) = map_res (renumbered_vector p) (displacement k im s)) ->
  (forall k im s, next' k im (renumbered p s) = renumbered p (next k im s)) ->
  (forall s t, exceeds' (renumbered p s) (renumbered p t) = exceeds s t) ->
  forall os i c ds,
  outcome align displacement' next' exceeds' i (renumbered_call p c)
    (session align noise_variance eigenvalues displacement' next' exceeds' [seq renumbered_op p o | o <- os] (World [seq renumbered_pdm p d | d <- ds] [::])) =
  map_res (map (renumbered_result p))
    (outcome align displacement next exceeds i c (session align noise_variance eigenvalues displacement next exceeds os (World ds [::]))).
Proof.
  move=> F N Im al nv ev p di di' ne ne' ex ex' IG NV EV DI NX EX os i c ds.
  have := session_R IG DI NX EX NV EV os (World ds [::]). rewrite /RW /= => ->. exact: outcome_R.
Qed.
Print Assumptions c104_clm.

(** ** Supervised descent *)
Section Sdm.
Variable F : realFieldType.
Variable N : nat.
Notation shape := 'M[F]_(N, 2).
Variable p : 'S_N.
(** PointCloud.as_vector and from_vector, on the rows of the arrays. *)
Definition coordinates (s : shape) : 'rV[F]_(N * 2) := (as_vector s)^T.
Definition from_coordinates (s : shape) (v : 'rV[F]_(N * 2)) : shape := reshape_points s v^T.
Let P : 'M[F]_(N * 2) := perm_mx (vperm p)^-1.
Lemma coordinates_R s : coordinates (renumbered p s) = coordinates s *m P.
Proof. by rewrite /coordinates as_vector_R tr_row_perm col_permE. Qed.
Lemma renumbered_rowE v : renumbered_row p v = v *m P.
Proof. by rewrite /renumbered_row renumbered_vectorE tr_row_perm trmxK col_permE. Qed.
Lemma from_coordinates_R s t v : from_coordinates t (v *m P) = renumbered p (from_coordinates s v).
Proof.
  have -> : from_coordinates s v = reshape_points 0 v^T by [].
  rewrite -renumbered_rowE /from_coordinates /renumbered_row trmxK /renumbered_vector. exact: MovesSdm.reshape_flat.
Qed.

Variables (I A E : Type) (d : nat).
Variable patches : I -> shape -> res 'rV[F]_d.
Variable build_appearance : nat -> seq 'rV[F]_d -> res A.
Variable appearance_feature : A -> 'rV[F]_d -> res 'rV[F]_d.
Variable compute_error : shape -> shape -> shape -> res E.
(** The features of a renumbered shape are those of the shape, in another order. *)
Variable q : 'S_d.
Hypothesis PA : forall im s, patches im (renumbered p s) = map_res (col_perm q) (patches im s).
Hypothesis CE : forall s t u, compute_error (renumbered p s) (renumbered p t) (renumbered p u) = compute_error s t u.
Let Q : 'M[F]_d := perm_mx q^-1.
Let PAQ im s : patches im (renumbered p s) = map_res (mulmx^~ Q) (patches im s).
Proof. rewrite PA. case: patches => [x|e] //=. by rewrite col_permE. Qed.
Let OQ : Q^T *m Q = 1%:M. Proof. exact: perm_orth. Qed.
Let OP : P^T *m P = 1%:M. Proof. exact: perm_orth. Qed.

(** The same history of trainings and increments with every shape renumbered. *)
Definition renumbered_training (c : SdmAlgorithm.call shape I) : SdmAlgorithm.call shape I :=
  let: SdmAlgorithm.Call inc vb images gts cur := c in
  SdmAlgorithm.Call inc vb images [seq renumbered p s | s <- gts] [seq [seq renumbered p s | s <- ss] | ss <- cur].
Let training_fC h : List.map (@SdmSimulation.fC shape I (renumbered p) id) h = [seq renumbered_training c | c <- h].
Proof. elim: h => [|[inc vb im g c] h IH] //=. rewrite IH. by rewrite List.map_id. Qed.

Section Free.
Variables (R : Type) (RR : R -> R -> Prop).
Variable reg_train : seq 'rV[F]_d -> seq (option 'rV[F]_(N * 2)) -> res R.
Variable reg_increment : R -> seq 'rV[F]_d -> seq (option 'rV[F]_(N * 2)) -> res R.
Variable reg_predict : R -> seq 'rV[F]_d -> res (seq 'rV[F]_(N * 2)).
Variable reg_predict1 : R -> 'rV[F]_d -> res 'rV[F]_(N * 2).
Notation VV := (map (omap (mulmx^~ P))).
Hypothesis RT : forall f dl, both RR (reg_train f dl) (reg_train (map (mulmx^~ Q) f) (VV dl)).
Hypothesis RI : forall r r' f dl, RR r r' -> both RR (reg_increment r f dl) (reg_increment r' (map (mulmx^~ Q) f) (VV dl)).
Hypothesis RP : forall r r' f, RR r r' -> reg_predict r' (map (mulmx^~ Q) f) = map_res (map (mulmx^~ P)) (reg_predict r f).
Hypothesis RP1 : forall r r' x, RR r r' -> reg_predict1 r' (x *m Q) = map_res (mulmx^~ P) (reg_predict1 r x).
Notation kd := (SdmAlgorithm.mkKind false false).
Notation calls := (SdmAlgorithm.calls +%R (fun a b : 'rV[F]_(N * 2) => a - b) SdmAlgorithm.free_set_target
  (SdmAlgorithm.free_from_vector from_coordinates) coordinates id patches build_appearance appearance_feature SdmAlgorithm.free_build reg_train reg_increment
  reg_predict compute_error 0 kd).
Notation fit := (SdmAlgorithm.fit +%R SdmAlgorithm.free_set_target (SdmAlgorithm.free_from_vector from_coordinates) coordinates id patches appearance_feature
  reg_predict1 kd).
Lemma free_renumbered n h : both (fun a a' => forall m m' im s,
    both (fun r r' => r'.1 = [seq renumbered p x | x <- r.1]) (fit a m im s) (fit a' m' im (renumbered p s)))
  (calls n SdmAlgorithm.fresh h) (calls n SdmAlgorithm.fresh [seq renumbered_training c | c <- h]).
Proof using PA CE RT RI RP RP1.
  pose RM (m m' : shape) := m' = renumbered p m.
  have ST m m' s : RM m m' -> both RM (SdmAlgorithm.free_set_target m s) (SdmAlgorithm.free_set_target m' (renumbered p s)) by [].
  have FV m m' v : RM m m' -> both RM (SdmAlgorithm.free_from_vector from_coordinates m v) (SdmAlgorithm.free_from_vector from_coordinates m' (v *m P)).
    move=> _ /=. exact: from_coordinates_R.
  have VEC m m' : RM m m' -> coordinates m' = coordinates m *m P by move=> ->; exact: coordinates_R.
  have BS gts : both RM (SdmAlgorithm.free_build gts) (SdmAlgorithm.free_build (List.map (renumbered p) gts)).
    rewrite /SdmAlgorithm.free_build SdmSimulation.nth_res_map. by case: Result.nth_res.
  have SUB (a b : 'rV[F]_(N * 2)) : a *m P - b *m P = (a - b) *m P by rewrite mulmxBl.
  have ADD (a b : 'rV[F]_(N * 2)) : a *m P + b *m P = (a + b) *m P by rewrite mulmxDl.
  have TGT (m m' : shape) : RM m m' -> id m' = renumbered p (id m) by [].
  have := @SdmSimulation.calls_sim shape 'rV[F]_(N * 2) I 'rV[F]_d R shape A E +%R (fun a b => a - b)
    SdmAlgorithm.free_set_target SdmAlgorithm.free_set_target (SdmAlgorithm.free_from_vector from_coordinates) (SdmAlgorithm.free_from_vector from_coordinates)
    coordinates id patches build_appearance appearance_feature SdmAlgorithm.free_build SdmAlgorithm.free_build reg_train reg_increment reg_predict compute_error 0
    (renumbered p) (mulmx^~ P) (mulmx^~ P) id (mulmx^~ Q) (mulmx^~ Q) RM RR (fun _ _ => True)
    ADD SUB ST FV VEC TGT PAQ kd ltac:(by [])
    ltac:(by []) BS RT RI RP n h SdmAlgorithm.fresh SdmAlgorithm.fresh
    ltac:(apply/List.Forall_forall => c _ _; split=> //; split; [by rewrite mul0mx|exact: CE]) ltac:(by split; first constructor).
  rewrite training_fC. case: SdmAlgorithm.calls => [a|e]; case: SdmAlgorithm.calls => [a'|e'] //= H m m' im s.
  have := @SdmSimulation.fit_sim shape 'rV[F]_(N * 2) I 'rV[F]_d R shape A +%R
    SdmAlgorithm.free_set_target SdmAlgorithm.free_set_target (SdmAlgorithm.free_from_vector from_coordinates) (SdmAlgorithm.free_from_vector from_coordinates)
    coordinates id patches appearance_feature reg_predict1 (renumbered p) (mulmx^~ P) (mulmx^~ P) id (mulmx^~ Q) (mulmx^~ Q) RM RR (fun _ _ => True)
    ADD ST FV VEC TGT PAQ kd ltac:(by []) RP1 a a' s (renumbered p s) im s H erefl.
  change (fit a m im s) with (fit a s im s). change (fit a' m' im (renumbered p s)) with (fit a' (renumbered p s) im (renumbered p s)).
  case: SdmAlgorithm.fit => [r|e]; case: SdmAlgorithm.fit => [r'|e'] //= [-> _]. by [].
Qed.
End Free.

(** Trained by any history of trainings and increments, on the shapes or on the renumbered shapes, with the features in the
    order of the landmarks: both histories raise the same exception, or fits from renumbered shapes give renumbered shapes. *)
Theorem c104_sdm_newton : forall (alpha : F) (bias inc : bool) n h,
  let calls := SdmAlgorithm.calls +%R (fun a b : 'rV[F]_(N * 2) => a - b) SdmAlgorithm.free_set_target
    (SdmAlgorithm.free_from_vector from_coordinates) coordinates id patches build_appearance appearance_feature SdmAlgorithm.free_build
    (@newton_train F alpha bias inc d (N * 2)) (@newton_increment F alpha bias d (N * 2)) (@newton_predict F bias d (N * 2)) compute_error 0
    (SdmAlgorithm.mkKind false false) in
  let fit := SdmAlgorithm.fit +%R SdmAlgorithm.free_set_target (SdmAlgorithm.free_from_vector from_coordinates) coordinates id patches appearance_feature
    (fun (r : irl_state F (d + bias) (N * 2)) x => Ok (irl_predict r x)) (SdmAlgorithm.mkKind false false) in
  both (fun a a' => forall m m' im s, both (fun r r' => r'.1 = [seq renumbered p x | x <- r.1]) (fit a m im s) (fit a' m' im (renumbered p s)))
    (calls n SdmAlgorithm.fresh h) (calls n SdmAlgorithm.fresh [seq renumbered_training c | c <- h]).
Proof using PA CE.
  move=> alpha bias inc n h. apply: (@free_renumbered _ (irl_rel Q P)).
  - move=> f dl. apply: train_rows_rel => k X Y. exact: irl_train_rel.
  - move=> r r' f dl H. apply: train_rows_rel => k X Y. exact: irl_increment_rel.
  - move=> r r' f H. apply: predict_rows_rel => k x. exact: irl_predict_rel.
  - move=> r r' x H /=. by rewrite (irl_predict_rel x OQ H).
Qed.
Theorem c104_sdm_gauss_newton : forall (alpha alpha2 : F) n h,
  let calls := SdmAlgorithm.calls +%R (fun a b : 'rV[F]_(N * 2) => a - b) SdmAlgorithm.free_set_target
    (SdmAlgorithm.free_from_vector from_coordinates) coordinates id patches build_appearance appearance_feature SdmAlgorithm.free_build
    (@gauss_newton_train F alpha alpha2 d (N * 2)) (fun r => train_rows (fun n => @iirl_increment F n d (N * 2) r)) (@gauss_newton_predict F d (N * 2)) compute_error 0
    (SdmAlgorithm.mkKind false false) in
  let fit := SdmAlgorithm.fit +%R SdmAlgorithm.free_set_target (SdmAlgorithm.free_from_vector from_coordinates) coordinates id patches appearance_feature
    (fun (r : iirl_state F d (N * 2)) x => Ok (iirl_predict r x)) (SdmAlgorithm.mkKind false false) in
  both (fun a a' => forall m m' im s, both (fun r r' => r'.1 = [seq renumbered p x | x <- r.1]) (fit a m im s) (fit a' m' im (renumbered p s)))
    (calls n SdmAlgorithm.fresh h) (calls n SdmAlgorithm.fresh [seq renumbered_training c | c <- h]).
Proof using PA CE.
  move=> alpha alpha2 n h. apply: (@free_renumbered _ (iirl_rel Q P)).
  - move=> f dl. apply: train_rows_rel => k X Y. exact: iirl_train_rel.
  - move=> r r' f dl [_ [V V']]. apply: train_rows_rel => k X Y. by rewrite /iirl_increment V V'.
  - move=> r r' f H. apply: predict_rows_rel => k x. exact: iirl_predict_rel.
  - move=> r r' x H /=. by rewrite (iirl_predict_rel x OQ H).
Qed.

(** With a parametric shape model that is built renumbered from renumbered shapes. *)
Section Ortho.
Variable align : shape -> shape -> sim F.
Hypothesis IG : ignores_numbering align.
Variables (src : shape) (k : nat).
Variable build_shape : seq shape -> res (opdm F N).
Hypothesis BS : forall gts, build_shape [seq renumbered p s | s <- gts] = map_res (renumbered_pdm p) (build_shape gts).
Notation to_row := (@Verif.Props.CascadeError.to_row F k).
Notation of_row := (@Verif.Props.CascadeError.of_row F k).
Theorem c104_sdm_newton_ortho : forall (alpha : F) (bias inc : bool) n h,
  let calls source := SdmAlgorithm.calls +%R (fun a b : 'rV[F]_k => a - b) (ortho_set_target align source)
    (fun m v => ortho_from_vector align source m (of_row v)) (fun m => to_row (opdm_vector m)) (@o_target F N) patches build_appearance appearance_feature build_shape
    (@newton_train F alpha bias inc d k) (@newton_increment F alpha bias d k) (@newton_predict F bias d k) compute_error 0
    (SdmAlgorithm.mkKind true false) in
  let fit source := SdmAlgorithm.fit +%R (ortho_set_target align source) (fun m v => ortho_from_vector align source m (of_row v)) (fun m => to_row (opdm_vector m))
    (@o_target F N) patches appearance_feature (fun (r : irl_state F (d + bias) k) x => Ok (irl_predict r x)) (SdmAlgorithm.mkKind true false) in
  both (fun a a' => SdmAlgorithm.a_shape a' = omap (renumbered_pdm p) (SdmAlgorithm.a_shape a) /\
      forall m im s, both (fun r r' => r'.1 = [seq renumbered p x | x <- r.1] /\ r'.2 = renumbered_pdm p r.2)
        (fit src a m im s) (fit (renumbered p src) a' (renumbered_pdm p m) im (renumbered p s)))
    (calls src n SdmAlgorithm.fresh h) (calls (renumbered p src) n SdmAlgorithm.fresh [seq renumbered_training c | c <- h]).
Proof using PA CE IG BS.
  move=> alpha bias inc n h calls fit.
  pose RM (m m' : opdm F N) := m' = renumbered_pdm p m.
  have ST m m' s : RM m m' -> both RM (ortho_set_target align src m s) (ortho_set_target align (renumbered p src) m' (renumbered p s)).
    move=> ->. rewrite /ortho_set_target set_target_R //. by case: opdm_set_target => [m1 [u|e]].
  have FV m m' v : RM m m' -> both RM (ortho_from_vector align src m (of_row v)) (ortho_from_vector align (renumbered p src) m' (of_row v)).
    move=> ->. rewrite /ortho_from_vector /= active_R !size_map. case: ifP => // _. rewrite from_vector_R //. by case: opdm_from_vector => [m1 [u|e]].
  have VEC m m' : RM m m' -> to_row (opdm_vector m') = to_row (opdm_vector m) by move=> ->.
  have TGT m m' : RM m m' -> o_target m' = renumbered p (o_target m) by move=> ->.
  have BS' gts : both RM (build_shape gts) (build_shape (List.map (renumbered p) gts)).
    have := BS gts. rewrite [map _ _]/(List.map _ _) => ->. by case: build_shape.
  have omap_id T (l : seq (option T)) : List.map (omap id) l = l by elim: l => [|[x|] l IH] //=; rewrite IH.
  have O1 : (1%:M : 'M[F]_k)^T *m 1%:M = 1%:M by rewrite trmx1 mulmx1.
  have id1 (l : seq (option 'rV[F]_k)) : List.map (omap id) l = map (omap (mulmx^~ 1%:M)) l.
    elim: l => [|[x|] l IH] //=; rewrite ?mulmx1; congr (_ :: _); exact: IH.
  have RT f dl : both (irl_rel Q 1%:M) (@newton_train F alpha bias inc d k f dl) (newton_train alpha bias inc (List.map (mulmx^~ Q) f) (List.map (omap id) dl)).
    rewrite id1. apply: train_rows_rel => l X Y. exact: irl_train_rel.
  have RI r r' f dl : irl_rel Q 1%:M r r' -> both (irl_rel Q 1%:M) (@newton_increment F alpha bias d k r f dl) (newton_increment alpha r' (List.map (mulmx^~ Q) f) (List.map (omap id) dl)).
    move=> H. rewrite id1. apply: train_rows_rel => l X Y. exact: irl_increment_rel.
  have map_1 (l : seq 'rV[F]_k) : map (mulmx^~ 1%:M) l = l by elim: l => [|x l IH] //=; rewrite mulmx1 IH.
  have RP r r' f : irl_rel Q 1%:M r r' -> @newton_predict F bias d k r' (List.map (mulmx^~ Q) f) = map_res (List.map id) (newton_predict r f).
    move=> H. have := @predict_rows_rel F _ d k Q 1%:M (fun n => @irl_predict F bias n d k) r r' f (fun n x => irl_predict_rel x OQ H).
    rewrite /newton_predict => ->. rewrite /predict_rows /=. by rewrite map_1 List.map_id.
  have RP1 (r r' : irl_state F (d + bias) k) (x : 'rV[F]_d) : irl_rel Q 1%:M r r' -> Ok (irl_predict r' (x *m Q)) = map_res id (Ok (irl_predict r x)).
    move=> H /=. by rewrite (irl_predict_rel x OQ H) mulmx1.
  have := @SdmSimulation.calls_sim shape 'rV[F]_k I 'rV[F]_d _ (opdm F N) A E +%R (fun a b => a - b)
    (ortho_set_target align src) (ortho_set_target align (renumbered p src)) (fun m v => ortho_from_vector align src m (of_row v)) (fun m v => ortho_from_vector align (renumbered p src) m (of_row v))
    (fun m => to_row (opdm_vector m)) (@o_target F N) patches build_appearance appearance_feature build_shape build_shape _ _ _ compute_error 0
    (renumbered p) id id id (mulmx^~ Q) (mulmx^~ Q) RM (irl_rel Q 1%:M) (fun _ _ => True)
    ltac:(by []) ltac:(by []) ST FV VEC TGT PAQ (SdmAlgorithm.mkKind true false) ltac:(by [])
    ltac:(by []) BS' RT RI RP n h SdmAlgorithm.fresh SdmAlgorithm.fresh
    ltac:(apply/List.Forall_forall => c _ _; by split) ltac:(by split; first constructor).
  rewrite training_fC -/(calls src) -/(calls (renumbered p src)). case: (calls src) => [a|e]; case: (calls (renumbered p src)) => [a'|e'] //= H. split.
    case: H => _. rewrite /SdmSimulation.RMo. by case: SdmAlgorithm.a_shape => [m|]; case: SdmAlgorithm.a_shape => [m'|] //= ->.
  move=> m im s. have := @SdmSimulation.fit_sim shape 'rV[F]_k I 'rV[F]_d _ (opdm F N) A +%R
    (ortho_set_target align src) (ortho_set_target align (renumbered p src)) (fun m v => ortho_from_vector align src m (of_row v)) (fun m v => ortho_from_vector align (renumbered p src) m (of_row v))
    (fun m => to_row (opdm_vector m)) (@o_target F N) patches appearance_feature (fun r x => Ok (irl_predict r x)) (renumbered p) id id id (mulmx^~ Q) (mulmx^~ Q) RM (irl_rel Q 1%:M) (fun _ _ => True)
    ltac:(by []) ST FV VEC TGT PAQ (SdmAlgorithm.mkKind true false) ltac:(by []) RP1 a a' m (renumbered_pdm p m) im s H erefl.
  by [].
Qed.
End Ortho.
End Sdm.
Print Assumptions c104_sdm_newton_ortho.
Print Assumptions c104_sdm_newton.
Print Assumptions c104_sdm_gauss_newton.

(** Where a fit from a bounding box starts: the renumbered reference shape gives the renumbered initial shape, at the same scale. *)
Theorem c104_initial : forall (F : rcfType) N p (reference : 'M[F]_(N.+1, 2)) scale box,
  fit_from_bb_start (renumbered p reference) scale box = ((fit_from_bb_start reference scale box).1, renumbered p (fit_from_bb_start reference scale box).2).
Proof.
  move=> F N p r sc box. have B : bounding_box (renumbered p r) = bounding_box r.
    rewrite (InitialShape.box_of (InitialShape.least_tight r)). apply: InitialShape.box_of.
    have [I [L G]] := InitialShape.least_tight r. split; [|split].
    - move=> i j. by rewrite mxE.
    - move=> j. have [i E] := L j. exists (perm_inv p i). by rewrite mxE permKV.
    - move=> j. have [i E] := G j. exists (perm_inv p i). by rewrite mxE permKV.
  have A : align_shape_with_bounding_box (renumbered p r) box = renumbered p (align_shape_with_bounding_box r box)
    by rewrite /align_shape_with_bounding_box B sim_apply_R.
  by rewrite /fit_from_bb_start A /factor !norm_R RZ_.
Qed.
Print Assumptions c104_initial.

(** ** Errors of shapes given as lists of points: the pairs of a point and its ground truth listed in another order. *)
Section Errors.
Import List Permutation.
Notation pts l := (List.map fst l).
Notation gt l := (List.map snd l).
Notation points := (list (Rdefinitions.R * Rdefinitions.R)).
Theorem c104_errors : forall (l l' : list ((Rdefinitions.R * Rdefinitions.R) * (Rdefinitions.R * Rdefinitions.R))), Permutation l l' ->
  ErrorR.euclidean_error (pts l') (gt l') = ErrorR.euclidean_error (pts l) (gt l) /\
  ErrorR.root_mean_square_error (pts l') (gt l') = ErrorR.root_mean_square_error (pts l) (gt l) /\
  (forall norm_type, ErrorR.bb_normalised_error ErrorR.euclidean_error (pts l') (gt l') None norm_type =
                     ErrorR.bb_normalised_error ErrorR.euclidean_error (pts l) (gt l) None norm_type) /\
  (forall norm_type (n n' : points), Permutation n n' ->
     ErrorR.bb_normalised_error ErrorR.euclidean_error (pts l') (gt l') (Some n') norm_type =
     ErrorR.bb_normalised_error ErrorR.euclidean_error (pts l) (gt l) (Some n) norm_type) /\
  (forall i j i' j', nth_error l' i' = nth_error l i -> nth_error l' j' = nth_error l j ->
     ErrorR.distance_indexed_normalised_error ErrorR.euclidean_error i' j' (pts l') (gt l') =
     ErrorR.distance_indexed_normalised_error ErrorR.euclidean_error i j (pts l) (gt l)).
Proof.
  move=> l l' P. split; [|split; [|split; [|split]]].
  - symmetry. exact: RenumberErrors.euclidean_perm.
  - symmetry. exact: RenumberErrors.rms_perm.
  - move=> t. symmetry. exact: (RenumberErrors.bb_perm _ _ _ None t RenumberErrors.euclidean_perm P None).
  - move=> t n n' Pn. symmetry. exact: (RenumberErrors.bb_perm _ _ _ (Some n) t RenumberErrors.euclidean_perm P (Some n')).
  - move=> i j i' j' Ei Ej. rewrite /ErrorR.distance_indexed_normalised_error -(RenumberErrors.euclidean_perm _ _ P).
    case: ErrorR.euclidean_error => [e|e] //=. rewrite (RenumberErrors.distance_follow (gt l) (gt l') i j i' j') //; by rewrite !nth_error_map ?Ei ?Ej.
Qed.
End Errors.
Print Assumptions c104_errors.

(** ** The hypotheses met together: the session of C84, with two landmarks exchanged. *)
Section Concrete.
Variable F : rcfType.
Notation shape := 'M[F]_(4, 2).
Let p : 'S_4 := tperm 0 1.
Let Image := (nat -> shape -> res 'cV[F]_(4 * 2))%type.
Let look (k : nat) (im : Image) s := im k s.
Let look' (k : nat) (im : Image) s := map_res (renumbered_vector p) (im k (renumbered p s)).
Let double (k : nat) (im : Image) (s : shape) : shape := 2%:R *: s.
Let far (s t : shape) : bool := 1 < dot (s - t) (s - t).
Example c104_clm_ex :
  (forall m, nv (renumbered_model p m) = nv m :> F) /\ (forall m, evs (renumbered_model p m) = evs m :> seq F) /\
  (forall k im s, look' k im (renumbered p s) = map_res (renumbered_vector p) (look k im s)) /\
  (forall k im s, double k im (renumbered p s) = renumbered p (double k im s)) /\
  (forall s t, far (renumbered p s) (renumbered p t) = far s t) /\
  renumbered p (mean4 F) <> mean4 F /\
  exists (im : Image) r, outcome (@procrustes F 4) look double far 0 (Call im (mean4 F) [:: 1%N] true)
     (session (@procrustes F 4) (@nv F) (@evs F) look double far [:: Build _ _ _ None] (World [:: at_mean 2 1] [::])) = Ok [:: r] /\ size (r_shapes r) = 2%N.
Proof.
  split=> //. split. { move=> m. by rewrite /evs active_R size_map. }
  split. { move=> k im s. rewrite /look' /look. congr (map_res _ (im k _)). apply/matrixP => i j. by rewrite !mxE tpermK. }
  split. { move=> k im s. by rewrite /double RZ_. }
  split. { move=> s t. by rewrite /far -RB_ dot_R. }
  split.
  { move/matrixP/(_ (inord 0) 0). rewrite mxE. have -> : p (inord 0) = inord 1 by rewrite (_ : inord 0 = 0) ?tpermL; apply/val_inj; rewrite /= ?inordK.
    rewrite !mean4E //= => /eqP. by rewrite eq_sym oner_eq0. }
  have [f [r [B [_ [_ [_ [_ [H Z]]]]]]]] := Verif.Props.Moves.c84_clm_ex F.
  eexists _, r. split; last exact: Z. rewrite /session /step /build. rewrite [w_models _]/= B /outcome /=. exact: H.
Qed.

(** Supervised descent whose features are the pixels under the landmarks. *)
Let pixels (im : F -> F -> F) (s : shape) : res 'rV[F]_4 := Ok (\row_i im (s i 0) (s i 1)).
Example c104_sdm_ex : forall alpha im g s (inc := true), 0 < alpha ->
  (forall im s, pixels im (renumbered p s) = map_res (col_perm p) (pixels im s)) /\
  exists a, SdmAlgorithm.calls +%R (fun a b : 'rV[F]_(4 * 2) => a - b) SdmAlgorithm.free_set_target
    (SdmAlgorithm.free_from_vector (@from_coordinates F 4)) (@coordinates F 4) id pixels (fun _ _ => Ok tt) (fun _ x => Ok x) SdmAlgorithm.free_build
    (@newton_train F alpha true true 4 (4 * 2)) (@newton_increment F alpha true 4 (4 * 2)) (@newton_predict F true 4 (4 * 2)) (fun s t u => Ok (dot (s - t) (s - t))) 0
    (SdmAlgorithm.mkKind false false) 1 SdmAlgorithm.fresh [:: SdmAlgorithm.Call false true [:: im] [:: g] [:: [:: s]]] = Ok a /\
    size (SdmAlgorithm.a_regressors a) = 1%N.
Proof.
  move=> alpha im g s inc A0. split. { move=> im' s'. congr Ok. apply/matrixP => i j. by rewrite !mxE. }
  have TR (f : 'rV[F]_4) (v : 'rV[F]_(4 * 2)) : exists r, @newton_train F alpha true true 4 (4 * 2) [:: f] [:: Some v] = Ok r.
    rewrite /newton_train /train_rows [size _ == _]/=. eexists. apply: (@Regression.irl_train_ok F).
    apply: Regression.posdef_is_unit. rewrite addrC -[_^T *m _]scale1r. apply: Regression.posdef_add; [exact: Regression.posdef_scalar|exact: ler01].
  cbn -[newton_train newton_predict coordinates from_coordinates pixels dot]. rewrite /pixels. cbn -[newton_train newton_predict coordinates from_coordinates dot].
  have [r ->] := TR (\row_i im (s i 0) (s i 1)) (coordinates g - coordinates s).
  have [e E] : exists e, newton_predict r [:: \row_i im (s i 0) (s i 1)] = Ok [:: e].
    rewrite /newton_predict /predict_rows /rows_of. have -> : enum 'I_(size [:: \row_i im (s i 0) (s i 1)]) = [:: ord0] by apply: (inj_map val_inj); rewrite val_enum_ord.
    by eexists.
  cbn -[newton_predict coordinates from_coordinates dot]. rewrite E. cbn -[coordinates from_coordinates dot]. eexists. split; first reflexivity. by [].
Qed.
(** A shape model built from the first annotation: its similarity components, no others. *)
Let first_pdm (gts : seq shape) : res (opdm F 4) :=
  map_res (fun g => Opdm (LModel g [::] 0) [::] g (Sim 0 0 0 0) (m_comps (similarity_2d_instance_model g)) [:: 0; 0; 0; 0]) (Result.nth_res gts 0).
Example c104_ortho_ex : ignores_numbering (@procrustes F 4) /\ (forall gts, first_pdm [seq renumbered p s | s <- gts] = map_res (renumbered_pdm p) (first_pdm gts)) /\
  exists d, first_pdm [:: mean4 F] = Ok d /\ o_target d <> renumbered p (o_target d).
Proof.
  split; first by have [] := c104_alignment F 4. split.
    move=> gts. rewrite /first_pdm (_ : [seq renumbered p s | s <- gts] = List.map (renumbered p) gts) // SdmSimulation.nth_res_map. case: Result.nth_res => [g|e] //=.
    have [_ /(_ p g) E] := c104_alignment F 4. congr Ok. have H := congr1 (@m_comps F 4) E. rewrite /= in H. rewrite /renumbered_pdm /= H. by [].
  eexists. split; first reflexivity. rewrite /= => /esym. by have [_ [_ [_ [_ [_ [H _]]]]]] := c104_clm_ex.
Qed.
End Concrete.
Example c104_errors_ex : forall a b c d : Rdefinitions.R * Rdefinitions.R, Permutation.Permutation [:: (a, b); (c, d)] [:: (c, d); (a, b)].
Proof. move=> a b c d. exact: Permutation.perm_swap. Qed.

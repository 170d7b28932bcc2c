(** C84: moving the image and the initial shape moves the fit by the same amount. *)
From Verif.Model Require Import Py Einsum LinAlg ModelInstance Jacobian Updates ClmFitter SimilarityModel SdmOrtho SdmVectors.
From Verif.Model Require SdmAlgorithm.
From Verif.Spec Require Import ModelInstance Pose Moves.
From Verif.Proofs Require Import MRing LinAlg ModelInstance Projection ModelExample Updates ClmPose ClmFitterExample SimilarityModel Moves MovesSdm.
From Coq Require List.
From mathcomp Require Import all_ssreflect all_algebra.
Set Implicit Arguments.
Unset Strict Implicit.
Unset Printing Implicit Defensive.
Import Order.TTheory GRing.Theory Num.Theory.
Local Open Scope ring_scope.

(** The Procrustes alignment follows its target. *)
Theorem c84_alignment : forall (F : rcfType) N, (0 < N)%N -> follows_shifts (@procrustes F N).
Proof. move=> F N. exact: procrustes_follows. Qed.
Print Assumptions c84_alignment.

(** Constrained local models.  The second image looks, around every shifted shape, as the first does around the shape itself
    ([o k] is the shift at scale [k]).  Fits of the two, from an initial shape and the shifted one, with fitters built from the
    same trained model and whatever has been fitted with them before, raise the same exception or give shifted shapes with the
    same shape weights at every iteration of every scale. *)
Theorem c84_clm : forall (F : realFieldType) N (Image : Type) align noise_variance eigenvalues
    (displacement : nat -> Image -> 'M[F]_(N, 2) -> res 'cV[F]_(N * 2)) (next : nat -> Image -> 'M[F]_(N, 2) -> 'M[F]_(N, 2)) exceeds
    (im im' : Image) (o : nat -> F * F),
  follows_shifts align ->
  (forall x s t, exceeds (shifted x s) (shifted x t) = exceeds s t) ->
  (forall k s, displacement k im' (shifted (o k) s) = displacement k im s) ->
  (forall k s, next k im' (shifted (o k) s) = shifted (o k.+1) (next k im s)) ->
  forall (ds ds' : seq (opdm F N)) built f s max_iters map_inference,
  mapM (alg_new noise_variance eigenvalues) built = Ok f ->
  (forall d, List.In d ds -> trained_pdm d) -> map (@o_model F N) ds' = map (@o_model F N) ds -> map (@o_simcomps F N) ds' = map (@o_simcomps F N) ds ->
  both (shifted_results o 0) (fit align displacement next exceeds (Call im s max_iters map_inference) f ds).2
                             (fit align displacement next exceeds (Call im' (shifted (o 0%N) s) max_iters map_inference) f ds').2.
Proof.
  move=> F N Image al nv ev di ne ex im im' o FS EX DI NX ds ds' built f s mx mi B T E1 E2.
  rewrite /fit /=. apply: (fit_shifts FS EX DI NX) => //.
    elim: built f B => [|d built IH] f /=; first by move=> [<-]. case A : alg_new => [a|e] //=. case M : mapM => [f'|e] //= [<-] x /= [<-|]; last exact: IH.
    exact: built_plain A.
  elim: ds ds' E1 E2 {T} => [|d ds IH] [|d' ds'] //= [E1 E1'] [E2 E2']. congr (_ :: _); last exact: IH. by rewrite /Proofs.ClmFitter.static E1 E2.
Qed.
Print Assumptions c84_clm.

(** Supervised descent without a shape model: the same for the shapes of a fit, with the same exceptions. *)
Theorem c84_sdm : forall (F : realFieldType) N (I X R A : Type) (patches : I -> 'M[F]_(N, 2) -> res X) (appearance_feature : A -> X -> res X)
    (reg_predict1 : R -> X -> res 'cV[F]_(N * 2)) (im im' : I) (o : F * F),
  (forall s, patches im' (shifted o s) = patches im s) ->
  forall kd a (m m' s : 'M[F]_(N, 2)),
  let fit := SdmAlgorithm.fit +%R (@SdmAlgorithm.free_set_target _) (SdmAlgorithm.free_from_vector (@reshape_points F N)) (@as_vector F N) id
               patches appearance_feature reg_predict1 kd a in
  both (fun r r' => r'.1 = [seq shifted o x | x <- r.1]) (fit m im s) (fit m' im' (shifted o s)).
Proof.
  move=> F N I X R A pa af rp im im' o PA kd a m m' s.
  apply: (@fit_follows _ _ _ _ _ _ _ _ _ _ _ _ _ _ _ (shifted o) (fun x x' => x' = shifted o x)) => //=.
  move=> x x' dx ->. exact: free_follows.
Qed.
Print Assumptions c84_sdm.
(** Supervised descent on an OrthoPDM in any state. *)
Theorem c84_sdm_ortho : forall (F : realFieldType) N (I X R A : Type) (patches : I -> 'M[F]_(N, 2) -> res X) (appearance_feature : A -> X -> res X)
    (reg_predict1 : R -> X -> res (seq F)) align src (im im' : I) (o : F * F),
  follows_shifts align -> (forall s, patches im' (shifted o s) = patches im s) ->
  forall kd a (d d' : opdm F N) s, trained_pdm d -> o_model d' = o_model d -> o_simcomps d' = o_simcomps d ->
  let fit := SdmAlgorithm.fit (@add_params F) (ortho_set_target align src) (ortho_from_vector align src) (@opdm_vector F N) (@o_target F N)
               patches appearance_feature reg_predict1 kd a in
  both (fun r r' => r'.1 = [seq shifted o x | x <- r.1]) (fit d im s) (fit d' im' (shifted o s)).
Proof.
  move=> F N I X R A pa af rp al src im im' o FS PA kd a d d' s T E1 E2.
  apply: (@fit_follows _ _ _ _ _ _ _ _ _ _ _ _ _ _ _ (shifted o) (follows_state o (o_model d) (o_simcomps d))) => //.
  - by move=> m m' [_ [_ [_ [_ [_ [_ [-> _]]]]]]].
  - move=> m m' dx. exact: from_vector_rel.
  - exact: set_target_rel.
Qed.
Print Assumptions c84_sdm_ortho.

(** ** Concrete images: what a descent towards a shape reads; the moved image reads the same around moved shapes. *)
Section Concrete.
Variable F : rcfType.
Notation shape := 'M[F]_(4, 2).
Let Image := (nat -> shape -> res 'cV[F]_(4 * 2))%type.
Let look (k : nat) (im : Image) s := im k s.
Let im0 : Image := fun _ s => Ok (as_vector (mean4 F + comp4 F - s)).
Let o (k : nat) : F * F := (2 ^+ k, 3%:R * 2 ^+ k).
Let im1 : Image := fun k s => im0 k (shifted (- (o k).1, - (o k).2) s).
Let double (k : nat) (im : Image) (s : shape) : shape := 2%:R *: s.
Let far (s t : shape) : bool := 1 < dot (s - t) (s - t).
Let back x (s : shape) : shifted (- x.1, - x.2) (shifted x s) = s.
Proof. apply/matrixP => i j. rewrite !mxE /=. by case: ifP => _; rewrite addrK. Qed.
Let trained4 : trained_pdm (at_mean (F := F) 2 1).
Proof. split=> //. split; [exact: ortho4|exact: basis4_ok]. Qed.
Example c84_clm_ex : exists f r, mapM (alg_new (@nv F) (@evs F)) [:: at_mean 2 1] = Ok f /\
  (forall x s t, far (shifted x s) (shifted x t) = far s t) /\
  (forall k s, look k im1 (shifted (o k) s) = look k im0 s) /\
  (forall k s, double k im1 (shifted (o k) s) = shifted (o k.+1) (double k im0 s)) /\
  im1 0%N (mean4 F) <> im0 0%N (mean4 F) /\
  (fit (@procrustes F 4) look double far (Call im0 (mean4 F) [:: 1%N] true) f [:: at_mean 2 1]).2 = Ok [:: r] /\ size (r_shapes r) = 2%N.
Proof.
  have one : 1 * 1 = 1 :> F by rewrite mulr1. have [J [w [E [W [G _]]]]] := @new_ok F 2 1 one isT.
  have [d1 [S1 [_ Ew]]] := @opdm_mean F 4 (at_mean 2 1) 1 0 0 0 (@ortho4 F) (@basis4_ok F)
    ltac:(by exists (inord 0), (inord 1), 0; rewrite !mean4E //= oner_eq0) ltac:(by rewrite /nonzero oner_eq0).
  have M1 (s : shape) : moved 1 0 0 0 s = s.
    apply/matrixP => i j. rewrite mxE. have [->|->] := ord2 j; by rewrite /= !mul1r !mul0r ?subr0 ?add0r addr0.
  rewrite M1 in S1.
  have St := Proofs.ClmFitter.target_static (@procrustes F 4) (mean4 F) (mean4 F) (at_mean 2 1). rewrite [m_mean _]/= in S1. rewrite S1 in St.
  case: St => Em Ec.
  have Sq : size (o_simweights d1) = 4%N.
    have := set_target_shifts (@procrustes_follows F 4 isT) (0, 0) (mean4 F) (mean4 F) trained4 erefl. rewrite S1 /shifted_outcome.
    case: opdm_set_target => [x [u|u]] //= [_ [-> _]]. by rewrite Ec.
  have Sv : size (opdm_vector d1) = 6%N by rewrite /opdm_vector size_cat Sq Ew size_nseq.
  pose e : 'cV[F]_(4 * 2) := as_vector (mean4 F + comp4 F - o_target d1).
  have [d2 S2] : exists d2, clm_update (@procrustes F 4) (mean4 F) true J w d1 e = (d2, Ok tt).
    rewrite /clm_update /clm_step clm_pre_ok //; last by apply: unit_full; rewrite G unitmx1. cbn [bind]. move: (clm_increment _ _ _ _ _) => dp.
    set v := map _ _. have V : size v = (size (o_simcomps d1) + size (active (o_model d1)))%N by rewrite size_map size_iota Sv Ec Em.
    have := @opdm_from_succeeds F 4 (@procrustes F 4) (mean4 F) v d1. rewrite Sq Ec => /(_ erefl). rewrite V Ec => /(_ erefl).
    case: opdm_from_vector => [d2 r] /= ->. by exists d2.
  exists [:: Alg J w], (Result [:: o_target d1; o_target d2] [:: opdm_vector d1; opdm_vector d2]).
  split; first by rewrite /= E.
  split. { move=> x s t. rewrite /far. congr (1 < dot _ _); rewrite !shiftedE opprD addrACA subrr addr0 //. }
  split. { move=> k s. by rewrite /look /im1 back. }
  split. { move=> k s. rewrite /double. apply/matrixP => i j. rewrite !mxE mulrDr. congr (_ + _). rewrite /o /= !exprS. by case: ifP => _ //; rewrite mulrCA. }
  split.
  { rewrite /im1 /im0 => -[H]. have := congr1 (reshape_points 0) H. rewrite !reshape_flat => /matrixP /(_ (inord 0) 0). rewrite !mxE /= expr0.
    move/addrI /oppr_inj /eqP. by rewrite -subr_eq0 addrAC subrr add0r oppr_eq0 oner_eq0. }
  rewrite /fit /= /alg_run [src _]/= S1 /= /alg_step /look /im0 Sv eqxx /src Em /=. move: S2. rewrite /e => -> /=. by split.
Qed.
End Concrete.

(** C105: training supervised descent does not depend on where in its image each face is. *)
From Verif.Model Require Import Py ModelInstance Updates SimilarityModel SdmOrtho SdmVectors.
From Verif.Model Require SdmAlgorithm.
From Verif.Spec Require Import ModelInstance Pose Moves Renumber Placement.
From Verif.Proofs Require Import MRing ModelInstance Projection ModelExample SimilarityModel ClmFitterExample ClmPose Moves MovesSdm SdmOffsets.
From Verif.Proofs Require SdmSimulation ClmFitter.
From Verif.Props Require CascadeError.
From Coq Require List.
From mathcomp Require Import all_ssreflect all_algebra.
Set Implicit Arguments.
Unset Strict Implicit.
Unset Printing Implicit Defensive.
Import Order.TTheory GRing.Theory Num.Theory.
Local Open Scope ring_scope.

Lemma zip_pairs (A B C : Type) (f : A -> B -> C) (ds : seq (A * B)) xs : map fst ds = xs ->
  [seq f q.1 q.2 | q <- ds] = [seq f q.1 q.2 | q <- zip xs (map snd ds)].
Proof. move=> <-. elim: ds => [|[a b] ds IH] //=. by rewrite IH. Qed.

Section Free.
Variable F : realFieldType.
Variable N : nat.
Variables (I X R A E : Type).
Notation shape := 'M[F]_(N, 2).
Variable patches : I -> shape -> res X.
Variable build_appearance : nat -> seq X -> res A.
Variable appearance_feature : A -> X -> res X.
Variable reg_train : seq X -> seq (option 'cV[F]_(N * 2)) -> res R.
Variable reg_increment : R -> seq X -> seq (option 'cV[F]_(N * 2)) -> res R.
Variable reg_predict : R -> seq X -> res (seq 'cV[F]_(N * 2)).
Variable reg_predict1 : R -> X -> res 'cV[F]_(N * 2).
Variable compute_error : shape -> shape -> shape -> res E.
Variable garbage : 'cV[F]_(N * 2).
Variable appearance : bool.
Notation kd := (SdmAlgorithm.mkKind false appearance).
Notation train := (SdmAlgorithm.train +%R (fun a b : 'cV[F]_(N * 2) => a - b) (@SdmAlgorithm.free_set_target _) (SdmAlgorithm.free_from_vector (@reshape_points F N))
  (@as_vector F N) id patches build_appearance appearance_feature (@SdmAlgorithm.free_build _) reg_train reg_increment reg_predict compute_error garbage kd).
Notation calls := (SdmAlgorithm.calls +%R (fun a b : 'cV[F]_(N * 2) => a - b) (@SdmAlgorithm.free_set_target _) (SdmAlgorithm.free_from_vector (@reshape_points F N))
  (@as_vector F N) id patches build_appearance appearance_feature (@SdmAlgorithm.free_build _) reg_train reg_increment reg_predict compute_error garbage kd).
Notation fit := (SdmAlgorithm.fit +%R (@SdmAlgorithm.free_set_target _) (SdmAlgorithm.free_from_vector (@reshape_points F N)) (@as_vector F N) id patches appearance_feature reg_predict1 kd).
(** The errors printed in verbose mode are normalised by the size of the annotation, wherever it is. *)
Hypothesis CE : forall s t g o, compute_error s t (shifted o g) = compute_error s t g.

Lemma free_train_off vb inc n a a' (xs : seq (example F N I)) : alg_off (fun _ _ => True) a a' -> (forall x, List.In x xs -> really_moved patches x) ->
  both (fun r r' => alg_off (fun _ _ => True) r.1 r'.1 /\ List.Forall2 (moved_estimates xs) (SdmAlgorithm.o_currents r.2) (SdmAlgorithm.o_currents r'.2) /\
          moved_estimates xs (SdmAlgorithm.o_final r.2) (SdmAlgorithm.o_final r'.2) /\ SdmAlgorithm.o_printed r'.2 = SdmAlgorithm.o_printed r.2)
    (train vb inc n a (map (@e_image _ _ _) xs) (map (@e_annotation _ _ _) xs) (map (@e_starts _ _ _) xs))
    (train vb inc n a' (map (@e_moved _ _ _) xs) [seq shifted (e_by x) (e_annotation x) | x <- xs] [seq [seq shifted (e_by x) s | s <- e_starts x] | x <- xs]).
Proof using CE.
  move=> AO LK. pose ds := [seq (x, e_starts x) | x <- xs].
  pose fP (o : F * F) (v : 'cV[F]_(N * 2)) := v + as_vector (offs N o).
  have ADD o (u v : 'cV[F]_(N * 2)) : fP o u + v = fP o (u + v) by rewrite /fP addrAC.
  have SUB o (u v : 'cV[F]_(N * 2)) : fP o u - fP o v = u - v by rewrite /fP opprD addrACA subrr addr0.
  have VEC o (m m' : shape) : m' = shifted o m -> as_vector m' = fP o (as_vector m) by move=> ->; rewrite shiftedE as_vectorD.
  have FV o (m m' : shape) v : m' = shifted o m -> reshape_points m' (fP o v) = shifted o (reshape_points m v).
    move=> _. rewrite shiftedE /fP reshapeD. by congr (_ + _); exact: reshape_flat.
  have := @train_off shape 'cV[F]_(N * 2) I X R shape A E (F * F) (example F N I) +%R (fun a b => a - b) (@SdmAlgorithm.free_set_target _)
    (SdmAlgorithm.free_from_vector (@reshape_points F N)) (@as_vector F N) id patches build_appearance appearance_feature (@SdmAlgorithm.free_build _)
    reg_train reg_increment reg_predict compute_error garbage (@shifted F N) fP (fun o m m' => m' = shifted o m) (fun _ _ => True) ADD SUB
    ltac:(by []) ltac:(by []) FV VEC ltac:(by []) (@e_image _ _ _) (@e_moved _ _ _) (@e_by _ _ _) (@e_annotation _ _ _) kd vb inc n a a' ds.
  have P : printable_off (SdmAlgorithm.free_from_vector (@reshape_points F N)) id compute_error (@shifted F N) (fun _ _ => True) vb.
    by move=> _; split=> // m m' v _ /=; split=> //; apply/matrixP => i j; rewrite !mxE.
  have L (d : example F N I * seq shape) : List.In d ds -> same_look patches (@shifted F N) (@e_image _ _ _) (@e_moved _ _ _) (@e_by _ _ _) d.1.
    rewrite /ds => /List.in_map_iff [x [<- Hx]] s. exact: LK.
  have B : (if SdmAlgorithm.k_shape kd then SdmAlgorithm.a_shape a else None) = None ->
    both (fun _ _ : shape => True) (SdmAlgorithm.free_build (List.map (fun d : example F N I * seq shape => e_annotation d.1) ds))
      (SdmAlgorithm.free_build (List.map (fun d : example F N I * seq shape => gt' (@shifted F N) (@e_by _ _ _) (@e_annotation _ _ _) d.1) ds)).
    move=> _. rewrite /SdmAlgorithm.free_build /ds. by case: (xs).
  move=> /(_ P AO L B). rewrite /ds !List.map_map. 
  have K c c' : moved_currents (@shifted F N) (@e_by _ _ _) (List.map (fun x => (x, e_starts x).1) xs) c c' -> moved_estimates xs c c'.
    rewrite List.map_id => -[es [<- [-> ->]]]. split; first exact: etrans (size_map snd es) (esym (size_map fst es)).
    exact: (zip_pairs (fun x ss => [seq shifted (e_by x) s | s <- ss])).
  case: SdmAlgorithm.train => [[b o]|e]; case: SdmAlgorithm.train => [[b' o']|e'] //=.
  move=> [E1 [G1 G2 G3 G4 G5]]. split=> //. split; last by split; first exact: K.
  elim: G1 => [|c c' l l' Hc Hl IH]; constructor=> //. exact: K.
Qed.
(** Any history of trainings and increments, silent or verbose, then fits and further trainings. *)
Theorem c105_free : forall n h, (forall c x, List.In c h -> List.In x (s_examples c) -> really_moved patches x) ->
  both (fun a a' => trained_alike a a' /\ (forall m m' im s, map_res fst (fit a' m' im s) = map_res fst (fit a m im s)) /\
          forall vb inc xs, (forall x, List.In x xs -> really_moved patches x) ->
            both (fun r r' => trained_alike r.1 r'.1 /\ List.Forall2 (moved_estimates xs) (SdmAlgorithm.o_currents r.2) (SdmAlgorithm.o_currents r'.2) /\
                    moved_estimates xs (SdmAlgorithm.o_final r.2) (SdmAlgorithm.o_final r'.2) /\ SdmAlgorithm.o_printed r'.2 = SdmAlgorithm.o_printed r.2)
              (train vb inc n a (map (@e_image _ _ _) xs) (map (@e_annotation _ _ _) xs) (map (@e_starts _ _ _) xs))
              (train vb inc n a' (map (@e_moved _ _ _) xs) [seq shifted (e_by x) (e_annotation x) | x <- xs]
                 [seq [seq shifted (e_by x) s | s <- e_starts x] | x <- xs]))
    (calls n SdmAlgorithm.fresh (map (@as_it_is _ _ _) h)) (calls n SdmAlgorithm.fresh (map (@all_moved _ _ _) h)).
Proof using CE.
  move=> n h H.
  have W : both (alg_off (fun _ _ => True)) (calls n SdmAlgorithm.fresh (map (@as_it_is _ _ _) h)) (calls n SdmAlgorithm.fresh (map (@all_moved _ _ _) h)).
    have : alg_off (fun _ _ : shape => True) (@SdmAlgorithm.fresh R shape A) SdmAlgorithm.fresh by [].
    move: (SdmAlgorithm.fresh) {2 4}(SdmAlgorithm.fresh). elim: h H => [|[inc vb xs] h IH] H a a' AO //=.
    have L x : List.In x xs -> really_moved patches x by move=> Hx; apply: (H (Session inc vb xs)) => //; left.
    have := free_train_off vb inc n AO L. case: SdmAlgorithm.train => [[b o]|e]; case: SdmAlgorithm.train => [[b' o']|e'] //= [B _].
    apply: IH B => c x C. apply: H. by right.
  move: W. case: SdmAlgorithm.calls => [a|e]; case: SdmAlgorithm.calls => [a'|e'] //= AO. case: (AO) => E1 [_ E2].
  split=> //. split.
  - move=> m m' im s. by rewrite /SdmAlgorithm.fit /= E1 E2.
  - move=> vb inc xs L. have := free_train_off vb inc n AO L.
    case: SdmAlgorithm.train => [[b o]|e]; case: SdmAlgorithm.train => [[b' o']|e'] //= [[B1 [_ B2]] B]. by split.
Qed.
End Free.
Print Assumptions c105_free.

(** With a parametric shape model, in silent trainings (verbose ones train the same: C78).  The shape model is built from the
    annotations alike wherever they are: shapes are aligned before components are computed. *)
Section Ortho.
Variable F : realFieldType.
Variables N k : nat.
Variables (I X R A E : Type).
Notation shape := 'M[F]_(N, 2).
Notation to_row := (@CascadeError.to_row F k).
Notation of_row := (@CascadeError.of_row F k).
Variable align : shape -> shape -> sim F.
Variable src : shape.
Variable patches : I -> shape -> res X.
Variable build_appearance : nat -> seq X -> res A.
Variable appearance_feature : A -> X -> res X.
Variable build_shape : seq shape -> res (opdm F N).
Variable reg_train : seq X -> seq (option 'rV[F]_k) -> res R.
Variable reg_increment : R -> seq X -> seq (option 'rV[F]_k) -> res R.
Variable reg_predict : R -> seq X -> res (seq 'rV[F]_k).
Variable reg_predict1 : R -> X -> res 'rV[F]_k.
Variable compute_error : shape -> shape -> shape -> res E.
Variable garbage : 'rV[F]_k.
Variable appearance : bool.
Notation kd := (SdmAlgorithm.mkKind true appearance).
Notation train := (SdmAlgorithm.train +%R (fun a b : 'rV[F]_k => a - b) (ortho_set_target align src) (fun m v => ortho_from_vector align src m (of_row v))
  (fun m => to_row (opdm_vector m)) (@o_target F N) patches build_appearance appearance_feature build_shape reg_train reg_increment reg_predict compute_error garbage kd).
Notation calls := (SdmAlgorithm.calls +%R (fun a b : 'rV[F]_k => a - b) (ortho_set_target align src) (fun m v => ortho_from_vector align src m (of_row v))
  (fun m => to_row (opdm_vector m)) (@o_target F N) patches build_appearance appearance_feature build_shape reg_train reg_increment reg_predict compute_error garbage kd).
Notation fit := (SdmAlgorithm.fit +%R (ortho_set_target align src) (fun m v => ortho_from_vector align src m (of_row v))
  (fun m => to_row (opdm_vector m)) (@o_target F N) patches appearance_feature reg_predict1 kd).
Hypothesis FS : follows_shifts align.
Hypothesis BS : forall xs : seq (example F N I),
  both (@same_pdm F N) (build_shape (map (@e_annotation _ _ _) xs)) (build_shape [seq shifted (e_by x) (e_annotation x) | x <- xs]).

Lemma same_pdm_trans (d0 d d' : opdm F N) : same_pdm d0 d -> same_pdm d0 d' -> same_pdm d d'.
Proof. move=> [T [E1 E2]] [_ [E3 E4]]. split; last by rewrite E3 E4 E1 E2. by rewrite /trained_pdm E1 E2. Qed.
Definition ref_rel (d0 : option (opdm F N)) (d d' : opdm F N) : Prop := match d0 with Some d0 => same_pdm d0 d /\ same_pdm d0 d' | None => False end.
Lemma ref_same d0 d d' : ref_rel d0 d d' -> same_pdm d d'.
Proof. case: d0 => [d0|] //= [H H']. exact: same_pdm_trans H H'. Qed.
Lemma of_row_size (v : 'rV[F]_k) : size (of_row v) = k. Proof. by rewrite size_map size_enum_ord. Qed.
Lemma of_row_nth (v : 'rV[F]_k) i (Hi : (i < k)%N) : nth 0 (of_row v) i = v 0 (Ordinal Hi).
Proof.
  rewrite -[v in RHS](@CascadeError.of_rowK F k v) mxE. by [].
Qed.
Section Ref.
Variable d0 : option (opdm F N).
Definition base : F * F -> 'rV[F]_k := match d0 with Some d => fun o => \row_(i < k) nth 0 (delta o d) i | None => fun _ => 0 end.
Definition fP (o : F * F) (v : 'rV[F]_k) : 'rV[F]_k := v + base o.
Notation RM0 := (ref_rel d0).
Definition RM (o : F * F) (d d' : opdm F N) : Prop := RM0 d d' /\ shifted_state o d d'.
Lemma r_add o (u v : 'rV[F]_k) : fP o u + v = fP o (u + v). Proof. by rewrite /fP addrAC. Qed.
Lemma r_sub o (u v : 'rV[F]_k) : fP o u - fP o v = u - v. Proof. by rewrite /fP opprD addrACA subrr addr0. Qed.
Lemma r_forget o d d' : RM o d d' -> RM0 d d'. Proof. by case. Qed.
Lemma base_nth o d d' i : RM0 d d' -> base o 0 i = nth 0 (delta o d) i.
Proof. rewrite /base. case: d0 => [e|] //= [[_ [_ C]] _]. by rewrite mxE /delta C. Qed.
Lemma r_keep d d' d1 d1' : RM0 d d' -> ClmFitter.static d1 = ClmFitter.static d -> ClmFitter.static d1' = ClmFitter.static d' -> RM0 d1 d1'.
Proof. case: d0 => [e|] //= [[T [E1 E2]] [_ [E3 E4]]] [S1 S2] [S3 S4]. by rewrite /same_pdm S1 S2 S3 S4. Qed.
Lemma r_target o d d' s : RM0 d d' -> both (RM o) (ortho_set_target align src d s) (ortho_set_target align src d' (shifted o s)).
Proof using FS.
  move=> H. have [T [E1 E2]] := ref_same H. have E' : ClmFitter.static d' = ClmFitter.static d by rewrite /ClmFitter.static E1 E2.
  rewrite /ortho_set_target. have := set_target_shifts FS o src s T E'. have := ClmFitter.target_static align src s d. have := ClmFitter.target_static align src (shifted o s) d'.
  case: opdm_set_target => [d1 r1]. case: opdm_set_target => [d2 r2]. rewrite /shifted_outcome /=.
  case: r1 => [[]|e]; case: r2 => [[]|e'] //= TS1 TS2 S1. split=> //. exact: r_keep H TS2 TS1.
Qed.
Lemma r_vector o d d' v : RM o d d' -> both (RM o) (ortho_from_vector align src d (of_row v)) (ortho_from_vector align src d' (of_row (fP o v))).
Proof using FS.
  move=> [H RS]. have [T _] := ref_same H. have [[E1 E2] [S [W [_ [_ Q]]]]] := RS.
  have -> : of_row (fP o v) = shift_vec o d (of_row v).
    apply: (@eq_from_nth _ 0); first by rewrite shift_size !of_row_size.
    move=> i. rewrite of_row_size => Hi. rewrite shift_nth ?of_row_size // !(of_row_nth _ Hi).
    have -> : fP o v 0 (Ordinal Hi) = v 0 (Ordinal Hi) + base o 0 (Ordinal Hi) by rewrite /fP mxE. by rewrite (base_nth o _ H).
  move: (of_row v) => w. rewrite /ortho_from_vector Q !shift_size S E1 E2. case: ifP => // /andP [_ /eqP Sv].
  have L : (size (o_simcomps d) <= size w)%N by rewrite Sv leq_addr.
  have := from_vector_shifts FS src T RS L. have := ClmFitter.vector_static align src w d. have := ClmFitter.vector_static align src (shift_vec o d w) d'.
  case: opdm_from_vector => [d1 r1]. case: opdm_from_vector => [d2 r2]. rewrite /shifted_outcome /=.
  case: r1 => [[]|e]; case: r2 => [[]|e'] //= TS1 TS2 S1. split=> //. exact: r_keep H TS2 TS1.
Qed.
Lemma r_vec o d d' : RM o d d' -> to_row (opdm_vector d') = fP o (to_row (opdm_vector d)).
Proof.
  move=> [H RS]. rewrite (shifted_vector RS) /fP. apply/rowP => i. rewrite !mxE (base_nth o i H).
  case: (ltnP i (size (opdm_vector d))) => L; first by rewrite shift_nth.
  rewrite !nth_default ?shift_size ?addr0 //. have [_ [S _]] := RS. rewrite size_map -S. apply: leq_trans L. by rewrite size_cat leq_addr.
Qed.
Lemma r_tgt o d d' : RM o d d' -> o_target d' = shifted o (o_target d). Proof. by move=> [_ [_ [_ [_ [-> _]]]]]. Qed.
End Ref.
Lemma ortho_train_off inc n a a' (xs : seq (example F N I)) : alg_off (@same_pdm F N) a a' -> (forall x, List.In x xs -> really_moved patches x) ->
  both (fun r r' => alg_off (@same_pdm F N) r.1 r'.1 /\ List.Forall2 (moved_estimates xs) (SdmAlgorithm.o_currents r.2) (SdmAlgorithm.o_currents r'.2) /\
          moved_estimates xs (SdmAlgorithm.o_final r.2) (SdmAlgorithm.o_final r'.2))
    (train false inc n a (map (@e_image _ _ _) xs) (map (@e_annotation _ _ _) xs) (map (@e_starts _ _ _) xs))
    (train false inc n a' (map (@e_moved _ _ _) xs) [seq shifted (e_by x) (e_annotation x) | x <- xs] [seq [seq shifted (e_by x) s | s <- e_starts x] | x <- xs]).
Proof using FS BS.
  move=> AO LK. pose ds := [seq (x, e_starts x) | x <- xs].
  pose d0 := match SdmAlgorithm.a_shape a with Some d => Some d | None => match build_shape (map (@e_annotation _ _ _) xs) with Ok d => Some d | Err _ => None end end.
  pose RM0 := ref_rel d0.
  have := @train_off shape 'rV[F]_k I X R (opdm F N) A E (F * F) (example F N I) +%R (fun a b => a - b) (ortho_set_target align src)
    (fun m v => ortho_from_vector align src m (of_row v)) (fun m => to_row (opdm_vector m)) (@o_target F N) patches build_appearance appearance_feature build_shape
    reg_train reg_increment reg_predict compute_error garbage (@shifted F N) (fP d0) (RM d0) RM0 (@r_add d0) (@r_sub d0)
    (@r_forget d0) (@r_target d0) (@r_vector d0) (@r_vec d0) (@r_tgt d0) (@e_image _ _ _) (@e_moved _ _ _) (@e_by _ _ _) (@e_annotation _ _ _) kd false inc n a a' ds.
  have P : printable_off (fun m v => ortho_from_vector align src m (of_row v)) (@o_target F N) compute_error (@shifted F N) RM0 false by [].
  have AO' : alg_off RM0 a a'.
    case: AO => [H1 [H2 H3]]. split=> //. split=> //. move: H2. rewrite /RM0 /d0 /SdmSimulation.RMo.
    case: (SdmAlgorithm.a_shape a) => [d|]; case: (SdmAlgorithm.a_shape a') => [d'|] //= [T [E1 E2]]. by [].
  have L (d : example F N I * seq shape) : List.In d ds -> same_look patches (@shifted F N) (@e_image _ _ _) (@e_moved _ _ _) (@e_by _ _ _) d.1.
    rewrite /ds => /List.in_map_iff [x [<- Hx]] s. exact: LK.
  have B : (if SdmAlgorithm.k_shape kd then SdmAlgorithm.a_shape a else None) = None ->
    both RM0 (build_shape (List.map (fun d : example F N I * seq shape => e_annotation d.1) ds))
      (build_shape (List.map (fun d : example F N I * seq shape => gt' (@shifted F N) (@e_by _ _ _) (@e_annotation _ _ _) d.1) ds)).
    move=> /= HN. rewrite /ds !List.map_map. have := BS xs. rewrite /RM0 /d0 HN /gt' /=.
    rewrite -[List.map _ xs]/(map (@e_annotation _ _ _) xs) -[List.map _ xs]/[seq shifted (e_by x) (e_annotation x) | x <- xs].
    case: (build_shape (map _ xs)) => [d|e]; case: build_shape => [d'|e'] //= [T [E1 E2]]. by [].
  move=> /(_ P AO' L B). rewrite /ds !List.map_map.
  have K c c' : moved_currents (@shifted F N) (@e_by _ _ _) (List.map (fun x => (x, e_starts x).1) xs) c c' -> moved_estimates xs c c'.
    rewrite List.map_id => -[es [<- [-> ->]]]. split; first exact: etrans (size_map snd es) (esym (size_map fst es)).
    exact: (zip_pairs (fun x ss => [seq shifted (e_by x) s | s <- ss])).
  case: SdmAlgorithm.train => [[b o]|e]; case: SdmAlgorithm.train => [[b' o']|e'] //=.
  move=> [[E1 [E2 E3]] [G1 G2 G3 G4 G5]]. split; last split; last exact: K.
    split=> //. split=> //. move: E2. rewrite /SdmSimulation.RMo. case: SdmAlgorithm.a_shape => [d|]; case: SdmAlgorithm.a_shape => [d'|] //=. exact: ref_same.
  elim: G1 => [|c c' l l' Hc Hl IH]; constructor=> //. exact: K.
Qed.

(** The fits of two models that differ only in their state. *)
Lemma ortho_fit_same a d d' im s : same_pdm d d' -> both (fun r r' => r'.1 = r.1) (fit a d im s) (fit a d' im s).
Proof using FS.
  move=> H. have Z (t : shape) : shifted (0, 0) t = t by apply/matrixP => i j; rewrite mxE /= if_same addr0.
  have H0 : ref_rel (Some d) d d' by split=> //; case: H.
  have := @fit_follows shape 'rV[F]_k I X R (opdm F N) A +%R (ortho_set_target align src) (fun m v => ortho_from_vector align src m (of_row v))
    (fun m => to_row (opdm_vector m)) (@o_target F N) patches appearance_feature reg_predict1 (shifted (0, 0)) (RM (Some d) (0, 0)) (@r_tgt (Some d) (0, 0)) _ im im _ kd a d d' s.
  rewrite Z => W.
  have {W} := W _ _ (eq_ind _ (fun z => both (RM (Some d) (0, 0)) (ortho_set_target align src d s) (ortho_set_target align src d' z)) (r_target (0, 0) s H0) _ (Z s)).
  have FV m m' dx : RM (Some d) (0, 0) m m' -> both (RM (Some d) (0, 0)) (ortho_from_vector align src m (of_row (to_row (opdm_vector m) + dx)))
      (ortho_from_vector align src m' (of_row (to_row (opdm_vector m') + dx))).
    move=> HR. rewrite (r_vec HR) r_add. exact: r_vector.
  move=> /(_ FV (fun s => congr1 (patches im) (Z s))).
  case: SdmAlgorithm.fit => [[ss u]|e]; case: SdmAlgorithm.fit => [[ss' u']|e'] //=. rewrite /moved_fit /= => ->.
  by elim: ss => [|t ss IH] //=; rewrite Z IH.
Qed.
Theorem c105_ortho : forall n h, (forall c x, List.In c h -> List.In x (s_examples c) -> really_moved patches x) ->
  (forall c, List.In c h -> s_verbose c = false) ->
  both (fun a a' => trained_alike a a' /\
          (forall d d' im s, same_pdm d d' -> both (fun r r' => r'.1 = r.1) (fit a d im s) (fit a' d' im s)) /\
          match SdmAlgorithm.a_shape a, SdmAlgorithm.a_shape a' with Some d, Some d' => same_pdm d d' | None, None => True | _, _ => False end /\
          forall inc xs, (forall x, List.In x xs -> really_moved patches x) ->
            both (fun r r' => trained_alike r.1 r'.1 /\ List.Forall2 (moved_estimates xs) (SdmAlgorithm.o_currents r.2) (SdmAlgorithm.o_currents r'.2) /\
                    moved_estimates xs (SdmAlgorithm.o_final r.2) (SdmAlgorithm.o_final r'.2))
              (train false inc n a (map (@e_image _ _ _) xs) (map (@e_annotation _ _ _) xs) (map (@e_starts _ _ _) xs))
              (train false inc n a' (map (@e_moved _ _ _) xs) [seq shifted (e_by x) (e_annotation x) | x <- xs]
                 [seq [seq shifted (e_by x) s | s <- e_starts x] | x <- xs]))
    (calls n SdmAlgorithm.fresh (map (@as_it_is _ _ _) h)) (calls n SdmAlgorithm.fresh (map (@all_moved _ _ _) h)).
Proof using FS BS.
  move=> n h H V.
  have W : both (alg_off (@same_pdm F N)) (calls n SdmAlgorithm.fresh (map (@as_it_is _ _ _) h)) (calls n SdmAlgorithm.fresh (map (@all_moved _ _ _) h)).
    have : alg_off (@same_pdm F N) (@SdmAlgorithm.fresh R (opdm F N) A) SdmAlgorithm.fresh by [].
    move: (SdmAlgorithm.fresh) {2 4}(SdmAlgorithm.fresh). elim: h H V => [|[inc vb xs] h IH] H V a a' AO //=.
    have -> : vb = false by apply: (V (Session inc vb xs)); left.
    have L x : List.In x xs -> really_moved patches x by move=> Hx; apply: (H (Session inc vb xs)) => //; left.
    have := ortho_train_off inc n AO L. case: SdmAlgorithm.train => [[b o]|e]; case: SdmAlgorithm.train => [[b' o']|e'] //= [B _].
    apply: IH B => [c x C|c C]; [apply: H; by right|apply: V; by right].
  move: W. case: SdmAlgorithm.calls => [a|e]; case: SdmAlgorithm.calls => [a'|e'] //= AO. case: (AO) => E1 [E2 E3].
  split=> //. split; last split=> //.
  - move=> d d' im s S. have := ortho_fit_same a im s S. by rewrite /SdmAlgorithm.fit E1 E3.
  - move=> inc xs L. have := ortho_train_off inc n AO L.
    case: SdmAlgorithm.train => [[b o]|e]; case: SdmAlgorithm.train => [[b' o']|e'] //= [[B1 [_ B2]] B]. by split.
Qed.
End Ortho.
Print Assumptions c105_ortho.

(** *** Instances.  An image shows one point; at a shape it shows where the point is as seen from the shape. *)
Section Instances.
Variable F : rcfType.
Notation dot1 := 'M[F]_(1, 2).
Definition i_look (p : dot1) (s : dot1) : res dot1 := Ok (p - s).
Definition i_train (f : seq dot1) (d : seq (option 'cV[F]_(1 * 2))) : res 'cV[F]_(1 * 2) :=
  match d with Some v :: _ => Ok v | _ => Err ValueError end.
Definition i_point (x y : F) : dot1 := \row_j (if j == 0 then x else y).
Definition i_examples : seq (example F 1 dot1) :=
  [:: Example (i_point 0 0) (i_point 0 0) [:: i_point 1 0; i_point 1 1] (shifted (1, 0) (i_point 0 0)) (1, 0);
      Example (i_point 2%:R 0) (i_point 2%:R 0) [:: i_point 1 0; i_point 1 1] (shifted (0, 3%:R) (i_point 2%:R 0)) (0, 3%:R)].
Example c105_free_ex : let c := Session false true i_examples in
  (forall x, List.In x (s_examples c) -> really_moved i_look x) /\ map (@e_moved _ _ _) i_examples <> map (@e_image _ _ _) i_examples /\
  exists a v, SdmAlgorithm.calls +%R (fun a b : 'cV[F]_(1 * 2) => a - b) (@SdmAlgorithm.free_set_target _) (SdmAlgorithm.free_from_vector (@reshape_points F 1))
    (@as_vector F 1) id i_look (fun _ _ => Ok tt) (fun _ x => Ok x) (@SdmAlgorithm.free_build _) i_train (fun r _ _ => Ok r)
    (fun r f => Ok (map (fun _ => r) f)) (fun _ _ _ : dot1 => Ok tt) 0 (SdmAlgorithm.mkKind false true) 2 SdmAlgorithm.fresh [:: as_it_is c] = Ok a /\
    SdmAlgorithm.a_regressors a = [:: v; 0] /\ v != 0.
Proof.
  move=> c. split; last split.
  - have M (p : dot1) o s : shifted o p - shifted o s = p - s.
      apply/matrixP => i j. rewrite !mxE. by rewrite opprD addrACA subrr addr0.
    move=> x /= [<-|[<-|[]]] s; by rewrite /i_look /= M.
  - move=> [H _]. move/matrixP: H => /(_ 0 0). rewrite !mxE /= add0r => /eqP. by rewrite oner_eq0.
  - eexists; exists (as_vector (i_point 0 0) - as_vector (i_point 1 0)).
    split; first reflexivity. simpl. split.
    + congr [:: _; _]. rewrite (_ : as_vector (i_point 1 0) + _ = as_vector (i_point 0 0)); last by rewrite addrC subrK.
      by rewrite subrr.
    + rewrite subr_eq0. apply/eqP => H. have := congr1 (reshape_points 0) H. rewrite !reshape_flat => /matrixP /(_ 0 0). rewrite !mxE /= => /esym/eqP.
      by rewrite oner_eq0.
Qed.
End Instances.

(** The orthonormal model: images shown as the shape they hold, two images of the mean shape moved differently. *)
Section OrthoInstance.
Variable F : rcfType.
Notation shape := 'M[F]_(4, 2).
Definition o_look (p s : shape) : res shape := Ok (p - s).
Definition o_build (gts : seq shape) : res (opdm F 4) := if gts is _ :: _ then Ok (at_mean 2 1) else Err ValueError.
Definition o_train (f : seq shape) (d : seq (option 'rV[F]_6)) : res 'rV[F]_6 := match d with Some v :: _ => Ok v | _ => Err ValueError end.
Definition o_examples : seq (example F 4 shape) :=
  [:: Example (mean4 F) (mean4 F) [:: mean4 F] (shifted (1, 0) (mean4 F)) (1, 0);
      Example (mean4 F) (mean4 F) [:: mean4 F] (shifted (0, 3%:R) (mean4 F)) (0, 3%:R)].
Let trained4 : trained_pdm (at_mean (F := F) 2 1).
Proof. split=> //. split; [exact: ortho4|exact: basis4_ok]. Qed.
Let c := Session false false o_examples.
Example c105_ortho_ex : follows_shifts (@procrustes F 4) /\
  (forall xs : seq (example F 4 shape), both (@same_pdm F 4) (o_build (map (@e_annotation _ _ _) xs)) (o_build [seq shifted (e_by x) (e_annotation x) | x <- xs])) /\
  (forall x, List.In x (s_examples c) -> really_moved o_look x) /\ map (@e_moved _ _ _) o_examples <> map (@e_image _ _ _) o_examples /\
  exists a, SdmAlgorithm.calls +%R (fun a b : 'rV[F]_6 => a - b) (ortho_set_target (@procrustes F 4) (mean4 F))
    (fun m v => ortho_from_vector (@procrustes F 4) (mean4 F) m (CascadeError.of_row v)) (fun m => CascadeError.to_row 6 (opdm_vector m)) (@o_target F 4)
    o_look (fun _ _ => Ok tt) (fun _ x => Ok x) o_build o_train (fun r _ _ => Ok r)
    (fun r f => Ok (map (fun _ => r) f)) (fun _ _ _ : shape => Ok tt) 0 (SdmAlgorithm.mkKind true true) 1 SdmAlgorithm.fresh [:: as_it_is c] = Ok a /\
    size (SdmAlgorithm.a_regressors a) = 1%N.
Proof.
  split; first exact: procrustes_follows. split; last split; last split.
  - by case.
  - move=> x /= [<-|[<-|[]]] s; rewrite /o_look /= !shiftedE opprD addrACA subrr addr0 //.
  - move=> [H _]. move/matrixP: H => /(_ 0 0). rewrite !mxE /= => /eqP. by rewrite -subr_eq0 addrAC subrr add0r oner_eq0.
  - pose good (d : opdm F 4) := ClmFitter.static d = ClmFitter.static (at_mean (F := F) 2 1) /\ size (o_simweights d) = 4%N.
    have Step d : ClmFitter.static d = ClmFitter.static (at_mean (F := F) 2 1) -> exists d1, ortho_set_target (@procrustes F 4) (mean4 F) d (mean4 F) = Ok d1 /\ good d1.
      move=> Sd. have [d1 [S1 _]] := @opdm_mean F 4 (at_mean 2 1) 1 0 0 0 (@ortho4 F) (@basis4_ok F)
        ltac:(by exists (inord 0), (inord 1), 0; rewrite !mean4E //= oner_eq0) ltac:(by rewrite /nonzero oner_eq0).
      have M1 (s : shape) : moved 1 0 0 0 s = s.
        apply/matrixP => i j. rewrite mxE. have [->|->] := ord2 j; by rewrite /= !mul1r !mul0r ?subr0 ?add0r addr0.
      rewrite M1 [m_mean _]/= in S1.
      have [_ B] := @ClmFitter.target_forgets F 4 (@procrustes F 4) (mean4 F) (mean4 F) (at_mean 2 1) d (esym Sd).
      have St := Proofs.ClmFitter.target_static (@procrustes F 4) (mean4 F) (mean4 F) (at_mean 2 1). rewrite S1 in St, B.
      exists d1. rewrite /ortho_set_target -B //. split=> //. split=> //. case: St => _ Ec.
      have := set_target_shifts (@procrustes_follows F 4 isT) (0, 0) (mean4 F) (mean4 F) trained4 erefl. rewrite S1 /shifted_outcome.
      case: opdm_set_target => [x [u|u]] //= [_ [-> _]]. by rewrite Ec.
    have Vec d v : good d -> exists d1, ortho_from_vector (@procrustes F 4) (mean4 F) d (CascadeError.of_row (k := 6) v) = Ok d1 /\ ClmFitter.static d1 = ClmFitter.static (at_mean (F := F) 2 1).
      move=> [Sd Sq]. case: (Sd) => Em Ec. rewrite /ortho_from_vector Sq Ec of_row_size Em /=.
      have := @opdm_from_succeeds F 4 (@procrustes F 4) (mean4 F) (CascadeError.of_row v) d. rewrite Sq Ec of_row_size Em => /(_ erefl erefl).
      have := Proofs.ClmFitter.vector_static (@procrustes F 4) (mean4 F) (CascadeError.of_row v) d.
      case: opdm_from_vector => [d2 r] /= Sv ->. exists d2. by rewrite Sv.
    have [d1 [S1 [G1 _]]] := Step _ (erefl (ClmFitter.static (at_mean (F := F) 2 1))).
    have [d2 [S2 [G2 _]]] := Step _ G1. have [d3 [S3 [G3 _]]] := Step _ G2. have [d4 [S4 [G4 _]]] := Step _ G3.
    have [d5 [S5 [G5 Q5]]] := Step _ G4.
    rewrite /= /SdmAlgorithm.train /= /SdmAlgorithm.deltas /= S1 /= S2 /= S3 /= S4 /=.
    rewrite S5 /=. have [d6 [S6 G6]] := Vec d5 (CascadeError.to_row 6 (opdm_vector d5) +
      (CascadeError.to_row 6 (opdm_vector d1) - CascadeError.to_row 6 (opdm_vector d2))) (@Logic.conj _ _ G5 Q5 : good d5). rewrite S6 /=.
    have [d7 [S7 [G7 Q7]]] := Step _ G6. rewrite S7 /=. have [d8 [S8 _]] := Vec d7 (CascadeError.to_row 6 (opdm_vector d7) +
      (CascadeError.to_row 6 (opdm_vector d1) - CascadeError.to_row 6 (opdm_vector d2))) (@Logic.conj _ _ G7 Q7 : good d7).
    rewrite S8 /=. eexists; split; reflexivity.
Qed.
End OrthoInstance.

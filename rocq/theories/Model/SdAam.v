(** Supervised descent on an active appearance model: menpofit/aam/algorithm/sd.py 15-163, with the training loop of
    sdm/algorithm/base.py 74-120.  Unlike the algorithms of menpofit/sdm, which read patches at the current shape itself,
    these warp the image with the model-driven transform: extracting features sets the target of the transform. *)
From Coq Require Import List Arith.
From Verif.Model Require Import Py Result SdmTrain SdmAlgorithm.
Import ListNotations.

Section Algorithm.
  (** [S]: shapes; [V]: vectors; [I]: images; [X]: rows of features; [R]: regressors; [M]: states of the transform; [E]: errors
      printed in verbose mode. *)
  Context {S V I X R M E : Type}.
  Variables vadd vsub : V -> V -> V.
  (** self.transform: set_target, _from_vector_inplace, as_vector and target. *)
  Variable set_target : M -> S -> res M.
  Variable from_vector : M -> V -> res M.
  Variable vec : M -> V.
  Variable tgt : M -> S.
  (** interface.warp(image) with the transform as it is, masked, and the formula of the class: MeanTemplate 174-176, ProjectOut
      282-288, AppearanceWeights 396-399 (see [mean_feature] ... below). *)
  Variable warped_feature : I -> M -> res X.
  Variable reg_train : list X -> list (option V) -> res R.
  Variable reg_increment : R -> list X -> list (option V) -> res R.
  Variable reg_predict : R -> list X -> res (list V).
  Variable reg_predict1 : R -> X -> res V.
  Variable compute_error : S -> S -> S -> res E.
  Variable garbage : V.

  (** _compute_test_features, 172-176, 280-288, 394-399: the features and the transform as it is left. *)
  Definition test_features (im : I) (m : M) (s : S) : res (X * M) :=
    let? m' := set_target m s in
    let? x := warped_feature im m' in
    Ok (x, m').
  (** _compute_training_features 89-95. *)
  Fixpoint features_shapes (im : I) (ss : list S) (m : M) : res (list X * M) :=
    match ss with
    | [] => Ok ([], m)
    | s :: ss' =>
        let? (x, m1) := test_features im m s in
        let? (xs, m2) := features_shapes im ss' m1 in
        Ok (x :: xs, m2)
    end.
  Fixpoint features_images (images : list I) (current : list (list S)) (m : M) : res (list X * M) :=
    match images, current with
    | im :: images', ss :: current' =>
        let? (xs, m1) := features_shapes im ss m in
        let? (ys, m2) := features_images images' current' m1 in
        Ok (xs ++ ys, m2)
    | _, _ => Ok ([], m)
    end.
  Definition training_features (images : list I) (current : list (list S)) (m : M) : res (list X * M) :=
    let? (xs, m') := features_images images current m in
    match xs with [] => Err ValueError | _ => Ok (xs, m') end.

  (** The loop of base.py 90-118 with these features. *)
  Fixpoint sd_loop (images : list I) (verbose increment : bool) (n_perturbations : nat) (gts : list S)
           (n k : nat) (gt : list (option V)) (current : list (list S)) (m : M) (delta : list (option V)) (regs : list R)
    : res (outcome S R M E) :=
    match n with
    | 0 => Ok (mkOut [] [] regs m current)
    | Datatypes.S n' =>
        let? (f, m0) := training_features images current m in
        let? regs' :=
          if increment
          then let? r := nth_res regs k in
               let? r' := reg_increment r f delta in
               Ok (firstn k regs ++ r' :: skipn (Datatypes.S k) regs)
          else let? r := reg_train f delta in Ok (regs ++ [r]) in
        let? r := nth_res regs' k in
        let? est := reg_predict r f in
        let? (printed, m1) :=
          if verbose then let? (es, m1) := print_info from_vector tgt compute_error garbage gts n_perturbations 0 delta est m0 in
                          Ok ([es], m1)
          else Ok ([], m0) in
        let? (current', m2, delta') := estimates_outer vadd vsub set_target from_vector vec tgt est gt current 0 m1 delta in
        let? o := sd_loop images verbose increment n_perturbations gts n' (Datatypes.S k) gt current' m2 delta' regs' in
        Ok (mkOut (current :: o_currents o) (printed ++ o_printed o) (o_regs o) (o_model o) (o_final o))
    end.

  (** The attributes training changes: self.regressors (empty before the first training) and the state of the transform. *)
  Record sd_algorithm := mkSd { sd_regressors : list R; sd_transform : M }.
  (** _train, base.py 74-120, with _compute_delta_x and _update_estimates of sd.py 73-81.  (Simplification: when an exception is
      raised the state of the algorithm is not followed.) *)
  Definition sd_train (verbose increment : bool) (n_iterations : nat) (a : sd_algorithm)
             (images : list I) (gts : list S) (current : list (list S)) : res (sd_algorithm * outcome S R M E) :=
    let? regs := if increment then match sd_regressors a with [] => Err ValueError | rs => Ok rs end else Ok [] in
    let? c0 := nth_res current 0 in
    let? _ := nth_res gts 0 in
    let? (m1, delta, gt) := deltas vsub set_target vec (sd_transform a) gts current in
    let? o := sd_loop images verbose increment (length c0) gts n_iterations 0 gt current m1 delta regs in
    Ok (mkSd (o_regs o) (o_model o), o).

  (** run, sd.py 139-163: p_list and shapes, and the transform as it is left.  [p] is p_list[-1]. *)
  Fixpoint sd_fit_loop (regs : list R) (im : I) (m : M) (p : V) : res (list V * list S * M) :=
    match regs with
    | [] => Ok ([], [], m)
    | r :: regs' =>
        let? (f, m1) := test_features im m (tgt m) in
        let? dx := reg_predict1 r f in
        let new_x := vadd p dx in
        let? m2 := from_vector m1 new_x in
        let? (ps, shapes, m3) := sd_fit_loop regs' im m2 new_x in
        Ok (new_x :: ps, tgt m2 :: shapes, m3)
    end.
  Definition sd_fit (a : sd_algorithm) (im : I) (initial : S) : res (list V * list S * M) :=
    let? m := set_target (sd_transform a) initial in
    let? (ps, shapes, m') := sd_fit_loop (sd_regressors a) im m (vec m) in
    Ok (vec m :: ps, tgt m :: shapes, m').
End Algorithm.
Arguments sd_algorithm : clear implicits.

(** The model-driven transform, transform/modeldriven.py 13-124: a shape model and a warp, here the target of self.transform.
    [p_set_target], [p_sync], [p_from_vector] are set_target, _sync_state_from_target and _from_vector_inplace of the shape
    model. *)
Section ModelDriven.
  Context {S V P : Type}.
  Variable p_set_target : P -> S -> res P.
  Variable p_sync : P -> res P.
  Variable p_from_vector : P -> V -> res P.
  Variable p_vec : P -> V.
  Variable p_tgt : P -> S.
  Record md := mkMd { md_pdm : P; md_warp : S }.
  (** __init__ 37-43. *)
  Definition md_new (p : P) : md := mkMd p (p_tgt p).
  (** menpo's Targetable.set_target calls _target_setter, 81-82, and then _sync_state_from_target, 93-97: the shape model is
      synchronised with its target twice. *)
  Definition md_set_target (t : md) (s : S) : res md :=
    let? p1 := p_set_target (md_pdm t) s in
    let? p2 := p_sync p1 in
    Ok (mkMd p2 (p_tgt p2)).
  (** 120-124. *)
  Definition md_from_vector (t : md) (v : V) : res md :=
    let? p := p_from_vector (md_pdm t) v in Ok (mkMd p (p_tgt p)).
  (** 108-118 and 72-79. *)
  Definition md_vec (t : md) : V := p_vec (md_pdm t).
  Definition md_tgt (t : md) : S := p_tgt (md_pdm t).
End ModelDriven.
Arguments md : clear implicits.

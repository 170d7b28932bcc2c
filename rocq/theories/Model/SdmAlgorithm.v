(** Supervised descent algorithms with their shape and appearance models: menpofit/sdm/algorithm/base.py 74-120,
    165-251, 254-498, 501-538, 541-656, with nonparametric.py 16-83, parametricshape.py 17-98,
    parametricappearance.py 18-110 and fullyparametric.py 19-121. *)
From Coq Require Import List Arith.
From Verif.Model Require Import Py Result SdmTrain.
Import ListNotations.

Section Algorithm.
  (** [S]: shapes; [V]: vectors; [I]: images; [X]: rows of features; [R]: regressors; [M]: states of a shape model;
      [A]: appearance models; [E]: errors printed in verbose mode. *)
  Context {S V I X R M A E : Type}.
  Variables vadd vsub : V -> V -> V.

  (** The shape model of the parametric algorithms (model.set_target, model._from_vector_inplace, model.as_vector,
      model.target); every call works on, and changes, the state left by the previous one.  The non-parametric
      algorithms are the instance where the state is a shape: [set_target] replaces it, [vec] is s.as_vector() and
      [from_vector] is s.from_vector(v) (base.py 287-291, 318-322, 358-359, 636, 649-650; see [free_*] below). *)
  Variable set_target : M -> S -> res M.
  Variable from_vector : M -> V -> res M.
  Variable vec : M -> V.
  Variable tgt : M -> S.

  (** features_per_patch 165-188. *)
  Variable patches : I -> S -> res X.
  (** appearance_model_cls on the number of images and the rows of patches (535-538). *)
  Variable build_appearance : nat -> list X -> res A.
  (** _compute_parametric_features: project_out, mean template or weights. *)
  Variable appearance_feature : A -> X -> res X.
  (** shape_model_cls(gt_shapes). *)
  Variable build_shape : list S -> res M.
  (** r = regressor_cls(); r.train(features, delta_x), r.increment, r.predict on a matrix and on one row. *)
  Variable reg_train : list X -> list (option V) -> res R.
  Variable reg_increment : R -> list X -> list (option V) -> res R.
  Variable reg_predict : R -> list X -> res (list V).
  Variable reg_predict1 : R -> X -> res V.
  (** compute_error(s1, s2, gt_s). *)
  Variable compute_error : S -> S -> S -> res E.
  (** What a row of np.empty holds before it is written. *)
  Variable garbage : V.

  (** Which models the class keeps: parametric shape, parametric appearance. *)
  Record kind := mkKind { k_shape : bool; k_appearance : bool }.
  Record algorithm := mkAlg { a_regressors : list R; a_shape : option M; a_appearance : option A }.
  (** The constructors: nonparametric.py 21-23, parametricshape.py 28-32, parametricappearance.py 28-32,
      fullyparametric.py 32-39. *)
  Definition fresh : algorithm := mkAlg [] None None.

  (** np.vstack of an empty list raises ValueError. *)
  Definition vstack {T} (rows : list (list T)) : res (list T) :=
    match rows with [] => Err ValueError | _ => Ok (concat rows) end.

  (** _compute_test_features: nonparametric.py 44-46, parametricappearance.py 70-73. *)
  Definition test_features (kd : kind) (app : option A) (im : I) (s : S) : res X :=
    let? x := patches im s in
    if k_appearance kd then match app with Some a => appearance_feature a x | None => Err AttributeError end
    else Ok x.

  (** features_per_image 218-251 with features_per_shapes 191-215: shapes[j] for every image. *)
  Fixpoint features_per_image (images : list I) (current : list (list S)) : res (list (list X)) :=
    match images, current with
    | [], _ => Ok []
    | _ :: _, [] => Err IndexError
    | im :: images', ss :: current' =>
        let? xs := mapM (patches im) ss in
        let? _ := vstack (map (fun x => [x]) xs) in
        let? rest := features_per_image images' current' in
        Ok (xs :: rest)
    end.
  (** The loop of parametricappearance.py 59-63, fullyparametric.py 70-74: zip of the images and their shapes. *)
  Fixpoint features_zip (kd : kind) (app : option A) (images : list I) (current : list (list S)) : res (list (list X)) :=
    match images, current with
    | im :: images', ss :: current' =>
        let? xs := mapM (test_features kd app im) ss in
        let? rest := features_zip kd app images' current' in
        Ok (xs :: rest)
    | _, _ => Ok []
    end.
  (** _compute_training_features, without the construction of the appearance model. *)
  Definition training_features (kd : kind) (app : option A) (images : list I) (current : list (list S)) : res (list X) :=
    if k_appearance kd then
      let? rows := features_zip kd app images current in
      vstack (map (fun x => [x]) (concat rows))
    else let? rows := features_per_image images current in vstack rows.

  (** compute_parametric_delta_x 445-459, compute_non_parametric_delta_x 283-293. *)
  Fixpoint deltas_inner (g : V) (shapes : list S) (k : nat) (m : M) (delta gt : list (option V))
    : res (nat * M * list (option V) * list (option V)) :=
    match shapes with
    | [] => Ok (k, m, delta, gt)
    | s :: r =>
        let? gt' := set_row k g gt in
        let? m' := set_target m s in
        let? delta' := set_row k (vsub g (vec m')) delta in
        deltas_inner g r (Datatypes.S k) m' delta' gt'
    end.
  Fixpoint deltas_outer (gts : list S) (current : list (list S)) (k : nat) (m : M) (delta gt : list (option V))
    : res (M * list (option V) * list (option V)) :=
    match gts, current with
    | g :: gts', ss :: current' =>
        let? m' := set_target m g in
        let? (k', m'', delta', gt') := deltas_inner (vec m') ss k m' delta gt in
        deltas_outer gts' current' k' m'' delta' gt'
    | _, _ => Ok (m, delta, gt)
    end.
  Definition deltas (m : M) (gts : list S) (current : list (list S)) : res (M * list (option V) * list (option V)) :=
    let? c0 := nth_res current 0 in
    let rows := repeat None (length gts * length c0) in
    deltas_outer gts current 0 m rows rows.

  (** update_parametric_estimates 484-498, update_non_parametric_estimates 314-324. *)
  Fixpoint estimates_inner (est : list V) (gt : list (option V)) (shapes : list S) (j : nat) (m : M) (delta : list (option V))
    : res (list S * nat * M * list (option V)) :=
    match shapes with
    | [] => Ok ([], j, m, delta)
    | s :: r =>
        let? e := nth_res est j in
        let? m1 := set_target m s in
        let cx := vadd (vec m1) e in
        let? m2 := from_vector m1 cx in
        let? g := nth_res gt j in
        let? delta' := match g with Some gv => set_row j (vsub gv cx) delta | None => Ok delta end in
        let? (r', j', m', delta'') := estimates_inner est gt r (Datatypes.S j) m2 delta' in
        Ok (tgt m2 :: r', j', m', delta'')
    end.
  Fixpoint estimates_outer (est : list V) (gt : list (option V)) (current : list (list S)) (j : nat) (m : M) (delta : list (option V))
    : res (list (list S) * M * list (option V)) :=
    match current with
    | [] => Ok ([], m, delta)
    | ss :: current' =>
        let? (ss', j', m', delta') := estimates_inner est gt ss j m delta in
        let? (rest, m'', delta'') := estimates_outer est gt current' j' m' delta' in
        Ok (ss' :: rest, m'', delta'')
    end.

  (** print_parametric_info 399-407, print_non_parametric_info 356-361: the errors whose mean, deviation and median are
      printed.  The shape model is left at the last estimate. *)
  Fixpoint print_info (gts : list S) (n_perturbations : nat) (j : nat) (delta : list (option V)) (est : list V) (m : M)
    : res (list E * M) :=
    match delta, est with
    | dx :: delta', edx :: est' =>
        let? m1 := from_vector m (match dx with Some v => v | None => garbage end) in
        let? m2 := from_vector m1 edx in
        let? gt_s := nth_res gts (j / n_perturbations) in
        let? e := compute_error (tgt m1) (tgt m2) gt_s in
        let? (es, m') := print_info gts n_perturbations (Datatypes.S j) delta' est' m2 in
        Ok (e :: es, m')
    | _, _ => Ok ([], m)
    end.

  (** What one call of [train] leaves behind: the estimates before each iteration, what was printed, the
      regressors, the state of the shape model and the estimates returned. *)
  Record outcome := mkOut { o_currents : list (list (list S)); o_printed : list (list E); o_regs : list R; o_model : M;
                            o_final : list (list S) }.

  (** The loop 90-118. *)
  Fixpoint loop (features : list (list S) -> res (list X)) (verbose increment : bool) (n_perturbations : nat) (gts : list S)
           (n k : nat) (gt : list (option V)) (current : list (list S)) (m : M) (delta : list (option V)) (regs : list R)
    : res outcome :=
    match n with
    | 0 => Ok (mkOut [] [] regs m current)
    | Datatypes.S n' =>
        let? f := features current in
        let? regs' :=
          if increment
          then let? r := nth_res regs k in
               let? r' := reg_increment r f delta in
               Ok (firstn k regs ++ r' :: skipn (Datatypes.S k) regs)
          else let? r := reg_train f delta in Ok (regs ++ [r]) in
        let? r := nth_res regs' k in
        let? est := reg_predict r f in
        let? (printed, m1) := if verbose then let? (es, m1) := print_info gts n_perturbations 0 delta est m in Ok ([es], m1)
                              else Ok ([], m) in
        let? (current', m2, delta') := estimates_outer est gt current 0 m1 delta in
        let? o := loop features verbose increment n_perturbations gts n' (Datatypes.S k) gt current' m2 delta' regs' in
        Ok (mkOut (current :: o_currents o) (printed ++ o_printed o) (o_regs o) (o_model o) (o_final o))
    end.

  (** build_appearance_model 501-538. *)
  Definition appearance_of (images : list I) (gts : list S) : res A :=
    let? rows := mapM (fun p : S * I => patches (snd p) (fst p)) (combine gts images) in
    build_appearance (length images) rows.

  (** _train 74-120.  The shape model is built by _compute_delta_x (parametricshape.py 41-42) and the appearance model at
      the start of the first iteration (parametricappearance.py 50-53), each only when there is none yet.  An
      algorithm without parametric shape starts every training from a fresh [free] state.  (Simplification: when an
      exception is raised the state of the algorithm is not followed.) *)
  Definition train (kd : kind) (verbose increment : bool) (n_iterations : nat) (a : algorithm)
             (images : list I) (gts : list S) (current : list (list S)) : res (algorithm * outcome) :=
    let? regs := if increment then match a_regressors a with [] => Err ValueError | rs => Ok rs end else Ok [] in
    let? c0 := nth_res current 0 in
    let? _ := nth_res gts 0 in
    let? m := match (if k_shape kd then a_shape a else None) with Some m => Ok m | None => build_shape gts end in
    let? (m1, delta, gt) := deltas m gts current in
    let? app := if k_appearance kd then
                  match a_appearance a, n_iterations with
                  | Some ap, _ => Ok (Some ap)
                  | None, 0 => Ok None
                  | None, Datatypes.S _ => let? ap := appearance_of images gts in Ok (Some ap)
                  end
                else Ok (a_appearance a) in
    let? o := loop (training_features kd app images) verbose increment (length c0) gts n_iterations 0 gt current m1 delta regs in
    Ok (mkAlg (o_regs o) (if k_shape kd then Some (o_model o) else a_shape a) app, o).

  (** fit_parametric_shape 573-595, fit_non_parametric_shape 636-651: the shapes, with the state the model is left in. *)
  Fixpoint fit_loop (kd : kind) (app : option A) (regs : list R) (im : I) (m : M) : res (list S * M) :=
    match regs with
    | [] => Ok ([], m)
    | r :: regs' =>
        let? f := test_features kd app im (tgt m) in
        let? dx := reg_predict1 r f in
        let? m' := from_vector m (vadd (vec m) dx) in
        let? (shapes, m'') := fit_loop kd app regs' im m' in
        Ok (tgt m' :: shapes, m'')
    end.
  (** [m] is the state the shape model was left in (any shape for the algorithms without shape model). *)
  Definition fit (kd : kind) (a : algorithm) (m : M) (im : I) (initial : S) : res (list S * M) :=
    let? m1 := set_target m initial in fit_loop kd (a_appearance a) (a_regressors a) im m1.

  (** A history of calls on one algorithm. *)
  Inductive call := Call (increment verbose : bool) (images : list I) (gts : list S) (current : list (list S)).
  Fixpoint calls (kd : kind) (n_iterations : nat) (a : algorithm) (h : list call) : res algorithm :=
    match h with
    | [] => Ok a
    | Call inc vb images gts current :: h' =>
        let? (a', _) := train kd vb inc n_iterations a images gts current in
        calls kd n_iterations a' h'
    end.
End Algorithm.
Arguments algorithm : clear implicits.
Arguments outcome : clear implicits.
Arguments call : clear implicits.

(** The non-parametric algorithms: the state is the shape itself. *)
Definition free_set_target {S} (_ s : S) : res S := Ok s.
Definition free_from_vector {S V} (from_vec : S -> V -> S) (s : S) (v : V) : res S := Ok (from_vec s v).
Definition free_build {S} (gts : list S) : res S := nth_res gts 0.

(** Cascade training of supervised descent, menpofit/sdm/algorithm/base.py 74-120, 254-324, 416-498. *)
From Coq Require Import List.
From Verif.Model Require Import Py Result.
Import ListNotations.

Section Cascade.
  (** [V]: parameter vectors; [S]: shapes.  [proj] is [s.as_vector()] in the non-parametric algorithms and
      [model.set_target(s); model.as_vector()] in the parametric ones (simplification: the parameters found
      for a target do not depend on the previous state of the model); [inst] is the shape written back:
      [s._from_vector_inplace(x)] resp. [model._from_vector_inplace(x)] followed by the copy of its target. *)
  Context {S V R F : Type}.
  Variable proj : S -> V.
  Variable inst : V -> S.
  Variables vadd vsub : V -> V -> V.
  Variable features : list (list S) -> res F.       (* _compute_training_features *)
  Variable reg_train : F -> list (option V) -> res R. (* r = regressor_cls(); r.train(features, delta_x) *)
  Variable reg_increment : R -> F -> list (option V) -> res R.
  Variable reg_predict : R -> F -> res (list V).

  (** [a[k] = v] for a numpy array of rows; rows of np.empty that were not written are [None]. *)
  Fixpoint set_row {A} (k : nat) (v : A) (a : list (option A)) : res (list (option A)) :=
    match k, a with
    | _, [] => Err IndexError
    | 0, _ :: r => Ok (Some v :: r)
    | Datatypes.S k', x :: r => let? r' := set_row k' v r in Ok (x :: r')
    end.

  (** Inner loop 286-291 / 450-457. *)
  Fixpoint delta_inner (g : V) (shapes : list S) (k : nat) (delta gt : list (option V))
    : res (nat * list (option V) * list (option V)) :=
    match shapes with
    | [] => Ok (k, delta, gt)
    | s :: r =>
        let? gt' := set_row k g gt in
        let? delta' := set_row k (vsub g (proj s)) delta in
        delta_inner g r (Datatypes.S k) delta' gt'
    end.
  (** Outer loop 284-291 / 446-457; [zip] stops at the shorter list. *)
  Fixpoint delta_outer (gts : list S) (current : list (list S)) (k : nat) (delta gt : list (option V))
    : res (list (option V) * list (option V)) :=
    match gts, current with
    | g :: gts', shapes :: current' =>
        let? (k', delta', gt') := delta_inner (proj g) shapes k delta gt in
        delta_outer gts' current' k' delta' gt'
    | _, _ => Ok (delta, gt)
    end.
  (** compute_non_parametric_delta_x 254-293, compute_parametric_delta_x 416-459.  With no ground truth
      shape or no list of current shapes, [gt_shapes[0]] / [current_shapes[0]] raises IndexError. *)
  Definition compute_delta_x (gts : list S) (current : list (list S)) : res (list (option V) * list (option V)) :=
    let? _ := nth_res gts 0 in
    let? c0 := nth_res current 0 in
    let rows := repeat None (length gts * length c0) in
    delta_outer gts current 0 rows rows.

  (** update_non_parametric_estimates 314-324, update_parametric_estimates 484-498. *)
  Fixpoint update_inner (est : list V) (gt : list (option V)) (shapes : list S) (j : nat) (delta : list (option V))
    : res (list S * nat * list (option V)) :=
    match shapes with
    | [] => Ok ([], j, delta)
    | s :: r =>
        let? e := nth_res est j in
        let cx := vadd (proj s) e in
        let? g := nth_res gt j in
        let? delta' := match g with Some gv => set_row j (vsub gv cx) delta
                                  | None => Ok delta (* an uninitialised row stays meaningless *) end in
        let? (r', j', delta'') := update_inner est gt r (Datatypes.S j) delta' in
        Ok (inst cx :: r', j', delta'')
    end.
  Fixpoint update_outer (est : list V) (gt : list (option V)) (current : list (list S)) (j : nat) (delta : list (option V))
    : res (list (list S) * list (option V)) :=
    match current with
    | [] => Ok ([], delta)
    | shapes :: current' =>
        let? (shapes', j', delta') := update_inner est gt shapes j delta in
        let? (rest, delta'') := update_outer est gt current' j' delta' in
        Ok (shapes' :: rest, delta'')
    end.

  (** One iteration as seen by the regressor: current shapes, features, targets and prediction. *)
  Record step := mkStep { st_current : list (list S); st_features : F; st_delta : list (option V); st_pred : list V }.

  (** The loop 90-118.  [regs] are the regressors trained so far (training) or the regressors of the
      previous training (increment). *)
  Fixpoint cascade (increment : bool) (n : nat) (k : nat) (gt : list (option V)) (current : list (list S))
           (delta : list (option V)) (regs : list R) : res (list step * list R * list (list S)) :=
    match n with
    | 0 => Ok ([], regs, current)
    | Datatypes.S n' =>
        let? f := features current in
        let? regs' :=
          if increment
          then let? r := nth_res regs k in
               let? r' := reg_increment r f delta in
               Ok (firstn k regs ++ r' :: skipn (Datatypes.S k) regs)
          else let? r := reg_train f delta in Ok (regs ++ [r]) in
        let? r := nth_res regs' k in
        let? est := reg_predict r f in
        let? (current', delta') := update_outer est gt current 0 delta in
        let? (steps, regs'', final) := cascade increment n' (Datatypes.S k) gt current' delta' regs' in
        Ok (mkStep current f delta est :: steps, regs'', final)
    end.

  (** BaseSupervisedDescentAlgorithm._train 74-120.  [old]: self.regressors before the call, if any. *)
  Definition train (increment : bool) (n_iterations : nat) (old : option (list R)) (gts : list S) (current : list (list S))
    : res (list step * list R * list (list S)) :=
    let? regs := if increment
                 then match old with Some (r :: rs) => Ok (r :: rs) | _ => Err ValueError end
                 else Ok [] in
    let? (delta, gt) := compute_delta_x gts current in
    cascade increment n_iterations 0 gt current delta regs.
End Cascade.
Arguments step : clear implicits.

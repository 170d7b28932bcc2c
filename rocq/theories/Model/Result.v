(** Fitting results: menpofit/result.py, aam/result.py, lk/result.py, unified_aam_clm/result.py.

    Shapes, shape parameters, appearance parameters and costs are opaque; transforms are functions on
    shapes.  The image of a result plays no role in the modelled functions and is left out. *)
From Coq Require Import List ZArith Bool.
From Verif.Model Require Import Py.
Import ListNotations.
Local Open Scope nat_scope.

(** [l[i]] for a non-negative [i], and [l[-1]]. *)
Definition nth_res {A} (l : list A) (i : nat) : res A :=
  match nth_error l i with Some a => Ok a | None => Err IndexError end.
Definition last_res {A} (l : list A) : res A := nth_res (rev l) 0.

Section Results.
  Context {Sh P A C : Type}.

  (** The attributes of NonParametricIterativeResult, ParametricIterativeResult,
      AAMAlgorithmResult / UnifiedAAMCLMAlgorithmResult and LucasKanadeAlgorithmResult.  [r_params] is []
      and [r_app] None where the class has no such attribute. *)
  Record iresult := mkResult {
    r_final : Sh;
    r_initial : option Sh;
    r_gt : option Sh;
    r_shapes : list Sh;
    r_n_iters : Z;
    r_costs : option (list C);
    r_params : list P;
    r_app : option (list A) }.

  (** NonParametricIterativeResult.__init__, result.py 678-693. *)
  Definition nonparametric_result (shapes : list Sh) (initial gt : option Sh)
             (costs : option (list C)) : res iresult :=
    let? final := last_res shapes in
    Ok {| r_final := final; r_initial := initial; r_gt := gt;
          r_shapes := match initial with Some i => i :: shapes | None => shapes end;
          r_n_iters := Z.of_nat (length shapes); r_costs := costs; r_params := []; r_app := None |}.

  (** ParametricIterativeResult.__init__, result.py 1839-1862 ([shapes[0]] is read first), extended by
      AAMAlgorithmResult, aam/result.py 40-46 (appearance parameters). *)
  Definition parametric_result (shapes : list Sh) (params : list P) (app : option (list A))
             (initial gt : option Sh) (costs : option (list C)) : res iresult :=
    let? _ := nth_res shapes 0 in
    let? r := nonparametric_result shapes initial gt costs in
    Ok {| r_final := r_final r; r_initial := r_initial r; r_gt := r_gt r; r_shapes := r_shapes r;
          r_n_iters := r_n_iters r - 1; r_costs := r_costs r; r_params := params; r_app := app |}.

  (** ParametricIterativeResult.reconstructed_initial_shape, result.py 1887-1897. *)
  Definition reconstructed_initial_shape (r : iresult) : res Sh :=
    match r_initial r with Some _ => nth_res (r_shapes r) 1 | None => nth_res (r_shapes r) 0 end.

  (** _rescale_shapes_to_reference, result.py 13-18. *)
  Definition rescale_shapes (shapes : list Sh) (affine scale : Sh -> Sh) : list Sh :=
    map (fun s => affine (scale s)) shapes.

  Record mresult := mkMulti {
    m_res : iresult;
    m_n_iters_per_scale : list Z;
    m_n_scales : nat }.

  (** [acc = []; for r in results: acc += r.attr] guarded by [results[0].attr is not None]
      (result.py 2443-2447; aam/result.py 97-101): adding None to a list raises TypeError. *)
  Definition concat_attr {X} (attrs : list (option (list X))) : res (option (list X)) :=
    let? first := nth_res attrs 0 in
    match first with
    | None => Ok None
    | Some _ =>
        let? ls := mapM (fun o => match o with Some l => Ok l | None => Err TypeError end) attrs in
        Ok (Some (concat ls))
    end.

  (** MultiScaleNonParametricIterativeResult.__init__, result.py 2385-2447.  [n] is [len(scales)];
      [results] is already a list. *)
  Definition multi_nonparametric (results : list iresult) (n : nat) (affine scale : list (Sh -> Sh))
             (gt : option Sh) : res mresult :=
    if negb (length results =? n) then Err ValueError else
    let? r0 := nth_res results 0 in
    let? initial :=
      match r_initial r0 with
      | None => Ok None
      | Some i => let? a := nth_res affine 0 in let? s := nth_res scale 0 in
                  let? i' := nth_res (rescale_shapes [i] a s) 0 in Ok (Some i')
      end in
    let? per_scale :=
      mapM (fun i =>
              let? r := nth_res results i in
              let? a := nth_res affine i in
              let? s := nth_res scale i in
              let shapes := match r_initial r with None => r_shapes r | Some _ => tl (r_shapes r) end in
              Ok (r_n_iters r, rescale_shapes shapes a s)) (seq 0 n) in
    let? base := nonparametric_result (concat (map snd per_scale)) initial gt None in
    let? costs := concat_attr (map r_costs results) in
    Ok {| m_res := {| r_final := r_final base; r_initial := r_initial base; r_gt := r_gt base;
                      r_shapes := r_shapes base; r_n_iters := r_n_iters base; r_costs := costs;
                      r_params := []; r_app := None |};
          m_n_iters_per_scale := map fst per_scale; m_n_scales := n |}.

  (** MultiScaleParametricIterativeResult.__init__, result.py 2502-2525. *)
  Definition multi_parametric (results : list iresult) (n : nat) (affine scale : list (Sh -> Sh))
             (gt : option Sh) : res mresult :=
    let? m := multi_nonparametric results n affine scale gt in
    let b := m_res m in
    Ok {| m_res := {| r_final := r_final b; r_initial := r_initial b; r_gt := r_gt b;
                      r_shapes := r_shapes b; r_n_iters := r_n_iters b - Z.of_nat n;
                      r_costs := r_costs b; r_params := concat (map r_params results); r_app := None |};
          m_n_iters_per_scale := m_n_iters_per_scale m; m_n_scales := m_n_scales m |}.

  (** AAMResult.__init__, aam/result.py 91-101; UnifiedAAMCLMResult.__init__,
      unified_aam_clm/result.py 92-102. *)
  Definition aam_result (results : list iresult) (n : nat) (affine scale : list (Sh -> Sh))
             (gt : option Sh) : res mresult :=
    let? m := multi_parametric results n affine scale gt in
    let? app := concat_attr (map r_app results) in
    let b := m_res m in
    Ok {| m_res := {| r_final := r_final b; r_initial := r_initial b; r_gt := r_gt b;
                      r_shapes := r_shapes b; r_n_iters := r_n_iters b;
                      r_costs := r_costs b; r_params := r_params b; r_app := app |};
          m_n_iters_per_scale := m_n_iters_per_scale m; m_n_scales := m_n_scales m |}.

  (** LucasKanadeResult.__init__, lk/result.py 78-88. *)
  Definition lucas_kanade_result (results : list iresult) (n : nat) (affine scale : list (Sh -> Sh))
             (gt : option Sh) : res mresult :=
    let? m := multi_parametric results n affine scale gt in
    let b := m_res m in
    Ok {| m_res := {| r_final := r_final b; r_initial := r_initial b; r_gt := r_gt b;
                      r_shapes := r_shapes b; r_n_iters := r_n_iters b - Z.of_nat n;
                      r_costs := r_costs b; r_params := r_params b; r_app := None |};
          m_n_iters_per_scale := m_n_iters_per_scale m; m_n_scales := m_n_scales m |}.

  (** _reconstruction_indices of the multi-scale result, result.py 2550-2567. *)
  Fixpoint reconstruction_from (start : Z) (iters : list Z) (n : nat) : list Z :=
    match n with
    | 0 => []
    | S n' => start ::
        match iters with
        | [] => []
        | k :: iters' => reconstruction_from (start + k + 1) iters' n'
        end
    end.
  Definition reconstruction_indices (m : mresult) : list Z :=
    reconstruction_from (match r_initial (m_res m) with Some _ => 1 | None => 0 end)%Z
                        (m_n_iters_per_scale m) (m_n_scales m).

  (** reconstructed_initial_shapes, result.py 2539-2547 (the indices are never negative). *)
  Definition reconstructed_initial_shapes (m : mresult) : res (list Sh) :=
    mapM (fun i => nth_res (r_shapes (m_res m)) (Z.to_nat i)) (reconstruction_indices m).

  (** Result.final_error 117-147, Result.initial_error 149-188, errors 761-791,
      reconstructed_initial_error 1912-1943 and 2569-2600. *)
  Section Errors.
    Context {Er : Type}.
    Variable compute_error : Sh -> Sh -> res Er.
    Definition final_error (r : iresult) : res Er :=
      match r_gt r with Some gt => compute_error (r_final r) gt | None => Err ValueError end.
    Definition initial_error (r : iresult) : res Er :=
      match r_initial r with
      | None => Err ValueError
      | Some i => match r_gt r with None => Err ValueError | Some gt => compute_error i gt end
      end.
    Definition errors (r : iresult) : res (list Er) :=
      match r_gt r with
      | Some gt => mapM (fun t => compute_error t gt) (r_shapes r)
      | None => Err ValueError
      end.
    Definition reconstructed_initial_error (r : iresult) : res Er :=
      match r_gt r with
      | None => Err ValueError
      | Some gt => let? s := reconstructed_initial_shape r in compute_error s gt
      end.
    Definition multi_reconstructed_initial_error (m : mresult) : res Er :=
      match r_gt (m_res m) with
      | None => Err ValueError
      | Some gt => let? l := reconstructed_initial_shapes m in
                   let? s := nth_res l 0 in compute_error s gt
      end.
  End Errors.

  (** displacements, result.py 970-980, for a per-point distance [dist]. *)
  Definition displacements {D} (dist : Sh -> Sh -> D) (r : iresult) : list D :=
    map (fun p => dist (fst p) (snd p)) (combine (r_shapes r) (tl (r_shapes r))).

  (** to_result, result.py 724-759: final shape, initial shape and ground truth of the simple result. *)
  Definition to_result (pass_initial pass_gt : bool) (r : iresult) : Sh * option Sh * option Sh :=
    (r_final r, if pass_initial then r_initial r else None, if pass_gt then r_gt r else None).

  (** ** Labels of view_iterations.  "iteration {:0{}d}".format(z, n_digits) is determined by [z] and
      distinct for distinct [z]; it is modelled by [Iteration z]. *)
  Inductive label := Initial | Reconstruction | Final | Iteration (z : Z).

  (** _parse_iters, result.py 21-28: [None] means every index. *)
  Definition parse_iters (iters : option (list nat)) (n_shapes : nat) : list nat :=
    match iters with None => seq 0 n_shapes | Some l => l end.

  (** _get_scale_of_iter, result.py 31-33: the position of the last index not above [j]. *)
  Definition get_scale_of_iter (j : Z) (ids : list Z) : res nat :=
    last_res (filter (fun i => match nth_error ids i with Some v => (v <=? j)%Z | None => false end)
                     (seq 0 (length ids))).

  Definition has_initial (r : iresult) : bool := match r_initial r with Some _ => true | None => false end.

  (** NonParametricIterativeResult.view_iterations, result.py 1718-1730: name and shape assigned for
      index [j] (indices are taken non-negative). *)
  Definition label_nonparametric (r : iresult) (j : nat) : res (label * Sh) :=
    let offset := if has_initial r then 0%Z else 1%Z in
    match (if j =? 0 then r_initial r else None) with
    | Some i => Ok (Initial, i)
    | None =>
        if j =? length (r_shapes r) - 1 then Ok (Final, r_final r)
        else let? s := nth_res (r_shapes r) j in Ok (Iteration (Z.of_nat j + offset), s)
    end.

  (** The common body of result.py 2273-2290 and 2930-2947. *)
  Definition label_with (offset : Z) (ids : list Z) (r : iresult) (j : nat) : res (label * Sh) :=
    match (if j =? 0 then r_initial r else None) with
    | Some i => Ok (Initial, i)
    | None =>
        if existsb (Z.eqb (Z.of_nat j)) ids
        then let? s := nth_res (r_shapes r) j in Ok (Reconstruction, s)
        else if j =? length (r_shapes r) - 1 then Ok (Final, r_final r)
        else let? sc := get_scale_of_iter (Z.of_nat j) ids in
             let? s := nth_res (r_shapes r) j in
             Ok (Iteration (Z.of_nat j - Z.of_nat sc + offset), s)
    end.

  (** ParametricIterativeResult.view_iterations, result.py 2273-2290. *)
  Definition label_parametric (r : iresult) (j : nat) : res (label * Sh) :=
    label_with (if has_initial r then 1 else 0)%Z [if has_initial r then 1 else 0]%Z r j.

  (** MultiScaleParametricIterativeResult.view_iterations, result.py 2930-2947. *)
  Definition label_multi (m : mresult) (j : nat) : res (label * Sh) :=
    label_with (if has_initial (m_res m) then -1 else -2)%Z (reconstruction_indices m) (m_res m) j.

  (** The landmark groups built by view_iterations: an assignment to an existing name overwrites it, so
      what is shown under a name is the last shape assigned to it. *)
  Definition label_eqb (a b : label) : bool :=
    match a, b with
    | Initial, Initial | Reconstruction, Reconstruction | Final, Final => true
    | Iteration x, Iteration y => (x =? y)%Z
    | _, _ => false
    end.
  Fixpoint shown (assigned : list (label * Sh)) (l : label) : option Sh :=
    match assigned with
    | [] => None
    | (l', s) :: r => match shown r l with
                      | Some s' => Some s'
                      | None => if label_eqb l l' then Some s else None
                      end
    end.
End Results.

Arguments iresult : clear implicits.
Arguments mresult : clear implicits.

(** The iterative optimisation loops of the fitting algorithms.

    Everything an algorithm object and its transform hold at the head of the loop is one state [St].
    [step] is one turn of the loop body (warping the image, Jacobian, solving, updating the transform):
    external numerical code, which may raise; together with the new state it returns the number [E] that
    is compared with [self.eps], and [exceeds e] is [e > self.eps] (false for a NaN).
    The transform read-outs [as_vector] and [target], the appearance parameters [app_of] and the costs are
    functions of the state. *)
From Coq Require Import List ZArith.
From Verif.Model Require Import Py.
Import ListNotations.
Local Open Scope nat_scope.

Section Loops.
  Context {St P Sh A C E : Type}.
  Variable step : St -> res (St * E).
  Variable exceeds : E -> bool.
  Variable as_vector : St -> P.
  Variable target : St -> Sh.
  Variable app_of : St -> A.
  Variable cost : St -> C.

  (** Lucas-Kanade, lk/algorithm.py 104-161 (ForwardAdditive), 237-288 (ForwardCompositional) and
      368-413 (InverseCompositional).  [n] is [max_iters - k] (0 for a negative [max_iters]); [go] is
      [eps > self.eps], true at first since [eps] starts at infinity.  The cost appended by a turn is the
      one of the error image computed at the start of that turn, before the warp update. *)
  Fixpoint lk_loop (n : nat) (go : bool) (st : St) (p_list : list P) (shapes : list Sh)
           (costs : option (list C)) : res (list P * list Sh * option (list C)) :=
    match n with
    | 0 => Ok (p_list, shapes, costs)
    | S n' =>
        if go then
          let? se := step st in
          let st' := fst se in
          lk_loop n' (exceeds (snd se)) st' (p_list ++ [as_vector st']) (shapes ++ [target st'])
                  (option_map (fun c => c ++ [cost st]) costs)
        else Ok (p_list, shapes, costs)
    end.

  Definition lk_run (max_iters : Z) (return_costs : bool) (st0 : St) :=
    lk_loop (Z.to_nat max_iters) true st0 [as_vector st0] [target st0]
            (if return_costs then Some [] else None).

  (** Gauss-Newton loops without appearance parameters: aam/algorithm/lk.py 834-888 (ProjectOut, also
      its Forward/Inverse subclasses), atm/algorithm.py 262-316 (Compositional),
      unified_aam_clm/algorithm.py 210-278 (ProjectOutRegularisedLandmarkMeanShift).  The cost is
      recomputed from the image warped after the update. *)
  Fixpoint gn_loop (n : nat) (go : bool) (st : St) (p_list : list P) (shapes : list Sh)
           (costs : option (list C)) : res (list P * list Sh * option (list C)) :=
    match n with
    | 0 => Ok (p_list, shapes, costs)
    | S n' =>
        if go then
          let? se := step st in
          let st' := fst se in
          gn_loop n' (exceeds (snd se)) st' (p_list ++ [as_vector st']) (shapes ++ [target st'])
                  (option_map (fun c => c ++ [cost st']) costs)
        else Ok (p_list, shapes, costs)
    end.

  Definition gn_run (max_iters : Z) (return_costs : bool) (st0 : St) :=
    gn_loop (Z.to_nat max_iters) true st0 [as_vector st0] [target st0]
            (if return_costs then Some [cost st0] else None).

  (** Gauss-Newton loops that also optimise the appearance: aam/algorithm/lk.py 1000-1069
      (Simultaneous), 1175-1264 (Alternating), 1349-1427 (ModifiedAlternating), 1515-1595 (Wiberg),
      unified_aam_clm/algorithm.py 355-447 (AlternatingRegularisedLandmarkMeanShift). *)
  Fixpoint gn_app_loop (n : nat) (go : bool) (st : St) (p_list : list P) (c_list : list A)
           (shapes : list Sh) (costs : option (list C))
    : res (list P * list A * list Sh * option (list C)) :=
    match n with
    | 0 => Ok (p_list, c_list, shapes, costs)
    | S n' =>
        if go then
          let? se := step st in
          let st' := fst se in
          gn_app_loop n' (exceeds (snd se)) st' (p_list ++ [as_vector st']) (c_list ++ [app_of st'])
                      (shapes ++ [target st']) (option_map (fun c => c ++ [cost st']) costs)
        else Ok (p_list, c_list, shapes, costs)
    end.

  Definition gn_app_run (max_iters : Z) (return_costs : bool) (st0 : St) :=
    gn_app_loop (Z.to_nat max_iters) true st0 [as_vector st0] [app_of st0] [target st0]
                (if return_costs then Some [cost st0] else None).

  (** Active Pictorial Structures, aps/algorithm/gn.py 437-505 (Inverse) and 575-655 (Forward): three
      cost lists.  [shapes[-1]] is the current target. *)
  Variable app_cost def_cost : St -> C.
  Variable add : C -> C -> C.
  Definition cost_lists := (list C * list C * list C)%type.
  Definition push_costs (st : St) (c : cost_lists) : cost_lists :=
    let '(a, d, t) := c in
    (a ++ [app_cost st], d ++ [def_cost st], t ++ [add (app_cost st) (def_cost st)]).

  Fixpoint aps_loop (n : nat) (go : bool) (st : St) (p_list : list P) (shapes : list Sh)
           (costs : option cost_lists) : res (list P * list Sh * option cost_lists) :=
    match n with
    | 0 => Ok (p_list, shapes, costs)
    | S n' =>
        if go then
          let? se := step st in
          let st' := fst se in
          aps_loop n' (exceeds (snd se)) st' (p_list ++ [as_vector st']) (shapes ++ [target st'])
                   (option_map (push_costs st') costs)
        else Ok (p_list, shapes, costs)
    end.

  Definition aps_run (max_iters : Z) (return_costs : bool) (st0 : St) :=
    aps_loop (Z.to_nat max_iters) true st0 [as_vector st0] [target st0]
             (if return_costs then Some (push_costs st0 ([], [], [])) else None).

  (** CLM gradient descent, clm/algorithm/gd.py 141-206 (ActiveShapeModel) and 284-345
      (RegularisedLandmarkMeanShift): no costs; asking for them only emits a warning, which is
      reported by the first component of the result. *)
  Fixpoint clm_loop (n : nat) (go : bool) (st : St) (p_list : list P) (shapes : list Sh)
    : res (list P * list Sh) :=
    match n with
    | 0 => Ok (p_list, shapes)
    | S n' =>
        if go then
          let? se := step st in
          let st' := fst se in
          clm_loop n' (exceeds (snd se)) st' (p_list ++ [as_vector st']) (shapes ++ [target st'])
        else Ok (p_list, shapes)
    end.

  Definition clm_run (max_iters : Z) (return_costs : bool) (st0 : St) : bool * res (list P * list Sh) :=
    (return_costs, clm_loop (Z.to_nat max_iters) true st0 [as_vector st0] [target st0]).
End Loops.

(** Cascaded regression: one turn per trained regressor. *)
Section Cascade.
  Context {Rg St P Sh : Type}.
  Variable step : Rg -> St -> res St.
  Variable as_vector : St -> P.
  Variable target : St -> Sh.

  (** aam/algorithm/sd.py 139-163: the lists start with the projection of the initial shape. *)
  Fixpoint cascade (regs : list Rg) (st : St) (p_list : list P) (shapes : list Sh)
    : res (list P * list Sh) :=
    match regs with
    | [] => Ok (p_list, shapes)
    | r :: regs' =>
        let? st' := step r st in
        cascade regs' st' (p_list ++ [as_vector st']) (shapes ++ [target st'])
    end.

  Definition aam_sd_run (regs : list Rg) (st0 : St) := cascade regs st0 [as_vector st0] [target st0].

  (** sdm/algorithm/base.py 573-600 (fit_parametric_shape): the parameters start with those of the
      projection of the initial shape, the shapes start empty. *)
  Definition sdm_parametric_run (regs : list Rg) (st0 : St) := cascade regs st0 [as_vector st0] [].

  (** sdm/algorithm/base.py 635-656 (fit_non_parametric_shape): shapes only. *)
  Fixpoint cascade_shapes (regs : list Rg) (st : St) (shapes : list Sh) : res (list Sh) :=
    match regs with
    | [] => Ok shapes
    | r :: regs' => let? st' := step r st in cascade_shapes regs' st' (shapes ++ [target st'])
    end.
  Definition sdm_non_parametric_run (regs : list Rg) (st0 : St) := cascade_shapes regs st0 [].
End Cascade.

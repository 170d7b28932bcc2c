(** Algorithm objects as state machines over a history of [run] calls.  Arrays are matrices over an ordered field, see
    Model/LinAlg.v.  External numerical code: [project] is transform.set_target followed by as_vector, [target_of] the
    target generated by a parameter vector, [warp] interface.warp followed by as_vector and masking (it may raise when the
    shape leaves the image), [exceeds s s'] the test norm(s - s') > self.eps.  That set_target does not look at the
    previous parameters is the subject of Model/ModelInstance.v. *)
From Verif.Model Require Import Py LinAlg.
From mathcomp Require Import all_ssreflect all_algebra.
Set Implicit Arguments.
Unset Strict Implicit.
Unset Printing Implicit Defensive.
Import GRing.Theory Num.Theory.
Local Open Scope ring_scope.

(** The arguments of one call of run(image, initial_shape, max_iters=, return_costs=, map_inference=). *)
Record call (Image Sh : Type) := Call { c_image : Image; c_shape : Sh; c_max_iters : nat; c_costs : bool; c_map : bool }.

Section History.
Variable F : realFieldType.
Variables (k n : nat) (Image Sh : Type).
Variable project : Sh -> 'cV[F]_n.
Variable target_of : 'cV[F]_n -> Sh.
Variable warp : Image -> 'cV[F]_n -> res 'cV[F]_k.
Variable exceeds : Sh -> Sh -> bool.
Variable cost : 'cV[F]_k -> F.
(** Constants of the algorithm object: a_bar_m (t_m), QJ_m (J_m), pinv_QJ_m (pinv_J_m), s2_inv_L. *)
Variable a_bar_m : 'cV[F]_k.
Variable QJ_m : 'M[F]_(k, n).
Variable pinv_QJ_m : 'M[F]_(n, k).
Variable s2_inv_L : 'cV[F]_n.

(** The attributes that a run writes: JQJ_m (JJ_m) through [H += ...], the parameters of the transform, e_m. *)
Record alg := Alg { a_H : 'M[F]_n; a_p : 'cV[F]_n; a_e : 'cV[F]_k }.
Notation outcome := (res (seq 'cV[F]_n * seq Sh * option (seq F))).

(** aam/algorithm/lk.py 939-946 and atm/algorithm.py 363-370. *)
Definition ic_solve (map_inference : bool) (a : alg) : alg * res 'cV[F]_n :=
  if map_inference then
    let: (H', r) := solve_shape_map (a_H a) QJ_m (a_e a) s2_inv_L (a_p a) in
    (Alg H' (a_p a) (a_e a), r)
  else (a, Ok (- (pinv_QJ_m *m a_e a))).

(** ProjectOutForwardCompositional._solve, aam/algorithm/lk.py 895-910, and ForwardCompositional._solve,
    atm/algorithm.py 323-336: the Jacobian [jac] of the current warped image, projected out by [po]; the Hessian is a fresh
    array, so that the in-place addition of solve_shape_map is lost. *)
Variable jac : Image -> 'cV[F]_n -> res 'M[F]_(k, n).
Variable po : 'M[F]_(k, n) -> 'M[F]_(k, n).
Definition fc_solve (img : Image) (map_inference : bool) (a : alg) : alg * res 'cV[F]_n :=
  (a, match jac img (a_p a) with
      | Err x => Err x
      | Ok J => if map_inference then snd (solve_shape_map ((po J)^T *m J) (po J) (a_e a) s2_inv_L (a_p a))
                else solve_shape_ml ((po J)^T *m J) (po J) (a_e a)
      end).

Section Run.
Variable solve : Image -> bool -> alg -> alg * res 'cV[F]_n.
(** _update_warp: 948-951 subtracts, 912-915 adds. *)
Variable sign : bool.
Definition update (p dp : 'cV[F]_n) : 'cV[F]_n := if sign then p + dp else p - dp.

(** The loop, aam/algorithm/lk.py 857-888 and atm/algorithm.py 285-316.  An exception leaves the object as it is at that
    point. *)
Fixpoint loop (m : nat) (go : bool) (c : call Image Sh) (a : alg) (ps : seq 'cV[F]_n) (ss : seq Sh) (cs : option (seq F))
  : alg * outcome :=
  match m with
  | 0 => (a, Ok (ps, ss, cs))
  | S m' =>
      if go then
        let: (a1, r) := solve (c_image c) (c_map c) a in
        match r with
        | Err x => (a1, Err x)
        | Ok dp =>
            let p' := update (a_p a1) dp in
            let s_k := target_of (a_p a1) in
            let a2 := Alg (a_H a1) p' (a_e a1) in
            match warp (c_image c) p' with
            | Err x => (a2, Err x)
            | Ok i_m =>
                let a3 := Alg (a_H a2) p' (i_m - a_bar_m) in
                loop m' (exceeds s_k (target_of p')) c a3 (ps ++ [:: p']) (ss ++ [:: target_of p'])
                     (omap (fun l => l ++ [:: cost (a_e a3)]) cs)
            end
        end
      else (a, Ok (ps, ss, cs))
  end.

(** run, aam/algorithm/lk.py 833-888 and atm/algorithm.py 261-316. *)
Definition run (c : call Image Sh) (a : alg) : alg * outcome :=
  let p := project (c_shape c) in
  let a1 := Alg (a_H a) p (a_e a) in
  match warp (c_image c) p with
  | Err x => (a1, Err x)
  | Ok i_m =>
      let a2 := Alg (a_H a) p (i_m - a_bar_m) in
      loop (c_max_iters c) true c a2 [:: p] [:: target_of p] (if c_costs c then Some [:: cost (a_e a2)] else None)
  end.

(** The object after a list of calls, whose results (or exceptions) are dropped. *)
Fixpoint after (cs : seq (call Image Sh)) (a : alg) : alg :=
  match cs with [::] => a | c :: cs' => after cs' (fst (run c a)) end.
End Run.

Definition ic_run := run (fun _ => ic_solve) false.
Definition ic_after := after (fun _ => ic_solve) false.
Definition fc_run := run fc_solve true.
Definition fc_after := after fc_solve true.
End History.

(** Algorithms that also keep an appearance estimate: Simultaneous, aam/algorithm/lk.py 957-1085, Alternating 1126-1264,
    ModifiedAlternating 1305-1427 and Wiberg 1468-1595.  [inner] is everything the loop keeps in attributes and local
    variables (self.i, self.c, self.a, self.e_m, self.dp, Jdp); [start] computes it from the warped image before the loop,
    [step] is one turn, whose Hessians are fresh arrays. *)
Section AppHistory.
Variables (P Image Sh Inner C Cost : Type).
Variable project : Sh -> P.
Variable target_of : P -> Sh.
Variable start : Image -> P -> res Inner.
Variable step : Image -> bool -> P -> Inner -> res (P * Inner).
Variable exceeds : Sh -> Sh -> bool.
Variable app_of : Inner -> C.
Variable cost : Inner -> Cost.
Record app_alg := AppAlg { g_p : P; g_inner : Inner }.

Fixpoint app_loop (m : nat) (go : bool) (c : call Image Sh) (a : app_alg) (ps : list P) (cs : list C) (ss : list Sh) (ks : option (list Cost))
  : app_alg * res (list P * list C * list Sh * option (list Cost)) :=
  match m with
  | 0 => (a, Ok (ps, cs, ss, ks))
  | S m' =>
      if go then
        match step (c_image c) (c_map c) (g_p a) (g_inner a) with
        | Err x => (a, Err x)
        | Ok (p', i') =>
            app_loop m' (exceeds (target_of (g_p a)) (target_of p')) c (AppAlg p' i') (ps ++ [:: p']) (cs ++ [:: app_of i'])
                     (ss ++ [:: target_of p']) (omap (fun l => l ++ [:: cost i']) ks)
        end
      else (a, Ok (ps, cs, ss, ks))
  end.
Definition app_run (c : call Image Sh) (a : app_alg) :=
  let p := project (c_shape c) in
  match start (c_image c) p with
  | Err x => (AppAlg p (g_inner a), Err x)
  | Ok i => app_loop (c_max_iters c) true c (AppAlg p i) [:: p] [:: app_of i] [:: target_of p]
                     (if c_costs c then Some [:: cost i] else None)
  end.
Fixpoint app_after (cs : list (call Image Sh)) (a : app_alg) : app_alg :=
  match cs with nil => a | c :: cs' => app_after cs' (fst (app_run c a)) end.
End AppHistory.

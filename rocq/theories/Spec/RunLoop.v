(** What a run of an iterative algorithm is, independently of the loops that compute it. *)
From Coq Require Import List ZArith.
From Verif.Model Require Import Py.
Import ListNotations.
Local Open Scope nat_scope.

(** [Traj step s l]: starting from [s], successive updates succeed and produce the states and step
    lengths listed in [l]. *)
Inductive Traj {St E} (step : St -> res (St * E)) : St -> list (St * E) -> Prop :=
| traj_stop : forall s, Traj step s []
| traj_step : forall s s' e l, step s = Ok (s', e) -> Traj step s' l -> Traj step s ((s', e) :: l).

(** Every update that is followed by another one moved by more than the threshold. *)
Definition moves_before_last {E} (exceeds : E -> bool) (es : list E) : Prop :=
  forall pre e e' post, es = pre ++ e :: e' :: post -> exceeds e = true.

(** The last update, if any, moved by at most the threshold. *)
Definition converged {E} (exceeds : E -> bool) (es : list E) : Prop :=
  exists pre e, es = pre ++ [e] /\ exceeds e = false.

(** At most [max] updates; fewer only on convergence; none after convergence. *)
Definition well_stopped {E} (exceeds : E -> bool) (max : nat) (es : list E) : Prop :=
  length es <= max /\ moves_before_last exceeds es /\ (length es < max -> converged exceeds es).

(** The states visited, the initial one included. *)
Definition visited {St E} (s0 : St) (l : list (St * E)) : list St := s0 :: map fst l.

(** The run is cut short by an exception of the update rule. *)
Definition raises {St E} (step : St -> res (St * E)) (exceeds : E -> bool) (max : nat) (s0 : St)
           (x : exn) : Prop :=
  exists l, Traj step s0 l /\ length l < max /\ (forall se, In se l -> exceeds (snd se) = true) /\
            step (last (visited s0 l) s0) = Err x.

(** Trajectory of a cascade: one state per regressor. *)
Inductive CTraj {Rg St} (step : Rg -> St -> res St) : list Rg -> St -> list St -> Prop :=
| ctraj_stop : forall s, CTraj step [] s []
| ctraj_step : forall r regs s s' l, step r s = Ok s' -> CTraj step regs s' l ->
    CTraj step (r :: regs) s (s' :: l).

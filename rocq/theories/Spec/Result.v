(** What the results of a multi-scale fit must report. *)
From Coq Require Import List ZArith.
From Verif.Model Require Import Py Result.
Import ListNotations.
Local Open Scope nat_scope.

(** What an algorithm produced at one scale: the shape it was started from, the trajectory (the
    projection of that shape first, then one shape per iteration) and what goes with it. *)
Record scale_run (Sh P A C : Type) := mkRun {
  s_initial : option Sh;
  s_first : Sh;
  s_rest : list Sh;
  s_params : list P;
  s_app : option (list A);
  s_costs : option (list C) }.
Arguments mkRun {Sh P A C}.
Arguments s_initial {Sh P A C}.
Arguments s_first {Sh P A C}.
Arguments s_rest {Sh P A C}.
Arguments s_params {Sh P A C}.
Arguments s_app {Sh P A C}.
Arguments s_costs {Sh P A C}.

Definition s_shapes {Sh P A C} (r : scale_run Sh P A C) : list Sh := s_first r :: s_rest r.
(** The number of iterations performed at that scale. *)
Definition s_iters {Sh P A C} (r : scale_run Sh P A C) : nat := length (s_rest r).

Definition total (l : list nat) : nat := fold_right plus 0 l.

(** Labels: per scale a reconstruction, then the iterations, numbered from 1 across scales. *)
Definition numbered (before k : nat) : list label :=
  map (fun i => Iteration (Z.of_nat (before + i))) (seq 1 k).
Fixpoint scale_labels (before : nat) (ks : list nat) : list label :=
  match ks with
  | [] => []
  | k :: r => Reconstruction :: numbered before k ++ scale_labels (before + k) r
  end.
(** The last shape, when it is an iteration, is called the final one. *)
Definition name_final (l : list label) : list label :=
  match rev l with
  | Iteration _ :: r => rev r ++ [Final]
  | _ => l
  end.

Section Frames.
  Context {Sh P A C : Type}.
  Notation run := (scale_run Sh P A C).

  (** The per-scale result object built by an algorithm from its run. *)
  Definition of_run (gt : option Sh) (r : run) : iresult Sh P A C :=
    {| r_final := last (s_rest r) (s_first r); r_initial := s_initial r; r_gt := gt;
       r_shapes := match s_initial r with Some i => i :: s_shapes r | None => s_shapes r end;
       r_n_iters := Z.of_nat (s_iters r); r_costs := s_costs r; r_params := s_params r; r_app := s_app r |}.

  (** The coordinate transform of scale [i]: that scale's rescaling, then that scale's affine map. *)
  Definition T (affine scale : list (Sh -> Sh)) (i : nat) (x : Sh) : Sh :=
    nth i affine (fun y => y) (nth i scale (fun y => y) x).

  (** Shapes of all scales in the original frame. *)
  Definition mapped (affine scale : list (Sh -> Sh)) (runs : list run) : list (list Sh) :=
    map (fun ir => map (T affine scale (fst ir)) (s_shapes (snd ir))) (combine (seq 0 (length runs)) runs).

  Definition mapped_initial (affine scale : list (Sh -> Sh)) (runs : list run) : option Sh :=
    match runs with r :: _ => option_map (T affine scale 0) (s_initial r) | [] => None end.

  Definition opt_list {X} (o : option X) : list X := match o with Some x => [x] | None => [] end.

  (** What every constructor guarantees about the list of shapes. *)
  Definition consistent (r : iresult Sh P A C) : Prop :=
    last_res (r_shapes r) = Ok (r_final r) /\
    (forall i, r_initial r = Some i -> nth_error (r_shapes r) 0 = Some i).

End Frames.

(** Point distribution models as state machines, modelinstance.py.
    Shapes are N x 2 matrices of points over an ordered field (exact arithmetic).  The parts of menpo the code calls are
    modelled by their documented behaviour: PCAModel (mean, components, n_active_components, instance, project),
    MeanLinearModel, Similarity (parameters a, b, tx, ty); the Procrustes alignment is the open function [align]. *)
From Verif.Model Require Import Py.
From mathcomp Require Import all_ssreflect all_algebra.
Set Implicit Arguments.
Unset Strict Implicit.
Unset Printing Implicit Defensive.
Import GRing.Theory Num.Theory.
Local Open Scope ring_scope.

Section ModelInstance.
Variable F : realFieldType.
Variable N : nat.
Notation shape := 'M[F]_(N, 2).

(** Inner product of two shapes as vectors. *)
Definition dot (x y : shape) : F := \sum_i \sum_j x i j * y i j.
(** menpo: a linear combination of components. *)
Definition combination (ws : seq F) (cs : seq shape) : shape := \sum_(wc <- zip ws cs) wc.1 *: wc.2.

(** menpo PCAModel / MeanLinearModel. *)
Record lmodel := LModel { m_mean : shape; m_comps : seq shape; m_active : nat }.
Definition active (m : lmodel) : seq shape := take (m_active m) (m_comps m).
(** instance: too many weights raise, missing weights count as zero. *)
Definition instance (m : lmodel) (w : seq F) : res shape :=
  if (size w <= size (active m))%N then Ok (m_mean m + combination w (active m)) else Err ValueError.
Definition project (m : lmodel) (s : shape) : seq F := [seq dot (s - m_mean m) c | c <- active m].
(** The n_active_components setter: an integer out of range raises or, from n_components on, means all. *)
Definition set_active (m : lmodel) (v : nat) : res lmodel :=
  if v == 0%N then Err ValueError else Ok (LModel (m_mean m) (m_comps m) (minn v (size (m_comps m)))).

(** menpo Similarity in two dimensions: h = [[1 + a, -b, tx], [b, 1 + a, ty]]. *)
Record sim := Sim { s_a : F; s_b : F; s_tx : F; s_ty : F }.
Definition sim_lin (g : sim) : 'M[F]_2 := \matrix_(i, j) (if i == j then 1 + s_a g else if i == 0 then - s_b g else s_b g).
Definition sim_off (g : sim) : 'rV[F]_2 := \row_j (if j == 0 then s_tx g else s_ty g).
Definition sim_apply (g : sim) (s : shape) : shape := \matrix_(i, j) ((s *m (sim_lin g)^T) i j + sim_off g 0 j).
(** pseudoinverse().apply: the inverse matrix; LinAlgError when it is singular. *)
Definition sim_pinv_apply (g : sim) (s : shape) : res shape :=
  if (1 + s_a g) ^+ 2 + s_b g ^+ 2 == 0 then Err LinAlgError
  else Ok (\matrix_(i, j) (\sum_k (s i k - sim_off g 0 k) * invmx (sim_lin g)^T k j)).
(** as_vector and _from_vector_inplace of a similarity: four parameters. *)
Definition sim_vector (g : sim) : seq F := [:: s_a g; s_b g; s_tx g; s_ty g].
Definition sim_from_vector (v : seq F) : res sim :=
  match v with [:: a; b; x; y] => Ok (Sim a b x y) | _ => Err ValueError end.

(** AlignmentSimilarity(source, target): the Procrustes alignment. *)
Variable align : shape -> shape -> sim.

(** ** PDM, modelinstance.py 71-180 and 283-408 *)
Record pdm := Pdm { d_model : lmodel; d_weights : seq F; d_target : shape }.
(** __init__, 82-87 and 298-309. *)
Definition pdm_new (m : lmodel) : pdm := Pdm m (nseq (size (active m)) 0) (m_mean m).
(** _as_vector 162-172; Vectorizable.n_parameters is the length of as_vector. *)
Definition pdm_vector (d : pdm) : seq F := d_weights d.
(** _new_target_from_state, 124-133. *)
Definition pdm_generate (d : pdm) : res shape := instance (d_model d) (d_weights d).
(** _sync_state_from_target, 135-140: returns the object, also when the new target cannot be generated. *)
Definition pdm_sync_state (d : pdm) : pdm * res unit :=
  let d := Pdm (d_model d) (project (d_model d) (d_target d)) (d_target d) in
  match pdm_generate d with
  | Ok t => (Pdm (d_model d) (d_weights d) t, Ok tt)
  | Err e => (d, Err e)
  end.
(** Targetable.set_target: store the target, then sync. *)
Definition pdm_set_target (t : shape) (d : pdm) : pdm * res unit := pdm_sync_state (Pdm (d_model d) (d_weights d) t).
(** _from_vector_inplace, 174-180. *)
Definition pdm_from_vector (v : seq F) (d : pdm) : pdm * res unit :=
  let d := Pdm (d_model d) v (d_target d) in
  match pdm_generate d with Ok t => (Pdm (d_model d) v t, Ok tt) | Err e => (d, Err e) end.
(** n_active_components setter, 320-342. *)
Definition pdm_set_active (k : nat) (d : pdm) : pdm * res unit :=
  match set_active (d_model d) k with
  | Ok m => pdm_sync_state (Pdm m (d_weights d) (d_target d))
  | Err e => (d, Err e)
  end.
(** increment, 400-408; [m'] is the model after PCAModel.increment and trim_components. *)
Definition pdm_increment (m' : lmodel) (d : pdm) : pdm * res unit :=
  pdm_set_target (d_target d) (Pdm m' (d_weights d) (d_target d)).

(** ** GlobalPDM with a similarity, 426-542 *)
Record gpdm := Gpdm { g_model : lmodel; g_weights : seq F; g_target : shape; g_sim : sim }.
Definition gpdm_new (m : lmodel) : gpdm := Gpdm m (nseq (size (active m)) 0) (m_mean m) (align (m_mean m) (m_mean m)).
(** 516-526. *)
Definition gpdm_vector (d : gpdm) : seq F := sim_vector (g_sim d) ++ g_weights d.
(** 472-482. *)
Definition gpdm_generate (d : gpdm) : res shape :=
  let? s := instance (g_model d) (g_weights d) in Ok (sim_apply (g_sim d) s).
(** _sync_state_from_target with _weights_for_target 484-511: the global transform is aligned to the target (its source is
    the mean [src] it was built with), the target is mapped back and projected. *)
Definition gpdm_sync_state (src : shape) (d : gpdm) : gpdm * res unit :=
  let d := Gpdm (g_model d) (g_weights d) (g_target d) (align src (g_target d)) in
  match sim_pinv_apply (g_sim d) (g_target d) with
  | Err e => (d, Err e)
  | Ok t0 =>
      let d := Gpdm (g_model d) (project (g_model d) t0) (g_target d) (g_sim d) in
      match gpdm_generate d with
      | Ok t => (Gpdm (g_model d) (g_weights d) t (g_sim d), Ok tt)
      | Err e => (d, Err e)
      end
  end.
Definition gpdm_set_target src (t : shape) (d : gpdm) := gpdm_sync_state src (Gpdm (g_model d) (g_weights d) t (g_sim d)).
(** 528-542: the first four numbers go to the global transform, the others are weights. *)
Definition gpdm_from_vector (v : seq F) (d : gpdm) : gpdm * res unit :=
  match sim_from_vector (take 4 v) with
  | Err e => (d, Err e)
  | Ok g =>
      let d := Gpdm (g_model d) (drop 4 v) (g_target d) g in
      match gpdm_generate d with
      | Ok t => (Gpdm (g_model d) (g_weights d) t (g_sim d), Ok tt)
      | Err e => (d, Err e)
      end
  end.
Definition gpdm_set_active src (k : nat) (d : gpdm) : gpdm * res unit :=
  match set_active (g_model d) k with
  | Ok m => gpdm_sync_state src (Gpdm m (g_weights d) (g_target d) (g_sim d))
  | Err e => (d, Err e)
  end.
Definition gpdm_increment src (m' : lmodel) (d : gpdm) := gpdm_set_target src (g_target d) (Gpdm m' (g_weights d) (g_target d) (g_sim d)).

(** ** OrthoPDM, 586-693.  [orthonormalize m] is the similarity model of the mean (similarity_2d_instance_model, 42-68, made
    orthonormal: four components) and the shape model made orthonormal against it. *)
Variable orthonormalize : lmodel -> seq shape * lmodel.
Record opdm := Opdm { o_model : lmodel; o_weights : seq F; o_target : shape; o_sim : sim;
                      o_simcomps : seq shape; o_simweights : seq F }.
Definition o_similarity (d : opdm) : lmodel := LModel (m_mean (o_model d)) (o_simcomps d) (size (o_simcomps d)).
(** global_parameters 629-636 and _as_vector. *)
Definition opdm_vector (d : opdm) : seq F := o_simweights d ++ o_weights d.
Definition opdm_generate (d : opdm) : res shape :=
  let? s := instance (o_model d) (o_weights d) in Ok (sim_apply (o_sim d) s).
(** _construct_similarity_model, 618-627. *)
Definition opdm_construct (d : opdm) : opdm :=
  let '(sc, m) := orthonormalize (o_model d) in
  let d' := Opdm m (nseq (size (active m)) 0) (o_target d) (o_sim d) sc [::] in
  Opdm m (o_weights d') (o_target d') (o_sim d') sc (project (o_similarity d') (m_mean m)).
(** __init__, 609-616. *)
Definition opdm_new (m : lmodel) : opdm * res unit :=
  let d := opdm_construct (Opdm m (nseq (size (active m)) 0) (m_mean m) (align (m_mean m) (m_mean m)) [::] [::]) in
  match opdm_generate d with
  | Ok t => (Opdm (o_model d) (o_weights d) t (o_sim d) (o_simcomps d) (o_simweights d), Ok tt)
  | Err e => (d, Err e)
  end.
(** _update_global_weights, 642-645: [src] is the source of the global transform. *)
Definition opdm_update_global src (q : seq F) (d : opdm) : opdm * res unit :=
  let d := Opdm (o_model d) (o_weights d) (o_target d) (o_sim d) (o_simcomps d) q in
  match instance (o_similarity d) q with
  | Ok t => (Opdm (o_model d) (o_weights d) (o_target d) (align src t) (o_simcomps d) q, Ok tt)
  | Err e => (d, Err e)
  end.
Definition opdm_regenerate (d : opdm) : opdm * res unit :=
  match opdm_generate d with
  | Ok t => (Opdm (o_model d) (o_weights d) t (o_sim d) (o_simcomps d) (o_simweights d), Ok tt)
  | Err e => (d, Err e)
  end.
(** _sync_state_from_target with _update_global_transform 638-640. *)
Definition opdm_sync_state src (d : opdm) : opdm * res unit :=
  let '(d, r) := opdm_update_global src (project (o_similarity d) (o_target d)) d in
  match r with
  | Err e => (d, Err e)
  | Ok _ =>
      match sim_pinv_apply (o_sim d) (o_target d) with
      | Err e => (d, Err e)
      | Ok t0 => opdm_regenerate (Opdm (o_model d) (project (o_model d) t0) (o_target d) (o_sim d) (o_simcomps d) (o_simweights d))
      end
  end.
Definition opdm_set_target src (t : shape) (d : opdm) :=
  opdm_sync_state src (Opdm (o_model d) (o_weights d) t (o_sim d) (o_simcomps d) (o_simweights d)).
Definition opdm_from_vector src (v : seq F) (d : opdm) : opdm * res unit :=
  let n := size (o_simweights d) in
  let '(d, r) := opdm_update_global src (take n v) d in
  match r with
  | Err e => (d, Err e)
  | Ok _ => opdm_regenerate (Opdm (o_model d) (drop n v) (o_target d) (o_sim d) (o_simcomps d) (o_simweights d))
  end.
Definition opdm_set_active src (k : nat) (d : opdm) : opdm * res unit :=
  match set_active (o_model d) k with
  | Ok m => opdm_sync_state src (Opdm m (o_weights d) (o_target d) (o_sim d) (o_simcomps d) (o_simweights d))
  | Err e => (d, Err e)
  end.
(** increment, 683-693. *)
Definition opdm_increment src (m' : lmodel) (d : opdm) : opdm * res unit :=
  opdm_set_target src (o_target d)
    (opdm_construct (Opdm m' (o_weights d) (o_target d) (o_sim d) (o_simcomps d) (o_simweights d))).
End ModelInstance.

(** Specification of appearance reconstructions. *)
From Coq Require Import List.
From Verif.Model Require Import Py.
Import ListNotations.
Local Open Scope nat_scope.

(** [out] reconstructs, in order, every vector of every scale with the model of its scale: the vectors of
    scale [j] are [nth j blocks]. *)
Inductive reconstructs {M C I} (instance : M -> C -> res I) : list M -> list (list C) -> list I -> Prop :=
| rec_nil : forall ms, reconstructs instance ms [] []
| rec_cons : forall m ms b bs o os,
    Forall2 (fun c i => instance m c = Ok i) b o ->
    reconstructs instance ms bs os ->
    reconstructs instance (m :: ms) (b :: bs) (o ++ os).

(** What it means that a fit follows the image. *)
From Verif.Model Require Import Py ModelInstance ClmFitter.
From Verif.Spec Require Import ModelInstance Pose.
From Coq Require List.
From mathcomp Require Import all_ssreflect all_algebra.
Set Implicit Arguments.
Unset Strict Implicit.
Unset Printing Implicit Defensive.
Import GRing.Theory Num.Theory.
Local Open Scope ring_scope.

(** Both calls raise the same exception, or both return and the results are related. *)
Definition both (A B : Type) (R : A -> B -> Prop) (r : res A) (r' : res B) : Prop :=
  match r, r' with Ok a, Ok b => R a b | Err e, Err e' => e = e' | _, _ => False end.

Section Spec.
Variable F : realFieldType.
Variable N : nat.
Notation shape := 'M[F]_(N, 2).
(** An alignment that follows shifts of its target: turned and scaled as before, moved by the shift. *)
Definition follows_shifts (align : shape -> shape -> sim F) : Prop :=
  forall o s t, align s (shifted o t) = Sim (s_a (align s t)) (s_b (align s t)) (s_tx (align s t) + o.1) (s_ty (align s t) + o.2).
(** A shape model of the kind the library trains: four similarity components, orthonormal, spanning the similarity transforms
    of its mean. *)
Definition trained_pdm (d : opdm F N) : Prop :=
  size (o_simcomps d) = 4%N /\ orthonormal (o_simcomps d) /\ similarity_basis (m_mean (o_model d)) (o_simcomps d).
(** One scale: the same number of shapes, each shifted, with the same shape weights. *)
Definition shifted_result (o : F * F) (r r' : result F N) : Prop :=
  r_shapes r' = [seq shifted o s | s <- r_shapes r] /\ [seq drop 4 p | p <- r_params r'] = [seq drop 4 p | p <- r_params r].
(** All the scales from scale [k] on; [o] gives the shift at each scale. *)
Fixpoint shifted_results (o : nat -> F * F) (k : nat) (rs rs' : seq (result F N)) : Prop :=
  match rs, rs' with
  | [::], [::] => True
  | r :: rs1, r' :: rs1' => shifted_result (o k) r r' /\ shifted_results o k.+1 rs1 rs1'
  | _, _ => False
  end.
End Spec.

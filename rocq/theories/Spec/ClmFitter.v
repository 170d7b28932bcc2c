(** C72: when a session with one trained model leaves the other fitters alone. *)
From Verif.Model Require Import Py Einsum ModelInstance ClmFitter.
From Coq Require List.
From mathcomp Require Import all_ssreflect all_algebra.
Set Implicit Arguments.
Unset Strict Implicit.
Unset Printing Implicit Defensive.
Import GRing.Theory Num.Theory.
Local Open Scope ring_scope.

Section Spec.
Variable F : realFieldType.
Variables (N : nat) (Image : Type).
Notation op := (op F N Image).

(** The number of components that asking for [n] activates. *)
Definition effective (d : opdm F N) (n : nat) : nat := minn n (size (m_comps (o_model d))).
(** The operation asks for the numbers of components that are active already, or for none in particular. *)
Definition keeps_counts (ds : seq (opdm F N)) (o : op) : Prop :=
  match o with
  | Build (Some ns) => forall j d n, List.nth_error ds j = Some d -> List.nth_error ns j = Some n -> (0 < n)%N -> effective d n = m_active (o_model d)
  | _ => True
  end.
(** Throughout a session. *)
Fixpoint all_along (step : op -> world F N -> world F N) (os : seq op) (w : world F N) : Prop :=
  match os with [::] => True | o :: os' => keeps_counts (w_models w) o /\ all_along step os' (step o w) end.
Definition only_fits (os : seq op) : Prop := forall o, List.In o os -> exists i c, o = Fit i c.
End Spec.

(** What instances of trained models should be. *)
From mathcomp Require Import all_ssreflect all_algebra.
From Verif.Model Require Import Py Instances.
Set Implicit Arguments.
Unset Strict Implicit.
Unset Printing Implicit Defensive.
Import GRing.Theory Num.Theory.
Local Open Scope ring_scope.


Section Spec.
  Variable F : rcfType.

  (** The directions in use: the first components, as many as are active and exist. *)
  Definition used (V : lmodType F) (m : pca V) : nat := size (take (p_active m) (p_comps m)).

  (** Mean plus, for every given weight, that many standard deviations along the component. *)
  Definition deviates (V : lmodType F) (m : pca V) (w : seq F) : V :=
    p_mean m + \sum_(i < size w) nth 0 w i *: (Num.sqrt (ev m i) *: comp m i).

  (** The instance for given weights (none given: the mean), and when a model can make one. *)
  Definition weighed (U : lmodType F) (m : pca U) (w : option (seq F)) : U :=
    if w is Some w then deviates m w else p_mean m.
  Definition accepted (U : lmodType F) (m : pca U) (w : option (seq F)) : Prop :=
    if w is Some w then (size w <= used m)%N else (0 < used m)%N.

  (** The members of a linear model: mean plus any combination of the first [n] components. *)
  Definition member (V : lmodType F) (m : pca V) (n : nat) (v : V) : Prop :=
    exists w : seq F, size w = n /\ v = p_mean m + \sum_(i < n) nth 0 w i *: comp m i.

  (** All directions used carry some variance / are independent. *)
  Definition varied (V : lmodType F) (m : pca V) : Prop :=
    forall i, (i < used m)%N -> 0 < ev m i.
  Definition independent (V : lmodType F) (m : pca V) : Prop :=
    forall w : seq F, size w = used m -> \sum_(i < used m) nth 0 w i *: comp m i = 0 ->
    forall i, nth 0 w i = 0.

  (** A rendered instance displays a texture on a shape. *)
  Definition displays (V W : Type) (x : rendered V W) (s : V) (t : W) : Prop :=
    match x with Warped t' _ s' _ => t' = t /\ s' = s | Both s' t' => t' = t /\ s' = s end.

  (** A source of random numbers returns as many as it is asked for. *)
  Definition source (r : nat -> seq F) : Prop := forall n, size (r n) = n.
End Spec.

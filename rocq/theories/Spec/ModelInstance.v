(** What a point distribution model reports: the shape generated by its parameters. *)
From Verif.Model Require Import Py ModelInstance.
From mathcomp Require Import all_ssreflect all_algebra.
Set Implicit Arguments.
Unset Strict Implicit.
Unset Printing Implicit Defensive.
Import GRing.Theory Num.Theory.
Local Open Scope ring_scope.

Section Spec.
Variable F : realFieldType.
Variable N : nat.
Notation shape := 'M[F]_(N, 2).
(** mean + sum of w_i times the i-th active component (weights that are not given count as zero). *)
Definition linear_shape (m : lmodel F N) (w : seq F) : shape :=
  m_mean m + \sum_(i < size (active m)) nth 0 w i *: nth 0 (active m) i.
(** One point under a similarity: ((1 + a) x - b y + tx, b x + (1 + a) y + ty). *)
Definition similar (g : sim F) (s t : shape) : Prop :=
  forall i, t i 0 = (1 + s_a g) * s i 0 - s_b g * s i 1 + s_tx g /\ t i 1 = s_b g * s i 0 + (1 + s_a g) * s i 1 + s_ty g.
Definition identity_sim : sim F := Sim 0 0 0 0.

(** The operations a user or a fitting algorithm performs on a model. *)
Inductive op := SetTarget (t : shape) | FromVector (v : seq F) | SetActive (k : nat) | Increment (m : lmodel F N).
Section History.
Variable Obj : Type.
Variable perform : op -> Obj -> Obj * res unit.
Fixpoint perform_all (ops : seq op) (d : Obj) : Obj :=
  match ops with [::] => d | o :: ops' => perform_all ops' (perform o d).1 end.
End History.
End Spec.
Arguments SetTarget {F N}. Arguments FromVector {F N}. Arguments SetActive {F N}. Arguments Increment {F N}.

Section Ortho.
Variable F : realFieldType.
Variable N : nat.
Notation shape := 'M[F]_(N, 2).
(** Pairwise orthonormal shapes. *)
Definition orthonormal (cs : seq shape) : Prop :=
  forall i j, (i < size cs)%N -> (j < size cs)%N -> dot (nth 0 cs i) (nth 0 cs j) = (i == j)%:R.
(** The displacements of [mean] by similarity transforms are the combinations of [sc]: what orthonormalising the similarity
    model of the mean gives. *)
Definition similarity_basis (mean : shape) (sc : seq shape) : Prop :=
  forall x : shape, (exists w : seq F, size w = size sc /\ x = \sum_(i < size sc) nth 0 w i *: nth 0 sc i) <->
                    (exists g, similar g mean (mean + x)).
(** An alignment that maps [mean] onto every shape that is a similarity transform of it. *)
Definition exact_alignment (align : shape -> shape -> sim F) (mean : shape) : Prop :=
  forall g t, similar g mean t -> similar (align mean t) mean t.
End Ortho.

Section Closest.
Variable F : realFieldType.
Variable N : nat.
Notation shape := 'M[F]_(N, 2).
(** Squared distance of two shapes. *)
Definition distance2 (x y : shape) : F := \sum_i ((x i 0 - y i 0) ^+ 2 + (x i 1 - y i 1) ^+ 2).
(** The shape that an operation other than FromVector projects onto the model: the new target, or the one reported before. *)
Definition wanted (o : op F N) (before : shape) : shape := match o with SetTarget t => t | _ => before end.
(** The model after the operation. *)
Definition model_after (o : op F N) (m m' : lmodel F N) : Prop :=
  match o with
  | SetTarget _ | FromVector _ => m' = m
  | SetActive k => m_mean m' = m_mean m /\ active m' = take k (m_comps m)
  | Increment m1 => m' = m1
  end.
End Closest.

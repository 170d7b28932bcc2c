(** What a cascade training must feed its regressors. *)
From Coq Require Import List Arith.
From Verif.Model Require Import Py SdmTrain.
Import ListNotations.

Section S.
  Context {S V F : Type}.
  Variable proj : S -> V.
  Variable inst : V -> S.
  Variables vadd vsub : V -> V -> V.
  (** m perturbations for every one of the images *)
  Definition rectangular (m : nat) (gts : list S) (current : list (list S)) : Prop :=
    length current = length gts /\ forall i ss, nth_error current i = Some ss -> length ss = m.
  (** Targets in image-major order: row i*m+l belongs to perturbation l of image i. *)
  Definition targets_ok (m : nat) (gts : list S) (current : list (list S)) (delta : list (option V)) : Prop :=
    length delta = length gts * m /\
    forall i l g ss s, nth_error gts i = Some g -> nth_error current i = Some ss -> nth_error ss l = Some s ->
      nth_error delta (i * m + l) = Some (Some (vsub (proj g) (proj s))).
  (** The next estimates: every shape moved by its own row of the prediction. *)
  Definition moved (m : nat) (pred : list V) (cur cur' : list (list S)) : Prop :=
    length cur' = length cur /\
    forall i ss, nth_error cur i = Some ss -> exists ss', nth_error cur' i = Some ss' /\ length ss' = length ss /\
      forall l s, nth_error ss l = Some s -> exists p, nth_error pred (i * m + l) = Some p /\
        nth_error ss' l = Some (inst (vadd (proj s) p)).
  (** Consecutive iterations and the final estimates. *)
  Fixpoint linked (m : nat) (steps : list (step S V F)) (final : list (list S)) : Prop :=
    match steps with
    | [] => True
    | a :: r => moved m (st_pred a) (st_current a) (match r with b :: _ => st_current b | [] => final end) /\
                linked m r final
    end.
End S.

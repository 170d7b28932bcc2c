(** Lemmas about appearance reconstructions. *)
From Coq Require Import List Arith Lia.
From Verif.Model Require Import Py Recon.
Import ListNotations.
Local Open Scope nat_scope.

Lemma mapM_Forall2 {A B} (f : A -> res B) : forall l ys, mapM f l = Ok ys <-> Forall2 (fun x y => f x = Ok y) l ys.
Proof.
  induction l as [|x l IH]; intros ys; cbn [mapM bind].
  - split; [intros H; assert (ys = []) by congruence; subst; constructor|]. inversion 1. reflexivity.
  - destruct (f x) as [y|e] eqn:E; cbn [bind].
    + destruct (mapM f l) as [ys'|e] eqn:E2; cbn [bind].
      * split.
        -- intros H. assert (ys = y :: ys') by congruence. subst. constructor; [exact E|]. apply IH. reflexivity.
        -- inversion 1 as [|? y0 ? l0 H1 H2]; subst. apply IH in H2. congruence.
      * split; [discriminate|]. inversion 1 as [|? y0 ? l0 H1 H2]; subst. apply IH in H2. discriminate.
    + split; [discriminate|]. inversion 1. congruence.
Qed.

Lemma slice_block {C} : forall (pre : list C) b post, slice (length pre) (length b) (pre ++ b ++ post) = b.
Proof.
  intros. unfold slice. rewrite skipn_app, skipn_all2, Nat.sub_diag by lia. cbn [app skipn].
  rewrite firstn_app, Nat.sub_diag, firstn_all. cbn [firstn]. apply app_nil_r.
Qed.

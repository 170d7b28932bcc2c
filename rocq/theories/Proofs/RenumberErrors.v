(** Errors of shapes whose points are listed in another order. *)
From Coq Require Import String List Reals Lra Lia Permutation.
From Verif.Model Require Import Py ErrorR.
From Verif.Spec Require Import ErrorR.
From Verif.Proofs Require Import ErrorR.
Import ListNotations.
Local Open Scope R_scope.

Lemma rsum_perm l l' : Permutation l l' -> rsum l = rsum l'.
Proof. induction 1; cbn in *; unfold rsum in *; cbn in *; lra. Qed.
Lemma mean_perm l l' : Permutation l l' -> mean l = mean l'.
Proof. intros P. unfold mean. now rewrite (rsum_perm _ _ P), (Permutation_length P). Qed.
Lemma combine_split {A B} (l : list (A * B)) : combine (map fst l) (map snd l) = l.
Proof. induction l as [|[a b] l IH]; cbn; congruence. Qed.
Lemma euclidean_perm (l l' : list ((R * R) * (R * R))) : Permutation l l' ->
  euclidean_error (map fst l) (map snd l) = euclidean_error (map fst l') (map snd l').
Proof.
  intros P. unfold euclidean_error, broadcast_sub. rewrite !map_length, !Nat.eqb_refl, !combine_split. cbn [bind].
  now rewrite (mean_perm _ _ (Permutation_map pnorm (Permutation_map _ P))).
Qed.
Lemma ravel_combine (l : list ((R * R) * (R * R))) : combine (ravel (map fst l)) (ravel (map snd l)) =
  flat_map (fun pq => [(fst (fst pq), fst (snd pq)); (snd (fst pq), snd (snd pq))]) l.
Proof. induction l as [|[p q] l IH]; [reflexivity|]. unfold ravel in *. cbn [map flat_map app combine fst snd]. now rewrite IH. Qed.
Lemma rms_perm (l l' : list ((R * R) * (R * R))) : Permutation l l' ->
  root_mean_square_error (map fst l) (map snd l) = root_mean_square_error (map fst l') (map snd l').
Proof.
  intros P. unfold root_mean_square_error. rewrite !map_length, !Nat.eqb_refl, !ravel_combine.
  now rewrite (mean_perm _ _ (Permutation_map _ (Permutation_flat_map _ P))).
Qed.
Lemma fold_max_least : forall l x y, fold_left Rmax l x <= y <-> x <= y /\ Forall (fun a => a <= y) l.
Proof.
  induction l as [|a l IH]; intros x y; cbn [fold_left].
  - split; [intros H; split; [exact H|constructor]|tauto].
  - rewrite IH. split.
    + intros [H F]. pose proof (Rmax_l x a). pose proof (Rmax_r x a). split; [lra|]. constructor; [lra|exact F].
    + intros [H F]. inversion F; subst. split; [apply Rmax_lub; assumption|assumption].
Qed.
Lemma fold_min_greatest : forall l x y, y <= fold_left Rmin l x <-> y <= x /\ Forall (fun a => y <= a) l.
Proof.
  induction l as [|a l IH]; intros x y; cbn [fold_left].
  - split; [intros H; split; [exact H|constructor]|tauto].
  - rewrite IH. split.
    + intros [H F]. pose proof (Rmin_l x a). pose proof (Rmin_r x a). split; [lra|]. constructor; [lra|exact F].
    + intros [H F]. inversion F; subst. split; [apply Rmin_glb; assumption|assumption].
Qed.
Lemma maxl_le l y : l <> [] -> (maxl l <= y <-> Forall (fun a => a <= y) l).
Proof.
  destruct l as [|x l]; [congruence|]. intros _. cbn [maxl]. rewrite fold_max_least. split; [intros [H F]; now constructor|].
  intros F. inversion F; subst. tauto.
Qed.
Lemma minl_ge l y : l <> [] -> (y <= minl l <-> Forall (fun a => y <= a) l).
Proof.
  destruct l as [|x l]; [congruence|]. intros _. cbn [minl]. rewrite fold_min_greatest. split; [intros [H F]; now constructor|].
  intros F. inversion F; subst. tauto.
Qed.
Lemma perm_ne {A} (l l' : list A) : Permutation l l' -> l <> [] -> l' <> [].
Proof. intros P N H. subst. apply Permutation_sym, Permutation_nil in P. congruence. Qed.
Lemma forall_perm {A} (P : A -> Prop) l l' : Permutation l l' -> Forall P l -> Forall P l'.
Proof. intros Q. rewrite !Forall_forall. intros F x Hx. apply F. eapply Permutation_in; [symmetry; exact Q|exact Hx]. Qed.
Lemma maxl_perm l l' : Permutation l l' -> maxl l = maxl l'.
Proof.
  intros P. destruct l as [|x l]; [apply Permutation_nil in P; now subst|].
  assert (N : x :: l <> []) by congruence. pose proof (perm_ne _ _ P N) as N'. apply Rle_antisym.
  - apply maxl_le; [exact N|]. apply forall_perm with (1 := Permutation_sym P). apply maxl_le; [exact N'|lra].
  - apply maxl_le; [exact N'|]. apply forall_perm with (1 := P). apply maxl_le; [exact N|lra].
Qed.
Lemma minl_perm l l' : Permutation l l' -> minl l = minl l'.
Proof.
  intros P. destruct l as [|x l]; [apply Permutation_nil in P; now subst|].
  assert (N : x :: l <> []) by congruence. pose proof (perm_ne _ _ P N) as N'. apply Rle_antisym.
  - apply minl_ge; [exact N'|]. apply forall_perm with (1 := P). apply minl_ge; [exact N|lra].
  - apply minl_ge; [exact N|]. apply forall_perm with (1 := Permutation_sym P). apply minl_ge; [exact N'|lra].
Qed.
Lemma height_perm s s' : Permutation s s' -> height s = height s'.
Proof. intros P. unfold height. now rewrite (maxl_perm _ _ (Permutation_map fst P)), (minl_perm _ _ (Permutation_map fst P)). Qed.
Lemma width_perm s s' : Permutation s s' -> width s = width s'.
Proof. intros P. unfold width. now rewrite (maxl_perm _ _ (Permutation_map snd P)), (minl_perm _ _ (Permutation_map snd P)). Qed.
Lemma norms_perm t norm s s' : bb_norm_types t = Some norm -> Permutation s s' -> norm s = norm s'.
Proof.
  intros H P. unfold bb_norm_types in H. repeat (destruct (String.eqb t _) in H; [injection H as <-|]); try discriminate;
  unfold bb_avg_edge_length, bb_perimeter, bb_diagonal, bb_area; now rewrite (height_perm _ _ P), (width_perm _ _ P).
Qed.
Lemma bb_perm f l l' norm_shape t :
  (forall l l', Permutation l l' -> f (map fst l) (map snd l) = f (map fst l') (map snd l')) -> Permutation l l' ->
  forall norm_shape', match norm_shape, norm_shape' with Some n, Some n' => Permutation n n' | None, None => True | _, _ => False end ->
  bb_normalised_error f (map fst l) (map snd l) norm_shape t = bb_normalised_error f (map fst l') (map snd l') norm_shape' t.
Proof.
  intros F P n' H. unfold bb_normalised_error. destruct (bb_norm_types t) as [norm|] eqn:E; [|reflexivity].
  rewrite (F l l' P). destruct (f (map fst l') (map snd l')) as [e|e]; [|reflexivity]. cbn [bind].
  assert (K : Permutation (match norm_shape with None => map snd l | Some n => n end) (match n' with None => map snd l' | Some n => n end)).
  { destruct norm_shape, n'; try contradiction; [exact H|]. now apply Permutation_map. }
  revert K. generalize (match norm_shape with None => map snd l | Some n => n end) (match n' with None => map snd l' | Some n => n end). intros a b K.
  destruct a as [|x a]; [apply Permutation_nil in K; now subst|]. destruct b as [|y b]; [symmetry in K; apply Permutation_nil in K; discriminate|].
  now rewrite (norms_perm _ _ _ _ E K).
Qed.
(** Indices that go along. *)
Lemma distance_follow s s' i j i' j' : nth_error s' i' = nth_error s i -> nth_error s' j' = nth_error s j ->
  distance_two_indices i' j' s' = distance_two_indices i j s.
Proof. intros A B. unfold distance_two_indices. now rewrite A, B. Qed.

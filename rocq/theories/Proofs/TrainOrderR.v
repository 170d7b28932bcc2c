From Coq Require Import List Arith Reals Lra Lia Permutation.
From Verif.Model Require Import Py Result.
From Verif.Model Require ErrorR CorrFilter ApsGraph.
From Verif.Spec Require Import TrainOrder.
Import ListNotations.
Local Open Scope nat_scope.

Lemma fold_left_perm {A B} (f : A -> B -> A) (good : A -> B -> Prop) :
  (forall a x y, good a x -> good a y -> f (f a x) y = f (f a y) x) ->
  (forall a x y, good a x -> good a y -> good (f a x) y) ->
  forall l l', Permutation l l' -> forall a, (forall x, In x l -> good a x) -> fold_left f l a = fold_left f l' a.
Proof.
  intros C K l l' P. induction P as [|x l l' P IH|x y l|l l' l'' P IH Q IH']; intros a G; cbn.
  - reflexivity.
  - apply IH. intros y Hy. apply K; apply G; [left; reflexivity|right; exact Hy].
  - rewrite C; [reflexivity| |]; apply G; cbn; auto.
  - rewrite IH by exact G. apply IH'. intros x Hx. apply G. eapply Permutation_in; [apply Permutation_sym|]; eauto.
Qed.

(** ** The reference shape *)
Section Ref.
  Import ErrorR.
  Lemma add_len s : forall t, length t = length s -> length (add_shapes s t) = length s.
  Proof. intros t H. unfold add_shapes. rewrite map_length, combine_length. lia. Qed.
  Lemma add_comm s : forall t, add_shapes s t = add_shapes t s.
  Proof.
    unfold add_shapes. induction s as [|p s IH]; intros [|q t]; try reflexivity. cbn. f_equal; [|apply IH].
    unfold padd. f_equal; apply Rplus_comm.
  Qed.
  Lemma add_swap s : forall t u, add_shapes (add_shapes s t) u = add_shapes (add_shapes s u) t.
  Proof.
    unfold add_shapes. induction s as [|p s IH]; intros [|q t] [|r u]; try reflexivity. cbn. f_equal; [|apply IH].
    unfold padd. cbn. f_equal; ring.
  Qed.

  (** the mean as a fold over all shapes *)
  Definition zero_like (n : nat) : shape := repeat (0%R, 0%R) n.
  Lemma add_zero s : add_shapes (zero_like (length s)) s = s.
  Proof. unfold add_shapes, zero_like. induction s as [|[a b] s IH]; [reflexivity|]. cbn. rewrite IH. unfold padd. cbn. f_equal. f_equal; ring. Qed.

  Lemma mean_all n l : l <> [] -> (forall s, In s l -> length s = n) ->
    mean_pointcloud l = Ok (scale_shape (/ INR (length l)) (fold_left add_shapes l (zero_like n))).
  Proof.
    intros N H. destruct l as [|s r]; [congruence|]. cbn [mean_pointcloud fold_left].
    rewrite (proj2 (forallb_forall _ r)).
    - rewrite <- (H s (or_introl eq_refl)). rewrite add_zero. reflexivity.
    - intros t Ht. apply Nat.eqb_eq. rewrite (H s), (H t); cbn; auto.
  Qed.
  Lemma mean_not l : l <> [] -> (forall n, ~ forall s, In s l -> length s = n) -> mean_pointcloud l = Err ValueError.
  Proof.
    intros N H. destruct l as [|s r]; [congruence|]. cbn [mean_pointcloud].
    destruct (forallb _ r) eqn:E; [|reflexivity]. exfalso. apply (H (length s)). intros t [<-|Ht]; [reflexivity|].
    apply Nat.eqb_eq. revert t Ht. apply (proj1 (forallb_forall _ r) E).
  Qed.
  Lemma same_or_not (l : list shape) : l = [] \/ (exists n, forall s, In s l -> length s = n) \/ (l <> [] /\ forall n, ~ forall s, In s l -> length s = n).
  Proof.
    destruct l as [|s r]; [auto|]. right. destruct (forallb (fun t => length t =? length s) r) eqn:E.
    - left. exists (length s). intros t [<-|Ht]; [reflexivity|]. apply Nat.eqb_eq. revert t Ht. apply (proj1 (forallb_forall _ r) E).
    - right. split; [discriminate|]. intros n H. assert (forallb (fun t => length t =? length s) r = true); [|congruence].
      apply forallb_forall. intros t Ht. apply Nat.eqb_eq. rewrite (H t), (H s); cbn; auto.
  Qed.

  Lemma mean_pc_perm : order_free mean_pointcloud.
  Proof.
    intros l l' P. destruct (same_or_not l) as [->|[[n H]|[N H]]].
    - apply Permutation_nil in P. subst. reflexivity.
    - destruct l as [|s r] eqn:El. { apply Permutation_nil in P. subst. reflexivity. } rewrite <- El in *.
      assert (N : l <> []) by (subst; discriminate). assert (N' : l' <> []).
      { intros ->. apply Permutation_sym, Permutation_nil in P. congruence. }
      rewrite (mean_all n) by auto. rewrite (mean_all n); auto.
      2:{ intros t Ht. apply H. eapply Permutation_in; [apply Permutation_sym|]; eauto. }
      rewrite (Permutation_length P). do 2 f_equal.
      apply (fold_left_perm _ (fun a x => True)); auto. intros. apply add_swap.
    - rewrite mean_not by auto. rewrite mean_not; auto.
      + intros ->. apply Permutation_sym, Permutation_nil in P. congruence.
      + intros n H'. apply (H n). intros t Ht. apply H'. eapply Permutation_in; eauto.
  Qed.
  Lemma reference_perm diagonal : order_free (fun shapes => compute_reference_shape shapes diagonal).
  Proof. intros l l' P. unfold compute_reference_shape. rewrite (mean_pc_perm l l' P). reflexivity. Qed.
End Ref.

(** ** Correlation filters *)
Section Cf.
  Import CorrFilter.
  Lemma sum_perm {I} (g : I -> R * R) l l' : Permutation l l' ->
    fold_left (fun s x => cadd s (g x)) l czero = fold_left (fun s x => cadd s (g x)) l' czero.
  Proof.
    intros P. apply (fold_left_perm _ (fun _ _ => True)); auto.
    intros a x y _ _. unfold cadd. cbn. f_equal; ring.
  Qed.
End Cf.

(** ** The weights of the deformation tree *)
Section Tree.
  Import ApsGraph.
  Lemma sumR_perm l l' : Permutation l l' -> sumR l = sumR l'.
  Proof. induction 1; cbn; [reflexivity| |ring|]; congruence. Qed.
  Lemma mean_perm l l' : Permutation l l' -> mean l = mean l'.
  Proof. intros P. unfold mean. rewrite (sumR_perm _ _ P), (Permutation_length P). reflexivity. Qed.
  Lemma combine_proj {A B} (l : list (A * B)) : combine (map fst l) (map snd l) = l.
  Proof. induction l as [|[a b] l IH]; [reflexivity|]. cbn. rewrite IH. reflexivity. Qed.
  Lemma combine_same {A} (l : list A) : combine l l = map (fun a => (a, a)) l.
  Proof. induction l as [|a l IH]; [reflexivity|]. cbn. rewrite IH. reflexivity. Qed.
  Lemma cov_perm {C} (c c' : list C) (f g : C -> R) : Permutation c c' -> cov (map f c) (map g c) = cov (map f c') (map g c').
  Proof.
    intros P. unfold cov. rewrite !map_length, (Permutation_length P).
    rewrite (mean_perm _ _ (Permutation_map f P)), (mean_perm _ _ (Permutation_map g P)). f_equal.
    assert (E : forall l : list C, combine (map f l) (map g l) = map (fun z => (f z, g z)) l).
    { induction l as [|z l IH]; [reflexivity|]. cbn. rewrite IH. reflexivity. }
    rewrite !E, !map_map. apply sumR_perm, Permutation_map, P.
  Qed.

  (** [mapM] over a permutation, when all its exceptions are the same *)
  Lemma mapM_perm {A B} (f : A -> res B) e0 : (forall a e, f a = Err e -> e = e0) ->
    forall l l', Permutation l l' -> match mapM f l, mapM f l' with Ok y, Ok y' => Permutation y y' | Err e, Err e' => e = e0 /\ e' = e0 | _, _ => False end.
  Proof.
    intros U l l' P. induction P as [|x l l' P IH|x y l|l l' l'' P IH Q IH'].
    - cbn. constructor.
    - cbn [mapM]. destruct (f x) eqn:E; cbn [bind]; [|apply U in E; auto].
      destruct (mapM f l), (mapM f l'); cbn [bind]; auto.
    - cbn [mapM]. destruct (f x) eqn:E, (f y) eqn:E'; cbn [bind]; repeat match goal with H : f _ = Err _ |- _ => apply U in H; subst end; auto.
      + assert (Z : forall l0, match mapM f l0 with Ok _ => True | Err e => e = e0 end).
        { induction l0 as [|z l0 IHl]; cbn; auto. destruct (f z) eqn:Ez; cbn [bind]; [|eapply U; eauto]. destruct (mapM f l0); auto. }
        specialize (Z l). destruct (mapM f l); cbn [bind]; auto. apply perm_swap.
    - destruct (mapM f l), (mapM f l'), (mapM f l''); try contradiction; auto.
      + eapply perm_trans; eauto.
      + intuition.
  Qed.
  Lemma diffs_err l i j e : diffs l i j = Err e -> e = IndexError.
  Proof.
    unfold diffs. induction l as [|s l IH]; cbn; [discriminate|]. unfold nth_res at 1 2.
    destruct (nth_error s i), (nth_error s j); cbn [bind]; try congruence.
    destruct (mapM _ l); cbn [bind]; [discriminate|]. intros H. injection H as ->. apply IH. reflexivity.
  Qed.
  Lemma weight_perm i j : order_free (fun shapes => weight shapes i j).
  Proof.
    intros l l' P. unfold weight.
    pose proof (mapM_perm (fun s => let? p := nth_res s i in let? q := nth_res s j in Ok (fst p - fst q, snd p - snd q)%R) IndexError) as M.
    specialize (M ltac:(intros s e; unfold nth_res; destruct (nth_error s i), (nth_error s j); cbn [bind]; congruence) l l' P).
    fold (diffs l i j) (diffs l' i j) in M.
    destruct (diffs l i j) as [c|], (diffs l' i j) as [c'|]; try contradiction; [|destruct M; subst; reflexivity]. cbn [bind].
    rewrite (Permutation_length P). destruct (length l' =? 1); [reflexivity|].
    rewrite (mean_perm _ _ (Permutation_map fst M)), (mean_perm _ _ (Permutation_map snd M)).
    rewrite (cov_perm c c' fst fst M), (cov_perm c c' fst snd M), (cov_perm c c' snd snd M).
    match goal with |- context [mapM ?f c] => pose proof (mapM_perm f LinAlgError) as W end.
    specialize (W ltac:(intros z e; unfold pdf; destruct (Req_EM_T _ 0); cbn [bind]; congruence) c c' M).
    destruct (mapM _ c), (mapM _ c'); try contradiction; cbn [bind]; [|destruct W; subst; reflexivity].
    rewrite (sumR_perm _ _ W). reflexivity.
  Qed.
  Lemma graph_perm n l l' : Permutation l l' -> (forall s, In s l -> length s = n) -> complete_graph l = complete_graph l'.
  Proof.
    intros P H. unfold complete_graph, all_weights. destruct l as [|s r].
    { apply Permutation_nil in P. subst. reflexivity. }
    destruct l' as [|s' r']. { apply Permutation_sym, Permutation_nil in P. discriminate. }
    unfold nth_res. cbn [nth_error bind].
    assert (E : length s = length s').
    { rewrite (H s (or_introl eq_refl)), (H s'); [reflexivity|]. apply (Permutation_in (l := s' :: r')); [apply Permutation_sym; exact P|left; reflexivity]. }
    rewrite E.
    assert (M : forall es, mapM (fun e => let? w := weight (s :: r) (fst e) (snd e) in Ok (e, w)) es = mapM (fun e => let? w := weight (s' :: r') (fst e) (snd e) in Ok (e, w)) es).
    { induction es as [|e es IH]; [reflexivity|]. cbn [mapM]. rewrite (weight_perm (fst e) (snd e) _ _ P), IH. reflexivity. }
    rewrite M. reflexivity.
  Qed.
End Tree.

From Coq Require Import String List ZArith QArith Bool Arith Lia.
From Verif.Model Require Import Py Checks.
From Verif.Spec Require Import Checks.
Import ListNotations.
Local Open Scope nat_scope.

(** * Generalities *)
Lemma concat_repeat_single {A} (x : A) n : concat (repeat [x] n) = repeat x n.
Proof. induction n; simpl; congruence. Qed.

Lemma forallb_Forall {A} (f : A -> bool) (P : A -> Prop) l :
  (forall x, f x = true <-> P x) -> (forallb f l = true <-> Forall P l).
Proof.
  intros H. rewrite forallb_forall, Forall_forall.
  split; intros G x Hx; apply H; auto.
Qed.

Lemma length1 {A} (l : list A) : length l = 1 -> exists x, l = [x].
Proof. destruct l as [|x [|]]; simpl; try discriminate; eauto. Qed.

Lemma pyval_ind' (P : pyval -> Prop) :
  P PNone -> (forall b, P (PBool b)) -> (forall z, P (PInt z)) -> (forall q, P (PFloat q)) ->
  (forall s, P (PStr s)) -> (forall i, P (PFun i)) -> (forall i m, P (PClass i m)) ->
  (forall i f, P f -> P (PPartial i f)) -> (forall z, P (PNpInt z)) ->
  (forall l, Forall P l -> P (PArr l)) -> (forall l, Forall P l -> P (PList l)) ->
  (forall l, Forall P l -> P (PTuple l)) -> (forall t i, P (PObj t i)) -> forall v, P v.
Proof.
  intros H1 H2 H3 H4 H5 H6 H7 H8 H9 HA HL HT HO.
  fix IH 1. intros v; destruct v;
    [exact H1|apply H2|apply H3|apply H4|apply H5|apply H6|apply H7|apply H8, IH|apply H9
    |apply HA|apply HL|apply HT|apply HO];
    (induction l as [|x l IHl]; constructor; [apply IH | exact IHl]).
Qed.

Lemma is_callable_spec v : is_callable v = true <-> Callable v.
Proof. split; [destruct v; simpl; try discriminate; constructor | destruct 1; reflexivity]. Qed.

Lemma is_int_spec v : is_int v = true <-> IntLike v.
Proof. split; [destruct v; simpl; try discriminate; constructor | destruct 1; reflexivity]. Qed.

Lemma is_num_spec v : is_num v = true <-> Number v.
Proof.
  split.
  - destruct v; simpl; try discriminate; intros _; constructor; constructor.
  - destruct 1 as [v H|q]; [destruct H; reflexivity | reflexivity].
Qed.

Lemma max_comp_ok_spec v : max_comp_ok v = true <-> Component v.
Proof.
  unfold Component. split.
  - destruct v; simpl; try discriminate; intros _; (left; reflexivity) || (right; constructor; constructor) || (right; constructor).
  - intros [->|H]; [reflexivity|]. apply is_num_spec in H. destruct v; exact H || reflexivity.
Qed.

Lemma is_arr_spec v : is_arr_or_npint v = true <-> SamplePattern v.
Proof. split; [destruct v; simpl; try discriminate; constructor | destruct 1; reflexivity]. Qed.

Lemma existsb_In b m : existsb (Nat.eqb b) m = true <-> In b m.
Proof.
  rewrite existsb_exists. split.
  - intros (x & Hx & E). apply Nat.eqb_eq in E. subst. exact Hx.
  - intros H. exists b. split; auto. apply Nat.eqb_refl.
Qed.

Lemma graph_ok_spec ts v : graph_ok ts v = true <-> GraphOk ts v.
Proof.
  unfold GraphOk. split.
  - destruct v; simpl; try discriminate; auto. intros H. apply existsb_In in H. right; eauto.
  - intros [->|(t & i & -> & H)]; [reflexivity|]. simpl. apply existsb_In. exact H.
Qed.

(** * check_callable *)
Lemma items_spec v l : items v = Ok l <-> seq_or_str v l.
Proof.
  split.
  - destruct v; simpl; try discriminate; intros H; injection H as <-; constructor; constructor.
  - destruct 1 as [v l H|s]; [destruct H; reflexivity | reflexivity].
Qed.

Lemma str_items_not (P : pyval -> Prop) s :
  (forall t, ~ P (PStr t)) -> Forall P (str_items s) -> s = EmptyString.
Proof.
  intros H HF. destruct s as [|a s]; [reflexivity|].
  exfalso. inversion HF; subst. eapply H; eauto.
Qed.

Lemma str_not_callable t : ~ Callable (PStr t).
Proof. inversion 1. Qed.

Lemma check_callable_spec v n out : 1 <= n ->
  (check_callable v n = Ok out <-> per_scale seq_of Callable n v out).
Proof.
  intros Hn. unfold check_callable. split.
  - destruct (is_callable v) eqn:C.
    + intros E; injection E as <-. apply ps_single. apply is_callable_spec; auto.
    + assert (NC : ~ Callable v) by (rewrite <- is_callable_spec; congruence).
      destruct (items v) as [l|e] eqn:I; [|discriminate]. simpl.
      apply items_spec in I.
      destruct (forallb is_callable l) eqn:F.
      2:{ rewrite !andb_false_r. discriminate. }
      rewrite !andb_true_r.
      apply (forallb_Forall _ Callable) in F; [|apply is_callable_spec].
      assert (S : seq_of v l \/ l = []).
      { destruct I as [v l H|s]; auto. right.
        rewrite (str_items_not _ _ str_not_callable F). reflexivity. }
      destruct (Nat.eqb_spec (length l) 1) as [L|L].
      * destruct (length1 l L) as [x ->]. rewrite concat_repeat_single.
        intros E; injection E as <-. destruct S as [S|S]; [|discriminate].
        inversion F; subst. eapply ps_one; eauto.
      * destruct (Nat.eqb_spec (length l) n) as [L2|L2]; [|discriminate].
        intros E; injection E as <-.
        destruct S as [S|S]; [eapply ps_full; eauto|]. subst l. simpl in *. lia.
  - destruct 1 as [v V|v x NV S V|v l NV S L F].
    + apply is_callable_spec in V. rewrite V. reflexivity.
    + rewrite <- is_callable_spec in NV. apply not_true_is_false in NV. rewrite NV.
      assert (I : items v = Ok [x]) by (apply items_spec; constructor; auto). rewrite I. simpl.
      apply is_callable_spec in V. rewrite V. simpl. rewrite concat_repeat_single. reflexivity.
    + rewrite <- is_callable_spec in NV. apply not_true_is_false in NV. rewrite NV.
      assert (I : items v = Ok l) by (apply items_spec; constructor; auto). rewrite I. simpl.
      apply (forallb_Forall is_callable) in F; [|apply is_callable_spec]. rewrite F, !andb_true_r.
      destruct (Nat.eqb_spec (length l) 1) as [L1|L1].
      * destruct (length1 l L1) as [x ->]. rewrite concat_repeat_single. simpl in L. subst n. reflexivity.
      * rewrite L, Nat.eqb_refl. reflexivity.
Qed.

(** * check_multi_scale_param *)
Lemma check_multi_scale_param_spec types (valid : pyval -> Prop) v n out :
  (forall x, types x = true <-> valid x) ->
  (check_multi_scale_param n types v = Ok out <-> per_scale seq_or_str valid n v out).
Proof.
  intros T. unfold check_multi_scale_param. split.
  - destruct (types v) eqn:C.
    + intros E; injection E as <-. apply ps_single. apply T; auto.
    + assert (NC : ~ valid v) by (rewrite <- T; congruence).
      destruct (is_iterable v) eqn:IT; [|discriminate]. simpl.
      destruct (items v) as [l|e] eqn:I; [|discriminate]. simpl. apply items_spec in I.
      destruct (forallb types l) eqn:F.
      2:{ rewrite !andb_false_r. discriminate. }
      rewrite !andb_true_r. apply (forallb_Forall _ _ _ T) in F.
      destruct (Nat.eqb_spec (length l) 1) as [L|L].
      * destruct (length1 l L) as [x ->]. rewrite concat_repeat_single.
        intros E; injection E as <-. inversion F; subst. eapply ps_one; eauto.
      * destruct (Nat.eqb_spec (length l) n) as [L2|L2]; [|discriminate].
        intros E; injection E as <-. eapply ps_full; eauto.
  - destruct 1 as [v V|v x NV S V|v l NV S L F].
    + apply T in V. rewrite V. reflexivity.
    + rewrite <- T in NV. apply not_true_is_false in NV. rewrite NV.
      assert (IT : is_iterable v = true) by (destruct S as [v l S|]; [destruct S|]; reflexivity).
      rewrite IT. apply items_spec in S. rewrite S. simpl.
      apply T in V. rewrite V. simpl. rewrite concat_repeat_single. reflexivity.
    + rewrite <- T in NV. apply not_true_is_false in NV. rewrite NV.
      assert (IT : is_iterable v = true) by (destruct S as [v l S|]; [destruct S|]; reflexivity).
      rewrite IT. apply items_spec in S. rewrite S. simpl.
      apply (forallb_Forall _ _ _ T) in F. rewrite F, !andb_true_r.
      destruct (Nat.eqb_spec (length l) 1) as [L1|L1].
      * destruct (length1 l L1) as [x ->]. rewrite concat_repeat_single. simpl in L. subst n. reflexivity.
      * rewrite L, Nat.eqb_refl. reflexivity.
Qed.

Lemma forallb_repeat {A} (f : A -> bool) x n : 1 <= n -> forallb f (repeat x n) = f x.
Proof.
  destruct n; [lia|]. intros _. simpl. destruct (f x) eqn:E; simpl; auto.
  apply forallb_forall. intros y Hy. apply repeat_spec in Hy. subst; auto.
Qed.

(** * check_max_components *)
Lemma check_max_components_spec v n out : 1 <= n ->
  (check_max_components v n = Ok out <-> per_scale list_or_tuple Component n v out).
Proof.
  intros Hn. unfold check_max_components.
  assert (NL : forall l, ~ Component (PList l)).
  { intros l [H|H]; [discriminate|]. inversion H; subst. inversion H0. }
  assert (NT : forall l, ~ Component (PTuple l)).
  { intros l [H|H]; [discriminate|]. inversion H; subst. inversion H0. }
  assert (SEQ : forall w l, list_or_tuple w l -> ~ Component w ->
      ((let? l0 := match l with [x] => Ok (repeat x n) | _ => if length l =? n then Ok l else Err ValueError end in
       if forallb max_comp_ok l0 then Ok l0 else Err ValueError) = Ok out
       <-> per_scale list_or_tuple Component n w out)).
  { intros w l S NV. split.
    - destruct l as [|x [|y r]].
      + simpl. destruct n; [lia|]. discriminate.
      + simpl. rewrite forallb_repeat by lia. destruct (max_comp_ok x) eqn:E; [|discriminate].
        intros H; injection H as <-. eapply ps_one; eauto. apply max_comp_ok_spec; auto.
      + destruct (Nat.eqb_spec (length (x :: y :: r)) n) as [L|L]; [|discriminate]. cbn [bind].
        destruct (forallb max_comp_ok (x :: y :: r)) eqn:F; [|discriminate].
        intros H; injection H as <-. eapply ps_full; eauto.
        apply (forallb_Forall max_comp_ok); auto. apply max_comp_ok_spec.
    - intros P. inversion P as [v0 V|v0 x NV0 S0 V|v0 l0 NV0 S0 L F]; subst; [contradiction| |].
      + assert (l = [x]) by (destruct S0; inversion S; auto). subst l. simpl.
        rewrite forallb_repeat by lia. apply max_comp_ok_spec in V. rewrite V. reflexivity.
      + assert (l = out) by (destruct S0; inversion S; auto). subst l.
        apply (forallb_Forall max_comp_ok) in F; [|apply max_comp_ok_spec].
        destruct out as [|x [|y r]]; [simpl in Hn; lia| |].
        * simpl in F |- *. rewrite F. reflexivity.
        * rewrite Nat.eqb_refl. cbn [bind]. rewrite F. reflexivity. }
  assert (SC : forall w, (forall l, ~ list_or_tuple w l) ->
     ((let? l0 := Ok (repeat w n) in if forallb max_comp_ok l0 then Ok l0 else Err ValueError) = Ok out
      <-> per_scale list_or_tuple Component n w out)).
  { intros w NS. simpl. rewrite forallb_repeat by lia. split.
    - destruct (max_comp_ok w) eqn:E; [|discriminate]. intros H; injection H as <-.
      apply ps_single. apply max_comp_ok_spec; auto.
    - intros P. inversion P; subst; try (exfalso; eapply NS; eassumption).
      apply max_comp_ok_spec in H. rewrite H. reflexivity. }
  destruct v; try (apply SC; intros ? H; inversion H).
  - apply (SEQ (PList l) l); [constructor|apply NL].
  - apply (SEQ (PTuple l) l); [constructor|apply NT].
Qed.

(** * check_sampling *)
Lemma check_sampling_spec v n out : 1 <= n ->
  (check_sampling v n = Ok out <->
   (v = PNone /\ out = repeat PNone n) \/ per_scale list_or_tuple SamplePattern n v out).
Proof.
  intros Hn. unfold check_sampling.
  assert (NL : forall l, ~ SamplePattern (PList l)) by (intros l H; inversion H).
  assert (NT : forall l, ~ SamplePattern (PTuple l)) by (intros l H; inversion H).
  assert (SEQ : forall w l, w <> PNone -> list_or_tuple w l -> ~ SamplePattern w ->
      ((if forallb is_arr_or_npint l then
          if length l =? 1 then Ok (concat (repeat l n))
          else if length l =? n then Ok l else Err ValueError
        else Err ValueError) = Ok out
       <-> (w = PNone /\ out = repeat PNone n) \/ per_scale list_or_tuple SamplePattern n w out)).
  { intros w l NN S NV. split.
    - destruct (forallb is_arr_or_npint l) eqn:F; [|discriminate].
      apply (forallb_Forall _ SamplePattern) in F; [|apply is_arr_spec].
      destruct (Nat.eqb_spec (length l) 1) as [L|L].
      + destruct (length1 l L) as [x ->]. rewrite concat_repeat_single. intros H; injection H as <-.
        right. inversion F; subst. eapply ps_one; eauto.
      + destruct (Nat.eqb_spec (length l) n) as [L2|L2]; [|discriminate].
        intros H; injection H as <-. right. eapply ps_full; eauto.
    - intros [[H _]|P]; [contradiction|].
      inversion P as [v0 V|v0 x NV0 S0 V|v0 l0 NV0 S0 L F]; subst; [contradiction| |].
      + assert (l = [x]) by (destruct S0; inversion S; auto). subst l. simpl.
        apply is_arr_spec in V. rewrite V. simpl. rewrite concat_repeat_single. reflexivity.
      + assert (l = out) by (destruct S0; inversion S; auto). subst l.
        apply (forallb_Forall is_arr_or_npint) in F; [|apply is_arr_spec]. rewrite F.
        destruct (Nat.eqb_spec (length out) 1) as [L1|L1].
        * destruct (length1 out L1) as [x ->]. simpl. reflexivity.
        * rewrite Nat.eqb_refl. reflexivity. }
  destruct v.
  all: try (split; [discriminate | intros [[H _]|P]; [discriminate | inversion P; subst; solve [inversion H | inversion H0]]]).
  - split.
    + intros H; injection H as <-. auto.
    + intros [[_ ->]|P]; [reflexivity|]. inversion P; subst; solve [inversion H | inversion H0].
  - split.
    + intros H; injection H as <-. right. apply ps_single. constructor.
    + intros [[H _]|P]; [discriminate|]. inversion P; subst; try solve [inversion H0]. reflexivity.
  - split.
    + intros H; injection H as <-. right. apply ps_single. constructor.
    + intros [[H _]|P]; [discriminate|]. inversion P; subst; try solve [inversion H0]. reflexivity.
  - apply SEQ; [discriminate|constructor|apply NL].
  - apply SEQ; [discriminate|constructor|apply NT].
Qed.

(** * check_graph *)
Lemma check_graph_spec ts v n out : 1 <= n ->
  (check_graph v ts n = Ok out <-> per_scale list_only (GraphOk ts) n v out).
Proof.
  intros Hn. unfold check_graph.
  assert (NL : forall l, ~ GraphOk ts (PList l)).
  { intros l [H|(t & i & H & _)]; discriminate. }
  assert (SC : forall w, (forall l, ~ list_only w l) ->
     ((let? l0 := Ok (repeat w n) in if forallb (graph_ok ts) l0 then Ok l0 else Err ValueError) = Ok out
      <-> per_scale list_only (GraphOk ts) n w out)).
  { intros w NS. simpl. rewrite forallb_repeat by lia. split.
    - destruct (graph_ok ts w) eqn:E; [|discriminate]. intros H; injection H as <-.
      apply ps_single. apply graph_ok_spec; auto.
    - intros P. inversion P; subst; try (exfalso; eapply NS; eassumption).
      apply graph_ok_spec in H. rewrite H. reflexivity. }
  destruct v; try (apply SC; intros ? H; inversion H).
  split.
  - destruct l as [|x [|y r]].
    + simpl. destruct n; [lia|]. discriminate.
    + cbn [bind]. rewrite concat_repeat_single, forallb_repeat by lia.
      destruct (graph_ok ts x) eqn:E; [|discriminate].
      intros H; injection H as <-. eapply ps_one; eauto; [constructor|]. apply graph_ok_spec; auto.
    + destruct (Nat.eqb_spec (length (x :: y :: r)) n) as [L|L]; [|discriminate]. cbn [bind].
      destruct (forallb (graph_ok ts) (x :: y :: r)) eqn:F; [|discriminate].
      intros H; injection H as <-. eapply ps_full; eauto; [constructor|].
      apply (forallb_Forall (graph_ok ts)); auto. apply graph_ok_spec.
  - intros P. inversion P as [v0 V|v0 x NV0 S0 V|v0 l0 NV0 S0 L F]; subst; [exfalso; eapply NL; eauto| |].
    + inversion S0; subst. cbn [bind]. rewrite concat_repeat_single, forallb_repeat by lia.
      apply graph_ok_spec in V. rewrite V. reflexivity.
    + inversion S0; subst.
      apply (forallb_Forall (graph_ok ts)) in F; [|apply graph_ok_spec].
      destruct out as [|x [|y r]]; [simpl in Hn; lia| |].
      * simpl in F |- *. rewrite F. reflexivity.
      * rewrite Nat.eqb_refl. cbn [bind]. rewrite F. reflexivity.
Qed.

(** * check_algorithm_cls *)
Definition each_alg (base : nat) := fix each (l : list pyval) : res (list pyval) :=
    match l with
    | [] => Ok []
    | x :: r => let? y := check_algorithm_cls x 1 base in
                match y with
                | y0 :: _ => let? ys := each r in Ok (y0 :: ys)
                | [] => Err IndexError
                end
    end.

Definition seq_alg base n l :=
    match l with
    | [x] => check_algorithm_cls x n base
    | _ => if length l =? n then each_alg base l else Err ValueError
    end.

Lemma check_alg_seq base v l n : seq_of v l -> check_algorithm_cls v n base = seq_alg base n l.
Proof. destruct 1; reflexivity. Qed.

Lemma repeat_Forall {A} (P : A -> Prop) x n : P x -> Forall P (repeat x n).
Proof. induction n; simpl; auto. Qed.

Lemma each_alg_sound base l :
  Forall (fun x => forall n out, check_algorithm_cls x n base = Ok out ->
             length out = n /\ Forall (AlgorithmCls base) out) l ->
  forall out, each_alg base l = Ok out -> length out = length l /\ Forall (AlgorithmCls base) out.
Proof.
  induction 1 as [|x r H _ IH]; simpl; intros out E.
  - injection E as <-. auto.
  - destruct (check_algorithm_cls x 1 base) as [y|] eqn:C; [|discriminate]. simpl in E.
    apply H in C. destruct C as [Ly Fy]. destruct y as [|y0 y']; [discriminate|].
    destruct (each_alg base r) as [ys|]; [|discriminate]. simpl in E. injection E as <-.
    destruct (IH ys eq_refl) as [La Fa]. simpl. split; [lia|].
    inversion Fy; subst. constructor; auto.
Qed.

Lemma seq_alg_sound base l :
  Forall (fun x => forall n out, check_algorithm_cls x n base = Ok out ->
             length out = n /\ Forall (AlgorithmCls base) out) l ->
  forall n out, seq_alg base n l = Ok out -> length out = n /\ Forall (AlgorithmCls base) out.
Proof.
  intros H n out E. unfold seq_alg in E.
  assert (G : (if length l =? n then each_alg base l else Err ValueError) = Ok out ->
              length out = n /\ Forall (AlgorithmCls base) out).
  { destruct (Nat.eqb_spec (length l) n); [|discriminate]. intros E'.
    apply each_alg_sound in E'; auto. rewrite <- e. exact E'. }
  destruct l as [|x [|y r]]; auto. inversion H; subst. eauto.
Qed.

Lemma check_algorithm_cls_sound base v : forall n out,
  check_algorithm_cls v n base = Ok out -> length out = n /\ Forall (AlgorithmCls base) out.
Proof.
  induction v using pyval_ind'; intros n out E; try discriminate.
  - simpl in E. destruct (String.length s) as [|[|k]].
    + destruct (Nat.eqb_spec n 0); [|discriminate]. injection E as <-. subst. auto.
    + discriminate.
    + change (S (S k) =? n) with (Nat.eqb (S (S k)) n) in E. destruct n as [|[|n]]; try discriminate. destruct (k =? n); discriminate.
  - simpl in E. destruct (existsb (Nat.eqb base) m) eqn:X; [|discriminate]. injection E as <-.
    rewrite repeat_length. split; auto. apply repeat_Forall. constructor. apply existsb_In; auto.
  - simpl in E. destruct v; try discriminate.
    destruct (existsb (Nat.eqb base) mro) eqn:X; [|discriminate]. injection E as <-.
    rewrite repeat_length. split; auto. apply repeat_Forall. constructor. apply existsb_In; auto.
  - rewrite (check_alg_seq base _ l n) in E by constructor. eapply seq_alg_sound; eauto.
  - rewrite (check_alg_seq base _ l n) in E by constructor. eapply seq_alg_sound; eauto.
  - rewrite (check_alg_seq base _ l n) in E by constructor. eapply seq_alg_sound; eauto.
Qed.

Lemma check_alg_single base v n : AlgorithmCls base v -> check_algorithm_cls v n base = Ok (repeat v n).
Proof. destruct 1 as [i m H|j i m H]; simpl; apply existsb_In in H; rewrite H; reflexivity. Qed.

Lemma each_alg_complete base l : Forall (AlgorithmCls base) l -> each_alg base l = Ok l.
Proof.
  induction 1 as [|x l H _ IH]; simpl; auto.
  rewrite (check_alg_single base x 1) by auto. simpl. rewrite IH. reflexivity.
Qed.

Lemma check_algorithm_cls_complete base n v out :
  per_scale seq_of (AlgorithmCls base) n v out -> check_algorithm_cls v n base = Ok out.
Proof.
  destruct 1 as [v V|v x NV S V|v l NV S L F].
  - apply check_alg_single; auto.
  - rewrite (check_alg_seq _ _ _ _ S). simpl. apply check_alg_single; auto.
  - rewrite (check_alg_seq _ _ _ _ S). unfold seq_alg. destruct l as [|x [|y r]].
    + simpl in L. subst n. reflexivity.
    + simpl in L. subst n. inversion F; subst. apply (check_alg_single base x 1); auto.
    + rewrite L, Nat.eqb_refl. apply each_alg_complete; auto.
Qed.

Lemma check_algorithm_cls_wrong_length base n v l :
  seq_of v l -> length l <> 1 -> length l <> n -> check_algorithm_cls v n base = Err ValueError.
Proof.
  intros S L1 Ln. rewrite (check_alg_seq _ _ _ _ S). unfold seq_alg.
  destruct (Nat.eqb_spec (length l) n); [contradiction|].
  destruct l as [|x [|y r]]; auto. simpl in L1; lia.
Qed.

(** * check_patch_shape *)
Definition go_ps := fix go (w : list pyval -> pyval) (l : list pyval) (n : nat) {struct l} : res (list pyval) :=
    match l with
    | [] => if n =? 0 then Err IndexError else Err ValueError
    | x :: r =>
      if (length l =? 2) && is_int x then Ok (repeat (w l) n)
      else match r with
           | [] => check_patch_shape x 1
           | _ => if length l =? n then
                    let? l1 := check_patch_shape x 1 in
                    let? l2 := go w r (n - 1) in
                    Ok (l1 ++ l2)
                  else Err ValueError
           end
    end.

Definition wrapper (w : list pyval -> pyval) : Prop := forall l, seq_of (w l) l.

Lemma go_ps_unfold w l n : go_ps w l n =
    match l with
    | [] => if n =? 0 then Err IndexError else Err ValueError
    | x :: r =>
      if (length l =? 2) && is_int x then Ok (repeat (w l) n)
      else match r with
           | [] => check_patch_shape x 1
           | _ => if length l =? n then
                    let? l1 := check_patch_shape x 1 in
                    let? l2 := go_ps w r (n - 1) in
                    Ok (l1 ++ l2)
                  else Err ValueError
           end
    end.
Proof. destruct l; reflexivity. Qed.

Lemma check_ps_seq v l n : seq_of v l -> exists w, wrapper w /\ w l = v /\ check_patch_shape v n = go_ps w l n.
Proof.
  destruct 1; [exists PList | exists PTuple | exists PArr]; (split; [intros k; constructor | split; reflexivity]).
Qed.

Definition ps_ok (v : pyval) := forall n out, check_patch_shape v n = Ok out ->
  Forall PatchShape out /\ (length out = n \/ (length out = 1 /\ exists x, seq_of v [x])).

Lemma go_ps_sound w l : wrapper w -> Forall ps_ok l ->
  forall n out, go_ps w l n = Ok out ->
  Forall PatchShape out /\ (length out = n \/ (length out = 1 /\ exists x, l = [x])).
Proof.
  intros W. induction 1 as [|x r H HF IH]; intros n out E; rewrite go_ps_unfold in E.
  - destruct (n =? 0); discriminate.
  - destruct ((length (x :: r) =? 2) && is_int x) eqn:C.
    + injection E as <-. rewrite repeat_length. split; auto. apply repeat_Forall.
      apply andb_true_iff in C. destruct C as [C1 C2]. apply Nat.eqb_eq in C1.
      destruct r as [|y [|]]; try discriminate C1. exists x, y. split; [apply is_int_spec; auto | apply W].
    + destruct r as [|y r].
      * destruct (H 1 out E) as [F L]. split; auto. right.
        destruct L as [L|[L _]]; (split; [exact L | eauto]).
      * destruct (Nat.eqb_spec (length (x :: y :: r)) n) as [L|L]; [|discriminate].
        destruct (check_patch_shape x 1) as [l1|] eqn:C1; [|discriminate]. cbn [bind] in E.
        destruct (go_ps w (y :: r) (n - 1)) as [l2|] eqn:C2; [|discriminate]. cbn [bind] in E.
        injection E as <-.
        destruct (H 1 l1 C1) as [F1 L1]. destruct (IH _ _ C2) as [F2 L2].
        split; [apply Forall_app; auto|]. left. rewrite app_length.
        assert (length l1 = 1) by (destruct L1 as [?|[? _]]; auto).
        destruct L2 as [L2|[L2 (z & Z)]]; simpl in L; [lia|].
        injection Z as -> ->. simpl in L. lia.
Qed.

Lemma check_patch_shape_sound v : ps_ok v.
Proof.
  induction v using pyval_ind'; intros n out E; try discriminate.
  - simpl in E. destruct (String.length s) as [|[|k]].
    + destruct (n =? 0); discriminate.
    + discriminate.
    + change (S (S k) =? n) with (Nat.eqb (S (S k)) n) in E. destruct n as [|[|n]]; try discriminate. destruct (k =? n); discriminate.
  - destruct (check_ps_seq (PArr l) l n) as (w & W & _ & EQ); [constructor|]. rewrite EQ in E.
    destruct (go_ps_sound w l W H n out E) as [F [L|[L (x & ->)]]]; split; auto.
    right. split; auto. exists x. constructor.
  - destruct (check_ps_seq (PList l) l n) as (w & W & _ & EQ); [constructor|]. rewrite EQ in E.
    destruct (go_ps_sound w l W H n out E) as [F [L|[L (x & ->)]]]; split; auto.
    right. split; auto. exists x. constructor.
  - destruct (check_ps_seq (PTuple l) l n) as (w & W & _ & EQ); [constructor|]. rewrite EQ in E.
    destruct (go_ps_sound w l W H n out E) as [F [L|[L (x & ->)]]]; split; auto.
    right. split; auto. exists x. constructor.
Qed.

Lemma check_patch_shape_length v n out :
  check_patch_shape v n = Ok out -> (forall x, ~ seq_of v [x]) \/ n = 1 -> length out = n.
Proof.
  intros E N. destruct (check_patch_shape_sound v n out E) as [_ [L|[L (x & S)]]]; auto.
  destruct N as [N|N]; [exfalso; eapply N; eauto|congruence].
Qed.

Lemma PatchShape_not_int v : PatchShape v -> is_int v = false.
Proof. intros (a & b & _ & S). destruct S; reflexivity. Qed.

Lemma check_ps_pair v n : PatchShape v -> check_patch_shape v n = Ok (repeat v n).
Proof.
  intros (a & b & I & S). destruct (check_ps_seq v _ n S) as (w & W & E & EQ). rewrite EQ.
  rewrite go_ps_unfold. apply is_int_spec in I. rewrite I. simpl. rewrite E. reflexivity.
Qed.

Lemma go_ps_full w l : Forall PatchShape l -> l <> [] -> go_ps w l (length l) = Ok l.
Proof.
  induction 1 as [|x r H HF IH]; intros NE; [contradiction|]. rewrite go_ps_unfold.
  rewrite (PatchShape_not_int x H), andb_false_r.
  destruct r as [|y r].
  - rewrite (check_ps_pair x 1 H). reflexivity.
  - rewrite Nat.eqb_refl. rewrite (check_ps_pair x 1 H). cbn [bind].
    replace (length (x :: y :: r) - 1) with (length (y :: r)) by (simpl; lia).
    rewrite IH by discriminate. reflexivity.
Qed.

Lemma check_ps_full v l : seq_of v l -> Forall PatchShape l -> l <> [] ->
  check_patch_shape v (length l) = Ok l.
Proof.
  intros S F NE. destruct (check_ps_seq v _ (length l) S) as (w & W & E & EQ). rewrite EQ.
  apply go_ps_full; auto.
Qed.

(** * check_scales *)
Definition go_sc := fix go (l : list pyval) : res (list pyval) :=
    match l with
    | [] => Err ValueError
    | x :: nil => if is_num x then Ok [x] else Err ValueError
    | x :: r => let? a := check_scales x in let? b := go r in Ok (a ++ b)
    end.

Lemma go_sc_unfold l : go_sc l =
    match l with
    | [] => Err ValueError
    | x :: nil => if is_num x then Ok [x] else Err ValueError
    | x :: r => let? a := check_scales x in let? b := go_sc r in Ok (a ++ b)
    end.
Proof. destruct l; reflexivity. Qed.

Lemma check_scales_seq v l : seq_of v l -> check_scales v = go_sc l.
Proof. destruct 1; reflexivity. Qed.

Definition sc_ok v := forall out, check_scales v = Ok out ->
  out = leaves v /\ out <> [] /\ Forall Number out.

Lemma go_sc_sound l : Forall sc_ok l -> forall out, go_sc l = Ok out ->
  out = flat_map leaves l /\ out <> [] /\ Forall Number out.
Proof.
  induction 1 as [|x r H HF IH]; intros out E; rewrite go_sc_unfold in E; [discriminate|].
  destruct r as [|y r].
  - destruct (is_num x) eqn:N; [|discriminate]. injection E as <-.
    assert (Number x) by (apply is_num_spec; auto). repeat split.
    + simpl. destruct x; simpl in N |- *; try discriminate; reflexivity.
    + discriminate.
    + auto.
  - destruct (check_scales x) as [a|] eqn:A; [|discriminate]. cbn [bind] in E.
    destruct (go_sc (y :: r)) as [b|] eqn:B; [|discriminate]. cbn [bind] in E. injection E as <-.
    destruct (H a A) as (-> & N1 & F1). destruct (IH b eq_refl) as (-> & N2 & F2).
    repeat split.
    + intros X. apply app_eq_nil in X. destruct X; contradiction.
    + apply Forall_app; auto.
Qed.

Lemma check_scales_sound v : sc_ok v.
Proof.
  induction v using pyval_ind'; intros out E; try discriminate.
  - injection E as <-. repeat split; auto; [discriminate|]. repeat constructor.
  - injection E as <-. repeat split; auto; [discriminate|]. repeat constructor.
  - injection E as <-. repeat split; auto; [discriminate|]. constructor; [apply num_float|constructor].
  - apply (go_sc_sound l); auto.
  - apply (go_sc_sound l); auto.
  - apply (go_sc_sound l); auto.
Qed.

Lemma check_scales_flat v l : seq_of v l -> l <> [] -> Forall Number l -> check_scales v = Ok l.
Proof.
  intros S NE F. rewrite (check_scales_seq _ _ S). clear S.
  induction F as [|x r N F IH]; [contradiction|]. rewrite go_sc_unfold.
  destruct r as [|y r].
  - apply is_num_spec in N. rewrite N. reflexivity.
  - rewrite IH by discriminate.
    assert (C : check_scales x = Ok [x]) by (inversion N as [? I|]; [inversion I|]; reflexivity).
    rewrite C. reflexivity.
Qed.

Lemma check_scales_number v : Number v -> check_scales v = Ok [v].
Proof. intros N. inversion N as [? I|]; [inversion I|]; reflexivity. Qed.

Lemma check_scales_idem v out : check_scales v = Ok out -> check_scales (PList out) = Ok out.
Proof.
  intros E. destruct (check_scales_sound v out E) as (_ & NE & F).
  apply check_scales_flat; auto. constructor.
Qed.

Lemma check_scales_complete v out : scales v out -> check_scales v = Ok out.
Proof.
  induction 1 as [v N|v x S N|v x y r a b S H1 IH1 H2 IH2].
  - apply check_scales_number, N.
  - rewrite (check_scales_seq _ _ S), go_sc_unfold. apply is_num_spec in N. rewrite N. reflexivity.
  - rewrite (check_scales_seq _ _ S), go_sc_unfold, IH1. cbn [bind].
    rewrite (check_scales_seq _ _ (seq_list (y :: r))) in IH2. rewrite IH2. reflexivity.
Qed.

Lemma go_sc_scales l : Forall (fun v => forall out, check_scales v = Ok out -> scales v out) l ->
  forall v out, seq_of v l -> go_sc l = Ok out -> scales v out.
Proof.
  induction 1 as [|x r H HF IH]; intros v out S E; rewrite go_sc_unfold in E; [discriminate|].
  destruct r as [|y r].
  - destruct (is_num x) eqn:N; [|discriminate]. injection E as <-. apply (scales_one v x S), is_num_spec, N.
  - destruct (check_scales x) as [a|] eqn:A; [|discriminate]. cbn [bind] in E.
    destruct (go_sc (y :: r)) as [b|] eqn:B; [|discriminate]. cbn [bind] in E. injection E as <-.
    apply (scales_more v x y r a b S (H a eq_refl)). apply (IH _ _ (seq_list _) eq_refl).
Qed.

Lemma check_scales_exact v out : check_scales v = Ok out <-> scales v out.
Proof.
  split; [|apply check_scales_complete]. revert out. induction v using pyval_ind'; intros out E; try discriminate;
    try (injection E as <-; apply scales_number; constructor; constructor);
    (apply (go_sc_scales l); [assumption|constructor|exact E]).
Qed.

Lemma check_scales_errors v : (forall out, ~ scales v out) ->
  check_scales v = Err ValueError \/ check_scales v = Err TypeError.
Proof.
  intros H. destruct (check_scales v) as [out|e] eqn:E; [exfalso; apply (H out), check_scales_exact, E|]. clear H.
  revert e E. induction v using pyval_ind'; intros e E; cbn [check_scales] in E; try discriminate E;
    try (injection E as <-; auto; fail).
  all: change (go_sc l = Err e) in E; revert e E; induction H as [|x r Hx HF IH]; intros e E; rewrite go_sc_unfold in E;
    [injection E as <-; auto|]; destruct r as [|y r]; [destruct (is_num x); [discriminate|injection E as <-; auto]|];
    destruct (check_scales x) as [a|e'] eqn:A; cbn [bind] in E;
      [destruct (go_sc (y :: r)) as [b|e''] eqn:B; cbn [bind] in E; [discriminate|injection E as <-; apply (IH _ eq_refl)]
      |injection E as <-; apply (Hx _ eq_refl)].
Qed.

(** * check_max_iters *)
Lemma rhe_bound a b : (0 < b)%Z -> (2 * Z.abs (round_half_even_div a b * b - a) <= b)%Z.
Proof.
  intros Hb. unfold round_half_even_div.
  pose proof (Z.div_mod a b ltac:(lia)) as D. pose proof (Z.mod_pos_bound a b Hb) as M.
  destruct (Z.compare_spec (2 * (a mod b)) b); [|nia|nia].
  destruct (Z.even (a / b)); nia.
Qed.

Lemma rhe_exact k b : (0 < b)%Z -> round_half_even_div (k * b) b = k.
Proof.
  intros Hb. unfold round_half_even_div.
  rewrite Z.div_mul, Z.mod_mul by lia.
  destruct (Z.compare_spec (2 * 0) b); lia.
Qed.

Lemma rhe_nonneg a b : (0 <= a)%Z -> (0 < b)%Z -> (0 <= round_half_even_div a b)%Z.
Proof. intros Ha Hb. pose proof (rhe_bound a b Hb). nia. Qed.

Lemma rhe_tie_even a b : (0 < b)%Z -> (2 * (a mod b) = b)%Z -> Z.even (round_half_even_div a b) = true.
Proof.
  intros Hb T. unfold round_half_even_div. rewrite T, Z.compare_refl.
  destruct (Z.even (a / b)) eqn:E; auto.
  rewrite Z.even_add, E. reflexivity.
Qed.

Lemma check_max_iters_int m n : 1 <= n -> (0 <= m)%Z -> exists k,
  check_max_iters (PInt m) n = Ok (repeat k n) /\ (0 <= k)%Z /\
  (2 * Z.abs (k * Z.of_nat n - m) <= Z.of_nat n)%Z.
Proof.
  intros Hn Hm. exists (round_half_even_div m (Z.of_nat n)).
  split; [reflexivity|]. split; [apply rhe_nonneg; lia|apply rhe_bound; lia].
Qed.

Lemma Zsum_repeat k n : Zsum (repeat k n) = (k * Z.of_nat n)%Z.
Proof. induction n; simpl repeat; unfold Zsum in *; simpl fold_right; lia. Qed.

Lemma mapM_to_int64_ints zs : mapM to_int64 (map PInt zs) = Ok zs.
Proof.
  assert (X : forall z, to_int64 (PInt z) = Ok z).
  { intros z. unfold to_int64. simpl. rewrite Z.quot_1_r. reflexivity. }
  induction zs as [|z zs IH]; auto. cbn [map mapM]. rewrite X. cbn [bind]. rewrite IH. reflexivity.
Qed.

Lemma check_max_iters_list v zs n : seq_of v (map PInt zs) -> length zs = n ->
  check_max_iters v n = Ok zs.
Proof.
  intros S L. unfold check_max_iters.
  assert (X : forall l, v <> PInt l) by (intros l ->; inversion S).
  assert (I : items v = Ok (map PInt zs)) by (apply items_spec; constructor; auto).
  assert (G : (n =? 1) && (1 <? n) = false) by (clear; destruct n as [|[|n]]; reflexivity).
  destruct v; try (exfalso; eapply X; reflexivity); rewrite I; cbn [bind]; rewrite map_length, L;
    rewrite Nat.eqb_refl; cbn [negb]; rewrite G; apply mapM_to_int64_ints.
Qed.

Lemma check_max_iters_one v z n : seq_of v [PInt z] -> 2 <= n ->
  check_max_iters v n = check_max_iters (PInt z) n.
Proof.
  intros S H. unfold check_max_iters.
  assert (I : items v = Ok [PInt z]) by (apply items_spec; constructor; auto).
  assert (G : (1 <? n) = true) by (apply Nat.ltb_lt; lia).
  destruct v; try (inversion S; fail); rewrite I; cbn [bind length Nat.eqb andb]; rewrite G;
    cbn [num_frac bind]; rewrite Z.mul_1_l; reflexivity.
Qed.

Lemma check_max_iters_wrong v l n : seq_of v l -> length l <> 1 -> length l <> n ->
  check_max_iters v n = Err ValueError.
Proof.
  intros S H1 H2. unfold check_max_iters.
  assert (I : items v = Ok l) by (apply items_spec; constructor; auto).
  destruct v; try (inversion S; fail); rewrite I; cbn [bind];
    destruct (Nat.eqb_spec (length l) 1); try contradiction;
    destruct (Nat.eqb_spec (length l) n); try contradiction; reflexivity.
Qed.

Lemma mapM_length {A B} (f : A -> res B) l out : mapM f l = Ok out -> length out = length l.
Proof.
  revert out. induction l as [|x l IH]; simpl; intros out E.
  - injection E as <-. reflexivity.
  - destruct (f x); [|discriminate]. simpl in E. destruct (mapM f l); [|discriminate].
    injection E as <-. simpl. f_equal. auto.
Qed.

Lemma check_max_iters_length v n out : check_max_iters v n = Ok out -> length out = n.
Proof.
  unfold check_max_iters. intros E.
  assert (G : (let? l := items v in
    if (length l =? 1) && (1 <? n) then
      match l with
      | x :: _ => let? (a, b) := num_frac x in
                  Ok (repeat (round_half_even_div a (Zpos b * Z.of_nat n)) n)
      | [] => Err IndexError
      end
    else if negb (length l =? n) then Err ValueError
    else mapM to_int64 l) = Ok out -> length out = n).
  { destruct (items v) as [l|]; [|discriminate]. cbn [bind].
    destruct ((length l =? 1) && (1 <? n)).
    - destruct l as [|x r]; [discriminate|]. destruct (num_frac x) as [[a b]|]; [|discriminate].
      cbn [bind]. intros H; injection H as <-. apply repeat_length.
    - destruct (Nat.eqb_spec (length l) n); [|discriminate]. cbn [negb].
      intros H. apply mapM_length in H. congruence. }
  destruct v; auto. injection E as <-. apply repeat_length.
Qed.

(** * set_models_components *)
Section Set_models.
  Variable M : Type.
  Variable set : M -> pyval -> res M.

  Lemma set_all_spec ms v out : set_all M set ms v = (out, Ok tt) <->
    Forall2 (fun m m' => set m v = Ok m') ms out.
  Proof.
    revert out. induction ms as [|m r IH]; simpl; intros out.
    - split; [intros E; injection E as <-; constructor | inversion 1; reflexivity].
    - destruct (set m v) as [m'|e] eqn:S.
      + destruct (set_all M set r v) as [r' o] eqn:A. split.
        * intros E. injection E as <- ->. constructor; auto. apply IH. reflexivity.
        * inversion 1; subst. match goal with H : Forall2 _ r _ |- _ => apply IH in H; inversion H; subst end.
          congruence.
      + split; [discriminate|]. inversion 1; subst. congruence.
  Qed.

  Lemma set_zip_spec ms vs out : length vs = length ms ->
    (set_zip M set ms vs = (out, Ok tt) <->
     Forall2 (fun mv m' => set (fst mv) (snd mv) = Ok m') (combine ms vs) out).
  Proof.
    revert vs out. induction ms as [|m r IH]; simpl; intros vs out L.
    - split; [intros E; injection E as <-; constructor | inversion 1; reflexivity].
    - destruct vs as [|v vs]; [discriminate|]. simpl. injection L as L.
      destruct (set m v) as [m'|e] eqn:S.
      + destruct (set_zip M set r vs) as [r' o] eqn:A. split.
        * intros E. injection E as <- ->. constructor; auto. apply IH; auto.
        * inversion 1; subst. match goal with H : Forall2 _ (combine _ _) _ |- _ => apply IH in H; auto; rewrite A in H; inversion H; subst end.
          simpl in *. congruence.
      + split; [discriminate|]. inversion 1; subst. simpl in *. congruence.
  Qed.
  Lemma set_all_fails ms v out e : set_all M set ms v = (out, Err e) ->
    exists a m b a', ms = a ++ m :: b /\ out = a' ++ m :: b /\ Forall2 (fun mi m' => set mi v = Ok m') a a' /\ set m v = Err e.
  Proof.
    revert out. induction ms as [|m r IH]; simpl; intros out; [discriminate|].
    destruct (set m v) as [m'|e'] eqn:S.
    - destruct (set_all M set r v) as [r' o] eqn:A. intros E. injection E as <- ->.
      destruct (IH _ eq_refl) as (a & x & b & a' & -> & -> & F & X).
      exists (m :: a), x, b, (m' :: a'). split; [reflexivity|]. split; [reflexivity|]. split; [constructor; assumption|exact X].
    - intros E. injection E as <- ->. exists [], m, r, []. split; [reflexivity|]. split; [reflexivity|]. split; [constructor|exact S].
  Qed.
  Lemma set_zip_fails ms vs out e : set_zip M set ms vs = (out, Err e) ->
    exists a m b a' va v vb, ms = a ++ m :: b /\ out = a' ++ m :: b /\ vs = va ++ v :: vb /\ length va = length a /\
      Forall2 (fun mv m' => set (fst mv) (snd mv) = Ok m') (combine a va) a' /\ set m v = Err e.
  Proof.
    revert vs out. induction ms as [|m r IH]; simpl; intros vs out; [discriminate|]. destruct vs as [|v vs]; [discriminate|].
    destruct (set m v) as [m'|e'] eqn:S.
    - destruct (set_zip M set r vs) as [r' o] eqn:A. intros E. injection E as <- ->.
      destruct (IH _ _ A) as (a & x & b & a' & va & w & vb & -> & -> & -> & L & F & X).
      exists (m :: a), x, b, (m' :: a'), (v :: va), w, vb. split; [reflexivity|]. split; [reflexivity|]. split; [reflexivity|].
      split; [simpl; congruence|]. split; [constructor; assumption|exact X].
    - intros E. injection E as <- ->. exists [], m, r, [], [], v, vs. split; [reflexivity|]. split; [reflexivity|]. split; [reflexivity|].
      split; [reflexivity|]. split; [constructor|exact S].
  Qed.
  Lemma set_models_fails ms v out e : set_models_components M set ms v = (out, Err e) ->
    out = ms \/
    exists a m b a' x, ms = a ++ m :: b /\ out = a' ++ m :: b /\ set m x = Err e /\
      Forall2 (fun mi m' => exists xi, set mi xi = Ok m') a a' /\
      (x = v \/ items v = Ok [x] \/ exists l, items v = Ok l /\ nth_error l (length a) = Some x).
  Proof.
    assert (W : forall x, set_all M set ms x = (out, Err e) -> (x = v \/ items v = Ok [x]) ->
      exists a m b a' x, ms = a ++ m :: b /\ out = a' ++ m :: b /\ set m x = Err e /\
      Forall2 (fun mi m' => exists xi, set mi xi = Ok m') a a' /\
      (x = v \/ items v = Ok [x] \/ exists l, items v = Ok l /\ nth_error l (length a) = Some x)).
    { intros x H K. destruct (set_all_fails _ _ _ _ H) as (a & m & b & a' & -> & -> & F & X). exists a, m, b, a', x.
      split; [reflexivity|]. split; [reflexivity|]. split; [exact X|]. split; [|tauto].
      clear -F. induction F; constructor; eauto. }
    unfold set_models_components. intros H.
    assert (G : match items v with
      | Err e => (ms, Err e)
      | Ok l => if (length l =? 1) && (1 <? length ms) then match l with x :: _ => set_all M set ms x | [] => (ms, Err IndexError) end
                else if length l =? length ms then set_zip M set ms l else (ms, Err ValueError)
      end = (out, Err e) -> out = ms \/
      exists a m b a' x, ms = a ++ m :: b /\ out = a' ++ m :: b /\ set m x = Err e /\
      Forall2 (fun mi m' => exists xi, set mi xi = Ok m') a a' /\
      (x = v \/ items v = Ok [x] \/ exists l, items v = Ok l /\ nth_error l (length a) = Some x)).
    { clear H. destruct (items v) as [l|e'] eqn:I; [|intros E; injection E as <- <-; auto].
      destruct ((length l =? 1) && (1 <? length ms)) eqn:C.
      - destruct l as [|x [|y l]]; [discriminate| |discriminate]. intros H. right. exact (W x H (or_intror eq_refl)).
      - destruct (length l =? length ms); [|intros E; injection E as <- <-; auto].
        intros H. right. destruct (set_zip_fails _ _ _ _ H) as (a & m & b & a' & va & w & vb & -> & -> & -> & L & F & X).
        exists a, m, b, a', w. split; [reflexivity|]. split; [reflexivity|]. split; [exact X|]. split.
        + clear -F L. revert va a' L F. induction a as [|p a IH]; intros [|q va] a' L F; try discriminate; inversion F; subst; constructor; eauto.
        + right. right. eexists. split; [reflexivity|]. rewrite <- L, nth_error_app2, Nat.sub_diag; [reflexivity|lia]. }
    destruct v; first [discriminate H | right; apply (W _ H); auto; fail | exact (G H)].
  Qed.
End Set_models.

Lemma check_max_iters_divisible k n : 1 <= n ->
  check_max_iters (PInt (k * Z.of_nat n)) n = Ok (repeat k n).
Proof. intros H. simpl. rewrite rhe_exact by lia. reflexivity. Qed.

Lemma set_models_scalar M set models v out : (exists z, v = PInt z) \/ (exists q, v = PFloat q) ->
  (set_models_components M set models v = (out, Ok tt) <->
   Forall2 (fun m m' => set m v = Ok m') models out).
Proof. intros [[z ->]|[q ->]]; apply set_all_spec. Qed.

Lemma set_models_one M set models v x out : seq_of v [x] -> 2 <= length models ->
  (set_models_components M set models v = (out, Ok tt) <->
   Forall2 (fun m m' => set m x = Ok m') models out).
Proof.
  intros S L. unfold set_models_components.
  assert (I : items v = Ok [x]) by (apply items_spec; constructor; auto).
  assert (G : (1 <? length models) = true) by (apply Nat.ltb_lt; lia).
  destruct v; try (inversion S; fail); rewrite I; cbn [length Nat.eqb andb]; rewrite G; apply set_all_spec.
Qed.

Lemma set_models_list M set models v l out : seq_of v l -> length l = length models ->
  (set_models_components M set models v = (out, Ok tt) <->
   Forall2 (fun mv m' => set (fst mv) (snd mv) = Ok m') (combine models l) out).
Proof.
  intros S L. unfold set_models_components.
  assert (I : items v = Ok l) by (apply items_spec; constructor; auto).
  assert (G : (length l =? 1) && (1 <? length models) = false).
  { rewrite L. clear. destruct (length models) as [|[|n]]; reflexivity. }
  destruct v; try (inversion S; fail); rewrite I, G, L, Nat.eqb_refl; apply set_zip_spec; auto.
Qed.

Lemma set_models_wrong M set models v l :
  seq_of v l -> length l <> 1 -> length l <> length models ->
  set_models_components M set models v = (models, Err ValueError).
Proof.
  intros S L1 L2. unfold set_models_components.
  assert (I : items v = Ok l) by (apply items_spec; constructor; auto).
  destruct v; try (inversion S; fail); rewrite I;
    destruct (Nat.eqb_spec (length l) 1); try contradiction;
    destruct (Nat.eqb_spec (length l) (length models)); try contradiction; reflexivity.
Qed.

Lemma check_sampling_none_entry l n : In PNone l -> check_sampling (PList l) n = Err ValueError.
Proof.
  intros H. simpl. replace (forallb is_arr_or_npint l) with false; auto.
  symmetry. apply not_true_is_false. rewrite forallb_forall. intros F. apply F in H. discriminate.
Qed.

Lemma check_max_components_any_int z n : 1 <= n ->
  check_max_components (PInt z) n = Ok (repeat (PInt z) n).
Proof. intros H. unfold check_max_components. cbn [bind]. rewrite forallb_repeat by auto. reflexivity. Qed.

Lemma check_diagonal_spec d out : check_diagonal d = Ok out <->
  out = d /\ (d = None \/ exists q, d = Some q /\ (20 <= q)%Q).
Proof.
  destruct d as [q|]; simpl.
  - destruct (Qle_bool 20 q) eqn:E; simpl.
    + apply Qle_bool_iff in E. split.
      * intros H; injection H as <-. split; auto. right; eauto.
      * intros [-> _]. reflexivity.
    + split; [discriminate|]. intros [_ [H|(q' & H & L)]]; [discriminate|]. injection H as <-.
      apply Qle_bool_iff in L. congruence.
  - split; [intros H; injection H as <-; auto | intros [-> _]; reflexivity].
Qed.

From Coq Require Import String List Bool.
From Verif.Model Require Import Py Dict.
Import ListNotations.

Section D.
  Context {V : Type}.
  Implicit Type d : dict V.
  Lemma get_set_same k (v : V) d : dict_get k (dict_set k v d) = Some v.
  Proof.
    induction d as [|[k' v'] d IH]; cbn; [rewrite String.eqb_refl; reflexivity|].
    destruct (String.eqb k k') eqn:E; cbn; rewrite E; auto.
  Qed.
  Lemma get_set_other k k' (v : V) d : k <> k' -> dict_get k (dict_set k' v d) = dict_get k d.
  Proof.
    intros H. induction d as [|[k2 v2] d IH]; cbn.
    - apply String.eqb_neq in H. rewrite H. reflexivity.
    - destruct (String.eqb k' k2) eqn:E; cbn.
      + apply String.eqb_eq in E. subst. apply String.eqb_neq in H. rewrite H. reflexivity.
      + destruct (String.eqb k k2); auto.
  Qed.
  Lemma set_new k (v : V) d : dict_get k d = None -> dict_set k v d = d ++ [(k, v)].
  Proof.
    induction d as [|[k' v'] d IH]; cbn; [reflexivity|]. destruct (String.eqb k k'); [discriminate|].
    intros H. rewrite IH; auto.
  Qed.
  Lemma get_app k d1 d2 : dict_get k (d1 ++ d2) = match dict_get k d1 with Some v => Some v | None => dict_get k d2 end.
  Proof. induction d1 as [|[k' v'] d IH]; cbn; [reflexivity|]. destruct (String.eqb k k'); auto. Qed.
  Lemma remove_app_new k (v : V) d : dict_get k d = None -> dict_remove k (d ++ [(k, v)]) = d.
  Proof.
    induction d as [|[k' v'] d IH]; cbn; [rewrite String.eqb_refl; reflexivity|].
    destruct (String.eqb k k'); [discriminate|]. intros H. rewrite IH; auto.
  Qed.
  Lemma get_none_remove k d : dict_get k d = None -> dict_remove k d = d.
  Proof.
    induction d as [|[k' v'] d IH]; cbn; [reflexivity|]. destruct (String.eqb k k'); [discriminate|].
    intros H. rewrite IH; auto.
  Qed.
  Lemma get_remove_other k k' d : k <> k' -> dict_get k (dict_remove k' d) = dict_get k d.
  Proof.
    intros H. induction d as [|[k2 v2] d IH]; cbn; [reflexivity|].
    destruct (String.eqb k' k2) eqn:E; cbn.
    - apply String.eqb_eq in E. subst. apply String.eqb_neq in H. rewrite H. reflexivity.
    - destruct (String.eqb k k2); auto.
  Qed.
  Lemma get_not_in k d : ~ In k (map fst d) <-> dict_get k d = None.
  Proof.
    induction d as [|[k' v'] d IH]; cbn; [tauto|]. destruct (String.eqb k k') eqn:E.
    - apply String.eqb_eq in E. subst. split; [tauto|discriminate].
    - apply String.eqb_neq in E. rewrite <- IH. split; [tauto|]. intros H [H1|H1]; auto.
  Qed.
  Lemma get_remove_same k d : NoDup (map fst d) -> dict_get k (dict_remove k d) = None.
  Proof.
    induction d as [|[k' v'] d IH]; cbn; [reflexivity|]. intros H. inversion H; subst.
    destruct (String.eqb k k') eqn:E; cbn.
    - apply String.eqb_eq in E. subst. apply get_not_in. auto.
    - rewrite E. auto.
  Qed.
  Lemma keys_set k (v : V) d : NoDup (map fst d) -> NoDup (map fst (dict_set k v d)).
  Proof.
    intros H. destruct (dict_get k d) as [v0|] eqn:E.
    - replace (map fst (dict_set k v d)) with (map fst d); auto. clear H.
      induction d as [|[k' v'] d IH]; cbn in *; [discriminate|].
      destruct (String.eqb k k') eqn:E'; cbn; auto. f_equal. auto.
    - rewrite set_new, map_app by auto. apply get_not_in in E. cbn.
      apply NoDup_rev in H. rewrite <- (rev_involutive (map fst d ++ [k])). apply NoDup_rev.
      rewrite rev_app_distr. cbn. constructor; auto. rewrite <- in_rev. auto.
  Qed.
End D.

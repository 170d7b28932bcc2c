From Coq Require Import List QArith Qcanon Bool.
From Verif.Model Require Import Py Affine.
Import ListNotations.
Local Open Scope Qc_scope.

Lemma aff_ext t u : fa t = fa u -> fb t = fb u -> fc t = fc u -> fd t = fd u -> ftx t = ftx u -> fty t = fty u -> t = u.
Proof. destruct t, u; simpl; intros; subst; reflexivity. Qed.

Lemma apply_pt_compose t u p : apply_pt (compose_after t u) p = apply_pt t (apply_pt u p).
Proof. destruct p as [x y]. unfold apply_pt, compose_after. simpl. f_equal; ring. Qed.

Lemma apply_compose t u s : apply (compose_after t u) s = apply t (apply u s).
Proof. unfold apply. rewrite map_map. apply map_ext. intros p. apply apply_pt_compose. Qed.

Lemma apply_id s : apply id_aff s = s.
Proof.
  unfold apply. rewrite <- (map_id s) at 2. apply map_ext. intros [x y]. unfold apply_pt, id_aff. simpl. f_equal; ring.
Qed.

Lemma scale_1 : scale_aff 1 = id_aff.
Proof. reflexivity. Qed.

Lemma compose_id_l t : compose_after id_aff t = t.
Proof. apply aff_ext; simpl; ring. Qed.
Lemma compose_id_r t : compose_after t id_aff = t.
Proof. apply aff_ext; simpl; ring. Qed.
Lemma compose_assoc t u v : compose_after (compose_after t u) v = compose_after t (compose_after u v).
Proof. apply aff_ext; simpl; ring. Qed.

Lemma det_compose t u : det (compose_after t u) = det t * det u.
Proof. unfold det. simpl. ring. Qed.

Lemma det_id : det id_aff <> 0.
Proof. discriminate. Qed.

Lemma inverse_l t : det t <> 0 -> compose_after (inverse t) t = id_aff.
Proof.
  intros H. unfold det in H. apply aff_ext; unfold inverse, det; simpl; field; exact H.
Qed.
Lemma inverse_r t : det t <> 0 -> compose_after t (inverse t) = id_aff.
Proof.
  intros H. unfold det in H. apply aff_ext; unfold inverse, det; simpl; field; exact H.
Qed.

Lemma Qceqb_true a b : Qc_eq_bool a b = true <-> a = b.
Proof.
  split; [apply Qc_eq_bool_correct|]. intros ->. unfold Qc_eq_bool. destruct (Qc_eq_dec b b); congruence.
Qed.
Lemma Qceqb_false a b : Qc_eq_bool a b = false <-> a <> b.
Proof.
  rewrite <- Bool.not_true_iff_false, Qceqb_true. reflexivity.
Qed.

Lemma pseudoinverse_ok t u : pseudoinverse t = Ok u -> det t <> 0 /\ u = inverse t.
Proof.
  unfold pseudoinverse. destruct (Qc_eq_bool (det t) 0) eqn:E; [discriminate|].
  intros [= <-]. apply Qceqb_false in E. auto.
Qed.
Lemma pseudoinverse_det t : det t <> 0 -> pseudoinverse t = Ok (inverse t).
Proof. intros H. unfold pseudoinverse. apply Qceqb_false in H. rewrite H. reflexivity. Qed.

Lemma apply_inverse_r t s : det t <> 0 -> apply t (apply (inverse t) s) = s.
Proof. intros H. rewrite <- apply_compose, inverse_r by exact H. apply apply_id. Qed.
Lemma apply_inverse_l t s : det t <> 0 -> apply (inverse t) (apply t s) = s.
Proof. intros H. rewrite <- apply_compose, inverse_l by exact H. apply apply_id. Qed.

Lemma apply_length t s : length (apply t s) = length s.
Proof. apply map_length. Qed.

Lemma inverse_unique t u : det t <> 0 -> compose_after t u = id_aff -> u = inverse t.
Proof.
  intros H E. rewrite <- (compose_id_l u), <- (inverse_l t H), compose_assoc, E. apply compose_id_r.
Qed.
Lemma det_inverse t : det t <> 0 -> det (inverse t) <> 0.
Proof.
  intros H E. pose proof (inverse_r t H) as I. apply (f_equal det) in I. rewrite det_compose, E in I.
  rewrite Qcmult_comm in I. change (0 * det t) with (0 * det t) in I. replace (0 * det t) with 0 in I by ring.
  symmetry in I. revert I. apply det_id.
Qed.

From Coq Require Import String List Reals Bool Lra Lia.
From Verif.Model Require Import Py Noise.
From Verif.Spec Require Import Noise.
Import ListNotations.
Local Open Scope R_scope.

Lemma fold_max (f : pt -> R) r : forall m, m <= fold_left (fun m q => Rmax m (f q)) r m /\
  (forall q, In q r -> f q <= fold_left (fun m q => Rmax m (f q)) r m) /\
  (fold_left (fun m q => Rmax m (f q)) r m = m \/ exists q, In q r /\ f q = fold_left (fun m q => Rmax m (f q)) r m).
Proof.
  induction r as [|x r IH]; intros m; cbn [fold_left]; [split; [lra|split; [intros q []|now left]]|].
  destruct (IH (Rmax m (f x))) as [A [B C]]. pose proof (Rmax_l m (f x)). pose proof (Rmax_r m (f x)). split; [lra|]. split.
  - intros q [<-|Q]; [lra|auto].
  - destruct C as [C|[q [Q E]]]; [|right; exists q; split; [now right|exact E]].
    rewrite C. destruct (Rle_dec m (f x)) as [L|L]; [right; exists x; split; [now left|symmetry; apply Rmax_right; exact L]|left; apply Rmax_left; lra].
Qed.
Lemma fold_min (f : pt -> R) r : forall m, fold_left (fun m q => Rmin m (f q)) r m <= m /\
  (forall q, In q r -> fold_left (fun m q => Rmin m (f q)) r m <= f q) /\
  (fold_left (fun m q => Rmin m (f q)) r m = m \/ exists q, In q r /\ f q = fold_left (fun m q => Rmin m (f q)) r m).
Proof.
  induction r as [|x r IH]; intros m; cbn [fold_left]; [split; [lra|split; [intros q []|now left]]|].
  destruct (IH (Rmin m (f x))) as [A [B C]]. pose proof (Rmin_l m (f x)). pose proof (Rmin_r m (f x)). split; [lra|]. split.
  - intros q [<-|Q]; [lra|auto].
  - destruct C as [C|[q [Q E]]]; [|right; exists q; split; [now right|exact E]].
    rewrite C. destruct (Rle_dec m (f x)) as [L|L]; [left; apply Rmin_left; exact L|right; exists x; split; [now left|symmetry; apply Rmin_right; lra]].
Qed.
Lemma extent_spec (f : pt -> R) l : l <> [] -> (forall p q, In p l -> In q l -> f p - f q <= extent f l) /\ exists p q, In p l /\ In q l /\ f p - f q = extent f l.
Proof.
  destruct l as [|x r]; [congruence|]. intros _. unfold extent. destruct (fold_max f r (f x)) as [A [B C]]. destruct (fold_min f r (f x)) as [A' [B' C']].
  split.
  - intros p q P Q. assert (f p <= fold_left (fun m q => Rmax m (f q)) r (f x)) by (destruct P as [<-|P]; auto).
    assert (fold_left (fun m q => Rmin m (f q)) r (f x) <= f q) by (destruct Q as [<-|Q]; auto). lra.
  - assert (X : exists p, In p (x :: r) /\ f p = fold_left (fun m q => Rmax m (f q)) r (f x)).
    { destruct C as [C|[q [Q E]]]; [exists x; split; [now left|auto]|exists q; split; [now right|exact E]]. }
    assert (Y : exists p, In p (x :: r) /\ f p = fold_left (fun m q => Rmin m (f q)) r (f x)).
    { destruct C' as [C'|[q [Q E]]]; [exists x; split; [now left|auto]|exists q; split; [now right|exact E]]. }
    destruct X as [p [P EP]]. destruct Y as [q [Q EQ]]. exists p, q. split; [exact P|]. split; [exact Q|]. lra.
Qed.
Lemma range_spec l : l <> [] -> has_range l (fst (range l)) (snd (range l)).
Proof.
  intros N. destruct (extent_spec fst l N) as [A B]. destruct (extent_spec snd l N) as [C D]. split; [|split; [exact B|exact D]].
  intros p q P Q. cbn. split; auto.
Qed.
Lemma has_range_unique l h w h' w' : has_range l h w -> has_range l h' w' -> h = h' /\ w = w'.
Proof.
  intros [A [[p [q [P [Q E]]]] [p2 [q2 [P2 [Q2 E2]]]]]] [A' [[p' [q' [P' [Q' E']]]] [p2' [q2' [P2' [Q2' E2']]]]]].
  pose proof (A p' q' P' Q'). pose proof (A' p q P Q). pose proof (A p2' q2' P2' Q2'). pose proof (A' p2 q2 P2 Q2). lra.
Qed.
Lemma pt_eq (p q : pt) : fst p = fst q -> snd p = snd q -> p = q.
Proof. destruct p, q; cbn. intros -> ->. reflexivity. Qed.
Lemma rotate_zero c p : rotate_about c 0 p = p.
Proof. unfold rotate_about. rewrite Rmult_0_l, cos_0, sin_0. apply pt_eq; cbn; lra. Qed.
Lemma scale_one c p : scale_about c 1 p = p.
Proof. unfold scale_about. apply pt_eq; cbn; lra. Qed.
Lemma unit_draw u : 0 <= u < 1 -> Rabs (2 * u - 1) <= 1.
Proof. intros H. apply Rabs_le. lra. Qed.
Lemma abs_mul_le a u : Rabs u <= 1 -> Rabs (a * u) <= Rabs a.
Proof. intros H. rewrite Rabs_mult. rewrite <- (Rmult_1_r (Rabs a)) at 2. apply Rmult_le_compat_l; [apply Rabs_pos|exact H]. Qed.
Lemma means_pct l p0 p1 p2 : l = [p0; p1; p2] -> pct l 0 = Ok p0 /\ pct l 1 = Ok p1 /\ pct l 2 = Ok p2.
Proof. intros ->. auto. Qed.

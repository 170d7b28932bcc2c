From Coq Require Import String List Arith Lia Reals.
From Verif.Model Require Import Py ErrorR Face.
From Verif.Spec Require Import Face.
Import ListNotations.
Local Open Scope nat_scope.

Lemma selects_fun {A} (s : list A) : forall ns t t', selects ns s t -> selects ns s t' -> t = t'.
Proof.
  induction ns as [|n ns IH]; intros t t' H H'; inversion H; inversion H'; subst; [reflexivity|]. f_equal; [congruence|]. apply IH; assumption.
Qed.
Lemma selects_nth {A} (s : list A) ns t : selects ns s t -> forall i, nth_error t i = match nth_error ns i with Some n => nth_error s n | None => None end.
Proof.
  induction 1 as [|n p ns t Hn H IH]; intros [|i]; try reflexivity; cbn [nth_error]; [congruence|apply IH].
Qed.
Lemma selects_length {A} (s : list A) ns t : selects ns s t -> length t = length ns.
Proof. induction 1; cbn [length]; congruence. Qed.
(** Any list of valid numbers selects something, and the result is given by [nth]. *)
Lemma selects_map {A} (d : A) s ns t : selects ns s t -> t = map (fun i => nth i s d) ns.
Proof. induction 1 as [|n p ns t Hn H IH]; [reflexivity|]. cbn [map]. f_equal; [symmetry; apply nth_error_nth, Hn|exact IH]. Qed.
Lemma selects_nths {A} (d : A) s ns : Forall (fun i => i < length s) ns -> selects ns s (map (fun i => nth i s d) ns).
Proof. induction 1 as [|n ns Hn H IH]; constructor; [apply nth_error_nth', Hn|exact IH]. Qed.
Lemma self_map {A} (d : A) s : s = map (fun i => nth i s d) (seq 0 (length s)).
Proof.
  induction s as [|x s IH]; [reflexivity|]. cbn [length seq map]. f_equal. rewrite <- seq_shift, map_map. exact IH.
Qed.

Lemma np_delete_map {A B} (f : A -> B) i l : np_delete i (map f l) = match np_delete i l with Ok x => Ok (map f x) | Err e => Err e end.
Proof.
  unfold np_delete. rewrite map_length. destruct (i <? length l); [|reflexivity]. rewrite map_app, firstn_map, skipn_map. reflexivity.
Qed.
Lemma skipn_map' {A B} (f : A -> B) n l : skipn n (map f l) = map f (skipn n l). Proof. symmetry. rewrite skipn_map. reflexivity. Qed.

(** A conversion of a shape is the conversion of its numbering. *)
Lemma convert_68_to_49_map {A B} (f : A -> B) l : convert_68_to_49 (map f l) = match convert_68_to_49 l with Ok x => Ok (map f x) | Err e => Err e end.
Proof.
  unfold convert_68_to_49. rewrite np_delete_map. destruct (np_delete 64 l); [|reflexivity]. cbn [bind]. rewrite np_delete_map.
  destruct (np_delete 60 a); [|reflexivity]. cbn [bind]. rewrite skipn_map'. reflexivity.
Qed.
Lemma convert_51_to_49_map {A B} (f : A -> B) l : convert_51_to_49 (map f l) = match convert_51_to_49 l with Ok x => Ok (map f x) | Err e => Err e end.
Proof.
  unfold convert_51_to_49. rewrite np_delete_map. destruct (np_delete 47 l); [|reflexivity]. cbn [bind]. rewrite np_delete_map.
  destruct (np_delete 43 a); reflexivity.
Qed.

Lemma number_facts : convert_68_to_49 (seq 0 68) = Ok face_49 /\ skipn 17 (seq 0 68) = face_without_jaw /\
  skipn 17 all_but_inner_corners = face_49 /\ convert_51_to_49 face_without_jaw = Ok face_49 /\
  length all_but_inner_corners = 66 /\ length face_without_jaw = 51 /\ length face_49 = 49.
Proof. do 6 (split; [vm_compute; reflexivity|]). vm_compute; reflexivity. Qed.

Lemma convert_68_to_49_eq {A} (d : A) s : length s = 68 -> convert_68_to_49 s = Ok (map (fun i => nth i s d) face_49).
Proof.
  intros H. rewrite (self_map d s) at 1. rewrite H, convert_68_to_49_map.
  rewrite (proj1 number_facts). reflexivity.
Qed.
Lemma convert_68_to_51_eq {A} (d : A) s : length s = 68 -> convert_68_to_51 s = Ok (map (fun i => nth i s d) face_without_jaw).
Proof.
  intros H. rewrite (self_map d s) at 1. rewrite H. unfold convert_68_to_51. rewrite skipn_map', (proj1 (proj2 number_facts)). reflexivity.
Qed.
Lemma convert_66_to_49_eq {A} (d : A) s : convert_66_to_49 (map (fun i => nth i s d) all_but_inner_corners) = Ok (map (fun i => nth i s d) face_49).
Proof. unfold convert_66_to_49. rewrite skipn_map', (proj1 (proj2 (proj2 number_facts))). reflexivity. Qed.
Lemma convert_51_to_49_eq {A} (d : A) s : convert_51_to_49 (map (fun i => nth i s d) face_without_jaw) = Ok (map (fun i => nth i s d) face_49).
Proof. rewrite convert_51_to_49_map, (proj1 (proj2 (proj2 (proj2 number_facts)))). reflexivity. Qed.

Lemma forall_numbers (n : nat) (P : nat -> bool) l : forallb P l = true -> (forall i, P i = true -> i < n) -> Forall (fun i => i < n) l.
Proof. intros H HP. apply Forall_forall. intros i Hi. rewrite forallb_forall in H. apply HP, H, Hi. Qed.
Lemma numbers_valid : Forall (fun i => i < 68) face_49 /\ Forall (fun i => i < 68) face_without_jaw /\ Forall (fun i => i < 68) all_but_inner_corners.
Proof. repeat split; apply (forall_numbers 68 (fun i => i <? 68)); try (vm_compute; reflexivity); intros; apply Nat.ltb_lt; assumption. Qed.

(** Every layout is reduced to the same 49 points. *)
Lemma to_49_annotation {A} (d : A) s s' : annotation_of s s' -> to_49 s' = Ok (map (fun i => nth i s d) face_49) /\ allowed [68; 66; 51; 49] s' = true.
Proof.
  destruct number_facts as (_ & _ & _ & _ & L66 & L51 & L49).
  intros [H [->|[Hs|[Hs|Hs]]]]; unfold to_49, allowed.
  - rewrite H. split; [apply convert_68_to_49_eq, H|reflexivity].
  - rewrite (selects_map d s _ _ Hs), map_length. rewrite L66. split; [apply convert_66_to_49_eq|reflexivity].
  - rewrite (selects_map d s _ _ Hs), map_length. rewrite L51. split; [apply convert_51_to_49_eq|reflexivity].
  - rewrite (selects_map d s _ _ Hs), map_length. rewrite L49. split; reflexivity.
Qed.

(** Indexing commutes with taking the layout. *)
Lemma take_mapped (s : list (R * R)) ns idx : Forall (fun i => i < length ns) idx -> Forall (fun i => i < length s) ns ->
  take idx (map (fun i => nth i s (0%R, 0%R)) ns) = take (map (fun j => nth j ns 0) idx) s.
Proof.
  intros H Hn. unfold take. induction idx as [|i idx IH]; [reflexivity|]. inversion H; subst. cbn [mapM map].
  rewrite nth_error_map, (nth_error_nth' _ 0) by assumption. cbn [option_map].
  assert (Hi : nth i ns 0 < length s) by (rewrite Forall_forall in Hn; apply Hn, nth_In; assumption).
  rewrite (nth_error_nth' s (0%R, 0%R) Hi). cbn [bind]. rewrite IH by assumption. reflexivity.
Qed.

(** C21, C22: facial landmark layouts and the errors computed on them. *)
From Coq Require Import String List Arith Bool Lia Reals Lra.
From Verif.Model Require Import Py ErrorR Face.
From Verif.Spec Require Import Face.
From Verif.Proofs Require Import Face.
From Verif.Proofs Require ErrorR.
Import ListNotations.
Local Open Scope nat_scope.

(** ** C21 *)
(** Going through 51 points gives the same 49 points; exactly the jaw and the inner mouth corners are dropped and
    the other points keep their order. *)
Theorem c21_conversions : forall (A : Type) (s : list A), length s = 68 ->
  exists t51 t49, convert_68_to_51 s = Ok t51 /\ convert_51_to_49 t51 = Ok t49 /\ convert_68_to_49 s = Ok t49 /\
    selects face_without_jaw s t51 /\ selects face_49 s t49 /\
    length t51 = 51 /\ length t49 = 49 /\
    (forall i, In i face_49 <-> 17 <= i < 68 /\ i <> 60 /\ i <> 64) /\
    (forall i j a b, nth_error face_49 i = Some a -> nth_error face_49 j = Some b -> i < j -> a < b).
Proof.
  intros A s H. assert (d : A) by (destruct s as [|d s]; [discriminate|exact d]).
  destruct number_facts as (_ & _ & _ & _ & L66 & L51 & L49). destruct numbers_valid as (V49 & V51 & _).
  exists (map (fun i => nth i s d) face_without_jaw), (map (fun i => nth i s d) face_49).
  split; [apply convert_68_to_51_eq, H|]. split; [apply convert_51_to_49_eq|]. split; [apply convert_68_to_49_eq, H|].
  split; [apply selects_nths; rewrite H; exact V51|]. split; [apply selects_nths; rewrite H; exact V49|].
  rewrite !map_length. split; [exact L51|]. split; [exact L49|]. split.
  - intros i. unfold face_49. rewrite filter_In, in_seq. unfold inner_mouth_corner.
    destruct (Nat.eqb_spec i 60), (Nat.eqb_spec i 64); cbn [orb negb]; split; intros Hi; intuition (try discriminate; try lia).
  - assert (HS : forall n a i j x y, nth_error (filter (fun i => negb (inner_mouth_corner i)) (seq a n)) i = Some x ->
      nth_error (filter (fun i => negb (inner_mouth_corner i)) (seq a n)) j = Some y -> i < j -> x < y).
    { induction n as [|n IH]; intros a i j x y Hi Hj Hij; [destruct i; discriminate|]. cbn [seq filter] in Hi, Hj.
      destruct (negb (inner_mouth_corner a)); [|eapply IH; eassumption].
      destruct j as [|j]; [lia|]. destruct i as [|i].
      - cbn in Hi, Hj. apply nth_error_In, filter_In in Hj. destruct Hj as [Hj _]. apply in_seq in Hj. assert (a = x) by congruence. lia.
      - cbn in Hi, Hj. apply (IH (S a) i j); [assumption|assumption|lia]. }
    intros i j a b. apply HS.
Qed.
Print Assumptions c21_conversions.

(** Starting from 66 points (no inner mouth corners) the same 49 points are reached; 49 points are left alone. *)
Theorem c21_all_layouts : forall (A : Type) (s s' : list A), annotation_of s s' ->
  exists t, to_49 s' = Ok t /\ selects face_49 s t.
Proof.
  intros A s s' H. assert (d : A) by (destruct H as [H _]; destruct s as [|d s]; [discriminate|exact d]).
  exists (map (fun i => nth i s d) face_49). split; [apply (to_49_annotation d s s' H)|]. destruct H as [H _].
  apply selects_nths. rewrite H. exact (proj1 numbers_valid).
Qed.
Print Assumptions c21_all_layouts.

Example c21_example : exists t, convert_68_to_49 (seq 0 68) = Ok t /\ nth_error t 42 = Some 59 /\ nth_error t 43 = Some 61 /\
  nth_error t 45 = Some 63 /\ nth_error t 46 = Some 65.
Proof. eexists. split; [vm_compute; reflexivity|]. repeat split. Qed.

(** ** C22 *)
(** Numbers 36 and 45 of 68 points, and 19 and 28 of 51 or 49 points, are the same points. *)
Theorem c22_corners : forall (A : Type) (s t51 t49 : list A), length s = 68 ->
  selects face_without_jaw s t51 -> selects face_49 s t49 ->
  nth_error t51 19 = nth_error s 36 /\ nth_error t51 28 = nth_error s 45 /\
  nth_error t49 19 = nth_error s 36 /\ nth_error t49 28 = nth_error s 45.
Proof.
  intros A s t51 t49 _ H51 H49. rewrite !(selects_nth _ _ _ H51), !(selects_nth _ _ _ H49). repeat split.
Qed.
Print Assumptions c22_corners.

(** So every error normalised by the outer eye corners divides by the distance of points 36 and 45 of the ground
    truth, whichever layouts the two shapes are given in; the 49-point error does not depend on the layouts. *)
Theorem c22_outer_eye_errors : forall (s g s' g' s49 g49 : list (R * R)),
  annotation_of s s' -> annotation_of g g' -> selects face_49 s s49 -> selects face_49 g g49 ->
  exists e n, euclidean_error s49 g49 = Ok e /\ distance_two_indices 36 45 g = Ok n /\
    outer_eye_corner_49_error s' g' = Ok (e / n)%R /\
    (exists e68, euclidean_error s g = Ok e68 /\ outer_eye_corner_68_error s g = Ok (e68 / n)%R) /\
    (forall s51 g51, selects face_without_jaw s s51 -> selects face_without_jaw g g51 ->
       exists e51, euclidean_error s51 g51 = Ok e51 /\
         outer_eye_corner_51_error s51 g51 = Ok (e51 / n)%R /\ outer_eye_corner_51_error s g51 = Ok (e51 / n)%R /\
         outer_eye_corner_51_error s51 g = Ok (e51 / n)%R /\ outer_eye_corner_51_error s g = Ok (e51 / n)%R).
Proof.
  intros s g s' g' s49 g49 Hs Hg Hs49 Hg49.
  destruct (to_49_annotation (0%R, 0%R) s s' Hs) as [Es As]. destruct (to_49_annotation (0%R, 0%R) g g' Hg) as [Eg Ag].
  rewrite <- (selects_map _ _ _ _ Hs49) in Es. rewrite <- (selects_map _ _ _ _ Hg49) in Eg.
  destruct Hs as [Ls _]. destruct Hg as [Lg _].
  assert (ED : forall a b : list (R * R), length a = length b -> exists e, euclidean_error a b = Ok e).
  { intros a b Hab. eexists. apply (ErrorR.euclidean_sum a b Hab). }
  destruct (ED s49 g49) as [e He]; [rewrite (selects_length _ _ _ Hs49), (selects_length _ _ _ Hg49); reflexivity|].
  destruct (nth_error g 36) as [p|] eqn:Ep; [|apply nth_error_None in Ep; lia].
  destruct (nth_error g 45) as [q|] eqn:Eq; [|apply nth_error_None in Eq; lia].
  exists e, (pnorm (psub p q)). split; [exact He|]. split; [unfold distance_two_indices; rewrite Ep, Eq; reflexivity|]. split; [|split].
  - unfold outer_eye_corner_49_error. rewrite As, Ag, Es, Eg. cbn [negb bind]. unfold distance_indexed_normalised_error, distance_two_indices.
    rewrite He. rewrite !(selects_nth _ _ _ Hg49). change (nth_error face_49 19) with (Some 36). change (nth_error face_49 28) with (Some 45).
    cbn iota. rewrite Ep, Eq. reflexivity.
  - destruct (ED s g) as [e68 He68]; [congruence|]. exists e68. split; [exact He68|]. unfold outer_eye_corner_68_error. rewrite Ls, Lg, Nat.eqb_refl. cbn [negb].
    unfold distance_indexed_normalised_error, distance_two_indices. rewrite He68, Ep, Eq. reflexivity.
  - intros s51 g51 Hs51 Hg51. destruct number_facts as (_ & _ & _ & _ & L66 & L51 & L49).
    pose proof (selects_length _ _ _ Hs51) as Ks. pose proof (selects_length _ _ _ Hg51) as Kg. rewrite L51 in Ks, Kg.
    destruct (ED s51 g51) as [e51 He51]; [congruence|]. exists e51. split; [exact He51|].
    assert (C1 : to_51 s = Ok s51).
    { unfold to_51. rewrite Ls, Nat.eqb_refl, (convert_68_to_51_eq (0%R, 0%R) s Ls), (selects_map (0%R, 0%R) _ _ _ Hs51). reflexivity. }
    assert (C2 : to_51 g = Ok g51).
    { unfold to_51. rewrite Lg, Nat.eqb_refl, (convert_68_to_51_eq (0%R, 0%R) g Lg), (selects_map (0%R, 0%R) _ _ _ Hg51). reflexivity. }
    assert (C3 : to_51 s51 = Ok s51) by (unfold to_51; rewrite Ks; reflexivity).
    assert (C4 : to_51 g51 = Ok g51) by (unfold to_51; rewrite Kg; reflexivity).
    assert (F : distance_indexed_normalised_error euclidean_error 19 28 s51 g51 = Ok (e51 / pnorm (psub p q))%R).
    { unfold distance_indexed_normalised_error, distance_two_indices.
      rewrite He51. rewrite !(selects_nth _ _ _ Hg51). change (nth_error face_without_jaw 19) with (Some 36). change (nth_error face_without_jaw 28) with (Some 45).
      cbn iota. rewrite Ep, Eq. reflexivity. }
    unfold outer_eye_corner_51_error, allowed. rewrite ?Ls, ?Lg, ?Ks, ?Kg, ?C1, ?C2, ?C3, ?C4. cbn [existsb Nat.eqb orb negb bind]. rewrite F. repeat split.
Qed.
Print Assumptions c22_outer_eye_errors.

(** The mean pupil and bounding box errors on 49 points do not depend on the layouts either.  [left49], [right49]
    and [left68], [right68] are menpo's eye index groups; the 49-point groups name the same points. *)
Theorem c22_other_errors : forall left49 right49 (s g s' g' s49 g49 : list (R * R)),
  Forall (fun i => i < 49) left49 -> Forall (fun i => i < 49) right49 ->
  annotation_of s s' -> annotation_of g g' -> selects face_49 s s49 -> selects face_49 g g49 ->
  exists e l r, euclidean_error s49 g49 = Ok e /\
    selects (map (fun i => nth i face_49 0) left49) g l /\ selects (map (fun i => nth i face_49 0) right49) g r /\
    mean_pupil_49_error left49 right49 s' g' = Ok (e / centre_distance l r)%R /\
    (forall left68 right68, left68 = map (fun i => nth i face_49 0) left49 -> right68 = map (fun i => nth i face_49 0) right49 ->
       exists e68, euclidean_error s g = Ok e68 /\
         mean_pupil_68_error left68 right68 s g = Ok (e68 / centre_distance l r)%R) /\
    bb_avg_edge_length_49_error s' g = Ok (e / bb_avg_edge_length g)%R /\
    (exists e68, euclidean_error s g = Ok e68 /\ bb_avg_edge_length_68_error s g = Ok (e68 / bb_avg_edge_length g)%R).
Proof.
  intros left49 right49 s g s' g' s49 g49 HL HR Hs Hg Hs49 Hg49.
  destruct (to_49_annotation (0%R, 0%R) s s' Hs) as [Es As]. destruct (to_49_annotation (0%R, 0%R) g g' Hg) as [Eg Ag].
  rewrite <- (selects_map _ _ _ _ Hs49) in Es. rewrite <- (selects_map _ _ _ _ Hg49) in Eg.
  destruct Hs as [Ls _]. destruct Hg as [Lg _]. destruct number_facts as (_ & _ & _ & _ & _ & _ & L49). destruct numbers_valid as (V49 & _ & _).
  destruct (euclidean_error s49 g49) as [e|] eqn:He.
  2: { rewrite (ErrorR.euclidean_sum s49 g49) in He; [discriminate|]. rewrite (selects_length _ _ _ Hs49), (selects_length _ _ _ Hg49); reflexivity. }
  destruct (euclidean_error s g) as [e68|] eqn:He68; [|rewrite (ErrorR.euclidean_sum s g) in He68; [discriminate|congruence]].
  assert (TK : forall idx, Forall (fun i => i < 49) idx -> exists l, selects (map (fun i => nth i face_49 0) idx) g l /\
    take idx g49 = Ok l /\ take (map (fun i => nth i face_49 0) idx) g = Ok l).
  { intros idx Hidx.
    assert (Hv : Forall (fun i => i < length g) (map (fun i => nth i face_49 0) idx)).
    { apply Forall_forall. intros x Hx. apply in_map_iff in Hx. destruct Hx as (i & <- & Hi). rewrite Forall_forall in Hidx, V49.
      rewrite Lg. apply V49, nth_In. rewrite L49. apply Hidx, Hi. }
    pose proof (selects_nths (0%R, 0%R) g _ Hv) as Hsel. eexists. split; [exact Hsel|].
    assert (T2 : forall ns l, selects ns g l -> take ns g = Ok l).
    { clear. induction 1 as [|n p ns l Hn H IH]; [reflexivity|]. unfold take in *. cbn [mapM]. rewrite Hn. cbn [bind]. rewrite IH. reflexivity. }
    split; [|apply T2, Hsel]. rewrite (selects_map (0%R, 0%R) _ _ _ Hg49), take_mapped; [apply T2, Hsel|rewrite L49; exact Hidx|rewrite Lg; exact V49]. }
  destruct (TK left49 HL) as (l & Sl & Tl & Tl68). destruct (TK right49 HR) as (r & Sr & Tr & Tr68).
  exists e, l, r. split; [reflexivity|]. split; [exact Sl|]. split; [exact Sr|]. split; [|split; [|split]].
  - unfold mean_pupil_49_error. rewrite As, Ag, Es, Eg. cbn [negb bind]. unfold distance_normalised_error, pupil_dist. rewrite He, Tl, Tr. reflexivity.
  - intros l68 r68 -> ->. exists e68. split; [reflexivity|]. unfold mean_pupil_68_error. rewrite Ls, Lg, Nat.eqb_refl. cbn [negb].
    unfold distance_normalised_error, pupil_dist. rewrite He68, Tl68, Tr68. reflexivity.
  - unfold bb_avg_edge_length_49_error. rewrite As, Es, Lg, Nat.eqb_refl. cbn [negb bind].
    rewrite (convert_68_to_49_eq (0%R, 0%R) g Lg), <- (selects_map _ _ _ _ Hg49). cbn [bind]. unfold bb_normalised_error.
    change (bb_norm_types "avg_edge_length") with (Some bb_avg_edge_length). cbn iota. rewrite He. cbn [bind]. destruct g; [discriminate|reflexivity].
  - exists e68. split; [reflexivity|]. unfold bb_avg_edge_length_68_error. rewrite Ls, Lg, Nat.eqb_refl. cbn [negb]. unfold bb_normalised_error.
    change (bb_norm_types "avg_edge_length") with (Some bb_avg_edge_length). cbn iota. rewrite He68. cbn [bind]. destruct g; [discriminate|reflexivity].
Qed.
Print Assumptions c22_other_errors.

(** Any other number of points is rejected. *)
Theorem c22_wrong_sizes : forall left49 right49 left68 right68 (s g : list (R * R)),
  (length s <> 68 \/ length g <> 68 -> outer_eye_corner_68_error s g = Err ValueError /\
     mean_pupil_68_error left68 right68 s g = Err ValueError /\ bb_avg_edge_length_68_error s g = Err ValueError) /\
  (~ In (length s) [68; 51] \/ ~ In (length g) [68; 51] -> outer_eye_corner_51_error s g = Err ValueError) /\
  (~ In (length s) [68; 66; 51; 49] \/ ~ In (length g) [68; 66; 51; 49] -> outer_eye_corner_49_error s g = Err ValueError /\
     mean_pupil_49_error left49 right49 s g = Err ValueError) /\
  (~ In (length s) [68; 66; 51; 49] \/ length g <> 68 -> bb_avg_edge_length_49_error s g = Err ValueError).
Proof.
  intros l49 r49 l68 r68 s g.
  assert (B : forall ns (x : list (R * R)), ~ In (length x) ns -> allowed ns x = false).
  { intros ns x H. unfold allowed. destruct (existsb (Nat.eqb (length x)) ns) eqn:E; [|reflexivity]. apply existsb_exists in E.
    destruct E as (n & Hn & En). apply Nat.eqb_eq in En. subst n. contradiction. }
  split; [|split; [|split]].
  - intros H. assert (E : (length s =? 68) = false \/ (length g =? 68) = false) by (destruct H as [H|H]; apply Nat.eqb_neq in H; auto).
    unfold outer_eye_corner_68_error, mean_pupil_68_error, bb_avg_edge_length_68_error.
    destruct E as [E|E]; rewrite E; destruct (length s =? 68); auto.
  - intros H. assert (E : allowed [68; 51] s = false \/ allowed [68; 51] g = false) by (destruct H as [H|H]; apply B in H; auto).
    unfold outer_eye_corner_51_error. destruct E as [E|E]; rewrite E; destruct (allowed [68; 51] s); auto.
  - intros H. assert (E : allowed [68; 66; 51; 49] s = false \/ allowed [68; 66; 51; 49] g = false) by (destruct H as [H|H]; apply B in H; auto).
    unfold outer_eye_corner_49_error, mean_pupil_49_error. destruct E as [E|E]; rewrite E; destruct (allowed [68; 66; 51; 49] s); auto.
  - intros H. assert (E : allowed [68; 66; 51; 49] s = false \/ (length g =? 68) = false) by (destruct H as [H|H]; [apply B in H|apply Nat.eqb_neq in H]; auto).
    unfold bb_avg_edge_length_49_error. destruct E as [E|E]; rewrite E; destruct (allowed [68; 66; 51; 49] s); auto.
Qed.
Print Assumptions c22_wrong_sizes.

(** The premises are met, for instance by the points (i, 0) and their 66-point annotation. *)
Example c22_example : let s := map (fun i => (INR i, 0%R)) (seq 0 68) in
  exists s', annotation_of s s' /\ length s' = 66 /\ (exists s49, selects face_49 s s49) /\
    exists e, outer_eye_corner_49_error s' s = Ok e.
Proof.
  intros s. assert (Ls : length s = 68) by (unfold s; rewrite map_length; apply seq_length).
  exists (map (fun i => nth i s (0%R, 0%R)) all_but_inner_corners). destruct numbers_valid as (V49 & _ & V66). rewrite <- Ls in V49, V66.
  assert (HA : annotation_of s (map (fun i => nth i s (0%R, 0%R)) all_but_inner_corners)).
  { split; [exact Ls|]. right. left. apply selects_nths, V66. }
  split; [exact HA|]. split; [rewrite map_length; vm_compute; reflexivity|].
  split; [eexists; apply (selects_nths (0%R, 0%R)), V49|].
  destruct (c22_outer_eye_errors s s _ s _ _ HA (conj Ls (or_introl eq_refl)) (selects_nths (0%R, 0%R) _ _ V49) (selects_nths (0%R, 0%R) _ _ V49))
    as (e & n & _ & _ & E & _). eauto.
Qed.

(** C116: the noise of an alignment target is in proportion to the object; a deviation per point cannot be given. *)
From Coq Require Import List Arith Reals Lra Lia.
From Verif.Model Require Import Py Preprocess NoisyTarget.
From Verif.Spec Require Import Preprocess.
From Verif.Props Require Import Preprocess.
Import ListNotations.
Local Open Scope R_scope.

Lemma add_noise_nth f d : forall pts k i p, nth_error pts i = Some p ->
  nth_error (add_noise f d k pts) i = Some (fst p + fst f * fst (d (k + i)%nat), snd p + snd f * snd (d (k + i)%nat)).
Proof.
  induction pts as [|q pts IH]; intros k [|i] p H; try discriminate; cbn [nth_error add_noise] in *.
  - injection H as ->. now rewrite Nat.add_0_r.
  - rewrite (IH (S k) i p H). now rewrite Nat.add_succ_r.
Qed.
Lemma add_noise_length f d : forall pts k, length (add_noise f d k pts) = length pts.
Proof. induction pts as [|q pts IH]; intros k; cbn; [reflexivity|]. now rewrite IH. Qed.
Lemma add_noise_zero f d : fst f = 0 -> snd f = 0 -> forall pts k, add_noise f d k pts = pts.
Proof.
  intros A B. induction pts as [|[y x] pts IH]; intros k; cbn [add_noise]; [reflexivity|]. rewrite IH, A, B. cbn. f_equal. f_equal; ring.
Qed.
Lemma range_of_spans pts y0 y1 x0 x1 : spans (map fst pts) y0 y1 -> spans (map snd pts) x0 x1 -> range_of pts = Ok (y1 - y0, x1 - x0).
Proof.
  intros SY SX. destruct pts as [|p r]; [destruct SY as [[] _]|]. cbn [range_of].
  destruct (spans_eq _ _ _ _ _ SY (spans_of (fst p) (map fst r))) as [<- <-].
  now destruct (spans_eq _ _ _ _ _ SX (spans_of (snd p) (map snd r))) as [<- <-].
Qed.

Section C116.
  Context {T : Type}.
  Variable align : list (R * R) -> list (R * R) -> res T.
  Notation noisy := (noisy_target_alignment_transform align).

  (** With one deviation the source is aligned to a target with the same number of points, each of them moved by its own
      draws, in units of the deviation times the height and the width of the target.  No noise: the plain alignment. *)
  Theorem c116_proportional source target s draws y0 y1 x0 x1 : spans (map fst target) y0 y1 -> spans (map snd target) x0 x1 ->
    exists target', noisy source target (OneStd s) draws = align source target' /\ length target' = length target /\
      (forall i y x, nth_error target i = Some (y, x) ->
         nth_error target' i = Some (y + s * (y1 - y0) * fst (draws i), x + s * (x1 - x0) * snd (draws i))) /\
      (s = 0 -> target' = target).
  Proof.
    intros SY SX. unfold noisy_target_alignment_transform. rewrite (range_of_spans _ _ _ _ _ SY SX). cbn [bind times_range fst snd].
    eexists. split; [reflexivity|]. split; [apply add_noise_length|]. split.
    - intros i y x H. now rewrite (add_noise_nth _ _ _ 0%nat _ _ H).
    - intros ->. apply add_noise_zero; cbn; ring.
  Qed.
  (** Documented: "If list, then it must define a value per point".  Such a list always raises for three points or more,
      whatever the alignment. *)
  Theorem c116_per_point_refuted source target l draws : (3 <= length target)%nat -> length l = length target ->
    noisy source target (ListStd l) draws = Err ValueError.
  Proof.
    intros N E. unfold noisy_target_alignment_transform. destruct target as [|p r]; [cbn in N; lia|].
    destruct l as [|a [|b [|c l]]]; cbn [length] in *; try lia. reflexivity.
  Qed.
  (** For two points the values are taken for the axes: with the deviations 0 and 1 the first point, which should stay, moves
      along the columns, and the second keeps its row. *)
  Theorem c116_two_points_refuted source p q draws : fst p <= fst q -> snd p <= snd q ->
    noisy source [p; q] (ListStd [0; 1]) draws =
    align source [(fst p, snd p + (snd q - snd p) * snd (draws 0%nat)); (fst q, snd q + (snd q - snd p) * snd (draws 1%nat))].
  Proof.
    intros A B. unfold noisy_target_alignment_transform. rewrite (range_of_spans [p; q] (fst p) (fst q) (snd p) (snd q)).
    - cbn [bind times_range add_noise fst snd]. do 2 f_equal; [|f_equal]; f_equal; ring.
    - split; [cbn; tauto|split; [cbn; tauto|]]. cbn. intros z [<-|[<-|[]]]; lra.
    - split; [cbn; tauto|split; [cbn; tauto|]]. cbn. intros z [<-|[<-|[]]]; lra.
  Qed.
  (** What lists can be used for: a single value is the deviation of all points; two values are those of the rows and of the
      columns, for any number of points; all others raise. *)
  Theorem c116_lists source target l draws y0 y1 x0 x1 : spans (map fst target) y0 y1 -> spans (map snd target) x0 x1 ->
    match l with
    | [s] => noisy source target (ListStd l) draws = noisy source target (OneStd s) draws
    | [a; b] => exists target', noisy source target (ListStd l) draws = align source target' /\ length target' = length target /\
        forall i y x, nth_error target i = Some (y, x) ->
          nth_error target' i = Some (y + a * (y1 - y0) * fst (draws i), x + b * (x1 - x0) * snd (draws i))
    | _ => noisy source target (ListStd l) draws = Err ValueError
    end.
  Proof.
    intros SY SX. unfold noisy_target_alignment_transform. rewrite (range_of_spans _ _ _ _ _ SY SX).
    destruct l as [|a [|b [|c l]]]; try reflexivity. cbn [bind times_range fst snd].
    eexists. split; [reflexivity|]. split; [apply add_noise_length|].
    intros i y x H. now rewrite (add_noise_nth _ _ _ 0%nat _ _ H).
  Qed.
End C116.

(** A triangle, a deviation for each of its points; and its sides. *)
Example c116_ex : noisy_target_alignment_transform (fun _ t => Ok t) [] [(0, 0); (4, 0); (0, 2)] (ListStd [1; 1; 1]) (fun _ => (1, 1)) = Err ValueError /\
  spans (map fst [(0, 0); (4, 0); (0, 2)]) 0 4 /\ spans (map snd [(0, 0); (4, 0); (0, 2)]) 0 2 /\
  exists t, noisy_target_alignment_transform (fun _ t => Ok t) [] [(0, 0); (4, 0); (0, 2)] (OneStd 1) (fun _ => (1, 1)) = Ok t /\ nth_error t 1 = Some (8, 2).
Proof.
  assert (A : spans (map fst [(0, 0); (4, 0); (0, 2)]) 0 4) by (split; [cbn; tauto|split; [cbn; tauto|]]; cbn; intros x H; lra).
  assert (B : spans (map snd [(0, 0); (4, 0); (0, 2)]) 0 2) by (split; [cbn; tauto|split; [cbn; tauto|]]; cbn; intros x H; lra).
  split; [now apply c116_per_point_refuted|]. split; [exact A|]. split; [exact B|].
  destruct (c116_proportional (fun _ t => Ok t) [] _ 1 (fun _ => (1, 1)) _ _ _ _ A B) as (t & E & _ & H & _).
  exists t. split; [exact E|]. rewrite (H 1%nat 4 0 eq_refl). cbn. do 2 f_equal; lra.
Qed.

Print Assumptions c116_proportional.
Print Assumptions c116_per_point_refuted.
Print Assumptions c116_two_points_refuted.
Print Assumptions c116_lists.

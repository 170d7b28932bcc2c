(** C67: the landmark mean shift of the constrained local models. *)
From Coq Require Import List ZArith Reals Lia Lra.
From Verif.Model Require Import Py Base MeanShift.
From Verif.Spec Require Import Base MeanShift.
From Verif.Proofs Require MeanShift.
Import ListNotations.
Local Open Scope nat_scope.

(** ** C67 *)
(** Each landmark is displaced to the centre of mass of its response map, weighted by the kernel. *)
Theorem c67_centre_of_mass : forall kernel h w m target, window h w m -> window_sum h w (mass kernel h w m) <> 0%R ->
  mean_shift_error kernel (Z.of_nat h) (Z.of_nat w) m fst target = Ok (Some (mass_offset h w (mass kernel h w m))) /\
  mean_shift_error kernel (Z.of_nat h) (Z.of_nat w) m snd target = Ok (Some (mass_offset_x h w (mass kernel h w m))).
Proof. intros. split; [apply Proofs.MeanShift.mean_shift_y|apply Proofs.MeanShift.mean_shift_x]; auto. Qed.
Print Assumptions c67_centre_of_mass.
(** The displacement stays inside the search window. *)
Theorem c67_inside_window : forall kernel h w m target, window h w m ->
  (forall y x, (0 < kernel y x)%R) -> (forall i j, i < h -> j < w -> (0 <= entry 0%R m i j)%R) ->
  (exists i j, i < h /\ j < w /\ entry 0%R m i j <> 0%R) ->
  exists ey ex, mean_shift_error kernel (Z.of_nat h) (Z.of_nat w) m fst target = Ok (Some ey) /\
                mean_shift_error kernel (Z.of_nat h) (Z.of_nat w) m snd target = Ok (Some ex) /\
                (- INR (Nat.div2 h) <= ey <= INR h - 1 - INR (Nat.div2 h))%R /\
                (- INR (Nat.div2 w) <= ex <= INR w - 1 - INR (Nat.div2 w))%R.
Proof.
  intros kernel h w m target Hw K Hm [i [j [Hi [Hj N]]]].
  assert (M : forall i j, i < h -> j < w -> (0 <= mass kernel h w m i j)%R).
  { intros i' j' Hi' Hj'. unfold mass. apply Rmult_le_pos; auto. left; apply K. }
  assert (W : (0 < window_sum h w (mass kernel h w m))%R).
  { apply Rlt_le_trans with (mass kernel h w m i j); [|apply (Proofs.MeanShift.wsum_ge h w (mass kernel h w m)); auto].
    unfold mass. apply Rmult_lt_0_compat; [|apply K]. pose proof (Hm i j Hi Hj). lra. }
  destruct (c67_centre_of_mass kernel h w m target Hw ltac:(lra)) as [E1 E2].
  destruct (Proofs.MeanShift.mass_bounds h w _ M W) as [B1 B2]. eauto 10.
Qed.
Print Assumptions c67_inside_window.
(** A response that is zero everywhere but at one pixel moves the landmark exactly to that pixel. *)
Theorem c67_single_response : forall kernel h w m target i j, window h w m -> i < h -> j < w ->
  (forall y x, (0 < kernel y x)%R) -> entry 0%R m i j <> 0%R ->
  (forall i' j', i' < h -> j' < w -> (i', j') <> (i, j) -> entry 0%R m i' j' = 0%R) ->
  mean_shift_error kernel (Z.of_nat h) (Z.of_nat w) m fst target = Ok (Some (INR i - INR (Nat.div2 h))%R) /\
  mean_shift_error kernel (Z.of_nat h) (Z.of_nat w) m snd target = Ok (Some (INR j - INR (Nat.div2 w))%R).
Proof.
  intros kernel h w m target i j Hw Hi Hj K N Z.
  assert (M : mass kernel h w m i j <> 0%R).
  { unfold mass. apply Rmult_integral_contrapositive_currified; auto. apply Rgt_not_eq, K. }
  assert (ZZ : forall i' j', i' < h -> j' < w -> (i', j') <> (i, j) -> mass kernel h w m i' j' = 0%R).
  { intros. unfold mass. rewrite Z; auto. lra. }
  destruct (Proofs.MeanShift.mass_single h w _ i j Hi Hj M ZZ) as [E1 E2]. rewrite <- E1, <- E2.
  apply c67_centre_of_mass; auto. rewrite (Proofs.MeanShift.wsum_single h w _ i j); auto.
Qed.
Print Assumptions c67_single_response.
(** Only the relative size of the responses matters, and not where the landmark is. *)
Theorem c67_scale : forall kernel h w m coord target target' c, window h w m -> c <> 0%R ->
  mean_shift_error kernel (Z.of_nat h) (Z.of_nat w) (map (map (Rmult c)) m) coord target =
  mean_shift_error kernel (Z.of_nat h) (Z.of_nat w) m coord target'.
Proof.
  intros. rewrite Proofs.MeanShift.mean_shift_scale by auto. rewrite !Proofs.MeanShift.mean_shift_raw by auto. reflexivity.
Qed.
Print Assumptions c67_scale.
(** Responses and kernel that are the same at opposite pixels of a window with odd sides leave the landmark where it is.
    Missing: even sides, see the next theorem. *)
Theorem c67_symmetric_partial : forall kernel h w m target, window h w m -> Nat.odd h = true -> Nat.odd w = true ->
  (forall y x, kernel (- y)%Z (- x)%Z = kernel y x) ->
  (forall i j, i < h -> j < w -> entry 0%R m (h - 1 - i) (w - 1 - j) = entry 0%R m i j) ->
  window_sum h w (mass kernel h w m) <> 0%R ->
  mean_shift_error kernel (Z.of_nat h) (Z.of_nat w) m fst target = Ok (Some 0%R) /\
  mean_shift_error kernel (Z.of_nat h) (Z.of_nat w) m snd target = Ok (Some 0%R).
Proof.
  intros kernel h w m target Hw Oh Ow K S N.
  assert (M : forall i j, i < h -> j < w -> mass kernel h w m (h - 1 - i) (w - 1 - j) = mass kernel h w m i j).
  { intros i j Hi Hj. unfold mass. rewrite S by auto. f_equal. rewrite <- K.
    apply Proofs.MeanShift.odd_half in Oh. apply Proofs.MeanShift.odd_half in Ow. f_equal; lia. }
  destruct (Proofs.MeanShift.mass_centre h w _ Oh Ow M) as [E1 E2]. rewrite <- E1 at 1. rewrite <- E2.
  apply c67_centre_of_mass; auto.
Qed.
Print Assumptions c67_symmetric_partial.
(** Finding: with an even number of rows, any positive uniform response and any positive kernel that is symmetric in the rows
    move the landmark towards the first row: the window is not centred on the landmark. *)
Theorem c67_even_window_refuted : forall kernel h w c target, Nat.even h = true -> 0 < h -> 0 < w -> (0 < c)%R ->
  (forall y x, (0 < kernel y x)%R) -> (forall y x, kernel (- y)%Z x = kernel y x) ->
  exists e, mean_shift_error kernel (Z.of_nat h) (Z.of_nat w) (repeat (repeat c w) h) fst target = Ok (Some e) /\ (e < 0)%R.
Proof. exact Proofs.MeanShift.even_bias. Qed.
Print Assumptions c67_even_window_refuted.
(** Responses that sum to zero under the kernel (in particular: all zero) give not a number, and a map of another size
    raises. *)
Theorem c67_degenerate : forall kernel h w m coord target,
  (window h w m -> window_sum h w (mass kernel h w m) = 0%R ->
   mean_shift_error kernel (Z.of_nat h) (Z.of_nat w) m coord target = Ok None) /\
  (~ window h w m -> mean_shift_error kernel (Z.of_nat h) (Z.of_nat w) m coord target = Err ValueError).
Proof. intros; split; [apply Proofs.MeanShift.mean_shift_nan|apply Proofs.MeanShift.mean_shift_shape]. Qed.
Print Assumptions c67_degenerate.
(** The unified algorithms: responses that are not finite count as one half, so the displacement is a number inside the
    window unless every response is zero. *)
Theorem c67_unified : forall kernel h w (m : list (list (option R))) target, window h w m ->
  (forall y x, (0 < kernel y x)%R) ->
  (forall i j r, i < h -> j < w -> entry None m i j = Some r -> (0 <= r)%R) ->
  (exists i j, i < h /\ j < w /\ entry None m i j <> Some 0%R) ->
  exists e, unified_clm_error kernel (Z.of_nat h) (Z.of_nat w) m fst target = Ok (Some e) /\
            (- INR (Nat.div2 h) <= e <= INR h - 1 - INR (Nat.div2 h))%R.
Proof.
  intros kernel h w m target Hw K P [i [j [Hi [Hj N]]]]. unfold unified_clm_error.
  assert (E : forall i j, i < h -> j < w -> entry 0%R (map (map unified_clean) m) i j = unified_clean (entry None m i j)).
  { intros. apply Proofs.MeanShift.entry_map with (h := h) (w := w); auto. }
  destruct (c67_inside_window kernel h w (map (map unified_clean) m) target) as [ey [ex [H1 [H2 [H3 H4]]]]]; eauto.
  - apply Proofs.MeanShift.window_map; auto.
  - intros i' j' Hi' Hj'. rewrite E by auto. destruct (entry None m i' j') as [r|] eqn:Er; simpl; [|lra]. eauto.
  - exists i, j. do 2 (split; auto). rewrite E by auto. destruct (entry None m i j) as [r|]; simpl; [|lra].
    intros ->. apply N. reflexivity.
Qed.
Print Assumptions c67_unified.

(** A response map of 3 x 3 pixels with two positive entries, and a 2 x 2 window. *)
Example c67_example : let m := [[0; 0; 0]; [0; 1; 0]; [0; 0; 3]]%R in
  window 3 3 m /\ (forall i j, i < 3 -> j < 3 -> (0 <= entry 0%R m i j)%R) /\
  window_sum 3 3 (mass (fun _ _ => 1%R) 3 3 m) = 4%R /\
  mean_shift_error (fun _ _ => 1%R) 3 3 m fst 7 = Ok (Some (3 / 4)%R).
Proof.
  intros m. assert (W : window 3 3 m) by (split; [reflexivity|repeat constructor]).
  assert (S : window_sum 3 3 (mass (fun _ _ => 1%R) 3 3 m) = 4%R).
  { unfold window_sum, mass, m. cbn. lra. }
  split; [exact W|split; [|split; [exact S|]]].
  - intros i j Hi Hj. destruct i as [|[|[|i]]]; [| | |lia]; (destruct j as [|[|[|j]]]; [| | |lia]); unfold entry; cbn; lra.
  - assert (N : window_sum 3 3 (mass (fun _ _ => 1%R) 3 3 m) <> 0%R) by (rewrite S; lra).
    change 3%Z with (Z.of_nat 3). rewrite (proj1 (c67_centre_of_mass (fun _ _ => 1%R) 3 3 m 7 W N)).
    unfold mass_offset. rewrite S. do 2 f_equal. unfold window_sum, mass, m. cbn. lra.
Qed.

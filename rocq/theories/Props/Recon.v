(** C17: appearance reconstructions. *)
From Coq Require Import List Arith Lia.
From Verif.Model Require Import Py Recon.
From Verif.Spec Require Import Recon.
From Verif.Proofs Require Import Recon.
Import ListNotations.
Local Open Scope nat_scope.

(** One or two scales: with the vectors of scale [j] in the [j]-th block (one per iteration plus the
    initial one), the call reconstructs every vector with the model of its scale, in order, once. *)
Theorem c17_reconstructions_partial : forall M C I (instance : M -> C -> res I) ms blocks n_iters out,
  length blocks <= 2 -> length blocks <= length ms ->
  n_iters = map (fun b => length b - 1) blocks -> Forall (fun b => 1 <= length b) blocks ->
  (appearance_reconstructions instance ms (concat blocks) n_iters = Ok out <-> reconstructs instance ms blocks out).
Proof.
  intros M C I instance ms blocks n_iters out H2 Hm -> Hb.
  destruct blocks as [|b0 [|b1 [|b2 r]]]; [| | |cbn in H2; lia].
  - cbn. split; [intros H; assert (out = []) by congruence; subst; constructor|]. inversion 1. reflexivity.
  - destruct ms as [|m0 ms]; [cbn in Hm; lia|]. inversion Hb as [|? ? Hb0 _]; subst.
    unfold appearance_reconstructions. cbn [map recon_loop concat]. unfold recon_scale. cbn [nth_error].
    replace (length b0 - 1 + 1) with (length b0) by lia.
    pose proof (slice_block [] b0 []) as Hs. cbn [length app] in Hs. rewrite Hs.
    change (fun c => instance m0 c) with (instance m0).
    split.
    + intros H. destruct (mapM (instance m0) b0) as [o|] eqn:E; [|discriminate]. cbn [bind] in H.
      assert (out = o ++ []) by congruence. subst. constructor; [apply mapM_Forall2; exact E|constructor].
    + inversion 1 as [|? ? ? ? o os HF Hr]; subst. inversion Hr; subst. apply (mapM_Forall2 (instance m0)) in HF. rewrite HF. reflexivity.
  - destruct ms as [|m0 [|m1 ms]]; [cbn in Hm; lia|cbn in Hm; lia|]. inversion Hb as [|? ? Hb0 Hb']; subst. inversion Hb' as [|? ? Hb1 _]; subst.
    unfold appearance_reconstructions. cbn [map recon_loop concat]. unfold recon_scale. cbn [nth_error].
    replace (length b0 - 1 + 1) with (length b0) by lia. replace (length b1 - 1 + 1) with (length b1) by lia.
    pose proof (slice_block [] b0 (b1 ++ [])) as Hs. cbn [length app] in Hs. rewrite Hs, slice_block.
    change (fun c => instance m0 c) with (instance m0). change (fun c => instance m1 c) with (instance m1).
    split.
    + intros H. destruct (mapM (instance m0) b0) as [o|] eqn:E; [|discriminate]. cbn [bind] in H.
      destruct (mapM (instance m1) b1) as [o1|] eqn:E1; [|discriminate]. cbn [bind] in H.
      assert (out = o ++ o1 ++ []) by congruence. subst. constructor; [apply mapM_Forall2; exact E|].
      constructor; [apply mapM_Forall2; exact E1|constructor].
    + inversion 1 as [|? ? ? ? o os HF Hr]; subst. inversion Hr as [|? ? ? ? o1 os1 HF1 Hr1]; subst. inversion Hr1; subst.
      apply (mapM_Forall2 (instance m0)) in HF. apply (mapM_Forall2 (instance m1)) in HF1. rewrite HF, HF1. reflexivity.
Qed.
Print Assumptions c17_reconstructions_partial.
Example c17_reconstructions_ex :
  appearance_reconstructions (fun m c : nat => Ok (m, c)) [100; 200] (concat [[1; 2; 3]; [4; 5]]) [2; 1]
  = Ok [(100, 1); (100, 2); (100, 3); (200, 4); (200, 5)] /\
  reconstructs (fun m c : nat => Ok (m, c)) [100; 200] [[1; 2; 3]; [4; 5]] [(100, 1); (100, 2); (100, 3); (200, 4); (200, 5)].
Proof.
  split; [reflexivity|].
  apply (rec_cons _ 100 [200] [1; 2; 3] [[4; 5]] [(100, 1); (100, 2); (100, 3)] [(200, 4); (200, 5)]); [repeat constructor|].
  apply (rec_cons _ 200 [] [4; 5] [] [(200, 4); (200, 5)] []); [repeat constructor|constructor].
Qed.

(** Three scales or more: the third scale is reconstructed from the wrong vectors, whatever the numbers
    of iterations.  The item that should be the first vector of the third scale is vector
    [length b1] of the sequence instead of vector [length b0 + length b1]. *)
Theorem c17_third_scale_refuted : forall M C I (instance : M -> C -> I) m0 m1 m2 ms b0 b1 b2 bs out,
  1 <= length b0 -> 1 <= length b1 -> 1 <= length b2 ->
  appearance_reconstructions (fun m c => Ok (instance m c)) (m0 :: m1 :: m2 :: ms) (concat (b0 :: b1 :: b2 :: bs))
    (map (fun b => length b - 1) (b0 :: b1 :: b2 :: bs)) = Ok out ->
  nth_error out (length b0 + length b1) = option_map (instance m2) (nth_error (concat (b0 :: b1 :: b2 :: bs)) (length b1)).
Proof.
  intros M C I instance m0 m1 m2 ms b0 b1 b2 bs out H0 H1 H2 H.
  unfold appearance_reconstructions in H. cbn [map] in H.
  replace (concat (b0 :: b1 :: b2 :: bs)) with (b0 ++ b1 ++ (b2 ++ concat bs)) in * by reflexivity.
  set (cs := b0 ++ b1 ++ b2 ++ concat bs) in *. cbn [recon_loop] in H. unfold recon_scale in H at 1 2 3. cbn [nth_error] in H.
  replace (length b0 - 1 + 1) with (length b0) in H by lia. replace (length b1 - 1 + 1) with (length b1) in H by lia.
  replace (length b2 - 1 + 1) with (length b2) in H by lia.
  assert (HM : forall (g : C -> I) l, mapM (fun c => Ok (g c)) l = Ok (map g l)).
  { intros g l. induction l as [|x l IH]; [reflexivity|]. cbn [mapM bind map]. rewrite IH. reflexivity. }
  rewrite !HM in H. cbn [bind] in H.
  destruct (recon_loop (fun m c => Ok (instance m c)) (m0 :: m1 :: m2 :: ms) cs (length b2) 3 (map (fun b => length b - 1) bs)) as [rest|] eqn:E; [|discriminate].
  cbn [bind] in H.
  pose proof (slice_block [] b0 (b1 ++ b2 ++ concat bs)) as Hs0. cbn [length app] in Hs0. fold cs in Hs0.
  pose proof (slice_block b0 b1 (b2 ++ concat bs)) as Hs1. fold cs in Hs1. rewrite Hs0, Hs1 in H.
  assert (Ho : out = map (instance m0) b0 ++ map (instance m1) b1 ++ map (instance m2) (slice (length b1) (length b2) cs) ++ rest) by congruence.
  rewrite Ho. rewrite nth_error_app2 by (rewrite map_length; lia). rewrite map_length.
  rewrite nth_error_app2 by (rewrite map_length; lia). rewrite map_length.
  replace (length b0 + length b1 - length b0 - length b1) with 0 by lia.
  assert (Hlen : length b1 < length cs) by (unfold cs; rewrite !app_length; lia).
  destruct (nth_error cs (length b1)) as [c|] eqn:Ec; [|apply nth_error_None in Ec; lia].
  unfold slice. assert (Hsk : exists t, skipn (length b1) cs = c :: t).
  { destruct (skipn (length b1) cs) as [|x t] eqn:Es.
    - assert (L : length (skipn (length b1) cs) = 0) by (rewrite Es; reflexivity). rewrite skipn_length in L. lia.
    - exists t. f_equal. rewrite <- (firstn_skipn (length b1) cs) in Ec. rewrite nth_error_app2 in Ec by (rewrite firstn_length; lia).
      rewrite firstn_length in Ec. replace (length b1 - min (length b1) (length cs)) with 0 in Ec by lia. rewrite Es in Ec. cbn in Ec. congruence. }
  destruct Hsk as [t ->]. destruct (length b2) as [|n] eqn:E2; [lia|]. reflexivity.
Qed.
Print Assumptions c17_third_scale_refuted.
(** A concrete case: the two vectors of the third scale are never used; a vector of the second is
    reconstructed by the model of the third. *)
Example c17_third_scale_ex :
  appearance_reconstructions (fun m c : nat => Ok (m, c)) [100; 200; 300] (concat [[1; 2]; [3; 4]; [5; 6]]) [1; 1; 1]
  = Ok [(100, 1); (100, 2); (200, 3); (200, 4); (300, 3); (300, 4)].
Proof. reflexivity. Qed.
